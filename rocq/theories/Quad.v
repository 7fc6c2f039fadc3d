(** Model of the double-double ("quad") arithmetic of Lis:
    include/lis_precision.h (macros) and src/precision/lis_precision.c.

    The macros are written once over an arbitrary set of floating-point
    operations [FOps F] (the C type [double] and its operators); file
    QuadB64.v instantiates them with IEEE binary64.  Every intermediate C
    variable of a macro is a [let] of the same name; where a macro assigns a
    variable twice the second binding shadows the first, as in C.

    Simplifications: one statement of C = one rounded operation (no x87
    extra precision: lis_quad_x87_fpu_init, lis_precision.c:56-90, is what
    the library uses to get that on x87; and no contraction by the compiler
    except in the HAS_FMA variant, where [a*b+r] is the fused operation).
    A pair [(hi,lo)] stands for a LIS_QUAD or for elements of two arrays
    [value], [value_lo]; results are stored after all operands were read,
    so a destination may be one of the operands.  *)
From Coq Require Import ZArith List Bool.
From Verif Require Import Base.
Import ListNotations.

Class FOps (F : Type) := {
  fadd : F -> F -> F;
  fsub : F -> F -> F;
  fmul : F -> F -> F;
  fdiv : F -> F -> F;
  ffma : F -> F -> F -> F;
  fopp : F -> F;
  fsqrt : F -> F;
  feqb : F -> F -> bool;
  fltb : F -> F -> bool;
  f0 : F;
  f1 : F;
  f2 : F;
  fhalf : F;
  fsplit : F        (* SPLITTER 134217729.0, lis_precision.h:35 *)
}.

(** Build options that select among the macro variants
    (configure: --enable-sse2, USE_FAST_QUAD_ADD, --enable-fma). *)
Record qcfg := { q_sse2 : bool; q_fast_add : bool; q_fma : bool }.

Section QUAD.
Context {F : Type} {O : FOps F}.

Definition quad : Type := (F * F)%type.

(** LIS_QUAD_FAST_TWO_SUM, lis_precision.h:84-86. *)
Definition fast_two_sum (a b : F) : quad :=
  let r := fadd a b in
  let e := fsub b (fsub r a) in
  (r, e).

(** LIS_QUAD_TWO_SUM, lis_precision.h:94-97. *)
Definition two_sum (a b : F) : quad :=
  let r := fadd a b in
  let th := fsub r a in
  let e := fadd (fsub a (fsub r th)) (fsub b th) in
  (r, e).

(** LIS_QUAD_TWO_DIFF, lis_precision.h:105-108. *)
Definition two_diff (a b : F) : quad :=
  let r := fsub a b in
  let th := fsub r a in
  let e := fsub (fsub a (fsub r th)) (fadd b th) in
  (r, e).

(** LIS_QUAD_SPLIT, lis_precision.h:116-119. *)
Definition split (b : F) : quad :=
  let tq := fmul fsplit b in
  let b_hi := fsub tq (fsub tq b) in
  let b_lo := fsub b b_hi in
  (b_hi, b_lo).

(** LIS_QUAD_TWO_PROD without HAS_FMA, lis_precision.h:128-132. *)
Definition two_prod (a b : F) : quad :=
  let r := fmul a b in
  let '(bhi, blo) := split a in
  let '(chi, clo) := split b in
  let e := fadd (fadd (fadd (fsub (fmul bhi chi) r) (fmul bhi clo)) (fmul blo chi)) (fmul blo clo) in
  (r, e).

(** LIS_QUAD_TWO_PROD with HAS_FMA, lis_precision.h:134-136. *)
Definition two_prod_fma (a b : F) : quad :=
  let r := fmul (fopp a) b in
  let e := ffma a b r in
  (r, e).

(** LIS_QUAD_TWO_SQR without HAS_FMA, lis_precision.h:146-149. *)
Definition two_sqr (a : F) : quad :=
  let r := fmul a a in
  let '(bhi, blo) := split a in
  let e := fadd (fadd (fsub (fmul bhi bhi) r) (fmul (fmul f2 bhi) blo)) (fmul blo blo) in
  (r, e).

(** LIS_QUAD_TWO_SQR with HAS_FMA, lis_precision.h:151-153. *)
Definition two_sqr_fma (a : F) : quad :=
  let r := fmul (fopp a) a in
  let e := ffma a a r in
  (r, e).

Definition TWO_PROD (fma : bool) : F -> F -> quad := if fma then two_prod_fma else two_prod.
Definition TWO_SQR (fma : bool) : F -> quad := if fma then two_sqr_fma else two_sqr.

(** LIS_QUAD_MUL, lis_precision.h:162-166. *)
Definition quad_mul (fma : bool) (b c : quad) : quad :=
  let '(b_hi, b_lo) := b in
  let '(c_hi, c_lo) := c in
  let '(p1, p2) := TWO_PROD fma b_hi c_hi in
  let p2 := fadd p2 (fmul b_hi c_lo) in
  let p2 := fadd p2 (fmul b_lo c_hi) in
  fast_two_sum p1 p2.

(** LIS_QUAD_MULD, lis_precision.h:174-177. *)
Definition quad_muld (fma : bool) (b : quad) (c : F) : quad :=
  let '(b_hi, b_lo) := b in
  let '(p1, p2) := TWO_PROD fma b_hi c in
  let p2 := fadd p2 (fmul b_lo c) in
  fast_two_sum p1 p2.

(** LIS_QUAD_SQR, lis_precision.h:185-189. *)
Definition quad_sqr (fma : bool) (b : quad) : quad :=
  let '(b_hi, b_lo) := b in
  let '(p1, p2) := TWO_SQR fma b_hi in
  let p2 := fadd p2 (fmul (fmul f2 b_hi) b_lo) in
  let p2 := fadd p2 (fmul b_lo b_lo) in
  fast_two_sum p1 p2.

(** LIS_QUAD_ADD with USE_FAST_QUAD_ADD, lis_precision.h:206-210. *)
Definition quad_add_fast (b c : quad) : quad :=
  let '(b_hi, b_lo) := b in
  let '(c_hi, c_lo) := c in
  let '(sh, eh) := two_sum b_hi c_hi in
  let eh := fadd eh b_lo in
  let eh := fadd eh c_lo in
  fast_two_sum sh eh.

(** LIS_QUAD_ADD without USE_FAST_QUAD_ADD, lis_precision.h:198-204.  The
    inner LIS_QUAD_FAST_TWO_SUM(sh,eh,sh,eh) has its results as operands:
    expanded, it is  sh = sh + eh;  eh = eh - (sh - sh)  with the new sh. *)
Definition quad_add_acc (b c : quad) : quad :=
  let '(b_hi, b_lo) := b in
  let '(c_hi, c_lo) := c in
  let '(sh, eh) := two_sum b_hi c_hi in
  let '(sl, el) := two_sum b_lo c_lo in
  let eh := fadd eh sl in
  let sh := fadd sh eh in
  let eh := fsub eh (fsub sh sh) in
  let eh := fadd eh el in
  fast_two_sum sh eh.

Definition QUAD_ADD (fast : bool) : quad -> quad -> quad :=
  if fast then quad_add_fast else quad_add_acc.

(** LIS_QUAD_DIV, lis_precision.h:219-226. *)
Definition quad_div (fma : bool) (b c : quad) : quad :=
  let '(b_hi, b_lo) := b in
  let '(c_hi, c_lo) := c in
  let tl := fdiv b_hi c_hi in
  let '(eh, el) := quad_muld fma (c_hi, c_lo) tl in
  let '(sh, sl) := two_diff b_hi eh in
  let sl := fsub sl el in
  let sl := fadd sl b_lo in
  let th := fdiv (fadd sh sl) c_hi in
  fast_two_sum tl th.

(** LIS_QUAD_SQRT, lis_precision.h:234-252; [None]: the macro returns
    LIS_FAILS from the enclosing function after storing (0,0). *)
Definition quad_sqrt_core (fast fma : bool) (b : quad) : quad :=
  let '(b_hi, b_lo) := b in
  let p1 := fdiv f1 (fsqrt b_hi) in
  let p2 := fmul b_hi p1 in
  let p1 := fmul p1 fhalf in
  let '(chi, clo) := TWO_SQR fma p2 in
  let '(th, eh) := QUAD_ADD fast (b_hi, b_lo) (fopp chi, fopp clo) in
  let p1 := fmul p1 th in
  fast_two_sum p1 p2.

(** LIS_QUAD_FMA, lis_precision.h:260-262: d <- a + b*c. *)
Definition quad_fma (fast fma : bool) (a b c : quad) : quad :=
  QUAD_ADD fast a (quad_mul fma b c).

(** LIS_QUAD_FMAD, lis_precision.h:270-272: d <- a + b*c, c a double. *)
Definition quad_fmad (fast fma : bool) (a b : quad) (c : F) : quad :=
  QUAD_ADD fast a (quad_muld fma b c).

(** LIS_QUAD_FSA, lis_precision.h:280-282: d <- a + b*b. *)
Definition quad_fsa (fast fma : bool) (a b : quad) : quad :=
  QUAD_ADD fast a (quad_sqr fma b).

(** * SSE2, one number at a time (SD), lis_precision.h:284-676.
    A register is a pair (low lane, high lane). *)
Definition reg : Type := (F * F)%type.
Definition set_pd (hi lo : F) : reg := (lo, hi).
Definition set_sd (x : F) : reg := (x, f0).
Definition op_sd (op : F -> F -> F) (a b : reg) : reg := (op (fst a) (fst b), snd a).
Definition op_pd (op : F -> F -> F) (a b : reg) : reg := (op (fst a) (fst b), op (snd a) (snd b)).
Definition unpackhi_pd (a b : reg) : reg := (snd a, snd b).
Definition unpacklo_pd (a b : reg) : reg := (fst a, fst b).
Definition move_sd (a b : reg) : reg := (fst b, snd a).
Definition add_sd := op_sd fadd.
Definition sub_sd := op_sd fsub.
Definition mul_sd := op_sd fmul.
Definition div_sd := op_sd fdiv.
Definition add_pd := op_pd fadd.
Definition sub_pd := op_pd fsub.
Definition mul_pd := op_pd fmul.
Definition sqrt_pd (a : reg) : reg := (fsqrt (fst a), fsqrt (snd a)).

(** LIS_QUAD_MUL_SSE2_CORE, lis_precision.h:346-371: the registers (sh, bh, wh). *)
Definition mul_sse2_core (b_hi b_lo c_hi c_lo : F) : reg * reg * reg :=
  let sh := set_pd fsplit fsplit in
  let ch := set_pd c_hi b_hi in
  let bh := unpackhi_pd ch ch in
  let tl := set_pd b_lo c_lo in
  let bh := mul_sd bh ch in
  let sh := mul_pd sh ch in
  let th := sub_pd sh ch in
  let sh := sub_pd sh th in
  let th := mul_pd ch tl in
  let ch := sub_pd ch sh in
  let eh := unpackhi_pd sh ch in
  let wh := unpacklo_pd sh ch in
  let ch := unpackhi_pd ch wh in
  let wh := mul_pd wh eh in
  let sh := mul_pd sh ch in
  let ch := unpackhi_pd sh sh in
  let tl := unpackhi_pd wh wh in
  let eh := unpackhi_pd th th in
  let wh := sub_sd wh bh in
  let wh := add_sd wh ch in
  let wh := add_sd wh sh in
  let wh := add_sd wh tl in
  let wh := add_sd wh eh in
  let wh := add_sd wh th in
  let sh := add_sd wh bh in
  (sh, bh, wh).

(** LIS_QUAD_MULD_SSE2_CORE, lis_precision.h:379-402. *)
Definition muld_sse2_core (b_hi b_lo c : F) : reg * reg * reg :=
  let sh := set_pd fsplit fsplit in
  let ch := set_pd b_hi c in
  let bh := unpackhi_pd ch ch in
  let sl := set_sd b_lo in
  let bh := mul_sd bh ch in
  let sl := mul_sd sl ch in
  let sh := mul_pd sh ch in
  let th := sub_pd sh ch in
  let sh := sub_pd sh th in
  let ch := sub_pd ch sh in
  let t1 := unpackhi_pd sh ch in
  let wh := unpacklo_pd sh ch in
  let ch := unpackhi_pd ch wh in
  let wh := mul_pd wh t1 in
  let sh := mul_pd sh ch in
  let ch := unpackhi_pd sh sh in
  let th := unpackhi_pd wh wh in
  let wh := sub_sd wh bh in
  let wh := add_sd wh ch in
  let wh := add_sd wh sh in
  let wh := add_sd wh th in
  let wh := add_sd wh sl in
  let sh := add_sd wh bh in
  (sh, bh, wh).

(** LIS_QUAD_SQR_SSE2_CORE, lis_precision.h:410-431. *)
Definition sqr_sse2_core (b_hi b_lo : F) : reg * reg * reg :=
  let sh := set_sd fsplit in
  let th := set_sd b_hi in
  let bl := set_sd b_lo in
  let bh := mul_sd th th in
  let sh := mul_sd sh th in
  let wh := sub_sd sh th in
  let sh := sub_sd sh wh in
  let cl := sub_sd th sh in
  let wh := mul_sd sh sh in
  let sh := add_sd sh sh in
  let sh := mul_sd sh cl in
  let cl := mul_sd cl cl in
  let wh := sub_sd wh bh in
  let wh := add_sd wh sh in
  let wh := add_sd wh cl in
  let th := add_sd th th in
  let th := mul_sd th bl in
  let bl := mul_sd bl bl in
  let wh := add_sd wh th in
  let wh := add_sd wh bl in
  let sh := add_sd wh bh in
  (sh, bh, wh).

(** LIS_QUAD_MUL_SSE2_STORE, lis_precision.h:296-300. *)
Definition mul_sse2_store (k : reg * reg * reg) : quad :=
  let '(sh, bh, wh) := k in
  let a_hi := fst sh in
  let sh := sub_sd sh bh in
  let wh := sub_sd wh sh in
  let a_lo := fst wh in
  (a_hi, a_lo).

(** LIS_QUAD_MUL_SSE2 / MULD / SQR, lis_precision.h:483-505. *)
Definition quad_mul_sse2 (b c : quad) : quad :=
  mul_sse2_store (mul_sse2_core (fst b) (snd b) (fst c) (snd c)).
Definition quad_muld_sse2 (b : quad) (c : F) : quad :=
  mul_sse2_store (muld_sse2_core (fst b) (snd b) c).
Definition quad_sqr_sse2 (b : quad) : quad :=
  mul_sse2_store (sqr_sse2_core (fst b) (snd b)).

(** LIS_QUAD_ADD_SSE2_CORE with USE_FAST_QUAD_ADD, lis_precision.h:461-475,
    from the registers (eh, cl, sh, wh). *)
Definition add_sse2_fast_core (eh cl sh wh : reg) : quad :=
  let bl := add_sd eh sh in
  let th := sub_sd bl eh in
  let t0 := sub_sd bl th in
  let sh := sub_sd sh th in
  let eh := sub_sd eh t0 in
  let eh := add_sd eh sh in
  let eh := add_sd eh cl in
  let eh := add_sd eh wh in
  let th := add_sd bl eh in
  let a_hi := fst th in
  let th := sub_sd th bl in
  let eh := sub_sd eh th in
  let a_lo := fst eh in
  (a_hi, a_lo).

(** LIS_QUAD_ADD_SSE2_CORE without USE_FAST_QUAD_ADD, lis_precision.h:440-459,
    from the registers (sh, bl). *)
Definition add_sse2_acc_core (sh bl : reg) : quad :=
  let t0 := add_pd bl sh in
  let eh := sub_pd t0 bl in
  let th := sub_pd t0 eh in
  let sh := sub_pd sh eh in
  let bl := sub_pd bl th in
  let bl := add_pd bl sh in
  let eh := unpackhi_pd bl bl in
  let sh := unpackhi_pd t0 t0 in
  let th := t0 in
  let bl := add_sd bl sh in
  let th := add_sd th bl in
  let t0 := sub_sd th t0 in
  let bl := sub_sd bl t0 in
  let bl := add_sd bl eh in
  let sh := add_sd th bl in
  let a_hi := fst sh in
  let sh := sub_sd sh th in
  let bl := sub_sd bl sh in
  let a_lo := fst bl in
  (a_hi, a_lo).

(** LIS_QUAD_ADD_SSE2 = LOAD (lis_precision.h:309-318) + CORE, 513-515. *)
Definition quad_add_sse2 (fast : bool) (b c : quad) : quad :=
  if fast
  then add_sse2_fast_core (set_sd (fst b)) (set_sd (snd b)) (set_sd (fst c)) (set_sd (snd c))
  else add_sse2_acc_core (set_pd (snd b) (fst b)) (set_pd (snd c) (fst c)).

(** LIS_QUAD_FMA_SSE2_LOAD (lis_precision.h:327-338) + ADD CORE, after one of
    the product cores, as in LIS_QUAD_FMA_SSE2 / FMAD_SSE2 / FSA_SSE2, 651-676. *)
Definition fma_sse2_tail (fast : bool) (k : reg * reg * reg) (a : quad) : quad :=
  let '(sh, bh, wh) := k in
  let th := sub_sd sh bh in
  let wh := sub_sd wh th in
  if fast
  then add_sse2_fast_core (set_sd (fst a)) (set_sd (snd a)) sh wh
  else let bl := set_pd (snd a) (fst a) in
       let sh := unpacklo_pd sh wh in
       add_sse2_acc_core sh bl.
Definition quad_fma_sse2 (fast : bool) (a b c : quad) : quad :=
  fma_sse2_tail fast (mul_sse2_core (fst b) (snd b) (fst c) (snd c)) a.
Definition quad_fmad_sse2 (fast : bool) (a b : quad) (c : F) : quad :=
  fma_sse2_tail fast (muld_sse2_core (fst b) (snd b) c) a.
Definition quad_fsa_sse2 (fast : bool) (a b : quad) : quad :=
  fma_sse2_tail fast (sqr_sse2_core (fst b) (snd b)) a.

(** LIS_QUAD_DIV_SSE2, lis_precision.h:523-581. *)
Definition quad_div_sse2 (b c : quad) : quad :=
  let sh := set_pd fsplit fsplit in
  let bh := set_pd (snd b) (fst b) in
  let ch := set_pd (snd c) (fst c) in
  let p2 := bh in
  let wh := ch in
  let p2 := div_sd p2 ch in
  let wh := unpacklo_pd wh p2 in
  let ch := move_sd ch p2 in
  let p2 := wh in
  let sh := mul_pd sh wh in
  let th := sub_pd sh wh in
  let sh := sub_pd sh th in
  let ch := mul_pd ch wh in
  let wh := sub_pd wh sh in
  let th := sh in
  let p1 := wh in
  let th := unpackhi_pd th th in
  let p1 := unpackhi_pd p1 p1 in
  let eh := th in
  let th := mul_sd th wh in
  let eh := mul_sd eh sh in
  let wh := mul_sd wh p1 in
  let sh := mul_sd sh p1 in
  let p1 := ch in
  let p1 := unpackhi_pd p1 p1 in
  let eh := sub_sd eh ch in
  let eh := add_sd eh sh in
  let eh := add_sd eh th in
  let eh := add_sd eh wh in
  let eh := add_sd eh p1 in
  let p1 := ch in
  let p1 := add_sd p1 eh in
  let wh := p1 in
  let wh := sub_sd wh ch in
  let sh := bh in
  let sh := sub_sd sh p1 in
  let eh := sub_sd eh wh in
  let th := sh in
  let th := sub_sd th bh in
  let p1 := add_sd p1 th in
  let wh := sh in
  let wh := sub_sd wh th in
  let th := bh in
  let th := unpackhi_pd th th in
  let bh := sub_sd bh wh in
  let bh := sub_sd bh p1 in
  let bh := sub_sd bh eh in
  let bh := add_sd bh th in
  let th := p2 in
  let th := unpackhi_pd th th in
  let eh := th in
  let sh := add_sd sh bh in
  let sh := div_sd sh p2 in
  let th := add_sd th sh in
  let a_hi := fst th in
  let th := sub_sd th eh in
  let sh := sub_sd sh th in
  let a_lo := fst sh in
  (a_hi, a_lo).

(** LIS_QUAD_SQRT_SSE2, lis_precision.h:589-643, after the tests on b_hi;
    [_mm_load_pd(&b_hi)] reads b_lo from the next double, which is where
    LIS_QUAD keeps it. *)
Definition quad_sqrt_sse2_core (b : quad) : quad :=
  let wh := set_sd fsplit in
  let bh := b in
  let t0 := set_sd f1 in
  let t1 := set_sd fhalf in
  let t2 := sqrt_pd bh in
  let t0 := div_sd t0 t2 in
  let t2 := mul_sd bh t0 in
  let t0 := mul_sd t0 t1 in
  let p1 := mul_sd t2 t2 in
  let wh := mul_sd wh t2 in
  let t1 := sub_sd wh t2 in
  let wh := sub_sd wh t1 in
  let wl := sub_sd t2 wh in
  let t1 := mul_sd wh wh in
  let wh := add_sd wh wh in
  let wh := mul_sd wh wl in
  let wl := mul_sd wl wl in
  let t1 := sub_sd t1 p1 in
  let t1 := add_sd t1 wh in
  let t1 := add_sd t1 wl in
  let p1 := unpacklo_pd p1 t1 in
  let sh := sub_pd bh p1 in
  let eh := sub_pd sh bh in
  let th := sub_pd sh eh in
  let p1 := add_pd p1 eh in
  let bh := sub_pd bh th in
  let bh := sub_pd bh p1 in
  let eh := unpackhi_pd bh bh in
  let ch := unpackhi_pd sh sh in
  let th := sh in
  let bh := add_sd bh ch in
  let th := add_sd th bh in
  let sh := sub_sd th sh in
  let bh := sub_sd bh sh in
  let bh := add_sd bh eh in
  let th := add_sd th bh in
  let t0 := mul_sd t0 th in
  let p1 := add_sd t2 t0 in
  let a_hi := fst p1 in
  let p1 := sub_sd p1 t2 in
  let t0 := sub_sd t0 p1 in
  let a_lo := fst t0 in
  (a_hi, a_lo).

(** * SSE2, two numbers at a time (PD), lis_precision.h:678-1022. *)

(** LIS_QUAD_MUL2_SSE2_CORE, lis_precision.h:802-824: registers (ch, p1, p2). *)
Definition mul2_sse2_core (bh bl ch cl : reg) : reg * reg * reg :=
  let t0 := set_pd fsplit fsplit in
  let p1 := mul_pd bh ch in
  let sh := mul_pd t0 bh in
  let sl := mul_pd t0 ch in
  let th := sub_pd sh bh in
  let tl := sub_pd sl ch in
  let sh := sub_pd sh th in
  let sl := sub_pd sl tl in
  let t1 := mul_pd bh cl in
  let wh := sub_pd bh sh in
  let t2 := mul_pd ch bl in
  let wl := sub_pd ch sl in
  let t0 := mul_pd wh wl in
  let p2 := mul_pd sh sl in
  let sh := mul_pd sh wl in
  let sl := mul_pd sl wh in
  let p2 := sub_pd p2 p1 in
  let p2 := add_pd p2 sh in
  let p2 := add_pd p2 sl in
  let p2 := add_pd p2 t0 in
  let p2 := add_pd p2 t1 in
  let p2 := add_pd p2 t2 in
  let ch := add_pd p1 p2 in
  (ch, p1, p2).

(** LIS_QUAD_MULD2_SSE2_CORE, lis_precision.h:832-852. *)
Definition muld2_sse2_core (bh bl ch : reg) : reg * reg * reg :=
  let t0 := set_pd fsplit fsplit in
  let p1 := mul_pd bh ch in
  let bl := mul_pd bl ch in
  let sh := mul_pd t0 bh in
  let th := sub_pd sh bh in
  let sh := sub_pd sh th in
  let bh := sub_pd bh sh in
  let sl := mul_pd t0 ch in
  let tl := sub_pd sl ch in
  let sl := sub_pd sl tl in
  let ch := sub_pd ch sl in
  let t2 := mul_pd bh ch in
  let p2 := mul_pd sh sl in
  let t0 := mul_pd sh ch in
  let t1 := mul_pd sl bh in
  let p2 := sub_pd p2 p1 in
  let p2 := add_pd p2 t0 in
  let p2 := add_pd p2 t1 in
  let p2 := add_pd p2 t2 in
  let p2 := add_pd p2 bl in
  let ch := add_pd p1 p2 in
  (ch, p1, p2).

(** LIS_QUAD_SQR2_SSE2_CORE, lis_precision.h:860-878. *)
Definition sqr2_sse2_core (bh bl : reg) : reg * reg * reg :=
  let ch := set_pd fsplit fsplit in
  let p1 := mul_pd bh bh in
  let ch := mul_pd ch bh in
  let p2 := sub_pd ch bh in
  let ch := sub_pd ch p2 in
  let cl := sub_pd bh ch in
  let p2 := mul_pd ch ch in
  let ch := add_pd ch ch in
  let ch := mul_pd ch cl in
  let cl := mul_pd cl cl in
  let p2 := sub_pd p2 p1 in
  let p2 := add_pd p2 ch in
  let p2 := add_pd p2 cl in
  let bh := add_pd bh bh in
  let bh := mul_pd bh bl in
  let bl := mul_pd bl bl in
  let p2 := add_pd p2 bh in
  let p2 := add_pd p2 bl in
  let ch := add_pd p1 p2 in
  (ch, p1, p2).

(** LIS_QUAD_MUL2_SSE2_STORE, lis_precision.h:731-735: (hi register, lo register). *)
Definition mul2_sse2_store (k : reg * reg * reg) : reg * reg :=
  let '(ch, p1, p2) := k in
  let a_hi := ch in
  let ch := sub_pd ch p1 in
  let p2 := sub_pd p2 ch in
  (a_hi, p2).

(** LIS_QUAD_ADD2_SSE2_CORE with USE_FAST_QUAD_ADD, lis_precision.h:908-917,
    + LIS_QUAD_ADD2_SSE2_STORE, 766-770. *)
Definition add2_sse2_fast (bh bl ch p2 : reg) : reg * reg :=
  let th := add_pd bh ch in
  let wh := sub_pd th bh in
  let t0 := sub_pd th wh in
  let ch := sub_pd ch wh in
  let bh := sub_pd bh t0 in
  let bh := add_pd bh ch in
  let bh := add_pd bh bl in
  let bh := add_pd bh p2 in
  let sh := add_pd th bh in
  let a_hi := sh in
  let sh := sub_pd sh th in
  let bh := sub_pd bh sh in
  (a_hi, bh).

(** LIS_QUAD_ADD2_SSE2_CORE without USE_FAST_QUAD_ADD, lis_precision.h:887-906,
    + STORE. *)
Definition add2_sse2_acc (bh bl ch p2 : reg) : reg * reg :=
  let sh := add_pd bh ch in
  let th := sub_pd sh bh in
  let t0 := sub_pd sh th in
  let ch := sub_pd ch th in
  let bh := sub_pd bh t0 in
  let bh := add_pd bh ch in
  let sl := add_pd bl p2 in
  let th := sub_pd sl bl in
  let t0 := sub_pd sl th in
  let p2 := sub_pd p2 th in
  let bl := sub_pd bl t0 in
  let bl := add_pd bl p2 in
  let bh := add_pd bh sl in
  let th := sh in
  let th := add_pd th bh in
  let sh := sub_pd th sh in
  let bh := sub_pd bh sh in
  let bh := add_pd bh bl in
  let sh := add_pd th bh in
  let a_hi := sh in
  let sh := sub_pd sh th in
  let bh := sub_pd bh sh in
  (a_hi, bh).

(** LIS_QUAD_FMA2_SSE2_LOAD (lis_precision.h:785-789) + ADD2 CORE + STORE
    after one of the product cores: LIS_QUAD_FMA2_SSE2 / FMAD2 / FSA2, 970-1020. *)
Definition fma2_sse2_tail (fast : bool) (k : reg * reg * reg) (ahi alo : reg) : reg * reg :=
  let '(ch, p1, p2) := k in
  let t1 := sub_pd ch p1 in
  let p2 := sub_pd p2 t1 in
  let bh := ahi in
  let bl := alo in
  if fast then add2_sse2_fast bh bl ch p2 else add2_sse2_acc bh bl ch p2.
Definition quad_mul2_sse2 (bhi blo chi clo : reg) : reg * reg :=
  mul2_sse2_store (mul2_sse2_core bhi blo chi clo).
Definition quad_muld2_sse2 (bhi blo c : reg) : reg * reg :=
  mul2_sse2_store (muld2_sse2_core bhi blo c).
Definition quad_sqr2_sse2 (bhi blo : reg) : reg * reg :=
  mul2_sse2_store (sqr2_sse2_core bhi blo).
Definition quad_fma2_sse2 (fast : bool) (ahi alo bhi blo chi clo : reg) : reg * reg :=
  fma2_sse2_tail fast (mul2_sse2_core bhi blo chi clo) ahi alo.
Definition quad_fmad2_sse2 (fast : bool) (ahi alo bhi blo c : reg) : reg * reg :=
  fma2_sse2_tail fast (muld2_sse2_core bhi blo c) ahi alo.
Definition quad_fsa2_sse2 (fast : bool) (ahi alo bhi blo : reg) : reg * reg :=
  fma2_sse2_tail fast (sqr2_sse2_core bhi blo) ahi alo.

(** * The exported functions, lis_precision.c:92-245. *)

(** lis_quad_minus, lis_precision.c:96-100. *)
Definition lis_quad_minus (a : quad) : quad := (fopp (fst a), fopp (snd a)).
(** lis_quad_zero, lis_quad_one, lis_precision.c:104-116. *)
Definition lis_quad_zero : quad := (f0, f0).
Definition lis_quad_one : quad := (f1, f0).
(** lis_quad_max, lis_precision.c:120-132 ([x > y] is [y < x]). *)
Definition lis_quad_max (a b : quad) : quad :=
  if fltb (fst b) (fst a) || (feqb (fst a) (fst b) && fltb (snd b) (snd a)) then a else b.
(** lis_quad_min, lis_precision.c:136-148. *)
Definition lis_quad_min (a b : quad) : quad :=
  if fltb (fst a) (fst b) || (feqb (fst a) (fst b) && fltb (snd a) (snd b)) then a else b.

(** lis_quad_add, lis_precision.c:154-163. *)
Definition lis_quad_add (g : qcfg) (b c : quad) : quad :=
  if q_sse2 g then quad_add_sse2 (q_fast_add g) b c else QUAD_ADD (q_fast_add g) b c.
(** lis_quad_sub, lis_precision.c:167-176. *)
Definition lis_quad_sub (g : qcfg) (b c : quad) : quad :=
  let mc := (fopp (fst c), fopp (snd c)) in
  if q_sse2 g then quad_add_sse2 (q_fast_add g) b mc else QUAD_ADD (q_fast_add g) b mc.
(** lis_quad_mul, lis_precision.c:181-190. *)
Definition lis_quad_mul (g : qcfg) (b c : quad) : quad :=
  if q_sse2 g then quad_mul_sse2 b c else quad_mul (q_fma g) b c.
(** lis_quad_mul_dd_d, lis_precision.c:194-203. *)
Definition lis_quad_mul_dd_d (g : qcfg) (b : quad) (c : F) : quad :=
  if q_sse2 g then quad_muld_sse2 b c else quad_muld (q_fma g) b c.
(** lis_quad_sqr, lis_precision.c:207-216. *)
Definition lis_quad_sqr (g : qcfg) (b : quad) : quad :=
  if q_sse2 g then quad_sqr_sse2 b else quad_sqr (q_fma g) b.
(** lis_quad_div, lis_precision.c:220-229. *)
Definition lis_quad_div (g : qcfg) (b c : quad) : quad :=
  if q_sse2 g then quad_div_sse2 b c else quad_div (q_fma g) b c.
(** lis_quad_sqrt, lis_precision.c:233-243 (LIS_FAILS = -1, lis.h): return code and result. *)
Definition LIS_FAILS : Z := (-1)%Z.
Definition lis_quad_sqrt (g : qcfg) (b : quad) : Z * quad :=
  if feqb (fst b) f0 || fltb (fst b) f0 then (LIS_FAILS, (f0, f0))
  else (LIS_SUCCESS,
        if q_sse2 g then quad_sqrt_sse2_core b else quad_sqrt_core (q_fast_add g) (q_fma g) b).

End QUAD.
