(** Specification vocabulary for the quad-precision properties: IEEE binary64
    (Flocq) as the C type [double], the number a pair stands for, and
    normalised pairs.  The instance [FOpsB64] says which operation of binary64
    each C operator is (round to nearest, ties to even, gradual underflow,
    infinities and NaN). *)
From Coq Require Import ZArith Reals Bool.
From Flocq Require Import Core BinarySingleNaN.
From Verif Require Import Quad.
Open Scope R_scope.

Definition Hprec64 : Prec_gt_0 53 := eq_refl.
Definition Hmax64 : Prec_lt_emax 53 1024 := eq_refl.
#[export] Existing Instance Hprec64.
#[export] Existing Instance Hmax64.

(** The values of a C [double]. *)
Notation b64 := (binary_float 53 1024) (only parsing).

(** The double nearest to m * 2^e. *)
Definition b64_of (m e : Z) : b64 := binary_normalize 53 1024 _ _ mode_NE m e false.

#[export] Instance FOpsB64 : FOps b64 := {
  fadd := Bplus mode_NE;
  fsub := Bminus mode_NE;
  fmul := Bmult mode_NE;
  fdiv := Bdiv mode_NE;
  ffma := Bfma mode_NE;
  fopp := Bopp;
  fsqrt := Bsqrt mode_NE;
  feqb := Beqb;
  fltb := Bltb;
  f0 := b64_of 0 0; f1 := b64_of 1 0; f2 := b64_of 2 0; fhalf := b64_of 1 (-1);
  fsplit := b64_of 134217729 0 }.

(** The real number a double is (0 for infinities and NaN). *)
Definition real (x : b64) : R := B2R x.
Definition finite (x : b64) : Prop := is_finite x = true.

(** The double nearest to a real number (as a real number, ignoring overflow). *)
Definition nearest (x : R) : R := round radix2 (FLT_exp (-1074) 53) ZnearestE x.

(** A pair (hi, lo) stands for the number hi + lo; it is normalised when hi
    is the double nearest to that number. *)
Definition val (q : b64 * b64) : R := real (fst q) + real (snd q).
Definition fin (q : b64 * b64) : Prop := finite (fst q) /\ finite (snd q).
Definition normal (q : b64 * b64) : Prop := fin q /\ real (fst q) = nearest (val q).

(** A number with at most 26 significant bits. *)
Definition fits26 (x : R) : Prop := exists m e : Z, (Z.abs m < 2 ^ 26)%Z /\ x = IZR m * bpow radix2 e.

(** Build variants.  The SSE2 macros do not depend on HAS_FMA. *)
Definition no_fma (g : qcfg) : Prop := q_sse2 g = true \/ q_fma g = false.
Definition g_scalar_acc : qcfg := {| q_sse2 := false; q_fast_add := false; q_fma := false |}.
Definition g_scalar : qcfg := {| q_sse2 := false; q_fast_add := true; q_fma := false |}.
Definition g_sse2 : qcfg := {| q_sse2 := true; q_fast_add := true; q_fma := false |}.
Definition g_fma : qcfg := {| q_sse2 := false; q_fast_add := true; q_fma := true |}.

