(** What dropping entries in an incomplete factorisation means (ILUT). *)
Require Import ZArith List Bool.
From Verif Require Import Base Scalar Spec SpecIlu.
Import ListNotations.
Open Scope Z_scope.

Section S.
Context {T : Type} {S : Scalar T}.

(** magnitudes can be compared *)
Definition total_order : Prop :=
  (forall x y : T, sleb x y = true \/ sleb y x = true) /\ (forall x y z : T, sleb x y = true -> sleb y z = true -> sleb x z = true).

(** [dropped small k e]: e is a sum of at most k terms, each of them [small] *)
Inductive dropped (small : T -> Prop) : Z -> T -> Prop :=
| dropped_0 : dropped small 0 s0
| dropped_keep k e : dropped small k e -> dropped small (k + 1) e
| dropped_drop k e v : dropped small k e -> small v -> dropped small (k + 1) (sadd e v).

(** mean of |a_ij| over the stored entries of row i inside the columns [lo,hi) *)
Definition row_mean (lo hi : Z) (E : list (entry T)) (i : Z) : T :=
  let row := filter (fun e => (erow e =? i) && ((lo <=? ecol e) && (ecol e <? hi))) E in
  sdiv (ssum (map (fun e => sabs (eval e)) row)) (ssum (map (fun _ => s1) row)).

(** v is below the drop tolerance of row i *)
Definition below_tol (tol : T) (lo hi : Z) (E : list (entry T)) (i : Z) (v : T) : Prop :=
  sleb (smul tol (row_mean lo hi E i)) (sabs v) = false.

(** the stored row (ix,v) consists of at most [lfil] of the columns [cols], with the values z *)
Definition kept_row (lfil : Z) (z : Z -> T) (cols ix : list Z) (v : list T) : Prop :=
  NoDup ix /\ incl ix cols /\ zlen ix = Z.min lfil (zlen cols) /\ v = map z ix.
(** no kept value is larger in magnitude than a discarded one *)
Definition keeps_smallest (z : Z -> T) (cols ix : list Z) : Prop :=
  forall c c', In c ix -> In c' cols -> ~ In c' ix -> sleb (sabs (z c)) (sabs (z c')) = true.

(** row i of the elimination: z holds the multipliers (columns < i), the pivot z i = d i and
    the new row of the upper factor (columns > i);  row i of A is recovered from z and the
    stored rows of the upper factor up to the dropped updates *)
Definition elimination_row (small : T -> Prop) (lo hi : Z) (A : Z -> T) (d : Z -> T) (U : list (list Z)) (Uv : list (list T)) (i : Z) (z : Z -> T) : Prop :=
  z i = d i /\
  ((forall k, lo <= k < i -> d k <> s0) -> forall c, lo <= c < hi -> exists e, dropped small (i - lo) e /\
    A c = sadd (sadd (ssum (map (fun k => smul (z k) (upper_with d U Uv k c)) (zrange lo i))) (if c <? i then s0 else z c)) e).

(** what one row of the ILUT factors is: the row z of the elimination has the stored columns
    [lc] (left of the diagonal) and [uc] (right of it), of which at most [lfil] each are kept *)
Definition ilut_row_spec (small : T -> Prop) (lfil lo hi : Z) (A : Z -> T) (d : Z -> T) (L : list (list Z)) (Lv : list (list T)) (U : list (list Z)) (Uv : list (list T)) (i : Z) : Prop :=
  exists z lc uc, elimination_row small lo hi A d U Uv i z /\
    NoDup lc /\ NoDup uc /\ (forall c, In c lc -> lo <= c < i) /\ (forall c, In c uc -> i < c < hi) /\
    (forall c, lo <= c < hi -> c <> i -> ~ In c lc -> ~ In c uc -> z c = s0) /\
    kept_row lfil z lc (znth [] L i) (znth [] Lv i) /\ kept_row lfil z uc (znth [] U i) (znth [] Uv i) /\
    keeps_smallest z lc (znth [] L i) /\ keeps_smallest z uc (znth [] U i).
End S.
Arguments total_order {T} S.
