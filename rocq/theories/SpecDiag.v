(** What diagonal extraction, shifting and scaling mean, over the entries of Spec.v. *)
Require Import ZArith List Bool.
From Verif Require Import Base Scalar Spec.
Import ListNotations.
Open Scope Z_scope.

Section S.
Context {T : Type} {S : Scalar T}.

(** x solves the n x n system with the coefficients of E and right-hand side b *)
Definition solves (n : Z) (E : list (entry T)) (b x : Z -> T) : Prop :=
  forall i, 0 <= i < n -> mv_spec E n x i = b i.

(** d holds the diagonal *)
Definition is_diagonal (n : Z) (E : list (entry T)) (d : list T) : Prop :=
  forall i, 0 <= i < n -> znth s0 d i = coef E i i.

(** E' is E minus sigma on the stored diagonal entries, nothing else changed *)
Definition shifted (E E' : list (entry T)) (sigma : T) : Prop :=
  forall i j, coef E' i j = if (i =? j) && has_diag E i then ssub (coef E i j) sigma else coef E i j.
(** E' = E - sigma I on the n x n part: what the User's Guide documents *)
Definition shifted_identity (n : Z) (E E' : list (entry T)) (sigma : T) : Prop :=
  forall i j, 0 <= i < n -> coef E' i j = if i =? j then ssub (coef E i j) sigma else coef E i j.

(** row i of E' and b' is row i of E and b times d_i, d_i = 1 / A_ii; the solutions are the same *)
Definition jacobi_scaled (n : Z) (E E' : list (entry T)) (b b' d : Z -> T) : Prop :=
  (forall i, 0 <= i < n -> d i = sdiv s1 (coef E i i)) /\
  (forall i j, 0 <= i < n -> coef E' i j = smul (coef E i j) (d i)) /\
  (forall i, 0 <= i < n -> b' i = smul (b i) (d i)) /\
  (forall x, solves n E' b' x <-> solves n E b x).

(** E' = D E D and b' = D b with D_ii = 1 / sqrt |A_ii|; y solves the new system
    exactly if D y solves the old one *)
Definition symm_scaled (n : Z) (E E' : list (entry T)) (b b' d : Z -> T) : Prop :=
  (forall i, 0 <= i < n -> d i = sdiv s1 (ssqrt (sabs (coef E i i)))) /\
  (forall i j, 0 <= i < n -> 0 <= j < n -> coef E' i j = smul (smul (d i) (coef E i j)) (d j)) /\
  (forall i, 0 <= i < n -> b' i = smul (d i) (b i)) /\
  (forall y, solves n E' b' y <-> solves n E b (fun j => smul (d j) (y j))).

(** among the slots of row i that name column i, only the first may be non-zero
    (padding slots name the row itself and hold 0) *)
Definition ell_diag_first (A : ell T) : Prop :=
  forall i j j', 0 <= i < ell_n A -> 0 <= j < j' -> j' < ell_maxnzr A ->
    znth 0 (ell_index A) (j * ell_n A + i) = i -> znth 0 (ell_index A) (j' * ell_n A + i) = i ->
    znth s0 (ell_value A) (j' * ell_n A + i) = s0.
(** the main diagonal is one of the stored diagonals of a DIA matrix *)
Definition dia_has_main (A : dia T) : Prop := exists j, 0 <= j < dia_nnd A /\ znth 0 (dia_index A) j = 0.
End S.
