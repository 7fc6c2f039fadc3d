(** When the conjugate gradient type solvers must succeed.  No code of the library. *)
Require Import ZArith List Bool Reals.
From Verif Require Import Base Scalar ScalarReal Spec SpecSolver.
Import ListNotations.
Open Scope Z_scope.

Section S.
Context {T : Type} {S : Scalar T}.
(** <u, v> = sum of conj(u_i) v_i, and the product without conjugation *)
Definition inner (n : Z) (u v : list T) : T := ssum (map (fun i => smul (sconj (vcomp u i)) (vcomp v i)) (zrange 0 n)).
Definition bilinear (n : Z) (u v : list T) : T := ssum (map (fun i => smul (vcomp u i) (vcomp v i)) (zrange 0 n)).
(** A v *)
Definition times (n : Z) (E : list (entry T)) (v : list T) : list T := map (mv_spec E n (vcomp v)) (zrange 0 n).
Definition hermitian (n : Z) (E : list (entry T)) : Prop :=
  forall i j, 0 <= i < n -> 0 <= j < n -> coef E i j = sconj (coef E j i).
Definition symmetric (n : Z) (E : list (entry T)) : Prop :=
  forall i j, 0 <= i < n -> 0 <= j < n -> coef E i j = coef E j i.
(** Q is the adjoint of P for the given product *)
Definition adjoint (prod : list T -> list T -> T) (P Q : list T -> list T) : Prop :=
  forall u v, prod u (P v) = prod (Q u) v.
(** row i times d_i: the Jacobi preconditioner with d_i = 1/a_ii *)
Definition diag_times (n : Z) (d v : list T) : list T := map (fun i => smul (vcomp d i) (vcomp v i)) (zrange 0 n).
End S.

Definition nonzero (n : Z) (v : list R) : Prop := exists i, 0 <= i < n /\ vcomp v i <> 0%R.
(** positive definite: 0 < <v, f v> for every v <> 0 *)
Definition pos_def (n : Z) (f : list R -> list R) : Prop := forall v, nonzero n v -> (0 < inner n v (f v))%R.
