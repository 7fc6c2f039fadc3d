(** What an eigensolver for A x = lambda B x promises.  No code of the library. *)
Require Import ZArith List Bool Reals.
From Verif Require Import Base Scalar ScalarReal Spec SpecSolver SpecEsolver.
Import ListNotations.
Open Scope Z_scope.

(** A x - lambda B x *)
Definition gen_residual (n : Z) (A B : list (entry R)) (lambda : R) (x : list R) : list R :=
  map (fun i => mv_spec A n (vcomp x) i - lambda * mv_spec B n (vcomp x) i)%R (zrange 0 n).
(** the same coefficients *)
Definition same_matrix (n : Z) (E E' : list (entry R)) : Prop := forall i j, 0 <= i < n -> 0 <= j < n -> coef E' i j = coef E i j.
(** E' = A - sigma B *)
Definition shifted_by (n : Z) (A B : list (entry R)) (sigma : R) (E' : list (entry R)) : Prop :=
  forall i j, 0 <= i < n -> 0 <= j < n -> coef E' i j = (coef A i j - sigma * coef B i j)%R.
(** |E u| <= K |u| for all u *)
Definition bounded_by (n : Z) (E : list (entry R)) (K : R) : Prop := forall u, (norm2 n (image n E u) <= K * norm2 n u)%R.
(** 0 <= <u,E u> *)
Definition nonnegative (n : Z) (E : list (entry R)) : Prop := forall u, (0 <= rayleigh n E u)%R.
(** u - c v *)
Definition minus_times (n : Z) (u : list R) (c : R) (v : list R) : list R := map (fun i => vcomp u i - c * vcomp v i)%R (zrange 0 n).
