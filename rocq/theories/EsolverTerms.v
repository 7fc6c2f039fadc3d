(** Terms used in the statements about the eigensolvers (Properties_Esolver.v). *)
Require Import ZArith List Bool Reals.
From Verif Require Import Base Scalar ScalarReal Spec SpecSolver SpecDiag SpecEsolver Esolver.
Import ListNotations.
Open Scope Z_scope.

(** the esolver and matrix an eigensolver needs *)
Definition ready (e : eenv R) (E : list (entry R)) (rh : list R) : Prop :=
  1 <= ee_maxiter e /\ zlen rh = ee_maxiter e + 2 /\ no_dup_pos E /\ (oshift e = 0%R \/ full_diagonal (ee_n e) E).

(** the inner solver leaves a residual of at most delta on A - sigma I *)
Definition inner_ok (e : eenv R) (E0 : list (entry R)) (sg delta : R) : Prop :=
  forall k E' v y, shifted_identity (ee_n e) E0 E' sg -> ee_solve e k E' v = (0, y) -> (norm2 (ee_n e) (residual (ee_n e) E' v y) <= delta * norm2 (ee_n e) v)%R.
(** the step of RQI that produced lam and x *)
Definition rqi_from (e : eenv R) (E : list (entry R)) (lam r : R) (x : list R) (rho : R) (v y : list R) (E' : list (entry R)) : Prop := let n := ee_n e in
  norm2 n v = 1%R /\ shifted_identity n E E' rho /\ (exists k, ee_solve e k E' v = (0, y)) /\ direction n x y /\ (inner n v y <> 0)%R /\
  lam = (rho + inner n v y / (norm2 n y * norm2 n y))%R /\
  r = (norm2 n (map (fun i => vcomp y i - inner n v y * vcomp v i) (zrange 0 n)) / Rabs (inner n v y))%R.
