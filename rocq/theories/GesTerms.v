(** Terms used in the statements about the generalized eigensolvers (Properties_Gesolver.v). *)
Require Import ZArith List Bool Reals.
From Verif Require Import Base Scalar ScalarReal Spec SpecSolver SpecEsolver SpecGesolver Esolver.
Import ListNotations.
Open Scope Z_scope.

(** what the caller has set up: at least one iteration, the residual history lis_gesolve allocates *)
Definition gready (e : eenv R) (rh : list R) : Prop := 1 <= ee_maxiter e /\ zlen rh = ee_maxiter e + 2.
(** inner solves with a matrix of coefficients P leave a residual of at most delta *)
Definition solves_with (e : eenv R) (P : list (entry R) -> Prop) (delta : R) : Prop :=
  forall k E' w y, P E' -> ee_solve e k E' w = (0, y) -> (norm2 (ee_n e) (residual (ee_n e) E' w y) <= delta * norm2 (ee_n e) w)%R.
(** the status and iteration count belong to the residual r: stopped at the first r <= tol *)
Definition verdict_le (e : eenv R) (o : eout R) (iter : Z) (r : R) : Prop := 1 <= iter <= ee_maxiter e /\
  ((eo_ret o = LIS_SUCCESS /\ (r <= ee_tol e)%R) \/ (eo_ret o = LIS_MAXITER /\ iter = ee_maxiter e /\ (ee_tol e < r)%R)).
Definition verdict_lt (e : eenv R) (o : eout R) (iter : Z) (r : R) : Prop := 1 <= iter <= ee_maxiter e /\
  ((eo_ret o = LIS_SUCCESS /\ (r < ee_tol e)%R) \/ (eo_ret o = LIS_MAXITER /\ iter = ee_maxiter e /\ (ee_tol e <= r)%R)).
(** what is reported *)
Definition reports (o : eout R) (lam r : R) (iter : Z) : Prop := eo_evalue o = Some lam /\ eo_resid o = Some r /\ eo_iter o = Some iter.
(** an inner solve failed: its error code is returned, no eigenvalue is written *)
Definition gave_up (o : eout R) : Prop := eo_ret o <> LIS_SUCCESS /\ eo_evalue o = None.
