(** What GMRES and FGMRES promise.  Independent of the code of the two solvers. *)
Require Import Reals ZArith List Bool.
From Verif Require Import Base Scalar ScalarReal Spec SpecSolver SpecTerm Solve.
Import ListNotations.
Open Scope Z_scope.

(** options with which lis_solve accepts solver k (9 GMRES, 20 FGMRES), restart >= 1, no scaling *)
Definition accepts (k : Z) (o : opts (T:=R)) : Prop :=
  s_solver o = k /\ 0 <= s_precon o <= 10 /\ s_precon o <> 5 /\ s_pcreate o = 0 /\ 0 <= s_maxiter o /\
  s_conv o = 0 /\ s_scale o = 0 /\ 1 <= s_restart o.
(** the preconditioner is multiplication by the matrix M, in every iteration *)
Definition is_matrix (n : Z) (P : Z -> list R -> list R) (M : list (entry R)) : Prop :=
  forall k v i, 0 <= i < n -> vcomp (P k v) i = mv_spec M n (vcomp v) i.
Definition nonsingular (n : Z) (E : list (entry R)) : Prop :=
  forall v, (forall i, 0 <= i < n -> mv_spec E n (vcomp v) i = 0%R) -> forall i, 0 <= i < n -> vcomp v i = 0%R.
(** (A M)^k r *)
Fixpoint power (n : Z) (E M : list (entry R)) (k : nat) (r : list R) : list R :=
  match k with O => r | S k => times n E (times n M (power n E M k r)) end.
(** r - c_1 (A M) r - ... - c_k (A M)^k r: the residual of x + M (c_1 r + ... + c_k (A M)^(k-1) r) *)
Definition krylov_residual (n : Z) (E M : list (entry R)) (c : Z -> R) (k : Z) (r : list R) : list R :=
  map (fun i => (vcomp r i - ssum (map (fun l => (c l * vcomp (power n E M (Z.to_nat l) r) i)%R) (zrange 1 (k + 1))))%R) (zrange 0 n).

(** the run, for the measure [meas] of an approximate solution: how it ends, and the history *)
Definition run_ok (meas : list R -> R) (o : opts (T:=R)) (x0 : list R) (v : solved (T:=R)) : Prop :=
  let tol := s_tol o in let rh := vcomp (v_rh v) in let last := Z.min (v_iter v) (s_maxiter o) in
  v_ret v = LIS_SUCCESS /\ zlen (v_rh v) = s_maxiter o + 2 /\
  (v_status v = LIS_SUCCESS /\ 1 <= v_iter v <= s_maxiter o /\ v_resid v = Some (meas (v_x v)) /\ (meas (v_x v) <= tol)%R \/
   v_status v = LIS_MAXITER /\ v_iter v = s_maxiter o + 1 /\
     (s_maxiter o = 0 /\ v_resid v = None \/ 1 <= s_maxiter o /\ v_resid v = Some (meas (v_x v)) /\ (tol < meas (v_x v))%R)) /\
  (meas (v_x v) <= meas x0)%R /\
  (s_mem o = true -> 1 <= last ->
     rh last = meas (v_x v) /\ (rh 1%Z <= meas x0)%R /\ forall j, 1 <= j < last -> (tol < rh j)%R /\ (rh (j + 1)%Z <= rh j)%R).
(** in the first cycle the recorded value is the smallest over the Krylov space *)
Definition optimal_history (n : Z) (E M : list (entry R)) (mr : list R -> R) (o : opts (T:=R)) (r0 : list R) (v : solved (T:=R)) : Prop :=
  s_mem o = true -> forall j c, 1 <= j <= Z.min (v_iter v) (s_maxiter o) -> j <= s_restart o ->
    (vcomp (v_rh v) j <= mr (krylov_residual n E M c j r0))%R.
