(** What the stationary solvers promise.  Independent of their code. *)
Require Import Reals ZArith List Bool.
From Verif Require Import Base Scalar ScalarReal Spec SpecSolver SpecTerm Solve.
Import ListNotations.
Open Scope Z_scope.

Section S.
Context {T : Type} {S : Scalar T}.
(** options with which lis_solve accepts solver k (10 Jacobi, 11 Gauss-Seidel, 12 SOR with
    0 < |omega| < 2), no preconditioner, no scaling *)
Definition stat_accepts (k : Z) (o : opts (T:=T)) : Prop :=
  (k = 10 \/ k = 11 \/ k = 12) /\ s_solver o = k /\ s_precon o = 0 /\ s_pcreate o = 0 /\ 0 <= s_maxiter o /\
  s_conv o = 0 /\ s_scale o = 0 /\
  (k = 12 -> sleb (sabs (s_omega o)) s0 = false /\ sleb (sadd s1 s1) (sabs (s_omega o)) = false).
Definition no_change (n : Z) (P : Z -> list T -> list T) : Prop := forall k v i, 0 <= i < n -> vcomp (P k v) i = vcomp v i.
(** X 0, X 1, ...: the iterates, from x0 *)
Definition trajectory (k : Z) (w : T) (n : Z) (E : list (entry T)) (b x0 : list T) (X : nat -> list T) : Prop :=
  (forall i, 0 <= i < n -> vcomp (X O) i = vcomp x0 i) /\ forall s, is_update k w n E b (X s) (X (Datatypes.S s)).
(** lis_solve makes [m] steps along X and stops after the first step from an iterate whose
    relative residual is small enough, or after maxiter steps *)
Definition stat_run (n : Z) (E : list (entry T)) (b : list T) (o : opts (T:=T)) (X : nat -> list T) (m : nat) (v : solved (T:=T)) : Prop :=
  let meas := fun s => rel (norm2 n (residual n E b (X s))) (norm2 n b) in
  v_ret v = LIS_SUCCESS /\ zlen (v_rh v) = s_maxiter o + 2 /\
  (forall i, 0 <= i < n -> vcomp (v_x v) i = vcomp (X m) i) /\
  v_resid v = match m with O => None | Datatypes.S p => Some (meas p) end /\
  (forall s, (Datatypes.S s < m)%nat -> sleb (meas s) (s_tol o) = false) /\
  (v_status v = LIS_SUCCESS /\ v_iter v = Z.of_nat m /\ 1 <= v_iter v <= s_maxiter o /\ sleb (meas (Nat.pred m)) (s_tol o) = true \/
   v_status v = LIS_MAXITER /\ v_iter v = s_maxiter o + 1 /\ Z.of_nat m = s_maxiter o /\
     (1 <= s_maxiter o -> sleb (meas (Nat.pred m)) (s_tol o) = false)) /\
  (s_mem o = true -> forall s, (s < m)%nat -> vcomp (v_rh v) (Z.of_nat s + 1) = meas s).
End S.

(** strictly diagonally dominant rows: the off-diagonal part of row i is at most rho |a_ii| *)
Definition dominant (n : Z) (E : list (entry R)) (rho : R) : Prop :=
  (0 <= rho < 1)%R /\ forall i, 0 <= i < n -> coef E i i <> 0%R /\
    (ssum (map (fun j => if j =? i then 0%R else Rabs (coef E i j)) (zrange 0 n)) <= rho * Rabs (coef E i i))%R.
Definition solves (n : Z) (E : list (entry R)) (b x : list R) : Prop := forall i, 0 <= i < n -> mv_spec E n (vcomp x) i = vcomp b i.
(** u and v differ by at most D in every component *)
Definition within (n : Z) (D : R) (u v : list R) : Prop := forall i, 0 <= i < n -> (Rabs (vcomp u i - vcomp v i) <= D)%R.
(** <xs - x, A (xs - x)> *)
Definition energy_error (n : Z) (E : list (entry R)) (xs x : list R) : R :=
  let d := map (fun i => (vcomp xs i - vcomp x i)%R) (zrange 0 n) in inner n d (times n E d).
(** the contraction factor of one step of solver k with relaxation w *)
Definition factor (k : Z) (w rho : R) : R := if k =? 12 then (1 - w + w * rho)%R else rho.
