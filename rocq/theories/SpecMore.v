(** What TFQMR, BiCGSTAB(l), IDR(s), IDR(1) and MINRES promise.  Independent of their code. *)
Require Import Reals ZArith List Bool.
From Verif Require Import Base Scalar ScalarReal Spec SpecSolver SpecTerm SpecGmres Solve.
Import ListNotations.
Open Scope Z_scope.

Section S.
Context {T : Type} {S : Scalar T}.
(** options with which lis_solve accepts solver k, without scaling *)
Definition accepted (k : Z) (o : opts (T:=T)) : Prop :=
  s_solver o = k /\ 0 <= s_precon o <= 10 /\ s_precon o <> 5 /\ s_pcreate o = 0 /\ 0 <= s_maxiter o /\
  0 <= s_conv o <= 2 /\ (k = 7 \/ k = 23 -> s_conv o = 0) /\ s_scale o = 0.
(** the vector the iteration starts from *)
Definition start (o : opts (T:=T)) (n : Z) (x : list T) : list T := if s_zeros o then zeros n else x.

(** how a run ends: at once, if the initial residual is good enough, or as [later] says *)
Definition run (o : opts (T:=T)) (n : Z) (E : list (entry T)) (b x : list T) (later : Prop) (v : solved (T:=T)) : Prop :=
  let first := initial_measure (s_conv o) n b (residual n E b (start o n x)) in
  v_ret v = LIS_SUCCESS /\ v_E v = E /\ v_b v = b /\ zlen (v_rh v) = s_maxiter o + 2 /\ vcomp (v_rh v) 0 = s1 /\
  if sleb first (sabs (s_tol o)) then
    v_status v = LIS_SUCCESS /\ v_iter v = 1 /\ v_resid v = Some first /\ forall i, 0 <= i < n -> vcomp (v_x v) i = vcomp (start o n x) i
  else later.
Definition limit (o : opts (T:=T)) (n : Z) (b : list T) : T := bound (s_conv o) n (s_tol o) (s_tolw o) b.
(** the recorded norms before the last one are above the limit *)
Definition above (o : opts (T:=T)) (n : Z) (b : list T) (v : solved (T:=T)) : Prop :=
  s_mem o = true -> forall j, 1 <= j < v_iter v -> sleb (vcomp (v_rh v) j) (limit o n b) = false.
(** the reported norm is that of the residual of y, and the last recorded one *)
Definition reports (o : opts (T:=T)) (n : Z) (E : list (entry T)) (b x : list T) (v : solved (T:=T)) (y : list T) (q : T) : Prop :=
  v_resid v = Some q /\ q = measured (s_conv o) n b (residual n E b (start o n x)) (residual n E b y).
Definition recorded (o : opts (T:=T)) (v : solved (T:=T)) (q : T) : Prop := s_mem o = true -> vcomp (v_rh v) (v_iter v) = q.

(** IDR(s), IDR(1): [last] is the iteration count of a run that does not converge *)
Definition idr_ends (last : Z) (o : opts (T:=T)) (n : Z) (E : list (entry T)) (b x : list T) (v : solved (T:=T)) : Prop :=
  1 <= v_iter v <= last /\ above o n b v /\ exists q, reports o n E b x v (v_x v) q /\ recorded o v q /\
    (v_status v = LIS_SUCCESS /\ sleb q (limit o n b) = true \/ v_status v = LIS_MAXITER /\ v_iter v = last /\ sleb q (limit o n b) = false).
(** BiCGSTAB(l) with preconditioner M: an unconverged run reports the residual of M x, not of x *)
Definition bl_ends (last : Z) (M : list (entry T)) (o : opts (T:=T)) (n : Z) (E : list (entry T)) (b x : list T) (v : solved (T:=T)) : Prop :=
  1 <= v_iter v <= last /\ above o n b v /\
  ((exists q, v_status v = LIS_SUCCESS /\ reports o n E b x v (v_x v) q /\ recorded o v q /\ sleb q (limit o n b) = true) \/
   v_status v = LIS_BREAKDOWN /\ (v_iter v = 1 /\ v_resid v = None \/ exists q, reports o n E b x v (v_x v) q /\ sleb q (limit o n b) = false) \/
   (exists q, v_status v = LIS_MAXITER /\ v_iter v = last /\ reports o n E b x v (times n M (v_x v)) q /\ recorded o v q /\ sleb q (limit o n b) = false)).
(** TFQMR: what holds of the counts and of the reported number, whatever it measures *)
Definition tf_ends (o : opts (T:=T)) (n : Z) (b : list T) (v : solved (T:=T)) : Prop :=
  1 <= v_iter v /\ above o n b v /\
  (v_status v = LIS_SUCCESS /\ v_iter v <= s_maxiter o /\ (exists q, v_resid v = Some q /\ sleb q (limit o n b) = true) \/
   v_status v = LIS_BREAKDOWN /\ v_iter v <= s_maxiter o \/
   v_status v = LIS_MAXITER /\ v_iter v = s_maxiter o + 1 /\ (s_maxiter o = 0 \/ exists q, v_resid v = Some q /\ sleb q (limit o n b) = false)).
End S.

(** MINRES, over the reals.  M b - M A y relative to the initial M b - M A x *)
Definition pre (n : Z) (E M : list (entry R)) (b y : list R) : list R := times n M (residual n E b y).
Definition mratio (n : Z) (E M : list (entry R)) (b x y : list R) : R := (norm2 n (pre n E M b y) / norm2 n (pre n E M b x))%R.
(** the product M A is symmetric *)
Definition product (n : Z) (M E : list (entry R)) (i j : Z) : R := ssum (map (fun k => coef M i k * coef E k j)%R (zrange 0 n)).
Definition sym_product (n : Z) (M E : list (entry R)) : Prop :=
  forall i j, 0 <= i < n -> 0 <= j < n -> product n M E i j = product n M E j i.
Definition minres_ends (o : opts (T:=R)) (n : Z) (E M : list (entry R)) (b x : list R) (v : solved (T:=R)) : Prop :=
  let x0 := start o n x in let meas := mratio n E M b x0 in let rh := vcomp (v_rh v) in let last := Z.min (v_iter v) (s_maxiter o) in
  v_ret v = LIS_SUCCESS /\ v_E v = E /\ v_b v = b /\ zlen (v_rh v) = s_maxiter o + 2 /\ rh 0 = 1%R /\
  v_resid v = Some (meas (v_x v)) /\ (meas (v_x v) <= 1)%R /\
  (v_status v = LIS_SUCCESS /\ 1 <= v_iter v <= s_maxiter o /\ (meas (v_x v) <= s_tol o)%R \/
   v_status v = LIS_MAXITER /\ v_iter v = s_maxiter o + 1 /\ (1 <= s_maxiter o -> (s_tol o < meas (v_x v))%R)) /\
  (s_mem o = true -> 1 <= last -> rh last = meas (v_x v) /\
     (forall j, 1 <= j < last -> (s_tol o < rh j)%R) /\ (forall j, 0 <= j < last -> (rh (j + 1)%Z <= rh j)%R) /\
     forall j c, 1 <= j <= last -> (rh j <= norm2 n (krylov_residual n M E c j (pre n E M b x0)) / norm2 n (pre n E M b x0))%R).
