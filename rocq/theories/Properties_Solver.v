(** C36-C40: what lis_solve reports about the solution it returns (Solve.v, Krylov.v,
    Krylov2.v), for every field of scalars (exact arithmetic), every matrix, right-hand
    side, initial vector, preconditioner, tolerance and iteration limit.
    [valid o]: a modelled Krylov solver with options lis_solve accepts. *)
Require Import ZArith List Bool Lia QArith Qcanon.
From Verif Require Import Base Scalar ScalarReal Spec SpecSolver Krylov Krylov2 Solve SpecSolve KrylovProof SolveProof StationaryProof SolverFinal.
Import ListNotations.
Open Scope Z_scope.

(** *** C36: the reported residual is the residual of the returned x *)
Theorem C36_true_residual T (S : Scalar T) (FT : is_field S) (EQ : eqb_ok S) (o : opts (T:=T)) n E b x v :
  0 <= n -> valid o -> s_scale o = 0 -> s_conv o = 0 \/ s_conv o = 1 -> sabs (s_tol o) = s_tol o ->
  lis_solve o n E b x = Ok v -> v_status v = LIS_SUCCESS ->
  exists q, v_resid v = Some q /\ sleb q (s_tol o) = true /\
    q = measured (s_conv o) n b (residual n E b (if s_zeros o then zeros n else x)) (residual n E b (v_x v)).
Proof. exact (true_residual FT EQ o n E b x v). Qed.
Print Assumptions C36_true_residual.
(** condition 2: the 1-norm, unless the initial vector was accepted *)
Theorem C36_true_residual_nrm1 T (S : Scalar T) (FT : is_field S) (EQ : eqb_ok S) (o : opts (T:=T)) n E b x v :
  0 <= n -> valid o -> s_scale o = 0 -> s_conv o = 2 ->
  let x0 := if s_zeros o then zeros n else x in
  sleb (rel (norm1 n (residual n E b x0)) (norm1 n b)) (sabs (s_tol o)) = false ->
  lis_solve o n E b x = Ok v -> v_status v = LIS_SUCCESS ->
  exists q, v_resid v = Some q /\ q = norm1 n (residual n E b (v_x v)) /\
    sleb q (sadd (smul (norm1 n b) (s_tolw o)) (s_tol o)) = true.
Proof. exact (true_residual_nrm1 FT EQ o n E b x v). Qed.
Print Assumptions C36_true_residual_nrm1.
(** also when the solver gives up: the reported residual is the true one, and it is above the tolerance *)
Theorem C36_reported_residual T (S : Scalar T) (FT : is_field S) (EQ : eqb_ok S) (o : opts (T:=T)) n E b x v q :
  0 <= n -> valid o -> s_scale o = 0 -> s_conv o = 0 \/ s_conv o = 1 ->
  lis_solve o n E b x = Ok v -> v_resid v = Some q ->
  q = measured (s_conv o) n b (residual n E b (if s_zeros o then zeros n else x)) (residual n E b (v_x v)) /\
  (v_status v <> LIS_SUCCESS -> v_iter v <> 1 -> sleb q (s_tol o) = false).
Proof. exact (reported_residual FT EQ o n E b x v q). Qed.
Print Assumptions C36_reported_residual.
(** with -scale: it is the residual with row i multiplied by d_i = 1/a_ii (or 1/sqrt|a_ii|) *)
Theorem C36_scaled_residual T (S : Scalar T) (FT : is_field S) (EQ : eqb_ok S) (o : opts (T:=T)) n E b x v :
  0 <= n -> valid o -> s_scale o = 1 \/ s_scale o = 2 -> s_conv o = 0 \/ s_conv o = 1 -> sabs (s_tol o) = s_tol o ->
  lis_solve o n E b x = Ok v -> v_status v = LIS_SUCCESS ->
  exists d q, is_scaling (eff_scale o) n E d /\ v_resid v = Some q /\ sleb q (s_tol o) = true /\
    q = measured (s_conv o) n (dmul n d b) (dmul n d (residual n E b (start_x (eff_scale o) (s_zeros o) n d x)))
          (dmul n d (residual n E b (v_x v))).
Proof. exact (scaled_residual FT EQ o n E b x v). Qed.
Print Assumptions C36_scaled_residual.

(** *** C37: iteration counts, statuses, residual history *)
(** no access outside the history or any other array; the only failure is a division by zero *)
Theorem C37_no_undefined_behaviour T (S : Scalar T) (FT : is_field S) (EQ : eqb_ok S) (o : opts (T:=T)) n E b x :
  0 <= n -> valid o -> lis_solve o n E b x <> UB /\ forall c, lis_solve o n E b x = Err c -> c = DIV_BY_ZERO.
Proof. exact (no_ub FT EQ o n E b x). Qed.
Print Assumptions C37_no_undefined_behaviour.
Theorem C37_iterations_partial T (S : Scalar T) (FT : is_field S) (EQ : eqb_ok S) (o : opts (T:=T)) n E b x v :
  0 <= n -> valid o -> lis_solve o n E b x = Ok v ->
  zlen (v_rh v) = s_maxiter o + 2 /\ znth s0 (v_rh v) 0 = s1 /\ 1 <= v_iter v <= s_maxiter o + 1 /\
  (v_status v = LIS_SUCCESS /\ (v_iter v <= s_maxiter o \/ v_iter v = 1) \/
   v_status v = LIS_BREAKDOWN /\ v_iter v <= s_maxiter o \/
   v_status v = LIS_MAXITER /\ v_iter v = s_maxiter o + 1).
Proof. exact (iterations FT EQ o n E b x v). Qed.
Print Assumptions C37_iterations_partial.
Theorem C37_history T (S : Scalar T) (FT : is_field S) (EQ : eqb_ok S) (o : opts (T:=T)) n E b x v :
  0 <= n -> valid o -> s_scale o = 0 -> s_mem o = true -> lis_solve o n E b x = Ok v ->
  let x0 := if s_zeros o then zeros n else x in
  let B := bound (s_conv o) n (s_tol o) (s_tolw o) b in
  sleb (initial_measure (s_conv o) n b (residual n E b x0)) (sabs (s_tol o)) = false ->
  (forall j, 1 <= j < v_iter v -> sleb (znth s0 (v_rh v) j) B = false) /\
  (v_status v = LIS_SUCCESS -> sleb (znth s0 (v_rh v) (v_iter v)) B = true /\ v_resid v = Some (znth s0 (v_rh v) (v_iter v))).
Proof. exact (history FT EQ o n E b x v). Qed.
Print Assumptions C37_history.

(** *** C39: an initial vector that meets the tolerance is returned *)
Theorem C39_accepted T (S : Scalar T) (FT : is_field S) (EQ : eqb_ok S) (o : opts (T:=T)) n E b x v :
  0 <= n -> valid o -> s_scale o = 0 -> lis_solve o n E b x = Ok v ->
  let x0 := if s_zeros o then zeros n else x in
  let m := initial_measure (s_conv o) n b (residual n E b x0) in
  sleb m (sabs (s_tol o)) = true ->
  v_status v = LIS_SUCCESS /\ v_iter v = 1 /\ v_resid v = Some m /\ (forall i, 0 <= i < n -> vcomp (v_x v) i = vcomp x0 i).
Proof. exact (accepted FT EQ o n E b x v). Qed.
Print Assumptions C39_accepted.
Theorem C39_exact_initial_vector T (S : Scalar T) (FT : is_field S) (EQ : eqb_ok S) (o : opts (T:=T)) n E b x v :
  0 <= n -> valid o -> s_scale o = 0 -> ssqrt s0 = s0 -> sabs s0 = s0 -> sconj s0 = s0 ->
  sleb s0 (sabs (s_tol o)) = true -> s_zeros o = false -> (forall i, 0 <= i < n -> mv_spec E n (vcomp x) i = vcomp b i) ->
  lis_solve o n E b x = Ok v ->
  v_status v = LIS_SUCCESS /\ v_iter v = 1 /\ v_resid v = Some s0 /\ (forall i, 0 <= i < n -> vcomp (v_x v) i = vcomp x i).
Proof. exact (exact_guess FT EQ o n E b x v). Qed.
Print Assumptions C39_exact_initial_vector.

(** *** C38: Jacobi (10), Gauss-Seidel (11), SOR (12): the reported residual is that of the
    iterate before the returned one *)
Theorem C38_previous_iterate_partial T (S : Scalar T) (FT : is_field S) (EQ : eqb_ok S) (o : opts (T:=T)) n E b x v :
  0 <= n -> s_solver o = 10 \/ s_solver o = 11 \/ s_solver o = 12 ->
  s_precon o = 0 -> (forall k w i, 0 <= i < n -> vcomp (s_psolve o k w) i = vcomp w i) -> s_scale o = 0 ->
  lis_solve o n E b x = Ok v -> v_ret v = LIS_SUCCESS -> (v_status v = LIS_SUCCESS \/ 1 < v_iter v) ->
  exists xp q, v_resid v = Some q /\ q = rel (norm2 n (residual n E b xp)) (norm2 n b) /\
    (v_status v = LIS_SUCCESS -> sleb q (s_tol o) = true) /\ is_update (s_solver o) (s_omega o) n E b xp (v_x v).
Proof. exact (stationary_solve FT EQ o n E b x v). Qed.
Print Assumptions C38_previous_iterate_partial.

(** *** examples and counterexamples, over the rationals *)
Definition q (a : Z) (d : positive) : Qc := Q2Qc (a # d).
Definition base (solver maxiter conv : Z) (tol tolw : Qc) (zs : bool) (scale : Z) : opts (T:=Qc) :=
  mkOpts solver 0 maxiter conv tol tolw zs true scale 40 (q 1 1) 0 (fun _ v => v) (fun _ v => v) None (fun _ => q 7 1) 2 2 (fun _ => q 7 1).
Lemma base_valid s m c t tw zs sc : In s krylov_list -> 0 <= m -> c = 0 \/ c = 1 \/ c = 2 -> sc = 0 \/ sc = 1 \/ sc = 2 -> valid (base s m c t tw zs sc).
Proof.
  intros H1 H2 H3 H4. unfold valid, base. cbn [s_solver s_precon s_pcreate s_maxiter s_conv s_scale s_restart].
  split; [exact H1|]. split; [lia|]. split; [lia|]. split; [reflexivity|]. split; [exact H2|]. split; [intros; lia|]. split; [exact H3|exact H4].
Qed.
Ltac qeq := apply Qc_is_canon; vm_compute; reflexivity.
(** runs a solve and checks a boolean about its result *)
Definition holds (m : res (solved (T:=Qc))) (f : solved (T:=Qc) -> bool) : bool := match m with Ok v => f v | _ => false end.
Definition oeq (o : option Qc) (y : Qc) : bool := match o with Some z => seqb z y | None => false end.

Definition E2 : list (entry Qc) := [(0, 0, q 2 1); (0, 1, q 1 1); (1, 0, q 1 1); (1, 1, q 2 1)].
Definition b2 : list Qc := [q 3 1; q 0 1].
Definition E3 : list (entry Qc) := [(0, 0, q 2 1); (0, 1, q 1 1); (1, 0, q 1 1); (1, 1, q 3 1)].
(** every one of the fifteen solvers converges on ((2 1)(1 3)) x = (3,5) from zero, and the
    hypotheses of C36_true_residual are met *)
Example C36_applies : forallb (fun s =>
   holds (lis_solve (base s 12 0 (q 1 10) (q 0 1) true 0) 2 E3 [q 3 1; q 5 1] [q 0 1; q 0 1]) (fun v =>
     (v_status v =? LIS_SUCCESS) && (1 <=? v_iter v) &&
     match v_resid v with Some r => sleb r (q 1 10) && negb (seqb r 0%Qc) | None => false end)) krylov_list = true
   /\ forall s, In s krylov_list -> valid (base s 12 0 (q 1 10) (q 0 1) true 0).
Proof. split; [vm_compute; reflexivity|]. intros s Hs. apply base_valid; [exact Hs|lia|auto|auto]. Qed.
(** nine of them solve ((2 1)(1 2)) x = (3,0), which needs more than one iteration, exactly *)
Example C36_applies_2 : forallb (fun s =>
   holds (lis_solve (base s 12 0 (q 1 1000) (q 0 1) true 0) 2 E2 b2 [q 0 1; q 0 1]) (fun v =>
     (v_status v =? LIS_SUCCESS) && (2 <=? v_iter v) && oeq (v_resid v) 0%Qc && seqb (vcomp (v_x v) 0) (q 2 1) && seqb (vcomp (v_x v) 1) (q (-1) 1)))
   [1;2;8;14;15;24;25] = true.
Proof. vm_compute. reflexivity. Qed.
Example C36_nrm1_applies : holds (lis_solve (base 1 12 2 (q 1 1000) (q 0 1) true 0) 2 E2 b2 [q 0 1; q 0 1]) (fun v =>
     (v_status v =? LIS_SUCCESS) && (2 <=? v_iter v) && oeq (v_resid v) 0%Qc) = true
  /\ sleb (rel (norm1 2 (residual 2 E2 b2 (zeros 2))) (norm1 2 b2)) (q 1 1000) = false.
Proof. split; vm_compute; reflexivity. Qed.
Example C36_gives_up : holds (lis_solve (base 1 1 0 (q 1 1000) (q 0 1) true 0) 2 E2 b2 [q 0 1; q 0 1]) (fun v =>
     (v_status v =? LIS_MAXITER) && (v_iter v =? 2) && oeq (v_resid v) (q 1 2)) = true.
Proof. vm_compute. reflexivity. Qed.
Example C36_scaled_applies : holds (lis_solve (base 1 12 0 (q 1 1000) (q 0 1) true 2) 2 [(0, 0, q 4 1); (0, 1, q 1 1); (1, 0, q 1 1); (1, 1, q 4 1)]
    [q 4 1; q 4 1] [q 0 1; q 0 1]) (fun v =>
     (v_status v =? LIS_SUCCESS) && oeq (v_resid v) 0%Qc && (seqb (vcomp (v_x v) 0) (q 4 5)) && seqb (vcomp (v_x v) 1) (q 4 5)) = true.
Proof. vm_compute. reflexivity. Qed.

(** the initial test of -conv_cond nrm1_b ignores tol_w and divides by ||b||_1: success is
    reported although ||r||_1 <= tol_w ||b||_1 + tol is false of the returned x *)
Theorem C36_nrm1_initial_refuted : exists (o : opts (T:=Qc)) n E b x v,
  valid o /\ s_scale o = 0 /\ s_conv o = 2 /\ lis_solve o n E b x = Ok v /\ v_status v = LIS_SUCCESS /\
  sleb (norm1 n (residual n E b (v_x v))) (sadd (smul (norm1 n b) (s_tolw o)) (s_tol o)) = false.
Proof.
  exists (base 1 10 2 (q 1 10) (q 0 1) false 0), 1, [(0, 0, q 1 1)], [q 100 1], [q 95 1].
  eexists. split; [apply base_valid; [left; reflexivity|lia|auto|auto]|]. split; [reflexivity|]. split; [reflexivity|].
  split; [vm_compute; reflexivity|]. split; vm_compute; reflexivity.
Qed.
Print Assumptions C36_nrm1_initial_refuted.
(** LIS_MAXITER comes with iter = maxiter+1 although only maxiter iterations were made *)
Theorem C37_maxiter_count_refuted : exists (o : opts (T:=Qc)) n E b x v,
  valid o /\ lis_solve o n E b x = Ok v /\ v_status v = LIS_MAXITER /\ s_maxiter o < v_iter v.
Proof.
  exists (base 1 1 0 (q 1 1000) (q 0 1) true 0), 2, E2, b2, [q 0 1; q 0 1].
  eexists. split; [apply base_valid; [left; reflexivity|lia|auto|auto]|]. split; [vm_compute; reflexivity|]. split; [reflexivity|reflexivity].
Qed.
Print Assumptions C37_maxiter_count_refuted.
(** with maxiter = 0, or a breakdown in the first iteration, the reported residual norm is an
    uninitialised variable *)
Theorem C37_residual_uninitialised_refuted : (exists (o : opts (T:=Qc)) n E b x v,
  valid o /\ lis_solve o n E b x = Ok v /\ v_status v = LIS_MAXITER /\ v_resid v = None) /\
  (exists (o : opts (T:=Qc)) n E b x v, valid o /\ s_maxiter o = 10 /\ lis_solve o n E b x = Ok v /\ v_status v = LIS_BREAKDOWN /\ v_resid v = None).
Proof.
  split.
  - exists (base 1 0 0 (q 1 1000) (q 0 1) true 0), 2, E2, b2, [q 0 1; q 0 1].
    eexists. split; [apply base_valid; [left; reflexivity|lia|auto|auto]|]. split; [vm_compute; reflexivity|]. split; reflexivity.
  - exists (base 1 10 0 (q 1 1000) (q 0 1) true 0), 2, [(0, 1, q 1 1); (1, 0, q 1 1)], [q 1 1; q 0 1], [q 0 1; q 0 1].
    eexists. split; [apply base_valid; [left; reflexivity|lia|auto|auto]|]. split; [reflexivity|]. split; [vm_compute; reflexivity|]. split; reflexivity.
Qed.
Print Assumptions C37_residual_uninitialised_refuted.
(** division by zero in a consistent, non-singular system: BiCGSTAB (4) and BiCRSTAB (17), where
    a breakdown is reported by CG on the same data *)
Theorem C37_bicgstab_breakdown_refuted : exists (o : opts (T:=Qc)) n E b x,
  valid o /\ s_solver o = 4 /\ lis_solve o n E b x = Err DIV_BY_ZERO.
Proof.
  exists (base 4 10 0 (q 1 1000) (q 0 1) true 0), 2, [(0, 1, q 1 1); (1, 0, q 1 1)], [q 1 1; q 0 1], [q 0 1; q 0 1].
  split; [apply base_valid; [simpl; auto 9|lia|auto|auto]|]. split; [reflexivity|]. vm_compute; reflexivity.
Qed.
Print Assumptions C37_bicgstab_breakdown_refuted.

(** Jacobi, Gauss-Seidel and SOR report success with residual 1/2 <= tol = 1/2 for an x whose
    relative residual is above 1/2 (3/2 for Jacobi) *)
Definition E5 : list (entry Qc) := [(0, 0, q 1 1); (0, 1, q 3 1); (1, 0, q 3 1); (1, 1, q 1 1)].
Definition b5 : list Qc := [q 4 1; q 3 1].
Definition x5 : list Qc := [q 5 16; q 9 16].
Theorem C38_refuted : forall k, In k [10; 11; 12] -> exists (o : opts (T:=Qc)) n E b x v,
  s_solver o = k /\ s_precon o = 0 /\ s_scale o = 0 /\ lis_solve o n E b x = Ok v /\ v_ret v = LIS_SUCCESS /\ v_status v = LIS_SUCCESS /\
  match v_resid v with Some r => sleb r (s_tol o) = true | None => False end /\
  sleb (rel (norm2 n (residual n E b (v_x v))) (norm2 n b)) (s_tol o) = false.
Proof.
  intros k [<-|[<-|[<-|[]]]]; [exists (base 10 5 0 (q 1 2) 0%Qc false 0)|exists (base 11 5 0 (q 1 2) 0%Qc false 0)|exists (base 12 5 0 (q 1 2) 0%Qc false 0)];
  exists 2, E5, b5, x5; eexists; split; try reflexivity; split; try reflexivity; split; try reflexivity;
  (split; [vm_compute; reflexivity|]); split; try reflexivity; split; try reflexivity; split; vm_compute; reflexivity.
Qed.
Print Assumptions C38_refuted.
Example C38_applies : holds (lis_solve (base 10 5 0 (q 1 2) 0%Qc false 0) 2 E5 b5 x5) (fun v =>
  oeq (v_resid v) (q 1 2) && (v_iter v =? 1) && seqb (rel (norm2 2 (residual 2 E5 b5 (v_x v))) (norm2 2 b5)) (q 3 2)) = true.
Proof. vm_compute. reflexivity. Qed.
(** b = 0: division by zero although x = 0 solves the system *)
Theorem C38_zero_rhs_refuted : forall k, In k [10; 11; 12] -> exists (o : opts (T:=Qc)),
  s_solver o = k /\ lis_solve o 1 [(0, 0, q 1 1)] [q 0 1] [q 0 1] = Err DIV_BY_ZERO.
Proof.
  intros k [<-|[<-|[<-|[]]]]; [exists (base 10 5 0 (q 1 2) 0%Qc true 0)|exists (base 11 5 0 (q 1 2) 0%Qc true 0)|exists (base 12 5 0 (q 1 2) 0%Qc true 0)];
  split; try reflexivity; vm_compute; reflexivity.
Qed.
Print Assumptions C38_zero_rhs_refuted.
(** a second SOR solve with the same matrix ignores a changed -omega *)
Theorem C38_omega_ignored_refuted T (S : Scalar T) (e : env (T:=T)) w1 w2 wd x rh :
  seqb w1 s0 = false -> seqb w2 s0 = false -> lis_sor e w1 (Some wd) x rh = lis_sor e w2 (Some wd) x rh.
Proof. intros H1 H2. unfold lis_sor, divz. rewrite H1, H2. reflexivity. Qed.
Print Assumptions C38_omega_ignored_refuted.

(** symmetric scaling starts from d x0 instead of x0: the exact solution given as initial
    vector is not accepted, and with maxiter = 0 it is overwritten *)
Theorem C39_symmetric_scaling_refuted : exists (o : opts (T:=Qc)) n E b x v,
  valid o /\ s_scale o = 2 /\ s_zeros o = false /\ (forall i, 0 <= i < n -> mv_spec E n (vcomp x) i = vcomp b i) /\
  lis_solve o n E b x = Ok v /\ v_status v = LIS_MAXITER /\ vcomp (v_x v) 0 <> vcomp x 0.
Proof.
  exists (base 1 0 0 (q 1 1000) 0%Qc false 2), 1, [(0, 0, q 4 1)], [q 4 1], [q 1 1].
  eexists. split; [apply base_valid; [left; reflexivity|lia|auto|auto]|]. split; [reflexivity|]. split; [reflexivity|].
  split; [intros i Hi; assert (i = 0) as -> by lia; qeq|]. split; [vm_compute; reflexivity|]. split; [reflexivity|]. vm_compute. discriminate.
Qed.
Print Assumptions C39_symmetric_scaling_refuted.
Example C39_applies : holds (lis_solve (base 3 5 1 (q 1 1000) 0%Qc false 0) 2 E2 b2 [q 2 1; q (-1) 1]) (fun v =>
   (v_status v =? LIS_SUCCESS) && (v_iter v =? 1) && oeq (v_resid v) 0%Qc && seqb (vcomp (v_x v) 0) (q 2 1)) = true
   /\ forall i, 0 <= i < 2 -> mv_spec E2 2 (vcomp [q 2 1; q (-1) 1]) i = vcomp b2 i.
Proof. split; [vm_compute; reflexivity|]. intros i Hi. assert (i = 0 \/ i = 1) as [-> | ->] by lia; qeq. Qed.

(** *** C40: the return value of lis_solve says nothing about convergence; the status does *)
Theorem C40_status_tells T (S : Scalar T) (FT : is_field S) (EQ : eqb_ok S) (o : opts (T:=T)) n E b x v :
  0 <= n -> valid o -> lis_solve o n E b x = Ok v ->
  v_ret v = LIS_SUCCESS /\ (v_status v = LIS_SUCCESS \/ v_status v = LIS_BREAKDOWN \/ v_status v = LIS_MAXITER).
Proof.
  intros Hn HV HR. destruct (seen_run FT EQ o n E b x v Hn HV HR) as (d & _ & Hs). split; [apply Hs|].
  destruct (iterations FT EQ o n E b x v Hn HV HR) as (_ & _ & _ & [(H & _)|[(H & _)|(H & _)]]); auto.
Qed.
Print Assumptions C40_status_tells.
Theorem C40_refuted : exists (o : opts (T:=Qc)) n E b x v,
  valid o /\ lis_solve o n E b x = Ok v /\ v_ret v = LIS_SUCCESS /\ v_status v = LIS_MAXITER /\
  match v_resid v with Some r => sleb r (s_tol o) = false | None => False end.
Proof.
  exists (base 1 1 0 (q 1 1000) (q 0 1) true 0), 2, E2, b2, [q 0 1; q 0 1].
  eexists. split; [apply base_valid; [left; reflexivity|lia|auto|auto]|]. split; [vm_compute; reflexivity|]. split; [reflexivity|]. split; reflexivity.
Qed.
Print Assumptions C40_refuted.
