(** C66: the residual history (lis_solver_get_rhistory, lis_solver_output_rhistory), for the modelled
    Krylov solvers, exact arithmetic.  The meaning is in SpecRhist.v. *)
Require Import ZArith List Bool Lia QArith Qcanon.
From Verif Require Import Base Scalar ScalarReal Spec SpecSolver Krylov Solve SpecSolve Rhist SpecRhist RhistP.
Import ListNotations.
Open Scope Z_scope.

(** both queries stay inside their arrays after every completed solve and show the same values: the
    vector gets as many of them as it has room for *)
Theorem C66_queries_agree : forall (T : Type) (S : Scalar T), is_field S -> eqb_ok S -> forall (o : opts (T:=T)) n E b x v vn w,
  0 <= n -> valid o -> lis_solve o n E b x = Ok v -> 0 <= vn <= zlen w ->
  exists L w', output_rhistory (after v) = Ok L /\ get_rhistory (after v) vn w = Ok w' /\ overwritten vn w L w'.
Proof. intros T S FT EQ o n E b x v vn w. exact (queries_safe FT EQ o n E b x v vn w). Qed.
Print Assumptions C66_queries_agree.

(** with LIS_PRINT_MEM set and a start vector which does not already meet the tolerance, the values are the residuals
    (missing: the other cases, refuted below, and that entry j is the residual of iterate j for j before the last) *)
Theorem C66_history_partial : forall (T : Type) (S : Scalar T), is_field S -> eqb_ok S -> forall (o : opts (T:=T)) n E b x v,
  0 <= n -> valid o -> s_scale o = 0 -> s_mem o = true -> lis_solve o n E b x = Ok v ->
  sleb (initial_measure (s_conv o) n b (residual n E b (if s_zeros o then zeros n else x))) (sabs (s_tol o)) = false ->
  exists L, output_rhistory (after v) = Ok L /\ is_residual_history (bound (s_conv o) n (s_tol o) (s_tolw o) b) v L.
Proof. intros T S FT EQ o n E b x v. exact (history_final FT EQ o n E b x v). Qed.
Print Assumptions C66_history_partial.

(** *** what fails *)
Definition q (a : Z) (d : positive) : Qc := Q2Qc (a # d).
(** [g]: the content of the freshly allocated history *)
Definition opt (mem zs : bool) (conv : Z) (tol g : Qc) : opts (T:=Qc) :=
  mkOpts 1 0 12 conv tol (q 0 1) zs mem 0 40 (q 1 1) 0 (fun _ v => v) (fun _ v => v) None (fun _ => g) 2 2 (fun _ => q 7 1).
Lemma opt_valid mem zs conv tol g : conv = 0 \/ conv = 1 \/ conv = 2 -> valid (opt mem zs conv tol g).
Proof.
  intros H. unfold valid, opt. cbn [s_solver s_precon s_pcreate s_maxiter s_conv s_scale s_restart].
  split; [left; reflexivity|]. split; [lia|]. split; [lia|]. split; [reflexivity|]. split; [lia|]. split; [intros; lia|]. split; [exact H|auto].
Qed.
Definition E2 : list (entry Qc) := [(0, 0, q 2 1); (0, 1, q 1 1); (1, 0, q 1 1); (1, 1, q 2 1)].
Definition b2 : list Qc := [q 3 1; q 0 1].
(** the numbers lis_solver_output_rhistory prints after the solve *)
Definition printed (m : res (solved (T:=Qc))) : option (list Q) := match m with Ok v => match output_rhistory (after v) with Ok L => Some (map this L) | _ => None end | _ => None end.
(** without LIS_PRINT_MEM both queries succeed, but from the second value on they show what malloc returned *)
Theorem C66_unrecorded_refuted : forall g, g = q 7 1 \/ g = q 8 1 -> let o := opt false true 0 (q 1 1000) g in
  valid o /\ s_scale o = 0 /\ s_mem o = false /\
  sleb (initial_measure (s_conv o) 2 b2 (residual 2 E2 b2 (zeros 2))) (sabs (s_tol o)) = false /\
  printed (lis_solve o 2 E2 b2 [q 0 1; q 0 1]) = Some [this (q 1 1); this g; this g].
Proof. intros g [-> | ->]; cbv zeta; (split; [apply opt_valid; auto|]); do 3 (split; [vm_compute; reflexivity|]); vm_compute; reflexivity. Qed.
Print Assumptions C66_unrecorded_refuted.
(** with it, when the start vector is the solution: one "iteration" is counted and its residual is what malloc returned *)
Theorem C66_accepted_refuted : forall g, g = q 7 1 \/ g = q 8 1 -> let o := opt true false 1 (q 1 1000) g in
  valid o /\ s_scale o = 0 /\ s_mem o = true /\ printed (lis_solve o 2 E2 b2 [q 2 1; q (-1) 1]) = Some [this (q 1 1); this g].
Proof. intros g [-> | ->]; cbv zeta; (split; [apply opt_valid; auto|]); do 2 (split; [reflexivity|]); vm_compute; reflexivity. Qed.
Print Assumptions C66_accepted_refuted.
(** the first value is always 1; with the condition nrm2_b and a start vector it is not the initial residual *)
Theorem C66_first_refuted : let o := opt true false 1 (q 1 1000) (q 7 1) in let x := [q 0 1; q 3 1] in
  valid o /\ initial_measure (s_conv o) 2 b2 (residual 2 E2 b2 x) = q 2 1 /\
  exists r, printed (lis_solve o 2 E2 b2 x) = Some (this (q 1 1) :: r).
Proof. cbv zeta. split; [apply opt_valid; auto|]. split; [apply Qc_is_canon; vm_compute; reflexivity|]. eexists. vm_compute. reflexivity. Qed.
Print Assumptions C66_first_refuted.
(** before the first solve lis_solver_get_rhistory reads through NULL when retcode (never initialised) happens to be 0;
    lis_solver_output_rhistory reports LIS_FAILS *)
Theorem C66_before_solve_refuted : get_rhistory (fresh_solver 0) 1 [q 0 1] = UB /\ output_rhistory (T:=Qc) (fresh_solver 0) = Err (-1).
Proof. split; reflexivity. Qed.
Print Assumptions C66_before_solve_refuted.

(** *** the hypotheses of C66_history_partial are met: residuals 1, 1/2, 0 *)
Example C66_meets : let o := opt true true 0 (q 1 1000) (q 7 1) in valid o /\ s_scale o = 0 /\ s_mem o = true /\
  sleb (initial_measure (s_conv o) 2 b2 (residual 2 E2 b2 (zeros 2))) (sabs (s_tol o)) = false /\
  printed (lis_solve o 2 E2 b2 [q 0 1; q 0 1]) = Some [this (q 1 1); this (q 1 2); this (q 0 1)].
Proof. cbv zeta. split; [apply opt_valid; auto|]. do 3 (split; [vm_compute; reflexivity|]). vm_compute. reflexivity. Qed.
