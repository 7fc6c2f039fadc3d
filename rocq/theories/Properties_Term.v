(** C52: the conjugate gradient type solvers (CG 1, BiCG 2, CR 14, BiCR 15, COCG 24, COCR 25)
    finish: on a symmetric positive definite system with a symmetric positive definite
    preconditioner they succeed within n iterations (exact arithmetic), and on any system
    CG, BiCG, BiCR and COCG stop by themselves after at most n+2 iterations. *)
Require Import Reals Lra.
Require Import ZArith List Bool Lia QArith Qcanon.
From Verif Require Import Base Scalar ScalarReal ScalarCQ Spec SpecSolver Krylov Krylov2 Solve SpecSolve SpecTerm TermFinal.
Import ListNotations.
Open Scope Z_scope.

Theorem C52_spd_success (o : opts (T:=R)) n E b x P : 0 <= n <= s_maxiter o -> valid o -> In (s_solver o) [1; 2; 14; 15; 24; 25] -> eff_scale o <> 1 ->
  (0 <= s_tol o)%R -> (0 <= s_tolw o)%R -> s_shadow o = None ->
  (forall k w, s_psolve o k w = P w) -> (forall k w, s_psolveh o k w = P w) ->
  symmetric n E -> pos_def n (times n E) -> adjoint (inner n) P P -> pos_def n P ->
  exists v, lis_solve o n E b x = Ok v /\ v_status v = LIS_SUCCESS /\ 1 <= v_iter v <= Z.max 1 n.
Proof. exact (spd_success o n E b x P). Qed.
Print Assumptions C52_spd_success.
(** with tolerance 0 the returned x is the solution *)
Theorem C52_spd_exact (o : opts (T:=R)) n E b x P : 0 <= n <= s_maxiter o -> valid o -> In (s_solver o) [1; 2; 14; 15; 24; 25] -> s_scale o = 0 ->
  s_tol o = 0%R -> (0 <= s_tolw o)%R -> s_conv o = 0 \/ s_conv o = 1 -> s_shadow o = None ->
  (forall k w, s_psolve o k w = P w) -> (forall k w, s_psolveh o k w = P w) ->
  symmetric n E -> pos_def n (times n E) -> adjoint (inner n) P P -> pos_def n P ->
  exists v, lis_solve o n E b x = Ok v /\ v_status v = LIS_SUCCESS /\ v_iter v <= Z.max 1 n /\
    forall i, 0 <= i < n -> mv_spec E n (vcomp (v_x v)) i = vcomp b i.
Proof. exact (spd_exact o n E b x P). Qed.
Print Assumptions C52_spd_exact.
(** any matrix over any field (real, complex): no run reaches a limit of n+2 or more *)
Theorem C52_finite_termination T (S : Scalar T) (FT : is_field S) (EQ : eqb_ok S) (HC : conj_ok S) (o : opts (T:=T)) n E b x P Q v :
  0 <= n -> valid o -> s_scale o = 0 -> n + 2 <= s_maxiter o ->
  (forall k w, s_psolve o k w = P w) -> (forall k w, s_psolveh o k w = Q w) ->
  (s_solver o = 1 /\ hermitian n E /\ adjoint (inner n) P P \/
   s_solver o = 24 /\ symmetric n E /\ adjoint (bilinear n) P P \/
   (s_solver o = 2 \/ s_solver o = 15) /\ adjoint (inner n) P Q) ->
  lis_solve o n E b x = Ok v ->
  (v_status v = LIS_SUCCESS \/ v_status v = LIS_BREAKDOWN) /\ 1 <= v_iter v <= n + 2.
Proof. intros Hn HV Hs Hm HP HQ HS Hv. exact (finite FT EQ o n E b x P Q v Hn HC HV Hs Hm HP HQ HS Hv). Qed.
Print Assumptions C52_finite_termination.

(** *** the hypotheses are met: ((2 1)(1 3)) x = (5,10) with the Jacobi preconditioner diag(1/2,1/3) *)
Definition e2 : list (entry R) := [(0, 0, 2%R); (0, 1, 1%R); (1, 0, 1%R); (1, 1, 3%R)].
Definition or (s : Z) : opts (T:=R) := mkOpts s 1 2 0 0%R 0%R true true 0 40 1%R 0
   (fun _ v => diag_times 2 [(/2)%R; (/3)%R] v) (fun _ v => diag_times 2 [(/2)%R; (/3)%R] v) None (fun _ => 7%R) 2 2 (fun _ => 7%R).
Lemma two (i : Z) : 0 <= i < 2 -> i = 0 \/ i = 1. Proof. lia. Qed.
Lemma inner2 (u w : list R) : inner 2 u w = (vcomp u 0 * vcomp w 0 + vcomp u 1 * vcomp w 1)%R.
Proof. change (inner 2 u w) with (vcomp u 0 * vcomp w 0 + (vcomp u 1 * vcomp w 1 + 0))%R. ring. Qed.
Lemma sq2 (p r a c : R) : (0 < p -> 0 < r -> a <> 0 \/ c <> 0 -> 0 < p * (a * a) + r * (c * c))%R.
Proof.
  intros Hp Hr HN. pose proof (Rle_0_sqr a). pose proof (Rle_0_sqr c). unfold Rsqr in *.
  assert (0 <= p * (a * a))%R by (apply Rmult_le_pos; lra). assert (0 <= r * (c * c))%R by (apply Rmult_le_pos; lra).
  destruct HN as [HN|HN]; pose proof (Rlt_0_sqr _ HN); unfold Rsqr in *;
  [assert (0 < p * (a * a))%R by (apply Rmult_lt_0_compat; lra)|assert (0 < r * (c * c))%R by (apply Rmult_lt_0_compat; lra)]; lra.
Qed.
Example C52_applies : forall s, In s [1; 2; 14; 15; 24; 25] -> let P := diag_times 2 [(/2)%R; (/3)%R] in
   valid (or s) /\ symmetric 2 e2 /\ pos_def 2 (times 2 e2) /\ adjoint (inner 2) P P /\ pos_def 2 P.
Proof.
  intros s Hs P.
  assert (T0 : forall v, vcomp (times 2 e2 v) 0 = (2 * vcomp v 0 + vcomp v 1)%R).
  { intros v. change (vcomp (times 2 e2 v) 0) with ((2 + 0) * vcomp v 0 + ((1 + 0) * vcomp v 1 + 0))%R. ring. }
  assert (T1 : forall v, vcomp (times 2 e2 v) 1 = (vcomp v 0 + 3 * vcomp v 1)%R).
  { intros v. change (vcomp (times 2 e2 v) 1) with ((1 + 0) * vcomp v 0 + ((3 + 0) * vcomp v 1 + 0))%R. ring. }
  assert (P0 : forall v, vcomp (P v) 0 = (/2 * vcomp v 0)%R) by reflexivity.
  assert (P1 : forall v, vcomp (P v) 1 = (/3 * vcomp v 1)%R) by reflexivity.
  split; [|split; [|split; [|split]]].
  - unfold valid, or. cbn [s_solver s_precon s_pcreate s_maxiter s_conv s_scale s_restart].
    split; [unfold krylov_list; simpl in Hs |- *; intuition|]. split; [lia|]. split; [lia|]. split; [reflexivity|]. split; [lia|]. split; [intros; lia|]. auto.
  - intros i j Hi Hj. destruct (two i Hi) as [-> | ->], (two j Hj) as [-> | ->]; reflexivity.
  - intros v (i & Hi & Hv). rewrite inner2, T0, T1. set (a := vcomp v 0) in *. set (c := vcomp v 1) in *.
    assert (HN : (a <> 0 \/ c <> 0)%R) by (destruct (two i Hi) as [-> | ->]; auto).
    replace (a * (2 * a + c) + c * (a + 3 * c))%R with (1 * (a * a) + 2 * (c * c) + (a + c) * (a + c))%R by ring.
    pose proof (Rle_0_sqr (a + c)). unfold Rsqr in *. pose proof (sq2 1 2 a c ltac:(lra) ltac:(lra) HN). lra.
  - intros u v. rewrite !inner2, !P0, !P1. ring.
  - intros v (i & Hi & Hv). rewrite inner2, P0, P1. set (a := vcomp v 0) in *. set (c := vcomp v 1) in *.
    assert (HN : (a <> 0 \/ c <> 0)%R) by (destruct (two i Hi) as [-> | ->]; auto).
    pose proof (sq2 (/2) (/3) a c ltac:(lra) ltac:(lra) HN). lra.
Qed.

(** the same system over the rationals, tolerance 0, maxiter = n = 2: all six return (1,3), with
    no preconditioner and with Jacobi *)
Definition q (a : Z) (b : positive) : Qc := Q2Qc (a # b).
Definition oq (s sc mi : Z) (P : list Qc -> list Qc) : opts (T:=Qc) :=
  mkOpts s 0 mi 0 (q 0 1) (q 0 1) true false sc 0 (q 1 1) 0 (fun _ v => P v) (fun _ v => P v) None (fun _ => q 0 1) 2 2 (fun _ => q 0 1).
Definition eq2 : list (entry Qc) := [(0, 0, q 2 1); (0, 1, q 1 1); (1, 0, q 1 1); (1, 1, q 3 1)].
Definition bq : list Qc := [q 5 1; q 10 1].
Definition solves (r : res (solved (T:=Qc))) : bool := match r with
  | Ok v => (v_status v =? LIS_SUCCESS) && (v_iter v =? 2) && seqb (vcomp (v_x v) 0) (q 1 1) && seqb (vcomp (v_x v) 1) (q 3 1)
  | _ => false end.
Example C52_runs : forallb (fun s => solves (lis_solve (oq s 0 2 (fun v => v)) 2 eq2 bq []) &&
   solves (lis_solve (oq s 0 2 (diag_times 2 [q 1 2; q 1 3])) 2 eq2 bq [])) [1; 2; 14; 15; 24; 25] = true.
Proof. vm_compute. reflexivity. Qed.
(** a singular system: BiCG stops with a breakdown *)
Example C52_breakdown : match lis_solve (oq 2 0 4 (fun v => v)) 2 [(0, 1, q 1 1)] bq [] with
  | Ok v => v_status v = LIS_BREAKDOWN /\ v_iter v <= 4 | _ => False end.
Proof. vm_compute. split; [reflexivity|discriminate]. Qed.
Lemma oq_valid s sc mi P : In s krylov_list -> s <> 8 -> s <> 9 -> s <> 16 -> 0 <= mi -> sc = 0 \/ sc = 1 \/ sc = 2 -> valid (oq s sc mi P).
Proof.
  intros H1 H2 H3 H4 H5 H6. unfold valid, oq. cbn [s_solver s_precon s_pcreate s_maxiter s_conv s_scale s_restart].
  split; [exact H1|]. split; [lia|]. split; [lia|]. split; [reflexivity|]. split; [exact H5|]. split; [intros; lia|]. auto.
Qed.
(** Jacobi scaling (-scale 1) makes the matrix unsymmetric.  lis_solve replaces it by symmetric
    scaling for CG, but not for COCG, which then misses the solution of this positive definite system *)
Theorem C52_jacobi_scaling_refuted : exists (o : opts (T:=Qc)) n E b v,
  valid o /\ s_solver o = 24 /\ s_scale o = 1 /\ s_maxiter o = n /\ symmetric n E /\
  lis_solve o n E b [] = Ok v /\ v_status v = LIS_MAXITER /\
  (exists w, lis_solve (oq 24 0 n (fun v => v)) n E b [] = Ok w /\ v_status w = LIS_SUCCESS).
Proof.
  exists (oq 24 1 2 (fun v => v)), 2, eq2, bq. eexists.
  split; [apply oq_valid; [simpl; auto 20|lia..|auto]|]. split; [reflexivity|]. split; [reflexivity|]. split; [reflexivity|].
  split; [intros i j Hi Hj; destruct (two i Hi) as [-> | ->], (two j Hj) as [-> | ->]; reflexivity|].
  split; [vm_compute; reflexivity|]. split; [reflexivity|]. eexists. split; [vm_compute; reflexivity|]. reflexivity.
Qed.
Print Assumptions C52_jacobi_scaling_refuted.
(** without symmetry CG does not stop: ((1 1)(0 1)), limit n + 2 *)
Theorem C52_cg_nonsymmetric_refuted : exists (o : opts (T:=Qc)) n E b v,
  valid o /\ s_solver o = 1 /\ s_scale o = 0 /\ s_maxiter o = n + 2 /\ lis_solve o n E b [] = Ok v /\ v_status v = LIS_MAXITER.
Proof.
  exists (oq 1 0 4 (fun v => v)), 2, [(0, 0, q 1 1); (0, 1, q 1 1); (1, 1, q 1 1)], bq. eexists.
  split; [apply oq_valid; [simpl; auto 20|lia..|auto]|]. split; [reflexivity|]. split; [reflexivity|]. split; [reflexivity|].
  split; [vm_compute; reflexivity|]. reflexivity.
Qed.
Print Assumptions C52_cg_nonsymmetric_refuted.
