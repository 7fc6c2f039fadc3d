(** C55: IDR(s) (solver 21), IDR(1) (22), BiCGSTAB(l) (5), TFQMR (7) and MINRES (23). *)
Require Import Reals Lra.
Require Import ZArith List Bool Lia QArith Qcanon.
From Verif Require Import Base Scalar ScalarReal Spec SpecSolver SpecTerm SpecGmres Krylov KrylovProof TermProof TermFinal Solve SpecMore MoreFinal MinresFinal.
Import ListNotations.
Open Scope Z_scope.

(** IDR(s), s >= 1, if the residual history has room for the first s steps: no bad memory
    access; the reported norm is that of the returned x, the status agrees with it, every
    earlier recorded norm is above the limit; a run that does not converge ends at iteration
    max(s, maxiter+1).  The only other outcome is a division by zero the code does not detect. *)
Theorem C55_idrs {T} {S : Scalar T} (FT : is_field S) (EQ : eqb_ok S) (o : opts (T:=T)) n E b x :
  accepted 21 o -> 1 <= s_idrs o -> (s_mem o = true -> s_idrs o <= s_maxiter o + 1) ->
  match lis_solve o n E b x with
  | Ok v => run o n E b x (idr_ends (Z.max (s_idrs o) (s_maxiter o + 1)) o n E b x v) v
  | Err c => c = DIV_BY_ZERO
  | UB => False
  end.
Proof. exact (idrs_solve FT EQ o n E b x). Qed.
Print Assumptions C55_idrs.
(** IDR(1); with the history on, an even maxiter *)
Theorem C55_idr1 {T} {S : Scalar T} (FT : is_field S) (o : opts (T:=T)) n E b x :
  1 <= n -> accepted 22 o -> 1 <= s_idrs o -> (s_mem o = true -> Z.even (s_maxiter o) = true) ->
  match lis_solve o n E b x with
  | Ok v => run o n E b x (idr_ends (if Z.even (s_maxiter o) then s_maxiter o + 1 else s_maxiter o + 2) o n E b x v) v
  | Err c => c = DIV_BY_ZERO
  | UB => False
  end.
Proof. exact (idr1_solve FT o n E b x). Qed.
Print Assumptions C55_idr1.
(** BiCGSTAB(l) from the zero vector, with preconditioner M, if the history has room *)
Theorem C55_bicgstabl {T} {S : Scalar T} (FT : is_field S) M (o : opts (T:=T)) n E b x :
  accepted 5 o -> 1 <= s_ell o -> (forall i, 0 <= i < n -> vcomp (start o n x) i = s0) ->
  (forall k v i, 0 <= i < n -> vcomp (s_psolve o k v) i = mv_spec M n (vcomp v) i) ->
  (s_mem o = true -> (s_maxiter o / s_ell o + 1) * s_ell o <= s_maxiter o + 1) ->
  match lis_solve o n E b x with
  | Ok v => run o n E b x (bl_ends ((s_maxiter o / s_ell o + 1) * s_ell o) M o n E b x v) v
  | Err c => c = DIV_BY_ZERO
  | UB => False
  end.
Proof. exact (bl_solve FT M o n E b x). Qed.
Print Assumptions C55_bicgstabl.
(** TFQMR: counts, status and history.  Missing: that the reported number measures the residual,
    see C55_tfqmr_refuted; what it is instead is C55_tfqmr in Properties_Tfqmr *)
Theorem C55_tfqmr_partial {T} {S : Scalar T} (FT : is_field S) (o : opts (T:=T)) n E b x : accepted 7 o ->
  match lis_solve o n E b x with
  | Ok v => run o n E b x (tf_ends o n b v) v
  | Err c => c = DIV_BY_ZERO
  | UB => False
  end.
Proof. exact (tf_solve FT o n E b x). Qed.
Print Assumptions C55_tfqmr_partial.
(** MINRES with preconditioner M, M A symmetric (in particular A symmetric, M the identity):
    the reported value is ||M(b - A x)|| / ||M(b - A x0)||, the status agrees with it, the
    history never increases, and each value is the least over the Krylov space *)
Theorem C55_minres (o : opts (T:=R)) n E M b x : accepted 23 o -> 0 <= n -> is_matrix n (s_psolve o) M -> sym_product n M E ->
  match lis_solve o n E b x with
  | Ok v => minres_ends o n E M b x v
  | Err c => c = DIV_BY_ZERO
  | UB => False
  end.
Proof.
  intros HA Hn HM HY. pose proof (minres_solve false o n E M b x HA Hn HM HY ltac:(discriminate)) as H. unfold okm in H.
  destruct (lis_solve o n E b x) as [v|c|]; [apply H|apply H|exact H].
Qed.
Print Assumptions C55_minres.
(** ... A and M nonsingular, initial residual not zero, tol >= 0: there is no division by zero,
    and with maxiter >= n the run succeeds within n iterations *)
Theorem C55_minres_finite (o : opts (T:=R)) n E M b x : accepted 23 o -> 0 <= n -> is_matrix n (s_psolve o) M -> sym_product n M E ->
  nonsingular n E -> nonsingular n M -> (0 <= s_tol o)%R -> nonzero n (residual n E b (start o n x)) ->
  exists v, lis_solve o n E b x = Ok v /\ v_ret v = LIS_SUCCESS /\ (n <= s_maxiter o -> v_status v = LIS_SUCCESS /\ v_iter v <= n).
Proof.
  intros HA Hn HM HY HE HN HT HX.
  assert (HP : nonzero n (pre n E M b (start o n x))).
  { destruct (zero_or_nonzero n (pre n E M b (start o n x))) as [C|C]; [|exact C]. exfalso. destruct HX as (i & Hi & Hx). apply Hx. apply HN; [|exact Hi]. intros j Hj.
    rewrite <- (C j Hj). symmetry. exact (at_tab n (mv_spec M n (vcomp (residual n E b (start o n x)))) j Hj). }
  pose proof (minres_solve true o n E M b x HA Hn HM HY (fun _ => conj HE (conj HN (conj HT HP)))) as H. unfold okm in H.
  destruct (lis_solve o n E b x) as [v|c|]; [|destruct H; discriminate|contradiction]. exists v. split; [reflexivity|]. destruct H as (H1 & H2 & H3). split; [apply H1|]. apply H3. reflexivity.
Qed.
Print Assumptions C55_minres_finite.
(** with tolerance 0 the x returned is then the solution *)
Theorem C55_minres_exact (o : opts (T:=R)) n E M b x : accepted 23 o -> 0 <= n -> is_matrix n (s_psolve o) M -> sym_product n M E ->
  nonsingular n E -> nonsingular n M -> s_tol o = 0%R -> n <= s_maxiter o -> nonzero n (residual n E b (start o n x)) ->
  exists v, lis_solve o n E b x = Ok v /\ v_status v = LIS_SUCCESS /\ v_iter v <= n /\ forall i, 0 <= i < n -> mv_spec E n (vcomp (v_x v)) i = vcomp b i.
Proof.
  intros HA Hn HM HY HE HN HT Hm HX. destruct (C55_minres_finite o n E M b x HA Hn HM HY HE HN ltac:(lra) HX) as (v & Hv & _ & H1). destruct (H1 Hm) as (H2 & H3).
  exists v. split; [exact Hv|]. split; [exact H2|]. split; [exact H3|].
  pose proof (minres_solve false o n E M b x HA Hn HM HY ltac:(discriminate)) as H. unfold okm in H. rewrite Hv in H. destruct H as (H & HZ & _).
  destruct H as (_ & _ & _ & _ & _ & _ & _ & [(_ & _ & HQ)|(C & _)] & _); [|rewrite H2 in C; discriminate]. rewrite HT in HQ. unfold mratio in HQ.
  assert (NN : forall w, (0 <= norm2 n w)%R) by (intros w; apply sqrt_pos).
  assert (Z0 : norm2 n (pre n E M b (v_x v)) = 0%R).
  { pose proof (NN (pre n E M b (v_x v))) as N1. pose proof (NN (pre n E M b (start o n x))) as N2. destruct N1 as [N1|N1]; [|symmetry; exact N1]. exfalso.
    assert (0 < norm2 n (pre n E M b (v_x v)) / norm2 n (pre n E M b (start o n x)))%R by (apply Rdiv_lt_0_compat; lra). lra. }
  assert (P0 : forall j, 0 <= j < n -> vcomp (pre n E M b (v_x v)) j = 0%R).
  { apply GmresMath.ip_zero. apply sqrt_eq_0; [apply GmresMath.ip_nonneg|exact Z0]. }
  assert (R0 : forall j, 0 <= j < n -> vcomp (residual n E b (v_x v)) j = 0%R).
  { apply HN. intros j Hj. rewrite <- (P0 j Hj). symmetry. exact (at_tab n (mv_spec M n (vcomp (residual n E b (v_x v)))) j Hj). }
  intros i Hi. pose proof (R0 i Hi) as Hr. assert (Ht : vcomp (residual n E b (v_x v)) i = (vcomp b i - mv_spec E n (vcomp (v_x v)) i)%R) by exact (at_tab n (fun i => ssub (vcomp b i) (mv_spec E n (vcomp (v_x v)) i)) i Hi). lra.
Qed.
Print Assumptions C55_minres_exact.

(** *** where the claims fail *)
(** MINRES started from a solution, or with b = 0 and the zero vector, divides zero by zero:
    the other solvers return LIS_SUCCESS at once *)
Theorem C55_minres_solved_refuted (o : opts (T:=R)) n E M b x : accepted 23 o -> is_matrix n (s_psolve o) M ->
  (forall i, 0 <= i < n -> vcomp (residual n E b (start o n x)) i = 0%R) -> lis_solve o n E b x = Err DIV_BY_ZERO.
Proof.
  intros HA HM HX. apply (minres_zero o n E M b x HM HA). assert (P0 : forall j, 0 <= j < n -> vcomp (pre n E M b (start o n x)) j = 0%R).
  { intros j Hj. etransitivity; [exact (at_tab n (mv_spec M n (vcomp (residual n E b (start o n x)))) j Hj)|]. change (GmresMath.sm 0 n (fun k => coef M j k * vcomp (residual n E b (start o n x)) k)%R = 0%R).
    apply GmresMath.sm_zero. intros k Hk. rewrite (HX k Hk). ring. }
  change (norm2 n (pre n E M b (start o n x))) with (sqrt (GmresMath.ip n (vcomp (pre n E M b (start o n x))) (vcomp (pre n E M b (start o n x))))).
  unfold GmresMath.ip. rewrite GmresMath.sm_zero; [apply sqrt_0|]. intros k Hk. rewrite (P0 k Hk). ring.
Qed.
Print Assumptions C55_minres_solved_refuted.

Definition q (a : Z) (b : positive) : Qc := Q2Qc (a # b).
Definition op (k maxiter conv : Z) (tol : Qc) (zs mem : bool) (ell s : Z) (P : Z -> list Qc -> list Qc) : opts (T:=Qc) :=
  mkOpts k 1 maxiter conv tol (q 0 1) zs mem 0 40 (q 1 1) 0 P (fun _ v => v) None (fun _ => q 7 1) ell s
    (fun k => if k =? 0 then q 3 1 else if k =? 1 then q 4 1 else if k =? 2 then q 1 1 else q 0 1).
Lemma op_accepted k mi conv tol zs mem ell s P : 0 <= mi -> 0 <= conv <= 2 -> (k = 7 \/ k = 23 -> conv = 0) -> accepted k (op k mi conv tol zs mem ell s P).
Proof. unfold accepted, op. cbn [s_solver s_precon s_pcreate s_maxiter s_conv s_scale]. repeat split; auto; lia. Qed.
Definition none : Z -> list Qc -> list Qc := fun _ v => v.
Definition A2 : list (entry Qc) := [(0, 0, q 2 1); (0, 1, q 1 1); (1, 0, q 1 1); (1, 1, q 3 1)].
Definition ones : list Qc := [q 1 1; q 1 1].
Definition b2 : list Qc := [q 3 1; q 4 1].
Definition nul : list Qc := [q 0 1; q 0 1].
(** TFQMR reports success with residual 0 for A = ((1 1)(0 1)), b = (0,1) and returns (0,1):
    the residual is (-1,0), as large as b *)
Theorem C55_tfqmr_refuted : exists (o : opts (T:=Qc)) E b v, accepted 7 o /\ s_tol o = q 1 100 /\ lis_solve o 2 E b nul = Ok v /\
  v_status v = LIS_SUCCESS /\ v_resid v = Some (q 0 1) /\ residual 2 E b (v_x v) = [q (-1) 1; q 0 1] /\ rel (norm2 2 (residual 2 E b (v_x v))) (norm2 2 (residual 2 E b nul)) = q 1 1.
Proof.
  eexists (op 7 10 0 (q 1 100) true true 2 2 none), [(0, 0, q 1 1); (0, 1, q 1 1); (1, 1, q 1 1)], [q 0 1; q 1 1], _.
  split; [apply op_accepted; lia|]. split; [reflexivity|]. split; [vm_compute; reflexivity|]. split; [reflexivity|]. split; [vm_compute; reflexivity|]. split; vm_compute; reflexivity.
Qed.
Print Assumptions C55_tfqmr_refuted.
(** MINRES with the Jacobi preconditioner, A = ((108 117)(117 156)) (positive definite), b =
    (108,0), tolerance 1/2: success, reported 12/29, but ||b - A x||^2 and ||M(b - A x)||^2 are
    above a quarter of their initial values *)
Definition jac (d : list Qc) : Z -> list Qc -> list Qc := fun _ v => diag_times 2 d v.
Theorem C55_minres_preconditioned_refuted : exists (o : opts (T:=Qc)) E b v, accepted 23 o /\ symmetric 2 E /\ s_tol o = q 1 2 /\
  (forall k w, s_psolve o k w = diag_times 2 [sdiv s1 (coef E 0 0); sdiv s1 (coef E 1 1)] w) /\ lis_solve o 2 E b nul = Ok v /\
  v_status v = LIS_SUCCESS /\ v_resid v = Some (q 12 29) /\
  (let r := residual 2 E b (v_x v) in let r0 := residual 2 E b nul in let M := s_psolve o 0 in
   sleb (smul (q 4 1) (inner 2 r r)) (inner 2 r0 r0) = false /\ sleb (smul (q 4 1) (inner 2 (M r) (M r))) (inner 2 (M r0) (M r0)) = false).
Proof.
  eexists (op 23 10 0 (q 1 2) true true 2 2 (jac [q 1 108; q 1 156])), [(0, 0, q 108 1); (0, 1, q 117 1); (1, 0, q 117 1); (1, 1, q 156 1)], [q 108 1; q 0 1], _.
  split; [apply op_accepted; lia|]. split. { intros i j Hi Hj. assert (i = 0 \/ i = 1) as [-> | ->] by lia; assert (j = 0 \/ j = 1) as [-> | ->] by lia; apply Qc_is_canon; vm_compute; reflexivity. }
  split; [reflexivity|]. split.
  { intros k w. cbn [op s_psolve]. unfold jac. f_equal. }
  split; [vm_compute; reflexivity|]. split; [reflexivity|]. split; [cbn [v_resid]; f_equal; apply Qc_is_canon; vm_compute; reflexivity|]. split; vm_compute; reflexivity.
Qed.
Print Assumptions C55_minres_preconditioned_refuted.
(** IDR(s) writes the residual history beyond its end when s > maxiter + 1, and with s = 0 uses
    work vectors it has not allocated *)
Theorem C55_idrs_history_refuted : exists o : opts (T:=Qc), accepted 21 o /\ s_idrs o = 2 /\ s_maxiter o = 0 /\ s_mem o = true /\ lis_solve o 2 A2 b2 nul = UB.
Proof. exists (op 21 0 2 (q 1 100) true true 2 2 none). split; [apply op_accepted; lia|]. split; [reflexivity|]. split; [reflexivity|]. split; [reflexivity|]. vm_compute. reflexivity. Qed.
Print Assumptions C55_idrs_history_refuted.
Theorem C55_idrs_zero_refuted : exists o : opts (T:=Qc), accepted 21 o /\ s_idrs o = 0 /\ s_mem o = false /\ lis_solve o 2 A2 b2 nul = UB.
Proof. exists (op 21 5 2 (q 1 100) true false 2 0 none). split; [apply op_accepted; lia|]. split; [reflexivity|]. split; [reflexivity|]. vm_compute. reflexivity. Qed.
Print Assumptions C55_idrs_zero_refuted.
(** IDR(1) with an odd maxiter: one iteration more than allowed, and the history overruns *)
Theorem C55_idr1_history_refuted : exists o : opts (T:=Qc), accepted 22 o /\ s_maxiter o = 1 /\ s_mem o = true /\ lis_solve o 2 A2 b2 nul = UB.
Proof. exists (op 22 1 2 (q 1 1000000) true true 2 1 none). split; [apply op_accepted; lia|]. split; [reflexivity|]. split; [reflexivity|]. vm_compute. reflexivity. Qed.
Print Assumptions C55_idr1_history_refuted.
(** BiCGSTAB(l) with a starting vector x0 returns the solution plus x0: A (1,1) = (3,4), from
    (1,0) it reports success with residual 0 and returns (2,1) *)
Theorem C55_bicgstabl_guess_refuted : exists (o : opts (T:=Qc)) v, accepted 5 o /\ lis_solve o 2 A2 b2 [q 1 1; q 0 1] = Ok v /\
  v_status v = LIS_SUCCESS /\ v_resid v = Some (q 0 1) /\ v_x v = [q 2 1; q 1 1] /\ residual 2 A2 b2 ones = nul.
Proof.
  eexists (op 5 4 2 (q 1 100) false true 1 2 none), _. split; [apply op_accepted; lia|]. split; [vm_compute; reflexivity|]. split; [reflexivity|].
  split; [cbn [v_resid]; f_equal; apply Qc_is_canon; vm_compute; reflexivity|]. split; vm_compute; reflexivity.
Qed.
Print Assumptions C55_bicgstabl_guess_refuted.
(** ... and when it does not converge it returns the vector before preconditioning: the reported
    residual is that of M x.  Here M = 1/2 *)
Definition halve : Z -> list Qc -> list Qc := fun _ v => diag_times 2 [q 1 2; q 1 2] v.
Theorem C55_bicgstabl_maxiter_refuted : exists (o : opts (T:=Qc)) v r, accepted 5 o /\ lis_solve o 2 A2 b2 nul = Ok v /\ v_status v = LIS_MAXITER /\
  v_resid v = Some r /\ r = norm1 2 (residual 2 A2 b2 (s_psolve o 0 (v_x v))) /\ sleb r (q 1 1) = true /\ sleb (q 6 1) (norm1 2 (residual 2 A2 b2 (v_x v))) = true.
Proof.
  eexists (op 5 0 2 (q 1 1000000) true true 1 2 halve), _, _. split; [apply op_accepted; lia|]. split; [vm_compute; reflexivity|]. split; [reflexivity|]. split; [reflexivity|].
  split; [apply Qc_is_canon; vm_compute; reflexivity|]. split; vm_compute; reflexivity.
Qed.
Print Assumptions C55_bicgstabl_maxiter_refuted.
(** ... and with the default l = 2 and an even maxiter it overruns the history *)
Theorem C55_bicgstabl_history_refuted : exists o : opts (T:=Qc), accepted 5 o /\ s_ell o = 2 /\ s_maxiter o = 0 /\ s_mem o = true /\ lis_solve o 2 A2 b2 nul = UB.
Proof. exists (op 5 0 2 (q 1 1000000) true true 2 2 none). split; [apply op_accepted; lia|]. split; [reflexivity|]. split; [reflexivity|]. split; [reflexivity|]. vm_compute. reflexivity. Qed.
Print Assumptions C55_bicgstabl_history_refuted.

(** *** the hypotheses are met, and the runs are not trivial *)
Definition holds (m : res (solved (T:=Qc))) (f : solved (T:=Qc) -> bool) : bool := match m with Ok v => f v | _ => false end.
Definition A3 : list (entry Qc) := [(0, 0, q 2 1); (0, 1, q 1 1); (1, 0, q 1 1); (1, 1, q 3 1); (2, 2, q 5 1); (0, 2, q 1 1)].
Definition op3 (k s : Z) : opts (T:=Qc) :=
  mkOpts k 1 9 2 (q 1 100) (q 0 1) true true 0 40 (q 1 1) 0 none (fun _ v => v) None (fun _ => q 7 1) 2 s
    (fun k => if k =? 0 then q 3 1 else if k =? 1 then q 4 1 else if k =? 5 then q 1 1 else q 0 1).
Lemma op3_accepted k s : k <> 7 -> k <> 23 -> accepted k (op3 k s).
Proof. unfold accepted, op3. cbn [s_solver s_precon s_pcreate s_maxiter s_conv s_scale]. intros. repeat split; auto; lia. Qed.
Example C55_idrs_case : accepted 21 (op3 21 2) /\ holds (lis_solve (op3 21 2) 3 A3 [q 3 1; q 4 1; q 1 1] [q 0 1; q 0 1; q 0 1]) (fun v => (v_status v =? LIS_SUCCESS) && (v_iter v =? 4)) = true.
Proof. split; [apply op3_accepted; lia|vm_compute; reflexivity]. Qed.
Example C55_idr1_case : accepted 22 (op3 22 1) /\ holds (lis_solve (op3 22 1) 3 A3 [q 3 1; q 4 1; q 1 1] [q 0 1; q 0 1; q 0 1]) (fun v => (v_status v =? LIS_SUCCESS) && (v_iter v =? 5)) = true.
Proof. split; [apply op3_accepted; lia|vm_compute; reflexivity]. Qed.
Example C55_bicgstabl_case : accepted 5 (op 5 5 2 (q 1 100) true true 2 2 halve) /\
  (forall k v i, 0 <= i < 2 -> vcomp (halve k v) i = mv_spec [(0, 0, q 1 2); (1, 1, q 1 2)] 2 (vcomp v) i) /\
  holds (lis_solve (op 5 5 2 (q 1 100) true true 2 2 halve) 2 A2 b2 nul) (fun v => (v_status v =? LIS_SUCCESS) && (v_iter v =? 2) && seqb (vcomp (v_x v) 0) (q 1 1)) = true.
Proof.
  split; [apply op_accepted; lia|]. split; [|vm_compute; reflexivity]. intros k v i Hi. unfold halve.
  assert (i = 0 \/ i = 1) as [-> | ->] by lia.
  - change (q 1 2 * vcomp v 0 = (q 1 2 + Q2Qc 0) * vcomp v 0 + (Q2Qc 0 * vcomp v 1 + Q2Qc 0))%Qc. ring.
  - change (q 1 2 * vcomp v 1 = Q2Qc 0 * vcomp v 0 + ((q 1 2 + Q2Qc 0) * vcomp v 1 + Q2Qc 0))%Qc. ring.
Qed.
(** MINRES: A = ((0 1)(1 0)), M = 2 *)
Definition sw : list (entry R) := [(0, 1, 1%R); (1, 0, 1%R)].
Definition mm : list (entry R) := [(0, 0, 2%R); (1, 1, 2%R)].
Definition om : opts (T:=R) := mkOpts 23 1 2 0 0%R 0%R true true 0 40 1%R 0 (fun _ v => times 2 mm v) (fun _ v => v) None (fun _ => 7%R) 2 2 (fun _ => 7%R).
Example C55_minres_case : accepted 23 om /\ is_matrix 2 (s_psolve om) mm /\ sym_product 2 mm sw /\ nonsingular 2 sw /\ nonsingular 2 mm /\ nonzero 2 (residual 2 sw [1%R; 0%R] (start om 2 [])).
Proof.
  split; [|split; [|split; [|split; [|split]]]].
  - unfold accepted, om; cbn. lia.
  - intros k v i Hi. exact (at_tab 2 (mv_spec mm 2 (vcomp v)) i Hi).
  - intros i j Hi Hj. assert (i = 0 \/ i = 1) as [-> | ->] by lia; assert (j = 0 \/ j = 1) as [-> | ->] by lia; try reflexivity.
    + change ((2 + 0) * (1 + 0) + (0 * 0 + 0) = 0 * 0 + ((2 + 0) * (1 + 0) + 0))%R. ring.
    + change (0 * 0 + ((2 + 0) * (1 + 0) + 0) = (2 + 0) * (1 + 0) + (0 * 0 + 0))%R. ring.
  - intros v H i Hi. pose proof (H 0 ltac:(lia)) as H0. pose proof (H 1 ltac:(lia)) as H1.
    change (mv_spec sw 2 (vcomp v) 0) with (0 * vcomp v 0 + ((1 + 0) * vcomp v 1 + 0))%R in H0. change (mv_spec sw 2 (vcomp v) 1) with ((1 + 0) * vcomp v 0 + (0 * vcomp v 1 + 0))%R in H1.
    assert (i = 0 \/ i = 1) as [-> | ->] by lia; lra.
  - intros v H i Hi. pose proof (H 0 ltac:(lia)) as H0. pose proof (H 1 ltac:(lia)) as H1.
    change (mv_spec mm 2 (vcomp v) 0) with ((2 + 0) * vcomp v 0 + (0 * vcomp v 1 + 0))%R in H0. change (mv_spec mm 2 (vcomp v) 1) with (0 * vcomp v 0 + ((2 + 0) * vcomp v 1 + 0))%R in H1.
    assert (i = 0 \/ i = 1) as [-> | ->] by lia; lra.
  - exists 0. split; [lia|]. change (vcomp (residual 2 sw [1%R; 0%R] (start om 2 [])) 0) with (1 - (0 * 0 + ((1 + 0) * 0 + 0)))%R. lra.
Qed.
