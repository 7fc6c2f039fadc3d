(** Readable corollaries of lis_solve_seen and of the stationary solvers. *)
Require Import ZArith List Bool Lia Ring Field.
From Verif Require Import Base Scalar Spec SpecSolver Krylov Krylov2 Solve SpecSolve KrylovProof KrylovFinal SolveProof StationaryProof.
Import ListNotations.
Open Scope Z_scope.
Section P.
Context {T : Type} {S : Scalar T}.
Hypothesis FT : is_field S.
Hypothesis EQ : eqb_ok S.
Lemma RT : is_ring S. Proof. exact (F_R FT). Qed.
Let RT' : @ring_theory T s0 s1 sadd smul ssub sopp (@eq T) := RT.
Add Ring Tr : RT'.
Notation solved' := (solved (T:=T)).

Lemma safe_run {A} (m : res A) (Q : A -> Prop) v : safe m Q -> m = Ok v -> Q v.
Proof. intros H ->. exact H. Qed.
Lemma seen_run o n E b x (v : solved') : 0 <= n -> valid o -> lis_solve o n E b x = Ok v ->
  exists d, is_scaling (eff_scale o) n E d /\ seen o n E b x d v.
Proof. intros Hn HV H. exact (safe_run _ _ _ (lis_solve_seen FT EQ o n E b x Hn HV) H). Qed.

(** no scaling *)
Lemma eff0 (o : opts (T:=T)) : s_scale o = 0 -> eff_scale o = 0.
Proof. intros H. unfold eff_scale. rewrite H. reflexivity. Qed.
Definition guess (o : opts (T:=T)) n (x : list T) := if s_zeros o then zeros n else x.

Lemma true_residual o n E b x (v : solved') : 0 <= n -> valid o -> s_scale o = 0 -> s_conv o = 0 \/ s_conv o = 1 ->
  sabs (s_tol o) = s_tol o -> lis_solve o n E b x = Ok v -> v_status v = LIS_SUCCESS ->
  exists q, v_resid v = Some q /\ sleb q (s_tol o) = true /\
    q = measured (s_conv o) n b (residual n E b (if s_zeros o then zeros n else x)) (residual n E b (v_x v)).
Proof.
  intros Hn HV HS HC HT HR HO. destruct (seen_run o n E b x v Hn HV HR) as (d & _ & Hs). unfold seen in Hs.
  rewrite (eff0 o HS) in Hs. unfold weight, start_x in Hs. cbn [Z.eqb] in Hs. cbv zeta in Hs.
  destruct Hs as (_ & _ & _ & Hs). rewrite HT in Hs.
  set (x0 := if s_zeros o then zeros n else x) in *.
  assert (HI : initial_measure (s_conv o) n b (residual n E b x0) = measured (s_conv o) n b (residual n E b x0) (residual n E b x0)).
  { unfold initial_measure. destruct HC as [->| ->]; reflexivity. }
  destruct (sleb _ _) eqn:EI in Hs.
  - destruct Hs as (_ & _ & H1 & H2). rewrite HI in H1, EI. eexists. split; [exact H1|]. split; [exact EI|].
    rewrite (residual_ext n E b (v_x v) x0 H2). reflexivity.
  - destruct Hs as (H1 & _ & _ & H2). destruct H2 as [(_ & _ & q & H3 & H4 & _)|[(H3 & _)|(H3 & _)]]; [|rewrite H3 in HO; discriminate|rewrite H3 in HO; discriminate].
    exists q. split; [exact H3|]. split; [|exact (H1 q H3)].
    unfold bound in H4. destruct HC as [HC|HC]; rewrite HC in H4; exact H4.
Qed.

Lemma reported_residual o n E b x (v : solved') q : 0 <= n -> valid o -> s_scale o = 0 -> s_conv o = 0 \/ s_conv o = 1 ->
  lis_solve o n E b x = Ok v -> v_resid v = Some q ->
  q = measured (s_conv o) n b (residual n E b (if s_zeros o then zeros n else x)) (residual n E b (v_x v)) /\
  (v_status v <> LIS_SUCCESS -> v_iter v <> 1 -> sleb q (s_tol o) = false).
Proof.
  intros Hn HV HS HC HR HO. destruct (seen_run o n E b x v Hn HV HR) as (d & _ & Hs). unfold seen in Hs.
  rewrite (eff0 o HS) in Hs. unfold weight, start_x in Hs. cbn [Z.eqb] in Hs. cbv zeta in Hs.
  destruct Hs as (_ & _ & _ & Hs).
  set (x0 := if s_zeros o then zeros n else x) in *.
  assert (HI : initial_measure (s_conv o) n b (residual n E b x0) = measured (s_conv o) n b (residual n E b x0) (residual n E b x0)).
  { unfold initial_measure. destruct HC as [->| ->]; reflexivity. }
  destruct (sleb _ _) eqn:EI in Hs.
  - destruct Hs as (H0 & _ & H1 & H2). rewrite HI in H1. rewrite H1 in HO. injection HO as <-.
    rewrite (residual_ext n E b (v_x v) x0 H2). split; [reflexivity|]. intros C. contradiction.
  - destruct Hs as (H1 & _ & _ & H2). split; [exact (H1 q HO)|]. intros N1 N2.
    assert (HB : bound (s_conv o) n (s_tol o) (s_tolw o) b = s_tol o) by (unfold bound; destruct HC as [->| ->]; reflexivity).
    rewrite HB in H2. destruct H2 as [(H3 & _)|[(_ & _ & [H3|(q' & H3 & H4)])|(_ & _ & [H3|(q' & H3 & H4 & _)])]]; try contradiction; rewrite H3 in HO; injection HO as <-; exact H4.
Qed.

Lemma true_residual_nrm1 o n E b x (v : solved') : 0 <= n -> valid o -> s_scale o = 0 -> s_conv o = 2 ->
  let x0 := if s_zeros o then zeros n else x in
  sleb (rel (norm1 n (residual n E b x0)) (norm1 n b)) (sabs (s_tol o)) = false ->
  lis_solve o n E b x = Ok v -> v_status v = LIS_SUCCESS ->
  exists q, v_resid v = Some q /\ q = norm1 n (residual n E b (v_x v)) /\ sleb q (sadd (smul (norm1 n b) (s_tolw o)) (s_tol o)) = true.
Proof.
  intros Hn HV HS HC x0 HI HR HO. destruct (seen_run o n E b x v Hn HV HR) as (d & _ & Hs). unfold seen in Hs.
  rewrite (eff0 o HS) in Hs. unfold weight, start_x in Hs. cbn [Z.eqb] in Hs. cbv zeta in Hs. rewrite HC in Hs.
  destruct Hs as (_ & _ & _ & Hs). change (initial_measure 2 n b ?r) with (rel (norm1 n r) (norm1 n b)) in Hs.
  fold x0 in Hs. rewrite HI in Hs.
  destruct Hs as (H1 & _ & _ & H2). destruct H2 as [(_ & _ & q & H3 & H4 & _)|[(H3 & _)|(H3 & _)]]; [|rewrite H3 in HO; discriminate|rewrite H3 in HO; discriminate].
  exists q. split; [exact H3|]. split; [exact (H1 q H3)|exact H4].
Qed.

(** scaled systems: what is measured is the residual with row i multiplied by d_i *)
Lemma scaled_residual o n E b x (v : solved') : 0 <= n -> valid o -> s_scale o = 1 \/ s_scale o = 2 -> s_conv o = 0 \/ s_conv o = 1 ->
  sabs (s_tol o) = s_tol o -> lis_solve o n E b x = Ok v -> v_status v = LIS_SUCCESS ->
  exists d q, is_scaling (eff_scale o) n E d /\ v_resid v = Some q /\ sleb q (s_tol o) = true /\
    q = measured (s_conv o) n (dmul n d b) (dmul n d (residual n E b (start_x (eff_scale o) (s_zeros o) n d x))) (dmul n d (residual n E b (v_x v))).
Proof.
  intros Hn HV HS HC HT HR HO. destruct (seen_run o n E b x v Hn HV HR) as (d & HD & Hs). unfold seen in Hs.
  assert (HE : (eff_scale o =? 0) = false) by (unfold eff_scale; destruct HS as [-> | ->]; destruct (s_solver o =? 1); reflexivity).
  unfold weight in Hs. rewrite HE in Hs. cbv zeta in Hs.
  destruct Hs as (_ & _ & _ & Hs). rewrite HT in Hs.
  set (x0 := start_x _ _ n d x) in *.
  assert (HI : initial_measure (s_conv o) n (dmul n d b) (dmul n d (residual n E b x0)) = measured (s_conv o) n (dmul n d b) (dmul n d (residual n E b x0)) (dmul n d (residual n E b x0))).
  { unfold initial_measure. destruct HC as [->| ->]; reflexivity. }
  exists d. destruct (sleb _ _) eqn:EI in Hs.
  - destruct Hs as (_ & _ & H1 & H2). rewrite HI in H1, EI. eexists. split; [exact HD|]. split; [exact H1|]. split; [exact EI|].
    rewrite (residual_ext n E b (v_x v) x0 H2). reflexivity.
  - destruct Hs as (H1 & _ & _ & H2). destruct H2 as [(_ & _ & q & H3 & H4 & _)|[(H3 & _)|(H3 & _)]]; [|rewrite H3 in HO; discriminate|rewrite H3 in HO; discriminate].
    exists q. split; [exact HD|]. split; [exact H3|]. split; [|exact (H1 q H3)].
    unfold bound in H4. destruct HC as [HC|HC]; rewrite HC in H4; exact H4.
Qed.

Lemma no_ub o n E b x : 0 <= n -> valid o ->
  lis_solve o n E b x <> UB /\ forall c, lis_solve o n E b x = Err c -> c = DIV_BY_ZERO.
Proof.
  intros Hn HV. pose proof (lis_solve_seen FT EQ o n E b x Hn HV) as H. destruct (lis_solve o n E b x); split; try discriminate; intros; cbn in H; try congruence; contradiction.
Qed.
Lemma iterations o n E b x (v : solved') : 0 <= n -> valid o -> lis_solve o n E b x = Ok v ->
  zlen (v_rh v) = s_maxiter o + 2 /\ znth s0 (v_rh v) 0 = s1 /\ 1 <= v_iter v <= s_maxiter o + 1 /\
  (v_status v = LIS_SUCCESS /\ (v_iter v <= s_maxiter o \/ v_iter v = 1) \/
   v_status v = LIS_BREAKDOWN /\ v_iter v <= s_maxiter o \/
   v_status v = LIS_MAXITER /\ v_iter v = s_maxiter o + 1).
Proof.
  intros Hn HV HR. destruct (seen_run o n E b x v Hn HV HR) as (d & _ & Hs). unfold seen in Hs. cbv zeta in Hs.
  destruct Hs as (_ & H1 & H2 & Hs). split; [exact H1|]. split; [exact H2|].
  assert (0 <= s_maxiter o) by (destruct HV as (_ & _ & _ & _ & V & _); exact V).
  destruct (sleb _ _) in Hs.
  - destruct Hs as (H3 & H4 & _). split; [lia|]. left. split; [exact H3|lia].
  - destruct Hs as (_ & H3 & _ & H4). split; [exact H3|]. destruct H4 as [(A & B & _)|[(A & B & _)|(A & B & _)]]; auto.
Qed.
Lemma history o n E b x (v : solved') : 0 <= n -> valid o -> s_scale o = 0 -> s_mem o = true ->
  lis_solve o n E b x = Ok v ->
  let x0 := if s_zeros o then zeros n else x in
  let B := bound (s_conv o) n (s_tol o) (s_tolw o) b in
  sleb (initial_measure (s_conv o) n b (residual n E b x0)) (sabs (s_tol o)) = false ->
  (forall j, 1 <= j < v_iter v -> sleb (znth s0 (v_rh v) j) B = false) /\
  (v_status v = LIS_SUCCESS -> sleb (znth s0 (v_rh v) (v_iter v)) B = true /\ v_resid v = Some (znth s0 (v_rh v) (v_iter v))).
Proof.
  intros Hn HV HS HM HR x0 B HI. destruct (seen_run o n E b x v Hn HV HR) as (d & _ & Hs). unfold seen in Hs.
  rewrite (eff0 o HS) in Hs. unfold weight, start_x in Hs. cbn [Z.eqb] in Hs. cbv zeta in Hs.
  destruct Hs as (_ & _ & _ & Hs). fold x0 in Hs. rewrite HI in Hs. fold B in Hs.
  destruct Hs as (_ & _ & H3 & H4). split; [exact (H3 HM)|]. intros HO.
  destruct H4 as [(_ & _ & q & A & C & D)|[(A & _)|(A & _)]]; [|rewrite A in HO; discriminate|rewrite A in HO; discriminate].
  rewrite (D HM). split; [exact C|exact A].
Qed.
Lemma accepted o n E b x (v : solved') : 0 <= n -> valid o -> s_scale o = 0 -> lis_solve o n E b x = Ok v ->
  let x0 := if s_zeros o then zeros n else x in
  let m := initial_measure (s_conv o) n b (residual n E b x0) in
  sleb m (sabs (s_tol o)) = true ->
  v_status v = LIS_SUCCESS /\ v_iter v = 1 /\ v_resid v = Some m /\ (forall i, 0 <= i < n -> vcomp (v_x v) i = vcomp x0 i).
Proof.
  intros Hn HV HS HR x0 m HI. destruct (seen_run o n E b x v Hn HV HR) as (d & _ & Hs). unfold seen in Hs.
  rewrite (eff0 o HS) in Hs. unfold weight, start_x in Hs. cbn [Z.eqb] in Hs. cbv zeta in Hs.
  destruct Hs as (_ & _ & _ & Hs). fold x0 in Hs. fold m in Hs. rewrite HI in Hs. exact Hs.
Qed.
(** an exact initial vector: the measure is 0 *)
Lemma exact_measure conv n b (r0 : list T) : ssqrt s0 = s0 -> sabs s0 = s0 -> sconj s0 = s0 -> conv = 0 \/ conv = 1 \/ conv = 2 ->
  (forall i, 0 <= i < n -> vcomp r0 i = s0) -> initial_measure conv n b r0 = s0.
Proof.
  intros Hq Ha Hc HC Hr.
  assert (N2 : norm2 n r0 = s0).
  { unfold norm2. rewrite (ssum_map_ext _ (fun _ => s0)); [rewrite (ssum_map_zero RT); exact Hq|].
    intros i Hi. apply In_zrange in Hi. rewrite Hr by lia. rewrite Hc. ring. }
  assert (N1 : norm1 n r0 = s0).
  { unfold norm1. rewrite (ssum_map_ext _ (fun _ => s0)); [apply (ssum_map_zero RT)|].
    intros i Hi. apply In_zrange in Hi. rewrite Hr by lia. exact Ha. }
  assert (Rz : forall q, rel s0 q = s0).
  { intros q. unfold rel. destruct (seqb q s0); [reflexivity|]. rewrite (Fdiv_def FT s0 q). ring. }
  unfold initial_measure, measured. destruct HC as [->|[->| ->]]; cbn [Z.eqb Pos.eqb orb]; rewrite ?N1, ?N2; apply Rz.
Qed.
Lemma exact_guess o n E b x (v : solved') : 0 <= n -> valid o -> s_scale o = 0 -> ssqrt s0 = s0 -> sabs s0 = s0 -> sconj s0 = s0 ->
  sleb s0 (sabs (s_tol o)) = true -> s_zeros o = false -> (forall i, 0 <= i < n -> mv_spec E n (vcomp x) i = vcomp b i) ->
  lis_solve o n E b x = Ok v ->
  v_status v = LIS_SUCCESS /\ v_iter v = 1 /\ v_resid v = Some s0 /\ (forall i, 0 <= i < n -> vcomp (v_x v) i = vcomp x i).
Proof.
  intros Hn HV HS Hq Ha Hc HT HZ HX HR. pose proof (accepted o n E b x v Hn HV HS HR) as A. cbv zeta in A. rewrite HZ in A.
  rewrite (exact_measure (s_conv o) n b (residual n E b x) Hq Ha Hc) in A.
  - apply A. exact HT.
  - destruct HV as (_ & _ & _ & _ & _ & _ & V & _). exact V.
  - intros i Hi. rewrite residual_at by auto. rewrite HX by auto. unfold vcomp, at_. ring.
Qed.

(** the stationary solvers under lis_solve *)
Lemma stationary_solve o n E b x (v : solved') : 0 <= n -> s_solver o = 10 \/ s_solver o = 11 \/ s_solver o = 12 ->
  s_precon o = 0 -> (forall k w i, 0 <= i < n -> vcomp (s_psolve o k w) i = vcomp w i) -> s_scale o = 0 ->
  lis_solve o n E b x = Ok v -> v_ret v = LIS_SUCCESS -> (v_status v = LIS_SUCCESS \/ 1 < v_iter v) ->
  exists xp q, v_resid v = Some q /\ q = rel (norm2 n (residual n E b xp)) (norm2 n b) /\
    (v_status v = LIS_SUCCESS -> sleb q (s_tol o) = true) /\ is_update (s_solver o) (s_omega o) n E b xp (v_x v).
Proof.
  intros Hn HK HP HN HS HR HV HO. unfold lis_solve in HR.
  assert (HD : forall c, c <> 0 -> Ok (mkSolved c c 0 None x [] E b) = Ok v -> False).
  { intros c Hc H. injection H as <-. apply Hc. exact HV. }
  destruct ((s_precon o <? 0) || (s_precon o >? 10)); [exfalso; eapply HD; [|exact HR]; discriminate|].
  destruct (negb (s_pcreate o =? 0)) eqn:E1; [exfalso; eapply HD; [|exact HR]; apply negb_true_iff in E1; apply Z.eqb_neq in E1; exact E1|].
  destruct ((s_solver o <? 1) || (s_solver o >? 25)); [exfalso; eapply HD; [|exact HR]; discriminate|].
  destruct (s_maxiter o <? 0) eqn:EM; [exfalso; eapply HD; [|exact HR]; discriminate|]. apply Z.ltb_ge in EM.
  destruct ((s_conv o >? 0) && conv_null (s_solver o)); [exfalso; eapply HD; [|exact HR]; discriminate|].
  destruct (negb (check_params o =? 0)) eqn:E2; [exfalso; eapply HD; [|exact HR]; apply negb_true_iff in E2; apply Z.eqb_neq in E2; exact E2|].
  rewrite HP in HR. cbn [Z.eqb negb andb orb] in HR. rewrite andb_false_r in HR. rewrite HS in HR. cbn [Z.eqb negb andb orb] in HR.
  rewrite wr_ok in HR by (unfold tab, zlen; rewrite map_length; pose proof (zlen_zrange 0 (s_maxiter o + 2)) as HL; unfold zlen in HL; lia).
  cbn [bind] in HR.
  set (e := mkEnv n E b _ _ _ _ _ _ _ _ _) in HR. set (xx := if s_zeros o then _ else _) in HR. set (rh := zupd _ 0 s1) in HR.
  assert (Hrh : zlen rh = e_maxiter e + 2).
  { unfold rh. rewrite zlen_zupd. unfold tab, zlen; rewrite map_length; pose proof (zlen_zrange 0 (s_maxiter o + 2)) as HL; unfold zlen in HL. unfold e. cbn [e_maxiter]. lia. }
  assert (NP : no_precon e) by (intros k w i Hi; apply HN; exact Hi).
  assert (HX : safe (execute o e xx rh) (stat_final (s_solver o) (s_omega o) e rh)).
  { unfold execute. destruct HK as [-> |[-> | ->]].
    - apply (jacobi_final FT EQ); auto.
    - apply safe_bind. eapply safe_mono; [apply (gs_final FT EQ e xx rh (s_omega o)); auto|]. intros [r w] H. exact H.
    - apply safe_bind. eapply safe_mono; [apply (sor_final FT EQ e xx rh (s_omega o)); auto|]. intros [r w] H. exact H. }
  destruct (execute o e xx rh) as [r| |]; cbn [bind] in HR; [|discriminate|discriminate]. cbn [safe] in HX.
  injection HR as <-. cbn [v_status v_iter v_resid v_x] in *.
  destruct HX as (_ & _ & _ & HX). destruct (HX ltac:(destruct HO; auto)) as (xp & q & H1 & H2 & H3 & H4 & _).
  exists xp, q. split; [exact H1|]. split; [exact H3|]. split; [exact H4|].
  unfold is_update in *. cbv zeta in *. intros i Hi. specialize (H2 i Hi). cbn [e e_n e_E e_b] in H2.
  assert (CX : forall j, 0 <= j < n -> vcomp (copy n (o_x r)) j = vcomp (o_x r) j).
  { intros j Hj. apply at_copy. exact Hj. }
  rewrite CX by auto. rewrite <- H2. f_equal. destruct (s_solver o =? 10); [reflexivity|].
  apply ssum_map_ext. intros j Hj. apply In_zrange in Hj. rewrite CX by lia. reflexivity.
Qed.
End P.
