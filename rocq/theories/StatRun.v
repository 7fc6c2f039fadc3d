(** The run of a stationary solver, step by step. *)
Require Import ZArith List Bool Lia Ring Field.
From Verif Require Import Base Scalar Spec SpecSolver Krylov Krylov2 Solve SpecSolve MatvecProof KrylovProof KrylovFinal SolveProof StationaryProof TermProof SpecTerm SpecStat.
Import ListNotations.
Open Scope Z_scope.

Section P.
Context {T : Type} {S : Scalar T}.
Hypothesis FT : is_field S.
Hypothesis EQ : eqb_ok S.
Let RT : is_ring S := F_R FT.
Let RT' : @ring_theory T s0 s1 sadd smul ssub sopp (@eq T) := RT.
Add Ring Tr : RT'.
Notation vec := (vect (T:=T)).

Section Run.
Variable e : env (T:=T).
Variable step : vec -> vec.
Variable x rh : vec.
Hypothesis Hm : 0 <= e_maxiter e.
Hypothesis Hrh : zlen rh = e_maxiter e + 2.
Hypothesis HN : no_precon e.
Hypothesis HB : norm2 (e_n e) (e_b e) <> s0.
Definition rs (it : Z) (y : vec) : vec := axpyz (e_n e) (sopp s1) (matvec (e_n e) (e_E e) (e_psolve e it y)) (e_b e).
Fixpoint X (s : nat) : vec := match s with O => x | Datatypes.S p => axpy (e_n e) s1 (step (rs (Z.of_nat p + 1) (X p))) (X p) end.
Definition ms (s : nat) : T := rel (norm2 (e_n e) (residual (e_n e) (e_E e) (e_b e) (X s))) (norm2 (e_n e) (e_b e)).
Lemma rs_at it y i : 0 <= i < e_n e -> at_ (rs it y) i = vcomp (residual (e_n e) (e_E e) (e_b e) y) i.
Proof using RT HN FT. clear Hm Hrh HB.
  intros Hi. unfold rs. rewrite at_axpyz, at_matvec, residual_at by auto. unfold mv.
  rewrite (mv_spec_ext (e_E e) (e_n e) (at_ (e_psolve e it y)) (vcomp y)); [unfold vcomp, at_; ring|]. intros j Hj. apply HN. auto.
Qed.
Definition run_post (o : sol (T:=T)) : Prop := exists m : nat,
  zlen (o_rh o) = e_maxiter e + 2 /\ (forall i, 0 <= i < e_n e -> at_ (o_x o) i = at_ (X m) i) /\
  o_resid o = match m with O => None | Datatypes.S p => Some (ms p) end /\
  (forall s, (Datatypes.S s < m)%nat -> sleb (ms s) (e_tol e) = false) /\
  (o_ret o = LIS_SUCCESS /\ o_iter o = Z.of_nat m /\ 1 <= o_iter o <= e_maxiter e /\ sleb (ms (Nat.pred m)) (e_tol e) = true \/
   o_ret o = LIS_MAXITER /\ o_iter o = e_maxiter e + 1 /\ Z.of_nat m = e_maxiter e /\ (1 <= e_maxiter e -> sleb (ms (Nat.pred m)) (e_tol e) = false)) /\
  (e_mem e = true -> forall s, (s < m)%nat -> vcomp (o_rh o) (Z.of_nat s + 1) = ms s).
Lemma run_ok_ : wp (stationary e step x rh) run_post.
Proof using All.
  unfold stationary. cbv zeta. unfold divz.
  change (nrm2 (e_n e) (e_b e)) with (norm2 (e_n e) (e_b e)).
  destruct (seqb (norm2 (e_n e) (e_b e)) s0) eqn:EB; [apply EQ in EB; contradiction|]. cbn [bind].
  set (bn := sdiv s1 (norm2 (e_n e) (e_b e))).
  set (body := stationary_iter e bn step).
  assert (G : forall f s nrm rh', Z.of_nat f = e_maxiter e - Z.of_nat s -> zlen rh' = e_maxiter e + 2 ->
    nrm = match s with O => None | Datatypes.S p => Some (ms p) end ->
    (forall j, (j < s)%nat -> sleb (ms j) (e_tol e) = false) ->
    (e_mem e = true -> forall j, (j < s)%nat -> vcomp rh' (Z.of_nat j + 1) = ms j) ->
    wp (iterate f (Z.of_nat s + 1) body (X s, nrm, rh')) (fun '(ret, iter, (x', nrm', rh'')) =>
      run_post (mkSol ret iter nrm' (if ret =? LIS_MAXITER then copy (e_n e) (e_psolve e iter x') else x') rh''))).
  { induction f as [|f IH]; intros s nrm rh' H1 H2 H3 H4 H5; cbn [iterate].
    - cbn [wp]. exists s. cbn [o_rh o_x o_resid o_ret o_iter]. change (LIS_MAXITER =? LIS_MAXITER) with true. cbn match.
      split; [exact H2|]. split; [intros i Hi; rewrite at_copy by auto; apply HN; auto|]. split; [exact H3|]. split; [intros j Hj; apply H4; lia|].
      split; [|exact H5]. right. split; [reflexivity|]. split; [lia|]. split; [lia|]. intros Hx. apply H4. lia.
    - unfold body at 1, stationary_iter. cbv zeta beta iota. unfold lt.
      fold (rs (Z.of_nat s + 1) (X s)). change (axpy (e_n e) s1 (step (rs (Z.of_nat s + 1) (X s))) (X s)) with (X (Datatypes.S s)).
      set (q := smul (nrm2 (e_n e) (rs (Z.of_nat s + 1) (X s))) bn).
      assert (HQ : q = ms s).
      { unfold q, bn, ms. rewrite <- (rel_mul FT). rewrite EB. f_equal. apply norm2_ext. intros i Hi. apply (rs_at _ _ i Hi). }
      assert (HW : exists rh2, (if e_mem e then wr rh' (Z.of_nat s + 1) q else Ok rh') = Ok rh2 /\ zlen rh2 = e_maxiter e + 2 /\ (e_mem e = true -> forall j, (j < Datatypes.S s)%nat -> vcomp rh2 (Z.of_nat j + 1) = ms j)).
      { destruct (e_mem e); [|exists rh'; split; [reflexivity|split; [exact H2|discriminate]]].
        rewrite wr_ok by lia. eexists. split; [reflexivity|]. split; [len; lia|]. intros _ j Hj. unfold vcomp. rewrite znth_zupd by lia.
        destruct (Z.of_nat j + 1 =? Z.of_nat s + 1) eqn:E1.
        - apply Z.eqb_eq in E1. replace j with s by lia. exact HQ.
        - apply Z.eqb_neq in E1. apply H5; [reflexivity|lia]. }
      destruct HW as (rh2 & -> & W1 & W2). cbn [bind]. rewrite HQ. destruct (sleb (ms s) (e_tol e)) eqn:EQ1; cbn [bind].
      + cbn [wp]. exists (Datatypes.S s). cbn [o_rh o_x o_resid o_ret o_iter]. change (LIS_SUCCESS =? LIS_MAXITER) with false. cbn match.
        split; [exact W1|]. split; [intros i Hi; rewrite at_copy by auto; apply HN; auto|]. split; [reflexivity|]. split; [intros j Hj; apply H4; lia|].
        split; [|exact W2]. left. split; [reflexivity|]. split; [lia|]. split; [lia|]. exact EQ1.
      + replace (Z.of_nat s + 1 + 1) with (Z.of_nat (Datatypes.S s) + 1) by lia. apply IH; [lia|exact W1|reflexivity| |exact W2].
        intros j Hj. destruct (Nat.eq_dec j s) as [->|]; [exact EQ1|apply H4; lia]. }
  specialize (G (Z.to_nat (e_maxiter e)) O None rh). cbn [X] in G. change (Z.of_nat 0 + 1) with 1 in G.
  assert (G' := G ltac:(lia) Hrh eq_refl ltac:(lia) ltac:(lia)). clear G.
  apply wp_bind. eapply wp_mono; [exact G'|]. intros [[ret iter] [[x' nrm'] rh'']] Hp. exact Hp.
Qed.
End Run.

Lemma reciprocal_wp n (d0 : vec) : 0 <= n -> zlen d0 = n -> (forall i, 0 <= i < n -> at_ d0 i <> s0) ->
  wp (reciprocal n d0) (fun d => zlen d = n /\ forall i, 0 <= i < n -> smul (at_ d i) (at_ d0 i) = s1).
Proof.
  intros Hn HL HZ. unfold reciprocal.
  apply (for_wp' (fun k d => zlen d = n /\ (forall i, 0 <= i < k -> smul (at_ d i) (at_ d0 i) = s1) /\ (forall i, k <= i < n -> at_ d i = at_ d0 i))); [exact Hn| | |].
  - split; [exact HL|]. split; [intros; lia|auto].
  - intros k d Hk (H1 & H2 & H3). rewrite H3 by lia. rewrite (divz_ok EQ) by (apply HZ; lia). cbn [bind]. rewrite wr_ok by lia. cbn [wp].
    split; [len; lia|]. split.
    + intros i Hi. unfold at_ at 1. rewrite znth_zupd by lia. destruct (i =? k) eqn:E'.
      * apply Z.eqb_eq in E'. subst i. exact (Finv_l FT _ (HZ k Hk)).
      * apply H2. apply Z.eqb_neq in E'. lia.
    + intros i Hi. unfold at_ at 1. rewrite znth_zupd by lia. destruct (i =? k) eqn:E'; [apply Z.eqb_eq in E'; lia|]. apply H3. lia.
  - intros d (H1 & H2 & _). auto.
Qed.

Lemma stat_solve (k : Z) (o : opts (T:=T)) n E b x : 0 <= n -> stat_accepts k o -> no_change n (s_psolve o) ->
  (forall i, 0 <= i < n -> coef E i i <> s0) -> norm2 n b <> s0 -> (k = 12 -> s_omega o <> s0) ->
  exists v X m, lis_solve o n E b x = Ok v /\ trajectory k (s_omega o) n E b (start_x 0 (s_zeros o) n [] x) X /\ stat_run n E b o X m v.
Proof.
  intros Hn (HK & A1 & A2 & A3 & A4 & A5 & A6 & A7) HN HD HB HO. unfold lis_solve.
  rewrite A2, A3, A5, A6. cbn [Z.eqb negb andb orb Z.ltb Z.gtb Z.compare].
  assert (B2 : (s_solver o <? 1) || (s_solver o >? 25) = false) by (rewrite A1; destruct HK as [->|[->| ->]]; reflexivity). rewrite B2.
  assert (B5 : (s_maxiter o <? 0) = false) by (apply Z.ltb_ge; lia). rewrite B5.
  assert (B6 : check_params o = 0).
  { unfold check_params. rewrite A1. destruct HK as [->|[->| HK]]; [reflexivity|reflexivity|]. rewrite HK. destruct (A7 HK) as (C1 & C2). rewrite C1, C2. reflexivity. }
  rewrite B6. cbn [Z.eqb negb andb orb]. rewrite !andb_false_r. cbn [andb orb negb].
  assert (HL : zlen (tab (s_maxiter o + 2) (s_junk o)) = s_maxiter o + 2) by (unfold tab, zlen; rewrite map_length; pose proof (zlen_zrange 0 (s_maxiter o + 2)) as HL; unfold zlen in HL; lia).
  rewrite wr_ok by lia. cbn [bind Z.eqb andb negb orb]. rewrite ?andb_false_r. cbn [bind orb negb andb]. cbv beta iota.
  set (e := mkEnv n E b (s_psolve o) (s_psolveh o) (s_maxiter o) 0 (s_tol o) (s_tolw o) (s_zeros o) (s_mem o) (s_shadow o)). set (xx := if s_zeros o then _ else _). set (rh := zupd _ 0 s1).
  assert (Hrh : zlen rh = e_maxiter e + 2) by (unfold rh; rewrite zlen_zupd; exact HL).
  assert (NP : no_precon e) by (intros j w i Hi; apply HN; exact Hi).
  assert (Hxx : forall i, 0 <= i < n -> vcomp xx i = vcomp (start_x 0 (s_zeros o) n [] x) i).
  { intros i Hi. unfold xx, start_x. cbn [Z.eqb]. destruct (s_zeros o); [reflexivity|]. exact (at_tab n (at_ x) i Hi). }
  assert (F : forall step, (forall xp r y, (forall i, 0 <= i < n -> at_ r i = vcomp (residual n E b xp) i) -> (forall i, 0 <= i < n -> at_ y i = sadd (at_ xp i) (at_ (step r) i)) -> is_update k (s_omega o) n E b xp y) ->
    wp (stationary e step xx rh) (fun r => exists X m, trajectory k (s_omega o) n E b (start_x 0 (s_zeros o) n [] x) X /\
       stat_run n E b o X m (mkSolved LIS_SUCCESS (o_ret r) (o_iter r) (o_resid r) (copy n (o_x r)) (o_rh r) E b))).
  { intros step HS. assert (W := run_ok_ e step xx rh A4 Hrh NP HB). destruct (stationary e step xx rh) as [r| |]; cbn [wp] in *; [|contradiction|contradiction].
    destruct W as (m & W1 & W2 & W3 & W4 & W5 & W6). exists (X e step xx), m. split.
    - split; [exact Hxx|]. intros s. apply (HS (X e step xx s) (rs e (Z.of_nat s + 1) (X e step xx s))).
      + intros i Hi. apply (rs_at e NP _ _ i Hi).
      + intros i Hi. cbn [X]. rewrite at_axpy by auto. ring.
    - unfold stat_run. cbn [v_ret v_rh v_x v_resid v_status v_iter]. split; [reflexivity|]. split; [exact W1|].
      split; [intros i Hi; etransitivity; [exact (at_tab n (at_ (o_x r)) i Hi)|exact (W2 i Hi)]|]. split; [exact W3|]. split; [exact W4|]. split; [exact W5|exact W6]. }
  assert (Fin : wp (execute o e xx rh) (fun r => exists X m, trajectory k (s_omega o) n E b (start_x 0 (s_zeros o) n [] x) X /\
       stat_run n E b o X m (mkSolved LIS_SUCCESS (o_ret r) (o_iter r) (o_resid r) (copy n (o_x r)) (o_rh r) E b))).
  { assert (DL : zlen (diagonal e) = n) by (apply (diagonal_len e); exact Hn).
    assert (DZ : forall i, 0 <= i < n -> at_ (diagonal e) i <> s0) by (intros i Hi; rewrite (diagonal_at e) by exact Hi; apply HD; exact Hi).
    unfold execute. rewrite A1. destruct HK as [HK|[HK|HK]]; rewrite HK in *.
    - unfold lis_jacobi. change (e_n e) with n. wbind. eapply wp_mono; [apply (reciprocal_wp n (diagonal e)); auto|]. intros d (D1 & D2). apply F.
      intros xp r x1 HR HX i Hi. change (10 =? 12) with false. change (10 =? 10) with true. cbn match.
      unfold vcomp at 1 2. fold (at_ x1 i) (at_ xp i). rewrite HX by auto. rewrite <- HR by auto.
      unfold pmul. rewrite at_tab by auto. specialize (D2 i Hi). rewrite (diagonal_at e) in D2 by auto. change (e_E e) with E in D2.
      transitivity (smul (at_ r i) (smul (at_ d i) (coef E i i))); [ring|]. rewrite D2. ring.
    - unfold lis_gs. change (e_n e) with n. change (e_E e) with E. apply wp_bind. apply wp_bind. eapply wp_mono; [apply (reciprocal_wp n (diagonal e)); auto|]. intros d (D1 & D2). apply wp_bind.
      eapply wp_mono; [apply F|].
      + intros xp r x1 HR HX. apply (triangular_update FT 11 (s_omega o) e d xp r x1); auto; [lia|].
        intros i Hi. change (11 =? 12) with false. cbn match. rewrite <- (diagonal_at e) by auto. apply D2. auto.
      + intros r Hr. exact Hr.
    - unfold lis_sor. change (e_n e) with n. change (e_E e) with E. rewrite (divz_ok EQ) by (apply HO; reflexivity). cbn [bind].
      assert (SL : zlen (Krylov.scale n (sdiv s1 (s_omega o)) (diagonal e)) = n) by (unfold Krylov.scale, tab, zlen; rewrite map_length; pose proof (zlen_zrange 0 n) as HL'; unfold zlen in HL'; lia).
      assert (W0 : sdiv s1 (s_omega o) <> s0).
      { intros C. assert (C' := Finv_l FT (s_omega o) (HO eq_refl)). cbv beta in C'. rewrite C in C'. apply (F_1_neq_0 FT). rewrite <- C'. ring. }
      apply wp_bind. apply wp_bind. eapply wp_mono; [apply (reciprocal_wp n (Krylov.scale n (sdiv s1 (s_omega o)) (diagonal e))); auto|].
      + intros i Hi C. rewrite at_scale in C by auto. apply (DZ i Hi).
        transitivity (smul (smul (sdiv s1 (s_omega o)) (s_omega o)) (at_ (diagonal e) i)).
        * pose proof (Finv_l FT (s_omega o) (HO eq_refl)) as C'. cbv beta in C'. rewrite C'. ring.
        * transitivity (smul (s_omega o) (smul (sdiv s1 (s_omega o)) (at_ (diagonal e) i))); [ring|]. rewrite C. ring.
      + intros d (D1 & D2). apply wp_bind. eapply wp_mono; [apply F|].
        * intros xp r x1 HR HX. apply (triangular_update FT 12 (s_omega o) e d xp r x1); auto; [lia|].
          intros i Hi. change (12 =? 12) with true. cbn match. rewrite <- (D2 i Hi).
          rewrite at_scale, (diagonal_at e) by auto. change (e_E e) with E. rewrite (Fdiv_def FT (coef E i i) (s_omega o)). ring.
        * intros r Hr. exact Hr. }
  destruct (execute o e xx rh) as [r| |]; cbn [wp bind] in *; [|contradiction|contradiction].
  destruct Fin as (X' & m & F1 & F2). exists (mkSolved LIS_SUCCESS (o_ret r) (o_iter r) (o_resid r) (copy n (o_x r)) (o_rh r) E b), X', m. split; [reflexivity|]. split; [exact F1|exact F2].
Qed.
End P.
