(** TFQMR, BiCGSTAB(l), IDR(s), IDR(1) and MINRES through lis_solve. *)
Require Import Reals Lra ZArith List Bool Lia.
From Verif Require Import Base Scalar ScalarReal Spec SpecSolver SpecTerm SpecGmres Krylov Krylov2 Krylov3 Solve SolveProof SpecMore MatvecProof KrylovProof IdrProof BlProof TfProof.
Import ListNotations.
Open Scope Z_scope.

Section P.
Context {T : Type} {S : Scalar T}.
Hypothesis FT : is_field S.
Hypothesis EQ : eqb_ok S.
Definition menv (o : opts (T:=T)) n E b := mkEnv n E b (s_psolve o) (s_psolveh o) (s_maxiter o) (s_conv o) (s_tol o) (s_tolw o) (s_zeros o) (s_mem o) (s_shadow o).
Definition guess' (o : opts (T:=T)) n (x : list T) := if s_zeros o then set_all n s0 else copy n x.
Definition rh0 (o : opts (T:=T)) := zupd (tab (s_maxiter o + 2) (s_junk o)) 0 s1.
Lemma zlen_tab_ (k : Z) (f : Z -> T) : 0 <= k -> zlen (tab k f) = k.
Proof. intros. unfold tab, zlen. rewrite map_length. pose proof (zlen_zrange 0 k) as H0. unfold zlen in H0. lia. Qed.
Lemma zlen_rh0 (o : opts (T:=T)) : 0 <= s_maxiter o -> zlen (rh0 o) = s_maxiter o + 2.
Proof. intros. unfold rh0. rewrite zlen_zupd, zlen_tab_ by lia. reflexivity. Qed.
Lemma rh0_0 (o : opts (T:=T)) : 0 <= s_maxiter o -> znth s0 (rh0 o) 0 = s1.
Proof. intros. unfold rh0. rewrite znth_zupd by (rewrite zlen_tab_; lia). reflexivity. Qed.
Lemma reduce k (o : opts (T:=T)) n E b x : In k [5; 7; 21; 22; 23] -> (k = 5 -> 1 <= s_ell o) -> accepted k o ->
  lis_solve o n E b x = bind (execute o (menv o n E b) (guess' o n x) (rh0 o)) (fun r => Ok (mkSolved LIS_SUCCESS (o_ret r) (o_iter r) (o_resid r) (copy n (o_x r)) (o_rh r) E b)).
Proof.
  intros Hk Hl (A1 & A2 & A3 & A4 & A5 & A6 & A7 & A8). unfold lis_solve.
  assert (B1 : (s_precon o <? 0) || (s_precon o >? 10) = false).
  { apply orb_false_iff. split; [apply Z.ltb_ge; lia|rewrite Z.gtb_ltb; apply Z.ltb_ge; lia]. }
  rewrite B1, A4, A8. cbn [Z.eqb negb]. rewrite A1.
  assert (B2 : (k <? 1) || (k >? 25) = false /\ (10 <=? k) && (k <=? 12) = false /\ (k =? 1) = false) by (cbn [In] in Hk; repeat (destruct Hk as [Hk|Hk]; [rewrite <- Hk; repeat split; reflexivity|]); contradiction).
  destruct B2 as (B2 & B3 & B4). rewrite B2, B3.
  assert (B5 : (s_maxiter o <? 0) = false) by (apply Z.ltb_ge; lia). rewrite B5.
  assert (B6 : check_params o = 0).
  { unfold check_params. rewrite A1. cbn [In] in Hk. repeat (destruct Hk as [Hk|Hk]; [rewrite <- Hk in *; try reflexivity|]); try contradiction.
    cbn [Z.eqb Pos.eqb orb andb]. destruct (Z.ltb_spec (s_ell o) 1) as [Hq|Hq]; [specialize (Hl eq_refl); lia|reflexivity]. }
  assert (B7 : (s_conv o >? 0) && conv_null k = false).
  { destruct (s_conv o >? 0) eqn:Ec; [|reflexivity]. rewrite Z.gtb_ltb in Ec. apply Z.ltb_lt in Ec. cbn [andb]. cbn [In] in Hk.
    repeat (destruct Hk as [Hk|Hk]; [rewrite <- Hk in *; try reflexivity; exfalso; specialize (A7 ltac:(auto)); lia|]). contradiction. }
  rewrite B7, B6. cbn [Z.eqb negb]. destruct (s_precon o =? 5) eqn:B8; [apply Z.eqb_eq in B8; lia|].
  cbn [andb orb negb Z.eqb]. rewrite wr_ok by (rewrite zlen_tab_ by lia; lia). cbn [bind]. reflexivity.
Qed.
Lemma zeros_guess o n E b x : zeros_ok (menv o n E b) (guess' o n x).
Proof. intros Hz i Hi. cbn [menv e_zeros] in Hz. unfold guess'. rewrite Hz. apply (at_tab n (fun _ => s0)). exact Hi. Qed.
Lemma guess_start o n (x : list T) i : 0 <= i < n -> vcomp (guess' o n x) i = vcomp (start o n x) i.
Proof. intros Hi. unfold guess', start. destruct (s_zeros o); [reflexivity|]. exact (at_tab n (at_ x) i Hi). Qed.

(** what get_initial_residual computes *)
Lemma first_spec o n E b x p bn tol nr acc : 0 <= s_conv o <= 2 -> get_initial_residual (menv o n E b) (guess' o n x) = (p, bn, tol, nr, acc) ->
  let r0 := residual n E b (start o n x) in
  nr = initial_measure (s_conv o) n b r0 /\ acc = sleb nr (sabs (s_tol o)) /\ tol = limit o n b /\
  forall y, get_residual (menv o n E b) bn (tres (menv o n E b) y) = measured (s_conv o) n b r0 (residual n E b y).
Proof.
  intros HC HG. cbv zeta. pose proof (initial_resid (F_R FT) (menv o n E b) (guess' o n x) (zeros_guess o n E b x)) as HI.
  rewrite HG in HI. cbn [fst] in HI. unfold get_initial_residual in HG. set (q := if e_zeros (menv o n E b) then _ else _) in *. 
  assert (HP : forall i, 0 <= i < n -> vcomp q i = vcomp (residual n E b (start o n x)) i).
  { intros i Hi. rewrite (residual_ext n E b (start o n x) (guess' o n x)) by (intros; symmetry; apply guess_start; auto). rewrite residual_at by auto.
    assert (q = p) as -> by (destruct (e_conv _ =? 0); [|destruct (e_conv _ =? 1)]; injection HG; auto). apply (HI i Hi). }
  assert (E2 : nrm2 n q = norm2 n (residual n E b (start o n x))) by (apply norm2_ext; exact HP).
  assert (E1 : nrm1 n q = norm1 n (residual n E b (start o n x))) by (apply norm1_ext; exact HP).
  cbn [menv e_conv e_n e_b e_tol e_tolw e_mem] in HG. rewrite E1, E2 in HG.
  unfold initial_measure, measured, limit, bound, get_residual, tres. cbn [menv e_conv e_n e_E e_b].
  assert (HC' : s_conv o = 0 \/ s_conv o = 1 \/ s_conv o = 2) by lia.
  destruct HC' as [C|[C|C]]; rewrite C in *; cbn [Z.eqb Pos.eqb orb] in *; injection HG as _ <- <- <- <-; rewrite ?(rel_mul FT); (split; [reflexivity|split; [reflexivity|split; [reflexivity|]]]); intros y; rewrite ?(rel_mul FT); reflexivity.
Qed.

Notation pack n E b r := (mkSolved LIS_SUCCESS (o_ret r) (o_iter r) (o_resid r) (copy n (o_x r)) (o_rh r) E b).
Lemma res_copy n E b (y : list T) : residual n E b (copy n y) = residual n E b y.
Proof. apply residual_ext. intros i Hi. exact (at_tab n (at_ y) i Hi). Qed.
Lemma run_intro o n E b x (later : Prop) (r : sol (T:=T)) : 0 <= s_maxiter o -> 0 <= s_conv o <= 2 ->
  (let '(p, bn, tol, nr, acc) := get_initial_residual (menv o n E b) (guess' o n x) in
   if acc then o_ret r = LIS_SUCCESS /\ o_iter r = 1 /\ o_resid r = Some nr /\ o_x r = guess' o n x /\ o_rh r = rh0 o
   else zlen (o_rh r) = zlen (rh0 o) /\ znth s0 (o_rh r) 0 = znth s0 (rh0 o) 0 /\
        (tol = limit o n b -> (forall y, get_residual (menv o n E b) bn (tres (menv o n E b) y) = measured (s_conv o) n b (residual n E b (start o n x)) (residual n E b y)) -> later)) ->
  run o n E b x later (pack n E b r).
Proof.
  intros Hm HC H. unfold run. cbv zeta. cbn [v_ret v_E v_b v_rh v_status v_iter v_resid v_x].
  destruct (get_initial_residual (menv o n E b) (guess' o n x)) as [[[[p bn] tol] nr] acc] eqn:HG.
  destruct (first_spec o n E b x p bn tol nr acc HC HG) as (F1 & F2 & F3 & F4). cbv zeta in F4.
  split; [reflexivity|]. split; [reflexivity|]. split; [reflexivity|]. rewrite <- F1, <- F2. destruct acc.
  - destruct H as (H1 & H2 & H3 & H4 & H5). rewrite H5. split; [apply zlen_rh0; exact Hm|]. split; [apply rh0_0; exact Hm|]. split; [exact H1|]. split; [exact H2|]. split; [exact H3|].
    intros i Hi. rewrite H4. etransitivity; [exact (at_tab n (at_ (guess' o n x)) i Hi)|]. apply guess_start. exact Hi.
  - destruct H as (H1 & H2 & H3). split; [rewrite H1; apply zlen_rh0; exact Hm|]. split; [unfold vcomp; rewrite H2; apply rh0_0; exact Hm|]. apply H3; assumption.
Qed.
Lemma idr_run (P : Z -> Z -> Prop) last o n E b x r : 0 <= s_maxiter o -> 0 <= s_conv o <= 2 ->
  (forall ret it, P ret it -> 1 <= it <= last /\ (ret = LIS_MAXITER -> it = last)) ->
  sol_end (menv o n E b) (guess' o n x) (rh0 o) P r ->
  run o n E b x (idr_ends last o n E b x (pack n E b r)) (pack n E b r).
Proof.
  intros Hm HC HP H. apply run_intro; [exact Hm|exact HC|]. unfold sol_end in H.
  destruct (get_initial_residual (menv o n E b) (guess' o n x)) as [[[[p bn] tol] nr] acc]. destruct acc; [exact H|].
  destruct H as (HPr & v & V1 & V2 & (W1 & W2 & W3 & W4 & W5) & V3). destruct (HP _ _ HPr) as (I1 & I2).
  split; [exact W1|]. split; [apply W2; lia|]. intros Ht Hg. unfold idr_ends, reports, recorded, above. cbn [v_iter v_rh v_resid v_x v_status].
  split; [exact I1|]. split; [rewrite <- Ht; exact W3|]. exists v. split; [split; [exact V1|]; rewrite res_copy, V2; apply Hg|]. split; [exact W5|].
  rewrite <- Ht. destruct V3 as [V3|(V3 & V4)]; [left; exact V3|right]. split; [exact V3|]. split; [apply I2; exact V3|exact V4].
Qed.
Definition outcome_is {A} (m : res A) (Q : A -> Prop) : Prop := match m with Ok a => Q a | Err c => c = DIV_BY_ZERO | UB => False end.
Lemma idrs_solve o n E b x : accepted 21 o -> 1 <= s_idrs o -> (s_mem o = true -> s_idrs o <= s_maxiter o + 1) ->
  safe (lis_solve o n E b x) (fun v => run o n E b x (idr_ends (Z.max (s_idrs o) (s_maxiter o + 1)) o n E b x v) v).
Proof.
  intros HA Hs Hm. rewrite (reduce 21) by (cbn [In]; auto 10; lia). destruct HA as (A1 & A2 & A3 & A4 & A5 & A6 & A7 & A8). apply safe_bind. unfold execute. rewrite A1.
  eapply safe_mono; [apply (lis_idrs_ok FT EQ); [exact Hs|exact A5|apply zlen_rh0; exact A5|apply zeros_guess|exact Hm]|].
  intros r Hr. cbn [safe]. refine (idr_run _ _ o n E b x r A5 A6 _ Hr). intros ret it (I1 & I2). cbn [menv e_maxiter] in *. auto.
Qed.
Definition idr1_last (m : Z) : Z := if Z.even m then m + 1 else m + 2.
Lemma idr1_solve o n E b x : 1 <= n -> accepted 22 o -> 1 <= s_idrs o -> (s_mem o = true -> Z.even (s_maxiter o) = true) ->
  safe (lis_solve o n E b x) (fun v => run o n E b x (idr_ends (idr1_last (s_maxiter o)) o n E b x v) v).
Proof.
  intros Hn HA Hs Hm. rewrite (reduce 22) by (cbn [In]; auto 10; lia). destruct HA as (A1 & A2 & A3 & A4 & A5 & A6 & A7 & A8). apply safe_bind. unfold execute. rewrite A1.
  eapply safe_mono; [apply (lis_idr1_ok FT); [exact Hs|exact Hn|exact A5|apply zlen_rh0; exact A5|apply zeros_guess|exact Hm]|].
  intros r Hr. cbn [safe]. refine (idr_run _ _ o n E b x r A5 A6 _ Hr). intros ret it (I1 & I2 & I3). cbn [menv e_maxiter] in *. unfold idr1_last. split; [|exact I3].
  destruct (Z.even (s_maxiter o)) eqn:Ev; [specialize (I2 eq_refl)|]; lia.
Qed.
Definition bl_last (m l : Z) : Z := (m / l + 1) * l.
Lemma bl_solve M o n E b x : accepted 5 o -> 1 <= s_ell o -> (forall i, 0 <= i < n -> vcomp (start o n x) i = s0) ->
  (forall k v i, 0 <= i < n -> vcomp (s_psolve o k v) i = mv_spec M n (vcomp v) i) ->
  (s_mem o = true -> bl_last (s_maxiter o) (s_ell o) <= s_maxiter o + 1) ->
  safe (lis_solve o n E b x) (fun v => run o n E b x (bl_ends (bl_last (s_maxiter o) (s_ell o)) M o n E b x v) v).
Proof.
  intros HA Hs HX HM Hm. rewrite (reduce 5) by (cbn [In]; auto 10; lia). destruct HA as (A1 & A2 & A3 & A4 & A5 & A6 & A7 & A8). apply safe_bind. unfold execute. rewrite A1.
  eapply safe_mono; [apply (lis_bicgstabl_ok FT (menv o n E b) M); [exact Hs|exact A5|apply zlen_rh0; exact A5|apply zeros_guess|intros i Hi; rewrite <- (HX i Hi); apply guess_start; exact Hi|exact HM|exact Hm]|].
  intros r Hr. cbn [safe]. apply run_intro; [exact A5|exact A6|]. unfold bl_sol in Hr.
  destruct (get_initial_residual (menv o n E b) (guess' o n x)) as [[[[p bn] tol] nr] acc]. cbv zeta in Hr. destruct acc; [exact Hr|].
  destruct Hr as (I1 & Hr). change (last_iter (menv o n E b) (s_ell o)) with (bl_last (s_maxiter o) (s_ell o)) in *.
  assert (HH : zlen (o_rh r) = zlen (rh0 o) /\ znth s0 (o_rh r) 0 = znth s0 (rh0 o) 0 /\ (e_mem (menv o n E b) = true -> forall j, 1 <= j < o_iter r -> sleb (znth s0 (o_rh r) j) tol = false)).
  { destruct Hr as [(_ & v & _ & _ & (W1 & W2 & W3 & _) & _)|[(_ & (W1 & W2 & W3 & _) & _)|(_ & _ & v & _ & _ & (W1 & W2 & W3 & _) & _)]]; (split; [exact W1|split; [apply W2; lia|exact W3]]). }
  destruct HH as (H1 & H2 & H3). split; [exact H1|]. split; [exact H2|]. intros Ht Hg. unfold bl_ends, reports, recorded, above. cbn [v_iter v_rh v_resid v_x v_status].
  split; [exact I1|]. rewrite <- Ht. split; [exact H3|]. 
  assert (TC : residual n E b (times n M (copy n (o_x r))) = residual n E b (times_M n M (o_x r))).
  { f_equal. unfold times, times_M. apply map_ext_in. intros i Hi. apply mv_spec_ext. intros j Hj. exact (at_tab n (at_ (o_x r)) j Hj). }
  rewrite TC, res_copy.
  destruct Hr as [(R1 & v & V1 & V2 & (W1 & W2 & W3 & W4 & W5) & V3)|[(R1 & _ & V)|(R1 & R2 & v & V1 & V2 & (W1 & W2 & W3 & W4 & W5) & V3)]].
  - left. exists v. split; [exact R1|]. split; [split; [exact V1|rewrite V2; apply Hg]|]. split; [exact W5|exact V3].
  - right. left. split; [exact R1|]. destruct V as [(V1 & V2)|(v & V1 & V2 & V3)]; [left; auto|right]. exists v. split; [split; [exact V1|rewrite V2; apply Hg]|exact V3].
  - right. right. exists v. split; [exact R1|]. split; [exact R2|]. split; [split; [exact V1|rewrite V2; apply Hg]|]. split; [exact W5|exact V3].
Qed.
Lemma tf_solve o n E b x : accepted 7 o -> safe (lis_solve o n E b x) (fun v => run o n E b x (tf_ends o n b v) v).
Proof.
  intros HA. rewrite (reduce 7) by (cbn [In]; auto 10; lia). destruct HA as (A1 & A2 & A3 & A4 & A5 & A6 & A7 & A8). apply safe_bind. unfold execute. rewrite A1.
  eapply safe_mono; [apply lis_tfqmr_ok; [exact A5|apply zlen_rh0; exact A5]|].
  intros r Hr. cbn [safe]. apply run_intro; [exact A5|exact A6|]. unfold tf_sol in Hr.
  destruct (get_initial_residual (menv o n E b) (guess' o n x)) as [[[[p bn] tol] nr] acc]. cbv zeta in Hr. destruct acc; [exact Hr|].
  destruct Hr as (H1 & H2 & H3 & H4 & H5). split; [exact H1|]. split; [exact H2|]. intros Ht _. unfold tf_ends, above. cbn [v_iter v_rh v_resid v_x v_status]. rewrite <- Ht.
  split; [exact H4|]. split; [exact H3|exact H5].
Qed.
End P.
