(** TFQMR: what lis_solve returns, and a bound on its residual. *)
Require Import Reals Lra ZArith List Bool Lia.
From Verif Require Import Base Scalar ScalarReal Spec SpecSolver SpecTerm SpecGmres Krylov Krylov3 Solve SpecMore MatvecProof ConvertExact KrylovProof TermProof GmresMath GmresProof MoreFinal GmresLoop GmresCycle GmresOuter GmresFinal MinresProof SolveProof RealVec SpecTfqmr TfMath.
Import ListNotations.
Open Scope Z_scope.

(** ** the residual of a smoothed point *)
Section B.
Variables (n : Z) (E : list (entry R)) (b x0 : Z -> R).
Notation rs := (res_of n E b).
Notation nrm := (norm n).
Lemma res_mix x y g : eqv n (rs (fun i => x i + g * (y i - x i))%R) (fun i => (1 - g) * rs x i + g * rs y i)%R.
Proof.
  intros i Hi. unfold res_of, app.
  assert (L : mv_spec E n (fun i => x i + g * (y i - x i))%R i = ((1 - g) * mv_spec E n x i + g * mv_spec E n y i)%R).
  { change (GmresMath.sm 0 n (fun k => coef E i k * (x k + g * (y k - x k))) = (1 - g) * GmresMath.sm 0 n (fun k => coef E i k * x k) + g * GmresMath.sm 0 n (fun k => coef E i k * y k))%R.
    rewrite <- !GmresMath.sm_scal, <- GmresMath.sm_plus. apply GmresMath.sm_ext. intros k Hk. ring. }
  rewrite L. ring.
Qed.
Lemma norm_mix f g a c : (0 <= a)%R -> (0 <= c)%R -> (nrm (fun i => a * f i + c * g i) <= a * nrm f + c * nrm g)%R.
Proof.
  intros Ha Hc. change (nm n (fun i => (fun i => a * f i) i + (fun i => c * g i) i) <= a * nm n f + c * nm n g)%R.
  eapply Rle_trans; [apply triangle|]. rewrite !nm_scal, !Rabs_right by lra. lra.
Qed.
Lemma tau_step (s t w : R) : (0 <= t)%R -> (0 <= w)%R -> (0 < t * t + w * w)%R -> (0 <= s)%R ->
  ((w * w) / (t * t + w * w) * (sqrt s * t) + t * t / (t * t + w * w) * w <= sqrt (s + 1) * (t * w / sqrt (t * t + w * w)))%R.
Proof.
  intros Ht Hw HD Hs. set (D := (t * t + w * w)%R) in *. pose proof (sqrt_lt_R0 D HD) as SD. pose proof (sqrt_sqrt D (Rlt_le _ _ HD)) as SS.
  assert (K : (w * sqrt s + t <= sqrt (s + 1) * sqrt D)%R).
  { rewrite <- sqrt_mult by lra. apply Rsqr_incr_0_var; [|apply sqrt_pos]. rewrite Rsqr_sqrt by nra. unfold Rsqr, D. pose proof (sqrt_sqrt s Hs). pose proof (sqrt_pos s).
    pose proof (Rle_0_sqr (t * sqrt s - w)) as Q. unfold Rsqr in Q. nra. }
  assert (E1 : ((w * w) / D * (sqrt s * t) + t * t / D * w = t * w / D * (w * sqrt s + t))%R) by (field; lra).
  assert (E2 : (sqrt (s + 1) * (t * w / sqrt D) = t * w / D * (sqrt (s + 1) * sqrt D))%R).
  { transitivity (sqrt (s + 1) * (t * w) * sqrt D / (sqrt D * sqrt D))%R; [field; lra|rewrite SS; field; lra]. }
  rewrite E1, E2. apply Rmult_le_compat_l; [|exact K]. apply Rmult_le_pos; [apply Rmult_le_pos; assumption|]. left. apply Rinv_0_lt_compat. exact HD.
Qed.
Lemma smooth_tau y w t0 : (0 <= t0)%R -> (forall j, 0 <= w j)%R -> forall m, (0 <= snd (smooth x0 y w t0 m))%R.
Proof.
  intros Ht Hw. induction m as [|m IH]; cbn [smooth]; [exact Ht|]. destruct (smooth x0 y w t0 m) as [x t]. cbn [snd] in *.
  destruct (Rle_lt_or_eq_dec 0 (t * t + w m * w m)) as [Hd|Hd]; [specialize (Hw m); nra| |].
  - apply Rmult_le_pos; [apply Rmult_le_pos; [exact IH|apply Hw]|]. left. apply Rinv_0_lt_compat. apply sqrt_lt_R0. exact Hd.
  - specialize (Hw m). assert (t = 0)%R by nra. subst t. unfold Rdiv. rewrite !Rmult_0_l. lra.
Qed.
Lemma smooth_bound y w C m : (1 <= C)%R -> (forall j, 0 <= w j)%R -> (forall j, (j < m)%nat -> nrm (rs (y j)) <= C * w j)%R ->
  (nrm (rs (fst (smooth x0 y w (nrm (rs x0)) m))) <= C * (sqrt (INR m + 1) * snd (smooth x0 y w (nrm (rs x0)) m)))%R.
Proof.
  intros HC Hw. pose proof (sqrt_pos (inner n (rs x0) (rs x0))) as HP. fold (nrm (rs x0)) in HP. pose proof (smooth_tau y w (nrm (rs x0)) HP Hw) as HT.
  induction m as [|m IH]; intros Hy.
  - cbn [smooth fst snd INR]. rewrite Rplus_0_l, sqrt_1. nra.
  - specialize (IH (fun j Hj => Hy j (Nat.lt_lt_succ_r _ _ Hj))). specialize (HT m). cbn [smooth]. destruct (smooth x0 y w (nrm (rs x0)) m) as [x t]. cbn [fst snd] in *.
    specialize (Hy m (Nat.lt_succ_diag_r m)). specialize (Hw m). set (wm := w m) in *. set (D := (t * t + wm * wm)%R). set (g := (t * t / D)%R).
    rewrite (nm_ext n _ _ (res_mix x (y m) g) : nrm _ = nrm _).
    destruct (Rle_lt_or_eq_dec 0 D) as [Hd|Hd]; [unfold D; nra| |].
    + assert (G1 : (1 - g = wm * wm / D)%R) by (unfold g, D in *; field; lra).
      assert (G0 : (0 <= g)%R) by (unfold g; apply Rmult_le_pos; [nra|left; apply Rinv_0_lt_compat; exact Hd]).
      assert (G2 : (0 <= 1 - g)%R) by (rewrite G1; apply Rmult_le_pos; [nra|left; apply Rinv_0_lt_compat; exact Hd]).
      eapply Rle_trans; [apply norm_mix; assumption|].
      pose proof (tau_step (INR m + 1) t wm HT Hw Hd ltac:(pose proof (pos_INR m); lra)) as TS. fold D in TS. fold g in TS. rewrite <- G1 in TS. rewrite S_INR.
      apply Rle_trans with (C * ((1 - g) * (sqrt (INR m + 1) * t) + g * wm))%R; [|apply Rmult_le_compat_l; lra].
      assert (Q1 : ((1 - g) * nrm (rs x) <= (1 - g) * (C * (sqrt (INR m + 1) * t)))%R) by (apply Rmult_le_compat_l; assumption).
      assert (Q2 : (g * nrm (rs (y m)) <= g * (C * wm))%R) by (apply Rmult_le_compat_l; assumption). lra.
    + assert (t = 0)%R by (unfold D in Hd; nra). subst t. assert (Eg : g = 0%R) by (unfold g, Rdiv; ring). rewrite Eg. unfold Rdiv at 1. rewrite !Rmult_0_l, !Rmult_0_r.
      rewrite !Rmult_0_r in IH. eapply Rle_trans; [|exact IH]. apply Req_le. apply (nm_ext n). intros i Hi. ring.
Qed.
End B.
Lemma tfqmr_bound n E M b x0 rt C m : (1 <= C)%R ->
  (forall k, (2 * k < m)%nat -> let c := cgs_at n E M b x0 rt k in norm n (res_of n E b (half n E M rt c)) * norm n (res_of n E b (half n E M rt c)) <= C * C * (norm n (res_of n E b (full n E M rt c)) * norm n (res_of n E b (c_x c))))%R ->
  (norm n (res_of n E b (fst (tfqmr n E M b x0 rt m))) <= C * (sqrt (INR m + 1) * snd (tfqmr n E M b x0 rt m)))%R.
Proof.
  intros HC H. unfold tfqmr. apply smooth_bound; [exact HC| |].
  - intros j. unfold tf_weights. destruct (Nat.even j); [apply sqrt_pos|apply sqrt_pos].
  - intros j Hj. unfold tf_points, tf_weights. destruct (Nat.even j) eqn:Ej.
    + assert (Hk : (2 * Nat.div2 j = j)%nat) by (apply Nat.even_spec in Ej; destruct Ej as [q ->]; rewrite Nat.div2_double; lia).
      specialize (H (Nat.div2 j) ltac:(lia)). cbv zeta in H. set (c := cgs_at n E M b x0 rt (Nat.div2 j)) in *.
      assert (P1 : (0 <= norm n (res_of n E b (full n E M rt c)))%R) by apply sqrt_pos. assert (P2 : (0 <= norm n (res_of n E b (c_x c)))%R) by apply sqrt_pos.
      apply Rsqr_incr_0_var; [|apply Rmult_le_pos; [lra|apply sqrt_pos]]. rewrite Rsqr_mult, Rsqr_sqrt by (apply Rmult_le_pos; assumption). unfold Rsqr. exact H.
    + assert (P1 : (0 <= norm n (res_of n E b (full n E M rt (cgs_at n E M b x0 rt (Nat.div2 j)))))%R) by apply sqrt_pos. nra.
Qed.

(** ** lis_solve *)
Section F.
Variables (o : opts (T:=R)) (n : Z) (E M : list (entry R)) (b x : list R).
Hypothesis HA : accepted 7 o.
Hypothesis HM : is_matrix n (s_psolve o) M.
Variable x0 : Z -> R.
Hypothesis HX : forall i, 0 <= i < n -> x0 i = vcomp (start o n x) i.
Let rt : Z -> R := the_shadow o n E b x0.
Definition tf_result (v : solved (T:=R)) : Prop := exists m, tfqmr_result o n E M b x0 v m.
Lemma resid_r0 i : 0 <= i < n -> vcomp (residual n E b (start o n x)) i = res_of n E (vcomp b) x0 i.
Proof.
  intros Hi. unfold residual. etransitivity; [exact (at_tab n (fun i => ssub (vcomp b i) (mv_spec E n (vcomp (start o n x)) i)) i Hi)|].
  unfold res_of, app. change (@ssub R ScalarR) with Rminus. f_equal. apply mv_spec_ext. intros j Hj. symmetry. apply HX. exact Hj.
Qed.
Lemma tf_at : wl (lis_solve o n E b x) (fun v => 
  (sleb (initial_measure (s_conv o) n b (residual n E b (start o n x))) (sabs (s_tol o)) = false -> tf_result v)).
Proof.
  rewrite (reduce 7) by (cbn [In]; auto 10; lia). destruct HA as (A1 & A2 & A3 & A4 & A5 & A6 & A7 & A8). unfold execute. rewrite A1.
  assert (A7' : s_conv o = 0) by (apply A7; auto). set (e := menv o n E b) in *.
  assert (HMe : is_matrix (e_n e) (e_psolve e) M) by exact HM.
  apply wl_bind with (P := fun r => sleb (initial_measure (s_conv o) n b (residual n E b (start o n x))) (sabs (s_tol o)) = false -> tf_result (mkSolved LIS_SUCCESS (o_ret r) (o_iter r) (o_resid r) (copy n (o_x r)) (o_rh r) E b)).
  2: { intros r Hr. apply wl_ok. exact Hr. }
  unfold lis_tfqmr, solver.
  assert (Hcv : e_conv e = 0) by exact A7'.
  destruct (init_ok e (guess' o n x) Hcv (zeros_guess o n E b x)) as (p & Hp0 & HG).
  assert (Hp : peq n (at_ p) (res_of n E (vcomp b) x0)).
  { intros i Hi. rewrite (Hp0 i Hi). unfold resf, res_of, app. cbn [e menv e_b e_n e_E]. f_equal. apply mv_spec_ext. intros j Hj. rewrite (HX j Hj). apply guess_start. exact Hj. }
  set (r0 := res_of n E (vcomp b) x0) in *.
  assert (En : sqrt (GmresMath.ip n (resf e (guess' o n x)) (resf e (guess' o n x))) = norm n r0).
  { unfold norm. f_equal. apply (inner_ext e); intros j Hj; rewrite <- (Hp0 j Hj); apply Hp; exact Hj. }
  change (e_n e) with n in HG. unfold GmresFinal.bn in HG. change (e_n e) with n in HG. rewrite En in HG. set (bn := if seqb (norm n r0) 0%R then 1%R else (1 / norm n r0)%R) in *.
  rewrite HG. cbv zeta.
  pose proof (first_spec ScalarR_field o n E b x _ _ _ _ _ A6 HG) as (F1 & F2 & _ & _).
  rewrite <- F1, <- F2.
  destruct (sleb (norm n r0 * bn)%R (sabs (e_tol e))) eqn:Ea. { apply wl_ok. intros C. discriminate. }
  assert (N0 : norm n r0 <> 0%R).
  { intros C. rewrite C, Rmult_0_l in Ea. cbn [sleb ScalarR] in Ea. destruct (Rle_dec _ _) as [|Hq] in Ea; [discriminate|]. apply Hq. apply Rabs_pos. }
  assert (Ebn : bn = (1 / norm n r0)%R).
  { unfold bn. destruct (seqb _ _) eqn:Es in |- *; [|reflexivity]. exfalso. apply N0. apply ScalarR_eqb. exact Es. }
  apply wl_lt. cbv beta. unfold tfqmr_start. cbv zeta. apply wl_bind with (P := fun Wl => inv e M x0 rt bn 0 (mkK (fst Wl) None (rh0 o), snd Wl)).
  - do 6 (apply wl_lt; cbv beta). do 2 (apply wl_lt; cbv beta). apply wl_ok. unfold inv. cbn [fst snd k_W t_rhoold t_wold t_tau t_theta t_eta]. cbv zeta. unfold upd. cbn [Z.eqb Pos.eqb]. change X with (-1). cbn [Z.eqb Pos.eqb]. change (e_n e) with n.
    assert (Hc : peq n (at_ (copy n p)) r0) by (intros i Hi; rewrite <- (Hp i Hi); exact (at_tab n (at_ p) i Hi)).
    assert (Hs : peq n (at_ (set_shadowresidual e p)) rt).
    { intros i Hi. unfold set_shadowresidual, rt, the_shadow. change (e_shadow e) with (s_shadow o). destruct (s_shadow o) as [w|]; [reflexivity|]. change (e_n e) with n.
      etransitivity; [exact (at_tab n (fun i => sconj (at_ (copy n p) i)) i Hi)|]. exact (Hc i Hi). }
    change (c_x (cgs_at n (e_E e) M (at_ (e_b e)) x0 rt 0)) with x0. change (c_u (cgs_at n (e_E e) M (at_ (e_b e)) x0 rt 0)) with r0. change (c_p (cgs_at n (e_E e) M (at_ (e_b e)) x0 rt 0)) with r0.
    split; [exact Hp|]. split; [exact Hs|]. split; [exact Hc|]. split; [exact Hc|].
    split; [apply (mul_at e), (prec_at e M HMe); exact Hc|].
    split; [rewrite dot_R; apply (inner_ext e); [exact Hp|exact Hs]|].
    assert (EN : nrm2 n p = norm n r0) by (rewrite nrm2_R; apply (norm_ext e); exact Hp).
    split; [exact EN|]. split; [exact EN|]. split; [rewrite EN; apply sqrt_pos|].
    split.
    + intros i Hi. assert (EG : at_ (guess' o n x) i = x0 i) by (rewrite (HX i Hi); apply guess_start; exact Hi).
      match goal with |- (_ = _ - ?a)%R => change a with (at_ (guess' o n x) i) end. rewrite EG. change (@s0 R ScalarR) with 0%R. ring.
    + split; [|intros C; contradiction]. intros i Hi. change (at_ (guess' o n x) i = x0 i). rewrite (HX i Hi). apply guess_start. exact Hi.
  - intros [W l] HI. cbn [fst snd] in HI. apply wl_bind with (P := fun o0 => let '(ret, iter, s') := o0 in
  exists m, after e M x0 rt bn m (fst s') /\
    (ret = LIS_SUCCESS /\ 1 <= iter /\ (m = Datatypes.S (2 * (0 + Z.to_nat (iter - 1))) \/ m = (2 * Datatypes.S (0 + Z.to_nat (iter - 1)))%nat) \/
     ret = LIS_BREAKDOWN /\ 1 <= iter /\ (m = (2 * (0 + Z.to_nat (iter - 1)))%nat \/ m = (2 * Datatypes.S (0 + Z.to_nat (iter - 1)))%nat) \/
     ret = LIS_MAXITER /\ iter = 1 + Z.of_nat (Z.to_nat (e_maxiter e)) /\ m = (2 * (0 + Z.to_nat (iter - 1)))%nat)).
    + apply (loop_at e M HMe x0 rt bn (e_tol e) (Z.to_nat (e_maxiter e)) 1 0 _ HI).
    + intros [[ret iter] [k l']] (m & (B1 & B2) & B3). cbn [fst] in B1, B2. apply wl_ok. intros _. exists m. unfold tfqmr_result. cbv zeta. cbn [v_x v_resid v_status v_iter o_ret o_iter o_resid o_x].
      split; [|split].
      * intros i Hi. etransitivity; [exact (at_tab n (at_ (k_W k X)) i Hi)|]. exact (B1 i Hi).
      * intros Hm. rewrite (B2 Hm). f_equal. unfold est. rewrite Ebn. fold r0. change (1 + 1)%R with 2%R. unfold Rdiv. rewrite Rmult_1_l. reflexivity.
      * change (e_maxiter e) with (s_maxiter o) in B3. destruct B3 as [(C1 & C2 & C3)|[(C1 & C2 & C3)|(C1 & C2 & C3)]]; [left|right; left|right; right]; (split; [exact C1|]; split; lia).
Qed.
End F.
