(** GMRES and FGMRES through lis_solve. *)
Require Import Reals Lra ZArith List Bool Lia.
From Verif Require Import Base Scalar ScalarReal Spec SpecSolver SpecTerm Krylov Krylov2 Gmres Solve SpecGmres MatvecProof KrylovProof TermProof GmresMath GmresProof GmresLoop GmresCycle FgmresCycle GmresOuter GmresFinal.
Import ListNotations.
Open Scope Z_scope.

Section P.
Variables (st : bool) (k : Z) (o : opts (T:=R)) (n : Z) (E M : list (entry R)) (b x : list R).
Hypothesis Hk : k = 9 \/ k = 20.
Hypothesis HA : accepts k o.
Hypothesis Hn : 0 <= n.
Definition x0 : list R := if s_zeros o then zeros n else x.
Let xx := if s_zeros o then set_all n s0 else copy n x.
Let e := mkEnv n E b (s_psolve o) (s_psolveh o) (s_maxiter o) (s_conv o) (s_tol o) (s_tolw o) (s_zeros o) (s_mem o) (s_shadow o).
Let rh := zupd (tab (s_maxiter o + 2) (s_junk o)) 0 s1.
Lemma reduce : lis_solve o n E b x = bind (execute o e xx rh) (fun r => Ok (mkSolved LIS_SUCCESS (o_ret r) (o_iter r) (o_resid r) (copy n (o_x r)) (o_rh r) E b)).
Proof.
  destruct HA as (A1 & A2 & A3 & A4 & A5 & A6 & A7 & A8). unfold lis_solve.
  assert (B1 : (s_precon o <? 0) || (s_precon o >? 10) = false).
  { apply orb_false_iff. split; [apply Z.ltb_ge; lia|rewrite Z.gtb_ltb; apply Z.ltb_ge; lia]. }
  rewrite B1, A4, A6, A7. cbn [Z.eqb negb andb Z.gtb Z.compare]. 
  assert (B2 : (s_solver o <? 1) || (s_solver o >? 25) = false /\ (10 <=? s_solver o) && (s_solver o <=? 12) = false) by (rewrite A1; destruct Hk as [Hk'|Hk']; rewrite Hk'; split; reflexivity).
  destruct B2 as (B2 & B3). rewrite B2, B3.
  assert (B5 : (s_maxiter o <? 0) = false) by (apply Z.ltb_ge; lia). rewrite B5.
  assert (B6 : check_params o = 0).
  { unfold check_params. assert (C9 : (s_restart o <? 0) = false) by (apply Z.ltb_ge; lia). rewrite C9, andb_false_r. rewrite A1. destruct Hk as [Hk'|Hk']; rewrite Hk'; reflexivity. }
  rewrite B6. cbn [Z.eqb negb]. destruct (s_precon o =? 5) eqn:B7; [apply Z.eqb_eq in B7; lia|].
  cbn [andb orb negb Z.eqb]. rewrite wr_ok by (rewrite zlen_tab' by lia; lia). cbn [bind]. unfold e. rewrite A6. reflexivity.
Qed.
Notation nrm f := (sqrt (ip n f f)).
Notation pe := (peq n).
Definition Mf (f : Z -> R) : Z -> R := mv_spec M n f.
Let eM := mkEnv n M b (s_psolve o) (s_psolveh o) (s_maxiter o) (s_conv o) (s_tol o) (s_tolw o) (s_zeros o) (s_mem o) (s_shadow o).
Lemma lin_M : is_matrix n (s_psolve o) M -> linear_ e Mf.
Proof.
  intros H. split.
  - intros it w f Hf j Hj. etransitivity; [exact (H it w j Hj)|]. apply (Af_ext eM). exact Hf.
  - intros lo hi y g f Hf j Hj. apply (Af_sum eM). exact Hf.
Qed.
Lemma list_of (f : Z -> R) : exists v, forall i, 0 <= i < n -> vcomp v i = f i.
Proof. exists (tab n f). intros i Hi. exact (at_tab n f i Hi). Qed.
Lemma inj_M : nonsingular n E -> nonsingular n M -> forall f, pe (Af e (Mf f)) (fun _ => 0%R) -> pe f (fun _ => 0%R).
Proof.
  intros HE HM f Hf. destruct (list_of (Mf f)) as (v & Hv). destruct (list_of f) as (w & Hw).
  assert (Z1 : forall i, 0 <= i < n -> vcomp v i = 0%R).
  { apply HE. intros i Hi. rewrite <- (Hf i Hi). apply (Af_ext e). exact Hv. }
  intros i Hi. rewrite <- Hw by auto. apply HM; auto. intros j Hj. rewrite <- (Z1 j Hj), Hv by auto. apply (Af_ext eM). exact Hw.
Qed.
Lemma resf_residual y j : 0 <= j < n -> resf e y j = vcomp (residual n E b y) j.
Proof. intros Hj. symmetry. exact (at_tab n (fun i => ssub (vcomp b i) (mv_spec E n (vcomp y) i)) j Hj). Qed.
Lemma nrm_norm2 (f : Z -> R) v : (forall j, 0 <= j < n -> f j = vcomp v j) -> nrm f = norm2 n v.
Proof. intros H. change (norm2 n v) with (nrm (vcomp v)). f_equal. apply ip_ext; exact H. Qed.
Lemma nrm_res y : nrm (resf e y) = norm2 n (residual n E b y).
Proof. apply nrm_norm2. apply resf_residual. Qed.
Lemma residual_ext y y' : (forall j, 0 <= j < n -> vcomp y j = vcomp (T:=R) y' j) -> residual n E b y = residual n E b y'.
Proof. intros H. apply map_ext. intros i. f_equal. apply (Af_ext e). exact H. Qed.
Lemma xx_x0 j : 0 <= j < n -> vcomp xx j = vcomp x0 j.
Proof. intros Hj. unfold xx, x0. destruct (s_zeros o); [reflexivity|]. exact (at_tab n (at_ x) j Hj). Qed.
Lemma copy_x y j : 0 <= j < n -> vcomp (copy n y) j = vcomp (T:=R) y j.
Proof. intros Hj. exact (at_tab n (at_ y) j Hj). Qed.
Lemma Bp_power l j : 0 <= j < n -> Bp e Mf l (resf e xx) j = vcomp (power n E M l (residual n E b x0)) j.
Proof.
  revert j. induction l as [|l IH]; intros j Hj; cbn [Bp power].
  - rewrite resf_residual by auto. rewrite (residual_ext xx x0) by (apply xx_x0). reflexivity.
  - unfold B. transitivity (mv_spec E n (vcomp (times n M (power n E M l (residual n E b x0)))) j).
    + apply (Af_ext e). intros a Ha. transitivity (mv_spec M n (vcomp (power n E M l (residual n E b x0))) a).
      * apply (Af_ext eM). intros c Hc. apply IH. exact Hc.
      * symmetry. exact (at_tab n (mv_spec M n (vcomp (power n E M l (residual n E b x0)))) a Ha).
    + symmetry. exact (at_tab n (mv_spec E n (vcomp (times n M (power n E M l (residual n E b x0))))) j Hj).
Qed.
Lemma poly_krylov i c : 0 <= i -> nrm (fun j => resf e xx j - sm 0 i (fun l => c (l + 1)%Z * Bp e Mf (S (Z.to_nat l)) (resf e xx) j))%R = norm2 n (krylov_residual n E M c i (residual n E b x0)).
Proof.
  intros Hi. apply nrm_norm2. intros j Hj. unfold krylov_residual. symmetry.
  etransitivity; [apply (at_tab n (fun i0 => (vcomp (residual n E b x0) i0 - ssum (map (fun l => (c l * vcomp (power n E M (Z.to_nat l) (residual n E b x0)) i0)%R) (zrange 1 (i + 1))))%R) j Hj)|].
  cbv beta. rewrite resf_residual by auto. rewrite (residual_ext xx x0) by (apply xx_x0). f_equal.
  change (ssum (map (fun l => (c l * vcomp (power n E M (Z.to_nat l) (residual n E b x0)) j)%R) (zrange 1 (i + 1)))) with (sm 1 (i + 1) (fun l => (c l * vcomp (power n E M (Z.to_nat l) (residual n E b x0)) j)%R)).
  pattern i. apply natlike_ind; [rewrite !sm_nil by lia; reflexivity| |exact Hi].
  intros a Ha IH. unfold Z.succ. rewrite (sm_snoc 1) by lia. rewrite IH. rewrite (sm_snoc 0) by lia. rewrite (Bp_power (S (Z.to_nat a)) j Hj). replace (Z.to_nat (a + 1)) with (S (Z.to_nat a)) by lia. reflexivity.
Qed.

Definition first : R := rel (norm2 n (residual n E b x0)) (norm2 n (residual n E b x0)).
Definition mg (y : list R) : R := if k =? 9 then rel (norm2 n (residual n E b y)) (norm2 n (residual n E b x0)) else norm2 n (residual n E b y).
Definition mr (r : list R) : R := if k =? 9 then rel (norm2 n r) (norm2 n (residual n E b x0)) else norm2 n r.
Let a := if k =? 9 then bn e xx else 1%R.
Lemma res_xx : nrm (resf e xx) = norm2 n (residual n E b x0).
Proof. rewrite nrm_res. f_equal. apply residual_ext. apply xx_x0. Qed.
Lemma rel_bn v : (v * bn e xx)%R = rel v (norm2 n (residual n E b x0)).
Proof.
  unfold bn, rel. change (e_n e) with n. rewrite res_xx. change (@s0 R ScalarR) with 0%R. destruct (seqb (norm2 n (residual n E b x0)) 0%R) eqn:El; [ring|]. cbn [sdiv ScalarR]. unfold Rdiv. ring.
Qed.
Lemma ms_mg y : ms e a y = mg y.
Proof. unfold ms, a, mg. change (e_n e) with n. rewrite nrm_res. destruct (k =? 9); [apply rel_bn|ring]. Qed.

Hypothesis HP : k = 9 -> is_matrix n (s_psolve o) M.
Hypothesis HS : st = true -> is_matrix n (s_psolve o) M /\ nonsingular n E /\ nonsingular n M /\ (0 <= s_tol o)%R.
Lemma exec_ok : okm st (execute o e xx rh) (fun r =>
  if sleb first (sabs (s_tol o)) then r = mkSol LIS_SUCCESS 1 (Some first) xx rh
  else opost st (s_restart o) n (s_maxiter o) (s_mem o) (s_tol o) (ms e a) (kp e Mf a) xx rh r).
Proof.
  destruct HA as (A1 & A2 & A3 & A4 & A5 & A6 & A7 & A8).
  assert (HR : zlen rh = e_maxiter e + 2) by (unfold rh; rewrite zlen_zupd, zlen_tab' by lia; reflexivity).
  assert (ZO : zeros_ok e xx) by (intros Hz i Hi; cbn [e e_zeros] in Hz; unfold xx; rewrite Hz; apply (at_tab n (fun _ => s0)); exact Hi).
  assert (M3 : st = true -> linear_ e Mf /\ (forall f, peq (e_n e) (Af e (Mf f)) (fun _ => 0%R) -> peq (e_n e) f (fun _ => 0%R)) /\ (0 <= e_tol e)%R).
  { intros Hs. destruct (HS Hs) as (S1 & S2 & S3 & S4). split; [apply lin_M; exact S1|]. split; [apply inj_M; auto|exact S4]. }
  assert (F : (nrm (resf e xx) * bn e xx)%R = first) by (rewrite rel_bn, res_xx; reflexivity).
  unfold execute. rewrite A1. unfold a. destruct Hk as [Hk'|Hk']; rewrite Hk'; cbn [Z.eqb Pos.eqb].
  - eapply okm_mono; [apply (gmres_ok st e (s_restart o) (s_junk o) xx rh A8 Hn A5 HR A6 ZO Mf M3); apply lin_M; auto|]. intros r Hr. cbn [e_n e] in Hr. rewrite F in Hr. unfold first_post in Hr. cbn [e_n e] in Hr. rewrite F in Hr. exact Hr.
  - eapply okm_mono; [apply (fgmres_ok st e (s_restart o) (s_junk o) xx rh A8 Hn A5 HR A6 ZO Mf M3)|]. intros r Hr. cbn [e_n e] in Hr. rewrite F in Hr. unfold first_post in Hr. cbn [e_n e] in Hr. rewrite F in Hr. exact Hr.
Qed.
Lemma solve_ok : okm st (lis_solve o n E b x) (fun v =>
  v_E v = E /\ v_b v = b /\
  if sleb first (sabs (s_tol o)) then v_ret v = LIS_SUCCESS /\ v_status v = LIS_SUCCESS /\ v_iter v = 1 /\ v_resid v = Some first /\ forall i, 0 <= i < n -> vcomp (v_x v) i = vcomp x0 i
  else run_ok mg o x0 v /\ (is_matrix n (s_psolve o) M -> optimal_history n E M mr o (residual n E b x0) v) /\
    (st = true -> n <= s_restart o -> n <= s_maxiter o -> 1 <= n -> v_status v = LIS_SUCCESS /\ v_iter v <= n)).
Proof.
  rewrite reduce. apply okm_bind. eapply okm_mono; [exact exec_ok|]. intros r Hr. cbn [okm v_E v_b v_ret v_status v_iter v_resid v_x]. split; [reflexivity|]. split; [reflexivity|].
  destruct (sleb first (sabs (s_tol o))).
  { subst r. cbn [o_ret o_iter o_resid o_x]. split; [reflexivity|]. split; [reflexivity|]. split; [reflexivity|]. split; [reflexivity|]. intros i Hi. rewrite copy_x by auto. apply xx_x0. exact Hi. }
  destruct HA as (A1 & A2 & A3 & A4 & A5 & A6 & A7 & A8).
  destruct Hr as (g & (H1 & H2 & H3) & Ex & Er & HO). 
  assert (Mx : mg (copy n (o_x r)) = ms e a (g_x g)).
  { rewrite <- ms_mg, Ex. unfold ms. rewrite !nrm_res. f_equal. f_equal. apply residual_ext. apply copy_x. }
  assert (Mx0 : mg x0 = ms e a xx).
  { rewrite <- ms_mg. unfold ms. rewrite !nrm_res. f_equal. f_equal. apply residual_ext. intros; symmetry; apply xx_x0; auto. }
  assert (It : 1 <= o_iter r) by (destruct HO as [(_ & I & _)|(_ & I & _)]; lia).
  split; [|split].
  - unfold run_ok. cbn [v_ret v_status v_iter v_resid v_x v_rh]. cbv zeta. rewrite Mx, Mx0, Er. split; [reflexivity|]. split; [rewrite H1; unfold rh; rewrite zlen_zupd, zlen_tab' by lia; reflexivity|]. split; [|split; [exact H2|]].
    + destruct HO as [(O1 & O2 & O3 & O4 & _)|(O1 & O2 & O3 & _)]; [left; auto|right]. split; [exact O1|]. split; [exact O2|]. destruct O3 as [(Z1 & _ & Z2)|O3]; [left; auto|right; exact O3].
    + intros Em Hl. destruct (H3 Em Hl) as (K1 & K2 & K3 & _). split; [exact K1|]. split; [exact K2|exact K3].
  - intros HM Em j c Hj Hjm. cbn [v_iter v_rh] in *. destruct (H3 Em ltac:(lia)) as (_ & _ & _ & K4). rewrite Er. 
    pose proof (K4 j ltac:(lia) Hjm (lin_M HM) (fun l => c (l + 1)%Z)) as K5. unfold kp in K5. change (e_n e) with n in K5. rewrite poly_krylov in K5 by lia.
    eapply Rle_trans; [exact K5|]. unfold a, mr. destruct (k =? 9); [rewrite rel_bn|rewrite Rmult_1_r]; apply Rle_refl.
  - intros Hs N1 N2 N3. cbn [v_status v_iter]. destruct HO as [(O1 & O2 & O3 & O4 & O5)|(O1 & O2 & O3 & O4)].
    + split; [exact O1|]. apply O5; auto.
    + specialize (O4 Hs N1 N2). lia.
Qed.
End P.
