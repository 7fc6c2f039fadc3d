(** MINRES through lis_solve. *)
Require Import Reals Lra ZArith List Bool Lia.
From Verif Require Import Base Scalar ScalarReal Spec SpecSolver SpecTerm SpecGmres Krylov Krylov2 Krylov3 Solve SolveProof SpecMore MatvecProof KrylovProof TermProof GmresMath GmresProof GmresLoop MinresMath MinresProof MoreFinal.
Import ListNotations.
Open Scope Z_scope.

Section P.
Variables (st : bool) (o : opts (T:=R)) (n : Z) (E M : list (entry R)) (b x : list R).
Hypothesis HA : accepted 23 o.
Hypothesis Hn : 0 <= n.
Hypothesis HM : is_matrix n (s_psolve o) M.
Hypothesis HY : sym_product n M E.
Notation pe := (peq n).
Notation ip := (GmresMath.ip n).
Let x0 := SpecMore.start o n x.
Let xx := guess' o n x.
Let e := menv o n E b.
Let K := K e M.
Let Zf := Zf e M.
Lemma K_prod f i : K f i = sm 0 n (fun j => product n M E i j * f j)%R.
Proof.
  change (sm 0 n (fun k => coef M i k * sm 0 n (fun j => coef E k j * f j)) = sm 0 n (fun j => product n M E i j * f j))%R.
  transitivity (sm 0 n (fun k => sm 0 n (fun j => coef M i k * coef E k j * f j)))%R.
  { apply sm_ext. intros k Hk. rewrite <- sm_scal. apply sm_ext. intros; ring. }
  rewrite sm_swap. apply sm_ext. intros j Hj. change (product n M E i j) with (sm 0 n (fun k => coef M i k * coef E k j)%R).
  transitivity (f j * sm 0 n (fun k => coef M i k * coef E k j))%R; [|ring]. rewrite <- sm_scal. apply sm_ext. intros; ring.
Qed.
Lemma K_sym f g : ip (K f) g = ip f (K g).
Proof.
  unfold GmresMath.ip. transitivity (sm 0 n (fun i => sm 0 n (fun j => product n M E i j * f j * g i)))%R.
  { apply sm_ext. intros i Hi. rewrite K_prod. transitivity (g i * sm 0 n (fun j => product n M E i j * f j))%R; [ring|]. rewrite <- sm_scal. apply sm_ext. intros; ring. }
  rewrite sm_swap. apply sm_ext. intros j Hj. rewrite K_prod. rewrite <- sm_scal. apply sm_ext. intros i Hi. rewrite (HY i j Hi Hj). ring.
Qed.
Lemma Zf_pre y j : 0 <= j < n -> Zf y j = vcomp (pre n E M b y) j.
Proof.
  intros Hj. symmetry. etransitivity; [exact (at_tab n (mv_spec M n (vcomp (residual n E b y))) j Hj)|]. apply (mv_ext_ e).
  intros i Hi. exact (at_tab n (fun i => ssub (vcomp b i) (mv_spec E n (vcomp y) i)) i Hi).
Qed.
Lemma nrm_norm (f : Z -> R) v : (forall j, 0 <= j < n -> f j = vcomp v j) -> sqrt (ip f f) = norm2 n v.
Proof. intros H. change (norm2 n v) with (sqrt (ip (vcomp v) (vcomp v))). f_equal. apply ip_ext; exact H. Qed.
Lemma Zf_norm y : sqrt (ip (Zf y) (Zf y)) = norm2 n (pre n E M b y).
Proof. apply nrm_norm. apply Zf_pre. Qed.
Lemma pre_ext y y' : (forall j, 0 <= j < n -> vcomp y j = vcomp y' j) -> pre n E M b y = pre n E M b y'.
Proof. intros H. unfold pre. f_equal. apply residual_ext. exact H. Qed.
Lemma xx_x0 : pre n E M b xx = pre n E M b x0.
Proof. apply pre_ext. intros; apply guess_start; auto. Qed.
Lemma Kp_power l j : 0 <= j < n -> Kp K l (Zf xx) j = vcomp (power n M E l (pre n E M b x0)) j.
Proof.
  revert j. induction l as [|l IH]; intros j Hj; cbn [Kp power].
  - rewrite Zf_pre, xx_x0 by auto. reflexivity.
  - etransitivity; [apply (K_ext e M (Kp K l (Zf xx)) (vcomp (power n M E l (pre n E M b x0))) IH j Hj)|].
    symmetry. etransitivity; [exact (at_tab n (mv_spec M n (vcomp (times n E (power n M E l (pre n E M b x0))))) j Hj)|]. apply (mv_ext_ e). intros i Hi.
    exact (at_tab n (mv_spec E n (vcomp (power n M E l (pre n E M b x0)))) i Hi).
Qed.
Lemma poly i c : 0 <= i -> pe (vcomp (krylov_residual n M E c i (pre n E M b x0))) (fun j => Zf xx j - sm 0 i (fun l => c (l + 1)%Z * Kp K (S (Z.to_nat l)) (Zf xx) j))%R.
Proof.
  intros Hi j Hj.
  etransitivity; [apply (at_tab n (fun i0 => (vcomp (pre n E M b x0) i0 - ssum (map (fun l => (c l * vcomp (power n M E (Z.to_nat l) (pre n E M b x0)) i0)%R) (zrange 1 (i + 1))))%R) j Hj)|].
  cbv beta. rewrite Zf_pre, xx_x0 by auto. f_equal.
  change (ssum (map (fun l => (c l * vcomp (power n M E (Z.to_nat l) (pre n E M b x0)) j)%R) (zrange 1 (i + 1)))) with (sm 1 (i + 1) (fun l => (c l * vcomp (power n M E (Z.to_nat l) (pre n E M b x0)) j)%R)).
  pattern i. apply natlike_ind; [rewrite !sm_nil by lia; reflexivity| |exact Hi].
  intros a Ha IH. unfold Z.succ. rewrite (sm_snoc 1) by lia. rewrite IH. rewrite (sm_snoc 0) by lia. rewrite (Kp_power (S (Z.to_nat a)) j Hj). replace (Z.to_nat (a + 1)) with (S (Z.to_nat a)) by lia. reflexivity.
Qed.
Hypothesis HS : st = true -> nonsingular n E /\ nonsingular n M /\ (0 <= s_tol o)%R /\ exists i, 0 <= i < n /\ vcomp (pre n E M b x0) i <> 0%R.
Lemma list_of (f : Z -> R) : exists v, forall i, 0 <= i < n -> vcomp v i = f i.
Proof. exists (tab n f). intros i Hi. exact (at_tab n f i Hi). Qed.
Lemma inj : nonsingular n E -> nonsingular n M -> forall f, pe (K f) (fun _ => 0%R) -> pe f (fun _ => 0%R).
Proof.
  intros HE HM' f Hf. destruct (list_of (Ef e f)) as (v & Hv). destruct (list_of f) as (w & Hw).
  assert (Z1 : forall i, 0 <= i < n -> vcomp v i = 0%R).
  { apply HM'. intros i Hi. rewrite <- (Hf i Hi). apply (mv_ext_ e). exact Hv. }
  intros i Hi. rewrite <- Hw by auto. apply HE; auto. intros j Hj. rewrite <- (Z1 j Hj), Hv by auto. apply (mv_ext_ e). exact Hw.
Qed.
Let ms := ms e M xx.
Lemma ms_ratio y : ms y = mratio n E M b x0 y.
Proof. unfold ms, MinresProof.ms, r0, z0, mratio. fold Zf. change (e_n e) with n. rewrite !Zf_norm, xx_x0. reflexivity. Qed.
Let v2 := copy n (e_psolve e 0 (xpay n (e_b e) (sopp s1) (matvec n (e_E e) xx))).
Lemma V2_eq : pe (at_ v2) (Zf xx).
Proof using HM.
  intros j Hj. unfold v2. rewrite at_copy by auto. etransitivity; [exact (HM 0 _ j Hj)|]. apply (mv_ext_ e). intros i Hi. etransitivity; [exact (at_tab n _ i Hi)|]. cbv beta.
    change (at_ (e_b e) i + - (1) * at_ (matvec n (e_E e) xx) i = at_ (e_b e) i - Ef e (at_ xx) i)%R. replace (at_ (matvec n (e_E e) xx) i) with (Ef e (at_ xx) i) by (symmetry; exact (at_tab n (fun i => mv_spec E n (at_ xx) i) i Hi)). ring.
Qed.
Lemma v2_norm : nrm2 n v2 = r0 e M xx.
Proof using HM. rewrite nrm2_R; unfold r0, z0; fold Zf; change (e_n e) with n; f_equal; apply ip_ext; exact V2_eq. Qed.
Lemma minres_zero : accepted 23 o -> norm2 n (pre n E M b x0) = 0%R -> lis_solve o n E b x = Err DIV_BY_ZERO.
Proof using HM.
  intros HA' Hz. rewrite (reduce 23) by (cbn [In]; auto 10; lia). unfold execute. destruct HA' as (A1 & _). rewrite A1.
  cbv beta delta [lis_minres lt]; cbv zeta; cbv beta iota. cbv [upd Z.eqb Pos.eqb X].
  change (e_n (menv o n E b)) with n. change (copy n (e_psolve (menv o n E b) 0 (xpay n (e_b (menv o n E b)) (sopp s1) (matvec n (e_E (menv o n E b)) (guess' o n x))))) with v2.
  rewrite v2_norm. assert (Z0 : r0 e M xx = 0%R) by (unfold r0, z0; fold Zf; change (e_n e) with n; rewrite Zf_norm, xx_x0; exact Hz). rewrite Z0.
  unfold divz. destruct (seqb (Scalar:=ScalarR) 0%R s0) eqn:Hq; [reflexivity|]. apply seqb_R0 in Hq. contradiction.
Qed.
Lemma minres_exec : okm st (lis_minres e xx (rh0 o)) (fun r =>
  o_resid r = Some (ms (o_x r)) /\ hist e M xx (rh0 o) (Z.min (o_iter r) (s_maxiter o)) (o_x r) (o_rh r) /\ r0 e M xx <> 0%R /\
  (o_ret r = LIS_SUCCESS /\ 1 <= o_iter r <= s_maxiter o /\ (st = true -> o_iter r <= n) /\ (ms (o_x r) <= s_tol o)%R \/
   o_ret r = LIS_MAXITER /\ o_iter r = s_maxiter o + 1 /\ (st = true -> s_maxiter o < n) /\ (1 <= s_maxiter o -> (s_tol o < ms (o_x r))%R))).
Proof.
  destruct HA as (A1 & A2 & A3 & A4 & A5 & A6 & A7 & A8).
  cbv beta delta [lis_minres lt]; cbv zeta; cbv beta iota. cbv [upd Z.eqb Pos.eqb X].
  change (e_n e) with n. change (copy n (e_psolve e 0 (xpay n (e_b e) (sopp s1) (matvec n (e_E e) xx)))) with v2.
  pose proof V2_eq as V2. pose proof v2_norm as Er.
  rewrite Er. apply okm_divz.
  { intros Hz. destruct st eqn:Est; [|reflexivity]. exfalso. destruct (HS eq_refl) as (_ & _ & _ & i & Hi & Hne). apply Hne. rewrite <- xx_x0, <- Zf_pre by auto.
    assert (I0 : ip (Zf xx) (Zf xx) = 0%R) by (apply sqrt_eq_0; [apply ip_nonneg|exact Hz]). exact (ip_zero n (Zf xx) I0 i Hi). }
  intros R0. apply okm_bind.
  assert (S3 : st = true -> (forall f, peq (e_n e) (MinresProof.K e M f) (fun _ => 0%R) -> peq (e_n e) f (fun _ => 0%R)) /\ (0 <= e_tol e)%R).
  { intros Hs. destruct (HS Hs) as (S1 & S2 & S3 & _). split; [apply inj; auto|exact S3]. }
  assert (D1 : (r0 e M xx / r0 e M xx)%R = ms xx) by (unfold ms, MinresProof.ms; reflexivity).
  assert (D2 : ms xx = 1%R) by (rewrite <- D1; field; exact R0).
  eapply okm_mono; [apply (loop_ok st e M Hn HM K_sym S3 xx (rh0 o) R0 (Z.to_nat (s_maxiter o)) 1)|].
  - split; [change (e_maxiter e) with (s_maxiter o); lia|]. cbn [k_nrm k_W k_rh m_reuc]. change X with (-1). cbv beta iota. split; [rewrite D1; reflexivity|]. split.
    { split; [apply zlen_rh0; exact A5|]. split; [fold ms; rewrite D2; lra|]. split; [reflexivity|]. intros; lia. }
    split; [intros; lia|]. split; [reflexivity|]. left.
    exists (fun i => if i =? 1 then (fun j => / r0 e M xx * Zf xx j)%R else (fun _ => 0%R)), (fun _ => 0%R), (fun _ => r0 e M xx), (fun j => / r0 e M xx * Zf xx j)%R, (fun _ => 0%R), (fun _ => 0%R).
    cbn [k_W m_beta2 m_gamma1 m_gamma2 m_sigma1 m_sigma2 m_eta]. change X with (-1). cbv beta iota.
    eapply (MI_ext n (MinresProof.K e M) (K_ext e M) (z0 e M xx)); [exact (MinresMath.start n (MinresProof.K e M) (K_ext e M) (K_lin e M) (z0 e M xx) (r0 e M xx) eq_refl R0)|..]; intros j Hj; try (exact (at_set_all n 0%R j Hj)); try reflexivity. exact (V2 j Hj).
  - change (e_maxiter e) with (s_maxiter o). lia.
  - intros [[ret iter] [k l]] (G1 & G2 & G3). cbn [okm o_resid o_x o_iter o_rh o_ret]. split; [exact G1|]. split; [exact G2|]. split; [exact R0|exact G3].
Qed.
Lemma minres_solve : okm st (lis_solve o n E b x) (fun v => minres_ends o n E M b x v /\ norm2 n (pre n E M b x0) <> 0%R /\
  (st = true -> n <= s_maxiter o -> v_status v = LIS_SUCCESS /\ v_iter v <= n)).
Proof.
  rewrite (reduce 23) by (cbn [In]; auto 10; lia). destruct HA as (A1 & A2 & A3 & A4 & A5 & A6 & A7 & A8). apply okm_bind. unfold execute. rewrite A1.
  eapply okm_mono; [exact minres_exec|]. intros r (H1 & H2 & H3 & H4). destruct H2 as (L1 & L2 & L3 & L4). cbn [okm].
  assert (MC : mratio n E M b x0 (copy n (o_x r)) = ms (o_x r)).
  { rewrite ms_ratio. unfold mratio. rewrite (pre_ext (copy n (o_x r)) (o_x r)); [reflexivity|]. intros j Hj. exact (at_tab n (at_ (o_x r)) j Hj). }
  assert (NR : r0 e M xx = norm2 n (pre n E M b x0)) by (unfold r0, z0; fold Zf; change (e_n e) with n; rewrite Zf_norm, xx_x0; reflexivity).
  assert (RZ : vcomp (o_rh r) 0 = 1%R) by (etransitivity; [exact (L3 0 ltac:(lia))|exact (rh0_0 o A5)]).
  split; [|split].
  - unfold minres_ends. cbv zeta. cbn [v_ret v_E v_b v_rh v_resid v_x v_status v_iter]. fold x0. rewrite MC. split; [reflexivity|]. split; [reflexivity|]. split; [reflexivity|]. split; [exact L1|]. split; [exact RZ|]. split; [exact H1|]. split; [exact L2|]. split.
    + destruct H4 as [(B1 & B2 & B3 & B4)|(B1 & B2 & B3 & B4)]; [left; auto|right; auto].
    + intros Em Hl. destruct (L4 Em Hl) as (C1 & C2 & C3 & C4). split; [exact C1|]. split; [intros j Hj; apply C2; exact Hj|]. split.
      * intros j Hj. destruct (Z.eq_dec j 0) as [->|Hj0]; [rewrite RZ; exact C3|]. apply C2. lia.
      * intros j c Hj. rewrite <- NR. eapply Rle_trans; [apply (C4 j Hj (fun l => c (l + 1)%Z) (vcomp (krylov_residual n M E c j (pre n E M b x0))))|].
        { apply poly. lia. } apply Rle_refl.
  - rewrite <- NR. exact H3.
  - intros Hs Hm. cbn [v_status v_iter]. destruct H4 as [(B1 & B2 & B3 & B4)|(B1 & B2 & B3 & B4)]; [split; auto|]. specialize (B3 Hs). lia.
Qed.
End P.
