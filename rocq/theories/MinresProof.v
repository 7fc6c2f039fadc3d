(** MINRES: the loop. *)
Require Import Reals Lra ZArith List Bool Lia.
From Verif Require Import Base Scalar ScalarReal Spec SpecSolver SpecTerm SpecGmres Krylov Krylov3 MatvecProof KrylovProof TermProof GmresMath GmresProof GmresLoop MinresMath.
Import ListNotations.
Open Scope Z_scope.

Section P.
Variables (st : bool) (e : env (T:=R)) (M : list (entry R)).
Notation n := (e_n e).
Notation pe := (peq n).
Notation ip := (GmresMath.ip n).
Hypothesis Hn : 0 <= n.
Hypothesis HM : is_matrix n (e_psolve e) M.
Definition Ef (f : Z -> R) : Z -> R := mv_spec (e_E e) n f.
Definition Mg (f : Z -> R) : Z -> R := mv_spec M n f.
Definition K (f : Z -> R) : Z -> R := Mg (Ef f).
Lemma mv_ext_ (A : list (entry R)) f g j : pe f g -> mv_spec A n f j = mv_spec A n g j.
Proof. intros H. apply sm_ext. intros a Ha. rewrite H by auto. reflexivity. Qed.
Lemma mv_lin_ (A : list (entry R)) a b f g h j : pe h (fun j => a * f j + b * g j)%R -> mv_spec A n h j = (a * mv_spec A n f j + b * mv_spec A n g j)%R.
Proof.
  intros H. change (sm 0 n (fun k => coef A j k * h k) = a * sm 0 n (fun k => coef A j k * f k) + b * sm 0 n (fun k => coef A j k * g k))%R.
  rewrite <- !sm_scal, <- sm_plus. apply sm_ext. intros k Hk. rewrite (H k Hk). ring.
Qed.
Lemma K_ext f g : pe f g -> pe (K f) (K g).
Proof. intros H j Hj. apply mv_ext_. intros i Hi. apply mv_ext_. exact H. Qed.
Lemma K_lin a b f g : pe (K (fun j => a * f j + b * g j)%R) (fun j => a * K f j + b * K g j)%R.
Proof. intros j Hj. apply mv_lin_. intros i Hi. apply mv_lin_. intros c Hc. reflexivity. Qed.
Hypothesis K_sym : forall f g, ip (K f) g = ip f (K g).
Hypothesis HS : st = true -> (forall f, pe (K f) (fun _ => 0%R) -> pe f (fun _ => 0%R)) /\ (0 <= e_tol e)%R.

(** M (b - A x) *)
Definition Zf (x : list R) : Z -> R := Mg (fun i => at_ (e_b e) i - Ef (at_ x) i)%R.
Lemma Zf_step x x' (w : Z -> R) a : pe (at_ x') (fun j => at_ x j + a * w j)%R -> pe (Zf x') (fun j => Zf x j - a * K w j)%R.
Proof.
  intros H j Hj. unfold Zf, K. replace (Mg _ j - a * Mg (Ef w) j)%R with (1 * Mg (fun i => at_ (e_b e) i - Ef (at_ x) i) j + (- a) * Mg (Ef w) j)%R by ring.
  apply mv_lin_. intros i Hi. unfold Ef. rewrite (mv_lin_ (e_E e) 1 a (at_ x) w (at_ x') i); [ring|]. intros c Hc. rewrite (H c Hc). ring.
Qed.
Variables (x0 rh0 : list R).
Definition z0 := Zf x0.
Definition r0 : R := sqrt (ip z0 z0).
Hypothesis R0 : r0 <> 0%R.
Definition ms (x : list R) : R := (sqrt (ip (Zf x) (Zf x)) / r0)%R.
(** the recorded history up to iteration it *)
Definition best (it : Z) (v : R) : Prop :=
  forall c p, pe p (fun j => z0 j - sm 0 it (fun l => c l * Kp K (S (Z.to_nat l)) z0 j))%R -> (v <= sqrt (ip p p) / r0)%R.
Definition hist (it : Z) (x : list R) (rh : list R) : Prop :=
  zlen rh = e_maxiter e + 2 /\ (ms x <= 1)%R /\ (forall j, j < 1 -> at_ rh j = at_ rh0 j) /\
  (e_mem e = true -> 1 <= it -> at_ rh it = ms x /\ (forall j, 1 <= j < it -> (e_tol e < at_ rh j)%R /\ (at_ rh (j + 1)%Z <= at_ rh j)%R) /\ (at_ rh 1%Z <= 1)%R /\ forall j, 1 <= j <= it -> best j (at_ rh j)).
Definition live (it : Z) (k : kst (T:=R)) (l : mst (T:=R)) : Prop :=
  exists V al be qh q1 q0, MI n K z0 it V al be qh q1 q0 (at_ (k_W k 0)) (at_ (k_W k 1)) (at_ (k_W k 4)) (at_ (k_W k 5)) (Zf (k_W k X)) (m_beta2 l) (m_gamma1 l) (m_gamma2 l) (m_sigma1 l) (m_sigma2 l) (m_eta l).
Definition inv (it : Z) (s : kst (T:=R) * mst (T:=R)) : Prop :=
  let '(k, l) := s in 1 <= it <= e_maxiter e + 1 /\
  k_nrm k = Some (ms (k_W k X)) /\ hist (it - 1) (k_W k X) (k_rh k) /\ (1 < it -> (e_tol e < ms (k_W k X))%R) /\
  m_reuc l = sqrt (ip (Zf (k_W k X)) (Zf (k_W k X))) /\
  (live it k l \/ st = false /\ m_beta2 l = 0%R).
Definition stopped (it : Z) (s : kst (T:=R) * mst (T:=R)) : Prop :=
  let '(k, l) := s in k_nrm k = Some (ms (k_W k X)) /\ hist it (k_W k X) (k_rh k) /\ (ms (k_W k X) <= e_tol e)%R.

Lemma divz_R (a b : R) : b <> 0%R -> divz a b = Ok (a / b)%R.
Proof.
  intros H. unfold divz. destruct (seqb b s0) eqn:Hq; [apply seqb_R in Hq; contradiction|reflexivity].
Qed.
Lemma r0_pos : (0 < r0)%R.
Proof. pose proof (sqrt_pos (ip z0 z0)) as H. fold r0 in H. destruct H as [H|H]; [exact H|]. exfalso. apply R0. symmetry. exact H. Qed.
Lemma step_ok it s : it <= e_maxiter e -> inv it s ->
  okm st (minres_body e r0 it s) (fun c => match c with Next s' => inv (it + 1) s' | Stop ret s' => ret = LIS_SUCCESS /\ stopped it s' end).
Proof.
  intros Him. destruct s as [[W nr rh] [b2 g1 g2 s1 s2 eta reuc]]. unfold inv, live, stopped. change X with (-1). intros (Hit & Hnr & Hh & Ht & Hre & HI). cbn [k_W k_nrm k_rh m_beta2 m_gamma1 m_gamma2 m_sigma1 m_sigma2 m_eta m_reuc] in *.
  cbv beta delta [minres_body lt]; cbv zeta; cbv beta iota; cbn [k_W k_nrm k_rh m_beta2 m_gamma1 m_gamma2 m_sigma1 m_sigma2 m_eta m_reuc].
  destruct HI as [HL|(Hst & Hb0)].
  2:{ cbn [m_beta2] in Hb0. apply okm_divz; [auto|]. intros Hb. contradiction. }
  destruct HL as (V & al & be & qh & q1 & q0 & HI). cbn [k_W m_beta2 m_gamma1 m_gamma2 m_sigma1 m_sigma2 m_eta m_reuc] in HI.
  pose proof (m_b _ _ _ _ _ _ _ _ _ _ _ _ _ _ _ _ _ _ _ _ _ HI) as Hb2.
  apply okm_divz; [contradiction|]. intros _.
  cbv [upd Z.eqb Pos.eqb X].
  change (@Scalar.s1 R ScalarR) with 1%R. set (x := W (-1)) in *. set (vs := scale n (1 / b2)%R (W 1)).
  assert (Hvs : pe (at_ vs) (V it)).
  { intros j Hj. unfold vs. rewrite at_scale_R by auto. rewrite (m_v2 _ _ _ _ _ _ _ _ _ _ _ _ _ _ _ _ _ _ _ _ _ HI j Hj). field. exact Hb2. }
  set (p4 := e_psolve e it (matvec n (e_E e) vs)).
  assert (Hp4 : pe (at_ p4) (K (V it))).
  { intros j Hj. unfold p4. etransitivity; [exact (HM it (matvec n (e_E e) vs) j Hj)|]. apply mv_ext_. intros i Hi. etransitivity; [exact (at_tab n (fun i => mv_spec (e_E e) n (at_ vs) i) i Hi)|]. cbv beta. apply mv_ext_. exact Hvs. }
  set (alpha := dot n vs p4).
  assert (Ha : alpha = ip (V it) (K (V it))) by (unfold alpha; rewrite dot_R; apply ip_ext; auto).
  set (v4 := axpy n (sopp b2) (W 0) (axpy n (sopp alpha) vs p4)).
  assert (H4 : pe (at_ v4) (fun j => K (V it) j - alpha * V it j - b2 * at_ (W 0%Z) j)%R).
  { intros j Hj. unfold v4. rewrite !at_axpy_R by auto. rewrite (Hp4 j Hj), (Hvs j Hj). change (@sopp R ScalarR) with Ropp. ring. }
  set (b3 := nrm2 n v4). assert (Hb3 : b3 = sqrt (ip (at_ v4) (at_ v4))) by (unfold b3; rewrite nrm2_R; reflexivity).
  set (delta := (g2 * alpha - g1 * s2 * b2)%R). change (ssub (smul g2 alpha) (smul (smul g1 s2) b2)) with delta.
  set (rho2 := (s2 * alpha + g1 * g2 * b2)%R). change (sadd (smul s2 alpha) (smul (smul g1 g2) b2)) with rho2.
  set (rho3 := (s1 * b2)%R). change (smul s1 b2) with rho3.
  set (rho1 := sqrt (delta * delta + b3 * b3)). change (ssqrt (sadd (smul delta delta) (smul b3 b3))) with rho1.
  apply okm_divz.
  { intros E. destruct st eqn:Est; [|reflexivity]. exfalso. destruct (HS eq_refl) as (HJ & _).
    exact (rho_nonzero n K K_ext K_lin z0 it V al be qh q1 q0 _ _ _ _ _ b2 g1 g2 s1 s2 eta HI alpha b3 delta rho1 rho2 rho3 (at_ v4) H4 Hb3 eq_refl eq_refl eq_refl eq_refl HJ E). }
  intros Hrho. rewrite !divz_R by exact Hrho. cbn [bind].
  set (w2 := scale n (1 / rho1)%R (axpy n (sopp rho2) (W 5) (axpyz n (sopp rho3) (W 4) vs))).
  change (@Scalar.s1 R ScalarR) with 1%R. fold w2.
  assert (Hw2 : pe (at_ w2) (fun j => / rho1 * u it V (at_ (W 4%Z)) (at_ (W 5%Z)) rho2 rho3 j)%R).
  { intros j Hj. unfold w2, u. rewrite at_scale_R, at_axpy_R by auto. rewrite (at_axpyz n (sopp rho3) (W 4) vs j Hj). rewrite (Hvs j Hj). change (@sopp R ScalarR) with Ropp. change (@sadd R ScalarR) with Rplus. change (@smul R ScalarR) with Rmult. field. exact Hrho. }
  set (x' := axpy n (smul (delta / rho1)%R eta) w2 x).
  assert (Hz' : pe (Zf x') (fun j => Zf x j - delta / rho1 * eta * K (at_ w2) j)%R).
  { apply Zf_step. intros j Hj. unfold x'. rewrite at_axpy_R by auto. reflexivity. }
  pose proof (z_norm n K K_ext K_lin K_sym z0 it V al be qh q1 q0 _ _ _ _ _ b2 g1 g2 s1 s2 eta HI alpha b3 delta rho1 rho2 rho3 (at_ v4) (at_ w2) (Zf x') Ha H4 Hb3 eq_refl eq_refl eq_refl eq_refl Hrho Hw2 Hz') as ZN.
  pose proof (optimal n K K_ext K_lin K_sym z0 it V al be qh q1 q0 _ _ _ _ _ b2 g1 g2 s1 s2 eta HI alpha b3 delta rho1 rho2 rho3 (at_ v4) (at_ w2) (Zf x') Ha H4 Hb3 eq_refl eq_refl eq_refl eq_refl Hrho Hw2 Hz') as OP.
  pose proof (step n K K_ext K_lin K_sym z0 it V al be qh q1 q0 _ _ _ _ _ b2 g1 g2 s1 s2 eta HI alpha b3 delta rho1 rho2 rho3 (at_ v4) (at_ w2) (Zf x') Ha H4 Hb3 eq_refl eq_refl eq_refl eq_refl Hrho Hw2 Hz') as ST.
  pose proof (cs1 b3 delta rho1 eq_refl Hrho) as CS.
  assert (Eeta : ip (Zf x) (Zf x) = (eta * eta)%R).
  { rewrite (ip_lin n eta 0 (Zf x) qh qh) by (intros j Hj; rewrite (m_z _ _ _ _ _ _ _ _ _ _ _ _ _ _ _ _ _ _ _ _ _ HI j Hj); ring).
    rewrite (ip_lin_r n eta 0 (Zf x) qh qh) by (intros j Hj; rewrite (m_z _ _ _ _ _ _ _ _ _ _ _ _ _ _ _ _ _ _ _ _ _ HI j Hj); ring). rewrite (m_qh _ _ _ _ _ _ _ _ _ _ _ _ _ _ _ _ _ _ _ _ _ HI). ring. }
  set (s3 := (b3 / rho1)%R) in *. set (reuc' := smul reuc (sabs s3)).
  assert (Hre' : reuc' = sqrt (ip (Zf x') (Zf x'))).
  { unfold reuc'. rewrite ZN, Hre, Eeta. change (sabs s3) with (Rabs s3). change (smul (sqrt (eta * eta)) (Rabs s3)) with (sqrt (eta * eta) * Rabs s3)%R.
    fold (Rsqr eta). fold (Rsqr (s3 * eta)). rewrite !sqrt_Rsqr_abs, Rabs_mult. ring. }
  rewrite divz_R by exact R0. cbn [bind]. change (sdiv reuc' r0) with (reuc' / r0)%R. rewrite Hre'. change (sqrt (ip (Zf x') (Zf x')) / r0)%R with (ms x').
  assert (LE : (ms x' <= ms x)%R).
  { unfold ms. apply Rmult_le_compat_r; [left; apply Rinv_0_lt_compat; exact r0_pos|]. apply sqrt_le_1_alt. rewrite ZN, Eeta.
    pose proof (Rle_0_sqr (delta / rho1 * eta)) as Q. unfold Rsqr in Q. apply Rle_trans with (s3 * eta * (s3 * eta) + delta / rho1 * eta * (delta / rho1 * eta))%R; [lra|].
    replace (s3 * eta * (s3 * eta) + delta / rho1 * eta * (delta / rho1 * eta))%R with ((delta / rho1 * (delta / rho1) + s3 * s3) * (eta * eta))%R by ring. rewrite CS. lra. }
  assert (BE : best it (ms x')).
  { intros c p Hp. unfold ms. apply Rmult_le_compat_r; [left; apply Rinv_0_lt_compat; exact r0_pos|]. apply sqrt_le_1_alt. exact (OP c p Hp). }
  apply okm_bind. destruct Hh as (Hl & Hx1 & Hold & Hmem).
  assert (HH : okm st (if e_mem e then wr rh it (ms x') else Ok rh) (fun rh' => hist it x' rh')).
  { assert (X1 : (ms x' <= 1)%R) by lra. destruct (e_mem e) eqn:Em.
    - rewrite wr_ok by lia. cbn [okm]. split; [rewrite zlen_zupd; exact Hl|]. split; [exact X1|].
      assert (AT : forall j, at_ (zupd rh it (ms x')) j = if j =? it then ms x' else at_ rh j) by (intros j; unfold at_; rewrite (znth_zupd _ rh it j (ms x')) by lia; reflexivity).
      split; [intros j Hj; rewrite AT; destruct (Z.eqb_spec j it) as [Hq|Hq]; [lia|auto]|]. intros _ _. rewrite AT, Z.eqb_refl. split; [reflexivity|].
      destruct (Z.eq_dec it 1) as [->|Hne].
      + split; [intros j Hj; lia|]. rewrite AT. cbn [Z.eqb Pos.eqb]. split; [exact X1|]. intros j Hj. replace j with 1 by lia. rewrite AT. exact BE.
      + destruct (Hmem eq_refl ltac:(lia)) as (M1 & M2 & M3 & M4). split; [|split].
        * intros j Hj. rewrite !AT. destruct (Z.eqb_spec j it) as [Hq|Hq]; [lia|]. destruct (Z.eqb_spec (j + 1) it) as [Hq2|Hq2].
          -- replace j with (it - 1) by lia. rewrite M1. split; [apply Ht; lia|exact LE].
          -- apply M2. lia.
        * rewrite AT. destruct (Z.eqb_spec 1 it) as [Hq|Hq]; [lia|exact M3].
        * intros j Hj. rewrite AT. destruct (Z.eqb_spec j it) as [Hq|Hq]; [rewrite Hq; exact BE|apply M4; lia].
    - split; [exact Hl|]. split; [exact X1|]. split; [exact Hold|]. intros Hq; congruence. }
  eapply okm_mono; [exact HH|]. clear HH. intros rh' HH.
  destruct (sleb (ms x') (e_tol e)) eqn:Esl.
  { apply sleb_R_t in Esl. split; [reflexivity|]. split; [reflexivity|]. split; [exact HH|exact Esl]. }
  apply sleb_R_f in Esl. cbn [okm]. split; [lia|]. cbn [k_nrm k_W k_rh m_reuc]. change X with (-1). cbv beta iota.
  split; [reflexivity|]. replace (it + 1 - 1) with it by lia. split; [exact HH|]. split; [intros _; exact Esl|]. split; [reflexivity|].
  destruct (Req_dec b3 0) as [B0|B0].
  - right. split; [|exact B0]. destruct st eqn:Est; [|reflexivity]. exfalso. destruct (HS eq_refl) as (_ & T0).
    assert (Z0 : ms x' = 0%R). { unfold ms. rewrite ZN. unfold s3. rewrite B0. replace (0 / rho1 * eta * (0 / rho1 * eta))%R with 0%R by (unfold Rdiv; ring). rewrite sqrt_0. unfold Rdiv. ring. }
    lra.
  - left. exists (V' it V b3 (at_ v4)), (al' it al alpha), (be' it be b3), (qh' qh b3 delta rho1 (at_ v4)), (K (at_ w2)), q1.
    cbn [k_W m_beta2 m_gamma1 m_gamma2 m_sigma1 m_sigma2 m_eta]. change (smul eta (sopp s3)) with (eta * - s3)%R. replace (eta * - s3)%R with (- s3 * eta)%R by ring.
    eapply (MI_ext n K K_ext z0); [exact (ST B0)|..]; intros j Hj; try (rewrite at_copy by auto); try reflexivity. exact (Hvs j Hj).
Qed.

Lemma loop_ok fuel : forall it s, inv it s -> Z.of_nat fuel + it = e_maxiter e + 1 ->
  okm st (iterate fuel it (minres_body e r0) s) (fun o => let '(ret, iter, (k, _)) := o in
    k_nrm k = Some (ms (k_W k X)) /\ hist (Z.min iter (e_maxiter e)) (k_W k X) (k_rh k) /\
    (ret = LIS_SUCCESS /\ it <= iter <= e_maxiter e /\ (st = true -> iter <= n) /\ (ms (k_W k X) <= e_tol e)%R \/
     ret = LIS_MAXITER /\ iter = e_maxiter e + 1 /\ (st = true -> e_maxiter e < n) /\ (1 <= e_maxiter e -> (e_tol e < ms (k_W k X))%R))).
Proof.
  assert (CN : forall it s, inv it s -> st = true -> it <= n).
  { intros it [k l] (_ & _ & _ & _ & _ & HI) Hst. destruct HI as [HI|(Hf & _)]; [|congruence]. destruct HI as (V & al & be & qh & q1 & q0 & HI).
    exact (count n K z0 it V al be qh q1 q0 _ _ _ _ _ _ _ _ _ _ _ HI Hn). }
  induction fuel as [|f IH]; intros it s HI Hf; cbn [iterate].
  - destruct s as [k l]. pose proof (CN it (k, l) HI) as C. destruct HI as (I1 & I2 & I3 & I4 & I5 & I6). cbn [okm]. split; [exact I2|]. split; [replace (Z.min it (e_maxiter e)) with (it - 1) by lia; exact I3|].
    right. split; [reflexivity|]. split; [lia|]. split; [intros Hst; specialize (C Hst); lia|]. intros Hm. apply I4. lia.
  - apply okm_bind. eapply okm_mono; [apply step_ok; [lia|exact HI]|]. intros [s'|ret s'] H.
    + eapply okm_mono; [apply IH; [exact H|lia]|]. intros [[ret iter] [k l]] (G1 & G2 & G3). split; [exact G1|]. split; [exact G2|].
      destruct G3 as [(A & B & C)|G3]; [left; split; [exact A|]; split; [lia|exact C]|right; exact G3].
    + destruct H as (-> & H). pose proof (CN it s HI) as C. assert (1 <= it) by (destruct s; destruct HI; lia). destruct s' as [k l]. destruct H as (H1 & H2 & H3). cbn [okm]. split; [exact H1|]. split; [replace (Z.min it (e_maxiter e)) with it by lia; exact H2|].
      left. split; [reflexivity|]. split; [lia|]. split; [exact C|exact H3].
Qed.
End P.
