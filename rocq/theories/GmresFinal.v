(** lis_gmres and lis_fgmres. *)
Require Import Reals Lra ZArith List Bool Lia.
From Verif Require Import Base Scalar ScalarReal Spec SpecSolver SpecTerm Krylov MatvecProof KrylovProof TermProof Gmres GmresMath GmresProof GmresLoop GmresCycle FgmresCycle GmresOuter.
Import ListNotations.
Open Scope Z_scope.

Section P.
Variables (st : bool) (e : env (T:=R)) (m : Z) (hm : Z -> R) (x rh : list R).
Notation n := (e_n e).
Hypothesis Hm : 1 <= m.
Hypothesis Hn : 0 <= n.
Hypothesis Hmax : 0 <= e_maxiter e.
Hypothesis Hrh : zlen rh = e_maxiter e + 2.
Hypothesis Hcv : e_conv e = 0.
Hypothesis HZ : zeros_ok e x.
Notation pe := (peq n).
Notation nrm f := (sqrt (ip (e_n e) f f)).
Notation rs := (resf e).
Definition bn : R := if seqb (nrm (rs x)) 0%R then 1%R else (1 / nrm (rs x))%R.
Lemma bn_nonneg : (0 <= bn)%R.
Proof.
  unfold bn. destruct (seqb (nrm (rs x)) 0%R) eqn:E; [lra|]. apply seqb_R0 in E. assert (0 <= nrm (rs x))%R by apply sqrt_pos.
  unfold Rdiv. rewrite Rmult_1_l. apply Rlt_le, Rinv_0_lt_compat. lra.
Qed.
Lemma init_ok : exists p, pe (at_ p) (rs x) /\ get_initial_residual e x = (p, bn, e_tol e, (nrm (rs x) * bn)%R, sleb (nrm (rs x) * bn)%R (sabs (e_tol e))).
Proof.
  pose proof (initial_resid ScalarR_ring e x HZ) as HI. unfold get_initial_residual in *. rewrite Hcv in *. cbn [Z.eqb] in *. cbn [fst] in HI.
  set (p := if e_zeros e then _ else _) in *. exists p.
  assert (Ep : pe (at_ p) (rs x)) by exact HI. split; [exact Ep|].
  assert (En : nrm2 n p = nrm (rs x)) by (rewrite nrm2_R; f_equal; apply ip_ext; exact Ep). rewrite En. reflexivity.
Qed.
Lemma zlen_tab' {A} (k : Z) (f : Z -> A) : 0 <= k -> zlen (tab k f) = k.
Proof. intros. unfold tab, zlen. rewrite map_length. pose proof (zlen_zrange 0 k) as HL. unfold zlen in HL. lia. Qed.

Variable Mf : (Z -> R) -> Z -> R.
Definition linear_ := (forall it w f, pe (at_ w) f -> pe (at_ (e_psolve e it w)) (Mf f)) /\
  (forall lo hi y (g : Z -> Z -> R) f, pe f (fun j => sm lo hi (fun k => y k * g k j)%R) -> pe (Mf f) (fun j => sm lo hi (fun k => y k * Mf (g k) j)%R)).
Hypothesis M3 : st = true -> linear_ /\ (forall f, pe (Af e (Mf f)) (fun _ => 0%R) -> pe f (fun _ => 0%R)) /\ (0 <= e_tol e)%R.

Definition kp (a : R) (x : list R) (i : Z) (v : R) : Prop :=
  linear_ -> forall c : Z -> R, (v <= nrm (fun j => rs x j - sm 0 i (fun l => c l * Bp e Mf (S (Z.to_nat l)) (rs x) j))%R * a)%R.
Definition ms (a : R) (y : list R) : R := (nrm (rs y) * a)%R.
Definition first_post (o : sol (T:=R)) := o = mkSol LIS_SUCCESS 1 (Some (nrm (rs x) * bn)%R) x rh.

Lemma gmres_ok : linear_ -> okm st (lis_gmres m hm e x rh) (fun o =>
  if sleb (nrm (rs x) * bn)%R (sabs (e_tol e)) then first_post o
  else opost st m n (e_maxiter e) (e_mem e) (e_tol e) (ms bn) (kp bn) x rh o).
Proof.
  intros (M1 & M2). unfold lis_gmres. cbv zeta. destruct init_ok as (p & Ep & ->).
  cbn [bind]. apply okm_wr; [rewrite zlen_tab' by lia; lia|]. apply okm_wr; [rewrite zlen_zupd, zlen_tab' by lia; lia|].
  destruct (sleb (nrm (rs x) * bn)%R (sabs (e_tol e))) eqn:El; [cbn [okm]; reflexivity|].
  apply okm_wr; [rewrite !zlen_zupd, zlen_tab' by lia; lia|].
  apply sleb_R_f in El. change (sabs (e_tol e)) with (Rabs (e_tol e)) in El. pose proof (Rle_abs (e_tol e)) as Ra.
  set (W := zupd (zupd (zupd _ _ _) _ _) _ _).
  assert (LW : zlen W = m + 5) by (unfold W; rewrite !zlen_zupd, zlen_tab' by lia; reflexivity).
  apply (outer_ok st m n (e_maxiter e) (e_mem e) (e_tol e) (ms bn) (kp bn)) with (Pre := fun g => st = true -> (e_tol e < ms bn (g_x g))%R) (Inv := fun g _ => zlen (g_W g) = m + 5 /\ zlen (g_h g) = (m + 2) * (m + 3) /\ has e (g_W g) 3 (rs (g_x g))).
  - exact Hm.
  - auto.
  - intros iter g [] Hit (I1 & I2 & I3) Lr Ht. apply okm_bind. eapply okm_mono.
    + apply (gmres_cycle_ok st e m Hm Hn Mf M1 M2 (fun H => proj1 (proj2 (M3 H))) (e_tol e) bn bn_nonneg (fun H => proj2 (proj2 (M3 H))) iter g I1 I2 I3 Hit).
      * intros _. lia.
      * intros Hs C. specialize (Ht Hs). unfold ms in Ht. rewrite C in Ht. pose proof (proj2 (proj2 (M3 Hs))). lra.
    + intros [[ret iter'] g'] (P1 & P2 & P3 & P4 & P5 & P6 & P7 & P8 & P9). cbn [okm].
      split; [exact P1|]. split; [exact P2|]. split; [exact P3|]. split; [apply Rmult_le_compat_r; [apply bn_nonneg|exact P4]|]. split; [exact P5|]. split.
      * intros Em. destruct (P8 Em) as (Q1 & Q2 & Q3). split; [intros p0 Hp0; apply P6; lia|]. split; [exact Q1|]. split; [exact Q2|]. intros j Hj. destruct (Q3 j Hj) as (v & V1 & V2 & V3). rewrite V1. split; [apply Rmult_le_compat_r; [apply bn_nonneg|exact V2]|].
        intros _ c. apply Rmult_le_compat_r; [apply bn_nonneg|apply V3].
      * destruct P9 as [P9|(A1 & A2 & A3 & A4 & A5)]; [left; exact P9|right]. split; [exact A1|]. split; [exact A2|]. split; [exact A3|]. split; [exact A4|]. intros _. exact A5.
  - lia.
  - intros _. cbn [g_x]. unfold ms. lra.
  - split; [lia|]. split; [|split; [|split]].
    + intros _. cbn [g_W g_h g_x]. split; [exact LW|]. split; [apply zlen_tab'; lia|]. exists p. split; [|exact Ep].
      unfold W. rewrite znth_zupd by (rewrite !zlen_zupd, zlen_tab' by lia; lia). reflexivity.
    + split; [reflexivity|]. split; [cbn [g_x]; lra|lia].
    + left. cbn [g_x g_nrm]. auto.
    + intros _ _ N2. split; [reflexivity|lia].
Qed.

Lemma fgmres_ok : okm st (lis_fgmres m hm e x rh) (fun o =>
  if sleb (nrm (rs x) * bn)%R (sabs (e_tol e)) then first_post o
  else opost st m n (e_maxiter e) (e_mem e) (e_tol e) (ms 1%R) (kp 1%R) x rh o).
Proof.
  unfold lis_fgmres. cbv zeta. destruct init_ok as (p & Ep & ->).
  destruct (sleb (nrm (rs x) * bn)%R (sabs (e_tol e))) eqn:El; [cbn [okm]; reflexivity|].
  apply sleb_R_f in El. change (sabs (e_tol e)) with (Rabs (e_tol e)) in El.
  assert (Nr : nrm (rs x) <> 0%R).
  { intros C. rewrite C, Rmult_0_l in El. pose proof (Rabs_pos (e_tol e)). lra. }
  assert (Eb : bn = (/ nrm (rs x))%R).
  { unfold bn. destruct (seqb (nrm (rs x)) 0%R) eqn:E; [apply seqb_R in E; contradiction|]. unfold Rdiv. ring. }
  apply okm_wr; [rewrite zlen_tab' by lia; lia|].
  apply okm_divz; [intros C; rewrite Eb in C; pose proof (Rinv_neq_0_compat _ Nr); contradiction|intros _].
  set (W := zupd _ _ _).
  assert (LW : zlen W = 2 * m + 5) by (unfold W; rewrite !zlen_zupd, zlen_tab' by lia; reflexivity).
  apply (outer_ok st m n (e_maxiter e) (e_mem e) (e_tol e) (ms 1%R) (kp 1%R)) with (Pre := fun _ => True) (Inv := fun g l => zlen (g_W g) = 2 * m + 5 /\ zlen (g_h g) = (m + 2) * (m + 3) /\ has e (g_W g) (m + 2) (rs (g_x g)) /\
     nrm (rs (g_x g)) <> 0%R /\ l = (nrm (rs (g_x g)), / nrm (rs (g_x g)))%R).
  - exact Hm.
  - auto.
  - intros iter g l Hit (I1 & I2 & I3 & I4 & I5) Lr _. eapply okm_mono.
    + apply (fgmres_cycle_ok st e m Hm Hn linear_ Mf (fun H => H) (fun H => conj (proj1 (M3 H)) (proj1 (proj2 (M3 H)))) (e_tol e) (fun H => proj2 (proj2 (M3 H))) iter g l I1 I2 I3 Hit).
      * intros _. lia.
      * exact I4.
      * exact I5.
    + intros [[[ret iter'] g'] l'] (P1 & P2 & P3 & P4 & P5 & P6 & P7 & P8 & P9). unfold gpost, ms. rewrite !Rmult_1_r.
      split; [exact P1|]. split; [exact P2|]. split; [exact P3|]. split; [exact P4|]. split; [exact P5|]. split.
      * intros Em. destruct (P8 Em) as (Q1 & Q2 & Q3). split; [intros p0 Hp0; apply P6; lia|]. split; [exact Q1|]. split; [exact Q2|]. intros j Hj. destruct (Q3 j Hj) as (V2 & V3). split; [exact V2|].
        intros Hl c. rewrite Rmult_1_r. apply (V3 Hl c).
      * destruct P9 as [P9|(A1 & A2 & A3 & A4 & A5 & A6 & A7 & A8)]; [left; exact P9|right]. split; [exact A1|]. split; [exact A2|]. split; [exact A3|]. split; [exact A4|].
        intros Hlt. destruct (A8 Hlt). auto.
  - lia.
  - exact I.
  - split; [lia|]. split; [|split; [|split]].
    + intros _. cbn [g_W g_h g_x]. split; [exact LW|]. split; [apply zlen_tab'; lia|]. split; [|split; [exact Nr|]].
      * exists p. split; [|exact Ep]. unfold W. rewrite znth_zupd by (rewrite zlen_tab' by lia; lia). rewrite Z.eqb_refl. reflexivity.
      * rewrite Eb. f_equal. change s1 with 1%R. field. exact Nr.
    + split; [reflexivity|]. split; [cbn [g_x]; lra|lia].
    + left. cbn [g_x g_nrm]. auto.
    + intros _ _ N2. split; [reflexivity|lia].
Qed.
End P.
