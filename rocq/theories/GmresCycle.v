(** One cycle of GMRES. *)
Require Import Reals Lra ZArith List Bool Lia.
From Verif Require Import Base Scalar ScalarReal Spec SpecSolver Krylov MatvecProof KrylovProof TermProof Gmres GmresMath GmresProof GmresLoop.
Import ListNotations.
Open Scope Z_scope.

Section P.
Variables (st : bool) (e : env (T:=R)) (m : Z).
Notation n := (e_n e).
Hypothesis Hm : 1 <= m.
Hypothesis Hn : 0 <= n.
Notation hd := (m + 1).
Notation cs := ((m + 1) * (m + 1)).
Notation sn := ((m + 2) * (m + 1)).
Notation hlen := ((m + 2) * (m + 3)).
Notation pe := (peq n).
Notation on := (ip n).
Notation nrm f := (sqrt (ip (e_n e) f f)).
Notation rs := (resf e).
Notation has' := (has e).

Lemma CI_count L vr zr zinj r0 i W sv h V q qh Zv : CInv e m L vr zr zinj r0 i W sv h V q qh Zv -> 0 <= i -> i <= n /\ (alive vr i W -> i + 1 <= n).
Proof.
  intros C Hi. destruct C as [cW cs_ ch cv con clast cq0 crot cA cr cz1 cz2]. split; [apply (orthonormal_count n V); auto|].
  intros Al. apply (orthonormal_count n V); auto; [lia|]. destruct clast as [(_ & Nw & Ow)|(_ & C & _)]; [|contradiction].
  intros a b Ha Hb. destruct (Z.eq_dec a i) as [->|], (Z.eq_dec b i) as [->|].
  - rewrite Z.eqb_refl. auto.
  - rewrite ip_sym, Ow by lia. destruct (Z.eqb_spec i b); [lia|reflexivity].
  - rewrite Ow by lia. destruct (Z.eqb_spec a i); [lia|reflexivity].
  - apply con; lia.
Qed.

Lemma CI_0 L vr zr zinj r0 W sv h v0 : 0 <= vr 0 < L -> zlen W = L -> zlen sv = m + 1 -> zlen h = hlen ->
  znth None W (vr 0) = Some v0 -> on (at_ v0) (at_ v0) = 1%R -> pe r0 (fun j => znth 0%R sv 0 * at_ v0 j)%R ->
  CInv e m L vr zr zinj r0 0 W sv h (fun _ => at_ v0) (fun _ _ => 0%R) (fun _ => at_ v0) (fun _ _ => 0%R).
Proof.
  intros Hv HW Hs Hh HV HO HR. constructor; auto; try (intros; lia).
  - left. split; [exists v0; split; [exact HV|intros ? ?; reflexivity]|]. split; [exact HO|intros; lia].
  - intros ? ?; reflexivity.
  - intros j Hj. rewrite sm_nil by lia. rewrite HR by auto. ring.
Qed.

Lemma res_step (x z : list R) (f : Z -> R) j : 0 <= j < n -> pe (at_ z) f -> rs (axpy n 1%R z x) j = (rs x j - Af e f j)%R.
Proof.
  intros Hj Hf. unfold resf. replace (mv e (axpy n 1%R z x) j) with (mv e x j + Af e f j)%R; [ring|].
  change (mv e (axpy n 1%R z x) j) with (Af e (at_ (axpy n 1%R z x)) j). change (mv e x j) with (Af e (at_ x) j).
  rewrite (Af_sum e 0 2 (fun _ => 1%R) (fun k => if k =? 0 then at_ x else f) (at_ (axpy n 1%R z x)) j).
  - change 2 with (1 + 1). rewrite sm_snoc by lia. change 1 with (0 + 1) at 1. rewrite sm_snoc by lia. rewrite sm_nil by lia. cbn [Z.eqb]. ring.
  - intros a Ha. rewrite at_axpy_R by auto. rewrite Hf by auto. change 2 with (1 + 1). rewrite sm_snoc by lia. change 1 with (0 + 1) at 2. rewrite sm_snoc by lia. rewrite sm_nil by lia. cbn [Z.eqb]. ring.
Qed.

Lemma zlen_tab (k : Z) (a : R) : 0 <= k -> zlen (set_all (T:=R) k a) = k.
Proof. intros. unfold set_all, tab, zlen. rewrite map_length. pose proof (zlen_zrange 0 k) as HL. unfold zlen in HL. lia. Qed.

(** *** GMRES *)
Variable Mf : (Z -> R) -> Z -> R.
Hypothesis M1 : forall it w f, pe (at_ w) f -> pe (at_ (e_psolve e it w)) (Mf f).
Hypothesis M2 : forall lo hi y (g : Z -> Z -> R) f, pe f (fun j => sm lo hi (fun k => y k * g k j)%R) -> pe (Mf f) (fun j => sm lo hi (fun k => y k * Mf (g k) j)%R).
Hypothesis M3 : st = true -> forall f, pe (Af e (Mf f)) (fun _ => 0%R) -> pe f (fun _ => 0%R).
Variables (tol bnrm : R).
Hypothesis Hbn : (0 <= bnrm)%R.
Hypothesis Htol : st = true -> (0 <= tol)%R.
Notation nf := (fun a => a * bnrm)%R.
Let vr := (fun k => 3 + k)%Z.
Let zr := (fun _ : Z => 2)%Z.
Let L := m + 5.

Definition poly_opt (r0 : Z -> R) (i : Z) (v : R) : Prop :=
  forall c : Z -> R, (v <= nrm (fun j => r0 j - sm 0 i (fun l => c l * Bp e Mf (S (Z.to_nat l)) r0 j))%R)%R.

Definition cyc_post (iter0 : Z) (rh0 : list R) (x0 : list R) (ret iter : Z) (g : gst (T:=R)) : Prop :=
  iter0 < iter <= iter0 + m /\ iter <= e_maxiter e /\
  g_nrm g = Some (nf (nrm (rs (g_x g)))) /\ (nrm (rs (g_x g)) <= nrm (rs x0))%R /\
  zlen (g_rh g) = zlen rh0 /\ (forall p, p <= iter0 \/ iter < p -> znth 0%R (g_rh g) p = znth 0%R rh0 p) /\ (e_mem e = false -> g_rh g = rh0) /\
  (e_mem e = true -> znth 0%R (g_rh g) iter = nf (nrm (rs (g_x g))) /\
     (forall j, iter0 < j < iter -> (tol < znth 0%R (g_rh g) j)%R /\ (znth 0%R (g_rh g) (j + 1) <= znth 0%R (g_rh g) j)%R) /\
     (forall j, iter0 < j <= iter -> exists v, znth 0%R (g_rh g) j = nf v /\ (v <= nrm (rs x0))%R /\ poly_opt (rs x0) (j - iter0) v)) /\
  (ret = LIS_SUCCESS /\ (nf (nrm (rs (g_x g))) <= tol)%R /\ (st = true -> iter - iter0 <= n) \/
   ret = LIS_MAXITER /\ (tol < nf (nrm (rs (g_x g))))%R /\ (iter = iter0 + m \/ iter = e_maxiter e) /\ (st = true -> iter - iter0 < n) /\
     zlen (g_W g) = L /\ zlen (g_h g) = hlen /\ has' (g_W g) 3 (rs (g_x g))).

Lemma gmres_cycle_ok iter g : zlen (g_W g) = L -> zlen (g_h g) = hlen -> has' (g_W g) 3 (rs (g_x g)) -> 0 <= iter < e_maxiter e ->
  (e_mem e = true -> e_maxiter e < zlen (g_rh g)) -> (st = true -> nrm (rs (g_x g)) <> 0%R) ->
  okm st (gmres_cycle m tol bnrm e iter g) (fun o => let '(ret, iter', g') := o in cyc_post iter (g_rh g) (g_x g) ret iter' g').
Proof.
  intros HW Hh (v0 & Hv0 & Ev0) Hit Hrh Hs0. unfold gmres_cycle. cbv zeta.
  set (x0 := g_x g) in *.
  eapply okm_getv; [unfold L in *; lia|exact Hv0|].
  assert (En : nrm2 n v0 = nrm (rs x0)) by (rewrite nrm2_R; f_equal; apply ip_ext; exact Ev0).
  set (rho := nrm2 n v0) in *. unfold lt.
  apply okm_divz; [intros C; destruct st; [elim (Hs0 eq_refl); congruence|reflexivity]|intros Nrho].
  apply okm_wr; [unfold L in *; lia|]. apply okm_wr; [rewrite zlen_tab by lia; lia|].
  set (u0 := scale n (s1 / rho)%R v0). set (W0 := zupd (g_W g) (3 + 0) (Some u0)). set (sv0 := zupd (set_all (m + 1) s0) 0 rho).
  assert (Lsv : zlen sv0 = m + 1) by (unfold sv0; rewrite zlen_zupd, zlen_tab by lia; lia).
  assert (Ssv : znth 0%R sv0 0 = rho) by (unfold sv0; rewrite znth_zupd by (rewrite zlen_tab by lia; lia); rewrite Z.eqb_refl; reflexivity).
  assert (Lw : zlen W0 = L) by (unfold W0; rewrite zlen_zupd; auto).
  assert (Zw : znth None W0 3 = Some u0) by (unfold W0; rewrite znth_zupd by (unfold L in *; lia); reflexivity).
  assert (Rpos : (0 < rho)%R) by (assert (0 <= rho)%R by (rewrite En; apply sqrt_pos); lra).
  assert (Esq : on (rs x0) (rs x0) = (rho * rho)%R) by (rewrite En, sqrt_sqrt; [reflexivity|apply ip_nonneg]).
  assert (Eu0 : pe (at_ u0) (fun j => / rho * rs x0 j)%R).
  { intros j Hj. unfold u0. rewrite at_scale_R by auto. rewrite Ev0 by auto. change (s1 / rho)%R with (1 / rho)%R. unfold Rdiv. rewrite Rmult_1_l. reflexivity. }
  assert (Nu0 : on (at_ u0) (at_ u0) = 1%R).
  { rewrite (ip_lin n (/ rho) 0 (at_ u0) (rs x0) (rs x0)) by (intros j Hj; rewrite Eu0 by auto; ring).
    rewrite (ip_lin_r n (/ rho) 0 (at_ u0) (rs x0) (rs x0)) by (intros j Hj; rewrite Eu0 by auto; ring). rewrite Esq. field. auto. }
  assert (Er0 : pe (rs x0) (fun j => rho * at_ u0 j)%R) by (intros j Hj; rewrite Eu0 by auto; field; auto).
  assert (VRr : forall k, 0 <= k <= m -> 0 <= vr k < L) by (unfold vr, L; intros; lia).
  assert (ZRr : forall k, 0 <= k < m -> 0 <= zr k < L) by (unfold zr, L; intros; lia).
  assert (VRi : forall a b, 0 <= a <= m -> 0 <= b <= m -> vr a = vr b -> a = b) by (unfold vr; intros; lia).
  assert (VZr : forall a b, 0 <= a <= m -> 0 <= b < m -> vr a <> zr b) by (unfold vr, zr; intros; lia).
  assert (ZRi : false = true -> forall a b, 0 <= a < m -> 0 <= b < m -> zr a = zr b -> a = b) by discriminate.
  assert (NFm : forall a b, (a <= b -> a * bnrm <= b * bnrm)%R) by (intros; apply Rmult_le_compat_r; auto).
  assert (HS : st = true -> (exists Mf, good_op e Mf) /\ (0 * bnrm <= tol)%R).
  { intros Hs. split; [exists Mf; split; [exact M1|split; [exact M2|apply M3; exact Hs]]|]. rewrite Rmult_0_l. auto. }
  set (g0 := mkG W0 sv0 (g_h g) (g_x g) (g_nrm g) (g_rh g)).
  pose proof (inner_ok st e m L vr zr false Hm VRr ZRr VRi VZr ZRi (fun a => a * bnrm)%R tol NFm HS (rs x0) (poly_opt (rs x0)) iter (g_rh g) (at_ u0) rho x0) as IN.
  apply okm_bind. fold g0. eapply okm_mono; [replace iter with (iter + 0) at 1 by lia; apply (IN)|].
  - intros i W sv h V q qh Zv HC E0 Hi c. apply (optimal e m L vr zr false Mf M1 M2 (rs x0) i W sv h V q qh Zv rho c Hi HC). rewrite E0. exact Er0.
  - intros i c. apply sqrt_pos.
  - exact Hrh.
  - lia.
  - lia.
  - lia.
  - lia.
  - left. exists (fun _ => at_ u0), (fun _ _ => 0%R), (fun _ => at_ u0), (fun _ _ => 0%R). split; [|reflexivity].
    apply (CI_0 L vr zr false); auto; [apply VRr; lia|]. intros j Hj. cbn [g0 g_s]. rewrite Ssv. apply Er0; auto.
  - intros _. unfold alive. change (vr 0) with 3. cbn [g0 g_W]. rewrite Zw. discriminate.
  - unfold Prog. cbn [g0 g_x g_rh g_s g_nrm]. split; [reflexivity|]. split; [reflexivity|]. rewrite Ssv. split; [rewrite Rabs_right by lra; lra|].
    split; [reflexivity|]. split; [reflexivity|]. split; [lia|]. intros _. split; [lia|]. split; intros; lia.
  - lia.
  - clear IN. intros [[i iter'] g1] (Hi & Ei & Hmx & HP & HC & HV & HE).
    destruct HP as (P1 & P2 & P3 & P4 & P5 & P6 & P7).
    assert (LL : zlen (g_s g1) = m + 1 /\ zlen (g_h g1) = hlen /\ zlen (g_W g1) = L).
    { destruct HC as [(V & q & qh & Zv & HC & _)|(_ & _ & D1 & D2 & D3 & _)]; [|auto]. destruct HC; auto. }
    destruct LL as (LS & LH & LW).
    apply okm_bind. eapply okm_mono; [apply (back_ok st m Hm (i - 1) (g_h g1) (g_s g1)); auto; [lia|]|].
    { intros Hs k Hk. destruct HC as [(V & q & qh & Zv & HC & _)|(C & _)]; [|congruence]. apply (c_A _ _ _ _ _ _ _ _ _ _ _ _ _ _ _ HC); lia. }
    intros y (LY & Ydd & Yh & Ys). replace (i - 1 + 1) with i in * by lia.
    destruct HC as [(V & q & qh & Zv & HC & E0)|(_ & _ & _ & _ & _ & _ & C & _)]; [|contradiction].
    pose proof (CI_count _ _ _ _ _ _ _ _ _ _ _ _ _ HC ltac:(lia)) as (Cn1 & Cn2).
    destruct (ls_residual e m L vr zr false (rs x0) i (g_W g1) (g_s g1) (g_h g1) V q qh Zv y ltac:(lia) HC Ys) as (LR1 & LR2).
    pose proof HC as HCC. destruct HC as [cW cs_ ch cv con clast cq0 crot cA cr cz1 cz2].
    destruct (cv 0 ltac:(lia)) as (w0 & Hw0 & Ew0). change (vr 0) with 3 in Hw0.
    eapply okm_getv; [unfold L in *; lia|exact Hw0|]. apply (okm_rd st 0%R); [lia|]. apply okm_wr; [unfold L in *; lia|].
    set (W1 := zupd (g_W g1) 2 _).
    apply okm_bind. eapply okm_mono.
    { apply (okm_for st (fun j W => zlen W = L /\ (forall p, p <> 2 -> znth None W p = znth None (g_W g1) p) /\ has' W 2 (fun a => sm 0 j (fun k => znth 0%R y k * V k a)%R))) with (Q := fun W => zlen W = L /\ (forall p, p <> 2 -> znth None W p = znth None (g_W g1) p) /\ has' W 2 (fun a => sm 0 i (fun k => znth 0%R y k * V k a)%R)); [lia| | |auto].
      - unfold W1. split; [rewrite zlen_zupd; auto|]. split; [intros p Hp; rewrite znth_zupd by (unfold L in *; lia); destruct (Z.eqb_spec p 2); [lia|reflexivity]|].
        exists (scale n (znth 0%R y 0) w0). split; [rewrite znth_zupd by (unfold L in *; lia); reflexivity|]. intros a Ha.
        rewrite at_scale_R by auto. rewrite Ew0 by auto. change 1 with (0 + 1). rewrite sm_snoc, sm_nil by lia. ring.
      - intros j W Hj (B1 & B2 & (z & Hz & Ez)). destruct (cv j ltac:(lia)) as (wj & Hwj & Ewj).
        apply (okm_rd st 0%R); [lia|]. eapply okm_getv; [unfold L in *; lia|rewrite B2 by lia; exact Hwj|]. eapply okm_getv; [unfold L in *; lia|exact Hz|].
        apply okm_wr_end; [unfold L in *; lia|]. split; [rewrite zlen_zupd; auto|]. split; [intros p Hp; rewrite znth_zupd by (unfold L in *; lia); destruct (Z.eqb_spec p 2); [lia|auto]|].
        eexists. split; [rewrite znth_zupd by (unfold L in *; lia); reflexivity|]. intros a Ha. rewrite at_axpy_R by auto. rewrite Ez, Ewj by auto. rewrite sm_snoc by lia. ring. }
    clear W1. intros W1 (B1 & B2 & (z & Hz & Ez)).
    eapply okm_getv; [unfold L in *; lia|exact Hz|]. apply okm_wr; [unfold L in *; lia|].
    set (r := e_psolve e iter' z). eapply okm_getv; [rewrite zlen_zupd; unfold L in *; lia|rewrite znth_zupd by (unfold L in *; lia); reflexivity|].
    set (W2 := zupd W1 1 (Some r)).
    assert (W2p : forall p, 3 <= p -> znth None W2 p = znth None (g_W g1) p).
    { intros p Hp. unfold W2. rewrite znth_zupd by (unfold L in *; lia). destruct (Z.eqb_spec p 1); [lia|]. apply B2; lia. }
    set (x' := axpy n s1 r (g_x g1)).
    assert (Ex' : pe (rs x') (fun j => znth 0%R (g_s g1) i * qh i j)%R).
    { intros j Hj. unfold x'. rewrite P1. change s1 with 1%R. rewrite (res_step x0 r (Mf (at_ z)) j Hj) by (apply (M1 iter' z (at_ z)); intros ? ?; reflexivity).
      rewrite <- LR1 by auto. f_equal.
      rewrite (Af_sum e 0 i (fun k => znth 0%R y k) (fun k => Mf (V k)) (Mf (at_ z)) j) by (apply (M2 0 i (fun k => znth 0%R y k) V (at_ z)); exact Ez).
      apply sm_ext. intros k Hk. f_equal. destruct (cz1 k Hk) as (it & w' & X1 & X2). apply Af_ext. intros p Hp. rewrite <- X2 by auto. symmetry. apply (M1 it w' (V k) X1 p Hp). }
    assert (Nx' : nrm (rs x') = Rabs (znth 0%R (g_s g1) i)) by (rewrite <- LR2; f_equal; apply ip_ext; exact Ex').
    assert (Eg : g_nrm g1 = Some (nrm (rs x') * bnrm)%R) by (rewrite Nx'; apply P6; lia).
    unfold lt. rewrite Eg.
    assert (Common : forall W s ret, (ret = LIS_SUCCESS /\ (nrm (rs x') * bnrm <= tol)%R /\ (st = true -> iter' - iter <= n) \/
        ret = LIS_MAXITER /\ (tol < nrm (rs x') * bnrm)%R /\ (iter' = iter + m \/ iter' = e_maxiter e) /\ (st = true -> iter' - iter < n) /\
          zlen W = L /\ zlen (g_h g1) = hlen /\ has' W 3 (rs x')) ->
        cyc_post iter (g_rh g) x0 ret iter' (mkG W s (g_h g1) x' (Some (nrm (rs x') * bnrm)%R) (g_rh g1))).
    { intros W s ret HR. unfold cyc_post. cbn [g_nrm g_x g_rh g_W g_h g_s]. split; [lia|]. split; [lia|]. split; [reflexivity|]. split; [rewrite Nx', <- En; exact P3|].
      split; [exact P2|]. split; [intros p Hp; apply P4; lia|]. split; [exact P5|]. split; [|exact HR].
      intros Em. destruct (P7 Em) as (Q1 & Q2 & Q3). subst iter'. split; [rewrite Nx'; apply Q1; lia|]. split; [exact Q2|].
      intros j Hj. destruct (Q3 j Hj) as (v & A1 & A2 & A3). exists v. split; [exact A1|]. split; [rewrite <- En; exact A2|exact A3]. }
    destruct (sleb (nrm (rs x') * bnrm)%R tol) eqn:El.
    + apply sleb_R_t in El. cbn [okm]. apply Common. left. split; [reflexivity|]. split; [exact El|]. intros _. lia.
    + apply sleb_R_f in El.
      assert (HE' : (i = m \/ iter' = e_maxiter e) /\ (st = true -> alive vr i (g_W g1))).
      { destruct HE as [HE|(H1 & _ & H2)]; [rewrite Nx' in El; lra|auto]. }
      destruct HE' as (HE1 & HE2).
      (* reverse rotations *)
      apply okm_bind. eapply okm_mono.
      { apply (okm_for st (fun j s => zlen s = m + 1 /\ forall a, 0 <= a < n -> (znth 0%R (g_s g1) i * qh i a = znth 0%R s (i - j + 1) * qh (i - j + 1)%Z a + sm (i - j + 2) (i + 1) (fun l => znth 0%R s l * V l a))%R))
          with (Q := fun s => zlen s = m + 1 /\ forall a, 0 <= a < n -> (znth 0%R (g_s g1) i * qh i a = sm 0 (i + 1) (fun l => znth 0%R s l * V l a))%R); [lia| | |].
        - split; [exact LY|]. intros a Ha. replace (i - 1 + 1) with i by lia. rewrite sm_nil by lia. rewrite Yh by lia. ring.
        - intros j s Hj (R1 & R2). replace (i - j + 1 - 1) with (i - j) by lia.
          pose proof (idx m 0 0 Hm ltac:(lia) ltac:(lia)).
          apply (okm_rd st 0%R); [nia|]. apply (okm_rd st 0%R); [nia|]. apply (okm_rd st 0%R); [lia|]. apply okm_wr; [lia|].
          apply (okm_rd st 0%R); [rewrite zlen_zupd; lia|]. apply okm_wr_end; [rewrite zlen_zupd; lia|].
          set (c := znth 0%R (g_h g1) (i - j + cs)). set (sg := znth 0%R (g_h g1) (i - j + sn)). set (u := znth 0%R s (i - j + 1)).
          rewrite (znth_zupd _ s (i - j)) by lia. destruct (Z.eqb_spec (i - j + 1) (i - j)); [lia|]. fold u. set (s2 := zupd (zupd s _ _) _ _).
          assert (Z2 : forall p, znth 0%R s2 p = if p =? i - j + 1 then (c * u)%R else if p =? i - j then (- sg * u)%R else znth 0%R s p).
          { intros p. unfold s2. rewrite znth_zupd by (rewrite zlen_zupd; lia). destruct (p =? i - j + 1); [reflexivity|]. rewrite znth_zupd by lia. reflexivity. }
          split; [unfold s2; rewrite !zlen_zupd; auto|]. intros a Ha. rewrite R2 by auto.
          replace (i - (j + 1) + 1) with (i - j) by lia. replace (i - (j + 1) + 2) with (i - j + 1) by lia.
          rewrite (sm_cons (i - j + 1) (i + 1)) by lia. replace (i - j + 1 + 1) with (i - j + 2) by lia.
          rewrite (sm_ext (i - j + 2) (i + 1) (fun l => znth 0%R s2 l * V l a)%R (fun l => znth 0%R s l * V l a)%R).
          2:{ intros l Hl. rewrite Z2. destruct (Z.eqb_spec l (i - j + 1)); [lia|]. destruct (Z.eqb_spec l (i - j)); [lia|]. reflexivity. }
          rewrite !Z2. rewrite Z.eqb_refl. destruct (Z.eqb_spec (i - j) (i - j + 1)); [lia|]. rewrite Z.eqb_refl.
          destruct (crot (i - j) ltac:(lia)) as (_ & CR). destruct (CR a Ha) as (_ & CR2). rewrite CR2. fold c sg u. ring.
        - intros s (R1 & R2). split; [exact R1|]. intros a Ha. rewrite R2 by auto. replace (i - (i + 1) + 1) with 0 by lia. replace (i - (i + 1) + 2) with 1 by lia.
          rewrite (sm_cons 0 (i + 1)) by lia. rewrite cq0 by auto. reflexivity. }
      intros s (R1 & R2).
      apply okm_bind. eapply okm_mono.
      { apply (okm_for st (fun j W => zlen W = L /\ (forall p, 3 < p -> znth None W p = znth None (g_W g1) p) /\
            has' W 3 (fun a => if j =? 0 then V 0 a else sm 0 j (fun k => znth 0%R s k * V k a)%R)))
          with (Q := fun W => zlen W = L /\ has' W 3 (rs x')); [lia| | |].
        - split; [unfold W2; rewrite zlen_zupd; auto|]. split; [intros p Hp; apply W2p; lia|]. exists w0. split; [rewrite W2p by lia; exact Hw0|exact Ew0].
        - intros j W Hj (D1 & D2 & (w & Hw & Ew)). apply (okm_rd st 0%R); [lia|].
          assert (Hj' : (exists wj, znth None W (3 + j) = Some wj /\ pe (at_ wj) (V j)) \/ znth None W (3 + j) = None /\ st = false).
          { destruct (Z.eq_dec j 0) as [->|]; [left; exists w; split; [exact Hw|]; exact Ew|]. rewrite D2 by lia.
            destruct (Z.eq_dec j i) as [->|]; [|left; apply cv; lia]. destruct clast as [(X & _)|(_ & X & _)]; [left; exact X|].
            right. split; [exact X|]. destruct st eqn:Est; [|reflexivity]. elim (HE2 eq_refl). exact X. }
          destruct Hj' as [(wj & Hwj & Ewj)|(Hwj & Hst)]; [|apply okm_getv_none; auto; unfold L in *; lia].
          eapply okm_getv; [unfold L in *; lia|exact Hwj|]. eapply okm_getv; [unfold L in *; lia|exact Hw|]. apply okm_wr_end; [unfold L in *; lia|].
          split; [rewrite zlen_zupd; auto|]. split; [intros p Hp; rewrite znth_zupd by (unfold L in *; lia); destruct (Z.eqb_spec p (3 + 0)); [lia|auto]|].
          eexists. split; [rewrite znth_zupd by (unfold L in *; lia); reflexivity|]. intros a Ha. rewrite at_axpy_R by auto. rewrite Ew, Ewj by auto.
          rewrite sm_snoc by lia. destruct (Z.eqb_spec (j + 1) 0); [lia|]. destruct (Z.eqb_spec j 0) as [->|].
          + rewrite sm_nil by lia. change (ssub (znth 0 s 0) s1)%R with (znth 0 s 0 - 1)%R. ring.
          + ring.
        - intros W (D1 & _ & (w & Hw & Ew)). split; [exact D1|]. exists w. split; [exact Hw|]. intros a Ha. rewrite Ew by auto.
          destruct (Z.eqb_spec (i + 1) 0); [lia|]. rewrite Ex' by auto. symmetry. apply R2; auto. }
      intros W3 (D1 & D2). cbn [okm]. apply Common. right. split; [reflexivity|]. split; [exact El|]. split; [lia|]. split; [intros Hs; specialize (Cn2 (HE2 Hs)); lia|].
      split; [exact D1|]. split; [exact LH|exact D2].
Qed.
End P.
