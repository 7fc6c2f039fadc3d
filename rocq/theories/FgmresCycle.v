(** One cycle of FGMRES. *)
Require Import Reals Lra ZArith List Bool Lia.
From Verif Require Import Base Scalar ScalarReal Spec SpecSolver Krylov MatvecProof KrylovProof TermProof Gmres GmresMath GmresProof GmresLoop GmresCycle.
Import ListNotations.
Open Scope Z_scope.

Section P.
Variables (st : bool) (e : env (T:=R)) (m : Z).
Notation n := (e_n e).
Hypothesis Hm : 1 <= m.
Hypothesis Hn : 0 <= n.
Notation hd := (m + 1).
Notation hlen := ((m + 2) * (m + 3)).
Notation pe := (peq n).
Notation on := (ip n).
Notation nrm f := (sqrt (ip (e_n e) f f)).
Notation rs := (resf e).
Notation has' := (has e).
Variables (lin : Prop) (Mf : (Z -> R) -> Z -> R).
Hypothesis ML : lin -> (forall it w f, pe (at_ w) f -> pe (at_ (e_psolve e it w)) (Mf f)) /\
  (forall lo hi y (g : Z -> Z -> R) f, pe f (fun j => sm lo hi (fun k => y k * g k j)%R) -> pe (Mf f) (fun j => sm lo hi (fun k => y k * Mf (g k) j)%R)).
Hypothesis M3 : st = true -> lin /\ forall f, pe (Af e (Mf f)) (fun _ => 0%R) -> pe f (fun _ => 0%R).
Variables (tol : R).
Hypothesis Htol : st = true -> (0 <= tol)%R.
Let vr := (fun k => m + 2 + k)%Z.
Let zr := (fun k => 2 + k)%Z.
Let L := 2 * m + 5.

Definition fg_post (iter0 : Z) (rh0 : list R) (x0 : list R) (ret iter : Z) (g : gst (T:=R)) (loc : R * R) : Prop :=
  iter0 < iter <= iter0 + m /\ iter <= e_maxiter e /\
  g_nrm g = Some (nrm (rs (g_x g))) /\ (nrm (rs (g_x g)) <= nrm (rs x0))%R /\
  zlen (g_rh g) = zlen rh0 /\ (forall p, p <= iter0 \/ iter < p -> znth 0%R (g_rh g) p = znth 0%R rh0 p) /\ (e_mem e = false -> g_rh g = rh0) /\
  (e_mem e = true -> znth 0%R (g_rh g) iter = nrm (rs (g_x g)) /\
     (forall j, iter0 < j < iter -> (tol < znth 0%R (g_rh g) j)%R /\ (znth 0%R (g_rh g) (j + 1) <= znth 0%R (g_rh g) j)%R) /\
     (forall j, iter0 < j <= iter -> (znth 0%R (g_rh g) j <= nrm (rs x0))%R /\ (lin -> poly_opt e Mf (rs x0) (j - iter0) (znth 0%R (g_rh g) j)))) /\
  (ret = LIS_SUCCESS /\ (nrm (rs (g_x g)) <= tol)%R /\ (st = true -> iter - iter0 <= n) \/
   ret = LIS_MAXITER /\ (tol < nrm (rs (g_x g)))%R /\ (iter = iter0 + m \/ iter = e_maxiter e) /\ (st = true -> iter - iter0 < n) /\
     zlen (g_W g) = L /\ zlen (g_h g) = hlen /\ has' (g_W g) (m + 2) (rs (g_x g)) /\
     (iter < e_maxiter e -> nrm (rs (g_x g)) <> 0%R /\ loc = (nrm (rs (g_x g)), / nrm (rs (g_x g)))%R)).

Lemma res_sum (x x' : list R) i (y : Z -> R) (Zv : Z -> Z -> R) j : 0 <= i -> 0 <= j < n ->
  pe (at_ x') (fun a => at_ x a + sm 0 i (fun k => y k * Zv k a))%R -> rs x' j = (rs x j - sm 0 i (fun k => y k * Af e (Zv k) j))%R.
Proof.
  intros Hi Hj H. unfold resf. change (mv e x' j) with (Af e (at_ x') j). change (mv e x j) with (Af e (at_ x) j).
  rewrite (Af_sum e (-1) i (fun k => if k <? 0 then 1%R else y k) (fun k => if k <? 0 then at_ x else Zv k) (at_ x') j).
  - rewrite sm_cons by lia. cbn [Z.ltb Z.compare]. replace (-1 + 1) with 0 by lia.
    rewrite (sm_ext 0 i _ (fun k => y k * Af e (Zv k) j)%R) by (intros k Hk; destruct (Z.ltb_spec k 0); [lia|reflexivity]). ring.
  - intros a Ha. rewrite H by auto. rewrite (sm_cons (-1)) by lia. cbn [Z.ltb Z.compare]. replace (-1 + 1) with 0 by lia.
    rewrite (sm_ext 0 i (fun k => (if k <? 0 then 1 else y k) * (if k <? 0 then at_ x else Zv k) a)%R (fun k => y k * Zv k a)%R) by (intros k Hk; destruct (Z.ltb_spec k 0); [lia|reflexivity]). ring.
Qed.

Lemma fgmres_cycle_ok iter g loc : zlen (g_W g) = L -> zlen (g_h g) = hlen -> has' (g_W g) (m + 2) (rs (g_x g)) -> 0 <= iter < e_maxiter e ->
  (e_mem e = true -> e_maxiter e < zlen (g_rh g)) -> nrm (rs (g_x g)) <> 0%R -> loc = (nrm (rs (g_x g)), / nrm (rs (g_x g)))%R ->
  okm st (fgmres_cycle m tol e iter g loc) (fun o => let '(ret, iter', g', loc') := o in fg_post iter (g_rh g) (g_x g) ret iter' g' loc').
Proof.
  intros HW Hh (v0 & Hv0 & Ev0) Hit Hrh Nrho Hloc. unfold fgmres_cycle. cbv zeta.
  set (x0 := g_x g) in *. rewrite Hloc. set (rho := nrm (rs x0)) in *.
  eapply okm_getv; [unfold L in *; lia|replace (m + 2 + 0) with (m + 2) by lia; exact Hv0|].
  apply okm_wr; [unfold L in *; lia|]. apply okm_wr; [rewrite zlen_tab by lia; lia|].
  set (u0 := scale n (/ rho)%R v0). set (W0 := zupd (g_W g) (m + 2 + 0) (Some u0)). set (sv0 := zupd (set_all (m + 1) s0) 0 rho).
  assert (Lsv : zlen sv0 = m + 1) by (unfold sv0; rewrite zlen_zupd, zlen_tab by lia; lia).
  assert (Ssv : znth 0%R sv0 0 = rho) by (unfold sv0; rewrite znth_zupd by (rewrite zlen_tab by lia; lia); rewrite Z.eqb_refl; reflexivity).
  assert (Lw : zlen W0 = L) by (unfold W0; rewrite zlen_zupd; auto).
  assert (Zw : znth None W0 (vr 0) = Some u0) by (unfold W0, vr; rewrite znth_zupd by (unfold L in *; lia); rewrite Z.eqb_refl; reflexivity).
  assert (Rpos : (0 < rho)%R) by (assert (0 <= rho)%R by apply sqrt_pos; lra).
  assert (Esq : on (rs x0) (rs x0) = (rho * rho)%R) by (unfold rho; rewrite sqrt_sqrt; [reflexivity|apply ip_nonneg]).
  assert (Eu0 : pe (at_ u0) (fun j => / rho * rs x0 j)%R) by (intros j Hj; unfold u0; rewrite at_scale_R by auto; rewrite Ev0 by auto; reflexivity).
  assert (Nu0 : on (at_ u0) (at_ u0) = 1%R).
  { rewrite (ip_lin n (/ rho) 0 (at_ u0) (rs x0) (rs x0)) by (intros j Hj; rewrite Eu0 by auto; ring).
    rewrite (ip_lin_r n (/ rho) 0 (at_ u0) (rs x0) (rs x0)) by (intros j Hj; rewrite Eu0 by auto; ring). rewrite Esq. field. auto. }
  assert (Er0 : pe (rs x0) (fun j => rho * at_ u0 j)%R) by (intros j Hj; rewrite Eu0 by auto; field; auto).
  assert (VRr : forall k, 0 <= k <= m -> 0 <= vr k < L) by (unfold vr, L; intros; lia).
  assert (ZRr : forall k, 0 <= k < m -> 0 <= zr k < L) by (unfold zr, L; intros; lia).
  assert (VRi : forall a b, 0 <= a <= m -> 0 <= b <= m -> vr a = vr b -> a = b) by (unfold vr; intros; lia).
  assert (VZr : forall a b, 0 <= a <= m -> 0 <= b < m -> vr a <> zr b) by (unfold vr, zr; intros; lia).
  assert (ZRi : true = true -> forall a b, 0 <= a < m -> 0 <= b < m -> zr a = zr b -> a = b) by (unfold zr; intros; lia).
  assert (NFm : forall a b : R, (a <= b -> a <= b)%R) by auto.
  assert (HS : st = true -> (exists Mf, good_op e Mf) /\ (0 <= tol)%R).
  { intros Hs. destruct (M3 Hs) as (Hl & HI). destruct (ML Hl) as (M1 & M2). split; [exists Mf; split; [exact M1|split; [exact M2|exact HI]]|auto]. }
  set (g0 := mkG W0 sv0 (g_h g) (g_x g) (g_nrm g) (g_rh g)).
  pose proof (inner_ok st e m L vr zr true Hm VRr ZRr VRi VZr ZRi (fun a => a) tol NFm HS (rs x0) (fun i v => lin -> poly_opt e Mf (rs x0) i v) iter (g_rh g) (at_ u0) rho x0) as IN.
  apply okm_bind. fold g0. eapply okm_mono; [replace iter with (iter + 0) at 1 by lia; apply (IN)|].
  - intros i W sv h V q qh Zv HC E0 Hi Hl c. destruct (ML Hl) as (M1 & M2). apply (optimal e m L vr zr true Mf M1 M2 (rs x0) i W sv h V q qh Zv rho c Hi HC). rewrite E0. exact Er0.
  - intros i _ c. apply sqrt_pos.
  - exact Hrh.
  - lia.
  - lia.
  - lia.
  - lia.
  - left. exists (fun _ => at_ u0), (fun _ _ => 0%R), (fun _ => at_ u0), (fun _ _ => 0%R). split; [|reflexivity].
    apply (CI_0 e m L vr zr true); auto; [apply VRr; lia|]. intros j Hj. cbn [g0 g_s]. rewrite Ssv. apply Er0; auto.
  - intros _. unfold alive. cbn [g0 g_W]. rewrite Zw. discriminate.
  - unfold Prog. cbn [g0 g_x g_rh g_s g_nrm]. split; [reflexivity|]. split; [reflexivity|]. rewrite Ssv. split; [rewrite Rabs_right by lra; lra|].
    split; [reflexivity|]. split; [reflexivity|]. split; [lia|]. intros _. split; [lia|]. split; intros; lia.
  - lia.
  - clear IN. intros [[i iter'] g1] (Hi & Ei & Hmx & HP & HC & HV & HE).
    destruct HP as (P1 & P2 & P3 & P4 & P5 & P6 & P7).
    assert (LL : zlen (g_s g1) = m + 1 /\ zlen (g_h g1) = hlen /\ zlen (g_W g1) = L).
    { destruct HC as [(V & q & qh & Zv & HC & _)|(_ & _ & D1 & D2 & D3 & _)]; [|auto]. destruct HC; auto. }
    destruct LL as (LS & LH & LW).
    apply okm_bind. eapply okm_mono; [apply (back_ok st m Hm (i - 1) (g_h g1) (g_s g1)); auto; [lia|]|].
    { intros Hs k Hk. destruct HC as [(V & q & qh & Zv & HC & _)|(C & _)]; [|congruence]. apply (c_A _ _ _ _ _ _ _ _ _ _ _ _ _ _ _ HC); lia. }
    intros y (LY & Ydd & Yh & Ys). replace (i - 1 + 1) with i in * by lia.
    destruct HC as [(V & q & qh & Zv & HC & E0)|(_ & _ & _ & _ & _ & _ & C & _)]; [|contradiction].
    pose proof (CI_count e m Hn _ _ _ _ _ _ _ _ _ _ _ _ _ HC ltac:(lia)) as (Cn1 & Cn2).
    destruct (ls_residual e m L vr zr true (rs x0) i (g_W g1) (g_s g1) (g_h g1) V q qh Zv y ltac:(lia) HC Ys) as (LR1 & LR2).
    pose proof (c_z2 _ _ _ _ _ _ _ _ _ _ _ _ _ _ _ HC eq_refl) as cz2.
    apply okm_bind. eapply okm_mono.
    { apply (okm_for st (fun j x => pe (at_ x) (fun a => at_ x0 a + sm 0 j (fun k => znth 0%R y k * Zv k a))%R)) with (Q := fun x => pe (at_ x) (fun a => at_ x0 a + sm 0 i (fun k => znth 0%R y k * Zv k a))%R); [lia| | |auto].
      - intros a Ha. rewrite sm_nil by lia. rewrite P1. ring.
      - intros j x Hj Ex. destruct (cz2 j ltac:(lia)) as (z & Hz & Ez). apply (okm_rd st 0%R); [lia|]. eapply okm_getv; [unfold L, zr in *; lia|exact Hz|].
        cbn [okm]. intros a Ha. rewrite at_axpy_R by auto. rewrite Ex, Ez by auto. rewrite sm_snoc by lia. ring. }
    intros x' Ex.
    assert (Ex' : pe (rs x') (fun j => znth 0%R (g_s g1) i * qh i j)%R).
    { intros j Hj. rewrite (res_sum x0 x' i (fun k => znth 0%R y k) Zv j ltac:(lia) Hj Ex). apply LR1; auto. }
    assert (Nx' : nrm (rs x') = Rabs (znth 0%R (g_s g1) i)) by (rewrite <- LR2; f_equal; apply ip_ext; exact Ex').
    assert (Eg : g_nrm g1 = Some (nrm (rs x'))%R) by (rewrite Nx'; apply P6; lia).
    rewrite Eg.
    assert (Common : forall W s ret loc, (ret = LIS_SUCCESS /\ (nrm (rs x') <= tol)%R /\ (st = true -> iter' - iter <= n) \/
        ret = LIS_MAXITER /\ (tol < nrm (rs x'))%R /\ (iter' = iter + m \/ iter' = e_maxiter e) /\ (st = true -> iter' - iter < n) /\
          zlen W = L /\ zlen (g_h g1) = hlen /\ has' W (m + 2) (rs x') /\ (iter' < e_maxiter e -> nrm (rs x') <> 0%R /\ loc = (nrm (rs x'), / nrm (rs x'))%R)) ->
        fg_post iter (g_rh g) x0 ret iter' (mkG W s (g_h g1) x' (Some (nrm (rs x'))%R) (g_rh g1)) loc).
    { intros W s ret l HR. unfold fg_post. cbn [g_nrm g_x g_rh g_W g_h g_s]. split; [lia|]. split; [lia|]. split; [reflexivity|]. split; [rewrite Nx'; exact P3|].
      split; [exact P2|]. split; [intros p Hp; apply P4; lia|]. split; [exact P5|]. split; [|exact HR].
      intros Em. destruct (P7 Em) as (Q1 & Q2 & Q3). subst iter'. split; [rewrite Nx'; apply Q1; lia|]. split; [exact Q2|].
      intros j Hj. destruct (Q3 j Hj) as (v & A1 & A2 & A3). rewrite A1. split; [exact A2|exact A3]. }
    destruct (sleb (nrm (rs x'))%R tol) eqn:El.
    + apply sleb_R_t in El. cbn [okm]. apply Common. left. split; [reflexivity|]. split; [exact El|]. intros _. lia.
    + apply sleb_R_f in El.
      assert (HE' : (i = m \/ iter' = e_maxiter e) /\ (st = true -> alive vr i (g_W g1))).
      { destruct HE as [HE|(H1 & _ & H2)]; [rewrite Nx' in El; lra|auto]. }
      destruct HE' as (HE1 & HE2).
      apply okm_wr; [unfold L in *; lia|]. set (v' := xpay n (e_b e) (sopp s1) (matvec n (e_E e) x')).
      eapply okm_getv; [rewrite zlen_zupd; unfold L in *; lia|rewrite znth_zupd by (unfold L in *; lia); rewrite Z.eqb_refl; reflexivity|].
      assert (Ev' : pe (at_ v') (rs x')).
      { intros j Hj. unfold v', resf. rewrite at_xpay by auto. rewrite at_matvec by auto. cbn [sadd smul sopp s1 ScalarR]. unfold mv. ring. }
      assert (Ev2 : nrm2 n v' = nrm (rs x')) by (rewrite nrm2_R; f_equal; apply ip_ext; exact Ev').
      unfold lt. rewrite Ev2. set (rho' := nrm (rs x')) in *.
      destruct (seqb rho' s0 && (iter' <? e_maxiter e)) eqn:Es.
      * apply andb_true_iff in Es. destruct Es as (Es & _). apply seqb_R in Es. change (rho' = 0)%R in Es. cbn [okm]. split; [|reflexivity].
        destruct st eqn:Est; [|reflexivity]. pose proof (Htol eq_refl). lra.
      * cbn [okm]. apply Common. right. split; [reflexivity|]. split; [exact El|]. split; [lia|]. split; [intros Hs; specialize (Cn2 (HE2 Hs)); lia|].
        split; [rewrite zlen_zupd; auto|]. split; [exact LH|]. split.
        -- exists v'. split; [|exact Ev']. rewrite znth_zupd by (unfold L in *; lia). replace (m + 2 + 0) with (m + 2) by lia. rewrite Z.eqb_refl. reflexivity.
        -- intros Hlt. apply Z.ltb_lt in Hlt. rewrite Hlt, andb_true_r in Es. apply seqb_R0 in Es. split; [exact Es|]. f_equal. change (1 / rho' = / rho')%R. unfold Rdiv. ring.
Qed.
End P.
