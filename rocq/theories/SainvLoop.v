(** SAINV: the whole factorisation. *)
Require Import ZArith List Bool Lia Ring Permutation.
From Verif Require Import Base Items Fmt Scalar Spec SpecIlu SpecIlut SpecSainv SainvMath Csc ConvFinal Sainv SainvRow SainvStep.
Import ListNotations.
Open Scope Z_scope.

Section P.
Context {T : Type} {S : Scalar T}.
Hypothesis RT : is_ring S.
Let RT' : @ring_theory T s0 s1 sadd smul ssub sopp (@eq T) := RT.
Add Ring TrSaiL : RT'.

(** *** largest magnitude of a row *)
Definition rmx (A : csr T) (i : Z) : T := fold_left (fun m k => smax m (sabs (znth s0 (csr_value A) k))) (zrange (znth 0 (csr_ptr A) i) (znth 0 (csr_ptr A) (i + 1))) s0.
Lemma nrm_wp A i : csr_ok A -> 0 <= i < csr_n A -> wp (sainv_nrm A i) (fun x => x = sdiv s1 (rmx A i)).
Proof using.
  intros [HP [B1 [B2 [B3 [B4 B5]]]]] Hi. pose proof (fun i j => ptr_ok_mono _ _ i j HP) as Mono. destruct HP as [P0 [P1 [P2 P3]]].
  unfold sainv_nrm. wrd 0; [lia|]. wrd 0; [lia|]. apply wp_bind.
  pose proof (P3 i Hi). pose proof (Mono 0 i ltac:(lia) ltac:(lia)). pose proof (Mono (i + 1) (csr_n A) ltac:(lia) ltac:(lia)).
  apply (for_wp' (fun j m => m = fold_left (fun m k => smax m (sabs (znth s0 (csr_value A) k))) (zrange (znth 0 (csr_ptr A) i) j) s0)); [auto| | |].
  - rewrite zrange_empty by lia. reflexivity.
  - intros j m Hj ->. wrd s0; [lia|]. cbn [wp]. rewrite zrange_snoc by lia. rewrite fold_left_app. reflexivity.
  - intros m ->. reflexivity.
Qed.
Lemma rmx_ok A i : total_order S -> 0 <= i < csr_n A -> row_max (csr_entries A) i (rmx A i).
Proof using.
  intros [Htot Htr] Hi. assert (Hrefl : forall x : T, sleb x x = true) by (intros x; destruct (Htot x x); auto).
  unfold rmx. set (l := zrange _ _). set (g := fun k => sabs (znth s0 (csr_value A) k)).
  assert (G : forall l m0, let m := fold_left (fun m k => smax m (g k)) l m0 in (m = m0 \/ exists k, In k l /\ g k = m) /\ sleb m0 m = true /\ forall k, In k l -> sleb (g k) m = true).
  { clear l. induction l as [|k l IH]; intros m0; cbn [fold_left]; cbv zeta; [split; [auto|]; split; [auto|intros k []]|].
    specialize (IH (smax m0 (g k))). cbv zeta in IH. destruct IH as [I1 [I2 I3]]. set (m := fold_left _ l _) in *.
    assert (Hs : (smax m0 (g k) = m0 \/ smax m0 (g k) = g k) /\ sleb m0 (smax m0 (g k)) = true /\ sleb (g k) (smax m0 (g k)) = true).
    { unfold smax. destruct (sleb (g k) m0) eqn:E; [repeat split; auto|]. repeat split; auto. destruct (Htot m0 (g k)); congruence. }
    destruct Hs as [S1 [S2 S3]]. split; [|split].
    - destruct I1 as [I1|[q [Hq Hg]]]; [|right; exists q; cbn; auto]. rewrite I1. destruct S1 as [->|E]; [auto|]. right. exists k. cbn. auto.
    - eapply Htr; eauto.
    - intros q [<-|Hq]; [eapply Htr; eauto|auto]. }
  destruct (G l s0) as [G1 [G2 G3]]. unfold row_max. change (fold_left (fun m k => smax m (sabs (znth s0 (csr_value A) k))) l s0) with (fold_left (fun m k => smax m (g k)) l s0). set (m := fold_left _ l s0) in *.
  split; [|split; [auto|]].
  - destruct G1 as [G1|[k [Hk Hg]]]; [left; auto|right]. exists (i, znth 0 (csr_index A) k, znth s0 (csr_value A) k). split; [|split; [auto|exact Hg]].
    apply in_flat_map. exists i. split; [apply In_zrange; lia|]. apply in_map_iff. exists k. auto.
  - intros e He Hr. apply in_flat_map in He. destruct He as [i' [Hi' He]]. apply in_map_iff in He. destruct He as [k [<- Hk]]. cbn in Hr. subst i'. apply G3; auto.
Qed.

(** *** the update of all rows *)
Section U.
Variables (n annz : Z) (ji : Z -> Z -> Z) (jv : Z -> Z -> T).
Hypothesis Hann : 1 <= annz.

Lemma getrow_at (M M' : ilum T) r : getrow M' r = getrow M r -> forall c, at_ M' r c = at_ M r c.
Proof using. intros E c. unfold getrow in E. rewrite !at_rat. injection E as E1 E2 E3 E4. rewrite E1, E3, E4. auto. Qed.

Lemma update_wp (nrm tol di : T) i (chk : Z -> Prop) (f : Z -> T) (w : wrow T) (M : ilum T) ww : (forall c, i < c -> chk c) -> 0 <= i < n -> mok n M -> cleared n ww -> scan_ok n i chk f w ->
  wp (sainv_update ji jv annz nrm tol di i (r_l w) (r_il w) (r_cl w) (M, ww)) (fun p => mok n (fst p) /\ cleared n (snd p) /\
    (forall j, 0 <= j <= i -> getrow (fst p) j = getrow M j) /\
    forall j c, i < j < n -> at_ (fst p) j c = ssub (at_ M j c) (kp nrm tol (smul (smul (f j) di) (at_ M i c)))).
Proof using RT Hann.
  intros Hchk Hi HM Hw [S1 [S2 [S3 [S4 [S5 [S6 [S7 S8]]]]]]]. unfold sainv_update.
  apply (for_wp' (fun q p => mok n (fst p) /\ cleared n (snd p) /\
     (forall j, 0 <= j < n -> (forall k, 0 <= k < q -> znth 0 (r_il w) k <> j) -> getrow (fst p) j = getrow M j) /\
     forall k c, 0 <= k < q -> at_ (fst p) (znth 0 (r_il w) k) c = ssub (at_ M (znth 0 (r_il w) k) c) (kp nrm tol (smul (smul (f (znth 0 (r_il w) k)) di) (at_ M i c))))); [lia| | |].
  - cbn [fst snd]. split; [auto|]. split; [auto|]. split; [auto|intros; lia].
  - intros q [M1 ww1] Hq [H1 [H2 [H3 H4]]]. cbn [fst snd] in *. wrd 0; [lia|]. pose proof (S6 q Hq) as Hr. set (j := znth 0 (r_il w) q) in *. wrd s0; [lia|].
    rewrite (S5 j) by (try apply Hchk; lia).
    assert (Ej : getrow M1 j = getrow M j) by (apply H3; [lia|]; intros k Hk Hx; apply (S7 k q) in Hx; lia).
    assert (Ei : getrow M1 i = getrow M i) by (apply H3; [lia|]; intros k Hk Hx; specialize (S6 k ltac:(lia)); lia).
    eapply wp_mono; [apply (axpy_wp RT n annz nrm tol ji jv Hann M1 ww1 i j); auto; lia|].
    intros [M2 ww2] [K1 [K2 [K3 K4]]]. cbn [fst snd] in *. split; [auto|]. split; [auto|]. split.
    + intros r Hr' Hno. rewrite K3; [apply H3; [auto|]; intros k Hk; apply Hno; lia|auto|]. intros ->. apply (Hno q); [lia|reflexivity].
    + intros k c Hk. destruct (Z.eq_dec k q) as [->|Hne].
      * fold j. rewrite K4. rewrite (getrow_at _ _ _ Ej), (getrow_at _ _ _ Ei). reflexivity.
      * rewrite (getrow_at M1 M2); [apply H4; lia|]. apply K3; [specialize (S6 k ltac:(lia)); lia|]. intros Hx. apply (S7 k q) in Hx; lia.
  - intros [M1 ww1] [H1 [H2 [H3 H4]]]. cbn [fst snd] in *. split; [auto|]. split; [auto|]. split.
    + intros j Hj. apply H3; [lia|]. intros k Hk Hx. specialize (S6 k Hk). lia.
    + intros j c Hj. destruct (S8 j Hj) as [[k [Hk Hkj]]|H0].
      * rewrite <- Hkj. apply H4; auto.
      * destruct (existsb (fun k => znth 0 (r_il w) k =? j) (zrange 0 (r_cl w))) eqn:E.
        -- apply existsb_exists in E. destruct E as [k [Hk Hx]]. apply In_zrange in Hk. apply Z.eqb_eq in Hx. rewrite <- Hx. apply H4; auto.
        -- rewrite (getrow_at M M1).
           ++ rewrite H0. replace (smul (smul s0 di) (at_ M i c)) with s0 by ring. rewrite (kp0 nrm tol). ring.
           ++ apply H3; [lia|]. intros k Hk Hx. rewrite <- not_true_iff_false in E. apply E. apply existsb_exists. exists k. split; [apply In_zrange; lia|apply Z.eqb_eq; auto].
Qed.

Lemma d_wp (a : Z -> Z -> T) (M W : ilum T) i (w : wrow T) : 0 <= i < n -> mok n M -> scan_ok n i (fun _ => True) (fun c => left_mul n a (at_ W i) c) w ->
  wp (sainv_d M i (r_l w)) (fun x => x = sdiv s1 (bilinear n a (at_ W i) (at_ M i))).
Proof using RT.
  intros Hi HM [S1 [S2 [S3 [S4 [S5 _]]]]]. pose proof HM as [[L1 [L2 [L3 L4]]] HR]. specialize (HR i Hi). unfold getrow, rowok in HR. destruct HR as [Rn [Ri [Rv [Rr Rd]]]].
  unfold sainv_d. wrd 0; [lia|]. apply wp_bind. set (nz := znth 0 (m_nnz M) i) in *. set (ix := znth [] (m_ix M) i) in *. set (v := znth [] (m_v M) i) in *.
  apply (for_wp' (fun k t => t = ssum (map (fun k => smul (left_mul n a (at_ W i) (znth 0 ix k)) (znth s0 v k)) (zrange 0 k)))); [lia| | |].
  - reflexivity.
  - intros k t Hk ->. apply (wp_rd2 0); [lia|fold ix; lia|]. fold ix. pose proof (Rr k Hk). wrd s0; [lia|]. apply (wp_rd2 s0); [lia|fold v; lia|]. fold v. cbn [wp].
    rewrite zrange_snoc by lia. rewrite map_app, (ssum_app RT). cbn [map ssum]. rewrite S5 by (auto; lia). ring.
  - intros t ->. cbn [wp]. f_equal. rewrite (rat_sum RT (left_mul n a (at_ W i)) n nz ix v) by (intros k Hk; specialize (Rr k Hk); lia). rewrite (bil_left RT). reflexivity.
Qed.

(** *** the loop *)
Variables (A : csr T) (B : csc T) (tol : T).
Hypotheses (HA : csr_ok A) (HAn : csr_n A = n) (HB : csc_ok B) (HBn : csc_n B = n).
Notation a := (coef (csr_entries A)).
Hypothesis Hcoef : forall i j, coef (csc_entries B) i j = a i j.
Definition kpa := keep_above tol (rmx A).
Lemma kpa_kp i t : kpa i t = kp (sdiv s1 (rmx A i)) tol t.
Proof using. unfold kpa, keep_above, kp, sainv_keep. destruct (sleb _ tol); auto. Qed.

Definition SI (i : Z) (s : sst T) : Prop :=
  mok n (s_W s) /\ mok n (s_Z s) /\ n <= zlen (s_d s) /\ cleared n (s_ww s) /\ zlen (s_il s) = n /\ zlen (s_iu s) = n /\
  (forall k, 0 <= k < i -> znth s0 (s_d s) k = sdiv s1 (bilinear n a (at_ (s_W s) k) (at_ (s_Z s) k))) /\
  forall j c, 0 <= j < n -> 
    at_ (s_W s) j c = ssub (delta j c) (ssum (map (fun k => kpa k (smul (smul (right_mul n a (at_ (s_Z s) k) j) (znth s0 (s_d s) k)) (at_ (s_W s) k c))) (zrange 0 (Z.min i j)))) /\
    at_ (s_Z s) j c = ssub (delta j c) (ssum (map (fun k => kpa k (smul (smul (left_mul n a (at_ (s_W s) k) j) (znth s0 (s_d s) k)) (at_ (s_Z s) k c))) (zrange 0 (Z.min i j)))).

Lemma right_ext (z z' : Z -> T) (b : Z -> Z -> T) r : (forall c, z c = z' c) -> right_mul n b z r = right_mul n b z' r.
Proof using. intros H. apply sum_ext. intros q _. rewrite H. auto. Qed.
Lemma left_ext (z z' : Z -> T) (b : Z -> Z -> T) r : (forall c, z c = z' c) -> left_mul n b z r = left_mul n b z' r.
Proof using. intros H. apply sum_ext. intros q _. rewrite H. auto. Qed.

Lemma step_wp i s : 0 <= i < n -> SI i s -> wp (sainv_step ji jv annz tol n A B i s) (fun s' => SI (i + 1) s' /\ zlen (s_d s') = zlen (s_d s)).
Proof using RT Hann HA HAn HB HBn Hcoef.
  intros Hi [HW [HZ [Hd [Hww [Hil [Hiu [HD HR]]]]]]]. unfold sainv_step. apply wp_bind. eapply wp_mono; [apply nrm_wp; [auto|lia]|]. intros nrm ->.
  apply wp_bind. eapply wp_mono; [apply (sainv_l_wp RT n B (s_Z s) i (s_ww s) (s_il s)); auto|]. intros wl Hwl.
  assert (Hwl' : scan_ok n i (fun c => i < c) (fun r => right_mul n a (at_ (s_Z s) i) r) wl).
  { destruct Hwl as [S1 [S2 [S3 [S4 [S5 [S6 [S7 S8]]]]]]]. assert (E : forall r, right_mul n (coef (csc_entries B)) (at_ (s_Z s) i) r = right_mul n a (at_ (s_Z s) i) r) by (intros r; apply ssum_map_ext; intros c _; rewrite Hcoef; auto).
    split; [auto|]. split; [auto|]. split; [auto|]. split; [auto|]. split; [intros c Hc Hic; rewrite <- E; auto|]. split; [auto|]. split; [auto|]. intros c Hc. rewrite <- E. auto. }
  clear Hwl. pose proof Hwl' as [_ [Sil [Sww _]]].
  apply wp_bind. eapply wp_mono; [apply (sainv_u_wp RT n A (s_W s) i (r_ww wl) (s_iu s)); auto|]. intros wu Hwu. pose proof Hwu as [_ [Siu [Swu _]]].
  apply wp_bind. eapply wp_mono; [apply (d_wp a (s_Z s) (s_W s) i wu); auto|]. intros di Hdi. wwr; [lia|].
  apply wp_bind. eapply wp_mono; [apply (update_wp (sdiv s1 (rmx A i)) tol di i (fun c => i < c) (fun r => right_mul n a (at_ (s_Z s) i) r) wl (s_W s) (r_ww wu)); auto|].
  intros [W2 ww2] [HW2 [Hww2 [HWle HWgt]]]. cbn [fst snd] in *.
  apply wp_bind. eapply wp_mono; [apply (update_wp (sdiv s1 (rmx A i)) tol di i (fun _ => True) (fun c => left_mul n a (at_ (s_W s) i) c) wu (s_Z s) ww2); auto|].
  intros [Z2 ww3] [HZ2 [Hww3 [HZle HZgt]]]. cbn [fst snd] in *. cbn [wp].
  assert (EW : forall k c, 0 <= k <= i -> at_ W2 k c = at_ (s_W s) k c) by (intros k c Hk; apply getrow_at; auto).
  assert (EZ : forall k c, 0 <= k <= i -> at_ Z2 k c = at_ (s_Z s) k c) by (intros k c Hk; apply getrow_at; auto).
  assert (ED : forall k, 0 <= k < i -> znth s0 (zupd (s_d s) i di) k = znth s0 (s_d s) k) by (intros k Hk; apply znth_zupd_neq; lia).
  assert (EDi : znth s0 (zupd (s_d s) i di) i = di) by (apply znth_zupd_eq; lia).
  split; [|cbn [s_d]; len]. unfold SI. cbn [s_W s_Z s_d s_ww s_il s_iu]. split; [auto|]. split; [auto|]. split; [len|]. split; [auto|]. split; [auto|]. split; [auto|]. split.
  - intros k Hk. assert (Eb : bilinear n a (at_ W2 k) (at_ Z2 k) = bilinear n a (at_ (s_W s) k) (at_ (s_Z s) k)).
    { unfold bilinear. apply sum_ext. intros r _. rewrite EW by lia. f_equal. apply right_ext. intros c. apply EZ; lia. }
    rewrite Eb. destruct (Z.eq_dec k i) as [->|]; [rewrite EDi; auto|rewrite ED by lia; apply HD; lia].
  - intros j c Hj. destruct (HR j c Hj) as [HRW HRZ].
    assert (SW : forall m, m <= i -> ssum (map (fun k => kpa k (smul (smul (right_mul n a (at_ Z2 k) j) (znth s0 (zupd (s_d s) i di) k)) (at_ W2 k c))) (zrange 0 m)) = ssum (map (fun k => kpa k (smul (smul (right_mul n a (at_ (s_Z s) k) j) (znth s0 (s_d s) k)) (at_ (s_W s) k c))) (zrange 0 m))).
    { intros m Hm. apply sum_ext. intros k Hk. rewrite ED, EW by lia. rewrite (right_ext (at_ Z2 k) (at_ (s_Z s) k)) by (intros; apply EZ; lia). auto. }
    assert (SZ : forall m, m <= i -> ssum (map (fun k => kpa k (smul (smul (left_mul n a (at_ W2 k) j) (znth s0 (zupd (s_d s) i di) k)) (at_ Z2 k c))) (zrange 0 m)) = ssum (map (fun k => kpa k (smul (smul (left_mul n a (at_ (s_W s) k) j) (znth s0 (s_d s) k)) (at_ (s_Z s) k c))) (zrange 0 m))).
    { intros m Hm. apply sum_ext. intros k Hk. rewrite ED, EZ by lia. rewrite (left_ext (at_ W2 k) (at_ (s_W s) k)) by (intros; apply EW; lia). auto. }
    destruct (Z.le_gt_cases j i) as [Hle|Hgt].
    + replace (Z.min (i + 1) j) with (Z.min i j) by lia. rewrite SW, SZ by lia. rewrite EW, EZ by lia. auto.
    + replace (Z.min (i + 1) j) with (i + 1) by lia. replace (Z.min i j) with i in HRW, HRZ by lia.
      rewrite !zrange_snoc by lia. rewrite !map_app, !(ssum_app RT). cbn [map ssum]. rewrite SW, SZ by lia. rewrite EDi, (EW i), (EZ i) by lia.
      rewrite (right_ext (at_ Z2 i) (at_ (s_Z s) i)) by (intros; apply EZ; lia). rewrite (left_ext (at_ W2 i) (at_ (s_W s) i)) by (intros; apply EW; lia).
      rewrite HWgt, HZgt by lia. rewrite HRW, HRZ, !kpa_kp. split; ring.
Qed.

Lemma unit_wp jn : wp (sainv_unit n (ilu_premalloc jn ji jv annz n)) (fun M => mok n M /\ forall j c, 0 <= j < n -> at_ M j c = delta j c).
Proof using RT Hann HA HAn.
  assert (Hn : 0 <= n) by (destruct HA as [[P0 _] _]; lia).
  unfold sainv_unit. apply (for_wp' (fun i M => lens n M /\ (forall r, 0 <= r < n -> zlen (znth [] (m_ix M) r) = annz /\ zlen (znth [] (m_v M) r) = annz /\ znth 0 (m_ma M) r = annz) /\
     forall r, 0 <= r < i -> znth 0 (m_nnz M) r = 1 /\ znth 0 (znth [] (m_ix M) r) 0 = r /\ znth s0 (znth [] (m_v M) r) 0 = s1)); [lia| | |].
  - unfold lens, ilu_premalloc. cbn [m_nnz m_ma m_ix m_v]. assert (EL : forall (X : Type) (g : Z -> X), zlen (map g (zrange 0 n)) = n) by (intros X g; unfold zlen; rewrite map_length; change (zlen (zrange 0 n) = n); rewrite zlen_zrange; lia).
    split; [rewrite !zlen_alloc, !EL by lia; auto|]. split; [|intros; lia]. intros r Hr.
    rewrite !(znth_map _ 0) by (rewrite zlen_zrange; lia). rewrite znth_zrange by lia. rewrite !zlen_alloc, znth_alloc by lia. auto.
  - intros i M Hi [[L1 [L2 [L3 L4]]] [H1 H2]]. destruct (H1 i Hi) as [I1 [I2 I3]]. apply wp_wr2; [lia|lia|]. apply wp_wr2; [lia|lia|]. wwr; [lia|]. cbn [wp]. unfold lens. cbn [m_nnz m_ma m_ix m_v].
    split; [rewrite !zlen_zupd; auto|]. split.
    + intros r Hr. rewrite !znth_zupd by lia. destruct (Z.eqb_spec r i) as [->|]; [rewrite !zlen_zupd|]; auto.
    + intros r Hr. rewrite !znth_zupd by lia. destruct (Z.eqb_spec r i) as [->|]; [rewrite !znth_zupd_eq by lia; auto|]. apply H2. lia.
  - intros M [HL [H1 H2]]. split.
    + split; [auto|]. intros r Hr. unfold getrow, rowok. destruct (H1 r Hr) as [I1 [I2 I3]]. destruct (H2 r Hr) as [J1 [J2 J3]]. rewrite J1, I3. split; [lia|]. split; [auto|]. split; [auto|]. split.
      * intros k Hk. replace k with 0 by lia. lia.
      * intros k k' Hk Hk' _. lia.
    + intros j c Hj. rewrite at_rat. destruct (H2 j Hj) as [J1 [J2 J3]]. rewrite J1. unfold rat. change (zrange 0 1) with [0]. cbn [map ssum]. rewrite J2, J3. unfold delta. destruct (j =? c); ring.
Qed.
End U.

Lemma create_wp jp jc ji jv tol (A : csr T) : csr_ok A -> 10 <= csr_n A ->
  wp (create_sainv jp jc ji jv tol A) (fun p => let '(W, Z_, d) := p in mok (csr_n A) W /\ mok (csr_n A) Z_ /\ zlen d = csr_np A /\
    biconjugation (keep_above tol (rmx A)) (csr_n A) (coef (csr_entries A)) (at_ W) (at_ Z_) (znth s0 d)).
Proof using RT.
  intros HA Hn. unfold create_sainv. cbv zeta. set (n := csr_n A) in *. assert (Hann : 1 <= n / 10) by (apply Z.div_le_lower_bound; lia).
  destruct (csr2csc_final jp jc jc (jv 0) A HA) as [B [EB [HB [B1 [B2 [B3 [B4 _]]]]]]]. rewrite EB. cbn [bind].
  assert (Hcoef : forall i j, coef (csc_entries B) i j = coef (csr_entries A) i j) by (intros i j; apply (coef_perm RT); auto).
  apply wp_bind. eapply wp_mono; [apply (for_wp' (fun i ww => zlen ww = n /\ forall c, 0 <= c < i -> znth 0 ww c = 0) 0 n (fun i ww => wr ww i 0) (alloc n jp) (cleared n)); [lia| | |]|].
  { split; [rewrite zlen_alloc; lia|intros; lia]. }
  { intros i w Hi [L H]. rewrite wr_ok by lia. cbn [wp]. split; [len|]. intros c Hc. rewrite znth_zupd by lia. destruct (Z.eqb_spec c i); auto. apply H. lia. }
  { intros w [L H]. split; auto. }
  intros ww Hww. apply wp_bind. eapply wp_mono; [apply (unit_wp n (n / 10) ji jv Hann A HA eq_refl jp)|]. intros W0 [HW0 EW0].
  apply wp_bind. eapply wp_mono; [apply (unit_wp n (n / 10) ji jv Hann A HA eq_refl jp)|]. intros Z0 [HZ0 EZ0].
  apply wp_bind. assert (Hnp : n <= csr_np A) by (destruct HA as [_ [H _]]; exact H).
  apply (for_wp' (fun i s => SI n A tol i s /\ zlen (s_d s) = csr_np A)); [lia| | |].
  - split; [|cbn [s_d]; rewrite zlen_alloc; lia]. unfold SI. cbn [s_W s_Z s_d s_ww s_il s_iu]. split; [auto|]. split; [auto|]. split; [rewrite zlen_alloc; lia|]. split; [auto|]. split; [rewrite zlen_alloc; lia|]. split; [rewrite zlen_alloc; lia|].
    split; [intros; lia|]. intros j c Hj. replace (Z.min 0 j) with 0 by lia. change (zrange 0 0) with (@nil Z). cbn [map ssum]. rewrite EW0, EZ0 by auto. split; ring.
  - intros i s Hi [HS HL]. eapply wp_mono; [apply (step_wp n (n / 10) ji jv Hann A B tol); auto|]. intros s' [HS' HL']. split; [auto|congruence].
  - intros s [[HW [HZ [Hd [_ [_ [_ [HD HR]]]]]]] HL]. cbn [wp]. split; [auto|]. split; [auto|]. split; [auto|]. intros j Hj. split; [apply HD; auto|]. intros c Hc. destruct (HR j c Hj) as [H1 H2]. replace (Z.min n j) with j in H1, H2 by lia. auto.
Qed.
End P.
