(** BSR -> CSR, BSC -> CSR, VBR -> CSR *)
Require Import ZArith List Bool Lia Permutation.
From Verif Require Import Base Scalar Spec Items Csc CscProof Coo CooProof Fmt EllProof DiaProof JadProof Bsr Vbr BlkProof DiagProof.
Import ListNotations.
Open Scope Z_scope.

Lemma flat_map_only {B} (f : Z -> list B) lo hi a : lo <= a < hi -> (forall x, lo <= x < hi -> x <> a -> f x = []) -> flat_map f (zrange lo hi) = f a.
Proof.
  intros Ha H. rewrite (zrange_app lo a hi) by lia. rewrite (zrange_cons a hi) by lia. rewrite flat_map_app. cbn [flat_map].
  rewrite (flat_map_ext_in f (fun _ => []) (zrange lo a)), (flat_map_ext_in f (fun _ => []) (zrange (a + 1) hi)).
  - rewrite !flat_map_nil. rewrite app_nil_r. auto.
  - intros x Hx. apply In_zrange in Hx. apply H; lia.
  - intros x Hx. apply In_zrange in Hx. apply H; lia.
Qed.

Section Unblk.
Context {T : Type} {S : Scalar T}.
Variables (n np nr : Z) (rs rn cs cn off : Z -> Z) (bptr : list Z) (value : list T).
Hypothesis (Hbp : ptr_ok nr bptr) (Hrs0 : rs 0 = 0) (Hrs : forall bi, 0 <= bi < nr -> rs (bi + 1) = rs bi + rn bi) (Hrn : forall bi, 0 <= bi < nr -> 0 <= rn bi).
Definition fe (bi k j i : Z) : entry T := (rs bi + i, cs k + j, znth s0 value (off k + j * rn bi + i)).
Definition blist : list (entry T) :=
  flat_map (fun bi => flat_map (fun k => flat_map (fun j => map (fe bi k j) (zrange 0 (rn bi))) (zrange 0 (cn k))) (zrange (znth 0 bptr bi) (znth 0 bptr (bi + 1)))) (zrange 0 nr).
Hypothesis (Hn : 0 <= n <= np) (Hnr : 0 <= nr) (Hsh : in_shape n np (nz blist)).

Definition btot : list (entry T) := nz blist.
Lemma btot_eq : btot =
  flat_map (fun bi => flat_map (fun k => flat_map (fun j => flat_map (fun i => nz [fe bi k j i]) (zrange 0 (rn bi))) (zrange 0 (cn k))) (zrange (znth 0 bptr bi) (znth 0 bptr (bi + 1)))) (zrange 0 nr).
Proof.
  unfold btot, blist. unfold nz at 1. rewrite filter_flat_map. apply flat_map_ext_in. intros bi _. rewrite filter_flat_map. apply flat_map_ext_in. intros k _.
  exact (nz_flat2 (fe bi k) (fun _ => 0) (fun _ => rn bi) 0 (cn k)).
Qed.

Lemma rs_mono a b : 0 <= a <= b -> b <= nr -> rs a <= rs b.
Proof.
  intros H Hb. replace b with (a + (b - a)) by lia. assert (H2 : a + (b - a) <= nr) by lia. revert H2. pattern (b - a). apply natlike_ind; [|intros x Hx IH|lia].
  - rewrite Z.add_0_r. lia.
  - intros H2. specialize (IH ltac:(lia)). pose proof (Hrs (a + x) ltac:(lia)). pose proof (Hrn (a + x) ltac:(lia)). replace (a + Z.succ x) with (a + x + 1) by lia. lia.
Qed.

(** the entries of one row, in the order of the second pass *)
Lemma brow_bucket bi i : 0 <= bi < nr -> 0 <= i < rn bi ->
  bucket erow (rs bi + i) btot = flat_map (fun k => flat_map (fun j => nz [fe bi k j i]) (zrange 0 (cn k))) (zrange (znth 0 bptr bi) (znth 0 bptr (bi + 1))).
Proof.
  intros Hb Hi. rewrite btot_eq. unfold bucket. rewrite filter_flat_map. rewrite (flat_map_only _ 0 nr bi); auto.
  - rewrite filter_flat_map. apply flat_map_ext_in. intros k _. rewrite filter_flat_map. apply flat_map_ext_in. intros j _.
    rewrite filter_flat_map. rewrite (flat_map_only _ 0 (rn bi) i); auto.
    + unfold nz, fe, eval; cbn [filter snd]. destruct (nonzero _); auto. cbn [filter]. unfold erow; cbn [fst]. rewrite Z.eqb_refl. auto.
    + intros x Hx Nx. unfold nz, fe, eval; cbn [filter snd]. destruct (nonzero _); auto. cbn [filter]. unfold erow; cbn [fst].
      destruct (Z.eqb_spec (rs bi + x) (rs bi + i)); [lia|auto].
  - intros x Hx Nx. rewrite filter_flat_map. rewrite (flat_map_ext_in _ (fun _ => [])); [apply flat_map_nil|]. intros k _.
    rewrite filter_flat_map. rewrite (flat_map_ext_in _ (fun _ => [])); [apply flat_map_nil|]. intros j _.
    rewrite filter_flat_map. rewrite (flat_map_ext_in _ (fun _ => [])); [apply flat_map_nil|]. intros t Ht. apply In_zrange in Ht.
    unfold nz, fe, eval; cbn [filter snd]. destruct (nonzero _); auto. cbn [filter]. unfold erow; cbn [fst].
    destruct (Z.eqb_spec (rs x + t) (rs bi + i)) as [E|]; auto. exfalso. destruct (Z_lt_le_dec x bi).
    + pose proof (rs_mono (x + 1) bi ltac:(lia) ltac:(lia)). rewrite Hrs in H by lia. lia.
    + pose proof (rs_mono (bi + 1) x ltac:(lia) ltac:(lia)). rewrite Hrs in H by lia. lia.
Qed.

Definition RC (d : list (entry T)) (p : list Z) : Prop := zlen p = n + 1 /\ znth 0 p 0 = 0 /\ count_rep erow n 1 d p.
Lemma count1 bi k j i p d : prefix (d ++ nz [fe bi k j i]) btot -> 0 <= off k + j * rn bi + i < zlen value -> RC d p ->
  wp (v <- rd value (off k + j * rn bi + i) ;; if nonzero v then incr p (rs bi + i + 1) else Ok p) (RC (d ++ nz [fe bi k j i])).
Proof.
  intros Hpre Hv (L & H0 & Hc). wrd s0; [auto|].
  replace (nz [fe bi k j i]) with (if nonzero (znth s0 value (off k + j * rn bi + i)) then [fe bi k j i] else []) in * by reflexivity.
  destruct (nonzero _).
  - assert (HI : In (fe bi k j i) btot) by (destruct Hpre as [r ->]; apply in_app_iff; left; apply in_app_iff; right; left; auto).
    destruct (Hsh _ HI) as [Hr _]. change (erow (fe bi k j i)) with (rs bi + i) in Hr.
    unfold incr. wrd 0; [lia|]. wwr; [lia|]. unfold RC. rewrite zlen_zupd. split; [auto|]. split; [rewrite znth_zupd_neq by lia; auto|].
    apply (count_step erow n 1 d p (fe bi k j i) Hc); change (erow (fe bi k j i)) with (rs bi + i); lia.
  - apply wp_ok. rewrite app_nil_r. split; auto.
Qed.

Definition RE (N : Z) (d : list (entry T)) (s : Z * list Z * list T) : Prop :=
  let '(k, ix, vl) := s in k = zlen d /\ zlen ix = N /\ zlen vl = N /\ emit_rep d ix vl.
Lemma emit1 N d e k ix vl : RE N d (k, ix, vl) -> zlen (d ++ [e]) <= N ->
  0 <= k < zlen ix /\ 0 <= k < zlen vl /\ RE N (d ++ [e]) (k + 1, zupd ix k (ecol e), zupd vl k (eval e)).
Proof.
  intros (-> & L1 & L2 & HE) HN. rewrite zlen_app in HN. change (zlen [e]) with 1 in HN. pose proof (zlen_nonneg d).
  split; [lia|]. split; [lia|]. unfold RE. rewrite !zlen_zupd, zlen_app. split; [auto|]. split; [auto|]. split; [auto|]. apply emit_step; auto; lia.
Qed.

Definition brow (r : Z) : list (entry T) := bucket erow r btot.
Definition rows (r : Z) : list (entry T) := flat_map brow (zrange 0 r).
Lemma rows_prefix r : 0 <= r < n -> prefix (rows r ++ brow r) (rows n).
Proof.
  intros Hr. unfold rows. rewrite (zrange_app 0 (r + 1) n) by lia. rewrite flat_map_app, (flat_map_snoc brow 0 r) by lia.
  eexists. reflexivity.
Qed.
Lemma rows_total : Permutation (rows n) btot.
Proof. apply buckets_perm. intros e He. apply Hsh. auto. Qed.

Lemma bfinish ptr ix vl :
  zlen ptr = n + 1 -> (forall r, 0 <= r <= n -> znth 0 ptr r = zlen (rows r)) -> zlen ix = zlen (rows n) -> zlen vl = zlen (rows n) -> emit_rep (rows n) ix vl ->
  let B := mkCsr n np (zlen (rows n)) ptr ix vl in csr_ok B /\ Permutation (csr_entries B) (nz blist).
Proof.
  intros L1 Hp L2 L3 HE B.
  destruct (csr_of_emit brow n np (zlen (rows n)) ptr ix vl) as [H1 H2]; auto; try lia; fold (rows n); try lia; auto.
  - intros e He. apply Hsh. apply (Permutation_in _ rows_total). auto.
  - intros i e Hi He. unfold brow, bucket in He. apply filter_In in He. destruct He as [_ He]. apply Z.eqb_eq in He. auto.
  - split; [apply H2; auto|]. unfold B. rewrite H1. apply rows_total.
Qed.

(** one row of the second pass *)
Lemma emit_row bi i ix vl body (Q : Z * list Z * list T -> Prop) :
  0 <= bi < nr -> 0 <= i < rn bi -> rs bi + i < n -> 0 <= rs bi ->
  zlen ix = zlen (rows n) -> zlen vl = zlen (rows n) -> emit_rep (rows (rs bi + i)) ix vl ->
  (forall k j s d, znth 0 bptr bi <= k < znth 0 bptr (bi + 1) -> 0 <= k < znth 0 bptr nr -> 0 <= j < cn k ->
     zlen (d ++ nz [fe bi k j i]) <= zlen (rows n) -> RE (zlen (rows n)) d s -> wp (body k j s) (RE (zlen (rows n)) (d ++ nz [fe bi k j i]))) ->
  (forall k ix vl, zlen ix = zlen (rows n) -> zlen vl = zlen (rows n) -> emit_rep (rows (rs bi + i + 1)) ix vl -> Q (k, ix, vl)) ->
  wp (for_ (znth 0 bptr bi) (znth 0 bptr (bi + 1)) (fun k s => for_ 0 (cn k) (body k) s) (zlen (rows (rs bi + i)), ix, vl)) Q.
Proof.
  intros Hb Hi Hr Hr0 L1 L2 HE Hs HQ.
  pose proof (rows_prefix (rs bi + i) ltac:(lia)) as Hpre. unfold brow in Hpre at 1. rewrite brow_bucket in Hpre by auto.
  apply (for_items0 (RE (zlen (rows n))) (rows n) (fun k => flat_map (fun j => nz [fe bi k j i]) (zrange 0 (cn k))) _ _ _ (rows (rs bi + i))); auto.
  - split; auto.
  - intros k s d Hk _ Hp' HR. pose proof (ptr_ok_bounds nr bptr bi k Hbp Hb Hk) as Hkb.
    apply (for_items0 (RE (zlen (rows n))) (rows n) (fun j => nz [fe bi k j i]) _ _ _ d); auto.
    intros j s' d' Hj _ Hp'' HR'. apply Hs; auto. apply prefix_len in Hp''. auto.
  - intros [[k ix'] vl'] (_ & L1' & L2' & HE'). apply HQ; auto.
    rewrite <- brow_bucket in HE' by auto. unfold rows in *. rewrite flat_map_snoc by lia. exact HE'.
Qed.
End Unblk.

Section Final.
Context {T : Type} {S : Scalar T}.

Lemma bsr2csr_wp jp ji (jv : Z -> T) (A : bsr T) (Q : csr T -> Prop) : bsr_ok A ->
  (forall B, csr_ok B -> csr_n B = bsr_n A -> csr_np B = bsr_np A -> Permutation (csr_entries B) (nz (bsr_entries A)) -> Q B) ->
  wp (convert_bsr2csr jp ji jv A) Q.
Proof.
  intros (Hn & Hnp & Hb & Hc & Hnr & Hbp & Hnn & Hli & Hlv & Hx & Hsh) HQ.
  set (n := bsr_n A) in *. set (nr := bsr_nr A) in *. set (b := bsr_bnr A) in *. set (c := bsr_bnc A) in *.
  set (rs := fun bi => bi * b). set (rn := fun _ : Z => b). set (cs := fun k => znth 0 (bsr_bindex A) k * c). set (cn := fun _ : Z => c).
  set (off := fun k => k * (b * c)).
  assert (HBL : bsr_entries A = blist nr rs rn cs cn off (bsr_bptr A) (bsr_value A)) by reflexivity.
  rewrite HBL in Hsh, HQ. rewrite Hnp in Hsh, HQ.
  assert (Hnr0 : 0 < nr) by nia.
  assert (Hrs : forall bi, 0 <= bi < nr -> rs (bi + 1) = rs bi + rn bi) by (intros; unfold rs, rn; lia).
  set (bt := btot nr rs rn cs cn off (bsr_bptr A) (bsr_value A)).
  set (RW := rows nr rs rn cs cn off (bsr_bptr A) (bsr_value A)).
  assert (Hoff : forall bi k j i, 0 <= bi < nr -> znth 0 (bsr_bptr A) bi <= k < znth 0 (bsr_bptr A) (bi + 1) -> 0 <= j < c -> 0 <= i < b ->
     0 <= off k + j * b + i < zlen (bsr_value A)).
  { intros bi k j i Hbi Hk Hj Hi. pose proof (ptr_ok_bounds nr _ bi k Hbp Hbi Hk). rewrite Hnn in H. unfold off.
    assert (0 <= j * b + i < b * c) by nia. nia. }
  unfold convert_bsr2csr. cbv zeta. fold n nr b c. rewrite Hnp.
  apply wp_bind, (for_set 0 (fun _ => 0)); [lia|rewrite zlen_alloc; lia|]. intros p1 L1 Z1 _. rewrite zlen_alloc in L1 by lia.
  wbind. unfold for_ptr.
  apply (for_items0 (RC n) bt (fun bi => flat_map (fun k => flat_map (fun j => flat_map (fun i => nz [fe rs rn cs off (bsr_value A) bi k j i]) (zrange 0 b)) (zrange 0 c)) (zrange (znth 0 (bsr_bptr A) bi) (znth 0 (bsr_bptr A) (bi + 1)))) 0 nr _ []).
  { unfold bt. rewrite btot_eq. apply prefix_refl. }
  { split; [auto|]. split; [apply Z1; lia|]. intros r Hr. rewrite Z1 by lia. reflexivity. }
  { intros bi s d Hbi _ Hpre HR. wrd 0; [destruct Hbp as (? & ? & _); lia|]. wrd 0; [destruct Hbp as (? & ? & _); lia|].
    apply (for_items0 (RC n) bt (fun k => flat_map (fun j => flat_map (fun i => nz [fe rs rn cs off (bsr_value A) bi k j i]) (zrange 0 b)) (zrange 0 c)) _ _ _ d); auto.
    intros k s1 d1 Hk _ Hpre1 HR1.
    apply (for_items0 (RC n) bt (fun j => flat_map (fun i => nz [fe rs rn cs off (bsr_value A) bi k j i]) (zrange 0 b)) _ _ _ d1); auto.
    intros j s2 d2 Hj _ Hpre2 HR2.
    apply (for_items0 (RC n) bt (fun i => nz [fe rs rn cs off (bsr_value A) bi k j i]) _ _ _ d2); auto.
    intros i s3 d3 Hi _ Hpre3 HR3.
    apply (count1 n n nr rs rn cs cn off (bsr_bptr A) (bsr_value A) Hsh bi k j i s3 d3); auto. eapply Hoff; eauto. }
  cbn [app]. match goal with |- forall s, RC n ?X s -> _ => replace X with bt by (unfold bt; rewrite btot_eq; reflexivity) end.
  intros p2 (L2 & Z2 & C2). wbind. apply (prefix_self_start erow bt); auto; try lia. intros ptr Lp Hptr.
  assert (Hptr' : forall r, 0 <= r <= n -> znth 0 ptr r = zlen (RW r)) by (intros; rewrite Hptr by lia; reflexivity).
  wrd 0; [lia|]. rewrite Hptr' by lia. pose proof (zlen_nonneg (RW n)).
  wbind.
  apply (for_wp' (fun bi s => zlen (fst s) = zlen (RW n) /\ zlen (snd s) = zlen (RW n) /\ emit_rep (RW (Z.min (bi * b) n)) (fst s) (snd s))); try lia.
  { cbn [fst snd]. rewrite !zlen_alloc by lia. split; auto. split; auto. replace (Z.min (0 * b) n) with 0 by lia. apply emit_nil. }
  { intros bi [ix vl] Hbi (Li & Lv & HE). cbn [fst snd] in *. assert (bi * b < n) by nia. replace (Z.min (bi * b) n) with (bi * b) in HE by lia.
    apply (for_wp' (fun i s => zlen (fst s) = zlen (RW n) /\ zlen (snd s) = zlen (RW n) /\ emit_rep (RW (bi * b + i)) (fst s) (snd s))); try lia.
    { cbn [fst snd]. rewrite Z.add_0_r. auto. }
    { intros i [ix' vl'] Hi (Li' & Lv' & HE'). cbn [fst snd] in *. wrd 0; [nia|]. rewrite Hptr' by nia.
      wrd 0; [destruct Hbp as (? & ? & _); lia|]. wrd 0; [destruct Hbp as (? & ? & _); lia|]. wbind.
      apply (emit_row n nr rs rn cs cn off (bsr_bptr A) (bsr_value A) Hbp Hrs ltac:(intros; unfold rn; lia) bi i ix' vl'); auto; try (unfold rn, rs; nia).
      - intros k j [[kk ix2] vl2] d Hk Hkb Hj Hlen HR. wrd s0; [eapply Hoff; eauto; lia|].
        replace (nz [fe rs rn cs off (bsr_value A) bi k j i]) with (if nonzero (znth s0 (bsr_value A) (k * (b * c) + j * b + i)) then [fe rs rn cs off (bsr_value A) bi k j i] else []) in * by reflexivity.
        destruct (nonzero _).
        + destruct (emit1 _ d _ kk ix2 vl2 HR Hlen) as (E1 & E2 & E3).
          wwr; [auto|]. wrd 0; [lia|]. wwr; [auto|]. apply wp_ok. exact E3.
        + apply wp_ok. rewrite app_nil_r. auto.
      - intros kk ix2 vl2 Li2 Lv2 HE2. apply wp_ok. cbn [fst snd]. split; auto. split; auto. rewrite Z.add_assoc. exact HE2. }
    { intros [ix' vl'] (Li' & Lv' & HE'). split; auto. split; auto. replace (Z.min ((bi + 1) * b) n) with (bi * b + Z.min b (n - bi * b)) by lia. auto. } }
  { intros [ix vl] (Li & Lv & HE). cbn [fst snd] in *. replace (Z.min (nr * b) n) with n in HE by lia. apply wp_ok.
    destruct (bfinish n n nr rs rn cs cn off (bsr_bptr A) (bsr_value A) ltac:(lia) Hsh ptr ix vl) as [F1 F2]; auto; try lia. }
Qed.

Lemma vbr_shape (A : vbr T) : vbr_ok A -> in_shape (vbr_n A) (vbr_np A) (vbr_entries A).
Proof.
  intros (Hn & Hr & Hrn & Hc & Hcn & Hbp & Hnn & Hli & Hlp & Hx & Hv) e He.
  apply in_flat_map in He. destruct He as (bi & Hbi & He). apply In_zrange in Hbi.
  apply in_flat_map in He. destruct He as (k & Hk & He). apply In_zrange in Hk.
  apply in_flat_map in He. destruct He as (j & Hj & He). apply In_zrange in Hj.
  apply in_map_iff in He. destruct He as (i & <- & Hi). apply In_zrange in Hi. unfold erow, ecol; cbn [fst snd].
  pose proof (ptr_ok_bounds _ _ bi k Hbp ltac:(lia) Hk) as Hkb. rewrite Hnn in Hkb. specialize (Hx k Hkb).
  pose proof (ptr_ok_bounds _ _ bi (znth 0 (vbr_row A) bi + i) Hr ltac:(lia) ltac:(lia)).
  pose proof (ptr_ok_bounds _ _ _ (znth 0 (vbr_col A) (znth 0 (vbr_bindex A) k) + j) Hc Hx ltac:(lia)). lia.
Qed.

Lemma vbr2csr_wp jp ji (jv : Z -> T) (A : vbr T) (Q : csr T -> Prop) : vbr_ok A ->
  (forall B, csr_ok B -> csr_n B = vbr_n A -> csr_np B = vbr_np A -> Permutation (csr_entries B) (nz (vbr_entries A)) -> Q B) ->
  wp (convert_vbr2csr jp ji jv A) Q.
Proof.
  intros HA HQ. pose proof (nz_in_shape _ _ _ (vbr_shape A HA)) as Hsh. destruct HA as (Hn & Hr & Hrn & Hc & Hcn & Hbp & Hnn & Hli & Hlp & Hx & Hv).
  set (n := vbr_n A) in *. set (np := vbr_np A) in *. set (nr := vbr_nr A) in *. set (row := vbr_row A) in *. set (col := vbr_col A) in *. set (bix := vbr_bindex A) in *.
  set (rs := fun bi => znth 0 row bi). set (rn := fun bi => znth 0 row (bi + 1) - znth 0 row bi).
  set (cs := fun k => znth 0 col (znth 0 bix k)). set (cn := fun k => znth 0 col (znth 0 bix k + 1) - znth 0 col (znth 0 bix k)).
  set (off := fun k => znth 0 (vbr_ptr A) k).
  assert (HBL : vbr_entries A = blist nr rs rn cs cn off (vbr_bptr A) (vbr_value A)) by reflexivity.
  rewrite HBL in Hsh, HQ. pose proof Hr as (Hnr & Hlr & Hr0 & Hrm). pose proof Hc as (Hnc & Hlc & Hc0 & Hcm). pose proof Hbp as (_ & Hlb & _ & Hbm).
  assert (Hrs : forall bi, 0 <= bi < nr -> rs (bi + 1) = rs bi + rn bi) by (intros; unfold rs, rn; lia).
  assert (Hrn0 : forall bi, 0 <= bi < nr -> 0 <= rn bi) by (intros bi Hbi; specialize (Hrm bi Hbi); unfold rn; lia).
  assert (Hrsb : forall bi, 0 <= bi < nr -> 0 <= rs bi /\ rs bi + rn bi <= n).
  { intros bi Hbi. pose proof (ptr_ok_mono _ _ 0 bi Hr ltac:(lia) ltac:(lia)). pose proof (ptr_ok_mono _ _ (bi + 1) nr Hr ltac:(lia) ltac:(lia)). unfold rs, rn. lia. }
  set (bt := btot nr rs rn cs cn off (vbr_bptr A) (vbr_value A)).
  set (RW := rows nr rs rn cs cn off (vbr_bptr A) (vbr_value A)).
  assert (Hoff : forall bi k j i, 0 <= bi < nr -> znth 0 (vbr_bptr A) bi <= k < znth 0 (vbr_bptr A) (bi + 1) -> 0 <= j < cn k -> 0 <= i < rn bi ->
     0 <= off k + j * rn bi + i < zlen (vbr_value A)).
  { intros bi k j i Hbi Hk Hj Hi. destruct (Hv bi k Hbi Hk) as [V1 V2]. fold (rn bi) in V2. fold (cn k) in V2. fold (off k) in V1, V2.
    assert (0 <= j * rn bi + i < rn bi * cn k) by nia. lia. }
  assert (Hkb : forall bi k, 0 <= bi < nr -> znth 0 (vbr_bptr A) bi <= k < znth 0 (vbr_bptr A) (bi + 1) -> 0 <= k < vbr_bnnz A /\ 0 <= znth 0 bix k < vbr_nc A).
  { intros bi k Hbi Hk. pose proof (ptr_ok_bounds _ _ bi k Hbp Hbi Hk) as H. rewrite Hnn in H. split; auto. }
  unfold convert_vbr2csr. cbv zeta. fold n nr row col bix np. wbind.
  apply (for_wp' (fun bi p => zlen p = n + 1 /\ forall r, 0 <= r < rs bi -> znth 0 p (r + 1) = 0)); auto.
  { rewrite zlen_alloc by lia. split; auto. intros r. unfold rs. rewrite Hr0. lia. }
  { intros bi p Hbi (Lp & Zp). wrd 0; [lia|]. wrd 0; [lia|]. fold (rn bi). specialize (Hrn0 bi Hbi). destruct (Hrsb bi Hbi).
    apply (for_wp' (fun i p => zlen p = n + 1 /\ forall r, 0 <= r < rs bi + i -> znth 0 p (r + 1) = 0)); auto.
    - rewrite Z.add_0_r. auto.
    - intros i p' Hi (Lp' & Zp'). change (znth 0 row bi) with (rs bi). apply wp_wr; [lia|]. rewrite zlen_zupd. split; auto. intros r Hr'.
      rewrite znth_zupd by lia. destruct (Z.eqb_spec (r + 1) (rs bi + i + 1)); auto. apply Zp'. lia.
    - intros p' (Lp' & Zp'). split; auto. rewrite Hrs by auto. auto. }
  intros p1 (L1 & Z1). change (rs nr) with (znth 0 row nr) in Z1. rewrite Hrn in Z1.
  set (F := fe rs rn cs off (vbr_value A)). wbind.
  apply (for_items0 (fun d p => zlen p = n + 1 /\ count_rep erow n 1 d p) bt (fun bi => flat_map (fun k => flat_map (fun j => flat_map (fun i => nz [F bi k j i]) (zrange 0 (rn bi))) (zrange 0 (cn k))) (zrange (znth 0 (vbr_bptr A) bi) (znth 0 (vbr_bptr A) (bi + 1)))) 0 nr _ []).
  { unfold bt. rewrite btot_eq. apply prefix_refl. }
  { split; [auto|]. intros r Hr'. rewrite Z1 by lia. reflexivity. }
  { intros bi s d Hbi _ Hpre HR. wrd 0; [lia|]. wrd 0; [lia|]. wrd 0; [lia|]. wrd 0; [lia|].
    apply (for_items0 (fun d p => zlen p = n + 1 /\ count_rep erow n 1 d p) bt (fun k => flat_map (fun j => flat_map (fun i => nz [F bi k j i]) (zrange 0 (rn bi))) (zrange 0 (cn k))) _ _ _ d); auto.
    intros k s1 d1 Hk _ Hpre1 HR1. destruct (Hkb bi k Hbi Hk) as [K1 K2]. wrd 0; [lia|]. wrd 0; [lia|]. wrd 0; [lia|]. fold (cn k).
    apply (for_items0 (fun d p => zlen p = n + 1 /\ count_rep erow n 1 d p) bt (fun j => flat_map (fun i => nz [F bi k j i]) (zrange 0 (rn bi))) _ _ _ d1); auto.
    intros j s2 d2 Hj _ Hpre2 HR2. fold (rn bi).
    apply (for_items0 (fun d p => zlen p = n + 1 /\ count_rep erow n 1 d p) bt (fun i => nz [F bi k j i]) _ _ _ d2); auto.
    intros i p d3 Hi _ Hpre3 (L3 & C3). wrd 0; [lia|]. fold (off k). wrd s0; [eapply Hoff; eauto|].
    replace (nz [F bi k j i]) with (if nonzero (znth s0 (vbr_value A) (off k + j * rn bi + i)) then [F bi k j i] else []) by reflexivity.
    destruct (nonzero _).
    - destruct (Hrsb bi Hbi). unfold incr. change (znth 0 row bi) with (rs bi). wrd 0; [lia|]. wwr; [lia|]. rewrite zlen_zupd. split; [auto|].
      apply (count_step erow n 1 d3 p (F bi k j i) C3); change (erow (F bi k j i)) with (rs bi + i); lia.
    - apply wp_ok. rewrite app_nil_r. auto. }
  cbn [app]. match goal with |- forall s, (_ /\ count_rep erow n 1 ?X s) -> _ => replace X with bt by (unfold bt; rewrite btot_eq; reflexivity) end.
  intros p2 (L2 & C2). unfold prefix_sum. wbind. wwr; [lia|]. apply (prefix_self_start erow bt); rewrite ?zlen_zupd; auto; try lia.
  { apply znth_zupd_eq; lia. }
  { intros r Hr'. rewrite znth_zupd_neq by lia. apply C2; auto. }
  intros ptr Lp Hptr.
  assert (Hptr' : forall r, 0 <= r <= n -> znth 0 ptr r = zlen (RW r)) by (intros; rewrite Hptr by lia; reflexivity).
  wrd 0; [lia|]. rewrite Hptr' by lia. pose proof (zlen_nonneg (RW n)).
  wbind.
  apply (for_wp' (fun bi s => zlen (fst s) = zlen (RW n) /\ zlen (snd s) = zlen (RW n) /\ emit_rep (RW (rs bi)) (fst s) (snd s))); try lia.
  { cbn [fst snd]. rewrite !zlen_alloc by lia. split; auto. split; auto. unfold rs. rewrite Hr0. apply emit_nil. }
  { intros bi [ix vl] Hbi (Li & Lv & HE). cbn [fst snd] in *. wrd 0; [lia|]. wrd 0; [lia|]. fold (rn bi). destruct (Hrsb bi Hbi).
    apply (for_wp' (fun i s => zlen (fst s) = zlen (RW n) /\ zlen (snd s) = zlen (RW n) /\ emit_rep (RW (rs bi + i)) (fst s) (snd s))); auto.
    { cbn [fst snd]. rewrite Z.add_0_r. auto. }
    { intros i [ix' vl'] Hi (Li' & Lv' & HE'). cbn [fst snd] in *. change (znth 0 row bi) with (rs bi). wrd 0; [lia|]. rewrite Hptr' by lia.
      wrd 0; [lia|]. wrd 0; [lia|]. wbind.
      match goal with |- wp (for_ ?lo ?hi ?bd ?st) ?Qq => enough (HX : wp (for_ lo hi (fun k s => for_ 0 (cn k) (fun j s => 
              let '(k0, index, value) := s in
              p <- rd (vbr_ptr A) k ;;
              v <- rd (vbr_value A) (p + j * rn bi + i) ;;
              if nonzero v then
                (value <- wr value k0 v ;;
                 index <- wr index k0 (cs k + j) ;;
                 Ok (k0 + 1, index, value))
              else Ok (k0, index, value)) s) st) Qq) end.
      { erewrite for_ext_in; [exact HX|]. intros k s Hk. cbv beta. destruct (Hkb bi k Hbi Hk) as [K1 K2]. rewrite !(rd_ok 0) by lia. cbn [bind]. rewrite !(rd_ok 0) by lia. reflexivity. }
      apply (emit_row n nr rs rn cs cn off (vbr_bptr A) (vbr_value A) Hbp Hrs Hrn0 bi i ix' vl'); auto; try lia.
      - intros k j [[kk ix2] vl2] d Hk Hkb' Hj Hlen HR. wrd 0; [destruct (Hkb bi k Hbi Hk); lia|]. fold (off k). wrd s0; [eapply Hoff; eauto; lia|].
        fold F in Hlen |- *.
        replace (nz [F bi k j i]) with (if nonzero (znth s0 (vbr_value A) (off k + j * rn bi + i)) then [F bi k j i] else []) in * by reflexivity.
        destruct (nonzero _).
        + destruct (emit1 _ d _ kk ix2 vl2 HR Hlen) as (E1 & E2 & E3).
          wwr; [auto|]. wwr; [auto|]. apply wp_ok. exact E3.
        + apply wp_ok. rewrite app_nil_r. auto.
      - intros kk ix2 vl2 Li2 Lv2 HE2. apply wp_ok. cbn [fst snd]. split; auto. split; auto. rewrite Z.add_assoc. exact HE2. }
    { intros [ix' vl'] (Li' & Lv' & HE'). split; auto. split; auto. rewrite Hrs by auto. auto. } }
  { intros [ix vl] (Li & Lv & HE). cbn [fst snd] in *. change (rs nr) with (znth 0 row nr) in HE. rewrite Hrn in HE. apply wp_ok.
    destruct (bfinish n np nr rs rn cs cn off (vbr_bptr A) (vbr_value A) ltac:(lia) Hsh ptr ix vl) as [F1 F2]; auto; try lia. }
Qed.

Lemma bsc2csr_wp jw jp ji (jv : Z -> T) (A : bsc T) (Q : csr T -> Prop) : bsc_ok A ->
  (forall B, csr_ok B -> csr_n B = bsc_n A -> csr_np B = bsc_np A -> Permutation (csr_entries B) (nz (bsc_entries A)) -> Q B) ->
  wp (convert_bsc2csr jw jp ji jv A) Q.
Proof.
  intros (Hn & Hnp & Hb & Hc & Hnr & Hbp & Hnn & Hli & Hlv & Hx & Hsh) HQ. pose proof Hbp as (_ & Hlb & _ & Hbm).
  set (n := bsc_n A) in *. set (nc := bsc_nc A) in *. set (b := bsc_bnr A) in *. set (c := bsc_bnc A) in *.
  assert (Hnc0 : 0 < nc) by nia.
  set (f := fun bj j k i => (znth 0 (bsc_bindex A) k * b + i, bj * c + j, znth s0 (bsc_value A) (k * (b * c) + j * b + i)) : entry T).
  set (tot := flat_map (fun bj => flat_map (fun j => flat_map (fun k => flat_map (fun i => nz [f bj j k i]) (zrange 0 b)) (zrange (znth 0 (bsc_bptr A) bj) (znth 0 (bsc_bptr A) (bj + 1)))) (zrange 0 c)) (zrange 0 nc)).
  assert (HPt : Permutation tot (nz (bsc_entries A))).
  { unfold tot, bsc_entries. fold nc b c. unfold nz at 2. rewrite filter_flat_map. apply Permutation_flat_map_ext. intros bj _.
    rewrite flat_map_exchange. rewrite filter_flat_map. apply Permutation_flat_map_ext. intros k _.
    pose proof (nz_flat2 (fun j i => f bj j k i) (fun _ => 0) (fun _ => b) 0 c) as E. cbv beta in E. rewrite <- E. apply Permutation_refl. }
  assert (Hsht : in_shape n n tot) by (intros e He; rewrite Hnp in Hsh; apply Hsh; apply (Permutation_in _ HPt); auto).
  assert (Htot2 : tot = flat_map (fun bj => flat_map (fun j => flat_map (fun k => flat_map (fun i => nz [f bj j k i]) (zrange 0 b)) (zrange (znth 0 (bsc_bptr A) bj) (znth 0 (bsc_bptr A) (bj + 1)))) (zrange 0 (Z.min c (n - bj * c)))) (zrange 0 nc)).
  { unfold tot. apply flat_map_ext_in. intros bj Hbj. apply In_zrange in Hbj. assert (bj * c < n) by nia.
    rewrite (zrange_app 0 (Z.min c (n - bj * c)) c) by lia. rewrite flat_map_app.
    match goal with |- _ ++ ?X = _ => replace X with (@nil (entry T)); [apply app_nil_r|] end. symmetry.
    match goal with |- flat_map ?g ?l = [] => destruct (flat_map g l) as [|e0 l0] eqn:E; [auto|exfalso] end.
    assert (He : In e0 (flat_map (fun j => flat_map (fun k => flat_map (fun i => nz [f bj j k i]) (zrange 0 b)) (zrange (znth 0 (bsc_bptr A) bj) (znth 0 (bsc_bptr A) (bj + 1)))) (zrange (Z.min c (n - bj * c)) c))) by (rewrite E; left; auto).
    assert (Hin : In e0 tot).
    { unfold tot. apply in_flat_map. exists bj. split; [apply In_zrange; lia|]. apply in_flat_map in He. destruct He as (j & Hj & He). apply In_zrange in Hj.
      apply in_flat_map. exists j. split; auto. apply In_zrange. lia. }
    apply Hsht in Hin. apply in_flat_map in He. destruct He as (j & Hj & He). apply In_zrange in Hj. apply in_flat_map in He. destruct He as (k & Hk & He).
    apply in_flat_map in He. destruct He as (i & Hi & He). unfold nz in He. apply filter_In in He. destruct He as [[<-|[]] _]. unfold ecol, f in Hin. cbn in Hin. lia. }
  assert (Hoff : forall bj k j i, 0 <= bj < nc -> znth 0 (bsc_bptr A) bj <= k < znth 0 (bsc_bptr A) (bj + 1) -> 0 <= j < c -> 0 <= i < b ->
     0 <= k * (b * c) + j * b + i < zlen (bsc_value A) /\ 0 <= k < zlen (bsc_bindex A)).
  { intros bj k j i Hbj Hk Hj Hi. pose proof (ptr_ok_bounds nc _ bj k Hbp Hbj Hk). rewrite Hnn in H.
    assert (0 <= j * b + i < b * c) by nia. split; [nia|lia]. }
  assert (Hkey : forall e, In e tot -> 0 <= erow e < n) by (intros; apply Hsht; auto).
  unfold convert_bsc2csr. cbv zeta. fold n nc b c. rewrite Hnp.
  apply wp_bind, (for_set 0 (fun _ => 0)); [lia|rewrite zlen_alloc; lia|]. intros iw1 L1 Z1 _. rewrite zlen_alloc in L1 by lia.
  wbind. set (R := fun (d : list (entry T)) w => zlen w = n /\ count_rep erow n 0 d w).
  apply (for_items0 R tot (fun bj => flat_map (fun j => flat_map (fun k => flat_map (fun i => nz [f bj j k i]) (zrange 0 b)) (zrange (znth 0 (bsc_bptr A) bj) (znth 0 (bsc_bptr A) (bj + 1)))) (zrange 0 c)) 0 nc _ []).
  { apply prefix_refl. }
  { split; auto. intros r Hr. rewrite Z.add_0_r, Z1 by lia. reflexivity. }
  { intros bj s d Hbj _ Hpre HR.
    apply (for_items0 R tot (fun j => flat_map (fun k => flat_map (fun i => nz [f bj j k i]) (zrange 0 b)) (zrange (znth 0 (bsc_bptr A) bj) (znth 0 (bsc_bptr A) (bj + 1)))) _ _ _ d); auto.
    intros j s1 d1 Hj _ Hpre1 HR1. wrd 0; [lia|]. wrd 0; [lia|].
    apply (for_items0 R tot (fun k => flat_map (fun i => nz [f bj j k i]) (zrange 0 b)) _ _ _ d1); auto.
    intros k s2 d2 Hk _ Hpre2 HR2.
    apply (for_items0 R tot (fun i => nz [f bj j k i]) _ _ _ d2); auto.
    intros i w d3 Hi _ Hpre3 (Lw & Cw). destruct (Hoff bj k j i Hbj Hk Hj Hi) as [O1 O2]. wrd s0; [auto|].
    replace (nz [f bj j k i]) with (if nonzero (znth s0 (bsc_value A) (k * (b * c) + j * b + i)) then [f bj j k i] else []) in * by reflexivity.
    destruct (nonzero _).
    - wrd 0; [auto|]. assert (HI : In (f bj j k i) tot) by (destruct Hpre3 as [r ->]; apply in_app_iff; left; apply in_app_iff; right; left; auto).
      apply Hkey in HI. change (erow (f bj j k i)) with (znth 0 (bsc_bindex A) k * b + i) in HI.
      unfold incr. wrd 0; [lia|]. wwr; [lia|]. unfold R. rewrite zlen_zupd. split; auto.
      pose proof (count_step erow n 0 d3 w (f bj j k i) Cw) as HS. rewrite Z.add_0_r in HS. apply HS; auto; change (erow (f bj j k i)) with (znth 0 (bsc_bindex A) k * b + i); lia.
    - apply wp_ok. rewrite app_nil_r. split; auto. }
  cbn [app]. fold tot. intros iw2 (L2 & C2). wbind.
  apply (for_wp' (fun i p => zlen p = n + 1 /\ forall r, 0 <= r < i -> znth 0 p (r + 1) = cntk erow r tot)); try lia.
  { rewrite zlen_alloc by lia. split; auto. intros; lia. }
  { intros i p Hi (Lp & Hp). wrd 0; [lia|]. apply wp_wr; [lia|]. rewrite zlen_zupd. split; auto. intros r Hr. rewrite znth_zupd by lia.
    destruct (Z.eqb_spec (r + 1) (i + 1)); [|apply Hp; lia]. replace r with i by lia. rewrite <- (C2 i) by lia. rewrite Z.add_0_r. auto. }
  intros p1 (Lp1 & Hp1). wbind. unfold prefix_sum. wwr; [lia|]. apply (prefix_self_start erow tot); rewrite ?zlen_zupd; try lia.
  { apply znth_zupd_eq; lia. }
  { intros r Hr. rewrite znth_zupd_neq by lia. apply Hp1; auto. }
  intros ptr Lp Hptr. wrd 0; [lia|]. rewrite Hptr by lia. rewrite (start_total erow n tot Hkey). pose proof (zlen_nonneg tot).
  apply wp_bind, (for_copy 0); try lia. intros iw3 Lw3 Hw3 _. wbind.
  set (R2 := fun (d : list (entry T)) s => let '(w, ix, vl) := s in zlen w = n /\ zlen ix = zlen tot /\ zlen vl = zlen tot /\
       fill_rep erow ecol eval s0 n tot d w ix vl).
  apply (for_items0 R2 tot (fun bj => flat_map (fun j => flat_map (fun k => flat_map (fun i => nz [f bj j k i]) (zrange 0 b)) (zrange (znth 0 (bsc_bptr A) bj) (znth 0 (bsc_bptr A) (bj + 1)))) (zrange 0 (Z.min c (n - bj * c)))) 0 nc _ []).
  { rewrite <- Htot2. apply prefix_refl. }
  { unfold R2. rewrite !zlen_alloc by lia. split; [lia|]. split; auto. split; auto. apply fill_init. intros r Hr. rewrite Hw3 by lia. apply Hptr; lia. }
  { intros bj s d Hbj _ Hpre HR.
    apply (for_items0 R2 tot (fun j => flat_map (fun k => flat_map (fun i => nz [f bj j k i]) (zrange 0 b)) (zrange (znth 0 (bsc_bptr A) bj) (znth 0 (bsc_bptr A) (bj + 1)))) _ _ _ d); auto.
    intros j s1 d1 Hj _ Hpre1 HR1. wrd 0; [lia|]. wrd 0; [lia|].
    apply (for_items0 R2 tot (fun k => flat_map (fun i => nz [f bj j k i]) (zrange 0 b)) _ _ _ d1); auto.
    intros k s2 d2 Hk _ Hpre2 HR2.
    apply (for_items0 R2 tot (fun i => nz [f bj j k i]) _ _ _ d2); auto.
    intros i [[w ix] vl] d3 Hi _ Hpre3 (Lw & Lix & Lvl & HF). destruct (Hoff bj k j i Hbj Hk ltac:(lia) Hi) as [O1 O2]. wrd s0; [auto|].
    replace (nz [f bj j k i]) with (if nonzero (znth s0 (bsc_value A) (k * (b * c) + j * b + i)) then [f bj j k i] else []) in * by reflexivity.
    destruct (nonzero _).
    - wrd 0; [auto|]. assert (HI : In (f bj j k i) tot) by (destruct Hpre3 as [r ->]; apply in_app_iff; left; apply in_app_iff; right; left; auto).
      apply Hkey in HI.
      pose proof (fill_step erow ecol eval s0 n tot d3 w ix vl (f bj j k i) Hkey Hpre3 ltac:(lia) ltac:(lia) ltac:(lia) HF) as HS.
      cbv zeta in HS. change (erow (f bj j k i)) with (znth 0 (bsc_bindex A) k * b + i) in HS, HI. destruct HS as [HS1 HS2].
      wrd 0; [lia|]. wwr; [lia|]. wwr; [lia|]. wwr; [lia|]. apply wp_ok. unfold R2. rewrite !zlen_zupd.
      split; [auto|]. split; [auto|]. split; [auto|]. exact HS2.
    - apply wp_ok. rewrite app_nil_r. split; auto. }
  cbn [app]. rewrite <- Htot2. intros [[w ix] vl] (Lw & Lix & Lvl & HF). apply wp_ok.
  eapply (csr_of_fill n n (zlen tot) tot ptr) in HF; auto; try lia.
  cbv zeta in HF. destruct HF as [HF1 HF2]. apply HQ; auto. rewrite HF2. rewrite <- HPt. apply buckets_perm. auto.
Qed.
End Final.
