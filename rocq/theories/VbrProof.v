(** CSR -> VBR for a given partition *)
Require Import ZArith List Bool Lia Permutation.
From Verif Require Import Base Scalar Spec Items Csc CscProof Coo CooProof Fmt EllProof DiaProof JadProof Bsr Vbr BlkProof BlkFill BsrProof BsrFinal Unblk.
Import ListNotations.
Open Scope Z_scope.

Lemma filter_true {A} (l : list A) : filter (fun _ => true) l = l.
Proof. induction l; cbn; congruence. Qed.
Lemma filter_false {A} (l : list A) : filter (fun _ => false) l = [].
Proof. induction l; cbn; auto. Qed.
(** the group of x in a partition *)
Definition grp (p : list Z) (m x : Z) : Z := zlen (filter (fun i => znth 0 p (i + 1) <=? x) (zrange 0 m)).
Lemma grp_spec p m i x : ptr_ok m p -> 0 <= i < m -> znth 0 p i <= x < znth 0 p (i + 1) -> grp p m x = i.
Proof.
  intros Hp Hi Hx. unfold grp. rewrite (zrange_app 0 i m) by lia. rewrite filter_app, zlen_app.
  rewrite (filter_ext_in _ (fun _ => true) (zrange 0 i)), (filter_ext_in _ (fun _ => false) (zrange i m)).
  - rewrite filter_true, filter_false. rewrite zlen_zrange. change (zlen (@nil Z)) with 0. lia.
  - intros t Ht. apply In_zrange in Ht. pose proof (ptr_ok_mono m p (i + 1) (t + 1) Hp ltac:(lia) ltac:(lia)). apply Z.leb_gt. lia.
  - intros t Ht. apply In_zrange in Ht. pose proof (ptr_ok_mono m p (t + 1) i Hp ltac:(lia) ltac:(lia)). apply Z.leb_le. lia.
Qed.
Lemma grp_exists p m x : ptr_ok m p -> 0 <= x < znth 0 p m -> 0 <= grp p m x < m /\ znth 0 p (grp p m x) <= x < znth 0 p (grp p m x + 1).
Proof.
  intros Hp Hx. pose proof Hp as (Hm & Hl & H0 & Hmono).
  assert (HH : forall t, 0 <= t -> t <= m -> x < znth 0 p t -> exists i, 0 <= i < t /\ znth 0 p i <= x < znth 0 p (i + 1)).
  { intros t Ht. pattern t. apply natlike_ind; auto.
    - intros _ H. rewrite H0 in H. lia.
    - intros y Hy IH Hy2 Hlt. destruct (Z_lt_le_dec x (znth 0 p y)).
      + destruct (IH ltac:(lia) l) as (i & ? & ?). exists i. split; [lia|auto].
      + exists y. split; [lia|]. replace (y + 1) with (Z.succ y) by lia. lia. }
  destruct (HH m Hm ltac:(lia) ltac:(lia)) as (i & Hi & Hx'). rewrite (grp_spec p m i x); auto.
Qed.

Definition zs (l : list Z) : Z := fold_right Z.add 0 l.
Lemma zs_app a b : zs (a ++ b) = zs a + zs b.
Proof. induction a; cbn; auto. unfold zs in *. cbn. lia. Qed.
Lemma zs_nonneg l : (forall x, In x l -> 0 <= x) -> 0 <= zs l.
Proof. induction l; cbn; intros; [lia|]. assert (0 <= a) by auto. assert (0 <= zs l) by auto. unfold zs in *. lia. Qed.

Definition vsum (BL : list Z) (k : Z) : Z := zs (firstn (Z.to_nat k) BL).
Lemma vsum_succ BL k : 0 <= k < zlen BL -> vsum BL (k + 1) = vsum BL k + znth 0 BL k.
Proof.
  intros Hk. unfold vsum. replace (Z.to_nat (k + 1)) with (Datatypes.S (Z.to_nat k)) by lia.
  assert (E : firstn (Datatypes.S (Z.to_nat k)) BL = firstn (Z.to_nat k) BL ++ [znth 0 BL k]).
  { unfold znth. destruct (Z.ltb_spec k 0); [lia|]. unfold zlen in Hk. assert (Hn : (Z.to_nat k < length BL)%nat) by lia.
    clear - Hn. revert BL Hn. induction (Z.to_nat k) as [|m IH]; intros BL Hn; destruct BL; cbn in *; try lia; auto. f_equal. apply IH. lia. }
  rewrite E, zs_app. cbn. lia.
Qed.
Lemma vsum_mono BL a b : (forall x, In x BL -> 0 <= x) -> 0 <= a <= b -> b <= zlen BL -> vsum BL a <= vsum BL b.
Proof.
  intros Hx H Hb. replace b with (a + (b - a)) by lia. assert (H2 : a + (b - a) <= zlen BL) by lia. revert H2. pattern (b - a). apply natlike_ind; [|intros x Hx' IH|lia].
  - rewrite Z.add_0_r. lia.
  - intros H2. specialize (IH ltac:(lia)). replace (a + Z.succ x) with (a + x + 1) by lia. rewrite vsum_succ by lia.
    assert (0 <= znth 0 BL (a + x)) by (apply Hx, znth_In; lia). lia.
Qed.
Lemma vsum_app a b : vsum (a ++ b) (zlen a) = zs a.
Proof. unfold vsum, zlen. rewrite Nat2Z.id. rewrite firstn_app, firstn_all, Nat.sub_diag. cbn. rewrite app_nil_r. auto. Qed.

Section Vbr.
Context {T : Type} {S : Scalar T}.
Variables (n nr nc : Z) (ptr index : list Z) (vals : list T) (row col : list Z).
Hypothesis (Hp : ptr_ok n ptr) (Hli : znth 0 ptr n <= zlen index) (Hlv : znth 0 ptr n <= zlen vals).
Hypothesis (Hrow : ptr_ok nr row) (Hrn : znth 0 row nr = n) (Hcol : ptr_ok nc col) (Hcn : znth 0 col nc = n).
Hypothesis (Hix : forall k, 0 <= k < znth 0 ptr n -> 0 <= znth 0 index k < n).

Definition gv (bi : Z) : Z := znth 0 row bi.
Definition rbv (r : Z) : Z := grp row nr r.
Definition cbv (x : Z) : Z := grp col nc x.
Definition rnv (bi : Z) : Z := znth 0 row (bi + 1) - znth 0 row bi.
Definition cnv (x : Z) : Z := znth 0 col (x + 1) - znth 0 col x.
Definition szv (bi x : Z) : Z := rnv bi * cnv x.
Notation DD := (Dof ptr index gv cbv).
Definition BLv : list Z := flat_map (fun bi => map (szv bi) (DD bi)) (zrange 0 nr).
Definition vov (k : Z) : Z := vsum BLv k.
Definition llv (p : Z * Z) : Z := (snd p - znth 0 col (cbv (snd p))) * rnv (rbv (fst p)) + (fst p - znth 0 row (rbv (fst p))).
Definition PV : list (Z * Z) :=
  flat_map (fun bi => flat_map (fun x => flat_map (fun j => map (fun i => (znth 0 row bi + i, znth 0 col x + j)) (zrange 0 (rnv bi))) (zrange 0 (cnv x))) (DD bi)) (zrange 0 nr).
Definition lents' := lents ptr index vals 0 n.

Lemma gv_0 : gv 0 = 0. Proof. apply Hrow. Qed.
Lemma gv_n : gv nr = n. Proof. exact Hrn. Qed.
Lemma gv_m bi : 0 <= bi < nr -> gv bi <= gv (bi + 1). Proof. apply Hrow. Qed.
Lemma rbv_g bi r : 0 <= bi < nr -> gv bi <= r < gv (bi + 1) -> rbv r = bi.
Proof. intros. apply grp_spec; auto. Qed.
Lemma cbv_r k : 0 <= k < znth 0 ptr n -> 0 <= cbv (znth 0 index k) < nc.
Proof. intros H. apply (grp_exists col nc); auto. rewrite Hcn. auto. Qed.
Lemma rnv_nonneg bi : 0 <= bi < nr -> 0 <= rnv bi. Proof. intros H. pose proof (gv_m bi H). unfold rnv, gv in *. lia. Qed.
Lemma cnv_nonneg x : 0 <= x < nc -> 0 <= cnv x. Proof. intros H. destruct Hcol as (_ & _ & _ & HM). specialize (HM x H). unfold cnv. lia. Qed.
Lemma DD_range bi x : 0 <= bi < nr -> In x (DD bi) -> 0 <= x < nc.
Proof. apply (Dof_range n ptr index vals Hp nr nc gv cbv gv_0 gv_n gv_m cbv_r). Qed.

Lemma szv_nonneg bi x : 0 <= bi < nr -> In x (DD bi) -> 0 <= szv bi x.
Proof. intros Hb Hx. pose proof (rnv_nonneg bi Hb). pose proof (cnv_nonneg x (DD_range bi x Hb Hx)). unfold szv. nia. Qed.
Lemma BLv_nonneg x : In x BLv -> 0 <= x.
Proof.
  intros H. apply in_flat_map in H. destruct H as (bi & Hb & H). apply In_zrange in Hb. apply in_map_iff in H. destruct H as (y & <- & Hy). apply szv_nonneg; auto.
Qed.
Lemma zlen_BL m : zlen (flat_map (fun bi => map (szv bi) (DD bi)) (zrange 0 m)) = bp DD m.
Proof.
  unfold bp. induction (zrange 0 m) as [|a l IH]; cbn; auto. rewrite !zlen_app, IH, zlen_map. auto.
Qed.
Lemma BL_at bi x : valid nr DD bi x -> znth 0 BLv (kkof DD bi x) = szv bi x.
Proof.
  intros V. pose proof (kkof_range _ _ _ _ V) as (K1 & K2 & K3). destruct V as [Hb Hx]. rewrite bp_succ in K1 by lia.
  unfold BLv. rewrite (zrange_app 0 (bi + 1) nr) by lia. rewrite flat_map_app. rewrite znth_app by lia. rewrite zlen_BL.
  rewrite bp_succ by lia. destruct (Z.ltb_spec (kkof DD bi x) (bp DD bi + zlen (DD bi))); [|lia].
  rewrite flat_map_snoc by lia. rewrite znth_app by lia. rewrite zlen_BL. destruct (Z.ltb_spec (kkof DD bi x) (bp DD bi)); [lia|].
  unfold kkof. replace (bp DD bi + fpos (DD bi) x - bp DD bi) with (fpos (DD bi) x) by lia.
  destruct (fpos_range (DD bi) x Hx) as [F1 F2]. rewrite (znth_map (szv bi) 0 0) by auto. rewrite F2. auto.
Qed.
Lemma vov_next bi x : valid nr DD bi x -> vov (kkof DD bi x + 1) = vov (kkof DD bi x) + szv bi x.
Proof.
  intros V. pose proof (kkof_range _ _ _ _ V) as (K1 & K2 & K3). unfold vov. rewrite vsum_succ by (unfold BLv; rewrite zlen_BL; lia).
  rewrite BL_at; auto.
Qed.
Lemma vov_bp i : 0 <= i <= nr -> vov (bp DD i) = zs (flat_map (fun bi => map (szv bi) (DD bi)) (zrange 0 i)).
Proof.
  intros Hi. unfold vov, BLv. rewrite (zrange_app 0 i nr) by lia. rewrite flat_map_app, <- zlen_BL. apply vsum_app.
Qed.
Lemma vov_mono a b : 0 <= a <= b -> b <= bp DD nr -> vov a <= vov b.
Proof. intros. apply vsum_mono; auto; [apply BLv_nonneg|unfold BLv; rewrite zlen_BL; auto]. Qed.
Lemma vov_0 : vov 0 = 0. Proof. reflexivity. Qed.

Lemma In_PV p : In p PV <-> exists bi x, 0 <= bi < nr /\ In x (DD bi) /\ znth 0 row bi <= fst p < znth 0 row (bi + 1) /\ znth 0 col x <= snd p < znth 0 col (x + 1).
Proof.
  unfold PV. rewrite in_flat_map. split.
  - intros (bi & Hb & H). apply In_zrange in Hb. apply in_flat_map in H. destruct H as (x & Hx & H). apply in_flat_map in H. destruct H as (j & Hj & H).
    apply in_map_iff in H. destruct H as (i & <- & Hi). apply In_zrange in Hi, Hj. unfold rnv, cnv in *. exists bi, x. cbn. split; auto. split; auto. lia.
  - intros (bi & x & Hb & Hx & H1 & H2). exists bi. split; [apply In_zrange; auto|]. apply in_flat_map. exists x. split; auto.
    apply in_flat_map. exists (snd p - znth 0 col x). unfold rnv, cnv. split; [apply In_zrange; lia|]. apply in_map_iff. exists (fst p - znth 0 row bi).
    split; [destruct p; cbn; f_equal; lia|apply In_zrange; lia].
Qed.
Lemma PV_blk p bi x : 0 <= bi < nr -> In x (DD bi) -> znth 0 row bi <= fst p < znth 0 row (bi + 1) -> znth 0 col x <= snd p < znth 0 col (x + 1) ->
  rbv (fst p) = bi /\ cbv (snd p) = x.
Proof. intros Hb Hx H1 H2. split; apply grp_spec; auto. eapply DD_range; eauto. Qed.
Lemma NoDup_PV : NoDup PV.
Proof.
  unfold PV. apply (NoDup_flat_map_key _ (fun p => rbv (fst p)) (fun bi => bi)).
  - rewrite map_id. apply NoDup_zrange.
  - intros bi Hb. apply In_zrange in Hb. apply (NoDup_flat_map_key _ (fun p => cbv (snd p)) (fun x => x)).
    + rewrite map_id. apply firsts_NoDup.
    + intros x Hx. apply (NoDup_flat_map_key _ (fun p => snd p - znth 0 col x) (fun j => j)).
      * rewrite map_id. apply NoDup_zrange.
      * intros j _. apply FinFun.Injective_map_NoDup; [intros u v E; inversion E; lia|apply NoDup_zrange].
      * intros j y _ Hy. apply in_map_iff in Hy. destruct Hy as (i & <- & _). cbn. lia.
    + intros x y Hx Hy. apply in_flat_map in Hy. destruct Hy as (j & Hj & Hy). apply in_map_iff in Hy. destruct Hy as (i & <- & Hi). apply In_zrange in Hi, Hj.
      unfold rnv, cnv in *. apply (PV_blk (znth 0 row bi + i, znth 0 col x + j) bi x); cbn; auto; lia.
  - intros bi y Hb Hy. apply In_zrange in Hb. apply in_flat_map in Hy. destruct Hy as (x & Hx & Hy). apply in_flat_map in Hy. destruct Hy as (j & Hj & Hy).
    apply in_map_iff in Hy. destruct Hy as (i & <- & Hi). apply In_zrange in Hi, Hj.
    unfold rnv, cnv in *. apply (PV_blk (znth 0 row bi + i, znth 0 col x + j) bi x); cbn; auto; lia.
Qed.

Lemma vbr_layout : layout nr rbv cbv DD vov szv llv PV.
Proof.
  constructor.
  - intros p H. apply In_PV in H. destruct H as (bi & x & Hb & Hx & H1 & H2). destruct (PV_blk p bi x Hb Hx H1 H2) as [-> ->]. split; auto.
  - intros p H. apply In_PV in H. destruct H as (bi & x & Hb & Hx & H1 & H2). unfold llv, szv. destruct (PV_blk p bi x Hb Hx H1 H2) as [-> ->].
    unfold rnv, cnv. nia.
  - intros p q H1 H2 E1 E2 E. unfold llv in E. rewrite E1, E2 in E.
    apply In_PV in H1. destruct H1 as (bi & x & Hb & Hx & H1 & H1'). destruct (PV_blk p bi x Hb Hx H1 H1') as [P1 P2].
    apply In_PV in H2. destruct H2 as (bi' & x' & Hb' & Hx' & H2 & H2'). destruct (PV_blk q bi' x' Hb' Hx' H2 H2') as [P1' P2'].
    assert (EB : bi' = bi) by congruence. assert (EX : x' = x) by congruence. rewrite EB in H2, P1'. rewrite EX in H2', P2'. rewrite P1', P2' in E.
    apply mul_inj in E; unfold rnv; try lia. destruct p, q; cbn in *. f_equal; lia.
  - intros. apply firsts_NoDup.
  - intros bi bj bi' bj' V V' H. rewrite <- vov_next by auto. apply vov_mono; [pose proof (kkof_range _ _ _ _ V); lia|].
    pose proof (kkof_range _ _ _ _ V'). lia.
  - intros bi bj V. pose proof (kkof_range _ _ _ _ V). rewrite <- vov_0. apply vov_mono; lia.
Qed.

Lemma lents_PV e : In e lents' -> In (fst e) PV.
Proof.
  intros H. destruct (In_lents _ _ _ _ _ _ H) as (Hr & k & Hk & Ec). apply In_PV. fold (erow e). fold (ecol e).
  destruct (grp_exists row nr (erow e) Hrow ltac:(lia)) as [G1 G2].
  pose proof (ptr_ok_bounds n ptr (erow e) k Hp ltac:(lia) Hk) as Hkb. pose proof (Hix k Hkb) as Hc. rewrite <- Ec in Hc.
  destruct (grp_exists col nc (ecol e) Hcol ltac:(lia)) as [C1 C2].
  exists (grp row nr (erow e)), (grp col nc (ecol e)). split; auto. split; [|auto].
  unfold Dof. apply firsts_In. rewrite <- (lents_cols ptr index vals). apply in_map_iff. exists e. split; auto.
  apply in_flat_map in H. destruct H as (r & Hr' & H). apply in_flat_map. exists r. split; auto.
  assert (erow e = r) by (apply in_map_iff in H; destruct H as (k' & <- & _); auto). subst r. apply In_zrange. unfold gv. lia.
Qed.

Lemma HNVv : forall bi bj, valid nr DD bi bj -> vov (kkof DD bi bj) + szv bi bj <= vov (bp DD nr).
Proof. intros bi bj V. rewrite <- vov_next by auto. pose proof (kkof_range _ _ _ _ V). apply vov_mono; lia. Qed.
End Vbr.
