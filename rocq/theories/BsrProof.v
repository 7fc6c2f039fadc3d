(** Proofs about the blocked conversions with blocks of one size (BSR, BSC) *)
Require Import ZArith List Bool Lia Permutation.
From Verif Require Import Base Scalar Spec Items Csc CscProof Coo CooProof Fmt EllProof DiaProof JadProof Bsr BlkProof BlkFill.
Import ListNotations.
Open Scope Z_scope.

Lemma nblocks_spec n b : 0 < n -> 0 < b -> (nblocks n b - 1) * b < n <= nblocks n b * b /\ 0 < nblocks n b.
Proof.
  intros Hn Hb. unfold nblocks. rewrite Z.quot_div_nonneg by lia. pose proof (Z.div_mod (n - 1) b ltac:(lia)) as H.
  pose proof (Z.mod_pos_bound (n - 1) b Hb). assert (0 <= (n - 1) / b) by (apply Z.div_pos; lia). nia.
Qed.
Lemma nblocks_bound n b x : 0 < n -> 0 < b -> 0 <= x < n -> 0 <= x / b < nblocks n b.
Proof.
  intros Hn Hb Hx. destruct (nblocks_spec n b Hn Hb) as [[_ H] _]. split; [apply Z.div_pos; lia|]. apply Z.div_lt_upper_bound; nia.
Qed.

Section Uniform.
Context {T : Type} {S : Scalar T}.
Variables (n b c nb nc : Z) (ptr index : list Z) (vals : list T).
Hypothesis (Hp : ptr_ok n ptr) (Hli : znth 0 ptr n <= zlen index) (Hlv : znth 0 ptr n <= zlen vals).
Hypothesis (Hn : 0 < n) (Hb : 0 < b) (Hc : 0 < c) (Hnb : (nb - 1) * b < n <= nb * b) (Hnc : 0 <= nc).
Hypothesis (Hcb : forall k, 0 <= k < znth 0 ptr n -> 0 <= znth 0 index k /\ znth 0 index k / c < nc).

Definition gof (bi : Z) : Z := Z.min (b * bi) n.
Definition rbof (r : Z) : Z := r / b.
Definition cbof (x : Z) : Z := x / c.
Notation DD := (Dof ptr index gof cbof).

Lemma nb_pos : 0 < nb. Proof. nia. Qed.
Lemma gof_lt bi : 0 <= bi < nb -> gof bi = b * bi.
Proof. intros. unfold gof. nia. Qed.
Lemma gof_next bi : 0 <= bi < nb -> gof (bi + 1) = b * bi + Z.min b (n - b * bi) /\ 0 < Z.min b (n - b * bi).
Proof. intros. unfold gof. nia. Qed.
Lemma gof_0 : gof 0 = 0. Proof. unfold gof; lia. Qed.
Lemma gof_n : gof nb = n. Proof. unfold gof; nia. Qed.
Lemma gof_mono bi : 0 <= bi < nb -> gof bi <= gof (bi + 1).
Proof. intros H. rewrite gof_lt by lia. destruct (gof_next bi H). lia. Qed.
Lemma rbof_g bi r : 0 <= bi < nb -> gof bi <= r < gof (bi + 1) -> rbof r = bi.
Proof.
  intros H Hr. rewrite gof_lt in Hr by lia. destruct (gof_next bi H) as [E _]. rewrite E in Hr. unfold rbof.
  symmetry. apply (Z.div_unique r b bi (r - b * bi)); lia.
Qed.
Lemma cbof_range k : 0 <= k < znth 0 ptr n -> 0 <= cbof (znth 0 index k) < nc.
Proof. intros H. destruct (Hcb k H). unfold cbof. split; [apply Z.div_pos; lia|auto]. Qed.

Lemma zero_init m junk (Q : list Z -> Prop) : 0 <= m ->
  (forall iw, zlen iw = m -> (forall x, 0 <= x < m -> znth 0 iw x = 0) -> Q iw) ->
  wp (for_ 0 m (fun t iw => wr iw t 0) (alloc m junk)) Q.
Proof.
  intros Hm HQ. apply (for_wp' (fun i w => zlen w = m /\ forall x, 0 <= x < i -> znth 0 w x = 0)); auto.
  - split; [apply zlen_alloc; auto|intros; lia].
  - intros i w Hi (L & H). apply wp_wr; [lia|]. rewrite zlen_zupd. split; auto. intros x Hx. rewrite znth_zupd by lia.
    destruct (Z.eqb_spec x i); auto. apply H; lia.
  - intros w (L & H). auto.
Qed.

Lemma reset_count F m (src iw : list Z) (Q : Z * list Z -> Prop) :
  m = zlen F -> m <= zlen src -> list_rep F src ->
  zlen iw = nc -> (forall x, In x F -> 0 <= x < nc) -> flag_rep nc F iw ->
  (forall iw', zlen iw' = nc -> (forall x, 0 <= x < nc -> znth 0 iw' x = 0) -> Q (m, iw')) ->
  wp (for_ 0 m (fun bj s => let '(k, iw) := s in ii <- rd src bj ;; iw <- wr iw ii 0 ;; Ok (k + 1, iw)) (0, iw)) Q.
Proof.
  intros Em Hls Hl Lw HF Hfl HQ. pose proof (zlen_nonneg F).
  apply (for_wp' (fun i s => let '(k, w) := s in k = i /\ zlen w = nc /\ forall x, 0 <= x < nc -> znth 0 w x <> 0 -> exists t, i <= t < m /\ znth 0 F t = x)); try lia.
  - split; auto. split; auto. intros x Hx Hne. rewrite Hfl in Hne by auto. destruct (mem x F) eqn:E; [|lia].
    apply mem_In in E. destruct (In_znth 0 F x E) as (t & Ht & Et). exists t. split; auto. lia.
  - intros i [k w] Hi (-> & L & Hw). wrd 0; [lia|]. rewrite (Hl i) by lia.
    assert (0 <= znth 0 F i < nc) by (apply HF, znth_In; lia). wwr; [lia|]. apply wp_ok. rewrite zlen_zupd. split; auto. split; auto.
    intros x Hx. rewrite znth_zupd by lia. destruct (Z.eqb_spec x (znth 0 F i)); [lia|]. intros Hne. destruct (Hw x Hx Hne) as (t & Ht & Et).
    exists t. split; auto. assert (t <> i) by congruence. lia.
  - intros [k w] (-> & L & Hw). apply HQ; auto. intros x Hx. destruct (Z.eq_dec (znth 0 w x) 0); auto. destruct (Hw x Hx n0) as (t & ? & _). lia.
Qed.

Lemma block_count_wp jw jw2 bptr (Q : list Z -> Prop) :
  zlen bptr = nb + 1 ->
  (forall bptr', zlen bptr' = nb + 1 -> (forall i, 0 <= i < nb -> znth 0 bptr' (i + 1) = zlen (DD i)) -> Q bptr') ->
  wp (block_count n b c nb nc ptr index jw jw2 bptr) Q.
Proof.
  intros Lb HQ. pose proof nb_pos as Hnb0. unfold block_count. apply wp_bind. apply zero_init; auto. intros iw Liw Ziw. wbind.
  apply (for_wp' (fun i s => let '(iw, iw2, bptr) := s in zlen iw = nc /\ zlen iw2 = nc /\ zlen bptr = nb + 1 /\
     (forall x, 0 <= x < nc -> znth 0 iw x = 0) /\ (forall j, 0 <= j < i -> znth 0 bptr (j + 1) = zlen (DD j)))); try lia.
  - split; auto. split; [apply zlen_alloc; auto|]. split; auto. split; auto. intros; lia.
  - clear iw Liw Ziw. intros i [[iw iw2] bp0] Hi (L1 & L2 & L3 & Z1 & H1). cbv zeta. wbind.
    destruct (gof_next i Hi) as [EN HM].
    apply (count_lines (fun x => Ok (Z.quot x c)) cbof n nc ptr index (b * i) (Z.min b (n - b * i)) iw iw2); auto; try lia; try nia.
    + intros k Hk. pose proof (cbof_range k Hk). destruct (Hcb k Hk). split; [|auto]. unfold cbof. rewrite Z.quot_div_nonneg by lia. auto.
    + intros iw' iw2' L1' L2' F HF HL. wbind.
      assert (EF : F = DD i) by (unfold F, Dof; rewrite (gof_lt i) by lia; rewrite EN; auto).
      assert (HFr : forall x, In x F -> 0 <= x < nc).
      { intros x Hx. rewrite EF in Hx. revert Hx. eapply (Dof_range n ptr index vals Hp nb nc gof cbof); eauto using gof_0, gof_n, gof_mono, cbof_range; lia. }
      assert (zlen F <= nc) by (apply NoDup_bound; auto; apply firsts_NoDup).
      apply (reset_count F); auto; try lia. intros iw'' L1'' Z1''. wwr; [lia|]. apply wp_ok. rewrite zlen_zupd.
      split; auto. split; auto. split; auto. split; auto. intros j Hj. rewrite znth_zupd by lia.
      destruct (Z.eqb_spec (j + 1) (i + 1)); [replace j with i by lia; rewrite <- EF; auto|]. apply H1; lia.
  - intros [[iw' iw2'] bptr'] (L1 & L2 & L3 & Z1 & H1). apply wp_ok. apply HQ; auto.
Qed.

Lemma prefix_sum_wp bptr (Q : list Z -> Prop) :
  zlen bptr = nb + 1 -> (forall i, 0 <= i < nb -> znth 0 bptr (i + 1) = zlen (DD i)) ->
  (forall bptr', zlen bptr' = nb + 1 -> (forall r, 0 <= r <= nb -> znth 0 bptr' r = bp DD r) -> Q bptr') ->
  wp (prefix_sum nb bptr) Q.
Proof.
  intros L H HQ. pose proof nb_pos. unfold prefix_sum. wwr; [lia|]. apply (prefix_self DD); try lia; rewrite ?zlen_zupd; try lia.
  - apply znth_zupd_eq. lia.
  - intros i Hi. rewrite znth_zupd_neq by lia. auto.
  - intros p' L' H'. rewrite ?zlen_zupd in L'. apply HQ; [lia|]. auto.
Qed.

(** *** second pass *)
Variable lc : Z -> Z -> Z.
Hypothesis Hlc : forall j ii, 0 <= j < c -> 0 <= ii < b -> 0 <= lc j ii < b * c.
Hypothesis Hlci : forall j ii j' ii', 0 <= j < c -> 0 <= ii < b -> 0 <= j' < c -> 0 <= ii' < b -> lc j ii = lc j' ii' -> j = j' /\ ii = ii'.
Variable P : list (Z * Z).
Hypothesis HP : forall p, In p P <-> 0 <= rbof (fst p) < nb /\ In (cbof (snd p)) (DD (rbof (fst p))).
Definition vof (k : Z) : Z := k * (b * c).
Definition szof (bi bj : Z) : Z := b * c.
Definition llof (p : Z * Z) : Z := lc (snd p mod c) (fst p mod b).

Lemma uniform_layout : layout nb rbof cbof DD vof szof llof P.
Proof.
  constructor.
  - intros p H. apply HP in H. exact H.
  - intros p H. unfold llof, szof. apply Hlc; apply Z.mod_pos_bound; auto.
  - intros [p1 p2] [q1 q2] H1 H2 E1 E2 E. unfold llof in E. cbn in *. apply Hlci in E; try (apply Z.mod_pos_bound; auto).
    destruct E as [Ea Eb]. unfold rbof, cbof in *. f_equal.
    + rewrite (Z.div_mod p1 b), (Z.div_mod q1 b) by lia. congruence.
    + rewrite (Z.div_mod p2 c), (Z.div_mod q2 c) by lia. congruence.
  - intros. apply firsts_NoDup.
  - intros bi bj bi' bj' V V' H. unfold vof, szof. nia.
  - intros bi bj V. destruct (kkof_range _ _ _ _ V) as (K1 & K2 & K3). unfold vof. apply Z.mul_nonneg_nonneg; [lia|nia].
Qed.

Lemma lents_P e : In e (lents ptr index vals 0 n) -> In (fst e) P.
Proof.
  intros H. apply HP. fold (erow e). fold (ecol e).
  destruct (In_lents _ _ _ _ _ _ H) as (Hr & _). assert (HB : 0 <= rbof (erow e) < nb).
  { unfold rbof. split; [apply Z.div_pos; lia|apply Z.div_lt_upper_bound; nia]. }
  split; auto. unfold Dof. apply firsts_In. rewrite <- (lents_cols ptr index vals). apply in_map_iff. exists e. split; auto.
  apply in_flat_map in H. destruct H as (r & Hr' & H). apply in_flat_map. exists r. split; auto.
  assert (erow e = r) by (apply in_map_iff in H; destruct H as (k & <- & _); auto). subst r.
  apply In_zrange. rewrite gof_lt by auto. destruct (gof_next _ HB) as [-> _].
  unfold rbof in *. pose proof (Z.div_mod (erow e) b ltac:(lia)). pose proof (Z.mod_pos_bound (erow e) b Hb). nia.
Qed.

Lemma block_fill_wp jw bptr bindex value (Q : list Z * list T -> Prop) :
  zlen bptr = nb + 1 -> (forall r, 0 <= r <= nb -> znth 0 bptr r = bp DD r) ->
  zlen bindex = bp DD nb -> zlen value = bp DD nb * (b * c) ->
  (forall bindex' value', zlen bindex' = bp DD nb -> zlen value' = bp DD nb * (b * c) ->
     list_rep (flat_map DD (zrange 0 nb)) bindex' -> val_rep rbof cbof DD vof llof P (lents ptr index vals 0 n) value' -> Q (bindex', value')) ->
  wp (block_fill n b c (b * c) nb nc lc ptr index vals jw bptr bindex value) Q.
Proof.
  intros Lb Hbp Li Lv HQ. pose proof nb_pos as Hnb0. pose proof uniform_layout as LAY.
  assert (HNV : forall bi bj, valid nb DD bi bj -> vof (kkof DD bi bj) + szof bi bj <= bp DD nb * (b * c)).
  { intros bi bj V. pose proof (kkof_range _ _ _ _ V). unfold vof, szof. nia. }
  unfold block_fill. apply wp_bind. apply zero_init; auto. intros iw Liw Ziw. wbind.
  apply (for_wp' (fun bi s => let '(iw, bindex, value) := s in zlen iw = nc /\ zlen bindex = bp DD nb /\ zlen value = bp DD nb * (b * c) /\
     (forall x, 0 <= x < nc -> znth 0 iw x = 0) /\ list_rep (flat_map DD (zrange 0 bi)) bindex /\
     val_rep rbof cbof DD vof llof P (lents ptr index vals 0 (gof bi)) value)); try lia.
  - split; auto. split; auto. split; auto. split; auto. split.
    + intros t Ht. change (zlen (flat_map DD (zrange 0 0))) with 0 in Ht. lia.
    + rewrite gof_0. intros p _ [].
  - clear iw Liw Ziw bindex value Li Lv. intros bi [[iw bindex] value] Hi (L1 & L2 & L3 & Z1 & HL & HV). cbv zeta. replace (bi * b) with (b * bi) by lia.
    wrd 0; [lia|]. rewrite Hbp by lia. wbind.
    destruct (gof_next bi Hi) as [EN HM]. pose proof (gof_lt bi Hi) as EG. pose proof (gof_mono bi Hi) as GM.
    pose proof (lents_shift ptr index vals nb gof bi (Z.min b (n - b * bi)) Hi ltac:(lia)) as ES.
    set (R := RR ptr index vals nb nc gof rbof cbof vof llof P (bp DD nb * (b * c)) bi).
    apply (for_items R (lents ptr index vals (gof bi) (gof (bi + 1))) (fun ii => map (fun k => (gof bi + ii, znth 0 index k, znth s0 vals k) : entry T) (zrange (znth 0 ptr (gof bi + ii)) (znth 0 ptr (gof bi + ii + 1)))) 0 (Z.min b (n - b * bi)) _ []); try lia.
    + rewrite app_nil_l, <- ES. apply prefix_refl.
    + apply RR_start; auto.
    + intros ii s d Hii _ Hpre HR. wrd 0; [destruct Hp as (? & ? & _); lia|]. wrd 0; [destruct Hp as (? & ? & _); lia|].
      rewrite <- EG.
      apply (for_list R (lents ptr index vals (gof bi) (gof (bi + 1))) (fun k => (gof bi + ii, znth 0 index k, znth s0 vals k) : entry T) _ _ _ d); auto.
      { apply Hp. nia. }
      clear s Hpre HR. intros k [[[w bx] va] kk] d1 Hk _ Hpre HR.
      pose proof (ptr_ok_bounds n ptr (gof bi + ii) k Hp ltac:(lia) Hk) as Hkb. destruct (Hcb k Hkb) as [Hx0 _].
      set (e := (gof bi + ii, znth 0 index k, znth s0 vals k) : entry T) in *.
      wrd 0; [lia|]. cbv zeta.
      rewrite Z.quot_div_nonneg, Z.rem_mod_nonneg by lia. pose proof (cbof_range k Hkb) as HC. unfold cbof in HC.
      pose proof HR as (M1 & M2 & M3 & _). wrd 0; [lia|].
      change (znth 0 index k / c) with (cbof (ecol e)).
      assert (ELL : llof (fst e) = lc (znth 0 index k mod c) ii).
      { unfold llof, e. cbn [fst snd]. f_equal. symmetry. apply (Z.mod_unique _ b bi); [left; lia|]. lia. }
      pose proof (e_flag n ptr index vals Hp nb nc gof rbof cbof vof llof P gof_0 gof_n gof_mono cbof_range _ bi d1 e w bx va kk Hi Hpre HR) as EFl.
      destruct (mem (cbof (ecol e)) (Fd cbof d1)) eqn:Em.
      * destruct (flag_nonzero n ptr index vals Hp nb nc gof rbof cbof vof szof llof P gof_0 gof_n gof_mono rbof_g cbof_range LAY lents_P _ bi d1 e w bx va kk Hi Hpre HR Em) as [F1 F2].
        rewrite F1. wrd s0; [lia|]. rewrite <- ELL, F2.
        destruct (step_old n ptr index vals nb nc gof rbof cbof vof szof llof P gof_0 gof_n gof_mono rbof_g LAY lents_P _ HNV bi d1 e w bx va kk Hi Hpre HR Em) as [S1 S2].
        wwr; [auto|]. apply wp_ok. exact S2.
      * rewrite EFl. cbn [Z.eqb].
        destruct (step_new n ptr index vals Hp nb nc gof rbof cbof vof szof llof P gof_0 gof_n gof_mono rbof_g cbof_range LAY lents_P _ HNV bi d1 e w bx va kk Hi Hpre HR Em)
          as (S1 & S2 & S3 & S4 & S5 & S6 & S7 & S8).
        wwr; [unfold cbof; fold (cbof (znth 0 index k)); unfold e, ecol; cbn; lia|]. wwr; [auto|]. wbind.
        apply zero_block; [exact S3|nia|exact S4|]. intros value0 L0 HZ HK.
        wrd s0; [lia|]. rewrite <- ELL. change (kk * (b * c)) with (vof kk). rewrite <- S7.
        wwr; [lia|]. apply wp_ok. apply S8; auto.
    + intros [[[w bx] va] kk] HR. rewrite app_nil_l, <- ES in HR. eapply (RR_end n) in HR; try lia; auto using gof_0, gof_n, gof_mono.
      destruct HR as (EF & Ek & HL' & HV' & M1 & M2 & M3 & HZ').
      wrd 0; [lia|]. wrd 0; [lia|]. rewrite !Hbp by lia. wbind.
      eapply (reset_group n ptr index vals Hp nb nc gof cbof); eauto using gof_0, gof_n, gof_mono, cbof_range; try lia.
      intros w' Lw' Zw'. apply wp_ok. auto 10.
  - intros [[w bx] va] (M1 & M2 & M3 & M4 & M5 & M6). apply wp_ok. rewrite gof_n in M6. apply HQ; auto.
Qed.
End Uniform.
