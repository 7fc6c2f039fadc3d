(** CSR -> BSR and CSC -> BSC *)
Require Import ZArith List Bool Lia Permutation.
From Verif Require Import Base Scalar Spec Items Csc CscProof Coo CooProof Fmt EllProof DiaProof JadProof Bsr BlkProof BlkFill BsrProof.
Import ListNotations.
Open Scope Z_scope.

Section Out.
Context {T : Type} {S : Scalar T}.
Variables (n b c nb nc : Z) (ptr index : list Z) (vals : list T).
Hypothesis (Hp : ptr_ok n ptr) (Hli : znth 0 ptr n <= zlen index) (Hlv : znth 0 ptr n <= zlen vals).
Hypothesis (Hn : 0 < n) (Hb : 0 < b) (Hc : 0 < c) (Hnb : (nb - 1) * b < n <= nb * b) (Hnc : 0 <= nc).
Hypothesis (Hcb : forall k, 0 <= k < znth 0 ptr n -> 0 <= znth 0 index k /\ znth 0 index k / c < nc).
Variable lc : Z -> Z -> Z.
Hypothesis Hlc : forall j ii, 0 <= j < c -> 0 <= ii < b -> 0 <= lc j ii < b * c.
Hypothesis Hlci : forall j ii j' ii', 0 <= j < c -> 0 <= ii < b -> 0 <= j' < c -> 0 <= ii' < b -> lc j ii = lc j' ii' -> j = j' /\ ii = ii'.
(** the order in which the positions of one block are listed: (line offset, minor offset) *)
Variable inner : list (Z * Z).
Hypothesis (HiN : NoDup inner) (HiI : forall q, In q inner <-> 0 <= fst q < b /\ 0 <= snd q < c).
Notation DD := (Dof ptr index (gof n b) (cbof c)).
Notation lents' := (lents ptr index vals 0 n).

Definition blkpos (bi x : Z) : list (Z * Z) := map (fun q => (bi * b + fst q, x * c + snd q)) inner.
Definition PP : list (Z * Z) := flat_map (fun bi => flat_map (fun x => blkpos bi x) (DD bi)) (zrange 0 nb).

Lemma In_blkpos bi x p : In p (blkpos bi x) <-> rbof b (fst p) = bi /\ cbof c (snd p) = x.
Proof.
  unfold blkpos, rbof, cbof. rewrite in_map_iff. split.
  - intros (q & <- & Hq). apply HiI in Hq. cbn. split; symmetry; [apply (Z.div_unique _ b _ (fst q))|apply (Z.div_unique _ c _ (snd q))]; lia.
  - intros [E1 E2]. exists (fst p mod b, snd p mod c). split.
    + cbn. subst. destruct p as [p1 p2]; cbn. f_equal; [pose proof (Z.div_mod p1 b ltac:(lia))|pose proof (Z.div_mod p2 c ltac:(lia))]; lia.
    + apply HiI. cbn. split; apply Z.mod_pos_bound; auto.
Qed.
Lemma In_PP p : In p PP <-> 0 <= rbof b (fst p) < nb /\ In (cbof c (snd p)) (DD (rbof b (fst p))).
Proof.
  unfold PP. rewrite in_flat_map. split.
  - intros (bi & Hbi & H). apply In_zrange in Hbi. apply in_flat_map in H. destruct H as (x & Hx & H). apply In_blkpos in H. destruct H as [-> ->]. auto.
  - intros [H1 H2]. exists (rbof b (fst p)). split; [apply In_zrange; lia|]. apply in_flat_map. exists (cbof c (snd p)). split; auto. apply In_blkpos; auto.
Qed.
Lemma NoDup_PP : NoDup PP.
Proof.
  unfold PP. apply (NoDup_flat_map_key _ (fun p => rbof b (fst p)) (fun bi => bi)).
  - rewrite map_id. apply NoDup_zrange.
  - intros bi Hbi. apply (NoDup_flat_map_key _ (fun p => cbof c (snd p)) (fun x => x)).
    + rewrite map_id. apply firsts_NoDup.
    + intros x Hx. unfold blkpos. apply FinFun.Injective_map_NoDup; auto. intros [a1 a2] [b1 b2] E. cbn in E. inversion E. f_equal; lia.
    + intros x y Hx Hy. apply In_blkpos in Hy. apply Hy.
  - intros bi y Hbi Hy. apply in_flat_map in Hy. destruct Hy as (x & Hx & Hy). apply In_blkpos in Hy. apply Hy.
Qed.

(** what is stored, listed block by block *)
Lemma blocks_entries bptr bindex (value : list T) :
  (forall r, 0 <= r <= nb -> znth 0 bptr r = bp DD r) ->
  list_rep (flat_map DD (zrange 0 nb)) bindex ->
  val_rep (rbof b) (cbof c) DD (vof b c) (llof b c lc) PP lents' value ->
  flat_map (fun bi => flat_map (fun k => map (fun q => (bi * b + fst q, znth 0 bindex k * c + snd q, znth s0 value (k * (b * c) + lc (snd q) (fst q))) : entry T) inner)
     (zrange (znth 0 bptr bi) (znth 0 bptr (bi + 1)))) (zrange 0 nb)
  = map (fun p => (fst p, snd p, lastval lents' p) : entry T) PP.
Proof.
  intros Hbp Hl Hv. unfold PP. rewrite map_flat_map. apply flat_map_ext_in. intros bi Hbi. apply In_zrange in Hbi.
  rewrite !Hbp by lia. rewrite bp_succ by lia. rewrite map_flat_map.
  transitivity (flat_map (fun x => map (fun q => (bi * b + fst q, x * c + snd q, znth s0 value ((bp DD bi + fpos (DD bi) x) * (b * c) + lc (snd q) (fst q))) : entry T) inner) (DD bi)).
  - rewrite <- (flat_map_positions (fun k x => map (fun q => (bi * b + fst q, x * c + snd q, znth s0 value (k * (b * c) + lc (snd q) (fst q))) : entry T) inner) (bp DD bi) (DD bi) (firsts_NoDup _)).
    apply flat_map_ext_in. intros k Hk. apply In_zrange in Hk.
    assert (Ex : znth 0 bindex k = znth 0 (DD bi) (k - bp DD bi)).
    { pose proof (bp_mono DD (bi + 1) nb ltac:(lia)) as HM. rewrite bp_succ in HM by lia. assert (0 <= bp DD bi) by apply zlen_nonneg.
      rewrite (Hl k) by (fold (bp DD nb); lia).
      rewrite (zrange_app 0 (bi + 1) nb) by lia. rewrite flat_map_app, znth_app by (fold (bp DD (bi + 1)); lia).
      fold (bp DD (bi + 1)). rewrite bp_succ by lia. destruct (Z.ltb_spec k (bp DD bi + zlen (DD bi))); [|lia].
      rewrite flat_map_snoc by lia. rewrite znth_app by (fold (bp DD bi); lia). fold (bp DD bi).
      destruct (Z.ltb_spec k (bp DD bi)); [lia|]. auto. }
    rewrite Ex. reflexivity.
  - apply flat_map_ext_in. intros x Hx. unfold blkpos. rewrite map_map. apply map_ext_in. intros q Hq.
    assert (HI : In (bi * b + fst q, x * c + snd q) (blkpos bi x)) by (apply in_map_iff; exists q; auto).
    apply In_blkpos in HI. cbn [fst snd] in *. destruct HI as [E1 E2]. f_equal.
    rewrite <- (Hv (bi * b + fst q, x * c + snd q)).
    + unfold loc. cbn [fst snd]. rewrite E1, E2. unfold kkof, vof, llof. cbn [fst snd]. apply HiI in Hq. f_equal. f_equal. f_equal.
      * apply (Z.mod_unique _ c x); [left|]; lia.
      * apply (Z.mod_unique _ b bi); [left|]; lia.
    + apply In_PP. cbn [fst snd]. rewrite E1, E2. split; [lia|auto].
    + cbn [fst snd]. rewrite E1, E2. pose proof Hx as Hx'. unfold Dof in Hx'. apply (proj1 (firsts_In _ _)) in Hx'.
      rewrite <- (lents_cols ptr index vals) in Hx'. apply in_map_iff in Hx'. destruct Hx' as (e & Ee & He).
      apply in_map_iff. exists e. destruct (In_lents _ _ _ _ _ _ He) as [Hr _]. split.
      * unfold blkof. rewrite Ee. f_equal. apply (rbof_g n b nb); auto.
      * unfold lents in *. apply in_flat_map in He. destruct He as (r & Hr1 & He). apply in_flat_map. exists r. split; auto.
        apply In_zrange in Hr1. apply In_zrange. unfold gof in Hr1. nia.
Qed.

Lemma bindex_spec bptr bindex k :
  (forall r, 0 <= r <= nb -> znth 0 bptr r = bp DD r) -> list_rep (flat_map DD (zrange 0 nb)) bindex ->
  0 <= k < bp DD nb -> exists t, 0 <= t < znth 0 ptr n /\ znth 0 bindex k = znth 0 index t / c.
Proof.
  intros Hbp Hl Hk. rewrite (Hl k) by (fold (bp DD nb); lia).
  assert (HI : In (znth 0 (flat_map DD (zrange 0 nb)) k) (flat_map DD (zrange 0 nb))) by (apply znth_In; fold (bp DD nb); lia).
  revert HI. generalize (znth 0 (flat_map DD (zrange 0 nb)) k). intros v HI.
  apply in_flat_map in HI. destruct HI as (bi & Hbi & HI). apply In_zrange in Hbi. unfold Dof in HI. apply (proj1 (firsts_In _ _)) in HI.
  apply in_map_iff in HI. destruct HI as (x & E & Hx). rewrite <- E.
  apply (In_line_cols n) in Hx; auto.
  - destruct Hx as (t & Ht & ->). exists t. auto.
  - unfold gof. nia.
  - unfold gof. lia.
Qed.

Lemma bptr_ok bptr : zlen bptr = nb + 1 -> (forall r, 0 <= r <= nb -> znth 0 bptr r = bp DD r) -> ptr_ok nb bptr.
Proof.
  intros L H. assert (0 < nb) by nia. split; [lia|]. split; [lia|]. split; [rewrite H by lia; reflexivity|]. intros i Hi. rewrite !H by lia. apply bp_mono. lia.
Qed.
End Out.

Lemma csr_in_shape {T} {S : Scalar T} (A : csr T) : csr_ok A -> in_shape (csr_n A) (csr_np A) (csr_entries A).
Proof.
  intros (Hp & _ & Hnn & Hi & Hv & Hx) e He. apply in_flat_map in He. destruct He as (r & Hr & He). apply In_zrange in Hr.
  apply in_map_iff in He. destruct He as (k & <- & Hk). apply In_zrange in Hk. unfold erow, ecol; cbn. split; [lia|]. apply Hx. rewrite <- Hnn.
  eapply ptr_ok_bounds; eauto.
Qed.
Lemma same_in_shape {T} {S : Scalar T} n np (E E' : list (entry T)) : same_entries E E' -> in_shape n np E' -> in_shape n np (nz E).
Proof.
  intros HS HI e He. apply HI. assert (In e (nz E')) by (eapply Permutation_in; eauto). apply filter_In in H. apply H.
Qed.

Section Final.
Context {T : Type} {S : Scalar T}.

Lemma csr2bsr_wp (HZ : eqb_zero S) jb jw jw2 jw3 ji (jv : Z -> T) bnr bnc (A : csr T) :
  csr_ok A -> 0 < csr_n A -> csr_np A = csr_n A -> 0 < bnr -> 0 < bnc -> no_dup_pos (csr_entries A) ->
  wp (convert_csr2bsr jb jw jw2 jw3 ji jv bnr bnc A) (fun B => bsr_ok B /\ bsr_n B = csr_n A /\ bsr_np B = csr_np A /\
     bsr_bnr B = bnr /\ bsr_bnc B = bnc /\ same_entries (bsr_entries B) (csr_entries A)).
Proof.
  intros HA Hn Hnp Hb Hc HD. pose proof HA as (Hp & _ & Hnn & Hi & Hv & Hx).
  destruct (nblocks_spec (csr_n A) bnr Hn Hb) as [Hnb Hnb0]. destruct (nblocks_spec (csr_n A) bnc Hn Hc) as [Hnc Hnc0].
  set (n := csr_n A) in *. set (nb := nblocks n bnr) in *. set (nc := nblocks n bnc) in *.
  assert (Hcb : forall k, 0 <= k < znth 0 (csr_ptr A) n -> 0 <= znth 0 (csr_index A) k /\ znth 0 (csr_index A) k / bnc < nc).
  { intros k Hk. rewrite Hnn in Hk. specialize (Hx k Hk). split; [lia|]. apply nblocks_bound; lia. }
  unfold convert_csr2bsr. cbv zeta. fold n. fold nb. fold nc.
  set (DD := Dof (csr_ptr A) (csr_index A) (gof n bnr) (cbof bnc)).
  set (inner := flat_map (fun j => map (fun i => (i, j)) (zrange 0 bnr)) (zrange 0 bnc)).
  assert (HiN : NoDup inner).
  { unfold inner. apply (NoDup_flat_map_key _ snd (fun j => j)); [rewrite map_id; apply NoDup_zrange| |].
    - intros x Hx'. apply FinFun.Injective_map_NoDup; [intros u v E; inversion E; auto|apply NoDup_zrange].
    - intros x y Hx' Hy. apply in_map_iff in Hy. destruct Hy as (i & <- & _). auto. }
  assert (HiI : forall q, In q inner <-> 0 <= fst q < bnr /\ 0 <= snd q < bnc).
  { intros [q1 q2]. unfold inner. rewrite in_flat_map. cbn. split.
    - intros (j & Hj & H). apply In_zrange in Hj. apply in_map_iff in H. destruct H as (i & E & H). apply In_zrange in H. inversion E; subst. lia.
    - intros [H1 H2]. exists q2. split; [apply In_zrange; lia|]. apply in_map_iff. exists q1. split; auto. apply In_zrange; lia. }
  wbind. apply (block_count_wp n bnr bnc nb nc _ _ (csr_value A)); auto; try lia; [apply zlen_alloc; lia|]. intros bptr L1 H1.
  wbind. apply (prefix_sum_wp n bnr bnc nb (csr_ptr A) (csr_index A)); auto; try lia. clear bptr L1 H1. intros bptr L1 H1. fold DD in H1.
  wrd 0; [lia|]. rewrite H1 by lia. assert (0 <= bp DD nb) by apply zlen_nonneg.
  pose proof (In_PP n bnr bnc nb (csr_ptr A) (csr_index A) Hb Hc inner HiI) as HPP.
  wbind. apply (block_fill_wp n bnr bnc nb nc (csr_ptr A) (csr_index A) (csr_value A) Hp ltac:(lia) ltac:(lia) Hn Hb Hc Hnb ltac:(lia) Hcb
     (fun j ii => j * bnr + ii)) with (P := PP n bnr bnc nb (csr_ptr A) (csr_index A) inner); auto.
  - intros. nia.
  - intros j ii j' ii' ? ? ? ? E. destruct (zrange_div bnr j ii ltac:(lia) ltac:(lia)), (zrange_div bnr j' ii' ltac:(lia) ltac:(lia)). rewrite E in *. lia.
  - apply zlen_alloc; auto.
  - fold DD. rewrite zlen_alloc by nia. lia.
  - intros bindex value L2 L3 HL HV. fold DD in L2, L3, HL, HV. apply wp_ok.
    assert (EE : bsr_entries (mkBsr n (csr_np A) bnr bnc nb (bp DD nb) bptr bindex value) =
                 map (fun p => (fst p, snd p, lastval (csr_entries A) p) : entry T) (PP n bnr bnc nb (csr_ptr A) (csr_index A) inner)).
    { change (csr_entries A) with (lents (csr_ptr A) (csr_index A) (csr_value A) 0 n).
      rewrite <- (blocks_entries n bnr bnc nb (csr_ptr A) (csr_index A) (csr_value A)) with (lc := fun j ii => j * bnr + ii) (bptr := bptr) (bindex := bindex) (value := value); auto; try lia.
      unfold bsr_entries. cbn [bsr_nr bsr_bptr bsr_bnc bsr_bnr bsr_bindex bsr_value]. apply flat_map_ext_in. intros bi _. apply flat_map_ext_in. intros k _.
      unfold inner. rewrite map_flat_map. apply flat_map_ext_in. intros j _. rewrite map_map. cbn [fst snd]. apply map_ext. intros i. rewrite Z.add_assoc. auto. }
    assert (HS : same_entries (bsr_entries (mkBsr n (csr_np A) bnr bnc nb (bp DD nb) bptr bindex value)) (csr_entries A)).
    { rewrite EE. apply same_of_positions; auto; [apply NoDup_PP; auto|].
      intros e He. apply (lents_P n bnr bnc nb (csr_ptr A) (csr_index A) (csr_value A)) with (P := PP n bnr bnc nb (csr_ptr A) (csr_index A) inner); auto. }
    split; [|auto 10]. unfold bsr_ok. cbn [bsr_n bsr_np bsr_bnr bsr_bnc bsr_nr bsr_bnnz bsr_bptr bsr_bindex bsr_value].
    split; [auto|]. split; [auto|]. split; [auto|]. split; [auto|]. split; [auto|]. split; [apply (bptr_ok n bnr bnc nb (csr_ptr A) (csr_index A)); auto|].
    split; [apply H1; lia|]. split; [lia|]. split; [lia|]. split.
    + intros k Hk. destruct (bindex_spec n bnr bnc nb (csr_ptr A) (csr_index A) Hp Hn Hb bptr bindex k H1 HL Hk) as (t & Ht & ->).
      rewrite Hnn in Ht. specialize (Hx t Ht). split; [apply Z.div_pos; lia|]. pose proof (Z.mul_div_le (znth 0 (csr_index A) t) bnc Hc). lia.
    + eapply same_in_shape; eauto. apply csr_in_shape; auto.
Qed.

(** exchanging rows and columns *)
Definition sw (e : entry T) : entry T := (ecol e, erow e, eval e).
Lemma nz_sw (E : list (entry T)) : nz (map sw E) = map sw (nz E).
Proof. unfold nz. rewrite filter_map. f_equal. Qed.
Lemma same_sw (E F : list (entry T)) : same_entries E F -> same_entries (map sw E) (map sw F).
Proof. unfold same_entries. intros H. rewrite !nz_sw. apply Permutation_map. auto. Qed.
Lemma no_dup_sw (E : list (entry T)) : no_dup_pos (map sw E) -> no_dup_pos E.
Proof.
  unfold no_dup_pos. rewrite map_map. intros H. apply (NoDup_map_inv (fun p : Z * Z => (snd p, fst p))). rewrite map_map. exact H.
Qed.
Lemma csc_in_shape (A : csc T) : csc_ok A -> in_shape (csc_n A) (csc_np A) (csc_entries A).
Proof.
  intros (Hp & _ & Hnn & Hi & Hv & Hx) e He. apply in_flat_map in He. destruct He as (r & Hr & He). apply In_zrange in Hr.
  apply in_map_iff in He. destruct He as (k & <- & Hk). apply In_zrange in Hk. unfold erow, ecol; cbn. split; [|lia]. apply Hx. rewrite <- Hnn.
  eapply ptr_ok_bounds; eauto.
Qed.

(** square blocks only: see the note at convert_csc2bsc *)
Lemma csc2bsc_wp (HZ : eqb_zero S) jb jw jw2 jw3 ji (jv : Z -> T) b (A : csc T) :
  csc_ok A -> 0 < csc_n A -> csc_np A = csc_n A -> 0 < b -> no_dup_pos (csc_entries A) ->
  wp (convert_csc2bsc jb jw jw2 jw3 ji jv b b A) (fun B => bsc_ok B /\ bsc_n B = csc_n A /\ bsc_np B = csc_np A /\
     bsc_bnr B = b /\ bsc_bnc B = b /\ same_entries (bsc_entries B) (csc_entries A)).
Proof.
  intros HA Hn Hnp Hb HD. pose proof HA as (Hp & _ & Hnn & Hi & Hv & Hx). rewrite Hnp in *.
  destruct (nblocks_spec (csc_n A) b Hn Hb) as [Hnb Hnb0].
  set (n := csc_n A) in *. set (nb := nblocks n b) in *.
  assert (Hcb : forall k, 0 <= k < znth 0 (csc_ptr A) n -> 0 <= znth 0 (csc_index A) k /\ znth 0 (csc_index A) k / b < nb).
  { intros k Hk. rewrite Hnn in Hk. specialize (Hx k Hk). split; [lia|]. apply nblocks_bound; lia. }
  unfold convert_csc2bsc. cbv zeta. fold n. rewrite Hnp. fold nb.
  set (DD := Dof (csc_ptr A) (csc_index A) (gof n b) (cbof b)).
  set (inner := flat_map (fun j => map (fun i => (j, i)) (zrange 0 b)) (zrange 0 b)).
  assert (HiN : NoDup inner).
  { unfold inner. apply (NoDup_flat_map_key _ fst (fun j => j)); [rewrite map_id; apply NoDup_zrange| |].
    - intros x Hx'. apply FinFun.Injective_map_NoDup; [intros u v E; inversion E; auto|apply NoDup_zrange].
    - intros x y Hx' Hy. apply in_map_iff in Hy. destruct Hy as (i & <- & _). auto. }
  assert (HiI : forall q, In q inner <-> 0 <= fst q < b /\ 0 <= snd q < b).
  { intros [q1 q2]. unfold inner. rewrite in_flat_map. cbn. split.
    - intros (j & Hj & H). apply In_zrange in Hj. apply in_map_iff in H. destruct H as (i & E & H). apply In_zrange in H. inversion E; subst. lia.
    - intros [H1 H2]. exists q1. split; [apply In_zrange; lia|]. apply in_map_iff. exists q2. split; auto. apply In_zrange; lia. }
  set (E := lents (csc_ptr A) (csc_index A) (csc_value A) 0 n).
  assert (EE0 : csc_entries A = map sw E).
  { unfold csc_entries, E, lents. rewrite Hnp. rewrite map_flat_map. apply flat_map_ext_in. intros r _. rewrite map_map. reflexivity. }
  wbind. apply (block_count_wp n b b nb nb _ _ (csc_value A)); auto; try lia; [apply zlen_alloc; lia|]. intros bptr L1 H1.
  wbind. apply (prefix_sum_wp n b b nb (csc_ptr A) (csc_index A)); auto; try lia. clear bptr L1 H1. intros bptr L1 H1. fold DD in H1.
  wrd 0; [lia|]. rewrite H1 by lia. assert (0 <= bp DD nb) by apply zlen_nonneg.
  pose proof (In_PP n b b nb (csc_ptr A) (csc_index A) Hb Hb inner HiI) as HPP.
  wbind. apply (block_fill_wp n b b nb nb (csc_ptr A) (csc_index A) (csc_value A) Hp ltac:(lia) ltac:(lia) Hn Hb Hb Hnb ltac:(lia) Hcb
     (fun j ii => j + ii * b)) with (P := PP n b b nb (csc_ptr A) (csc_index A) inner); auto.
  - intros. nia.
  - intros j ii j' ii' ? ? ? ? E'. destruct (zrange_div b ii j ltac:(lia) ltac:(lia)), (zrange_div b ii' j' ltac:(lia) ltac:(lia)).
    replace (ii * b + j) with (ii' * b + j') in * by lia. lia.
  - apply zlen_alloc; auto.
  - fold DD. rewrite zlen_alloc by nia. lia.
  - intros bindex value L2 L3 HL HV. fold DD in L2, L3, HL, HV. apply wp_ok.
    assert (EE : bsc_entries (mkBsc n n b b nb (bp DD nb) bptr bindex value) =
                 map sw (map (fun p => (fst p, snd p, lastval E p) : entry T) (PP n b b nb (csc_ptr A) (csc_index A) inner))).
    { unfold E. rewrite <- (blocks_entries n b b nb (csc_ptr A) (csc_index A) (csc_value A)) with (lc := fun j ii => j + ii * b) (bptr := bptr) (bindex := bindex) (value := value); auto; try lia.
      unfold bsc_entries. cbn [bsc_nc bsc_bptr bsc_bnc bsc_bnr bsc_bindex bsc_value]. rewrite map_flat_map. apply flat_map_ext_in. intros bi _.
      rewrite map_flat_map. apply flat_map_ext_in. intros k _. rewrite map_map.
      unfold inner. rewrite map_flat_map. apply flat_map_ext_in. intros j _. rewrite map_map. cbn [fst snd]. apply map_ext. intros i.
      unfold sw, erow, ecol, eval; cbn [fst snd]. f_equal. f_equal. lia. }
    assert (HS : same_entries (bsc_entries (mkBsc n n b b nb (bp DD nb) bptr bindex value)) (csc_entries A)).
    { rewrite EE, EE0. apply same_sw. apply same_of_positions; auto; [apply NoDup_PP; auto|apply no_dup_sw; rewrite <- EE0; auto|].
      intros e He. apply (lents_P n b b nb (csc_ptr A) (csc_index A) (csc_value A)) with (P := PP n b b nb (csc_ptr A) (csc_index A) inner); auto. }
    split; [|auto 10]. unfold bsc_ok. cbn [bsc_n bsc_np bsc_bnr bsc_bnc bsc_nc bsc_bnnz bsc_bptr bsc_bindex bsc_value].
    split; [auto|]. split; [auto|]. split; [auto|]. split; [auto|]. split; [auto|]. split; [apply (bptr_ok n b b nb (csc_ptr A) (csc_index A)); auto|].
    split; [apply H1; lia|]. split; [lia|]. split; [lia|]. split.
    + intros k Hk. destruct (bindex_spec n b b nb (csc_ptr A) (csc_index A) Hp Hn Hb bptr bindex k H1 HL Hk) as (t & Ht & ->).
      rewrite Hnn in Ht. specialize (Hx t Ht). split; [apply Z.div_pos; lia|]. pose proof (Z.mul_div_le (znth 0 (csc_index A) t) b Hb). lia.
    + eapply same_in_shape; eauto. pose proof (csc_in_shape A HA) as HI. fold n in HI. rewrite Hnp in HI. auto.
Qed.
End Final.
