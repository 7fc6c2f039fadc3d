(** Closed forms ("exists a result") of the conversion lemmas *)
Require Import ZArith List Bool Lia Permutation.
From Verif Require Import Base Scalar Spec Items Sort SortProof SortJadProof Csc CscProof Coo CooProof.
Import ListNotations.
Open Scope Z_scope.

Section F.
Context {T : Type} {S : Scalar T}.

Lemma csr2csc_final jp ji jw jv (A : csr T) : csr_ok A ->
  exists B, convert_csr2csc jp ji jw jv A = Ok B /\ csc_ok B /\
    csc_n B = csr_n A /\ csc_np B = csr_np A /\ csc_nnz B = csr_nnz A /\
    Permutation (csc_entries B) (csr_entries A) /\
    csc_entries B = flat_map (fun c => filter (fun e => ecol e =? c) (csr_entries A)) (zrange 0 (csr_np A)).
Proof.
  intros Hok. apply wp_inv. apply convert_csr2csc_wp; auto.
  intros B H1 H2 H3 H4 H5. do 4 (split; [assumption|]). split; [|exact H5].
  rewrite H5. apply (buckets_perm ecol). intros e He. apply (csr_in_shape A Hok). auto.
Qed.

Lemma csc2csr_final jp ji jw jv (A : csc T) : csc_ok A ->
  exists B, convert_csc2csr jp ji jw jv A = Ok B /\ csr_ok B /\
    csr_n B = csc_n A /\ csr_np B = csc_np A /\ csr_nnz B = csc_nnz A /\
    Permutation (csr_entries B) (csc_entries A) /\
    csr_entries B = flat_map (fun r => filter (fun e => erow e =? r) (csc_entries A)) (zrange 0 (csc_n A)).
Proof.
  intros Hok. apply wp_inv. apply convert_csc2csr_wp; auto.
  intros B H1 H2 H3 H4 H5. do 4 (split; [assumption|]). split; [|exact H5].
  rewrite H5. apply (buckets_perm erow). intros e He. apply (csc_in_shape A Hok). auto.
Qed.

Lemma csr2coo_final jr jc jv (A : csr T) : csr_ok A ->
  exists B, convert_csr2coo jr jc jv A = Ok B /\ coo_ok B /\
    coo_n B = csr_n A /\ coo_np B = csr_np A /\ coo_nnz B = csr_nnz A /\
    coo_entries B = csr_entries A.
Proof.
  intros Hok. apply wp_inv. apply convert_csr2coo_wp; auto 10.
Qed.

Lemma coo2csr_final jp ji jv (A : coo T) : coo_ok A -> coo_exact A ->
  exists B A', convert_coo2csr jp ji jv A = Ok (B, A') /\ csr_ok B /\
    csr_n B = coo_n A /\ csr_np B = coo_np A /\ csr_nnz B = coo_nnz A /\
    Permutation (csr_entries B) (coo_entries A) /\
    Permutation (coo_entries A') (coo_entries A).
Proof.
  intros Hok Hex.
  destruct (wp_inv (convert_coo2csr jp ji jv A) (fun r => csr_ok (fst r) /\
    csr_n (fst r) = coo_n A /\ csr_np (fst r) = coo_np A /\ csr_nnz (fst r) = coo_nnz A /\
    Permutation (csr_entries (fst r)) (coo_entries A) /\
    Permutation (coo_entries (snd r)) (coo_entries A))) as ([B A'] & E & H).
  - apply convert_coo2csr_wp; auto. intros B A' H1 H2 H3 H4 H5 H6 H7 _ _ _. cbn [fst snd].
    repeat (split; [assumption|]). split; [rewrite H6; assumption|assumption].
  - exists B, A'. split; auto.
Qed.

(** the sorts *)
Lemma lis_sort_i_final is ie k : 0 <= is -> ie < zlen k ->
  exists k', lis_sort_i is ie k = Ok k' /\ sorts Z.ltb 0 is ie k k' (fun _ => tt) (fun _ => tt).
Proof. intros. apply wp_inv. apply lis_sort_i_wp; auto. Qed.

Lemma pair_inv {A B} (m : res (A * B)) (Q : A -> B -> Prop) :
  wp m (fun r => Q (fst r) (snd r)) -> exists a b, m = Ok (a, b) /\ Q a b.
Proof. intros H. apply wp_inv in H. destruct H as ([a b] & E & H). exists a, b. auto. Qed.

Lemma lis_sort_id_final {D} (d : D) is ie k p : 0 <= is -> ie < zlen k -> zlen p = zlen k ->
  exists k' p', lis_sort_id is ie k p = Ok (k', p') /\ sorts Z.ltb 0 is ie k k' (znth d p) (znth d p').
Proof.
  intros. apply pair_inv. apply (quick1_wp d Z.ltb 0); auto using zltb_irrefl, zltb_asym. intros; eapply zltb_le_trans; eauto.
Qed.
Lemma lis_sort_ii_final is ie k p : 0 <= is -> ie < zlen k -> zlen p = zlen k ->
  exists k' p', lis_sort_ii is ie k p = Ok (k', p') /\ sorts Z.ltb 0 is ie k k' (znth 0 p) (znth 0 p').
Proof.
  intros. apply pair_inv. apply (quick1_wp 0 Z.ltb 0); auto using zltb_irrefl, zltb_asym. intros; eapply zltb_le_trans; eauto.
Qed.
Lemma lis_sortr_ii_final is ie k p : 0 <= is -> ie < zlen k -> zlen p = zlen k ->
  exists k' p', lis_sortr_ii is ie k p = Ok (k', p') /\ sorts Z.gtb 0 is ie k k' (znth 0 p) (znth 0 p').
Proof.
  intros. apply pair_inv. apply (quick1_wp 0 Z.gtb 0); auto using zgtb_irrefl, zgtb_asym. intros; eapply zgtb_le_trans; eauto.
Qed.

Definition strict_weak_order {K} (lt : K -> K -> bool) : Prop :=
  (forall x, lt x x = false) /\ (forall x y, lt x y = true -> lt y x = false) /\
  (forall x y z, lt y x = false -> lt z y = false -> lt z x = false).

Lemma lis_sort_d_final {K} (lt : K -> K -> bool) dk is ie k : strict_weak_order lt -> 0 <= is -> ie < zlen k ->
  exists k', lis_sort_d lt is ie k = Ok k' /\ sorts lt dk is ie k k' (fun _ => tt) (fun _ => tt).
Proof.
  intros (H1 & H2 & H3) H4 H5. apply wp_inv. unfold lis_sort_d. apply wp_bind.
  apply (quick0_wp lt dk); auto.
Qed.
Lemma lis_sort_di_final {K} (lt : K -> K -> bool) dk is ie k p : strict_weak_order lt -> 0 <= is -> ie < zlen k -> zlen p = zlen k ->
  exists k' p', lis_sort_di lt is ie k p = Ok (k', p') /\ sorts lt dk is ie k k' (znth 0 p) (znth 0 p').
Proof. intros (H1 & H2 & H3) H4 H5 H6. apply pair_inv. apply (quick1_wp 0 lt dk); auto. Qed.
Lemma lis_sort_dd_final {K D} (d : D) (lt : K -> K -> bool) dk is ie k p : strict_weak_order lt -> 0 <= is -> ie < zlen k -> zlen p = zlen k ->
  exists k' p', lis_sort_dd lt is ie k p = Ok (k', p') /\ sorts lt dk is ie k k' (znth d p) (znth d p').
Proof. intros (H1 & H2 & H3) H4 H5 H6. apply pair_inv. apply (quick1_wp d lt dk); auto. Qed.

Lemma lis_sort_iid_final {D} (d : D) is ie i1 i2 d1 : 0 <= is -> ie < zlen i1 -> zlen i2 = zlen i1 -> zlen d1 = zlen i1 ->
  exists i1' i2' d1', lis_sort_iid is ie i1 i2 d1 = Ok (i1', (i2', d1')) /\
    sorts Z.ltb 0 is ie i1 i1' (fun i => (znth 0 i2 i, znth d d1 i)) (fun i => (znth 0 i2' i, znth d d1' i)).
Proof.
  intros. destruct (wp_inv (lis_sort_iid is ie i1 i2 d1) (fun r => sorts Z.ltb 0 is ie i1 (fst r)
     (fun i => (znth 0 i2 i, znth d d1 i)) (fun i => (znth 0 (fst (snd r)) i, znth d (snd (snd r)) i)))) as ([a [b c]] & E & HH).
  - apply (lis_sort_iid_wp d); auto.
  - exists a, b, c. auto.
Qed.
Lemma lis_sort_iiid_final {D} (d : D) is ie i1 i2 i3 d1 : 0 <= is -> ie < zlen i1 -> zlen i2 = zlen i1 -> zlen i3 = zlen i1 -> zlen d1 = zlen i1 ->
  exists i1' i2' i3' d1', lis_sort_iiid is ie i1 i2 i3 d1 = Ok (i1', (i2', i3', d1')) /\
    sorts Z.ltb 0 is ie i1 i1' (fun i => (znth 0 i2 i, znth 0 i3 i, znth d d1 i)) (fun i => (znth 0 i2' i, znth 0 i3' i, znth d d1' i)).
Proof.
  intros. destruct (wp_inv (lis_sort_iiid is ie i1 i2 i3 d1) (fun r => sorts Z.ltb 0 is ie i1 (fst r)
     (fun i => (znth 0 i2 i, znth 0 i3 i, znth d d1 i))
     (fun i => (znth 0 (fst (fst (snd r))) i, znth 0 (snd (fst (snd r))) i, znth d (snd (snd r)) i)))) as ([a [[b b'] c]] & E & HH).
  - apply (lis_sort_iiid_wp d); auto.
  - exists a, b, b', c. auto.
Qed.
Lemma lis_sort_id_block_final {D} (d : D) js1 bs is ie k d1 : 0 <= bs <= 9 -> 0 <= is -> ie < zlen k -> zlen d1 = bs * zlen k ->
  exists k' d1', lis_sort_id_block js1 is ie k d1 bs = Ok (k', d1') /\ zlen d1' = bs * zlen k /\
     sorts Z.ltb 0 is ie k k' (blk d bs d1) (blk d bs d1').
Proof. intros. apply pair_inv. apply (lis_sort_id_block_wp d); auto. Qed.

Lemma lis_sort_jad_final j1 j2 is ie maxnzr i1 i2 :
  0 <= is <= ie -> ie <= zlen i1 -> ie <= zlen i2 -> 0 <= maxnzr ->
  (forall k, is <= k < ie -> 0 <= znth 0 i1 k <= maxnzr) ->
  exists i1' i2', lis_sort_jad j1 j2 is ie maxnzr i1 i2 = Ok (i1', i2') /\ jad_sorted is ie i1 i1' i2 i2'.
Proof. intros. apply pair_inv. apply lis_sort_jad_wp; auto. Qed.
End F.
