(** Proofs about Csc.v *)
Require Import ZArith List Bool Lia Permutation.
From Verif Require Import Base Scalar Spec Items Csc.
Import ListNotations.
Open Scope Z_scope.

(** ** The three phases of a counting sort, in the form the library writes them *)
Section Phases.
Context {E : Type} (key : E -> Z).

(** count phase over a compressed input: arr[key]++ *)
Lemma count_phase (f : Z -> Z -> E) n ptr m idx arr (Q : list Z -> Prop) :
  ptr_ok n ptr ->
  (forall i k, 0 <= i < n -> 0 <= k < znth 0 ptr n -> 0 <= k < zlen idx /\ znth 0 idx k = key (f i k) /\ 0 <= key (f i k) < m) ->
  m <= zlen arr ->
  (forall r, 0 <= r < m -> znth 0 arr r = 0) ->
  (forall arr', zlen arr' = zlen arr -> count_rep key m 0 (ptr_items n ptr f) arr' ->
     (forall r, m <= r -> znth 0 arr' r = znth 0 arr r) -> Q arr') ->
  wp (for_ptr n ptr (fun i j iw => jj <- rd idx j ;; incr iw jj) arr) Q.
Proof.
  intros Hok Hkey Hm Hz HQ.
  apply (for_ptr_items (fun d a => zlen a = zlen arr /\ count_rep key m 0 d a /\ (forall r, m <= r -> znth 0 a r = znth 0 arr r))
           (ptr_items n ptr f) f n ptr _ []); auto.
  - apply prefix_refl.
  - split; [auto|]. split; [|auto]. intros r Hr. rewrite Z.add_0_r. rewrite Hz by auto. reflexivity.
  - intros i k a d Hi Hk Hk' Hp (Hl & Hc & Ho). destruct (Hkey i k Hi Hk') as (K1 & K2 & K3).
    wrd 0; [auto|]. rewrite K2. unfold incr. wrd 0; [lia|]. wwr; [lia|]. rewrite zlen_zupd. split; [auto|].
    split.
    + pose proof (count_step key m 0 d a (f i k) Hc K3) as Hs. rewrite Z.add_0_r in Hs. apply Hs; lia.
    + intros r Hr. rewrite znth_zupd by lia. destruct (Z.eqb_spec r (key (f i k))); [lia|auto].
  - intros s (Hl & Hc & Ho). apply HQ; auto.
Qed.

(** prefix-sum phase: ptr[i+1] = ptr[i] + iw[i]; iw[i] = ptr[i] *)
Lemma prefix_phase (total : list E) m ptr iw (Q : list Z * list Z -> Prop) :
  0 <= m -> m + 1 <= zlen ptr -> m <= zlen iw -> znth 0 ptr 0 = 0 ->
  count_rep key m 0 total iw ->
  (forall ptr' iw', zlen ptr' = zlen ptr -> zlen iw' = zlen iw ->
     (forall r, 0 <= r <= m -> znth 0 ptr' r = start key total r) ->
     (forall r, 0 <= r < m -> znth 0 iw' r = start key total r) -> Q (ptr', iw')) ->
  wp (for_ 0 m (fun i s =>
          let '(ptr, iw) := s in
          p <- rd ptr i ;; c <- rd iw i ;;
          ptr <- wr ptr (i + 1) (p + c) ;;
          p <- rd ptr i ;;
          iw <- wr iw i p ;;
          Ok (ptr, iw)) (ptr, iw)) Q.
Proof.
  intros Hm Hp Hw H0 Hc HQ.
  apply (for_wp' (fun i s => zlen (fst s) = zlen ptr /\ zlen (snd s) = zlen iw /\
      (forall r, 0 <= r <= i -> znth 0 (fst s) r = start key total r) /\
      (forall r, 0 <= r < i -> znth 0 (snd s) r = start key total r) /\
      (forall r, i <= r < m -> znth 0 (snd s) r = cntk key r total))).
  - auto.
  - cbn [fst snd]. repeat split; auto; intros r Hr; try lia.
    + replace r with 0 by lia. rewrite H0. symmetry; apply start_0.
    + rewrite <- (Hc r Hr), Z.add_0_r. reflexivity.
  - intros i [p w] Hi (L1 & L2 & P1 & P2 & P3). cbn [fst snd] in *.
    wrd 0; [lia|]. wrd 0; [lia|]. wwr; [lia|]. wrd 0; [rewrite zlen_zupd; lia|]. wwr; [lia|].
    apply wp_ok. cbn [fst snd]. rewrite !zlen_zupd. repeat split; auto; intros r Hr.
    + rewrite znth_zupd by lia. destruct (Z.eqb_spec r (i + 1)).
      * subst r. rewrite start_succ by lia. rewrite P1, P3 by lia. reflexivity.
      * apply P1; lia.
    + rewrite znth_zupd by lia. destruct (Z.eqb_spec r i).
      * subst r. rewrite znth_zupd_neq by lia. apply P1; lia.
      * apply P2; lia.
    + rewrite znth_zupd by lia. destruct (Z.eqb_spec r i); [lia|]. apply P3; lia.
  - intros [p w] (L1 & L2 & P1 & P2 & P3). cbn [fst snd] in *. apply HQ; auto.
Qed.

Context (pay : E -> Z) {T : Type} (val : E -> T) (t0 : T).

(** fill phase over a compressed input *)
Lemma fill_phase (f : Z -> Z -> E) n ptr m idx vin iw index value (Q : list Z * list Z * list T -> Prop) :
  ptr_ok n ptr ->
  (forall i k, 0 <= i < n -> 0 <= k < znth 0 ptr n ->
     0 <= k < zlen idx /\ znth 0 idx k = key (f i k) /\ 0 <= key (f i k) < m /\
     k < zlen vin /\ znth t0 vin k = val (f i k) /\ pay (f i k) = i) ->
  m <= zlen iw -> znth 0 ptr n <= zlen index -> znth 0 ptr n <= zlen value ->
  (forall r, 0 <= r < m -> znth 0 iw r = start key (ptr_items n ptr f) r) ->
  (forall iw' index' value', zlen index' = zlen index -> zlen value' = zlen value ->
     fill_rep key pay val t0 m (ptr_items n ptr f) (ptr_items n ptr f) iw' index' value' ->
     Q (iw', index', value')) ->
  wp (for_ptr n ptr (fun i j s =>
          let '(iw, index, value) := s in
          k <- rd idx j ;;
          l <- rd iw k ;;
          v <- rd vin j ;;
          value <- wr value l v ;;
          index <- wr index l i ;;
          iw <- incr iw k ;;
          Ok (iw, index, value)) (iw, index, value)) Q.
Proof.
  intros Hok Hkey Hm Hix Hvl Hst HQ.
  set (total := ptr_items n ptr f) in *.
  assert (Htot : forall e, In e total -> 0 <= key e < m).
  { intros e He. apply In_ptr_items in He; auto. destruct He as (i & k & Hi & Hk & Hk' & ->).
    apply Hkey; auto. }
  assert (Hlen : zlen total = znth 0 ptr n) by (apply zlen_ptr_items; auto).
  apply (for_ptr_items (fun d s => zlen (fst (fst s)) = zlen iw /\ zlen (snd (fst s)) = zlen index /\ zlen (snd s) = zlen value /\
            fill_rep key pay val t0 m total d (fst (fst s)) (snd (fst s)) (snd s))
           total f n ptr _ []); auto.
  - apply prefix_refl.
  - cbn [fst snd]. split; [auto|]. split; [auto|]. split; [auto|]. apply fill_init; auto.
  - intros i k [[w ix] vl] d Hi Hk Hk' Hp (L1 & L2 & L3 & HR). cbn [fst snd] in *.
    destruct (Hkey i k Hi Hk') as (K1 & K2 & K3 & K4 & K5 & K6).
    pose proof (fill_step key pay val t0 m total d w ix vl (f i k) Htot Hp ltac:(lia) ltac:(lia) ltac:(lia) HR) as HS.
    cbv zeta in HS. destruct HS as [HS1 HS2].
    wrd 0; [auto|]. rewrite K2. wrd 0; [lia|]. wrd t0; [lia|]. rewrite K5.
    wwr; [lia|]. wwr; [lia|]. unfold incr. apply wp_bind. wrd 0; [lia|]. wwr; [lia|]. apply wp_ok.
    cbn [fst snd]. rewrite !zlen_zupd. rewrite K6 in HS2. split; [auto|]. split; [auto|]. split; [auto|]. exact HS2.
  - intros [[w ix] vl] (L1 & L2 & L3 & HR). cbn [fst snd] in *. apply HQ; auto.
Qed.

End Phases.

Section CscProof.
Context {T : Type} {S : Scalar T}.

Lemma csr_entries_items (A : csr T) :
  csr_entries A = ptr_items (csr_n A) (csr_ptr A) (fun i k => (i, znth 0 (csr_index A) k, znth s0 (csr_value A) k)).
Proof. reflexivity. Qed.

Lemma csc_entries_items (A : csc T) :
  csc_entries A = ptr_items (csc_np A) (csc_ptr A) (fun i k => (znth 0 (csc_index A) k, i, znth s0 (csc_value A) k)).
Proof. reflexivity. Qed.

Lemma csr_entries_len (A : csr T) : csr_ok A -> zlen (csr_entries A) = csr_nnz A.
Proof. intros (H1 & H2 & H3 & _). rewrite csr_entries_items, zlen_ptr_items by auto. auto. Qed.

Lemma csc_entries_len (A : csc T) : csc_ok A -> zlen (csc_entries A) = csc_nnz A.
Proof. intros (H1 & H2 & H3 & _). rewrite csc_entries_items, zlen_ptr_items by auto. auto. Qed.

Lemma csr_in_shape (A : csr T) : csr_ok A -> in_shape (csr_n A) (csr_np A) (csr_entries A).
Proof.
  intros (H1 & H2 & H3 & H4 & H5 & H6) e He. rewrite csr_entries_items in He.
  apply In_ptr_items in He; auto. destruct He as (i & k & Hi & Hk & Hk' & ->). unfold erow, ecol; cbn.
  split; [lia|]. apply H6. lia.
Qed.

Lemma csc_in_shape (A : csc T) : csc_ok A -> in_shape (csc_n A) (csc_np A) (csc_entries A).
Proof.
  intros (H1 & H2 & H3 & H4 & H5 & H6) e He. rewrite csc_entries_items in He.
  apply In_ptr_items in He; auto. destruct He as (i & k & Hi & Hk & Hk' & ->). unfold erow, ecol; cbn.
  split; [|lia]. apply H6. lia.
Qed.

(** a ptr array holding the bucket starts is well formed *)
Lemma ptr_ok_start {E} (key : E -> Z) total m ptr :
  0 <= m -> m + 1 <= zlen ptr ->
  (forall r, 0 <= r <= m -> znth 0 ptr r = start key total r) -> ptr_ok m ptr.
Proof.
  intros Hm Hl H. repeat split; auto.
  - rewrite H by lia. apply start_0.
  - intros i Hi. rewrite !H by lia. rewrite start_succ by lia. pose proof (cntk_nonneg key i total). lia.
Qed.

(** what the output of the three phases is: compressed rows *)
Lemma csr_of_fill n np nnz total ptr iw index value :
  0 <= n <= np -> in_shape n np total -> zlen total = nnz -> n + 1 <= zlen ptr ->
  zlen index = nnz -> zlen value = nnz ->
  (forall r, 0 <= r <= n -> znth 0 ptr r = start erow total r) ->
  fill_rep erow ecol eval s0 n total total iw index value ->
  let B := mkCsr n np nnz ptr index value in
  csr_ok B /\ csr_entries B = flat_map (fun r => bucket erow r total) (zrange 0 n).
Proof.
  intros Hn Hsh Hnnz Hpl Hil Hvl Hptr HF B.
  assert (Hk : forall e, In e total -> 0 <= erow e < n) by (intros; apply Hsh; auto).
  assert (Hpok : ptr_ok n ptr) by (eapply ptr_ok_start; eauto; lia).
  assert (Hent : csr_entries B = flat_map (fun r => bucket erow r total) (zrange 0 n)).
  { unfold csr_entries, B; cbn [csr_n csr_ptr csr_index csr_value].
    apply flat_map_ext_in. intros r Hr. apply In_zrange in Hr.
    rewrite !Hptr by lia.
    rewrite (fill_segment erow ecol eval s0 n total iw index value r (entry T) (fun c v => (r, c, v)) (fun e => e)); auto.
    - rewrite map_id. auto.
    - intros e He Hr'. destruct e as [[a b] c]. unfold erow in Hr'; cbn in Hr'. subst. reflexivity. }
  split; [|exact Hent].
  unfold csr_ok, B; cbn [csr_n csr_np csr_nnz csr_ptr csr_index csr_value].
  split; [auto|]. split; [lia|]. split. { rewrite Hptr by lia. rewrite (start_total erow n total Hk). auto. }
  split; [lia|]. split; [lia|].
  intros k Hk0.
  (* position k belongs to some row r *)
  assert (Hex : exists r, 0 <= r < n /\ start erow total r <= k < start erow total (r + 1)).
  { assert (Hsn : start erow total n = nnz) by (rewrite (start_total erow n total Hk); auto).
    assert (G : forall m : nat, Z.of_nat m <= n -> k < start erow total (Z.of_nat m) ->
       exists r, 0 <= r < n /\ start erow total r <= k < start erow total (r + 1)).
    { induction m; intros Hm Hlt. - rewrite start_0 in Hlt. lia.
      - destruct (Z.lt_ge_cases k (start erow total (Z.of_nat m))).
        + apply IHm; auto; lia.
        + exists (Z.of_nat m). replace (Z.of_nat m + 1) with (Z.of_nat (Datatypes.S m)) by lia. lia. }
    apply (G (Z.to_nat n)); rewrite ?Z2Nat.id; lia. }
  destruct Hex as (r & Hr & Hkr).
  rewrite start_succ in Hkr by lia.
  destruct (HF r Hr) as [_ H2].
  destruct (bucket erow r total) as [|e0 b] eqn:Eb.
  { unfold cntk in Hkr. rewrite Eb in Hkr. change (zlen []) with 0 in Hkr. lia. }
  set (t := k - start erow total r).
  assert (Ht : 0 <= t < cntk erow r total) by (unfold t; lia).
  set (e := znth e0 (bucket erow r total) t).
  assert (Hin : In e (bucket erow r total)) by (apply znth_In; auto).
  destruct (H2 t e Ht) as [Hi _].
  { rewrite <- Eb. unfold e. apply znth_indep. auto. }
  replace (start erow total r + t) with k in Hi by (unfold t; lia). rewrite Hi.
  apply filter_In in Hin. apply Hsh. apply Hin.
Qed.

(** swapping rows and columns *)
Definition tr (e : entry T) : entry T := (ecol e, erow e, eval e).
Lemma tr_tr e : tr (tr e) = e. Proof. destruct e as [[a b] c]; reflexivity. Qed.
Definition csc_flip (A : csc T) : csr T := mkCsr (csc_np A) (csc_np A) (csc_nnz A) (csc_ptr A) (csc_index A) (csc_value A).

Lemma bucket_map {E F} (g : E -> F) (key : F -> Z) r d :
  bucket key r (map g d) = map g (bucket (fun e => key (g e)) r d).
Proof. unfold bucket. apply filter_map. Qed.

Lemma csc_of_fill n np nnz total ptr iw index value :
  0 <= n <= np -> in_shape n np total -> zlen total = nnz -> np + 1 <= zlen ptr ->
  zlen index = nnz -> zlen value = nnz ->
  (forall r, 0 <= r <= np -> znth 0 ptr r = start ecol total r) ->
  fill_rep ecol erow eval s0 np total total iw index value ->
  let B := mkCsc n np nnz ptr index value in
  csc_ok B /\ csc_entries B = flat_map (fun r => bucket ecol r total) (zrange 0 np).
Proof.
  intros Hn Hsh Hnnz Hpl Hil Hvl Hptr HF B.
  assert (Hk : forall e, In e total -> 0 <= ecol e < np) by (intros; apply Hsh; auto).
  assert (Hpok : ptr_ok np ptr) by (eapply ptr_ok_start; eauto; lia).
  assert (Hent : csc_entries B = flat_map (fun r => bucket ecol r total) (zrange 0 np)).
  { unfold csc_entries, B; cbn [csc_np csc_ptr csc_index csc_value].
    apply flat_map_ext_in. intros r Hr. apply In_zrange in Hr.
    rewrite !Hptr by lia.
    rewrite (fill_segment ecol erow eval s0 np total iw index value r (entry T) (fun c v => (c, r, v)) (fun e => e)); auto.
    - rewrite map_id. auto.
    - intros e He Hr'. destruct e as [[a b] c]. unfold ecol in Hr'; cbn in Hr'. subst. reflexivity. }
  split; [|exact Hent].
  unfold csc_ok, B; cbn [csc_n csc_np csc_nnz csc_ptr csc_index csc_value].
  split; [auto|]. split; [lia|]. split. { rewrite Hptr by lia. rewrite (start_total ecol np total Hk). auto. }
  split; [lia|]. split; [lia|].
  intros k Hk0.
  assert (Hex : exists r, 0 <= r < np /\ start ecol total r <= k < start ecol total (r + 1)).
  { assert (Hsn : start ecol total np = nnz) by (rewrite (start_total ecol np total Hk); auto).
    assert (G : forall m : nat, Z.of_nat m <= np -> k < start ecol total (Z.of_nat m) ->
       exists r, 0 <= r < np /\ start ecol total r <= k < start ecol total (r + 1)).
    { induction m; intros Hm Hlt. - rewrite start_0 in Hlt. lia.
      - destruct (Z.lt_ge_cases k (start ecol total (Z.of_nat m))).
        + apply IHm; auto; lia.
        + exists (Z.of_nat m). replace (Z.of_nat m + 1) with (Z.of_nat (Datatypes.S m)) by lia. lia. }
    apply (G (Z.to_nat np)); rewrite ?Z2Nat.id; lia. }
  destruct Hex as (r & Hr & Hkr).
  rewrite start_succ in Hkr by lia.
  destruct (HF r Hr) as [_ H2].
  destruct (bucket ecol r total) as [|e0 b] eqn:Eb.
  { unfold cntk in Hkr. rewrite Eb in Hkr. change (zlen []) with 0 in Hkr. lia. }
  set (t := k - start ecol total r).
  assert (Ht : 0 <= t < cntk ecol r total) by (unfold t; lia).
  set (e := znth e0 (bucket ecol r total) t).
  assert (Hin : In e (bucket ecol r total)) by (apply znth_In; auto).
  destruct (H2 t e Ht) as [Hi _].
  { rewrite <- Eb. unfold e. apply znth_indep. auto. }
  replace (start ecol total r + t) with k in Hi by (unfold t; lia). rewrite Hi.
  apply filter_In in Hin. apply Hsh. apply Hin.
Qed.

Theorem convert_csr2csc_wp jp ji jw jv (A : csr T) (Q : csc T -> Prop) :
  csr_ok A ->
  (forall B, csc_ok B -> csc_n B = csr_n A -> csc_np B = csr_np A -> csc_nnz B = csr_nnz A ->
     csc_entries B = flat_map (fun c => bucket ecol c (csr_entries A)) (zrange 0 (csr_np A)) ->
     Q B) ->
  wp (convert_csr2csc jp ji jw jv A) Q.
Proof.
  intros Hok HQ. pose proof Hok as (Hp & Hnp & Hnnz & Hli & Hlv & Hix).
  assert (Hn0 : 0 <= csr_n A) by apply Hp.
  pose proof (zlen_nonneg (csr_entries A)) as Hnn. rewrite (csr_entries_len A Hok) in Hnn.
  pose proof (csr_in_shape A Hok) as Hsh.
  pose proof (csr_entries_len A Hok) as Hlen. rewrite csr_entries_items in *.
  unfold convert_csr2csc. cbv zeta.
  apply wp_bind, (for_set 0 (fun _ => 0)); [lia|rewrite zlen_alloc; lia|].
  intros iw1 Hl1 Hz1 _. rewrite zlen_alloc in Hl1 by lia.
  apply wp_bind.
  apply (count_phase ecol (fun i k => (i, znth 0 (csr_index A) k, znth s0 (csr_value A) k)) _ _ (csr_np A)); auto; try lia.
  { intros i k Hi Hk. rewrite Hnnz in Hk. unfold ecol; cbn. split; [lia|]. split; [auto|]. apply Hix; auto. }
  { intros r Hr. apply Hz1. lia. }
  intros iw2 Hl2 Hc2 _.
  apply wp_bind, wp_wr; [rewrite zlen_alloc; lia|].
  apply wp_bind, (prefix_phase ecol (ptr_items (csr_n A) (csr_ptr A) (fun i k => (i, znth 0 (csr_index A) k, znth s0 (csr_value A) k))));
    auto; rewrite ?zlen_zupd, ?zlen_alloc by lia; try lia.
  { apply znth_zupd_eq. rewrite zlen_alloc; lia. }
  intros ptr3 iw3 Hlp3 Hl3 Hp3 Hw3.
  apply wp_bind.
  apply (fill_phase ecol erow eval s0 (fun i k => (i, znth 0 (csr_index A) k, znth s0 (csr_value A) k)) _ _ (csr_np A));
    auto; rewrite ?zlen_alloc by lia; try lia.
  { intros i k Hi Hk. rewrite Hnnz in Hk. unfold ecol, eval, erow; cbn. repeat split; try lia; apply Hix; auto. }
  intros iw4 ix4 vl4 Hl4 Hv4 HF.
  apply wp_ok.
  eapply csc_of_fill in HF; eauto; rewrite ?Hlp3, ?zlen_alloc; try lia.
  cbv zeta in HF. destruct HF as [HF1 HF2].
  apply HQ; auto.
Qed.

Theorem convert_csc2csr_wp jp ji jw jv (A : csc T) (Q : csr T -> Prop) :
  csc_ok A ->
  (forall B, csr_ok B -> csr_n B = csc_n A -> csr_np B = csc_np A -> csr_nnz B = csc_nnz A ->
     csr_entries B = flat_map (fun c => bucket erow c (csc_entries A)) (zrange 0 (csc_n A)) ->
     Q B) ->
  wp (convert_csc2csr jp ji jw jv A) Q.
Proof.
  intros Hok HQ. pose proof Hok as (Hp & Hnp & Hnnz & Hli & Hlv & Hix).
  pose proof (zlen_nonneg (csc_entries A)) as Hnn. rewrite (csc_entries_len A Hok) in Hnn.
  pose proof (csc_in_shape A Hok) as Hsh.
  pose proof (csc_entries_len A Hok) as Hlen. rewrite csc_entries_items in *.
  unfold convert_csc2csr. cbv zeta.
  apply wp_bind, (for_set 0 (fun _ => 0)); [lia|rewrite zlen_alloc; lia|].
  intros iw1 Hl1 Hz1 _. rewrite zlen_alloc in Hl1 by lia.
  apply wp_bind.
  apply (count_phase erow (fun i k => (znth 0 (csc_index A) k, i, znth s0 (csc_value A) k)) _ _ (csc_n A)); auto; try lia.
  { intros i k Hi Hk. rewrite Hnnz in Hk. unfold erow; cbn. split; [lia|]. split; [auto|]. apply Hix; auto. }
  intros iw2 Hl2 Hc2 _.
  apply wp_bind, wp_wr; [rewrite zlen_alloc; lia|].
  apply wp_bind, (prefix_phase erow (ptr_items (csc_np A) (csc_ptr A) (fun i k => (znth 0 (csc_index A) k, i, znth s0 (csc_value A) k))));
    auto; rewrite ?zlen_zupd, ?zlen_alloc by lia; try lia.
  { apply znth_zupd_eq. rewrite zlen_alloc; lia. }
  intros ptr3 iw3 Hlp3 Hl3 Hp3 Hw3.
  apply wp_bind.
  apply (fill_phase erow ecol eval s0 (fun i k => (znth 0 (csc_index A) k, i, znth s0 (csc_value A) k)) _ _ (csc_n A));
    auto; rewrite ?zlen_alloc by lia; try lia.
  { intros i k Hi Hk. rewrite Hnnz in Hk. unfold ecol, eval, erow; cbn. repeat split; try lia; apply Hix; auto. }
  intros iw4 ix4 vl4 Hl4 Hv4 HF.
  apply wp_ok.
  eapply csr_of_fill in HF; eauto; rewrite ?Hlp3, ?zlen_alloc; try lia.
  cbv zeta in HF. destruct HF as [HF1 HF2].
  apply HQ; auto.
Qed.

End CscProof.
