(** Proofs about Coo.v *)
Require Import ZArith List Bool Lia Permutation.
From Verif Require Import Base Scalar Spec Items Sort SortProof Csc CscProof Coo.
Import ListNotations.
Open Scope Z_scope.

Section CooProof.
Context {T : Type} {S : Scalar T}.

Lemma coo_entries_len (A : coo T) : coo_ok A -> zlen (coo_entries A) = coo_nnz A.
Proof. intros (_ & H & _). unfold coo_entries. rewrite zlen_map_zrange; lia. Qed.

Lemma coo_in_shape (A : coo T) : coo_ok A -> in_shape (coo_n A) (coo_np A) (coo_entries A).
Proof.
  intros (_ & _ & _ & _ & _ & H) e He. apply in_map_iff in He. destruct He as (k & <- & Hk).
  apply In_zrange in Hk. apply H; auto.
Qed.

(** positions of ptr_items *)
Lemma ptr_items_pos {E} (d : E) n ptr (f : Z -> Z -> E) i k :
  ptr_ok n ptr -> 0 <= i < n -> znth 0 ptr i <= k < znth 0 ptr (i + 1) ->
  znth d (ptr_items n ptr f) k = f i k.
Proof.
  intros Hok Hi Hk. unfold ptr_items.
  rewrite (flat_map_split _ 0 i n) by lia.
  assert (Hpre : zlen (flat_map (fun i0 => map (f i0) (zrange (znth 0 ptr i0) (znth 0 ptr (i0 + 1)))) (zrange 0 i)) = znth 0 ptr i).
  { change (zlen (ptr_items i ptr f) = znth 0 ptr i). apply zlen_ptr_items.
    destruct Hok as (H1 & H2 & H3 & H4). repeat split; try lia; auto. intros; apply H4; lia. }
  pose proof (ptr_ok_mono n ptr 0 i Hok ltac:(lia) ltac:(lia)) as Hm. destruct Hok as (H1 & H2 & H3 & H4).
  rewrite znth_app by lia. rewrite Hpre. destruct (Z.ltb_spec k (znth 0 ptr i)); [lia|].
  rewrite znth_app by lia. rewrite zlen_map_zrange by lia.
  destruct (Z.ltb_spec (k - znth 0 ptr i) (znth 0 ptr (i + 1) - znth 0 ptr i)); [|lia].
  rewrite znth_map with (d := 0) by (rewrite zlen_zrange; lia). rewrite znth_zrange by lia. f_equal; lia.
Qed.

Theorem convert_csr2coo_wp jr jc jv (A : csr T) (Q : coo T -> Prop) :
  csr_ok A ->
  (forall B, coo_ok B -> coo_n B = csr_n A -> coo_np B = csr_np A -> coo_nnz B = csr_nnz A ->
     coo_entries B = csr_entries A -> Q B) ->
  wp (convert_csr2coo jr jc jv A) Q.
Proof.
  intros Hok HQ. pose proof Hok as (Hp & Hnp & Hnnz & Hli & Hlv & Hix).
  pose proof (csr_entries_len A Hok) as Hlen. pose proof (zlen_nonneg (csr_entries A)) as Hnn.
  unfold convert_csr2coo. cbv zeta. apply wp_bind.
  set (d0 := (0, 0, s0) : entry T).
  apply (for_ptr_pos (fun k s => let '(kk, row, col, value) := s in
     kk = k /\ zlen row = csr_nnz A /\ zlen col = csr_nnz A /\ zlen value = csr_nnz A /\
     forall t, 0 <= t < k -> (znth 0 row t, znth 0 col t, znth s0 value t) = znth d0 (csr_entries A) t)); auto.
  - rewrite !zlen_alloc by lia. repeat split; auto. intros; lia.
  - intros i k [[[kk row] col] value] Hi Hk Hkn (-> & L1 & L2 & L3 & HE). rewrite Hnnz in Hkn.
    wwr; [lia|]. wrd 0; [lia|]. wwr; [lia|]. wrd s0; [lia|]. wwr; [lia|]. apply wp_ok.
    rewrite !zlen_zupd. repeat (split; [auto|]). intros t Ht.
    rewrite !znth_zupd by lia. destruct (Z.eqb_spec t k); [|apply HE; lia].
    subst t. rewrite csr_entries_items. rewrite (ptr_items_pos d0 _ _ _ i k); auto.
  - intros [[[kk row] col] value] (-> & L1 & L2 & L3 & HE). rewrite Hnnz in HE. apply wp_ok.
    assert (HEE : coo_entries (mkCoo (csr_n A) (csr_np A) (csr_nnz A) row col value) = csr_entries A).
    { apply (list_ext d0); unfold coo_entries; cbn [coo_row coo_col coo_value coo_nnz].
      - rewrite zlen_map_zrange by lia. lia.
      - rewrite zlen_map_zrange by lia. intros t Ht.
        rewrite znth_map with (d := 0) by (rewrite zlen_zrange; lia). rewrite znth_zrange by lia.
        rewrite HE by lia. f_equal; lia. }
    apply HQ; auto. unfold coo_ok; cbn. do 5 (split; [first [lia | assert (0 <= csr_n A) by apply Hp; lia]|]).
    intros k Hk.
    assert (Hin : In (znth d0 (csr_entries A) k) (csr_entries A)) by (apply znth_In; lia).
    rewrite <- HE in Hin by lia. apply (csr_in_shape A Hok) in Hin. exact Hin.
Qed.

(** what the input looks like after the in-place sort: a permutation of itself *)
Definition coo_rows (r c : list Z) (v : list T) (nnz : Z) : list (entry T) :=
  map (fun k => (znth 0 r k, znth 0 c k, znth s0 v k)) (zrange 0 nnz).

(** The arrays of a COO matrix have the same length: lis_matrix_malloc_coo, coo.c *)
Definition coo_exact (A : coo T) : Prop :=
  zlen (coo_col A) = zlen (coo_row A) /\ zlen (coo_value A) = zlen (coo_row A).

Theorem convert_coo2csr_wp jp ji jv (A : coo T) (Q : csr T * coo T -> Prop) :
  coo_ok A -> coo_exact A ->
  (forall B A', csr_ok B -> coo_ok A' -> csr_n B = coo_n A -> csr_np B = coo_np A -> csr_nnz B = coo_nnz A ->
     csr_entries B = coo_entries A' -> Permutation (coo_entries A') (coo_entries A) ->
     coo_n A' = coo_n A -> coo_np A' = coo_np A -> coo_nnz A' = coo_nnz A -> Q (B, A')) ->
  wp (convert_coo2csr jp ji jv A) Q.
Proof.
  intros Hok (Hx1 & Hx2) HQ. pose proof Hok as (Hn & Hnz & L1 & L2 & L3 & Hin).
  unfold convert_coo2csr. cbv zeta. apply wp_bind.
  apply (lis_sort_iid_wp s0); try lia. intros r c v Lc Lv (Lr & HP & _ & HS).
  replace (coo_nnz A - 1 + 1) with (coo_nnz A) in HP by lia.
  set (A' := mkCoo (coo_n A) (coo_np A) (coo_nnz A) r c v).
  set (total := coo_entries A').
  assert (HPT : Permutation total (coo_entries A)).
  { pose proof (Permutation_map (fun x : Z * (Z * T) => (fst x, fst (snd x), snd (snd x))) HP) as HP'.
    rewrite !map_map in HP'. exact HP'. }
  assert (Hsh : in_shape (coo_n A) (coo_np A) total).
  { intros e He. apply (coo_in_shape A Hok). rewrite <- HPT. exact He. }
  assert (Htl : zlen total = coo_nnz A) by (unfold total, coo_entries; cbn; rewrite zlen_map_zrange; lia).
  assert (Hnth : forall d k, 0 <= k < coo_nnz A -> znth d total k = (znth 0 r k, znth 0 c k, znth s0 v k)).
  { intros d k Hk. unfold total, coo_entries; cbn [A' coo_row coo_col coo_value coo_nnz].
    rewrite znth_map with (d := 0) by (rewrite zlen_zrange; lia). rewrite znth_zrange by lia. reflexivity. }
  assert (HA' : coo_ok A').
  { unfold coo_ok, A'; cbn. do 5 (split; [lia|]). intros k Hk.
    assert (HI : In (znth ((0,0,s0) : entry T) total k) total) by (apply znth_In; lia).
    rewrite Hnth in HI by auto. apply Hsh in HI. exact HI. }
  assert (Hkey : forall e, In e total -> 0 <= erow e < coo_n A) by (intros; apply Hsh; auto).
  assert (Hsorted : flat_map (fun q => bucket erow q total) (zrange 0 (coo_n A)) = total).
  { apply sorted_buckets; auto. intros d p q Hpq Hq. rewrite !Hnth by lia. unfold erow; cbn.
    specialize (HS p q ltac:(lia) ltac:(lia)). apply Z.ltb_ge in HS. lia. }
  apply wp_bind, (for_set 0 (fun _ => 0)); [lia|rewrite zlen_alloc; lia|].
  intros p1 Lp1 Z1 _. rewrite zlen_alloc in Lp1 by lia.
  apply wp_bind.
  apply (for_list (fun d a => zlen a = coo_n A + 1 /\ znth 0 a 0 = 0 /\ count_rep erow (coo_n A) 1 d a) total
            (fun k => (znth 0 r k, znth 0 c k, znth s0 v k)) 0 (coo_nnz A) _ []); try lia.
  { apply prefix_refl. }
  { split; [lia|]. split; [apply Z1; lia|]. intros q Hq. rewrite Z1 by lia. reflexivity. }
  { intros k a d Hk _ Hp (La & Ha0 & Hc).
    assert (Hrk : 0 <= znth 0 r k < coo_n A) by (apply HA'; auto).
    apply wp_bind, (wp_rd 0); [lia|]. unfold incr. apply wp_bind, (wp_rd 0); [lia|]. apply wp_wr; [lia|].
    rewrite zlen_zupd. split; [auto|]. split; [rewrite znth_zupd_neq by lia; auto|].
    apply (count_step erow (coo_n A) 1 d a (znth 0 r k, znth 0 c k, znth s0 v k) Hc); unfold erow; cbn; lia. }
  cbn [app]. change (map (fun k => (znth 0 r k, znth 0 c k, znth s0 v k)) (zrange 0 (coo_nnz A))) with total.
  intros p2 (Lp2 & Z2 & C2).
  apply wp_bind.
  apply (for_wp' (fun i a => zlen a = coo_n A + 1 /\
     (forall q, 0 <= q <= i -> znth 0 a q = start erow total q) /\
     (forall q, i <= q < coo_n A -> znth 0 a (q + 1) = cntk erow q total))); try lia.
  { split; [lia|]. split; intros q Hq.
    - replace q with 0 by lia. rewrite start_0. auto.
    - apply C2. lia. }
  { intros i a Hi (La & P1 & P2). apply wp_bind, (wp_rd 0); [lia|]. apply wp_bind, (wp_rd 0); [lia|].
    apply wp_wr; [lia|]. rewrite zlen_zupd. split; [auto|]. split; intros q Hq.
    - rewrite znth_zupd by lia. destruct (Z.eqb_spec q (i + 1)).
      + subst q. rewrite start_succ by lia. rewrite P2, P1 by lia. lia.
      + apply P1; lia.
    - rewrite znth_zupd_neq by lia. apply P2; lia. }
  intros ptr (Lp & P3 & _).
  assert (Hpok : ptr_ok (coo_n A) ptr) by (eapply ptr_ok_start; eauto; lia).
  assert (Hpn : znth 0 ptr (coo_n A) = coo_nnz A) by (rewrite P3 by lia; rewrite (start_total erow (coo_n A)); auto).
  apply wp_bind.
  apply (for_ptr_pos (fun k s => zlen (fst s) = coo_nnz A /\ zlen (snd s) = coo_nnz A /\
     forall t, 0 <= t < k -> znth 0 (fst s) t = znth 0 c t /\ znth s0 (snd s) t = znth s0 v t)); auto.
  { cbn [fst snd]. rewrite !zlen_alloc by lia. repeat split; auto; intros; lia. }
  { intros i k [ix vl] Hi Hk Hkn (Li & Lvl & HE). cbn [fst snd] in *.
    wrd s0; [lia|]. wwr; [lia|]. wrd 0; [lia|]. wwr; [lia|]. apply wp_ok. cbn [fst snd]. rewrite !zlen_zupd.
    split; [auto|]. split; [auto|]. intros t Ht. rewrite !znth_zupd by lia.
    destruct (Z.eqb_spec t k); [subst; auto|apply HE; lia]. }
  intros [ix vl] (Li & Lvl & HE). cbn [fst snd] in *. rewrite Hpn in HE. apply wp_ok.
  set (B := mkCsr (coo_n A) (coo_np A) (coo_nnz A) ptr ix vl).
  assert (HB : csr_entries B = total).
  { transitivity (flat_map (fun q => bucket erow q total) (zrange 0 (coo_n A))); [|exact Hsorted].
    unfold csr_entries, B; cbn [csr_n csr_ptr csr_index csr_value].
    apply flat_map_ext_in. intros q Hq. apply In_zrange in Hq. rewrite !P3 by lia.
    pose proof (flat_map_segment ((0,0,s0) : entry T) (fun q => bucket erow q total) (coo_n A) q Hq) as FS.
    cbv beta in FS. fold (start erow total q) in FS. fold (start erow total (q + 1)) in FS.
    rewrite Hsorted in FS. rewrite <- FS at 1.
    apply map_ext_in. intros k Hk.
    assert (HIn : In (znth ((0,0,s0) : entry T) total k) (bucket erow q total)) by (rewrite <- FS; apply in_map; auto).
    apply In_zrange in Hk.
    pose proof (start_nonneg erow total q). pose proof (start_mono erow total (q + 1) (coo_n A) ltac:(lia)) as HM.
    rewrite (start_total erow (coo_n A) total Hkey) in HM.
    apply filter_In in HIn. destruct HIn as [_ HIn]. apply Z.eqb_eq in HIn. rewrite Hnth in HIn by lia. unfold erow in HIn; cbn in HIn.
    rewrite Hnth by lia. destruct (HE k ltac:(lia)) as [-> ->]. rewrite HIn. reflexivity. }
  apply HQ; auto.
  unfold csr_ok, B; cbn. split; [auto|]. split; [lia|]. split; [auto|]. split; [lia|]. split; [lia|].
  intros k Hk. destruct (HE k Hk) as [-> _]. apply HA'; auto.
Qed.

End CooProof.
