(** lis_matvec / lis_matvech compute A x and A^H x *)
Require Import ZArith List Bool Lia Permutation Ring.
From Verif Require Import Base Scalar Spec Items Csc CscProof Coo CooProof Fmt EllProof JadProof Matvec.
Import ListNotations.
Open Scope Z_scope.

Section MV.
Context {T : Type} {S : Scalar T}.
Hypothesis RT : is_ring S.
Let RT' : @ring_theory T s0 s1 sadd smul ssub sopp (@eq T) := RT.
Add Ring scalar_ring_mv : RT'.

(** sum over the entries of row i *)
Definition mvE (E : list (entry T)) (x : Z -> T) (i : Z) : T :=
  ssum (map (fun e => smul (eval e) (x (ecol e))) (bucket erow i E)).

Lemma mvE_nil x i : mvE [] x i = s0. Proof. reflexivity. Qed.
Lemma mvE_app E F x i : mvE (E ++ F) x i = sadd (mvE E x i) (mvE F x i).
Proof. unfold mvE. rewrite bucket_app, map_app, (ssum_app RT). reflexivity. Qed.
Lemma mvE_one e x i : mvE [e] x i = if erow e =? i then smul (eval e) (x (ecol e)) else s0.
Proof. unfold mvE, bucket. simpl. destruct (erow e =? i); simpl; [ring|reflexivity]. Qed.
Lemma mvE_perm E F x i : Permutation E F -> mvE E x i = mvE F x i.
Proof. intros H. unfold mvE. apply (ssum_perm RT). apply Permutation_map. apply Permutation_filter. exact H. Qed.
Lemma mvE_nz (HE : eqb_ok S) E x i : mvE (nz E) x i = mvE E x i.
Proof.
  unfold mvE, bucket, nz. rewrite filter_filter.
  rewrite (filter_ext_in _ (fun e : entry T => (erow e =? i) && nonzero (eval e))) by (intros; apply andb_comm).
  rewrite <- filter_filter. apply (ssum_filter RT). intros e _ H. apply negb_false_iff in H. apply HE in H. rewrite H. ring.
Qed.

Lemma mvE_disj E x i : (forall e, In e E -> erow e <> i) -> mvE E x i = s0.
Proof.
  intros H. unfold mvE, bucket. rewrite filter_none; auto. intros e He. apply Z.eqb_neq. auto.
Qed.
Lemma mvE_all E x i : (forall e, In e E -> erow e = i) -> mvE E x i = ssum (map (fun e => smul (eval e) (x (ecol e))) E).
Proof. intros H. unfold mvE, bucket. rewrite filter_all; auto. intros e He. apply Z.eqb_eq. auto. Qed.

(** rows kept apart *)
Lemma mvE_rows (g : Z -> list (entry T)) n x i : 0 <= i < n -> (forall q e, In e (g q) -> erow e = q) ->
  mvE (flat_map g (zrange 0 n)) x i = ssum (map (fun e => smul (eval e) (x (ecol e))) (g i)).
Proof.
  intros Hi Hg. rewrite (flat_map_split g 0 i n) by lia.
  rewrite !mvE_app. rewrite (mvE_disj (flat_map g (zrange 0 i))), (mvE_disj (flat_map g (zrange (i + 1) n))).
  - rewrite (mvE_all (g i)); [ring|]. apply Hg.
  - intros e He. apply in_flat_map in He. destruct He as (q & Hq & He). apply In_zrange in Hq. apply Hg in He. lia.
  - intros e He. apply in_flat_map in He. destruct He as (q & Hq & He). apply In_zrange in Hq. apply Hg in He. lia.
Qed.

Lemma mv_spec_mvE E np x i : (forall e, In e E -> erow e = i -> 0 <= ecol e < np) -> mv_spec E np x i = mvE E x i.
Proof.
  intros H. unfold mv_spec, mvE.
  assert (HP : Permutation (flat_map (fun j => bucket ecol j (bucket erow i E)) (zrange 0 np)) (bucket erow i E)).
  { apply (buckets_perm ecol). intros e He. apply filter_In in He. destruct He as [He Hr]. apply Z.eqb_eq in Hr. auto. }
  rewrite <- (ssum_perm RT _ _ (Permutation_map (fun e => smul (eval e) (x (ecol e))) HP)).
  rewrite (ssum_flat_map RT). apply ssum_map_ext. intros j _.
  unfold coef. rewrite <- (ssum_map_mul_r RT (x j) eval).
  assert (HF : filter (at_ij i j) E = bucket ecol j (bucket erow i E)).
  { unfold bucket. rewrite filter_filter. reflexivity. }
  rewrite HF. apply ssum_map_ext. intros e He. apply filter_In in He. destruct He as [_ He]. apply Z.eqb_eq in He. rewrite He. reflexivity.
Qed.

(** conjugate transpose *)
Definition trc (e : entry T) : entry T := (ecol e, erow e, sconj (eval e)).
Lemma mvh_mv (HC : conj_ok S) E n x j : mvh_spec E n x j = mv_spec (map trc E) n x j.
Proof.
  unfold mvh_spec, mv_spec. apply ssum_map_ext. intros i _. f_equal.
  unfold coef. rewrite filter_map, map_map.
  rewrite (filter_ext_in (fun e => at_ij j i (trc e)) (at_ij i j)).
  2:{ intros e _. unfold at_ij, trc, erow, ecol. cbn [fst snd]. apply andb_comm. }
  destruct HC as (H1 & _ & _ & H2 & _).
  induction (filter (at_ij i j) E); simpl; [auto|]. rewrite H1, IHl. reflexivity.
Qed.

(** ** the accumulation step *)
Definition acc_rep (x : Z -> T) (f : Z -> Z) (lo hi : Z) (L : Z) (d : list (entry T)) (y : list T) : Prop :=
  zlen y = L /\ forall r, lo <= r < hi -> znth s0 y r = mvE d x (f r).

Lemma acc_step x f lo hi L d y t e : acc_rep x f lo hi L d y -> 0 <= t < L ->
  f t = erow e -> (forall r, lo <= r < hi -> f r = erow e -> r = t) ->
  wp (acc y t (smul (eval e) (x (ecol e)))) (acc_rep x f lo hi L (d ++ [e])).
Proof.
  intros [HL H] Ht Hf Hinj. unfold acc. wrd s0; [lia|]. apply wp_wr; [lia|]. split; [rewrite zlen_zupd; auto|].
  intros r Hr. rewrite mvE_app, mvE_one. rewrite znth_zupd by lia. destruct (Z.eqb_spec r t).
  - subst r. rewrite H by auto. rewrite Hf, Z.eqb_refl. reflexivity.
  - destruct (Z.eqb_spec (erow e) (f r)).
    + exfalso. apply n. apply Hinj; auto.
    + rewrite H by auto. ring.
Qed.

Lemma acc_step_id x lo hi L d y e : acc_rep x (fun r => r) lo hi L d y -> 0 <= erow e < L ->
  wp (acc y (erow e) (smul (eval e) (x (ecol e)))) (acc_rep x (fun r => r) lo hi L (d ++ [e])).
Proof. intros. apply acc_step; auto. Qed.

Lemma zero_to_wp n y (Q : list T -> Prop) x f : 0 <= n <= zlen y ->
  (forall y', acc_rep x f 0 n (zlen y) [] y' -> Q y') -> wp (zero_to n y) Q.
Proof.
  intros Hn HQ. unfold zero_to. apply (for_set s0 (fun _ => s0)); [lia|lia|]. intros y' L H1 _. apply HQ. split; auto.
Qed.

(** t += g(j) *)
Lemma for_sum (g : Z -> T) lo hi body t (Q : T -> Prop) :
  (forall j t, lo <= j < hi -> body j t = Ok (sadd t (g j))) ->
  Q (sadd t (ssum (map g (zrange lo hi)))) -> wp (for_ lo hi body t) Q.
Proof.
  intros Hb HQ. destruct (Z.le_gt_cases lo hi) as [Hle|Hgt].
  - apply (for_wp' (fun j s => s = sadd t (ssum (map g (zrange lo j))))); auto.
    + rewrite zrange_empty by lia. simpl. ring.
    + intros j s Hj ->. rewrite Hb by auto. apply wp_ok. rewrite zrange_snoc by lia. rewrite map_app, (ssum_app RT). simpl. ring.
    + intros s ->. auto.
  - rewrite for_empty by lia. apply wp_ok. rewrite zrange_empty in HQ by lia. simpl in HQ. replace t with (sadd t s0) by ring. auto.
Qed.

(** a loop that writes y[i] for one row after another *)
Lemma for_rows (h : Z -> T) n body y (Q : list T -> Prop) : 0 <= n <= zlen y ->
  (forall i y (K : list T -> Prop), 0 <= i < n -> n <= zlen y -> K (zupd y i (h i)) -> wp (body i y) K) ->
  (forall y', zlen y' = zlen y -> (forall i, 0 <= i < n -> znth s0 y' i = h i) -> Q y') ->
  wp (for_ 0 n body y) Q.
Proof.
  intros Hn Hb HQ.
  apply (for_wp' (fun i y' => zlen y' = zlen y /\ forall r, 0 <= r < i -> znth s0 y' r = h r)); try lia.
  - split; auto; intros; lia.
  - intros i y' Hi [L H]. apply Hb; [auto|lia|]. rewrite zlen_zupd. split; auto.
    intros r Hr. rewrite znth_zupd by lia. destruct (Z.eqb_spec r i); [congruence|]. apply H; lia.
  - intros y' [L H]. apply HQ; auto.
Qed.

Definition computes_mv (m : res (list T)) (E : list (entry T)) (n np : Z) (x y : list T) : Prop :=
  wp m (fun y' => zlen y' = zlen y /\ forall i, 0 <= i < n -> znth s0 y' i = mv_spec E np (znth s0 x) i).
Definition computes_mvh (m : res (list T)) (E : list (entry T)) (n np : Z) (x y : list T) : Prop :=
  wp m (fun y' => zlen y' = zlen y /\ forall j, 0 <= j < np -> znth s0 y' j = mvh_spec E n (znth s0 x) j).

Lemma mv_done E n np x L y : in_shape n np E -> acc_rep (znth s0 x) (fun r => r) 0 n L E y ->
  zlen y = L /\ forall i, 0 <= i < n -> znth s0 y i = mv_spec E np (znth s0 x) i.
Proof.
  intros Hs [HL H]. split; auto. intros i Hi. rewrite H by auto. symmetry. apply mv_spec_mvE. intros e He _. apply Hs; auto.
Qed.
Lemma mvh_done (HC : conj_ok S) E n np x L y : in_shape n np E -> acc_rep (znth s0 x) (fun r => r) 0 np L (map trc E) y ->
  zlen y = L /\ forall j, 0 <= j < np -> znth s0 y j = mvh_spec E n (znth s0 x) j.
Proof.
  intros Hs [HL H]. split; auto. intros i Hi. rewrite H by auto. rewrite mvh_mv by auto. symmetry. apply mv_spec_mvE.
  intros e He _. apply in_map_iff in He. destruct He as (e' & <- & He). apply Hs in He. unfold trc, ecol. cbn [fst snd]. apply He.
Qed.

Lemma map_ptr_items {A B} (g : A -> B) n ptr (f : Z -> Z -> A) : map g (ptr_items n ptr f) = ptr_items n ptr (fun i k => g (f i k)).
Proof. unfold ptr_items. rewrite map_flat_map. apply flat_map_ext. intros i. apply map_map. Qed.

(** ** CSR *)
Theorem matvec_csr_wp (A : csr T) x y : csr_ok A -> csr_np A <= zlen x -> csr_n A <= zlen y ->
  computes_mv (matvec_csr A x y) (csr_entries A) (csr_n A) (csr_np A) x y.
Proof.
  intros Hok Hx Hy. pose proof Hok as (Hp & Hnp & Hnnz & Hli & Hlv & Hix). pose proof Hp as (Hn & Hlp & Hp0 & Hpm).
  pose proof (csr_in_shape A Hok) as Hsh.
  unfold computes_mv, matvec_csr.
  set (g := fun i => map (fun k => (i, znth 0 (csr_index A) k, znth s0 (csr_value A) k) : entry T) (zrange (znth 0 (csr_ptr A) i) (znth 0 (csr_ptr A) (i + 1)))).
  apply (for_rows (mvE (csr_entries A) (znth s0 x))); [lia| |].
  - intros i y' K Hi Hy' HK.
    assert (Hb : forall k, znth 0 (csr_ptr A) i <= k < znth 0 (csr_ptr A) (i + 1) -> 0 <= k < csr_nnz A).
    { intros k Hk. rewrite <- Hnnz. eapply ptr_ok_bounds; eauto. }
    wrd 0; [lia|]. wrd 0; [lia|]. apply wp_bind.
    apply (for_sum (fun j => smul (znth s0 (csr_value A) j) (znth s0 x (znth 0 (csr_index A) j)))).
    + intros j t Hj. specialize (Hb j Hj). specialize (Hix j Hb).
      rewrite (rd_ok 0) by lia. cbn [bind]. rewrite (rd_ok s0) by lia. cbn [bind]. rewrite (rd_ok s0) by lia. reflexivity.
    + apply wp_wr; [lia|].
      replace (sadd s0 _) with (mvE (csr_entries A) (znth s0 x) i); [exact HK|].
      change (csr_entries A) with (flat_map g (zrange 0 (csr_n A))).
      rewrite mvE_rows; [|lia|]. { unfold g. rewrite map_map. unfold eval, ecol. cbn [fst snd]. ring. }
      intros q e He. apply in_map_iff in He. destruct He as (k & <- & _). reflexivity.
  - intros y' L H. split; auto. intros i Hi. rewrite H by auto. symmetry. apply mv_spec_mvE. intros e He _. apply Hsh; auto.
Qed.

Theorem matvech_csr_wp (HC : conj_ok S) (A : csr T) x y : csr_ok A -> csr_n A <= zlen x -> csr_np A <= zlen y ->
  computes_mvh (matvech_csr A x y) (csr_entries A) (csr_n A) (csr_np A) x y.
Proof.
  intros Hok Hx Hy. pose proof Hok as (Hp & Hnp & Hnnz & Hli & Hlv & Hix). pose proof Hp as (Hn & Hlp & Hp0 & Hpm).
  pose proof (csr_in_shape A Hok) as Hsh.
  unfold computes_mvh, matvech_csr. apply wp_bind, (zero_to_wp _ _ _ (znth s0 x) (fun r => r)); [lia|]. intros y0 H0.
  set (f := fun i k => (znth 0 (csr_index A) k, i, sconj (znth s0 (csr_value A) k)) : entry T).
  assert (HE : map trc (csr_entries A) = flat_map (fun i => map (f i) (zrange (znth 0 (csr_ptr A) i) (znth 0 (csr_ptr A) (i + 1)))) (zrange 0 (csr_n A))).
  { rewrite csr_entries_items, map_ptr_items. reflexivity. }
  apply (for_items (acc_rep (znth s0 x) (fun r => r) 0 (csr_np A) (zlen y)) (map trc (csr_entries A)) (fun i => map (f i) (zrange (znth 0 (csr_ptr A) i) (znth 0 (csr_ptr A) (i + 1)))) 0 (csr_n A) _ []); auto.
  - cbn [app]. rewrite HE. apply prefix_refl.
  - intros i s d Hi _ Hpre HR. wrd 0; [lia|]. wrd 0; [lia|]. wrd s0; [lia|].
    apply (for_list (acc_rep (znth s0 x) (fun r => r) 0 (csr_np A) (zlen y)) (map trc (csr_entries A)) (f i) _ _ _ d); auto.
    intros k s' d' Hk _ _ HR'.
    assert (Hb : 0 <= k < csr_nnz A) by (rewrite <- Hnnz; eapply ptr_ok_bounds; eauto). specialize (Hix k Hb).
    wrd 0; [lia|]. wrd s0; [lia|].
    apply (acc_step_id (znth s0 x) 0 (csr_np A) (zlen y) d' s' (f i k) HR'). unfold f, erow. cbn [fst]. lia.
  - cbn [app]. intros s HR. rewrite <- HE in HR. eapply mvh_done; eauto.
Qed.


Ltac arep A np y := apply (acc_step_id _ _ _ _ _ _ A); [assumption|unfold erow; cbn [fst]; try lia].

(** ** CSC *)
Theorem matvec_csc_wp (A : csc T) x y : csc_ok A -> csc_np A <= zlen x -> csc_n A <= zlen y ->
  computes_mv (matvec_csc A x y) (csc_entries A) (csc_n A) (csc_np A) x y.
Proof.
  intros Hok Hx Hy. pose proof Hok as (Hp & Hnp & Hnnz & Hli & Hlv & Hix). pose proof Hp as (Hn & Hlp & Hp0 & Hpm).
  pose proof (csc_in_shape A Hok) as Hsh.
  unfold computes_mv, matvec_csc. apply wp_bind, (zero_to_wp _ _ _ (znth s0 x) (fun r => r)); [lia|]. intros y0 H0.
  set (f := fun i k => (znth 0 (csc_index A) k, i, znth s0 (csc_value A) k) : entry T).
  set (R := acc_rep (znth s0 x) (fun r => r) 0 (csc_n A) (zlen y)).
  apply (for_items R (csc_entries A) (fun i => map (f i) (zrange (znth 0 (csc_ptr A) i) (znth 0 (csc_ptr A) (i + 1)))) 0 (csc_np A) _ []); auto.
  - apply prefix_refl.
  - intros i s d Hi _ Hpre HR. wrd 0; [lia|]. wrd 0; [lia|]. wrd s0; [lia|].
    apply (for_list R (csc_entries A) (f i) _ _ _ d); auto.
    intros k s' d' Hk _ _ HR'.
    assert (Hb : 0 <= k < csc_nnz A) by (rewrite <- Hnnz; eapply ptr_ok_bounds; eauto). specialize (Hix k Hb).
    wrd 0; [lia|]. wrd s0; [lia|].
    apply (acc_step_id (znth s0 x) 0 (csc_n A) (zlen y) d' s' (f i k) HR'). unfold f, erow. cbn [fst]. lia.
  - cbn [app]. intros s HR. eapply mv_done; eauto.
Qed.

Theorem matvech_csc_wp (HC : conj_ok S) (A : csc T) x y : csc_ok A -> csc_n A <= zlen x -> csc_np A <= zlen y ->
  computes_mvh (matvech_csc A x y) (csc_entries A) (csc_n A) (csc_np A) x y.
Proof.
  intros Hok Hx Hy. pose proof Hok as (Hp & Hnp & Hnnz & Hli & Hlv & Hix). pose proof Hp as (Hn & Hlp & Hp0 & Hpm).
  pose proof (csc_in_shape A Hok) as Hsh.
  unfold computes_mvh, matvech_csc.
  set (g := fun i => map (fun k => (i, znth 0 (csc_index A) k, sconj (znth s0 (csc_value A) k)) : entry T) (zrange (znth 0 (csc_ptr A) i) (znth 0 (csc_ptr A) (i + 1)))).
  assert (HE : map trc (csc_entries A) = flat_map g (zrange 0 (csc_np A))).
  { rewrite csc_entries_items, map_ptr_items. reflexivity. }
  apply (for_rows (mvE (map trc (csc_entries A)) (znth s0 x))); [lia| |].
  - intros i y' K Hi Hy' HK.
    assert (Hb : forall k, znth 0 (csc_ptr A) i <= k < znth 0 (csc_ptr A) (i + 1) -> 0 <= k < csc_nnz A).
    { intros k Hk. rewrite <- Hnnz. eapply ptr_ok_bounds; eauto. }
    wrd 0; [lia|]. wrd 0; [lia|]. apply wp_bind.
    apply (for_sum (fun j => smul (sconj (znth s0 (csc_value A) j)) (znth s0 x (znth 0 (csc_index A) j)))).
    + intros j t Hj. specialize (Hb j Hj). specialize (Hix j Hb).
      rewrite (rd_ok 0) by lia. cbn [bind]. rewrite (rd_ok s0) by lia. cbn [bind]. rewrite (rd_ok s0) by lia. reflexivity.
    + apply wp_wr; [lia|].
      replace (sadd s0 _) with (mvE (map trc (csc_entries A)) (znth s0 x) i); [exact HK|].
      rewrite HE, mvE_rows; [|lia|]. { unfold g. rewrite map_map. unfold eval, ecol. cbn [fst snd]. ring. }
      intros q e He. apply in_map_iff in He. destruct He as (k & <- & _). reflexivity.
  - intros y' L H. apply (mvh_done HC _ _ _ _ (zlen y)); auto. split; auto.
Qed.

(** ** COO *)
Lemma coo_in_shape (A : coo T) : coo_ok A -> in_shape (coo_n A) (coo_np A) (coo_entries A).
Proof.
  intros (_ & _ & _ & _ & _ & H) e He. apply in_map_iff in He. destruct He as (k & <- & Hk). apply In_zrange in Hk. apply H; auto.
Qed.

Theorem matvec_coo_wp (A : coo T) x y : coo_ok A -> coo_np A <= zlen x -> coo_n A <= zlen y ->
  computes_mv (matvec_coo A x y) (coo_entries A) (coo_n A) (coo_np A) x y.
Proof.
  intros Hok Hx Hy. pose proof Hok as (Hn & Hnz & L1 & L2 & L3 & Hin).
  unfold computes_mv, matvec_coo. apply wp_bind, (zero_to_wp _ _ _ (znth s0 x) (fun r => r)); [lia|]. intros y0 H0.
  set (f := fun k => (znth 0 (coo_row A) k, znth 0 (coo_col A) k, znth s0 (coo_value A) k) : entry T).
  apply (for_list (acc_rep (znth s0 x) (fun r => r) 0 (coo_n A) (zlen y)) (coo_entries A) f _ _ _ []); auto.
  - apply prefix_refl.
  - intros k s d Hk _ _ HR. specialize (Hin k Hk). wrd 0; [lia|]. wrd 0; [lia|]. wrd s0; [lia|]. wrd s0; [lia|].
    apply (acc_step_id (znth s0 x) 0 (coo_n A) (zlen y) d s (f k) HR). unfold f, erow. cbn [fst]. lia.
  - intros s HR. eapply mv_done; eauto. apply coo_in_shape; auto.
Qed.

(** A^T x, not A^H x: right when conj is the identity on the stored values *)
Theorem matvech_coo_wp (HC : conj_ok S) (A : coo T) x y : coo_ok A -> coo_np A = coo_n A -> coo_n A <= zlen x -> coo_np A <= zlen y ->
  (forall e, In e (coo_entries A) -> sconj (eval e) = eval e) ->
  computes_mvh (matvech_coo A x y) (coo_entries A) (coo_n A) (coo_np A) x y.
Proof.
  intros Hok Hsq Hx Hy Hre. pose proof Hok as (Hn & Hnz & L1 & L2 & L3 & Hin).
  unfold computes_mvh, matvech_coo. apply wp_bind, (zero_to_wp _ _ _ (znth s0 x) (fun r => r)); [lia|]. intros y0 H0.
  set (f := fun k => (znth 0 (coo_col A) k, znth 0 (coo_row A) k, znth s0 (coo_value A) k) : entry T).
  assert (HE : map trc (coo_entries A) = map f (zrange 0 (coo_nnz A))).
  { unfold coo_entries. rewrite map_map. apply map_ext_in. intros k Hk. unfold trc, f, erow, ecol, eval. cbn [fst snd]. f_equal.
    apply (Hre (znth 0 (coo_row A) k, znth 0 (coo_col A) k, znth s0 (coo_value A) k)).
    unfold coo_entries. apply (in_map (fun k => (znth 0 (coo_row A) k, znth 0 (coo_col A) k, znth s0 (coo_value A) k)) _ k Hk). }
  apply (for_list (acc_rep (znth s0 x) (fun r => r) 0 (coo_n A) (zlen y)) (map f (zrange 0 (coo_nnz A))) f _ _ _ []); auto.
  - apply prefix_refl.
  - intros k s d Hk _ _ HR. specialize (Hin k Hk). wrd 0; [lia|]. wrd 0; [lia|]. wrd s0; [lia|]. wrd s0; [lia|].
    apply (acc_step_id (znth s0 x) 0 (coo_n A) (zlen y) d s (f k) HR). unfold f, erow. cbn [fst]. lia.
  - cbn [app]. intros s HR. rewrite <- HE in HR. eapply mvh_done; eauto. { apply coo_in_shape; auto. } rewrite Hsq. exact HR.
Qed.

(** ** MSR *)
Lemma msr_first (A : msr T) : msr_ok A -> msr_n A + 1 <= znth 0 (msr_index A) (msr_n A).
Proof.
  intros (Hn & Hnz & Hdz & Li & Lv & H0 & Hm & Hend & Hix).
  assert (G : forall m : nat, Z.of_nat m <= msr_n A -> znth 0 (msr_index A) 0 <= znth 0 (msr_index A) (Z.of_nat m)).
  { induction m; intros. { apply Z.le_refl. } specialize (IHm ltac:(lia)). specialize (Hm (Z.of_nat m)). replace (Z.of_nat (Datatypes.S m)) with (Z.of_nat m + 1) by lia. lia. }
  specialize (G (Z.to_nat (msr_n A))). rewrite Z2Nat.id in G by lia. specialize (G ltac:(lia)). rewrite <- H0. exact G.
Qed.
Lemma msr_bounds (A : msr T) i k : msr_ok A -> 0 <= i < msr_n A -> znth 0 (msr_index A) i <= k < znth 0 (msr_index A) (i + 1) ->
  msr_n A < k < znth 0 (msr_index A) (msr_n A) /\ k < msr_nnz A + msr_ndz A + 1.
Proof.
  intros (Hn & Hnz & Hdz & Li & Lv & H0 & Hm & Hend & Hix) Hi Hk.
  assert (G : forall m : nat, forall i, 0 <= i -> i + Z.of_nat m <= msr_n A -> znth 0 (msr_index A) i <= znth 0 (msr_index A) (i + Z.of_nat m)).
  { induction m; intros q Hq Hm'. - replace (q + Z.of_nat 0) with q by lia. lia.
    - replace (q + Z.of_nat (Datatypes.S m)) with (q + Z.of_nat m + 1) in * by lia. specialize (IHm q Hq ltac:(lia)). specialize (Hm (q + Z.of_nat m)). lia. }
  pose proof (G (Z.to_nat i) 0 ltac:(lia) ltac:(lia)). pose proof (G (Z.to_nat (msr_n A - (i + 1))) (i + 1) ltac:(lia) ltac:(lia)).
  replace (0 + Z.of_nat (Z.to_nat i)) with i in * by lia. replace (i + 1 + Z.of_nat (Z.to_nat (msr_n A - (i + 1)))) with (msr_n A) in * by lia. lia.
Qed.
Lemma msr_in_shape (A : msr T) : msr_ok A -> in_shape (msr_n A) (msr_np A) (msr_entries A).
Proof.
  intros Hok e He. pose proof Hok as (Hn & Hnz & Hdz & Li & Lv & H0 & Hm & Hend & Hix).
  apply in_flat_map in He. destruct He as (i & Hi & He). apply In_zrange in Hi. destruct He as [<-|He].
  - unfold erow, ecol; cbn [fst snd]. lia.
  - apply in_map_iff in He. destruct He as (k & <- & Hk). apply In_zrange in Hk. unfold erow, ecol; cbn [fst snd].
    pose proof (msr_bounds A i k Hok Hi Hk). specialize (Hix k). lia.
Qed.

Theorem matvec_msr_wp (A : msr T) x y : msr_ok A -> msr_np A <= zlen x -> msr_n A <= zlen y ->
  computes_mv (matvec_msr A x y) (msr_entries A) (msr_n A) (msr_np A) x y.
Proof.
  intros Hok Hx Hy. pose proof Hok as (Hn & Hnz & Hdz & Li & Lv & H0 & Hm & Hend & Hix).
  pose proof (msr_first A Hok) as Hend0.
  unfold computes_mv, matvec_msr.
  set (g := fun i => (i, i, znth s0 (msr_value A) i) :: map (fun k => (i, znth 0 (msr_index A) k, znth s0 (msr_value A) k) : entry T) (zrange (znth 0 (msr_index A) i) (znth 0 (msr_index A) (i + 1)))).
  apply (for_rows (mvE (msr_entries A) (znth s0 x))); [lia| |].
  - intros i y' K Hi Hy' HK.
    wrd s0; [lia|]. wrd s0; [lia|]. wrd 0; [lia|]. wrd 0; [lia|]. apply wp_bind.
    apply (for_sum (fun j => smul (znth s0 (msr_value A) j) (znth s0 x (znth 0 (msr_index A) j)))).
    + intros j t Hj. pose proof (msr_bounds A i j Hok Hi Hj) as Hb. specialize (Hix j ltac:(lia)).
      rewrite (rd_ok 0) by lia. cbn [bind]. rewrite (rd_ok s0) by lia. cbn [bind]. rewrite (rd_ok s0) by lia. reflexivity.
    + apply wp_wr; [lia|].
      match goal with |- K (zupd _ _ ?v) => replace v with (mvE (msr_entries A) (znth s0 x) i); [exact HK|] end.
      change (msr_entries A) with (flat_map g (zrange 0 (msr_n A))).
      rewrite mvE_rows; [|lia|]. { unfold g. cbn [map ssum]. rewrite map_map. unfold eval, ecol. cbn [fst snd]. ring. }
      intros q e He. destruct He as [<-|He]; [reflexivity|]. apply in_map_iff in He. destruct He as (k & <- & _). reflexivity.
  - intros y' L H. split; auto. intros i Hi. rewrite H by auto. symmetry. apply mv_spec_mvE. intros e He _. apply (msr_in_shape A Hok); auto.
Qed.

Lemma flat_map_cons_perm {A B} (a : A -> B) (b : A -> list B) l :
  Permutation (flat_map (fun i => a i :: b i) l) (map a l ++ flat_map b l).
Proof.
  induction l as [|i l IH]; simpl; [constructor|]. constructor. rewrite IH.
  rewrite app_assoc. rewrite (Permutation_app_comm (b i) (map a l)). rewrite <- app_assoc. apply Permutation_refl.
Qed.

Theorem matvech_msr_wp (HC : conj_ok S) (A : msr T) x y : msr_ok A -> msr_np A = msr_n A -> msr_n A <= zlen x -> msr_np A <= zlen y ->
  computes_mvh (matvech_msr A x y) (msr_entries A) (msr_n A) (msr_np A) x y.
Proof.
  intros Hok Hsq Hx Hy. pose proof Hok as (Hn & Hnz & Hdz & Li & Lv & H0 & Hm & Hend & Hix).
  pose proof (msr_first A Hok) as Hend0.
  unfold computes_mvh, matvech_msr. apply wp_bind.
  set (dg := fun i => (i, i, sconj (znth s0 (msr_value A) i)) : entry T).
  set (f := fun i k => (znth 0 (msr_index A) k, i, sconj (znth s0 (msr_value A) k)) : entry T).
  set (off := flat_map (fun i => map (f i) (zrange (znth 0 (msr_index A) i) (znth 0 (msr_index A) (i + 1)))) (zrange 0 (msr_n A))).
  assert (HE : Permutation (map trc (msr_entries A)) (map dg (zrange 0 (msr_n A)) ++ off)).
  { unfold msr_entries. rewrite map_flat_map. unfold off.
    rewrite <- (flat_map_cons_perm dg). replace (flat_map (fun x0 : Z => map trc _) (zrange 0 (msr_n A))) with
     (flat_map (fun i : Z => dg i :: map (f i) (zrange (znth 0 (msr_index A) i) (znth 0 (msr_index A) (i + 1)))) (zrange 0 (msr_n A))); [apply Permutation_refl|].
    apply flat_map_ext. intros i. simpl. rewrite map_map. reflexivity. }
  apply (for_rows (fun i => smul (sconj (znth s0 (msr_value A) i)) (znth s0 x i))); [lia| |].
  { intros i y' K Hi Hy' HK. wrd s0; [lia|]. wrd s0; [lia|]. apply wp_wr; [lia|]. exact HK. }
  intros y1 L1 Hy1.
  set (R := acc_rep (znth s0 x) (fun r => r) 0 (msr_n A) (zlen y)).
  apply (for_items R (map dg (zrange 0 (msr_n A)) ++ off) (fun i => map (f i) (zrange (znth 0 (msr_index A) i) (znth 0 (msr_index A) (i + 1)))) 0 (msr_n A) _ (map dg (zrange 0 (msr_n A)))); auto.
  - lia.
  - apply prefix_refl.
  - split; auto. intros r Hr. rewrite Hy1 by auto. rewrite <- (flat_map_single dg). rewrite mvE_rows; [|auto|].
    + unfold dg, eval, ecol. simpl. ring.
    + intros q e [<-|[]]. reflexivity.
  - intros i s d Hi _ Hpre HR. wrd s0; [lia|]. wrd 0; [lia|]. wrd 0; [lia|].
    apply (for_list R (map dg (zrange 0 (msr_n A)) ++ off) (f i) _ _ _ d); auto.
    intros k s' d' Hk _ _ HR'. pose proof (msr_bounds A i k Hok Hi Hk) as Hb. specialize (Hix k ltac:(lia)).
    wrd 0; [lia|]. wrd s0; [lia|].
    apply (acc_step_id (znth s0 x) 0 (msr_n A) (zlen y) d' s' (f i k) HR'). unfold f, erow. cbn [fst]. lia.
  - intros s HR. fold off in HR. eapply mvh_done; eauto. { apply msr_in_shape; auto. }
    rewrite Hsq. destruct HR as [HL HR]. split; auto. intros r Hr. rewrite (mvE_perm _ _ _ _ HE). apply HR; auto.
Qed.

(** ** ELL, DNS, DIA: two nested loops *)
Lemma for2_acc x n L (it : Z -> Z -> entry T) lo hi (a b : Z -> Z) body y (Q : list T -> Prop) :
  let total := flat_map (fun j => map (it j) (zrange (a j) (b j))) (zrange lo hi) in
  acc_rep x (fun r => r) 0 n L [] y ->
  (forall j i y d, lo <= j < hi -> a j <= i < b j -> acc_rep x (fun r => r) 0 n L d y -> wp (body j i y) (acc_rep x (fun r => r) 0 n L (d ++ [it j i]))) ->
  (forall y, acc_rep x (fun r => r) 0 n L total y -> Q y) ->
  wp (for_ lo hi (fun j y => for_ (a j) (b j) (body j) y) y) Q.
Proof.
  intros total H0 Hs HQ.
  assert (Et : total = flat_map (fun j => flat_map (fun i => [it j i]) (zrange (a j) (b j))) (zrange lo hi)).
  { apply flat_map_ext. intros j. rewrite flat_map_single. reflexivity. }
  apply (for2_items (acc_rep x (fun r => r) 0 n L) (fun j i => [it j i])); auto.
Qed.

Theorem matvec_ell_wp (A : ell T) x y : ell_ok A -> ell_np A <= zlen x -> ell_n A <= zlen y ->
  computes_mv (matvec_ell A x y) (ell_entries A) (ell_n A) (ell_np A) x y.
Proof.
  intros Hok Hx Hy. pose proof Hok as (Hn & Hm & Li & Lv & Hix).
  unfold computes_mv, matvec_ell. cbv zeta. apply wp_bind, (zero_to_wp _ _ _ (znth s0 x) (fun r => r)); [lia|]. intros y0 H0.
  apply (for2_acc (znth s0 x) (ell_n A) (zlen y) (fun j i => (i, znth 0 (ell_index A) (j * ell_n A + i), znth s0 (ell_value A) (j * ell_n A + i))) 0 (ell_maxnzr A) (fun _ => 0) (fun _ => ell_n A)); auto.
  - intros j i y1 d Hj Hi HR. pose proof (mul_range (ell_n A) (ell_maxnzr A) j i Hi Hj). specialize (Hix (j * ell_n A + i) ltac:(lia)).
    wrd s0; [lia|]. wrd 0; [lia|]. wrd s0; [lia|].
    apply (acc_step_id (znth s0 x) 0 (ell_n A) (zlen y) d y1 (i, znth 0 (ell_index A) (j * ell_n A + i), znth s0 (ell_value A) (j * ell_n A + i)) HR). unfold erow. cbn [fst]. lia.
  - intros y1 HR. eapply mv_done; eauto. apply ell_in_shape; auto.
Qed.

Theorem matvech_ell_wp (HC : conj_ok S) (A : ell T) x y : ell_ok A -> ell_np A = ell_n A -> ell_n A <= zlen x -> ell_np A <= zlen y ->
  computes_mvh (matvech_ell A x y) (ell_entries A) (ell_n A) (ell_np A) x y.
Proof.
  intros Hok Hsq Hx Hy. pose proof Hok as (Hn & Hm & Li & Lv & Hix).
  unfold computes_mvh, matvech_ell. cbv zeta. apply wp_bind, (zero_to_wp _ _ _ (znth s0 x) (fun r => r)); [lia|]. intros y0 H0.
  apply (for2_acc (znth s0 x) (ell_n A) (zlen y) (fun j i => (znth 0 (ell_index A) (j * ell_n A + i), i, sconj (znth s0 (ell_value A) (j * ell_n A + i)))) 0 (ell_maxnzr A) (fun _ => 0) (fun _ => ell_n A)); auto.
  - intros j i y1 d Hj Hi HR. pose proof (mul_range (ell_n A) (ell_maxnzr A) j i Hi Hj). specialize (Hix (j * ell_n A + i) ltac:(lia)).
    wrd 0; [lia|]. wrd s0; [lia|]. wrd s0; [lia|].
    apply (acc_step_id (znth s0 x) 0 (ell_n A) (zlen y) d y1 (znth 0 (ell_index A) (j * ell_n A + i), i, sconj (znth s0 (ell_value A) (j * ell_n A + i))) HR). unfold erow. cbn [fst]. lia.
  - intros y1 HR. eapply mvh_done; eauto. { apply ell_in_shape; auto. } rewrite Hsq.
    replace (map trc (ell_entries A)) with (flat_map (fun j => map (fun i => (znth 0 (ell_index A) (j * ell_n A + i), i, sconj (znth s0 (ell_value A) (j * ell_n A + i))) : entry T) (zrange 0 (ell_n A))) (zrange 0 (ell_maxnzr A))); [exact HR|].
    unfold ell_entries. rewrite map_flat_map. apply flat_map_ext. intros j. rewrite map_map. reflexivity.
Qed.

Lemma dns_in_shape (A : dns T) : dns_ok A -> in_shape (dns_n A) (dns_np A) (dns_entries A).
Proof.
  intros _ e He. apply in_flat_map in He. destruct He as (j & Hj & He). apply in_map_iff in He. destruct He as (i & <- & Hi).
  apply In_zrange in Hj. apply In_zrange in Hi. unfold erow, ecol; cbn [fst snd]. auto.
Qed.
Theorem matvec_dns_wp (A : dns T) x y : dns_ok A -> dns_np A <= zlen x -> dns_n A <= zlen y ->
  computes_mv (matvec_dns A x y) (dns_entries A) (dns_n A) (dns_np A) x y.
Proof.
  intros Hok Hx Hy. pose proof Hok as (Hn & Lv).
  unfold computes_mv, matvec_dns. cbv zeta. apply wp_bind, (zero_to_wp _ _ _ (znth s0 x) (fun r => r)); [lia|]. intros y0 H0.
  apply (for2_acc (znth s0 x) (dns_n A) (zlen y) (fun j i => (i, j, znth s0 (dns_value A) (j * dns_n A + i))) 0 (dns_np A) (fun _ => 0) (fun _ => dns_n A)); auto.
  - intros j i y1 d Hj Hi HR. pose proof (mul_range (dns_n A) (dns_np A) j i Hi Hj).
    wrd s0; [lia|]. wrd s0; [lia|].
    apply (acc_step_id (znth s0 x) 0 (dns_n A) (zlen y) d y1 (i, j, znth s0 (dns_value A) (j * dns_n A + i)) HR). unfold erow. cbn [fst]. lia.
  - intros y1 HR. eapply mv_done; eauto. apply dns_in_shape; auto.
Qed.
Theorem matvech_dns_wp (HC : conj_ok S) (A : dns T) x y : dns_ok A -> dns_n A <= zlen x -> dns_np A <= zlen y ->
  computes_mvh (matvech_dns A x y) (dns_entries A) (dns_n A) (dns_np A) x y.
Proof.
  intros Hok Hx Hy. pose proof Hok as (Hn & Lv).
  unfold computes_mvh, matvech_dns. cbv zeta.
  set (g := fun j => map (fun i => (j, i, sconj (znth s0 (dns_value A) (j * dns_n A + i))) : entry T) (zrange 0 (dns_n A))).
  assert (HE : map trc (dns_entries A) = flat_map g (zrange 0 (dns_np A))).
  { unfold dns_entries. rewrite map_flat_map. apply flat_map_ext. intros j. rewrite map_map. reflexivity. }
  apply (for_rows (mvE (map trc (dns_entries A)) (znth s0 x))); [lia| |].
  - intros j y' K Hj Hy' HK. apply wp_bind.
    apply (for_sum (fun i => smul (sconj (znth s0 (dns_value A) (j * dns_n A + i))) (znth s0 x i))).
    + intros i t Hi. pose proof (mul_range (dns_n A) (dns_np A) j i Hi Hj).
      rewrite (rd_ok s0) by lia. cbn [bind]. rewrite (rd_ok s0) by lia. reflexivity.
    + apply wp_wr; [lia|].
      match goal with |- K (zupd _ _ ?v) => replace v with (mvE (map trc (dns_entries A)) (znth s0 x) j); [exact HK|] end.
      rewrite HE, mvE_rows; [|lia|]. { unfold g. rewrite map_map. unfold eval, ecol. cbn [fst snd]. ring. }
      intros q e He. apply in_map_iff in He. destruct He as (k & <- & _). reflexivity.
  - intros y' L H. apply (mvh_done HC _ _ _ _ (zlen y)); auto. { apply dns_in_shape; auto. } split; auto.
Qed.

Lemma dia_in_shape (A : dia T) : dia_ok A -> in_shape (dia_n A) (dia_np A) (dia_entries A).
Proof.
  intros (Hn & Hsq & _). rewrite Hsq. unfold dia_entries. intros e He. apply in_flat_map in He. destruct He as (d & Hd & He).
  apply in_map_iff in He. destruct He as (i & <- & Hi). apply In_zrange in Hi. unfold erow, ecol. cbn [fst snd].
  set (z := znth 0 (dia_index A) d) in *. lia.
Qed.
Theorem matvec_dia_wp (A : dia T) x y : dia_ok A -> dia_np A <= zlen x -> dia_n A <= zlen y ->
  computes_mv (matvec_dia A x y) (dia_entries A) (dia_n A) (dia_np A) x y.
Proof.
  intros Hok Hx Hy. pose proof Hok as (Hn & Hsq & Hm & Li & Lv).
  unfold computes_mv, matvec_dia. cbv zeta. apply wp_bind, (zero_to_wp _ _ _ (znth s0 x) (fun r => r)); [lia|]. intros y0 H0.
  set (R := acc_rep (znth s0 x) (fun r => r) 0 (dia_n A) (zlen y)).
  set (f := fun d i => (i, i + znth 0 (dia_index A) d, znth s0 (dia_value A) (d * dia_n A + i)) : entry T).
  apply (for_items R (dia_entries A) (fun d => map (f d) (zrange (Z.max 0 (- znth 0 (dia_index A) d)) (Z.min (dia_n A) (dia_n A - znth 0 (dia_index A) d)))) 0 (dia_nnd A) _ []); auto.
  - apply prefix_refl.
  - intros j s d Hj _ Hpre HR. wrd 0; [lia|]. set (jj := znth 0 (dia_index A) j) in *.
    rewrite <- flat_map_single. apply (for_items0 R (d ++ flat_map (fun i => [f j i]) (zrange (Z.max 0 (- jj)) (Z.min (dia_n A) (dia_n A - jj)))) (fun i => [f j i]) _ _ _ d); auto.
    { apply prefix_refl. }
    intros i s' d' Hi _ _ HR'. pose proof (mul_range (dia_n A) (dia_nnd A) j i ltac:(lia) Hj).
    wrd s0; [lia|]. wrd s0; [lia|]. rewrite (Z.add_comm jj i).
    apply (acc_step_id (znth s0 x) 0 (dia_n A) (zlen y) d' s' (f j i) HR'). unfold f, erow. cbn [fst]. lia.
  - intros s HR. eapply mv_done; eauto. apply dia_in_shape; auto.
Qed.
Theorem matvech_dia_wp (HC : conj_ok S) (A : dia T) x y : dia_ok A -> dia_n A <= zlen x -> dia_np A <= zlen y ->
  computes_mvh (matvech_dia A x y) (dia_entries A) (dia_n A) (dia_np A) x y.
Proof.
  intros Hok Hx Hy. pose proof Hok as (Hn & Hsq & Hm & Li & Lv).
  unfold computes_mvh, matvech_dia. cbv zeta. apply wp_bind, (zero_to_wp _ _ _ (znth s0 x) (fun r => r)); [lia|]. intros y0 H0.
  set (R := acc_rep (znth s0 x) (fun r => r) 0 (dia_np A) (zlen y)).
  set (f := fun d i => (i + znth 0 (dia_index A) d, i, sconj (znth s0 (dia_value A) (d * dia_n A + i))) : entry T).
  assert (HE : map trc (dia_entries A) = flat_map (fun d => map (f d) (zrange (Z.max 0 (- znth 0 (dia_index A) d)) (Z.min (dia_n A) (dia_n A - znth 0 (dia_index A) d)))) (zrange 0 (dia_nnd A))).
  { unfold dia_entries. rewrite map_flat_map. apply flat_map_ext. intros d. rewrite map_map. reflexivity. }
  apply (for_items R (map trc (dia_entries A)) (fun d => map (f d) (zrange (Z.max 0 (- znth 0 (dia_index A) d)) (Z.min (dia_n A) (dia_n A - znth 0 (dia_index A) d)))) 0 (dia_nnd A) _ []); auto.
  - rewrite HE. apply prefix_refl.
  - intros j s d Hj _ Hpre HR. wrd 0; [lia|]. set (jj := znth 0 (dia_index A) j) in *.
    rewrite <- flat_map_single. apply (for_items0 R (d ++ flat_map (fun i => [f j i]) (zrange (Z.max 0 (- jj)) (Z.min (dia_n A) (dia_n A - jj)))) (fun i => [f j i]) _ _ _ d); auto.
    { apply prefix_refl. }
    intros i s' d' Hi _ _ HR'. pose proof (mul_range (dia_n A) (dia_nnd A) j i ltac:(lia) Hj).
    wrd s0; [lia|]. wrd s0; [lia|]. rewrite (Z.add_comm jj i).
    apply (acc_step_id (znth s0 x) 0 (dia_np A) (zlen y) d' s' (f j i) HR'). unfold f, erow. cbn [fst]. fold jj. lia.
  - cbn [app]. intros s HR. rewrite <- HE in HR. eapply mvh_done; eauto. apply dia_in_shape; auto.
Qed.

End MV.
