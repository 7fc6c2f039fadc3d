(** The split matrix-vector products and the triangular solves *)
Require Import ZArith List Bool Lia Permutation Ring Field.
From Verif Require Import Base Scalar Spec Items CscProof Fmt AssembleProof MatvecProof Split SpecSplit DiagProof DiagProof2 SplitProof.
Import ListNotations.
Open Scope Z_scope.

Section P.
Context {T : Type} {S : Scalar T}.
Hypothesis RT : is_ring S.
Let RT' : @ring_theory T s0 s1 sadd smul ssub sopp (@eq T) := RT.
Add Ring scalar_ring_sp2 : RT'.

Lemma mvE_ext (E : list (entry T)) x y i : (forall e, In e E -> erow e = i -> x (ecol e) = y (ecol e)) -> mvE E x i = mvE E y i.
Proof.
  intros H. unfold mvE. apply ssum_map_ext. intros e He. apply filter_In in He. destruct He as [He Er]. apply Z.eqb_eq in Er. rewrite H; auto.
Qed.
Lemma mvE_csr (B : csr T) x i : 0 <= i < csr_n B ->
  mvE (csr_entries B) x i = ssum (map (fun k => smul (znth s0 (csr_value B) k) (x (znth 0 (csr_index B) k))) (zrange (znth 0 (csr_ptr B) i) (znth 0 (csr_ptr B) (i + 1)))).
Proof.
  intros Hi. rewrite csr_entries_rows, (mvE_rows RT (rowE B)); auto. { unfold rowE. rewrite map_map. reflexivity. }
  intros q e He. apply (rowE_row B); auto.
Qed.
Lemma mvE_diag n (d : list T) x i : 0 <= i < n -> mvE (diag_entries n d) x i = smul (znth s0 d i) (x i).
Proof.
  intros Hi. unfold diag_entries. rewrite <- flat_map_single. rewrite (mvE_rows RT (fun i => [(i, i, znth s0 d i) : entry T])); auto.
  - cbn [map ssum fold_right]. unfold eval, ecol; cbn [fst snd]. cbn. ring.
  - intros q e [<-|[]]. reflexivity.
Qed.
Lemma diag_shape n np (d : list T) : n <= np -> in_shape n np (diag_entries n d).
Proof. intros H e He. apply in_map_iff in He. destruct He as (i & <- & Hi). apply In_zrange in Hi. unfold erow, ecol; cbn [fst snd]. lia. Qed.

Lemma row_add_wp (B : csr T) x i t (Q : T -> Prop) : csr_ok B -> 0 <= i < csr_n B -> csr_np B <= zlen x ->
  Q (sadd t (mvE (csr_entries B) (znth s0 x) i)) -> wp (row_add B x i t) Q.
Proof.
  intros HB Hi Hx HQ. pose proof HB as (Hp & Hnp & Hz & Hli & Hlv & Hix). pose proof Hp as (Hn & Hlp & _ & Hm). unfold row_add. wrd 0; [lia|]. wrd 0; [lia|].
  apply (for_sum RT (fun k => smul (znth s0 (csr_value B) k) (znth s0 x (znth 0 (csr_index B) k)))).
  - intros k t' Hk. pose proof (csr_pos B i k HB Hi Hk) as Hb. specialize (Hix k Hb). rewrite (rd_ok 0) by lia. cbn [bind]. rewrite (rd_ok s0) by lia. cbn [bind]. rewrite (rd_ok s0) by lia. reflexivity.
  - rewrite mvE_csr in HQ by auto. exact HQ.
Qed.
Lemma ssum_opp {A} (f : A -> T) l : ssum (map (fun k => sopp (f k)) l) = sopp (ssum (map f l)).
Proof. induction l as [|a l IH]; cbn; [ring|]. unfold ssum in *. rewrite IH. ring. Qed.
Lemma row_sub_wp (B : csr T) x i t (Q : T -> Prop) : csr_ok B -> 0 <= i < csr_n B -> csr_np B <= zlen x ->
  Q (ssub t (mvE (csr_entries B) (znth s0 x) i)) -> wp (row_sub B x i t) Q.
Proof.
  intros HB Hi Hx HQ. pose proof HB as (Hp & Hnp & Hz & Hli & Hlv & Hix). pose proof Hp as (Hn & Hlp & _ & Hm). unfold row_sub. wrd 0; [lia|]. wrd 0; [lia|].
  apply (for_sum RT (fun k => sopp (smul (znth s0 (csr_value B) k) (znth s0 x (znth 0 (csr_index B) k))))).
  - intros k t' Hk. pose proof (csr_pos B i k HB Hi Hk) as Hb. specialize (Hix k Hb). rewrite (rd_ok 0) by lia. cbn [bind]. rewrite (rd_ok s0) by lia. cbn [bind]. rewrite (rd_ok s0) by lia. cbn [bind]. f_equal. ring.
  - rewrite mvE_csr in HQ by auto. rewrite ssum_opp. replace (sadd t (sopp _)) with (ssub t (ssum (map (fun k => smul (znth s0 (csr_value B) k) (znth s0 x (znth 0 (csr_index B) k))) (zrange (znth 0 (csr_ptr B) i) (znth 0 (csr_ptr B) (i + 1)))))) by ring. exact HQ.
Qed.

Lemma trc_one i c v (x : Z -> T) r : mvE [trc ((i, c, v) : entry T)] x r = if c =? r then smul (sconj v) (x i) else s0.
Proof. rewrite (mvE_one RT). reflexivity. Qed.

(** the transposed row i applied to the scalar t *)
Definition colE (B : csr T) (i : Z) (t : T) (k : Z) : T := mvE (map trc (rowE B i)) (fun _ => t) k.
Lemma colE_x (B : csr T) i x k : mvE (map trc (rowE B i)) x k = colE B i (x i) k.
Proof. apply mvE_ext. intros e He _. apply in_map_iff in He. destruct He as (e' & <- & He'). apply rowE_row in He'. unfold trc, ecol at 1; cbn [fst snd]. rewrite He'. auto. Qed.
Lemma colE_zero (B : csr T) i t k : (forall e, In e (rowE B i) -> ecol e <> k) -> colE B i t k = s0.
Proof. intros H. apply mvE_disj. intros e He. apply in_map_iff in He. destruct He as (e' & <- & He'). unfold trc, erow; cbn [fst snd]. auto. Qed.

Lemma acc_col (op : T -> T -> T) (B : csr T) i t x (Q : list T -> Prop)
  (Hop : forall w a b, op w (sadd a b) = op (op w a) b) (H0 : forall w, op w s0 = w) : csr_ok B -> 0 <= i < csr_n B -> csr_np B <= zlen x ->
  (forall x', zlen x' = zlen x -> (forall k, 0 <= k < zlen x -> znth s0 x' k = op (znth s0 x k) (colE B i t k)) -> Q x') ->
  wp (js <- rd (csr_ptr B) i ;; je <- rd (csr_ptr B) (i + 1) ;;
  for_ js je (fun j x => c <- rd (csr_index B) j ;; v <- rd (csr_value B) j ;; w <- rd x c ;; wr x c (op w (smul (sconj v) t))) x) Q.
Proof.
  intros HB Hi Hx HQ. pose proof HB as (Hp & Hnp & Hz & Hli & Hlv & Hix). pose proof Hp as (Hn & Hlp & _ & Hm). wrd 0; [lia|]. wrd 0; [lia|].
  apply (for_app (fun dn x' => zlen x' = zlen x /\ forall k, 0 <= k < zlen x -> znth s0 x' k = op (znth s0 x k) (mvE (map trc dn) (fun _ => t) k))
     (fun k => [(i, znth 0 (csr_index B) k, znth s0 (csr_value B) k) : entry T]) _ _ _ []).
  - split; [auto|]. intros k Hk. cbn [map]. rewrite mvE_nil, H0. auto.
  - intros k x' dn Hk (L & HR). pose proof (csr_pos B i k HB Hi Hk) as Hb. specialize (Hix k Hb). wrd 0; [lia|]. wrd s0; [lia|]. wrd s0; [lia|]. apply wp_wr; [lia|].
    split; [len|]. intros r Hr. rewrite map_app. cbn [map]. rewrite (mvE_app RT), trc_one. rewrite znth_zupd by lia. rewrite Hop, <- HR by lia.
    destruct (Z.eqb_spec r (znth 0 (csr_index B) k)) as [->|Ne].
    + rewrite Z.eqb_refl. auto.
    + rewrite (proj2 (Z.eqb_neq _ _)) by auto. rewrite H0. auto.
  - intros x' (L & HR). apply HQ; [auto|]. intros k Hk. rewrite (HR k Hk). cbn [app]. rewrite flat_map_single. reflexivity.
Qed.
Lemma col_add_wp (B : csr T) i t x (Q : list T -> Prop) : csr_ok B -> 0 <= i < csr_n B -> csr_np B <= zlen x ->
  (forall x', zlen x' = zlen x -> (forall k, 0 <= k < zlen x -> znth s0 x' k = sadd (znth s0 x k) (colE B i t k)) -> Q x') -> wp (col_add B i t x) Q.
Proof. intros. apply (acc_col sadd); auto; intros; ring. Qed.
Lemma col_sub_wp (B : csr T) i t x (Q : list T -> Prop) : csr_ok B -> 0 <= i < csr_n B -> csr_np B <= zlen x ->
  (forall x', zlen x' = zlen x -> (forall k, 0 <= k < zlen x -> znth s0 x' k = ssub (znth s0 x k) (colE B i t k)) -> Q x') -> wp (col_sub B i t x) Q.
Proof. intros. apply (acc_col ssub); auto; intros; ring. Qed.
Lemma col_live_wp (B : csr T) i x (Q : list T -> Prop) : csr_ok B -> 0 <= i < csr_n B -> csr_np B <= zlen x -> (forall e, In e (rowE B i) -> ecol e <> i) ->
  (forall x', zlen x' = zlen x -> (forall k, 0 <= k < zlen x -> znth s0 x' k = ssub (znth s0 x k) (colE B i (znth s0 x i) k)) -> Q x') -> wp (col_sub_live B i x) Q.
Proof.
  intros HB Hi Hx Hd HQ. pose proof HB as (Hp & Hnp & Hz & Hli & Hlv & Hix). pose proof Hp as (Hn & Hlp & _ & Hm). unfold col_sub_live. wrd 0; [lia|]. wrd 0; [lia|].
  apply (for_app (fun dn x' => zlen x' = zlen x /\ znth s0 x' i = znth s0 x i /\ forall k, 0 <= k < zlen x -> znth s0 x' k = ssub (znth s0 x k) (mvE (map trc dn) (fun _ => znth s0 x i) k))
     (fun k => [(i, znth 0 (csr_index B) k, znth s0 (csr_value B) k) : entry T]) _ _ _ []).
  - split; [auto|]. split; [auto|]. intros k Hk. cbn [map]. rewrite mvE_nil. ring.
  - intros k x' dn Hk (L & HI & HR). pose proof (csr_pos B i k HB Hi Hk) as Hb. specialize (Hix k Hb). wrd 0; [lia|]. wrd s0; [lia|]. wrd s0; [lia|]. wrd s0; [lia|]. apply wp_wr; [lia|].
    assert (Ne : znth 0 (csr_index B) k <> i). { apply (Hd (i, znth 0 (csr_index B) k, znth s0 (csr_value B) k)). unfold rowE. apply in_map_iff. exists k. split; auto. apply In_zrange; auto. }
    split; [len|]. split; [rewrite znth_zupd_neq; auto; lia|]. intros r Hr. rewrite map_app. cbn [map]. rewrite (mvE_app RT), trc_one. rewrite znth_zupd by lia.
    destruct (Z.eqb_spec r (znth 0 (csr_index B) k)) as [->|Ne'].
    + rewrite Z.eqb_refl, HI, (HR (znth 0 (csr_index B) k)) by lia. ring.
    + rewrite (proj2 (Z.eqb_neq _ _)) by auto. rewrite HR by lia. ring.
  - intros x' (L & _ & HR). apply HQ; [auto|]. intros k Hk. rewrite (HR k Hk). cbn [app]. rewrite flat_map_single. reflexivity.
Qed.

(** ** matvec *)
Lemma split_shape (A : split T) : split_ok A -> in_shape (sp_n A) (sp_np A) (split_entries A).
Proof.
  intros (HL & L1 & L2 & L3 & HU & U1 & U2 & U3 & HD). pose proof HL as (_ & Hnp & _). rewrite L1, L2 in Hnp.
  intros e He. unfold split_entries in He. apply in_app_or in He. destruct He as [He|He]; [apply (csr_in_shape _ HL) in He; rewrite L1, L2 in He; auto|].
  apply in_app_or in He. destruct He as [He|He]; [apply (diag_shape _ (sp_np A)) in He; auto|apply (csr_in_shape _ HU) in He; rewrite U1, U2 in He; auto].
Qed.
Lemma matvec_split_wp (A : split T) x y : split_ok A -> sp_np A <= zlen x -> sp_n A <= zlen y ->
  computes_mv (matvec_split A x y) (split_entries A) (sp_n A) (sp_np A) x y.
Proof.
  intros HA Hx Hy. pose proof (split_shape A HA) as Hsh. destruct HA as (HL & L1 & L2 & L3 & HU & U1 & U2 & U3 & HD). pose proof HL as ((Hn & _) & Hnp & _). rewrite L1, L2 in *.
  unfold computes_mv, matvec_split.
  apply (for_rows (fun i => mvE (split_entries A) (znth s0 x) i)); [lia| |].
  - intros i y' K Hi Hy' HK. wrd s0; [lia|]. wrd s0; [lia|]. wbind. apply row_add_wp; [auto|lia|lia|]. wbind. apply row_add_wp; [auto|lia|lia|]. apply wp_wr; [lia|].
    replace (sadd (sadd _ _) _) with (mvE (split_entries A) (znth s0 x) i); [exact HK|]. unfold split_entries. rewrite !(mvE_app RT), mvE_diag by lia. ring.
  - intros y' L H. split; auto. intros i Hi. rewrite H by auto. symmetry. apply (mv_spec_mvE RT). intros e He _. apply Hsh; auto.
Qed.

Definition H_ (B : csr T) (lo hi : Z) (x : Z -> T) (k : Z) : T := mvE (map trc (flat_map (rowE B) (zrange lo hi))) x k.
Lemma H_snoc B lo hi x k : lo <= hi -> H_ B lo (hi + 1) x k = sadd (H_ B lo hi x k) (colE B hi (x hi) k).
Proof. intros H. unfold H_. rewrite zrange_snoc by lia. rewrite flat_map_app, map_app, (mvE_app RT). cbn [flat_map]. rewrite app_nil_r. rewrite colE_x. auto. Qed.
Lemma H_cons B lo hi x k : lo < hi -> H_ B lo hi x k = sadd (colE B lo (x lo) k) (H_ B (lo + 1) hi x k).
Proof. intros H. unfold H_. rewrite zrange_cons by lia. cbn [flat_map]. rewrite map_app, (mvE_app RT). rewrite colE_x. auto. Qed.
Lemma H_empty B lo x k : H_ B lo lo x k = s0.
Proof. unfold H_. rewrite zrange_empty by lia. reflexivity. Qed.
Lemma H_ext B lo hi x y k : (forall r, lo <= r < hi -> x r = y r) -> H_ B lo hi x k = H_ B lo hi y k.
Proof.
  intros H. apply mvE_ext. intros e He _. apply in_map_iff in He. destruct He as (e' & <- & He'). apply in_flat_map in He'. destruct He' as (r & Hr & He'). apply In_zrange in Hr. apply rowE_row in He'.
  unfold trc, ecol; cbn [fst snd]. rewrite He'. auto.
Qed.
Lemma H_all (B : csr T) x k : H_ B 0 (csr_n B) x k = mvE (map trc (csr_entries B)) x k.
Proof. reflexivity. Qed.

Lemma mvh_mvE (HC : conj_ok S) E n np x k : in_shape n np E -> mvh_spec E n x k = mvE (map trc E) x k.
Proof.
  intros Hs. rewrite (mvh_mv HC). apply (mv_spec_mvE RT). intros e He _. apply in_map_iff in He. destruct He as (e' & <- & He'). unfold trc, ecol; cbn [fst snd]. apply Hs; auto.
Qed.
Lemma trc_diag n (d : list T) x k : 0 <= k < n -> mvE (map trc (diag_entries n d)) x k = smul (sconj (znth s0 d k)) (x k).
Proof.
  intros Hk. unfold diag_entries. rewrite map_map. rewrite <- flat_map_single. rewrite (mvE_rows RT (fun i => [trc ((i, i, znth s0 d i) : entry T)])); auto.
  - cbn [map ssum fold_right]. unfold trc, eval, ecol; cbn [fst snd]. cbn. ring.
  - intros q e [<-|[]]. reflexivity.
Qed.

Lemma acc_rows (B : csr T) x y n (Q : list T -> Prop) : csr_ok B -> csr_n B = n -> n <= zlen x -> csr_np B <= zlen y ->
  (forall y', zlen y' = zlen y -> (forall k, 0 <= k < zlen y -> znth s0 y' k = sadd (znth s0 y k) (mvE (map trc (csr_entries B)) (znth s0 x) k)) -> Q y') ->
  wp (for_ 0 n (fun i y => t <- rd x i ;; col_add B i t y) y) Q.
Proof.
  intros HB <- Hx Hy HQ. pose proof HB as ((Hn & _) & _).
  apply (for_wp' (fun i y' => zlen y' = zlen y /\ forall k, 0 <= k < zlen y -> znth s0 y' k = sadd (znth s0 y k) (H_ B 0 i (znth s0 x) k))); [lia| | |].
  - split; [auto|]. intros k Hk. rewrite H_empty. ring.
  - intros i y' Hi (L & HR). wrd s0; [lia|]. apply col_add_wp; [auto|lia|lia|]. intros y2 L2 HR2. split; [lia|]. intros k Hk. rewrite HR2, HR by lia. rewrite H_snoc by lia. ring.
  - intros y' (L & HR). apply HQ; auto.
Qed.
Lemma matvech_split_wp (HC : conj_ok S) (A : split T) x y : split_ok A -> sp_np A = sp_n A -> sp_n A <= zlen x -> sp_np A <= zlen y ->
  computes_mvh (matvech_split A x y) (split_entries A) (sp_n A) (sp_np A) x y.
Proof.
  intros HA Hnp Hx Hy. pose proof (split_shape A HA) as Hsh. destruct HA as (HL & L1 & L2 & L3 & HU & U1 & U2 & U3 & HD). pose proof HL as ((Hn & _) & _ & _). rewrite L1 in Hn. 
  unfold computes_mvh, matvech_split. rewrite Hnp in *. wbind.
  apply (for_rows (fun i => smul (sconj (znth s0 (sp_D A) i)) (znth s0 x i))); [lia| |].
  { intros i y' K Hi Hy' HK. wrd s0; [lia|]. wrd s0; [lia|]. apply wp_wr; [lia|]. auto. }
  intros y1 K1 H1. wbind. apply acc_rows; [auto|auto|lia|lia|]. intros y2 K2 H2. apply acc_rows; [auto|auto|lia|lia|]. intros y3 K3 H3.
  split; [lia|]. intros k Hk. rewrite H3, H2, H1 by lia. rewrite (mvh_mvE HC _ _ (sp_n A)) by auto. unfold split_entries. rewrite !map_app, !(mvE_app RT), trc_diag by lia. ring.
Qed.

(** ** solves *)
Lemma L_ext (A : split T) x y i : split_ok A -> (forall c, 0 <= c < i -> x c = y c) -> mvE (csr_entries (sp_L A)) x i = mvE (csr_entries (sp_L A)) y i.
Proof.
  intros (HL & L1 & L2 & L3 & _) H. apply mvE_ext. intros e He Er. apply H. pose proof (L3 e He). pose proof (csr_in_shape _ HL e He). lia.
Qed.
Lemma U_ext (A : split T) x y i : split_ok A -> (forall c, i < c -> x c = y c) -> mvE (csr_entries (sp_U A)) x i = mvE (csr_entries (sp_U A)) y i.
Proof.
  intros (HL & L1 & L2 & L3 & HU & U1 & U2 & U3 & HD) H. apply mvE_ext. intros e He Er. apply H. pose proof (U3 e He). lia.
Qed.
Lemma DL_mv (A : split T) x i : split_ok A -> 0 <= i < sp_n A ->
  mv_spec (DL A) (sp_np A) x i = sadd (smul (znth s0 (sp_D A) i) (x i)) (mvE (csr_entries (sp_L A)) x i).
Proof.
  intros HA Hi. pose proof (split_shape A HA) as Hsh. rewrite (mv_spec_mvE RT). { unfold DL. rewrite (mvE_app RT), mvE_diag by auto. ring. }
  intros e He _. apply Hsh. unfold DL, split_entries in *. rewrite !in_app_iff in *. tauto.
Qed.
Lemma DU_mv (A : split T) x i : split_ok A -> 0 <= i < sp_n A ->
  mv_spec (DU A) (sp_np A) x i = sadd (smul (znth s0 (sp_D A) i) (x i)) (mvE (csr_entries (sp_U A)) x i).
Proof.
  intros HA Hi. pose proof (split_shape A HA) as Hsh. rewrite (mv_spec_mvE RT). { unfold DU. rewrite (mvE_app RT), mvE_diag by auto. ring. }
  intros e He _. apply Hsh. unfold DU, split_entries in *. rewrite !in_app_iff in *. tauto.
Qed.
Lemma inv_mul (A : split T) wd i t : inverse_diag A wd -> 0 <= i < sp_n A -> smul (znth s0 (sp_D A) i) (smul t (znth s0 wd i)) = t.
Proof. intros (_ & H) Hi. specialize (H i Hi). replace (smul (znth s0 (sp_D A) i) (smul t (znth s0 wd i))) with (smul t (smul (znth s0 (sp_D A) i) (znth s0 wd i))) by ring. rewrite H. ring. Qed.

Lemma solve_lower_wp (A : split T) wd b x (Q : list T -> Prop) : split_ok A -> inverse_diag A wd -> sp_n A <= zlen b -> sp_np A <= zlen x ->
  (forall x', zlen x' = zlen x -> (forall k, sp_n A <= k -> znth s0 x' k = znth s0 x k) -> (forall i, 0 <= i < sp_n A -> mv_spec (DL A) (sp_np A) (znth s0 x') i = znth s0 b i) -> Q x') ->
  wp (solve_lower A wd b x) Q.
Proof.
  intros HA HW Hb Hx HQ. pose proof HA as (HL & L1 & L2 & L3 & HU & U1 & U2 & U3 & HD). pose proof HL as ((Hn & _) & Hnp & _). rewrite L1, L2 in *. pose proof HW as (Hw & _).
  unfold solve_lower. apply (for_wp' (fun i x' => zlen x' = zlen x /\ (forall k, sp_n A <= k -> znth s0 x' k = znth s0 x k) /\ forall r, 0 <= r < i -> mv_spec (DL A) (sp_np A) (znth s0 x') r = znth s0 b r)); [lia| | |].
  - split; [auto|]. split; [auto|]. intros; lia.
  - intros i x' Hi (L & G & HR). wrd s0; [lia|]. wbind. apply row_sub_wp; [auto|lia|lia|]. wrd s0; [lia|]. apply wp_wr; [lia|]. split; [len|]. split; [intros k Hk; rewrite znth_zupd_neq by lia; auto|].
    intros r Hr. rewrite DL_mv by (auto; lia). rewrite (L_ext A _ (znth s0 x') r HA) by (intros c Hc; rewrite znth_zupd_neq by lia; auto). destruct (Z.eq_dec r i) as [->|Ne].
    + rewrite znth_zupd_eq by lia. rewrite inv_mul by (auto; lia). ring.
    + rewrite znth_zupd_neq by lia. rewrite <- DL_mv by (auto; lia). apply HR; lia.
  - intros x' (L & G & HR). apply HQ; auto.
Qed.
Lemma solve_upper_wp (A : split T) wd b x (Q : list T -> Prop) : split_ok A -> inverse_diag A wd -> sp_n A <= zlen b -> sp_np A <= zlen x ->
  (forall x', zlen x' = zlen x -> (forall k, sp_n A <= k -> znth s0 x' k = znth s0 x k) -> (forall i, 0 <= i < sp_n A -> mv_spec (DU A) (sp_np A) (znth s0 x') i = znth s0 b i) -> Q x') ->
  wp (solve_upper A wd b x) Q.
Proof.
  intros HA HW Hb Hx HQ. pose proof HA as (HL & L1 & L2 & L3 & HU & U1 & U2 & U3 & HD). pose proof HL as ((Hn & _) & Hnp & _). rewrite L1, L2 in *. pose proof HW as (Hw & _).
  unfold solve_upper. apply (ford_wp' (fun i x' => zlen x' = zlen x /\ (forall k, sp_n A <= k -> znth s0 x' k = znth s0 x k) /\ forall r, i < r < sp_n A -> mv_spec (DU A) (sp_np A) (znth s0 x') r = znth s0 b r)); [lia| | |].
  - split; [auto|]. split; [auto|]. intros; lia.
  - intros i x' Hi (L & G & HR). wrd s0; [lia|]. wbind. apply row_sub_wp; [auto|lia|lia|]. wrd s0; [lia|]. apply wp_wr; [lia|]. split; [len|]. split; [intros k Hk; rewrite znth_zupd_neq by lia; auto|].
    intros r Hr. rewrite DU_mv by (auto; lia). rewrite (U_ext A _ (znth s0 x') r HA) by (intros c Hc; rewrite znth_zupd_neq by lia; auto). destruct (Z.eq_dec r i) as [->|Ne].
    + rewrite znth_zupd_eq by lia. rewrite inv_mul by (auto; lia). ring.
    + rewrite znth_zupd_neq by lia. rewrite <- DU_mv by (auto; lia). apply HR; lia.
  - intros x' (L & G & HR). apply HQ; auto. intros i Hi. apply HR; lia.
Qed.
Lemma solve_ssor_wp (A : split T) wd b x (Q : list T -> Prop) : split_ok A -> inverse_diag A wd -> sp_np A = sp_n A -> sp_n A <= zlen b -> sp_np A <= zlen x ->
  (forall x' z, zlen x' = zlen x -> (forall i, 0 <= i < sp_n A -> mv_spec (DL A) (sp_np A) z i = znth s0 b i) ->
     (forall i, 0 <= i < sp_n A -> mv_spec (DU A) (sp_np A) (znth s0 x') i = smul (znth s0 (sp_D A) i) (z i)) -> Q x') ->
  wp (solve_ssor A wd b x) Q.
Proof.
  intros HA HW Hsq Hb Hx HQ. pose proof HA as (HL & L1 & L2 & L3 & HU & U1 & U2 & U3 & HD). pose proof HL as ((Hn & _) & Hnp & _). rewrite L1, L2 in *. pose proof HW as (Hw & _).
  pose proof HU as (HpU & _ & HzU & HiU & HvU & HxU). rewrite U1, U2 in *. pose proof HpU as (_ & HlU & _ & HmU).
  unfold solve_ssor. wbind. apply solve_lower_wp; auto. intros z Lz _ Hz.
  apply (ford_wp' (fun i x' => zlen x' = zlen x /\ (forall k, 0 <= k <= i -> znth s0 x' k = znth s0 z k) /\ forall r, i < r < sp_n A -> mv_spec (DU A) (sp_np A) (znth s0 x') r = smul (znth s0 (sp_D A) r) (znth s0 z r))); [lia| | |].
  - split; [auto|]. split; [auto|]. intros; lia.
  - intros i x' Hi (L & G & HR). wrd 0; [lia|]. wrd 0; [lia|]. wbind.
    apply (for_sum RT (fun k => smul (znth s0 (csr_value (sp_U A)) k) (znth s0 x' (znth 0 (csr_index (sp_U A)) k)))).
    { intros k t' Hk. pose proof (csr_pos (sp_U A) i k HU ltac:(lia) Hk) as Hbk. specialize (HxU k Hbk). rewrite (rd_ok 0) by lia. cbn [bind]. destruct (Z.leb_spec (sp_n A) (znth 0 (csr_index (sp_U A)) k)); [lia|].
      rewrite (rd_ok s0) by lia. cbn [bind]. rewrite (rd_ok s0) by lia. reflexivity. }
    rewrite <- mvE_csr by lia. wrd s0; [lia|]. wrd s0; [lia|]. apply wp_wr; [lia|]. split; [len|]. split.
    { intros k Hk. rewrite znth_zupd_neq by lia. apply G; lia. }
    intros r Hr. rewrite DU_mv by (auto; lia). rewrite (U_ext A _ (znth s0 x') r HA) by (intros c Hc; rewrite znth_zupd_neq by lia; auto). destruct (Z.eq_dec r i) as [->|Ne].
    + rewrite znth_zupd_eq by lia. rewrite (G i) by lia.
      transitivity (sadd (ssub (smul (znth s0 (sp_D A) i) (znth s0 z i)) (smul (znth s0 (sp_D A) i) (smul (mvE (csr_entries (sp_U A)) (znth s0 x') i) (znth s0 wd i)))) (mvE (csr_entries (sp_U A)) (znth s0 x') i)); [ring|]. rewrite inv_mul by (auto; lia). ring.
    + rewrite znth_zupd_neq by lia. rewrite <- DU_mv by (auto; lia). apply HR; lia.
  - intros x' (L & G & HR). apply (HQ x' (znth s0 z)); auto. intros i Hi. apply HR; lia.
Qed.

(** *** conjugate transpose *)
Lemma DL_mvh (HC : conj_ok S) (A : split T) x k : split_ok A -> 0 <= k < sp_n A ->
  mvh_spec (DL A) (sp_n A) x k = sadd (smul (sconj (znth s0 (sp_D A) k)) (x k)) (H_ (sp_L A) 0 (sp_n A) x k).
Proof.
  intros HA Hk. pose proof (split_shape A HA) as Hsh. rewrite (mvh_mvE HC _ _ (sp_np A)). { unfold DL. rewrite map_app, (mvE_app RT), trc_diag by auto. destruct HA as (_ & L1 & _). rewrite <- H_all, L1. ring. }
  intros e He. apply Hsh. unfold DL, split_entries in *. rewrite !in_app_iff in *. tauto.
Qed.
Lemma DU_mvh (HC : conj_ok S) (A : split T) x k : split_ok A -> 0 <= k < sp_n A ->
  mvh_spec (DU A) (sp_n A) x k = sadd (smul (sconj (znth s0 (sp_D A) k)) (x k)) (H_ (sp_U A) 0 (sp_n A) x k).
Proof.
  intros HA Hk. pose proof (split_shape A HA) as Hsh. rewrite (mvh_mvE HC _ _ (sp_np A)). { unfold DU. rewrite map_app, (mvE_app RT), trc_diag by auto. destruct HA as (_ & L1 & _ & _ & _ & U1 & _). rewrite <- H_all, U1. ring. }
  intros e He. apply Hsh. unfold DU, split_entries in *. rewrite !in_app_iff in *. tauto.
Qed.
Lemma conj_inv (HC : conj_ok S) (A : split T) wd i t : inverse_diag A wd -> 0 <= i < sp_n A -> smul (sconj (znth s0 (sp_D A) i)) (smul t (sconj (znth s0 wd i))) = t.
Proof.
  intros (_ & H) Hi. specialize (H i Hi). destruct HC as (C1 & C2 & C3 & C4 & C5).
  replace (smul (sconj (znth s0 (sp_D A) i)) (smul t (sconj (znth s0 wd i)))) with (smul t (smul (sconj (znth s0 (sp_D A) i)) (sconj (znth s0 wd i)))) by ring.
  rewrite <- C2, H, C5. ring.
Qed.
Lemma rowE_in (B : csr T) i e : 0 <= i < csr_n B -> In e (rowE B i) -> In e (csr_entries B).
Proof. intros Hi He. rewrite csr_entries_rows. apply in_flat_map. exists i. split; auto. apply In_zrange; auto. Qed.
Lemma solveh_lower_wp (HC : conj_ok S) (A : split T) wd b (Q : list T -> Prop) : split_ok A -> inverse_diag A wd -> sp_np A <= zlen b ->
  (forall x', zlen x' = zlen b -> (forall i, 0 <= i < sp_n A -> mvh_spec (DU A) (sp_n A) (znth s0 x') i = znth s0 b i) -> Q x') ->
  wp (solveh_lower A wd b) Q.
Proof.
  intros HA HW Hb HQ. pose proof HA as (HL & L1 & L2 & L3 & HU & U1 & U2 & U3 & HD). pose proof HL as ((Hn & _) & Hnp & _). rewrite L1, L2 in *. pose proof HW as (Hw & _).
  unfold solveh_lower. apply (for_wp' (fun i x' => zlen x' = zlen b /\ forall k, 0 <= k < sp_n A -> sadd (if k <? i then smul (sconj (znth s0 (sp_D A) k)) (znth s0 x' k) else znth s0 x' k) (H_ (sp_U A) 0 i (znth s0 x') k) = znth s0 b k)); [lia| | |].
  - split; [auto|]. intros k Hk. rewrite H_empty. destruct (Z.ltb_spec k 0); [lia|]. ring.
  - intros i x' Hi (L & HR). wrd s0; [lia|]. wrd s0; [lia|]. wwr; [lia|].
    assert (Hst : forall e, In e (rowE (sp_U A) i) -> i < ecol e). { intros e He. pose proof (rowE_row _ _ _ He) as Er. rewrite <- Er. apply U3. apply (rowE_in _ i); auto. lia. }
    apply col_live_wp; [auto|lia|rewrite zlen_zupd; lia|intros e He; specialize (Hst e He); lia|]. rewrite zlen_zupd, znth_zupd_eq by lia.
    intros x2 L2' H2. split; [lia|].
    assert (Z0 : forall k t, k <= i -> colE (sp_U A) i t k = s0) by (intros k t Hk; apply colE_zero; intros e He; specialize (Hst e He); lia).
    assert (X2 : forall k, 0 <= k < i -> znth s0 x2 k = znth s0 x' k). { intros k Hk. rewrite H2 by lia. rewrite znth_zupd_neq, Z0 by lia. ring. }
    assert (X2i : znth s0 x2 i = smul (znth s0 x' i) (sconj (znth s0 wd i))). { rewrite H2 by lia. rewrite znth_zupd_eq, Z0 by lia. ring. }
    intros k Hk. rewrite H_snoc by lia. rewrite (H_ext _ _ _ (znth s0 x2) (znth s0 x') k) by (intros; apply X2; lia). rewrite X2i. specialize (HR k Hk).
    destruct (Z.ltb_spec k (i + 1)); destruct (Z.ltb_spec k i).
    + rewrite X2 by lia. rewrite Z0 by lia. rewrite <- HR. ring.
    + replace k with i in * by lia. rewrite X2i, (conj_inv HC) by (auto; lia). rewrite Z0 by lia. rewrite <- HR. ring.
    + lia.
    + rewrite H2 by lia. rewrite znth_zupd_neq by lia. rewrite <- HR. ring.
  - intros x' (L & HR). apply HQ; auto. intros i Hi. rewrite (DU_mvh HC) by auto. specialize (HR i Hi). destruct (Z.ltb_spec i (sp_n A)); [auto|lia].
Qed.
Lemma upper_core (HC : conj_ok S) (A : split T) wd b body (Q : list T -> Prop)
  (Hbody : forall i x (K : list T -> Prop), 0 <= i < sp_n A -> zlen x = zlen b -> let t := smul (znth s0 x i) (sconj (znth s0 wd i)) in
     (forall e, In e (rowE (sp_L A) i) -> ecol e < i) ->
     (forall x', zlen x' = zlen x -> (forall k, 0 <= k < zlen x -> znth s0 x' k = ssub (znth s0 (zupd x i t) k) (colE (sp_L A) i t k)) -> K x') -> wp (body i x) K) : split_ok A -> inverse_diag A wd -> sp_np A <= zlen b ->
  (forall x', zlen x' = zlen b -> (forall i, 0 <= i < sp_n A -> mvh_spec (DL A) (sp_n A) (znth s0 x') i = znth s0 b i) -> Q x') ->
  wp (for_down (sp_n A - 1) 0 body b) Q.
Proof.
  intros HA HW Hb HQ. pose proof HA as (HL & L1 & L2 & L3 & HU & U1 & U2 & U3 & HD). pose proof HL as ((Hn & _) & Hnp & _). rewrite L1, L2 in *. pose proof HW as (Hw & _).
  apply (ford_wp' (fun i x' => zlen x' = zlen b /\ forall k, 0 <= k < sp_n A -> sadd (if i <? k then smul (sconj (znth s0 (sp_D A) k)) (znth s0 x' k) else znth s0 x' k) (H_ (sp_L A) (i + 1) (sp_n A) (znth s0 x') k) = znth s0 b k)); [lia| | |].
  - split; [auto|]. intros k Hk. replace (sp_n A - 1 + 1) with (sp_n A) by lia. rewrite H_empty. destruct (Z.ltb_spec (sp_n A - 1) k); [lia|]. ring.
  - intros i x' Hi (L & HR).
    assert (Hst : forall e, In e (rowE (sp_L A) i) -> ecol e < i). { intros e He. pose proof (rowE_row _ _ _ He) as Er. rewrite <- Er. apply L3. apply (rowE_in _ i); auto. lia. }
    apply Hbody; [lia|lia|exact Hst|].
    intros x2 L2' H2. split; [lia|].
    assert (Z0 : forall k t, i <= k -> colE (sp_L A) i t k = s0) by (intros k t Hk; apply colE_zero; intros e He; specialize (Hst e He); lia).
    assert (X2 : forall k, i < k < sp_n A -> znth s0 x2 k = znth s0 x' k). { intros k Hk. rewrite H2 by lia. rewrite znth_zupd_neq, Z0 by lia. ring. }
    assert (X2i : znth s0 x2 i = smul (znth s0 x' i) (sconj (znth s0 wd i))). { rewrite H2 by lia. rewrite znth_zupd_eq, Z0 by lia. ring. }
    intros k Hk. replace (i - 1 + 1) with i by lia. rewrite H_cons by lia. rewrite (H_ext _ _ _ (znth s0 x2) (znth s0 x') k) by (intros; apply X2; lia). rewrite X2i. specialize (HR k Hk).
    destruct (Z.ltb_spec (i - 1) k); destruct (Z.ltb_spec i k).
    + rewrite X2 by lia. rewrite Z0 by lia. rewrite <- HR. ring.
    + replace k with i in * by lia. rewrite X2i, (conj_inv HC) by (auto; lia). rewrite Z0 by lia. rewrite <- HR. ring.
    + lia.
    + rewrite H2 by lia. rewrite znth_zupd_neq by lia. rewrite <- HR. ring.
  - intros x' (L & HR). apply HQ; auto. intros i Hi. rewrite (DL_mvh HC) by auto. specialize (HR i Hi). change (0 - 1 + 1) with 0 in HR. destruct (Z.ltb_spec (0 - 1) i); [auto|lia].
Qed.
Lemma solveh_upper_wp (HC : conj_ok S) (A : split T) wd b (Q : list T -> Prop) : split_ok A -> inverse_diag A wd -> sp_np A <= zlen b ->
  (forall x', zlen x' = zlen b -> (forall i, 0 <= i < sp_n A -> mvh_spec (DL A) (sp_n A) (znth s0 x') i = znth s0 b i) -> Q x') ->
  wp (solveh_upper A wd b) Q.
Proof.
  intros HA HW Hb HQ. pose proof HA as (HL & L1 & L2 & L3 & HU & U1 & U2 & U3 & HD). pose proof HL as ((Hn & _) & Hnp & _). rewrite L1, L2 in *. pose proof HW as (Hw & _).
  apply (upper_core HC A wd b); auto. intros i x K Hi Lx t Hst HK. wrd s0; [lia|]. wrd s0; [lia|]. wwr; [lia|].
  apply col_live_wp; [auto|lia|rewrite zlen_zupd; lia|intros e He; specialize (Hst e He); lia|]. rewrite zlen_zupd, znth_zupd_eq by lia. auto.
Qed.
Lemma solveh_ssor_wp (HC : conj_ok S) (A : split T) wd b (Q : list T -> Prop) : split_ok A -> inverse_diag A wd -> sp_np A <= zlen b ->
  (forall x' w, zlen x' = zlen b -> (forall i, 0 <= i < sp_n A -> mvh_spec (DU A) (sp_n A) w i = znth s0 b i) ->
     (forall i, 0 <= i < sp_n A -> mvh_spec (DL A) (sp_n A) (znth s0 x') i = smul (sconj (znth s0 (sp_D A) i)) (w i)) -> Q x') ->
  wp (solveh_ssor A wd b) Q.
Proof.
  intros HA HW Hb HQ. pose proof HA as (HL & L1 & L2 & L3 & HU & U1 & U2 & U3 & HD). pose proof HL as ((Hn & _) & Hnp & _). rewrite L1, L2 in *. pose proof HW as (Hw & _).
  set (W := fun (x : list T) k => smul (znth s0 x k) (sconj (znth s0 wd k))).
  unfold solveh_ssor. wbind. apply (for_wp' (fun i x' => zlen x' = zlen b /\ forall k, 0 <= k < sp_n A -> sadd (znth s0 x' k) (H_ (sp_U A) 0 i (W x') k) = znth s0 b k)); [lia| | |].
  - split; [auto|]. intros k Hk. rewrite H_empty. ring.
  - intros i x' Hi (L & HR). wrd s0; [lia|]. wrd s0; [lia|].
    assert (Hst : forall e, In e (rowE (sp_U A) i) -> i < ecol e). { intros e He. pose proof (rowE_row _ _ _ He) as Er. rewrite <- Er. apply U3. apply (rowE_in _ i); auto. lia. }
    apply col_sub_wp; [auto|lia|lia|]. intros x2 L2' H2. split; [lia|].
    assert (Z0 : forall k t, k <= i -> colE (sp_U A) i t k = s0) by (intros k t Hk; apply colE_zero; intros e He; specialize (Hst e He); lia).
    assert (X2 : forall k, 0 <= k <= i -> znth s0 x2 k = znth s0 x' k). { intros k Hk. rewrite H2 by lia. rewrite Z0 by lia. ring. }
    intros k Hk. rewrite H_snoc by lia. rewrite (H_ext _ _ _ (W x2) (W x') k) by (intros; unfold W; rewrite X2 by lia; auto). unfold W at 2. rewrite (X2 i) by lia. rewrite <- (HR k Hk). rewrite H2 by lia. ring.
  - intros x1 (L & HR).
    apply (upper_core HC A wd x1); auto; [|lia|].
    { intros i x K Hi Lx t Hst HK. wrd s0; [lia|]. wrd s0; [lia|]. wwr; [lia|].
      apply col_sub_wp; [auto|lia|rewrite zlen_zupd; lia|]. rewrite zlen_zupd. auto. }
    intros x2 L2' H2. apply (HQ x2 (W x1)); [lia| |].
    + intros i Hi. rewrite (DU_mvh HC) by auto. unfold W at 1. rewrite (conj_inv HC) by (auto; lia). apply HR; auto.
    + intros i Hi. rewrite H2 by auto. unfold W. rewrite (conj_inv HC) by (auto; lia). auto.
Qed.

(** ** final statements *)
Lemma wp_ex {A} (m : res A) (Q : A -> Prop) : wp m Q -> exists a, m = Ok a /\ Q a.
Proof. destruct m; cbn; intros H; try contradiction. eauto. Qed.
Lemma split_final jlp jli jlv jup jui juv jd (A : csr T) : csr_ok A -> no_dup_pos (csr_entries A) ->
  exists P, split_csr jlp jli jlv jup jui juv jd A = Ok P /\ split_ok P /\ sp_n P = csr_n A /\ sp_np P = csr_np A /\
    csr_entries (sp_L P) = filter lower (csr_entries A) /\ csr_entries (sp_U P) = filter upper (csr_entries A) /\
    (forall i, 0 <= i < csr_n A -> has_diag (csr_entries A) i = true -> znth s0 (sp_D P) i = coef (csr_entries A) i i).
Proof.
  intros HA Hu. destruct (wp_ex _ _ (split_wp jlp jli jlv jup jui juv jd A HA Hu)) as (P & E & H1 & H2 & H3 & H4 & H5 & H6). exists P. split; [auto|]. split; [auto|]. split; [auto|]. split; [auto|]. split; [auto|]. split; [auto|].
  intros i Hi Hd. apply has_diag_In in Hd. apply in_map_iff in Hd. destruct Hd as (e & Ee & He). assert (Er : erow e = i /\ ecol e = i) by (unfold erow, ecol; rewrite Ee; auto). destruct Er as [E1 E2].
  specialize (H6 e He ltac:(congruence)). rewrite E1 in H6. rewrite H6. pose proof (coef_unique RT _ e Hu He) as CU. rewrite E1, E2 in CU. auto.
Qed.
Lemma split_entries_perm (A : csr T) P : csr_ok A -> no_dup_pos (csr_entries A) -> (forall i, 0 <= i < csr_n A -> has_diag (csr_entries A) i = true) ->
  sp_n P = csr_n A -> csr_entries (sp_L P) = filter lower (csr_entries A) -> csr_entries (sp_U P) = filter upper (csr_entries A) ->
  (forall i, 0 <= i < csr_n A -> has_diag (csr_entries A) i = true -> znth s0 (sp_D P) i = coef (csr_entries A) i i) -> Permutation (split_entries P) (csr_entries A).
Proof.
  intros HA Hu Hd H1 H4 H5 H6. unfold split_entries. rewrite H4, H5, H1. symmetry. etransitivity; [apply split_perm|]. apply Permutation_app_head. apply Permutation_app_tail.
  apply (diag_perm _ (csr_np A)); auto. { apply csr_in_shape; auto. }
  intros e He Er. pose proof (csr_in_shape A HA e He) as [Hr _]. rewrite H6 by auto. { pose proof (coef_unique RT _ e Hu He) as CU. rewrite <- Er in CU. auto. }
Qed.
Lemma roundtrip_final jlp jli jlv jup jui juv jd jp ji jv (A : csr T) : csr_ok A -> no_dup_pos (csr_entries A) -> (forall i, 0 <= i < csr_n A -> has_diag (csr_entries A) i = true) ->
  exists P B, split_csr jlp jli jlv jup jui juv jd A = Ok P /\ merge_csr jp ji jv P = Ok B /\ csr_ok B /\ csr_n B = csr_n A /\ csr_np B = csr_np A /\ Permutation (csr_entries B) (csr_entries A).
Proof.
  intros HA Hu Hd. destruct (split_final jlp jli jlv jup jui juv jd A HA Hu) as (P & E & H3 & H1 & H2 & H4 & H5 & H6).
  destruct (wp_ex _ _ (merge_wp jp ji jv P H3)) as (B & EB & B1 & B2 & B3 & B4). exists P, B. split; [auto|]. split; [auto|]. split; [auto|]. split; [congruence|]. split; [congruence|].
  rewrite B4. apply split_entries_perm; auto.
Qed.
Lemma split_matvec_final jlp jli jlv jup jui juv jd (A : csr T) x y : csr_ok A -> no_dup_pos (csr_entries A) -> (forall i, 0 <= i < csr_n A -> has_diag (csr_entries A) i = true) ->
  csr_np A <= zlen x -> csr_n A <= zlen y ->
  exists P y', split_csr jlp jli jlv jup jui juv jd A = Ok P /\ matvec_split P x y = Ok y' /\ zlen y' = zlen y /\
    forall i, 0 <= i < csr_n A -> znth s0 y' i = mv_spec (csr_entries A) (csr_np A) (znth s0 x) i.
Proof.
  intros HA Hu Hd Hx Hy. destruct (split_final jlp jli jlv jup jui juv jd A HA Hu) as (P & E & H3 & H1 & H2 & H4 & H5 & H6).
  destruct (wp_ex _ _ (matvec_split_wp P x y H3 ltac:(lia) ltac:(lia))) as (y' & Ey & Y1 & Y2). exists P, y'. split; [auto|]. split; [auto|]. split; [auto|].
  intros i Hi. rewrite Y2 by lia. rewrite H2. unfold mv_spec. apply ssum_map_ext. intros j _. f_equal. apply (coef_perm RT). apply split_entries_perm; auto.
Qed.
Lemma split_matvech_final (HC : conj_ok S) jlp jli jlv jup jui juv jd (A : csr T) x y : csr_ok A -> no_dup_pos (csr_entries A) -> (forall i, 0 <= i < csr_n A -> has_diag (csr_entries A) i = true) ->
  csr_np A = csr_n A -> csr_n A <= zlen x -> csr_n A <= zlen y ->
  exists P y', split_csr jlp jli jlv jup jui juv jd A = Ok P /\ matvech_split P x y = Ok y' /\ zlen y' = zlen y /\
    forall j, 0 <= j < csr_np A -> znth s0 y' j = mvh_spec (csr_entries A) (csr_n A) (znth s0 x) j.
Proof.
  intros HA Hu Hd Hsq Hx Hy. destruct (split_final jlp jli jlv jup jui juv jd A HA Hu) as (P & E & H3 & H1 & H2 & H4 & H5 & H6).
  destruct (wp_ex _ _ (matvech_split_wp HC P x y H3 ltac:(lia) ltac:(lia) ltac:(lia))) as (y' & Ey & Y1 & Y2). exists P, y'. split; [auto|]. split; [auto|]. split; [auto|].
  intros i Hi. rewrite Y2 by lia. rewrite H1. unfold mvh_spec. apply ssum_map_ext. intros j _. f_equal. f_equal. apply (coef_perm RT). apply split_entries_perm; auto.
Qed.

Lemma diag_inverse_wp (FT : is_field S) n (d : list T) : 0 <= n <= zlen d -> (forall i, 0 <= i < n -> znth s0 d i <> s0) ->
  exists d', diag_inverse n d = Ok d' /\ zlen d' = zlen d /\ forall i, 0 <= i < n -> smul (znth s0 d i) (znth s0 d' i) = s1.
Proof.
  intros Hn Hd. apply wp_ex. unfold diag_inverse.
  apply (for_wp' (fun i d' => zlen d' = zlen d /\ (forall r, 0 <= r < i -> smul (znth s0 d r) (znth s0 d' r) = s1) /\ forall r, i <= r < n -> znth s0 d' r = znth s0 d r)); [lia| | |].
  - split; [auto|]. split; [intros; lia|auto].
  - intros i d' Hi (L & H1 & H2). wrd s0; [lia|]. apply wp_wr; [lia|]. split; [len|]. split.
    + intros r Hr. rewrite znth_zupd by lia. destruct (Z.eqb_spec r i) as [->|]; [|apply H1; lia]. rewrite H2 by lia. rewrite (Rmul_comm RT). apply (Finv_l FT). apply Hd; lia.
    + intros r Hr. rewrite znth_zupd_neq by lia. apply H2; lia.
  - intros d' (L & H1 & H2). auto.
Qed.
Lemma solve_lower_final (A : split T) wd b x : split_ok A -> inverse_diag A wd -> sp_n A <= zlen b -> sp_np A <= zlen x ->
  exists x', solve_lower A wd b x = Ok x' /\ zlen x' = zlen x /\ (forall k, sp_n A <= k -> znth s0 x' k = znth s0 x k) /\
    forall i, 0 <= i < sp_n A -> mv_spec (DL A) (sp_np A) (znth s0 x') i = znth s0 b i.
Proof. intros. apply wp_ex. apply solve_lower_wp; auto. Qed.
Lemma solve_upper_final (A : split T) wd b x : split_ok A -> inverse_diag A wd -> sp_n A <= zlen b -> sp_np A <= zlen x ->
  exists x', solve_upper A wd b x = Ok x' /\ zlen x' = zlen x /\ (forall k, sp_n A <= k -> znth s0 x' k = znth s0 x k) /\
    forall i, 0 <= i < sp_n A -> mv_spec (DU A) (sp_np A) (znth s0 x') i = znth s0 b i.
Proof. intros. apply wp_ex. apply solve_upper_wp; auto. Qed.
Lemma solve_ssor_final (A : split T) wd b x : split_ok A -> inverse_diag A wd -> sp_np A = sp_n A -> sp_n A <= zlen b -> sp_n A <= zlen x ->
  exists x' z, solve_ssor A wd b x = Ok x' /\ zlen x' = zlen x /\
    (forall i, 0 <= i < sp_n A -> mv_spec (DL A) (sp_n A) z i = znth s0 b i) /\
    (forall i, 0 <= i < sp_n A -> mv_spec (DU A) (sp_n A) (znth s0 x') i = smul (znth s0 (sp_D A) i) (z i)).
Proof.
  intros HA HW Hsq Hb Hx. assert (H : wp (solve_ssor A wd b x) (fun x' => exists z, zlen x' = zlen x /\ (forall i, 0 <= i < sp_n A -> mv_spec (DL A) (sp_n A) z i = znth s0 b i) /\
    (forall i, 0 <= i < sp_n A -> mv_spec (DU A) (sp_n A) (znth s0 x') i = smul (znth s0 (sp_D A) i) (z i)))).
  { apply solve_ssor_wp; auto; [lia|]. rewrite Hsq. intros x' z L H1 H2. exists z. auto. }
  apply wp_ex in H. destruct H as (x' & E & z & H). exists x', z. auto.
Qed.
Lemma solveh_lower_final (HC : conj_ok S) (A : split T) wd b : split_ok A -> inverse_diag A wd -> sp_np A <= zlen b ->
  exists x', solveh_lower A wd b = Ok x' /\ zlen x' = zlen b /\ forall i, 0 <= i < sp_n A -> mvh_spec (DU A) (sp_n A) (znth s0 x') i = znth s0 b i.
Proof. intros. apply wp_ex. apply (solveh_lower_wp HC); auto. Qed.
Lemma solveh_upper_final (HC : conj_ok S) (A : split T) wd b : split_ok A -> inverse_diag A wd -> sp_np A <= zlen b ->
  exists x', solveh_upper A wd b = Ok x' /\ zlen x' = zlen b /\ forall i, 0 <= i < sp_n A -> mvh_spec (DL A) (sp_n A) (znth s0 x') i = znth s0 b i.
Proof. intros. apply wp_ex. apply (solveh_upper_wp HC); auto. Qed.
Lemma solveh_ssor_final (HC : conj_ok S) (A : split T) wd b : split_ok A -> inverse_diag A wd -> sp_np A <= zlen b ->
  exists x' w, solveh_ssor A wd b = Ok x' /\ zlen x' = zlen b /\
    (forall i, 0 <= i < sp_n A -> mvh_spec (DU A) (sp_n A) w i = znth s0 b i) /\
    (forall i, 0 <= i < sp_n A -> mvh_spec (DL A) (sp_n A) (znth s0 x') i = smul (sconj (znth s0 (sp_D A) i)) (w i)).
Proof.
  intros HA HW Hb. assert (H : wp (solveh_ssor A wd b) (fun x' => exists w, zlen x' = zlen b /\ (forall i, 0 <= i < sp_n A -> mvh_spec (DU A) (sp_n A) w i = znth s0 b i) /\
    (forall i, 0 <= i < sp_n A -> mvh_spec (DL A) (sp_n A) (znth s0 x') i = smul (sconj (znth s0 (sp_D A) i)) (w i)))).
  { apply (solveh_ssor_wp HC); auto. intros x' w L H1 H2. exists w. auto. }
  apply wp_ex in H. destruct H as (x' & E & w & H). exists x', w. auto.
Qed.
End P.
