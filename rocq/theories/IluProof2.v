Require Import ZArith List Bool Lia Ring Field.
From Verif Require Import Base Items Scalar Spec Ilu SpecIlu DiagProof2 IluProof.
Import ListNotations.
Open Scope Z_scope.

Section P.
Context {T : Type} {S : Scalar T}.
Hypothesis RT : is_ring S.
Let RT' : @ring_theory T s0 s1 sadd smul ssub sopp (@eq T) := RT.
Add Ring TrIlu : RT'.

Definition SUM (m : Z) (f : Z -> T) : T := ssum (map f (zrange 0 m)).
Lemma SUM_0 f : SUM 0 f = s0.
Proof. reflexivity. Qed.
Lemma SUM_snoc m f : 0 <= m -> SUM (m + 1) f = sadd (SUM m f) (f m).
Proof. intros Hm. unfold SUM. rewrite zrange_snoc by lia. rewrite map_app, (ssum_app RT). cbn [map ssum]. ring. Qed.
Lemma SUM_ext m f g : (forall q, 0 <= q < m -> f q = g q) -> SUM m f = SUM m g.
Proof. intros H. apply ssum_map_ext. intros x Hx. apply H. apply In_zrange in Hx. auto. Qed.
Lemma SUM_zero m f : (forall q, 0 <= q < m -> f q = s0) -> SUM m f = s0.
Proof. intros H. rewrite (SUM_ext m f (fun _ => s0)) by auto. apply (ssum_map_zero RT). Qed.
Lemma SUM_split m k f : 0 <= k <= m -> SUM m f = sadd (SUM k f) (ssum (map f (zrange k m))).
Proof. intros Hk. unfold SUM. rewrite (zrange_app 0 k m) by lia. rewrite map_app, (ssum_app RT). auto. Qed.

(** row_at as an indexed sum *)
Lemma row_at_sum ix v c : zlen v = zlen ix -> row_at ix v c = SUM (zlen ix) (fun q => if znth 0 ix q =? c then znth s0 v q else s0).
Proof.
  unfold row_at, SUM. revert v. induction ix as [|x ix IH] using rev_ind; intros v Hl.
  - unfold zlen in Hl. destruct v; [reflexivity|cbn in Hl; lia].
  - destruct v as [|y v _] using rev_ind; [unfold zlen in Hl; rewrite app_length in Hl; cbn in Hl; lia|].
    assert (Hl' : zlen v = zlen ix) by (unfold zlen in *; rewrite !app_length in Hl; cbn in Hl; lia).
    assert (Hz : zlen (ix ++ [x]) = zlen ix + 1) by (unfold zlen; rewrite app_length; cbn; lia). rewrite Hz. pose proof (zlen_nonneg ix).
    rewrite zrange_snoc by lia. rewrite map_app, (ssum_app RT). cbn [map ssum].
    assert (Ec : combine (ix ++ [x]) (v ++ [y]) = combine ix v ++ [(x, y)]).
    { assert (Hn : length ix = length v) by (unfold zlen in Hl'; lia). clear - Hn. revert v Hn. induction ix as [|a ix IH]; intros [|b v] Hn; cbn in *; try discriminate; auto. f_equal. apply IH. lia. }
    rewrite Ec, map_app, (ssum_app RT). cbn [map ssum fst snd]. rewrite (IH v Hl'). f_equal; [|f_equal].
    + apply ssum_map_ext. intros q Hq. apply In_zrange in Hq. rewrite !znth_snoc_lt by lia. auto.
    + rewrite znth_snoc_last. rewrite <- Hl', znth_snoc_last. auto.
Qed.
Lemma row_at_out ix v c : zlen v = zlen ix -> (forall q, 0 <= q < zlen ix -> znth 0 ix q <> c) -> row_at ix v c = s0.
Proof. intros Hl H. rewrite row_at_sum by auto. apply SUM_zero. intros q Hq. destruct (Z.eqb_spec (znth 0 ix q) c); auto. exfalso; apply (H q); auto. Qed.
Lemma SUM_single m p f : 0 <= p < m -> (forall q, 0 <= q < m -> q <> p -> f q = s0) -> SUM m f = f p.
Proof.
  intros Hp H. rewrite (SUM_split m (p + 1)) by lia. rewrite SUM_snoc by lia. rewrite (SUM_zero p) by (intros; apply H; lia).
  rewrite (ssum_map_ext f (fun _ => s0) (zrange (p + 1) m)). { rewrite (ssum_map_zero RT). ring. } intros x Hx. apply In_zrange in Hx. apply H; lia.
Qed.
Lemma row_at_in ix v p : zlen v = zlen ix -> distinct_row ix -> 0 <= p < zlen ix -> row_at ix v (znth 0 ix p) = znth s0 v p.
Proof.
  intros Hl Hd Hp. rewrite row_at_sum by auto. rewrite (SUM_single _ p) by (auto; intros q Hq Hn; destruct (Z.eqb_spec (znth 0 ix q) (znth 0 ix p)); auto; exfalso; apply Hn; apply Hd; auto).
  rewrite Z.eqb_refl. auto.
Qed.
(** sums over columns of a sparse row times something *)
Lemma row_at_mul ix v (g : Z -> T) lo hi : zlen v = zlen ix -> (forall q, 0 <= q < zlen ix -> lo <= znth 0 ix q < hi) ->
  ssum (map (fun k => smul (row_at ix v k) (g k)) (zrange lo hi)) = SUM (zlen ix) (fun q => smul (znth s0 v q) (g (znth 0 ix q))).
Proof.
  intros Hl Hr. rewrite (ssum_map_ext _ (fun k => ssum (map (fun q => if znth 0 ix q =? k then smul (znth s0 v q) (g k) else s0) (zrange 0 (zlen ix))))).
  - rewrite (ssum_exchange RT). unfold SUM. apply ssum_map_ext. intros q Hq. apply In_zrange in Hq. specialize (Hr q Hq).
    rewrite (ssum_map_ext _ (fun k => if k =? znth 0 ix q then smul (znth s0 v q) (g (znth 0 ix q)) else s0)).
    + set (c := znth 0 ix q) in *. set (t := smul _ _). rewrite (zrange_app lo c hi) by lia. rewrite (zrange_cons c hi) by lia. rewrite map_app, (ssum_app RT). cbn [map ssum]. rewrite Z.eqb_refl.
      rewrite (ssum_map_ext _ (fun _ => s0) (zrange lo c)), (ssum_map_ext _ (fun _ => s0) (zrange (c + 1) hi)), !(ssum_map_zero RT); [ring| |]; intros x Hx; apply In_zrange in Hx; destruct (Z.eqb_spec x c); auto; lia.
    + intros k _. rewrite Z.eqb_sym. destruct (Z.eqb_spec k (znth 0 ix q)) as [->|]; auto.
  - intros k _. rewrite row_at_sum by auto. unfold SUM. rewrite <- (ssum_map_mul_r RT). apply ssum_map_ext. intros q _. destruct (znth 0 ix q =? k); ring.
Qed.

Lemma increasing_distinct l : increasing_row l -> distinct_row l.
Proof. intros H p q Hp Hq Ee. destruct (Z.lt_total p q) as [Hl|[|Hl]]; auto; [pose proof (H p q ltac:(lia) ltac:(lia))|pose proof (H q p ltac:(lia) ltac:(lia))]; lia. Qed.

Lemma in_row_ex (l : list Z) c : In c l -> exists p, 0 <= p < zlen l /\ znth 0 l p = c.
Proof. intros Hin. destruct (In_nth _ _ 0 Hin) as (p & Hp & Ep). exists (Z.of_nat p). split; [unfold zlen; lia|]. unfold znth. destruct (Z.ltb_spec (Z.of_nat p) 0); [lia|]. rewrite Nat2Z.id; auto. Qed.
Lemma ex_in_row (l : list Z) p : 0 <= p < zlen l -> In (znth 0 l p) l.
Proof. intros Hp. unfold znth. destruct (Z.ltb_spec p 0); [lia|]. apply nth_In. unfold zlen in Hp. lia. Qed.

(** ** numerical factorisation *)
Section Num.
Variable A : csr T.
Variables is_ ie : Z.
Let n := csr_n A.
Hypothesis Hok : csr_ok A.
Hypothesis Hnd : no_dup_pos (csr_entries A).
Hypothesis Hrange : 0 <= is_ <= ie /\ ie <= n.
Variables L U : list (list Z).
Hypothesis HlL : zlen L = n.
Hypothesis HlU : zlen U = n.
Local Notation LR i := (znth [] L i).
Local Notation UR i := (znth [] U i).
Hypothesis HL : forall i, is_ <= i < ie -> increasing_row (LR i) /\ forall p, 0 <= p < zlen (LR i) -> is_ <= znth 0 (LR i) p < i.
Hypothesis HU : forall i, is_ <= i < ie -> distinct_row (UR i) /\ forall p, 0 <= p < zlen (UR i) -> i < znth 0 (UR i) p < ie.
(** the pattern contains that of A *)
Hypothesis HA : forall i c, stored_in is_ ie (csr_entries A) i c -> (c < i -> exists p, 0 <= p < zlen (LR i) /\ znth 0 (LR i) p = c) /\ (i < c -> exists p, 0 <= p < zlen (UR i) /\ znth 0 (UR i) p = c).

Let a i c := coef (csr_entries A) i c.

Section Row.
Variable i : Z.
Hypothesis Hi : is_ <= i < ie.
Variable jw : list Z.
Hypothesis Hjl : zlen jw = n.
Hypothesis HjL : forall p, 0 <= p < zlen (LR i) -> znth 0 jw (znth 0 (LR i) p) = p.
Hypothesis HjU : forall p, 0 <= p < zlen (UR i) -> znth 0 jw (znth 0 (UR i) p) = p.
Hypothesis Hji : znth 0 jw i = i.
(** columns of the pattern of row i *)
Definition inS (c : Z) : Prop := is_ <= c < ie /\ znth 0 jw c <> -1.
Hypothesis HjS : forall c, inS c -> (c < i -> 0 <= znth 0 jw c < zlen (LR i) /\ znth 0 (LR i) (znth 0 jw c) = c) /\ (i < c -> 0 <= znth 0 jw c < zlen (UR i) /\ znth 0 (UR i) (znth 0 jw c) = c).

Definition val (s : @nrow T) (c : Z) : T := if c <? i then znth s0 (r_l s) (znth 0 jw c) else if c =? i then znth s0 (r_d s) i else znth s0 (r_u s) (znth 0 jw c).
Definition shape (s : @nrow T) : Prop := zlen (r_l s) = zlen (LR i) /\ zlen (r_u s) = zlen (UR i) /\ zlen (r_d s) = n.

Lemma inS_L p : 0 <= p < zlen (LR i) -> inS (znth 0 (LR i) p) /\ znth 0 (LR i) p < i.
Proof. intros Hp. destruct (HL i Hi) as [_ H]. specialize (H p Hp). split; [|lia]. split; [lia|]. rewrite HjL by auto. lia. Qed.
Lemma inS_U p : 0 <= p < zlen (UR i) -> inS (znth 0 (UR i) p) /\ i < znth 0 (UR i) p.
Proof. intros Hp. destruct (HU i Hi) as [_ H]. specialize (H p Hp). split; [|lia]. split; [lia|]. rewrite HjU by auto. lia. Qed.
Lemma inS_i : inS i.
Proof. split; auto. lia. Qed.
Lemma val_L s p : 0 <= p < zlen (LR i) -> val s (znth 0 (LR i) p) = znth s0 (r_l s) p.
Proof. intros Hp. destruct (inS_L p Hp) as [_ H]. unfold val. destruct (Z.ltb_spec (znth 0 (LR i) p) i); [|lia]. rewrite HjL; auto. Qed.
Lemma val_U s p : 0 <= p < zlen (UR i) -> val s (znth 0 (UR i) p) = znth s0 (r_u s) p.
Proof. intros Hp. destruct (inS_U p Hp) as [_ H]. unfold val. destruct (Z.ltb_spec (znth 0 (UR i) p) i); [lia|]. destruct (Z.eqb_spec (znth 0 (UR i) p) i); [lia|]. rewrite HjU; auto. Qed.
Lemma val_i s : val s i = znth s0 (r_d s) i.
Proof. unfold val. rewrite Z.ltb_irrefl, Z.eqb_refl. auto. Qed.

Lemma num_upd_wp c f s : inS c -> shape s ->
  wp (num_upd i c (znth 0 jw c) f s) (fun s' => shape s' /\ val s' c = f (val s c) /\ (forall c', inS c' -> c' <> c -> val s' c' = val s c') /\
    (forall k, k <> i -> znth s0 (r_d s') k = znth s0 (r_d s) k)).
Proof.
  intros Hc (S1 & S2 & S3). destruct (HjS c Hc) as [Hlo Hhi]. unfold num_upd, val, shape.
  destruct (Z.ltb_spec c i) as [Hlt|Hge].
  - destruct (Hlo Hlt) as [Hp Ep]. wrd s0; [lia|]. wwr; [lia|]. apply wp_ok. cbn [r_l r_u r_d]. rewrite zlen_zupd. split; auto. split; [rewrite znth_zupd_eq by lia; auto|]. split; auto.
    intros c' Hc' Hn. destruct (Z.ltb_spec c' i); auto. destruct (HjS c' Hc') as [Hlo' _]. destruct (Hlo' ltac:(lia)) as [Hp' Ep']. rewrite znth_zupd_neq; auto; [lia|]. intro Ee. apply Hn. congruence.
  - destruct (Z.eqb_spec c i) as [->|].
    + wrd s0; [lia|]. wwr; [lia|]. apply wp_ok. cbn [r_l r_u r_d]. rewrite zlen_zupd. split; auto. split; [rewrite znth_zupd_eq by lia; auto|]. split.
      * intros c' Hc' Hn. destruct (Z.ltb_spec c' i); auto. destruct (Z.eqb_spec c' i); [lia|auto].
      * intros k Hk. rewrite znth_zupd_neq by lia. auto.
    + destruct (Hhi ltac:(lia)) as [Hp Ep]. wrd s0; [lia|]. wwr; [lia|]. apply wp_ok. cbn [r_l r_u r_d]. rewrite zlen_zupd. split; auto. split; [rewrite znth_zupd_eq by lia; auto|]. split; auto.
      intros c' Hc' Hn. destruct (Z.ltb_spec c' i); auto. destruct (Z.eqb_spec c' i); [auto|]. destruct (HjS c' Hc') as [_ Hhi']. destruct (Hhi' ltac:(lia)) as [Hp' Ep']. rewrite znth_zupd_neq; auto; [lia|]. intro Ee. apply Hn. congruence.
Qed.

Lemma num_load_wp s : shape s -> (forall c, inS c -> val s c = s0) ->
  wp (num_load is_ ie A i jw s) (fun s' => shape s' /\ (forall c, inS c -> val s' c = a i c) /\ (forall k, k <> i -> znth s0 (r_d s') k = znth s0 (r_d s) k)).
Proof.
  intros Hs Hz. unfold num_load. pose proof Hok as (Hp & Hnp & He & Hl1 & Hl2 & Hcol). pose proof Hp as (Hn0 & Hpl & Hp0 & Hmono).
  fold n in Hn0, Hpl, Hnp, Hp, Hmono. wrd 0; [lia|]. wrd 0; [lia|].
  set (js := znth 0 (csr_ptr A) i). set (je := znth 0 (csr_ptr A) (i + 1)).
  apply (for_wp' (fun j s' => shape s' /\ (forall j', js <= j' < j -> inS (znth 0 (csr_index A) j') -> val s' (znth 0 (csr_index A) j') = znth s0 (csr_value A) j') /\
     (forall c, inS c -> (forall j', js <= j' < j -> znth 0 (csr_index A) j' <> c) -> val s' c = s0) /\ (forall k, k <> i -> znth s0 (r_d s') k = znth s0 (r_d s) k))).
  - apply Hmono. lia.
  - split; auto. split; [intros; lia|]. split; auto.
  - intros j s1 Hj (S1 & V1 & Z1 & D1). assert (Hjn : 0 <= j < csr_nnz A) by (apply (row_bounds A Hok i); [fold n; lia|exact Hj]).
    wrd 0; [lia|]. set (c := znth 0 (csr_index A) j).
    assert (Hst : is_ <= c < ie -> inS c).
    { intros Hc. split; auto. assert (Hsi : stored_in is_ ie (csr_entries A) i c).
      { split; auto. split; auto. exists (znth s0 (csr_value A) j). unfold csr_entries. apply in_flat_map. exists i. split; [apply In_zrange; fold n; lia|]. apply in_map_iff. exists j. split; [reflexivity|apply In_zrange; auto]. }
      destruct (HA i c Hsi) as [H1 H2]. destruct (Z.lt_total c i) as [Hlt|[->|Hgt]].
      - destruct (H1 Hlt) as (p & Hp' & <-). rewrite HjL by auto. lia.
      - lia.
      - destruct (H2 Hgt) as (p & Hp' & <-). rewrite HjU by auto. lia. }
    destruct (Z.leb_spec is_ c), (Z.ltb_spec c ie); cbn [andb].
    2-4: apply wp_ok; split; auto; split; [intros j' Hj' Hin; destruct (Z.eq_dec j' j) as [->|]; [destruct Hin as [Hin _]; fold c in Hin; lia|apply V1; auto; lia]|]; split; auto; intros c' Hc' Hno; apply Z1; auto; intros j' Hj'; apply Hno; lia.
    specialize (Hst ltac:(lia)). wrd 0; [lia|]. wrd s0; [lia|]. eapply wp_mono; [apply num_upd_wp; auto|].
    intros s2 (S2 & V2 & O2 & D2). split; auto. split; [|split].
    + intros j' Hj' Hin. destruct (Z.eq_dec j' j) as [->|]; [auto|]. rewrite O2; auto; [apply V1; auto; lia|]. intro Ee. assert (j' = j); [|lia]. apply (csr_pos_unique A i); auto; unfold n, js, je in *; lia.
    + intros c' Hc' Hno. rewrite O2; auto; [|intro Ee; apply (Hno j); [lia|auto]]. apply Z1; auto. intros j' Hj'. apply Hno. lia.
    + intros k Hk. rewrite D2, D1; auto.
  - intros s1 (S1 & V1 & Z1 & D1). split; auto. split; auto. intros c Hc.
    assert (Hdec : (exists j, js <= j < je /\ znth 0 (csr_index A) j = c) \/ forall j, js <= j < je -> znth 0 (csr_index A) j <> c).
    { destruct (in_dec Z.eq_dec c (map (znth 0 (csr_index A)) (zrange js je))) as [Hin|Hno].
      - left. apply in_map_iff in Hin as (j & Ej & Hj). exists j. split; auto. apply In_zrange in Hj; auto.
      - right. intros j Hj Ej. apply Hno. apply in_map_iff. exists j. split; auto. apply In_zrange; auto. }
    destruct Hdec as [(j & Hj & <-)|Hno].
    + rewrite V1 by auto. unfold a. symmetry. apply (coef_eq RT); auto. unfold csr_entries. apply in_flat_map. exists i. split; [apply In_zrange; fold n; lia|]. apply in_map_iff. exists j. split; auto. apply In_zrange; auto.
    + rewrite Z1 by auto. unfold a, coef. rewrite filter_none; auto. intros e He'. unfold csr_entries in He'. apply in_flat_map in He' as (r & Hr & He'). apply in_map_iff in He' as (j & <- & Hj). apply In_zrange in Hj. unfold at_ij, erow, ecol; cbn [fst snd].
      destruct (Z.eqb_spec r i) as [->|]; auto. cbn [andb]. apply Z.eqb_neq. apply Hno. auto.
Qed.

(** values of U already computed *)
Variable Uv : list (list T).
Hypothesis HUv : zlen Uv = n.
Hypothesis HUvl : forall k, is_ <= k < i -> zlen (znth [] Uv k) = zlen (UR k).
Let u k c := row_at (UR k) (znth [] Uv k) c.
Variable D0 : Z -> T.

(** row i after elimination with the first t pivots *)
Definition elim_st (t : Z) (s : @nrow T) : Prop :=
  shape s /\ (forall k, k <> i -> znth s0 (r_d s) k = D0 k) /\
  (forall c, inS c -> (c < i -> t <= znth 0 jw c) -> val s c = ssub (a i c) (SUM t (fun p => smul (val s (znth 0 (LR i) p)) (u (znth 0 (LR i) p) c)))) /\
  (forall p, 0 <= p < t -> val s (znth 0 (LR i) p) = smul (ssub (a i (znth 0 (LR i) p)) (SUM p (fun q => smul (val s (znth 0 (LR i) q)) (u (znth 0 (LR i) q) (znth 0 (LR i) p))))) (D0 (znth 0 (LR i) p))).

Lemma num_elim_wp s : shape s -> (forall c, inS c -> val s c = a i c) -> (forall k, k <> i -> znth s0 (r_d s) k = D0 k) ->
  wp (num_elim i (LR i) U Uv jw s) (elim_st (zlen (LR i))).
Proof.
  intros Hs Hv Hd. unfold num_elim. apply (for_wp' elim_st).
  - apply zlen_nonneg.
  - split; auto. split; auto. split; [|intros; lia]. intros c Hc _. rewrite SUM_0, Hv by auto. ring.
  - intros t s1 Ht (S1 & D1 & V1 & F1). destruct (inS_L t Ht) as [HSk Hki]. destruct (HL i Hi) as [Hinc HLr]. specialize (HLr t Ht).
    wrd 0; [lia|]. set (k := znth 0 (LR i) t) in *. pose proof S1 as (Sa & Sb & Sc).
    wrd s0; [lia|]. wrd s0; [lia|]. wwr; [lia|]. wrd (@nil Z); [lia|]. wrd (@nil T); [lia|].
    rewrite D1 by lia. set (s2 := mkNrow _ _ _).
    assert (Hjk : znth 0 jw k = t) by (apply HjL; auto).
    assert (S2 : shape s2) by (unfold shape, s2; cbn [r_l r_u r_d]; rewrite zlen_zupd; auto).
    assert (Vk : val s2 k = smul (val s1 k) (D0 k)).
    { unfold val, s2. cbn [r_l]. destruct (Z.ltb_spec k i); [|lia]. rewrite Hjk. rewrite znth_zupd_eq by lia. auto. }
    assert (Vo : forall c, inS c -> c <> k -> val s2 c = val s1 c).
    { intros c Hc Hn. unfold val, s2. cbn [r_l r_u r_d]. destruct (Z.ltb_spec c i); auto. destruct (HjS c Hc) as [Hlo _]. destruct (Hlo ltac:(lia)) as [Hp' Ep']. rewrite znth_zupd_neq; auto; [lia|]. intro Ee. apply Hn. rewrite <- Ep', Ee. auto. }
    assert (Hlt : forall p, 0 <= p < t -> inS (znth 0 (LR i) p) /\ znth 0 (LR i) p < k).
    { intros p Hp. split; [apply inS_L; lia|apply Hinc; lia]. }
    (* the columns <= k of the row are not touched any more *)
    assert (Hcol : forall q, 0 <= q < zlen (UR k) -> k < znth 0 (UR k) q < ie) by (apply HU; lia).
    assert (Hul : zlen (znth [] Uv k) = zlen (UR k)) by (apply HUvl; lia).
    set (uk := fun m c => SUM m (fun q => if znth 0 (UR k) q =? c then znth s0 (znth [] Uv k) q else s0)).
    set (l := val s2 k) in *.
    apply (for_wp' (fun m s3 => shape s3 /\ (forall k', k' <> i -> znth s0 (r_d s3) k' = D0 k') /\ (forall c, inS c -> val s3 c = ssub (val s2 c) (smul l (uk m c))))).
    + apply zlen_nonneg.
    + split; auto. split; [unfold s2; cbn [r_d]; auto|]. intros c Hc. unfold uk. rewrite SUM_0. ring.
    + intros m s3 Hm (S3 & D3 & V3). pose proof S3 as (Sa3 & Sb3 & Sc3). wrd 0; [lia|]. specialize (Hcol m Hm) as Hcm. set (c := znth 0 (UR k) m) in *. wrd 0; [lia|].
      assert (Huk : forall c', uk (m + 1) c' = sadd (uk m c') (if c =? c' then znth s0 (znth [] Uv k) m else s0)) by (intros c'; unfold uk; rewrite SUM_snoc by lia; reflexivity).
      assert (Hukk : uk m k = s0). { unfold uk. apply SUM_zero. intros q Hq. destruct (Z.eqb_spec (znth 0 (UR k) q) k); auto. specialize (Hcol q). lia. }
      destruct (Z.eqb_spec (znth 0 jw c) (-1)) as [Ew|Nw].
      * apply wp_ok. split; auto. split; auto. intros c' Hc'. rewrite Huk. destruct (Z.eqb_spec c c') as [->|]; [destruct Hc'; contradiction|]. rewrite V3 by auto. ring.
      * assert (HSc : inS c) by (split; [lia|auto]). wrd s0; [lia|]. wrd s0; [lia|].
        replace (znth s0 (r_l s3) t) with l. 2:{ rewrite <- val_L by auto. fold k. rewrite V3 by auto. fold l. rewrite Hukk. ring. }
        eapply wp_mono; [apply num_upd_wp; auto|]. intros s4 (S4 & Vc & Vo4 & Do4). split; auto. split; [intros; rewrite Do4 by auto; auto|].
        intros c' Hc'. rewrite Huk. destruct (Z.eqb_spec c c') as [<-|Hn].
        -- rewrite Vc, V3 by auto. ring.
        -- rewrite Vo4 by auto. rewrite V3 by auto. ring.
    + intros s3 (S3 & D3 & V3).
      assert (Huu : forall c, uk (zlen (UR k)) c = u k c) by (intros c; unfold uk, u; rewrite row_at_sum; auto).
      assert (Hlow : forall c, c <= k -> u k c = s0). { intros c Hc. apply row_at_out; auto. intros q Hq. specialize (Hcol q Hq). lia. }
      assert (V4 : forall c, inS c -> val s3 c = ssub (val s2 c) (smul l (u k c))) by (intros c Hc; rewrite V3, Huu; auto).
      assert (Vp : forall p, 0 <= p < t -> val s3 (znth 0 (LR i) p) = val s1 (znth 0 (LR i) p)).
      { intros p Hp. destruct (Hlt p Hp) as [Ha Hb]. rewrite V4 by auto. rewrite Hlow by lia. rewrite Vo by (auto; lia). ring. }
      assert (Vk3 : val s3 k = l). { rewrite V4 by auto. rewrite Hlow by lia. unfold l. ring. }
      split; auto. split; auto. split.
      * intros c Hc Hpos. assert (Hck : c <> k). { intro Ee. rewrite Ee, Hjk in Hpos. lia. }
        rewrite SUM_snoc by lia. fold k. rewrite Vk3. rewrite (SUM_ext t _ (fun p => smul (val s1 (znth 0 (LR i) p)) (u (znth 0 (LR i) p) c))) by (intros p Hp; rewrite Vp by auto; auto).
        rewrite V4 by auto. rewrite Vo by auto. rewrite V1 by (auto; lia). ring.
      * intros p Hp. rewrite (SUM_ext p _ (fun q => smul (val s1 (znth 0 (LR i) q)) (u (znth 0 (LR i) q) (znth 0 (LR i) p)))) by (intros q Hq; rewrite Vp by lia; auto).
        destruct (Z.eq_dec p t) as [->|]; [|rewrite Vp by lia; apply F1; lia]. fold k. rewrite Vk3, Vk. rewrite V1; auto. intros _. lia.
  - auto.
Qed.
End Row.

Definition ufun (Uv : list (list T)) (k c : Z) : T := row_at (UR k) (znth [] Uv k) c.
Definition rowfact (i : Z) (lv uv : list T) (Uv : list (list T)) (Df : Z -> T) (piv : T) : Prop :=
  zlen lv = zlen (LR i) /\ zlen uv = zlen (UR i) /\
  (forall p, 0 <= p < zlen (LR i) -> znth s0 lv p = smul (ssub (a i (znth 0 (LR i) p)) (SUM p (fun q => smul (znth s0 lv q) (ufun Uv (znth 0 (LR i) q) (znth 0 (LR i) p))))) (Df (znth 0 (LR i) p))) /\
  piv = ssub (a i i) (SUM (zlen (LR i)) (fun q => smul (znth s0 lv q) (ufun Uv (znth 0 (LR i) q) i))) /\
  (forall p, 0 <= p < zlen (UR i) -> znth s0 uv p = ssub (a i (znth 0 (UR i) p)) (SUM (zlen (LR i)) (fun q => smul (znth s0 lv q) (ufun Uv (znth 0 (LR i) q) (znth 0 (UR i) p))))).

Lemma rowfact_ext i lv uv Uv Uv' Df Df' piv : is_ <= i < ie -> (forall k, is_ <= k < i -> znth [] Uv' k = znth [] Uv k) -> (forall k, is_ <= k < i -> Df' k = Df k) ->
  rowfact i lv uv Uv Df piv -> rowfact i lv uv Uv' Df' piv.
Proof.
  intros Hi HUv HD (L1 & L2 & R1 & R2 & R3). destruct (HL i Hi) as [_ Hr].
  assert (Hu : forall q c, 0 <= q < zlen (LR i) -> ufun Uv' (znth 0 (LR i) q) c = ufun Uv (znth 0 (LR i) q) c) by (intros q c Hq; unfold ufun; rewrite HUv by (apply Hr; auto); auto).
  split; auto. split; auto. split; [|split].
  - intros p Hp. rewrite R1 by auto. rewrite HD by (apply Hr; auto). f_equal. f_equal. apply SUM_ext. intros q Hq. rewrite Hu by lia. auto.
  - rewrite R2. f_equal. apply SUM_ext. intros q Hq. rewrite Hu by lia. auto.
  - intros p Hp. rewrite R3 by auto. f_equal. apply SUM_ext. intros q Hq. rewrite Hu by lia. auto.
Qed.

Lemma mark_wp row f jw (Q : list Z -> Prop) : distinct_row row -> (forall p, 0 <= p < zlen row -> 0 <= znth 0 row p < zlen jw) ->
  (forall jw', zlen jw' = zlen jw -> (forall p, 0 <= p < zlen row -> znth 0 jw' (znth 0 row p) = f p) -> (forall c, (forall p, 0 <= p < zlen row -> znth 0 row p <> c) -> znth 0 jw' c = znth 0 jw c) -> Q jw') ->
  wp (mark row f jw) Q.
Proof.
  intros Hd Hr HQ. unfold mark. apply (for_wp' (fun j jw' => zlen jw' = zlen jw /\ (forall p, 0 <= p < j -> znth 0 jw' (znth 0 row p) = f p) /\ forall c, (forall p, 0 <= p < j -> znth 0 row p <> c) -> znth 0 jw' c = znth 0 jw c)).
  - apply zlen_nonneg.
  - split; auto. split; [intros; lia|auto].
  - intros j jw' Hj (Hl & H1 & H2). specialize (Hr j Hj). wrd 0; [lia|]. wwr; [lia|]. rewrite zlen_zupd. split; auto. split.
    + intros p Hp. destruct (Z.eq_dec p j) as [->|]; [rewrite znth_zupd_eq by lia; auto|]. rewrite znth_zupd_neq; [apply H1; lia|lia|]. intro Ee. apply Hd in Ee; lia.
    + intros c Hc. rewrite znth_zupd_neq; [apply H2; intros p Hp; apply Hc; lia|lia|]. intro Ee. apply (Hc j); [lia|auto].
  - intros jw' (Hl & H1 & H2). apply HQ; auto.
Qed.
Lemma zero_row_wp row (v : list T) (Q : list T -> Prop) : zlen v = zlen row -> (forall v', zlen v' = zlen row -> (forall p, 0 <= p < zlen row -> znth s0 v' p = s0) -> Q v') -> wp (zero_row row v) Q.
Proof.
  intros Hl HQ. unfold zero_row. apply (for_wp' (fun j v' => zlen v' = zlen row /\ forall p, 0 <= p < j -> znth s0 v' p = s0)).
  - apply zlen_nonneg.
  - split; auto. intros; lia.
  - intros j v' Hj (Hl' & H1). wwr; [lia|]. rewrite zlen_zupd. split; auto. intros p Hp. destruct (Z.eq_dec p j) as [->|]; [rewrite znth_zupd_eq by lia; auto|rewrite znth_zupd_neq by lia; apply H1; lia].
  - intros v' (? & ?). apply HQ; auto.
Qed.

Definition num_inv (i : Z) (f : @num T) : Prop :=
  zlen (f_L f) = n /\ zlen (f_U f) = n /\ zlen (f_D f) = n /\ zlen (f_jw f) = n /\
  (forall c, is_ <= c < ie -> znth 0 (f_jw f) c = -1) /\
  (forall k, is_ <= k < ie -> zlen (znth [] (f_L f) k) = zlen (LR k) /\ zlen (znth [] (f_U f) k) = zlen (UR k)) /\
  exists d, forall k, is_ <= k < i -> znth s0 (f_D f) k = sdiv s1 (d k) /\ rowfact k (znth [] (f_L f) k) (znth [] (f_U f) k) (f_U f) (znth s0 (f_D f)) (d k).

Lemma num_row_wp i f : is_ <= i < ie -> num_inv i f -> wp (num_row is_ ie A L U i f) (num_inv (i + 1)).
Proof.
  intros Hi (L1 & L2 & L3 & L4 & Hjw & Hlens & d & Hd). unfold num_row.
  destruct (HL i Hi) as [Hinc HLr]. destruct (HU i Hi) as [Hdis HUr]. destruct (Hlens i Hi) as [Hlv Huv].
  wrd (@nil Z); [lia|]. wrd (@nil Z); [lia|]. wrd (@nil T); [lia|]. wrd (@nil T); [lia|].
  wbind. apply mark_wp; [apply increasing_distinct; auto|intros p Hp; specialize (HLr p Hp); lia|]. intros jw1 J1 M1 O1.
  wbind. apply zero_row_wp; auto. intros lv Zl1 Zl2.
  wwr; [lia|]. wwr; [lia|].
  wbind. apply mark_wp; [auto|intros p Hp; specialize (HUr p Hp); rewrite zlen_zupd; lia|]. intros jw2 J2 M2 O2. rewrite zlen_zupd in J2.
  wbind. apply zero_row_wp; auto. intros uv Zu1 Zu2.
  assert (E0 : forall c, (forall p, 0 <= p < zlen (UR i) -> znth 0 (UR i) p <> c) -> c <> i -> znth 0 jw2 c = znth 0 jw1 c).
  { intros c Hc Hci. rewrite O2 by auto. rewrite znth_zupd_neq by lia. auto. }
  assert (HjL : forall p, 0 <= p < zlen (LR i) -> znth 0 jw2 (znth 0 (LR i) p) = p).
  { intros p Hp. specialize (HLr p Hp). rewrite E0; [auto| |lia]. intros q Hq. specialize (HUr q Hq). lia. }
  assert (Hji : znth 0 jw2 i = i).
  { rewrite O2; [rewrite znth_zupd_eq by lia; auto|]. intros q Hq. specialize (HUr q Hq). lia. }
  assert (HjS : forall c, inS jw2 c -> (c < i -> 0 <= znth 0 jw2 c < zlen (LR i) /\ znth 0 (LR i) (znth 0 jw2 c) = c) /\ (i < c -> 0 <= znth 0 jw2 c < zlen (UR i) /\ znth 0 (UR i) (znth 0 jw2 c) = c)).
  { intros c (Hc & Hn). split; intros Hci.
    - destruct (in_dec Z.eq_dec c (LR i)) as [Hin|Hno].
      + destruct (in_row_ex _ _ Hin) as (p & Hz & Ec).
        rewrite <- Ec. rewrite HjL by auto. auto.
      + exfalso. apply Hn. rewrite E0; [|intros q Hq; specialize (HUr q Hq); lia|lia]. rewrite O1; [apply Hjw; auto|]. intros p Hp Ep. apply Hno. rewrite <- Ep. apply ex_in_row. auto.
    - destruct (in_dec Z.eq_dec c (UR i)) as [Hin|Hno].
      + destruct (in_row_ex _ _ Hin) as (p & Hz & Ec).
        rewrite <- Ec. rewrite M2 by auto. auto.
      + exfalso. apply Hn. rewrite E0; [| |lia].
        * rewrite O1; [apply Hjw; auto|]. intros p Hp. specialize (HLr p Hp). lia.
        * intros p Hp Ep. apply Hno. rewrite <- Ep. apply ex_in_row. auto. }
  wbind. eapply wp_mono; [apply (num_load_wp i Hi jw2); auto; [lia|unfold shape; cbn [r_l r_u r_d]; rewrite zlen_zupd; auto|]|].
  { intros c Hc. destruct (HjS c Hc) as [Ha Hb]. unfold val. cbn [r_l r_u r_d]. destruct (Z.ltb_spec c i); [apply Zl2; apply Ha; auto|]. destruct (Z.eqb_spec c i); [rewrite znth_zupd_eq by lia; auto|]. apply Zu2; apply Hb; lia. }
  intros s1 (S1 & V1 & D1). cbn [r_d] in D1.
  wbind. eapply wp_mono; [apply num_elim_wp with (D0 := znth s0 (f_D f)); auto; try lia; try (intros; apply Hlens; lia)|].
  { intros k Hk. rewrite D1 by auto. rewrite znth_zupd_neq by lia. auto. }
  intros s2 (S2 & D2 & V2 & F2). pose proof S2 as (Sa & Sb & Sc).
  wbind. apply mark_wp; [apply increasing_distinct; auto|intros p Hp; specialize (HLr p Hp); lia|]. intros jw3 J3 M3 O3.
  wwr; [lia|].
  wbind. apply mark_wp; [auto|intros p Hp; specialize (HUr p Hp); rewrite zlen_zupd; lia|]. intros jw4 J4 M4 O4. rewrite zlen_zupd in J4.
  wrd s0; [lia|]. wwr; [lia|]. wwr; [lia|]. wwr; [lia|]. apply wp_ok.
  assert (VL : forall p, 0 <= p < zlen (LR i) -> val i jw2 s2 (znth 0 (LR i) p) = znth s0 (r_l s2) p) by (intros p Hp; apply val_L; auto).
  assert (VU : forall p, 0 <= p < zlen (UR i) -> val i jw2 s2 (znth 0 (UR i) p) = znth s0 (r_u s2) p) by (intros p Hp; apply val_U; auto).
  assert (Vi : val i jw2 s2 i = znth s0 (r_d s2) i) by (apply val_i).
  unfold num_inv. cbn [f_L f_U f_D f_jw]. rewrite !zlen_zupd.
  split; [auto|]. split; [auto|]. split; [auto|]. split; [lia|]. split; [|split].
  - intros c Hc. destruct (in_dec Z.eq_dec c (UR i)) as [Hin|Hno].
    + destruct (in_row_ex _ _ Hin) as (p & Hz & Ec).
      rewrite <- Ec. apply M4; auto.
    + assert (Hno' : forall p, 0 <= p < zlen (UR i) -> znth 0 (UR i) p <> c). { intros p Hp Ep. apply Hno. rewrite <- Ep. apply ex_in_row. auto. }
      rewrite O4 by auto. destruct (Z.eq_dec c i) as [->|]; [rewrite znth_zupd_eq by lia; auto|]. rewrite znth_zupd_neq by lia.
      destruct (in_dec Z.eq_dec c (LR i)) as [Hin|Hno2].
      * destruct (in_row_ex _ _ Hin) as (p & Hz & Ec).
        rewrite <- Ec. apply M3; auto.
      * assert (Hno3 : forall p, 0 <= p < zlen (LR i) -> znth 0 (LR i) p <> c). { intros p Hp Ep. apply Hno2. rewrite <- Ep. apply ex_in_row. auto. }
        rewrite O3 by auto. rewrite E0 by auto. rewrite O1 by auto. apply Hjw; auto.
  - intros k Hk. destruct (Z.eq_dec k i) as [->|]; [rewrite !znth_zupd_eq by lia; auto|rewrite !znth_zupd_neq by lia; apply Hlens; auto].
  - exists (fun k => if k =? i then znth s0 (r_d s2) i else d k). intros k Hk. destruct (Z.eqb_spec k i) as [->|].
    + rewrite !znth_zupd_eq by lia. split; auto. clear Hk.
      apply (rowfact_ext i (r_l s2) (r_u s2) (f_U f) _ (znth s0 (f_D f))); auto.
      { intros k Hk. rewrite znth_zupd_neq by lia. auto. }
      { intros k Hk. rewrite znth_zupd_neq by lia. apply D2. lia. }
      split; auto. split; auto. split; [|split].
      * intros p Hp. rewrite <- VL by auto. rewrite F2 by auto. f_equal. f_equal. apply SUM_ext. intros q Hq. rewrite VL by lia. auto.
      * rewrite <- Vi. rewrite V2; [|split; [lia|lia]|lia]. f_equal. apply SUM_ext. intros q Hq. rewrite VL by lia. auto.
      * intros p Hp. specialize (HUr p Hp). rewrite <- VU by auto. rewrite V2; [|split; [lia|rewrite M2 by auto; lia]|lia]. f_equal. apply SUM_ext. intros q Hq. rewrite VL by lia. auto.
    + destruct (Hd k ltac:(lia)) as [H1 H2]. rewrite !(znth_zupd_neq) by lia. rewrite D2 by auto. split; auto.
      apply (rowfact_ext k _ _ (f_U f) _ (znth s0 (f_D f))); auto; [lia| |].
      * intros k' Hk'. rewrite znth_zupd_neq by lia. auto.
      * intros k' Hk'. rewrite znth_zupd_neq by lia. apply D2. lia.
Qed.

Lemma numerical_fact_wp jlv juv jd jw : wp (numerical_fact jlv juv jd jw is_ ie A L U) (fun F =>
  fa_L F = L /\ fa_U F = U /\ zlen (fa_Lv F) = n /\ zlen (fa_Uv F) = n /\ zlen (fa_D F) = n /\
  exists d, forall k, is_ <= k < ie -> znth s0 (fa_D F) k = sdiv s1 (d k) /\ rowfact k (znth [] (fa_Lv F) k) (znth [] (fa_Uv F) k) (fa_Uv F) (znth s0 (fa_D F)) (d k)).
Proof.
  unfold numerical_fact. fold n. wbind. apply (for_wp' (fun i iw => zlen iw = n /\ forall c, is_ <= c < i -> znth 0 iw c = -1)).
  - lia.
  - split; [apply zlen_alloc; lia|intros; lia].
  - intros i iw Hi (Hl & Hv). wwr; [lia|]. rewrite zlen_zupd. split; auto. intros c Hc. destruct (Z.eq_dec c i) as [->|]; [rewrite znth_zupd_eq by lia; auto|rewrite znth_zupd_neq by lia; apply Hv; lia].
  - intros iw (Hl & Hv). wbind. apply (for_wp' num_inv).
    + lia.
    + unfold num_inv. cbn [f_L f_U f_D f_jw]. rewrite !zlen_alloc by lia. do 5 (split; [auto|]). split; [|exists (fun _ => s0); intros; lia].
      intros k Hk. unfold alloc at 1 3. rewrite !(znth_map _ 0 []) by (rewrite zlen_zrange; lia). rewrite znth_zrange by lia. rewrite !zlen_alloc by apply zlen_nonneg. replace (0 + k) with k by lia. auto.
    + intros i f Hi Hf. apply num_row_wp; auto.
    + intros f (L1 & L2 & L3 & _ & _ & _ & Hd). apply wp_ok. cbn [fa_L fa_U fa_Lv fa_Uv fa_D]. do 5 (split; [auto|]). exact Hd.
Qed.
End Num.
End P.
