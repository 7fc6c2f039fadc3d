(** Lines (rows or columns) of a triangle as lists of (index, value), and the loops over them *)
Require Import ZArith List Bool Lia Ring Permutation.
From Verif Require Import Base Scalar Spec Items Fmt SplitFmt TriLoops DiagProof2 PreconProof Unblk.
Import ListNotations.
Open Scope Z_scope.

Section S.
Context {T : Type} {S : Scalar T}.
Hypothesis RT : is_ring S.
Let RT' : @ring_theory T s0 s1 sadd smul ssub sopp (@eq T) := RT.
Add Ring scalar_ring_tn : RT'.

Definition gs (g : T -> T) (l : list (Z * T)) (x : Z -> T) : T := ssum (map (fun p => smul (g (snd p)) (x (fst p))) l).
Definition cs (g : T -> T) (l : list (Z * T)) (t : T) (r : Z) : T := ssum (map (fun p => if fst p =? r then smul (g (snd p)) t else s0) l).
Definition lc (l : list (Z * T)) (j : Z) : T := ssum (map (fun p => if fst p =? j then snd p else s0) l).
Definition additive (g : T -> T) : Prop := g s0 = s0 /\ forall u v, g (sadd u v) = sadd (g u) (g v).
Lemma additive_ident : additive ident. Proof. split; auto. Qed.
Lemma additive_conj : conj_ok S -> additive sconj. Proof. intros (H1 & _ & _ & H2 & _). split; auto. Qed.

Lemma gs_app g l m x : gs g (l ++ m) x = sadd (gs g l x) (gs g m x).
Proof. unfold gs. rewrite map_app, (ssum_app RT). reflexivity. Qed.
Lemma cs_app g l m t r : cs g (l ++ m) t r = sadd (cs g l t r) (cs g m t r).
Proof. unfold cs. rewrite map_app, (ssum_app RT). reflexivity. Qed.
Lemma lc_app l m j : lc (l ++ m) j = sadd (lc l j) (lc m j).
Proof. unfold lc. rewrite map_app, (ssum_app RT). reflexivity. Qed.
Lemma cs_lc g l t r : additive g -> cs g l t r = smul (g (lc l r)) t.
Proof.
  intros [G0 Ga]. induction l as [|[c v] l IH]; unfold cs, lc in *; cbn [map ssum fst snd].
  - rewrite G0. ring.
  - rewrite IH. destruct (c =? r); rewrite Ga, ?G0; ring.
Qed.
Lemma single (n c : Z) (f : Z -> T) : 0 <= c < n -> ssum (map (fun j => if c =? j then f j else s0) (zrange 0 n)) = f c.
Proof.
  intros Hc. rewrite (zrange_app 0 c n) by lia. rewrite (zrange_cons c n) by lia. rewrite map_app, (ssum_app RT). cbn [map ssum]. rewrite Z.eqb_refl.
  rewrite (ssum_map_ext _ (fun _ => s0) (zrange 0 c)), (ssum_map_ext _ (fun _ => s0) (zrange (c + 1) n)).
  - rewrite !(ssum_map_zero RT). ring.
  - intros j Hj. apply In_zrange in Hj. destruct (Z.eqb_spec c j); [lia|reflexivity].
  - intros j Hj. apply In_zrange in Hj. destruct (Z.eqb_spec c j); [lia|reflexivity].
Qed.
Lemma gs_lc n g l x : additive g -> (forall p, In p l -> 0 <= fst p < n) -> gs g l x = ssum (map (fun j => smul (g (lc l j)) (x j)) (zrange 0 n)).
Proof.
  intros [G0 Ga] H. induction l as [|[c v] l IH]; unfold gs, lc in *; cbn [map ssum fst snd].
  - rewrite G0. rewrite (ssum_map_ext _ (fun _ => s0)) by (intros; ring). rewrite (ssum_map_zero RT). reflexivity.
  - rewrite IH by (intros p Hp; apply H; right; auto).
    transitivity (ssum (map (fun j => sadd (if c =? j then smul (g v) (x j) else s0) (smul (g (ssum (map (fun p => if fst p =? j then snd p else s0) l))) (x j))) (zrange 0 n))).
    + rewrite (ssum_map_add RT). rewrite (single n c (fun j => smul (g v) (x j))) by (apply (H (c, v)); left; auto). reflexivity.
    + apply ssum_map_ext. intros j _. destruct (c =? j); rewrite Ga, ?G0; ring.
Qed.
Lemma lc_absent l j : (forall p, In p l -> fst p <> j) -> lc l j = s0.
Proof.
  intros H. unfold lc. rewrite (ssum_map_ext _ (fun _ => s0)); [apply (ssum_map_zero RT)|]. intros p Hp. destruct (Z.eqb_spec (fst p) j) as [E|_]; [|auto]. exfalso. eapply H; eauto.
Qed.
Lemma lc_filter (q : Z -> bool) l j : lc (filter (fun p => q (fst p)) l) j = if q j then lc l j else s0.
Proof.
  induction l as [|[c v] l IH]; unfold lc in *; cbn [filter map ssum fst snd].
  - destruct (q j); reflexivity.
  - destruct (q c) eqn:E; cbn [map ssum fst snd]; rewrite ?IH.
    + destruct (Z.eqb_spec c j) as [->|Hne]; [rewrite E; reflexivity|]. destruct (q j); ring.
    + destruct (Z.eqb_spec c j) as [->|Hne]; [rewrite E; reflexivity|]. destruct (q j); [ring|reflexivity].
Qed.
Lemma lc_zeros l j : (forall p, In p l -> fst p = j -> snd p = s0) -> lc l j = s0.
Proof.
  intros H. unfold lc. rewrite (ssum_map_ext _ (fun _ => s0)); [apply (ssum_map_zero RT)|]. intros p Hp. destruct (Z.eqb_spec (fst p) j) as [E|_]; [|auto]. auto.
Qed.
Lemma lc_unique l j p : NoDup (map fst l) -> In p l -> fst p = j -> lc l j = snd p.
Proof.
  induction l as [|[c v] l IH]; intros ND Hp Hj; [destruct Hp|]. cbn [map fst] in ND. apply NoDup_cons_iff in ND. destruct ND as [N1 N2].
  unfold lc. cbn [map ssum fst snd]. fold (lc l j). destruct Hp as [<-|Hp].
  - cbn [fst] in Hj. subst c. rewrite Z.eqb_refl. rewrite lc_absent; [cbn [snd]; ring|]. intros q Hq E. apply N1. rewrite <- E. apply in_map; auto.
  - destruct (Z.eqb_spec c j) as [E|_]; [|rewrite IH by auto; ring]. exfalso. apply N1. rewrite E, <- Hj. apply in_map; auto.
Qed.

(** entries by rows and by columns *)
Definition row_ents (n : Z) (ln : Z -> list (Z * T)) : list (entry T) := flat_map (fun i => map (fun p => (i, fst p, snd p)) (ln i)) (zrange 0 n).
Definition col_ents (n : Z) (ln : Z -> list (Z * T)) : list (entry T) := flat_map (fun i => map (fun p => (fst p, i, snd p)) (ln i)) (zrange 0 n).
Lemma coef_row_line i r l j : coef (map (fun p => (i, fst p, snd p)) l) r j = if i =? r then lc l j else s0.
Proof.
  induction l as [|[c v] l IH]; cbn [map].
  - rewrite coef_nil. unfold lc. cbn [map ssum]. destruct (i =? r); reflexivity.
  - rewrite coef_cons. unfold at_ij, erow, ecol, eval. cbn [fst snd]. rewrite IH. unfold lc. cbn [map ssum fst snd]. destruct (i =? r); cbn [andb]; [|reflexivity].
    destruct (c =? j); cbn [andb]; ring.
Qed.
Lemma coef_col_line i r l j : coef (map (fun p => (fst p, i, snd p)) l) r j = if i =? j then lc l r else s0.
Proof.
  induction l as [|[c v] l IH]; cbn [map].
  - rewrite coef_nil. unfold lc. cbn [map ssum]. destruct (i =? j); reflexivity.
  - rewrite coef_cons. unfold at_ij, erow, ecol, eval. cbn [fst snd]. rewrite IH. unfold lc. cbn [map ssum fst snd]. destruct (i =? j); cbn [andb].
    + destruct (c =? r); cbn [andb]; ring.
    + rewrite andb_false_r. reflexivity.
Qed.
Lemma coef_flat_map {A} (f : A -> list (entry T)) l i j : coef (flat_map f l) i j = ssum (map (fun a => coef (f a) i j) l).
Proof. induction l; cbn [flat_map map ssum]; [reflexivity|]. rewrite (coef_app RT), IHl. reflexivity. Qed.
Lemma coef_row_ents n ln i j : 0 <= i < n -> coef (row_ents n ln) i j = lc (ln i) j.
Proof.
  intros Hi. unfold row_ents. rewrite coef_flat_map. rewrite (ssum_map_ext _ (fun r => if i =? r then lc (ln r) j else s0)).
  - apply (single n i (fun r => lc (ln r) j)); auto.
  - intros r _. rewrite coef_row_line. rewrite (Z.eqb_sym r i). reflexivity.
Qed.
Lemma coef_col_ents n ln i j : 0 <= j < n -> coef (col_ents n ln) i j = lc (ln j) i.
Proof.
  intros Hi. unfold col_ents. rewrite coef_flat_map. rewrite (ssum_map_ext _ (fun r => if j =? r then lc (ln r) i else s0)).
  - apply (single n j (fun r => lc (ln r) i)); auto.
  - intros r _. rewrite coef_col_line. rewrite (Z.eqb_sym r j). reflexivity.
Qed.

Lemma no_dup_line n (mk : Z -> Z * T -> entry T) ln i : (forall i p q, fst p = fst q -> fst (mk i p) = fst (mk i q)) -> 0 <= i < n ->
  no_dup_pos (flat_map (fun i => map (mk i) (ln i)) (zrange 0 n)) -> NoDup (map fst (ln i)).
Proof.
  intros Hm Hi. unfold no_dup_pos. rewrite (zrange_app 0 i n), (zrange_cons i n) by lia. rewrite flat_map_app. cbn [flat_map]. rewrite !map_app.
  intros ND. apply NoDup_app_remove_l in ND. apply NoDup_app_remove_r in ND. rewrite map_map in ND. revert ND. generalize (ln i). clear ln.
  induction l as [|p l IH]; cbn [map]; intros ND; [constructor|]. apply NoDup_cons_iff in ND. destruct ND as [N1 N2]. constructor; [|auto].
  intros H. apply N1. apply in_map_iff in H. destruct H as (q & E & Hq). rewrite (Hm i p q) by auto. apply (in_map (fun x => fst (mk i x))); auto.
Qed.
Lemma no_dup_row n ln i : 0 <= i < n -> no_dup_pos (row_ents n ln) -> NoDup (map fst (ln i)).
Proof. intros Hi. apply (no_dup_line n (fun i p => (i, fst p, snd p))); auto. intros j p q E. cbn [fst]. rewrite E. reflexivity. Qed.
Lemma no_dup_col n ln i : 0 <= i < n -> no_dup_pos (col_ents n ln) -> NoDup (map fst (ln i)).
Proof. intros Hi. apply (no_dup_line n (fun i p => (fst p, i, snd p))); auto. intros j p q E. cbn [fst]. rewrite E. reflexivity. Qed.

(** *** loops over the items of a line *)
Lemma gat_loop g x (items : Z -> list (Z * T)) lo hi body t :
  (forall k t, lo <= k < hi -> body k t = Ok (ssub t (gs g (items k) x))) ->
  for_ lo hi body t = Ok (ssub t (gs g (flat_map items (zrange lo hi)) x)).
Proof.
  intros Hb. assert (W : wp (for_ lo hi body t) (fun s => s = ssub t (gs g (flat_map items (zrange lo hi)) x))).
  { destruct (Z.le_gt_cases lo hi) as [Hle|Hgt].
    - apply (for_wp' (fun k s => s = ssub t (gs g (flat_map items (zrange lo k)) x))); auto.
      + rewrite zrange_empty by lia. unfold gs. cbn [flat_map map ssum]. ring.
      + intros k s Hk ->. rewrite Hb by auto. apply wp_ok. rewrite zrange_snoc by lia. rewrite flat_map_app, gs_app. cbn [flat_map]. rewrite app_nil_r. ring.
    - rewrite for_empty by lia. apply wp_ok. rewrite zrange_empty by lia. unfold gs. cbn [flat_map map ssum]. ring. }
  destruct (for_ lo hi body t); cbn in W; try contradiction. subst. reflexivity.
Qed.
Lemma add_loop g x (items : Z -> list (Z * T)) lo hi body t :
  (forall k t, lo <= k < hi -> body k t = Ok (sadd t (gs g (items k) x))) ->
  for_ lo hi body t = Ok (sadd t (gs g (flat_map items (zrange lo hi)) x)).
Proof.
  intros Hb. assert (W : wp (for_ lo hi body t) (fun s => s = sadd t (gs g (flat_map items (zrange lo hi)) x))).
  { destruct (Z.le_gt_cases lo hi) as [Hle|Hgt].
    - apply (for_wp' (fun k s => s = sadd t (gs g (flat_map items (zrange lo k)) x))); auto.
      + rewrite zrange_empty by lia. unfold gs. cbn [flat_map map ssum]. ring.
      + intros k s Hk ->. rewrite Hb by auto. apply wp_ok. rewrite zrange_snoc by lia. rewrite flat_map_app, gs_app. cbn [flat_map]. rewrite app_nil_r. ring.
    - rewrite for_empty by lia. apply wp_ok. rewrite zrange_empty by lia. unfold gs. cbn [flat_map map ssum]. ring. }
  destruct (for_ lo hi body t); cbn in W; try contradiction. subst. reflexivity.
Qed.
Definition scattered (n : Z) (g : T -> T) (l : list (Z * T)) (t : T) (y y' : list T) : Prop :=
  zlen y' = zlen y /\ forall r, 0 <= r < n -> znth s0 y' r = ssub (znth s0 y r) (cs g l t r).
Lemma sca_loop n g t (items : Z -> list (Z * T)) lo hi body y : n <= zlen y ->
  (forall k y, lo <= k < hi -> n <= zlen y -> wp (body k y) (scattered n g (items k) t y)) ->
  wp (for_ lo hi body y) (scattered n g (flat_map items (zrange lo hi)) t y).
Proof.
  intros Hy Hb. destruct (Z.le_gt_cases lo hi) as [Hle|Hgt].
  - apply (for_wp' (fun k s => scattered n g (flat_map items (zrange lo k)) t y s)); auto.
    + rewrite zrange_empty by lia. split; auto. intros r Hr. unfold cs. cbn [flat_map map ssum]. ring.
    + intros k s Hk [L H]. eapply wp_mono; [apply Hb; [auto|lia]|]. intros s' [L' H']. split; [lia|]. intros r Hr. rewrite H', H by auto.
      rewrite zrange_snoc by lia. rewrite flat_map_app, cs_app. cbn [flat_map]. rewrite app_nil_r. ring.
  - rewrite for_empty by lia. apply wp_ok. rewrite zrange_empty by lia. split; auto. intros r Hr. unfold cs. cbn [flat_map map ssum]. ring.
Qed.
Lemma cs_zero (g : T -> T) l t r : g s0 = s0 -> (forall p, In p l -> fst p = r -> snd p = s0) -> cs g l t r = s0.
Proof.
  intros G H. unfold cs. rewrite (ssum_map_ext _ (fun _ => s0)); [apply (ssum_map_zero RT)|]. intros p Hp. destruct (Z.eqb_spec (fst p) r) as [E|_]; [|auto]. rewrite H by auto. rewrite G. ring.
Qed.
(** x[i] is read again for every item; no item (but zeros) points to i *)
Lemma live_loop n g i (items : Z -> list (Z * T)) lo hi body y : 0 <= i < n -> n <= zlen y -> g s0 = s0 ->
  (forall k p, lo <= k < hi -> In p (items k) -> fst p = i -> snd p = s0) ->
  (forall k y, lo <= k < hi -> n <= zlen y -> wp (body k y) (scattered n g (items k) (znth s0 y i) y)) ->
  wp (for_ lo hi body y) (scattered n g (flat_map items (zrange lo hi)) (znth s0 y i) y).
Proof.
  intros Hi Hy G Hz Hb. destruct (Z.le_gt_cases lo hi) as [Hle|Hgt].
  - apply (for_wp' (fun k s => scattered n g (flat_map items (zrange lo k)) (znth s0 y i) y s)); auto.
    + rewrite zrange_empty by lia. split; auto. intros r Hr. unfold cs. cbn [flat_map map ssum]. ring.
    + intros k s Hk [L H]. eapply wp_mono; [apply Hb; [auto|lia]|]. intros s' [L' H']. split; [lia|]. intros r Hr. rewrite H', !H by auto.
      rewrite (cs_zero g (flat_map items (zrange lo k)) _ i); [|auto|].
      * rewrite zrange_snoc by lia. rewrite flat_map_app, cs_app. cbn [flat_map]. rewrite app_nil_r. replace (ssub (znth s0 y i) s0) with (znth s0 y i) by ring. ring.
      * intros p Hp E. apply in_flat_map in Hp. destruct Hp as (k' & Hk' & Hp). apply In_zrange in Hk'. apply (Hz k' p); auto. lia.
  - rewrite for_empty by lia. apply wp_ok. rewrite zrange_empty by lia. split; auto. intros r Hr. unfold cs. cbn [flat_map map ssum]. ring.
Qed.

(** *** triangles *)
Definition lowline (n : Z) (ln : Z -> list (Z * T)) (c : Z -> Z -> T) : Prop := forall i, 0 <= i < n ->
  (forall p, In p (ln i) -> 0 <= fst p < n /\ (fst p = i -> snd p = s0)) /\ forall j, 0 <= j < n -> lc (ln i) j = if j <? i then c i j else s0.
Definition uppline (n : Z) (ln : Z -> list (Z * T)) (c : Z -> Z -> T) : Prop := forall i, 0 <= i < n ->
  (forall p, In p (ln i) -> 0 <= fst p < n /\ (fst p = i -> snd p = s0)) /\ forall j, 0 <= j < n -> lc (ln i) j = if i <? j then c i j else s0.

Lemma low_gs n g ln c i x : additive g -> lowline n ln c -> 0 <= i < n -> gs g (ln i) x = ssum (map (fun j => smul (g (c i j)) (x j)) (zrange 0 i)).
Proof.
  intros G H Hi. destruct (H i Hi) as [H1 H2]. rewrite (gs_lc n) by (auto; intros p Hp; apply H1; auto).
  rewrite (zrange_app 0 i n) by lia. rewrite map_app, (ssum_app RT).
  rewrite (ssum_map_ext _ (fun _ => s0) (zrange i n)). 2:{ intros j Hj. apply In_zrange in Hj. rewrite H2 by lia. destruct (Z.ltb_spec j i); [lia|]. destruct G as [-> _]. ring. }
  rewrite (ssum_map_zero RT). rewrite (ssum_map_ext _ (fun j => smul (g (c i j)) (x j)) (zrange 0 i)); [ring|].
  intros j Hj. apply In_zrange in Hj. rewrite H2 by lia. destruct (Z.ltb_spec j i); [reflexivity|lia].
Qed.
Lemma upp_gs n g ln c i x : additive g -> uppline n ln c -> 0 <= i < n -> gs g (ln i) x = ssum (map (fun j => smul (g (c i j)) (x j)) (zrange (i + 1) n)).
Proof.
  intros G H Hi. destruct (H i Hi) as [H1 H2]. rewrite (gs_lc n) by (auto; intros p Hp; apply H1; auto).
  rewrite (zrange_app 0 (i + 1) n) by lia. rewrite map_app, (ssum_app RT).
  rewrite (ssum_map_ext _ (fun _ => s0) (zrange 0 (i + 1))). 2:{ intros j Hj. apply In_zrange in Hj. rewrite H2 by lia. destruct (Z.ltb_spec i j); [lia|]. destruct G as [-> _]. ring. }
  rewrite (ssum_map_zero RT). rewrite (ssum_map_ext _ (fun j => smul (g (c i j)) (x j)) (zrange (i + 1) n)); [ring|].
  intros j Hj. apply In_zrange in Hj. rewrite H2 by lia. destruct (Z.ltb_spec i j); [reflexivity|lia].
Qed.
Lemma upp_cs n g ln c i t r : additive g -> uppline n ln c -> 0 <= i < n -> 0 <= r < n -> cs g (ln i) t r = down (fun r i => g (c i r)) i r t.
Proof.
  intros G H Hi Hr. destruct (H i Hi) as [H1 H2]. rewrite cs_lc by auto. rewrite H2 by auto. unfold down. destruct (i <? r); [reflexivity|]. destruct G as [-> _]. ring.
Qed.
Lemma low_cs n g ln c i t r : additive g -> lowline n ln c -> 0 <= i < n -> 0 <= r < n -> cs g (ln i) t r = up (fun r i => g (c i r)) i r t.
Proof.
  intros G H Hi Hr. destruct (H i Hi) as [H1 H2]. rewrite cs_lc by auto. rewrite H2 by auto. unfold up. destruct (r <? i); [reflexivity|]. destruct G as [-> _]. ring.
Qed.

(** what the loops over one line have to do *)
Definition gat_ok n g (ln : Z -> list (Z * T)) sub : Prop := forall i x t, 0 <= i < n -> n <= zlen x -> sub i x t = Ok (ssub t (gs g (ln i) (znth s0 x))).
Definition add_ok n g (ln : Z -> list (Z * T)) add : Prop := forall i x t, 0 <= i < n -> n <= zlen x -> add i x t = Ok (sadd t (gs g (ln i) (znth s0 x))).
Definition sca_ok n g (ln : Z -> list (Z * T)) scat : Prop := forall i t y, 0 <= i < n -> n <= zlen y -> wp (scat i t y) (scattered n g (ln i) t y).
Definition live_ok n g (ln : Z -> list (Z * T)) live : Prop := forall i y, 0 <= i < n -> n <= zlen y -> wp (live i y) (scattered n g (ln i) (znth s0 y i) y).
End S.
