Require Import ZArith List Bool Lia.
From Verif Require Import Base Scalar Spec Items Mpi SpecMpi.
Import ListNotations.
Open Scope Z_scope.

Lemma filter_add_count (f g : Z -> bool) a l : NoDup l -> In a l -> f a = false -> g a = true -> (forall x, x <> a -> g x = f x) ->
  zlen (filter g l) = zlen (filter f l) + 1.
Proof.
  intros ND Ha Fa Ga E. induction l as [|b l IH]; [destruct Ha|]. inversion ND; subst. cbn [filter].
  destruct (Z.eq_dec b a) as [->|Hb].
  - rewrite Fa, Ga. rewrite (filter_ext_in g f); [rewrite zlen_cons; lia|]. intros x Hx. apply E. congruence.
  - destruct Ha as [Ha|Ha]; [congruence|]. rewrite E by auto. destruct (f b); rewrite ?zlen_cons, IH by auto; lia.
Qed.

Lemma filter_increasing (f : Z -> bool) lo hi : increasing (filter f (zrange lo hi)).
Proof.
  assert (G : forall (m : nat), increasing (filter f (zrange lo (lo + Z.of_nat m))) /\ forall x, In x (filter f (zrange lo (lo + Z.of_nat m))) -> x < lo + Z.of_nat m).
  { induction m.
    - rewrite zrange_empty by lia. split; [intros i j ? H; unfold zlen in H; simpl in H; lia|intros x []].
    - destruct IHm as [IH1 IH2]. replace (lo + Z.of_nat (S m)) with (lo + Z.of_nat m + 1) by lia. rewrite zrange_snoc by lia. rewrite filter_app. cbn [filter].
      set (l := filter f (zrange lo (lo + Z.of_nat m))) in *. destruct (f (lo + Z.of_nat m)).
      + split.
        * intros i j Hij Hj. rewrite zlen_app in Hj. change (zlen [lo + Z.of_nat m]) with 1 in Hj.
          rewrite !znth_app by lia. destruct (Z.ltb_spec i (zlen l)); [|lia]. destruct (Z.ltb_spec j (zlen l)); [apply IH1; lia|].
          replace (j - zlen l) with 0 by lia. change (znth 0 [lo + Z.of_nat m] 0) with (lo + Z.of_nat m). apply IH2. apply znth_In. lia.
        * intros x Hx. apply in_app_iff in Hx. destruct Hx as [Hx|[<-|[]]]; [apply IH2 in Hx|]; lia.
      + rewrite app_nil_r. split; [exact IH1|]. intros x Hx. apply IH2 in Hx. lia. }
  destruct (Z.le_ge_cases lo hi) as [H|H].
  - specialize (G (Z.to_nat (hi - lo))). replace (lo + Z.of_nat (Z.to_nat (hi - lo))) with hi in G by lia. apply G.
  - rewrite zrange_empty by lia. intros i j ? Hj. unfold zlen in Hj; simpl in Hj; lia.
Qed.

Section G2l.
Variables (gn lo hi : Z).
Hypothesis Hgn : 0 <= lo <= hi /\ hi <= gn.
(** the set of columns used, as a boolean function *)
Definition marks (used : Z -> bool) (m : list Z) : Prop :=
  zlen m = gn /\ forall i, 0 <= i < gn -> znth 0 m i = if used i then 1 else 0.
Definition wanted (used : Z -> bool) : list Z := filter (fun i => used i && outside lo hi i) (zrange 0 gn).
Definition add (used : Z -> bool) (a : Z) : Z -> bool := fun x => used x || ((x =? a) && outside lo hi a).

Lemma wanted_In used g : In g (wanted used) <-> 0 <= g < gn /\ used g = true /\ outside lo hi g = true.
Proof. unfold wanted. rewrite filter_In, In_zrange, andb_true_iff. reflexivity. Qed.

Lemma mark_wp n used m np a : 0 <= a < gn -> marks used m -> np = n + zlen (wanted used) ->
  wp (g2l_mark lo hi a (m, np)) (fun '(m, np) => marks (add used a) m /\ np = n + zlen (wanted (add used a))).
Proof.
  intros Ha [Hl Hm] Hnp. unfold g2l_mark. destruct (outside lo hi a) eqn:O.
  - wbind. apply (wp_rd 0); [lia|]. rewrite Hm by lia. destruct (used a) eqn:U.
    + cbn [Z.eqb]. apply wp_ok. assert (E : forall x, add used a x = used x).
      { intros x. unfold add. destruct (Z.eqb_spec x a); [subst; rewrite U; reflexivity|simpl; apply orb_false_r]. }
      split; [split; [auto|]; intros; rewrite E; auto|]. rewrite Hnp. f_equal. unfold wanted. f_equal. apply filter_ext_in. intros; rewrite E; auto.
    + cbn [Z.eqb]. wbind. apply wp_wr; [lia|]. apply wp_ok. split.
      * split; [rewrite zlen_zupd; auto|]. intros i Hi. rewrite znth_zupd by lia. unfold add. rewrite O. destruct (Z.eqb_spec i a).
        { rewrite orb_true_r. reflexivity. }
        { simpl. rewrite orb_false_r. apply Hm; auto. }
      * rewrite Hnp. unfold wanted. rewrite (filter_add_count (fun i => used i && outside lo hi i) (fun i => add used a i && outside lo hi i) a); [lia| | | | |].
        { apply NoDup_zrange. } { apply In_zrange; lia. } { rewrite U; reflexivity. }
        { unfold add. rewrite Z.eqb_refl, O, orb_true_r. reflexivity. }
        { intros x Hx. unfold add. apply Z.eqb_neq in Hx. rewrite Hx. simpl. rewrite orb_false_r. reflexivity. }
  - apply wp_ok. assert (E : forall x, add used a x = used x) by (intros; unfold add; rewrite O, andb_false_r, orb_false_r; reflexivity).
    split; [split; [auto|]; intros; rewrite E; auto|]. rewrite Hnp. f_equal. unfold wanted. f_equal. apply filter_ext_in. intros; rewrite E; auto.
Qed.

Lemma list_wp used m l2g : marks used m -> zlen l2g = zlen (wanted used) ->
  wp (g2l_list gn lo hi m l2g) (fun '(l, ns) => l = wanted used /\ ns = zlen l).
Proof.
  intros [Hl Hm] HL. unfold g2l_list. set (f := fun i => used i && outside lo hi i).
  assert (Mono : forall i, 0 <= i <= gn -> zlen (filter f (zrange 0 i)) <= zlen (wanted used)).
  { intros i Hi. unfold wanted. rewrite (zrange_app 0 i gn) by lia. rewrite filter_app, zlen_app. fold f. pose proof (zlen_nonneg (filter f (zrange i gn))). lia. }
  apply (for_wp' (fun i '(l, ns) => zlen l = zlen (wanted used) /\ ns = zlen (filter f (zrange 0 i)) /\
     forall t, 0 <= t < ns -> znth 0 l t = znth 0 (filter f (zrange 0 i)) t)).
  - lia.
  - split; [auto|]. split; [reflexivity|]. cbn. lia.
  - intros i [l ns] Hi (H1 & H2 & H3). wbind. apply (wp_rd 0); [lia|]. rewrite Hm by lia.
    assert (Eb : ((if used i then 1 else 0) =? 1) && outside lo hi i = f i) by (unfold f; destruct (used i); reflexivity). rewrite Eb.
    pose proof (Mono (i + 1) ltac:(lia)) as M1. rewrite zrange_snoc in * by lia. rewrite filter_app in *. cbn [filter] in *.
    destruct (f i).
    + rewrite zlen_app in M1. change (zlen [i]) with 1 in M1. wbind. apply wp_wr; [pose proof (zlen_nonneg (filter f (zrange 0 i))); lia|]. apply wp_ok.
      rewrite zlen_zupd, zlen_app. change (zlen [i]) with 1. split; [auto|]. split; [lia|]. intros t Ht.
      pose proof (zlen_nonneg (filter f (zrange 0 i))). rewrite znth_zupd, znth_app by lia. destruct (Z.eqb_spec t ns).
      * subst t. destruct (Z.ltb_spec ns (zlen (filter f (zrange 0 i)))); [lia|]. rewrite H2, Z.sub_diag. reflexivity.
      * destruct (Z.ltb_spec t (zlen (filter f (zrange 0 i)))); [|lia]. apply H3. lia.
    + apply wp_ok. rewrite app_nil_r. auto.
  - intros [l ns] (H1 & H2 & H3). change (wanted used) with (filter f (zrange 0 gn)) in *. split; [|lia]. apply (list_ext 0); [auto|]. intros i Hi. apply H3. lia.
Qed.

Lemma increasing_inj l i j : increasing l -> 0 <= i < zlen l -> 0 <= j < zlen l -> znth 0 l i = znth 0 l j -> i = j.
Proof. intros H Hi Hj E. destruct (Z.lt_trichotomy i j) as [L|[L|L]]; [pose proof (H i j); lia|auto|pose proof (H j i); lia]. Qed.

Lemma number_wp n used m : marks used m ->
  wp (g2l_number n (wanted used) (zlen (wanted used)) m) (fun m' => zlen m' = gn /\ forall t, 0 <= t < zlen (wanted used) -> znth 0 m' (znth 0 (wanted used) t) = n + t).
Proof.
  intros [Hl Hm]. unfold g2l_number. set (l := wanted used).
  assert (Rg : forall t, 0 <= t < zlen l -> 0 <= znth 0 l t < gn) by (intros t Ht; apply (wanted_In used); apply znth_In; auto).
  assert (Inc : increasing l) by apply filter_increasing.
  wbind. apply (for_wp' (fun i '(m', k) => zlen m' = gn /\ k = n + i /\ forall t, 0 <= t < i -> znth 0 m' (znth 0 l t) = n + t)).
  - apply zlen_nonneg.
  - split; [auto|]. split; [lia|]. lia.
  - intros i [m' k] Hi (H1 & H2 & H3). wbind. apply (wp_rd 0); [lia|]. wbind. apply wp_wr; [rewrite H1; apply Rg; auto|]. apply wp_ok.
    rewrite zlen_zupd. split; [auto|]. split; [lia|]. intros t Ht. rewrite znth_zupd by (rewrite H1; apply Rg; auto).
    destruct (Z.eqb_spec (znth 0 l t) (znth 0 l i)) as [E|N].
    + apply increasing_inj in E; auto; lia.
    + apply H3. assert (t <> i) by congruence. lia.
  - intros [m' k] (H1 & H2 & H3). apply wp_ok. auto.
Qed.

Lemma one_wp used m jj : zlen m = gn -> (forall t, 0 <= t < zlen (wanted used) -> znth 0 m (znth 0 (wanted used) t) = (hi - lo) + t) ->
  0 <= jj < gn -> (outside lo hi jj = true -> used jj = true) ->
  wp (g2l_one lo hi m jj) (fun v => 0 <= v < hi - lo + zlen (wanted used) /\ to_global lo (hi - lo) (wanted used) v = jj).
Proof.
  intros Hl Hm Hj Hu. unfold g2l_one. pose proof (zlen_nonneg (wanted used)).
  destruct ((lo <=? jj) && (jj <? hi)) eqn:I.
  - apply andb_true_iff in I. destruct I as [I1 I2]. apply Z.leb_le in I1. apply Z.ltb_lt in I2.
    apply wp_ok. split; [lia|]. unfold to_global. destruct (Z.ltb_spec (jj - lo) (hi - lo)); lia.
  - assert (O : outside lo hi jj = true).
    { unfold outside. apply andb_false_iff in I. apply orb_true_iff. destruct I as [I|I]; [left|right];
      [apply Z.leb_gt in I; apply Z.ltb_lt; lia|apply Z.ltb_ge in I; apply Z.leb_le; lia]. }
    assert (Hin : In jj (wanted used)) by (apply wanted_In; auto). destruct (In_znth 0 _ _ Hin) as (t & Ht & Et).
    apply (wp_rd 0); [lia|]. assert (Em : znth 0 m jj = hi - lo + t) by (rewrite <- Et; apply Hm; auto). rewrite Em. split; [lia|].
    unfold to_global. destruct (Z.ltb_spec (hi - lo + t) (hi - lo)); [lia|]. rewrite <- Et. f_equal. lia.
Qed.

(** the columns used by the first k stored entries *)
Definition used_upto (index : list Z) (k : Z) : Z -> bool := fun j => outside lo hi j && existsb (Z.eqb j) (map (znth 0 index) (zrange 0 k)).
Lemma used_upto_S index k j : 0 <= k -> used_upto index (k + 1) j = add (used_upto index k) (znth 0 index k) j.
Proof.
  intros Hk. unfold used_upto, add. rewrite zrange_snoc, map_app, existsb_app by lia. cbn [map existsb].
  rewrite orb_false_r. destruct (Z.eqb_spec j (znth 0 index k)) as [->|N].
  - destruct (outside lo hi (znth 0 index k)); simpl; [rewrite orb_true_r|]; auto; rewrite orb_true_r; auto.
  - simpl. rewrite !orb_false_r. reflexivity.
Qed.
Lemma used_upto_true index k j : used_upto index k j = true <-> outside lo hi j = true /\ exists t, 0 <= t < k /\ znth 0 index t = j.
Proof.
  unfold used_upto. rewrite andb_true_iff, existsb_exists. split; intros [H1 H2]; split; auto.
  - destruct H2 as (x & Hx & E). apply Z.eqb_eq in E. subst x. apply in_map_iff in Hx. destruct Hx as (t & Et & Ht). apply In_zrange in Ht. exists t. auto.
  - destruct H2 as (t & Ht & E). exists j. split; [|apply Z.eqb_refl]. apply in_map_iff. exists t. split; auto. apply In_zrange. auto.
Qed.

Lemma marks_ext u v m : (forall i, u i = v i) -> marks u m -> marks v m.
Proof. intros E [H1 H2]. split; auto. intros i Hi. rewrite <- E. auto. Qed.
Lemma wanted_ext u v : (forall i, u i = v i) -> wanted u = wanted v.
Proof. intros E. unfold wanted. apply filter_ext_in. intros. rewrite E. reflexivity. Qed.

Theorem g2l_csr_wp junk ptr index : ptr_ok (hi - lo) ptr -> znth 0 ptr (hi - lo) <= zlen index ->
  (forall k, 0 <= k < znth 0 ptr (hi - lo) -> 0 <= znth 0 index k < gn) ->
  let used := used_upto index (znth 0 ptr (hi - lo)) in
  wp (g2l_csr junk (hi - lo) gn lo hi ptr index) (fun '(index', np, l2g) =>
    l2g = wanted used /\ np = (hi - lo) + zlen l2g /\ zlen index' = zlen index /\
    (forall k, 0 <= k < znth 0 ptr (hi - lo) -> 0 <= znth 0 index' k < np /\ to_global lo (hi - lo) l2g (znth 0 index' k) = znth 0 index k) /\
    (forall k, znth 0 ptr (hi - lo) <= k < zlen index -> znth 0 index' k = znth 0 index k)).
Proof.
  intros Hp Hlen Hrg used. unfold g2l_csr. set (n := hi - lo) in *.
  wbind. apply (for_set 0 (fun _ => 0)); [lia|rewrite zlen_alloc; lia|]. intros m Hml Hm0 _. rewrite zlen_alloc in Hml by lia.
  wbind. apply (for_ptr_pos (fun k '(m, np) => marks (used_upto index k) m /\ np = n + zlen (wanted (used_upto index k)))); [auto| | |].
  - assert (E : forall i, used_upto index 0 i = false) by (intros; unfold used_upto; rewrite zrange_empty by lia; simpl; apply andb_false_r).
    split; [split; [auto|]; intros; rewrite E; apply Hm0; lia|]. unfold wanted. rewrite filter_none; [unfold zlen; simpl; lia|]. intros; rewrite E; reflexivity.
  - intros i k [m' np] Hi Hk Hk' [H1 H2]. wbind. apply (wp_rd 0); [lia|].
    eapply wp_mono; [apply (mark_wp n (used_upto index k)); auto|]. intros [m2 np2] [H3 H4].
    assert (E : forall j, add (used_upto index k) (znth 0 index k) j = used_upto index (k + 1) j) by (intros; symmetry; apply used_upto_S; lia).
    split; [eapply marks_ext; eauto|]. rewrite <- (wanted_ext _ _ E). auto.
  - intros [m1 np] [H1 H2]. fold used in H1, H2. wbind.
    eapply wp_mono; [apply (list_wp used); [auto|rewrite zlen_alloc; pose proof (zlen_nonneg (wanted used)); lia]|].
    intros [l ns] [-> ->]. wbind. eapply wp_mono; [apply number_wp; auto|]. intros m2 [H3 H4].
    wbind. apply (for_ptr_pos (fun k ix => zlen ix = zlen index /\
      (forall j, 0 <= j < k -> 0 <= znth 0 ix j < np /\ to_global lo n (wanted used) (znth 0 ix j) = znth 0 index j) /\
      (forall j, k <= j < zlen index -> znth 0 ix j = znth 0 index j))); [auto| | |].
    + split; [auto|]. split; [lia|auto].
    + intros i k ix Hi Hk Hk' (I1 & I2 & I3). wbind. apply (wp_rd 0); [lia|]. rewrite I3 by lia.
      wbind. eapply wp_mono; [apply (one_wp used); auto|].
      * intros O. apply used_upto_true. split; auto. exists k. auto.
      * intros v [V1 V2]. apply wp_wr; [lia|]. rewrite zlen_zupd. split; [auto|]. split.
        { intros j Hj. rewrite znth_zupd by lia. destruct (Z.eqb_spec j k); [subst j; split; [unfold n in *; lia|auto]|apply I2; lia]. }
        { intros j Hj. rewrite znth_zupd by lia. destruct (Z.eqb_spec j k); [lia|apply I3; lia]. }
    + intros ix (I1 & I2 & I3). apply wp_ok. split; [auto|]. split; [auto|]. split; [auto|]. split; auto.
Qed.

(** ** the row lists of a matrix under assembly *)
Definition used_of (d : list Z) : Z -> bool := fun j => outside lo hi j && existsb (Z.eqb j) d.
Lemma used_of_snoc d a j : used_of (d ++ [a]) j = add (used_of d) a j.
Proof.
  unfold used_of, add. rewrite existsb_app. cbn [existsb]. rewrite orb_false_r. destruct (Z.eqb_spec j a) as [->|N].
  - destruct (outside lo hi a); simpl; rewrite ?orb_true_r; auto.
  - simpl. rewrite !orb_false_r. reflexivity.
Qed.
Lemma used_of_true d j : used_of d j = true <-> outside lo hi j = true /\ In j d.
Proof.
  unfold used_of. rewrite andb_true_iff, existsb_exists. split; intros [H1 H2]; split; auto.
  - destruct H2 as (x & Hx & E). apply Z.eqb_eq in E. subst x. auto.
  - exists j. split; auto. apply Z.eqb_refl.
Qed.
Definition row_cols (w_row : list Z) (w_index : list (list Z)) (i : Z) : list Z :=
  map (znth 0 (znth [] w_index i)) (zrange 0 (znth 0 w_row i)).

Theorem g2l_rco_wp junk w_row w_index : let n := hi - lo in
  n <= zlen w_row -> n <= zlen w_index ->
  (forall i, 0 <= i < n -> 0 <= znth 0 w_row i <= zlen (znth [] w_index i)) ->
  (forall i j, 0 <= i < n -> 0 <= j < znth 0 w_row i -> 0 <= znth 0 (znth [] w_index i) j < gn) ->
  let used := used_of (flat_map (row_cols w_row w_index) (zrange 0 n)) in
  wp (g2l_rco junk n gn lo hi w_row w_index) (fun '(w', np, l2g) =>
    l2g = wanted used /\ np = n + zlen l2g /\ zlen w' = zlen w_index /\
    (forall i, 0 <= i < zlen w_index -> zlen (znth [] w' i) = zlen (znth [] w_index i)) /\
    (forall i j, 0 <= i < n -> 0 <= j < znth 0 w_row i ->
       0 <= znth 0 (znth [] w' i) j < np /\ to_global lo n l2g (znth 0 (znth [] w' i) j) = znth 0 (znth [] w_index i) j)).
Proof.
  intros n Hr Hi Hc Hrg used. unfold g2l_rco.
  set (total := flat_map (row_cols w_row w_index) (zrange 0 n)) in *.
  wbind. apply (for_set 0 (fun _ => 0)); [lia|rewrite zlen_alloc; lia|]. intros m Hml Hm0 _. rewrite zlen_alloc in Hml by lia.
  wbind. apply (for_items (fun d '(m, np) => marks (used_of d) m /\ np = n + zlen (wanted (used_of d))) total (row_cols w_row w_index) 0 n _ []);
    [unfold n; lia|apply prefix_refl| | |].
  - assert (E : forall i, used_of [] i = false) by (intros; unfold used_of; simpl; apply andb_false_r).
    split; [split; [auto|]; intros; rewrite E; apply Hm0; lia|]. unfold wanted. rewrite filter_none; [unfold zlen; simpl; lia|]. intros; rewrite E; reflexivity.
  - intros i [m' np] d Hii Hd Hpre HR. wbind. apply (wp_rd 0); [lia|].
    unfold row_cols in Hpre |- *. apply (for_list (fun d '(m, np) => marks (used_of d) m /\ np = n + zlen (wanted (used_of d))) total (znth 0 (znth [] w_index i)) 0 (znth 0 w_row i) _ d); auto.
    { pose proof (Hc i). lia. }
    intros k [m2 np2] d' Hk Hd' Hpre' [R1 R2]. wbind. apply (wp_rd []); [lia|]. wbind. apply (wp_rd 0); [pose proof (Hc i); lia|].
    eapply wp_mono; [apply (mark_wp n (used_of d')); auto|]. intros [m3 np3] [H3 H4].
    assert (E : forall j, add (used_of d') (znth 0 (znth [] w_index i) k) j = used_of (d' ++ [znth 0 (znth [] w_index i) k]) j) by (intros; symmetry; apply used_of_snoc).
    split; [eapply marks_ext; eauto|]. rewrite <- (wanted_ext _ _ E). auto.
  - intros [m1 np] [H1 H2]. cbn [app] in H1, H2. fold total in H1, H2. fold used in H1, H2. wbind.
    eapply wp_mono; [apply (list_wp used); [auto|rewrite zlen_alloc; pose proof (zlen_nonneg (wanted used)); lia]|].
    intros [l ns] [-> ->]. wbind. eapply wp_mono; [apply number_wp; auto|]. intros m2 [H3 H4].
    wbind. set (good := fun (row row0 : list Z) j => 0 <= znth 0 row j < np /\ to_global lo n (wanted used) (znth 0 row j) = znth 0 row0 j).
    apply (for_wp' (fun i w => zlen w = zlen w_index /\ (forall t, 0 <= t < zlen w_index -> zlen (znth [] w t) = zlen (znth [] w_index t)) /\
      (forall t j, 0 <= t < i -> 0 <= j < znth 0 w_row t -> good (znth [] w t) (znth [] w_index t) j) /\
      (forall t, i <= t < zlen w_index -> znth [] w t = znth [] w_index t))).
    + unfold n; lia.
    + split; [auto|]. split; [auto|]. split; [intros; lia|auto].
    + intros i w Hii (W1 & W2 & W3 & W4). wbind. apply (wp_rd 0); [lia|].
      apply (for_wp' (fun k w => zlen w = zlen w_index /\ (forall t, 0 <= t < zlen w_index -> zlen (znth [] w t) = zlen (znth [] w_index t)) /\
        (forall t j, 0 <= t < i -> 0 <= j < znth 0 w_row t -> good (znth [] w t) (znth [] w_index t) j) /\
        (forall t, i + 1 <= t < zlen w_index -> znth [] w t = znth [] w_index t) /\
        (forall j, 0 <= j < k -> good (znth [] w i) (znth [] w_index i) j) /\
        (forall j, k <= j < zlen (znth [] w_index i) -> znth 0 (znth [] w i) j = znth 0 (znth [] w_index i) j))).
      * pose proof (Hc i). lia.
      * split; [auto|]. split; [auto|]. split; [auto|]. split; [intros; apply W4; lia|]. split; [intros; lia|]. intros. rewrite W4 by lia. reflexivity.
      * intros k v Hk (V1 & V2 & V3 & V4 & V5 & V6). pose proof (Hc i ltac:(lia)) as Hci. wbind. apply (wp_rd []); [lia|]. wbind. apply (wp_rd 0); [rewrite V2; lia|].
        rewrite V6 by lia. wbind. eapply wp_mono; [apply (one_wp used); auto|].
        { intros O. apply used_of_true. split; auto. unfold total. apply in_flat_map. exists i. split; [apply In_zrange; lia|]. unfold row_cols. apply in_map_iff. exists k. split; auto. apply In_zrange. lia. }
        intros z [Z1 Z2]. wbind. apply wp_wr; [rewrite V2; lia|]. apply wp_wr; [lia|]. rewrite zlen_zupd.
        split; [auto|]. split; [intros t Ht; rewrite znth_zupd by lia; destruct (Z.eqb_spec t i); [subst t; rewrite zlen_zupd; auto|auto]|].
        split; [intros t j Ht Hj; rewrite znth_zupd by lia; destruct (Z.eqb_spec t i); [lia|auto]|].
        split; [intros t Ht; rewrite znth_zupd by lia; destruct (Z.eqb_spec t i); [lia|auto]|].
        rewrite znth_zupd by lia. rewrite Z.eqb_refl. split.
        { intros j Hj. unfold good. rewrite znth_zupd by (rewrite V2; lia). destruct (Z.eqb_spec j k); [subst j; split; [unfold n in *; lia|auto]|apply V5; lia]. }
        { intros j Hj. rewrite znth_zupd by (rewrite V2; lia). destruct (Z.eqb_spec j k); [lia|apply V6; lia]. }
      * intros v (V1 & V2 & V3 & V4 & V5 & V6). split; [auto|]. split; [auto|]. split; [|auto].
        intros t j Ht Hj. destruct (Z.eq_dec t i); [subst t; auto|apply V3; auto; lia].
    + intros w (W1 & W2 & W3 & W4). apply wp_ok. split; [auto|]. split; [auto|]. split; [auto|]. split; auto.
Qed.
End G2l.
