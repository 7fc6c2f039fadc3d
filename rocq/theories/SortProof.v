(** Proofs about Sort.v *)
Require Import ZArith List Bool Lia Permutation.
From Verif Require Import Base Scalar Items Sort.
Import ListNotations.
Open Scope Z_scope.

(** swapping two positions permutes the rows of any range containing both *)
Lemma map_swap_perm {R} (f g : Z -> R) lo hi p q :
  lo <= p < hi -> lo <= q < hi ->
  g p = f q -> g q = f p -> (forall i, lo <= i < hi -> i <> p -> i <> q -> g i = f i) ->
  Permutation (map g (zrange lo hi)) (map f (zrange lo hi)).
Proof.
  assert (G : forall a b, lo <= a < b -> b < hi -> g a = f b -> g b = f a ->
     (forall i, lo <= i < hi -> i <> a -> i <> b -> g i = f i) ->
     Permutation (map g (zrange lo hi)) (map f (zrange lo hi))).
  { intros a b Ha Hb E1 E2 E3.
    rewrite (zrange_app lo a hi), (zrange_cons a hi), (zrange_app (a + 1) b hi), (zrange_cons b hi) by lia.
    rewrite !map_app. simpl. rewrite !map_app. simpl.
    assert (M : forall l u, (forall i, l <= i < u -> lo <= i < hi /\ i <> a /\ i <> b) ->
        map g (zrange l u) = map f (zrange l u)).
    { intros l u Hu. apply map_ext_in. intros i Hi. apply In_zrange in Hi. apply E3; apply Hu; auto. }
    rewrite (M lo a), (M (a+1) b), (M (b+1) hi) by (intros; lia). rewrite E1, E2.
    apply Permutation_app_head.
    rewrite <- !Permutation_middle. apply perm_swap. }
  intros Hp Hq E1 E2 E3. destruct (Z.lt_trichotomy p q) as [H|[H|H]].
  - apply (G p q); auto; lia.
  - subst q. rewrite (map_ext_in g f); auto. intros i Hi. apply In_zrange in Hi.
    destruct (Z.eq_dec i p); [subst; congruence|]. apply E3; auto.
  - apply (G q p); auto; lia.
Qed.

Lemma map_perm_wider {R} (f g : Z -> R) lo hi lo' hi' :
  lo' <= lo -> hi <= hi' -> (lo <= hi \/ lo' <= hi') ->
  Permutation (map g (zrange lo hi)) (map f (zrange lo hi)) ->
  (forall i, lo' <= i < hi' -> ~ (lo <= i < hi) -> g i = f i) ->
  Permutation (map g (zrange lo' hi')) (map f (zrange lo' hi')).
Proof.
  intros H1 H2 H3 HP Ho. destruct (Z.le_gt_cases lo hi).
  - rewrite (zrange_app lo' lo hi'), (zrange_app lo hi hi') by lia. rewrite !map_app.
    rewrite (map_ext_in g f (zrange lo' lo)) by (intros i Hi; apply In_zrange in Hi; apply Ho; lia).
    rewrite (map_ext_in g f (zrange hi hi')) by (intros i Hi; apply In_zrange in Hi; apply Ho; lia).
    apply Permutation_app_head, Permutation_app_tail, HP.
  - rewrite (map_ext_in g f); auto. intros i Hi. apply In_zrange in Hi. apply Ho; lia.
Qed.

Section Quick.
Context {K P R : Type} (lt : K -> K -> bool) (swp : Z -> Z -> P -> res P) (d : K).
(** the payload row at index i; [len] the number of rows; swapping swaps rows *)
Context (len : Z) (pok : P -> Prop) (row : P -> Z -> R).
Hypothesis Hswp : forall p q pay (Q : P -> Prop), pok pay -> 0 <= p < len -> 0 <= q < len ->
  (forall pay', pok pay' ->
     (forall i, 0 <= i < len -> row pay' i = if i =? q then row pay p else if i =? p then row pay q else row pay i) -> Q pay') ->
  wp (swp p q pay) Q.
Hypothesis lt_irrefl : forall x, lt x x = false.
Hypothesis lt_asym : forall x y, lt x y = true -> lt y x = false.
Hypothesis le_trans : forall x y z, lt y x = false -> lt z y = false -> lt z x = false.

Definition full (keys : list K) (pay : P) (i : Z) : K * R := (znth d keys i, row pay i).

(** the rows of [is,ie] are permuted, all others untouched *)
Definition permuted (is ie : Z) (keys keys' : list K) (pay pay' : P) : Prop :=
  zlen keys' = zlen keys /\ pok pay' /\
  Permutation (map (full keys' pay') (zrange is (ie + 1))) (map (full keys pay) (zrange is (ie + 1))) /\
  (forall i, 0 <= i < len -> ~ (is <= i <= ie) -> full keys' pay' i = full keys pay i).

Definition sorted_range (keys : list K) (is ie : Z) : Prop :=
  forall p q, is <= p <= q -> q <= ie -> lt (znth d keys q) (znth d keys p) = false.

Lemma permuted_refl is ie keys pay : pok pay -> permuted is ie keys keys pay pay.
Proof. repeat split; auto. Qed.

Lemma permuted_trans is ie k1 k2 k3 p1 p2 p3 :
  permuted is ie k1 k2 p1 p2 -> permuted is ie k2 k3 p2 p3 -> permuted is ie k1 k3 p1 p3.
Proof.
  intros (A1 & A2 & A3 & A4) (B1 & B2 & B3 & B4). repeat split; auto; try congruence.
  - rewrite B3; auto.
  - intros i Hi Hn. rewrite B4, A4; auto.
Qed.

Lemma permuted_widen is ie is' ie' k1 k2 p1 p2 :
  0 <= is' -> ie' < len -> is' <= is -> ie <= ie' -> is' <= ie' ->
  permuted is ie k1 k2 p1 p2 -> permuted is' ie' k1 k2 p1 p2.
Proof.
  intros H0 Hl H1 H2 H3 (A1 & A2 & A3 & A4). repeat split; auto.
  - apply (map_perm_wider _ _ is (ie + 1)); auto; try lia. intros i Hi Hn. apply A4; lia.
  - intros i Hi Hn. apply A4; auto; lia.
Qed.

Lemma swap_both p q is ie keys pay (Q : list K * P -> Prop) :
  zlen keys = len -> pok pay -> 0 <= is -> ie < len -> is <= p <= ie -> is <= q <= ie ->
  (forall keys' pay', permuted is ie keys keys' pay pay' ->
     (forall i, znth d keys' i = if i =? q then znth d keys p else if i =? p then znth d keys q else znth d keys i) ->
     Q (keys', pay')) ->
  wp (keys' <- swap keys p q ;; pay' <- swp p q pay ;; Ok (keys', pay')) Q.
Proof.
  intros Hl Hp H0 H1 Hpi Hqi HQ.
  apply wp_bind, (wp_swap d); [lia|lia|]. intros k' Hk' Hv.
  apply wp_bind, Hswp; auto; try lia. intros p' Hp' Hrow.
  apply wp_ok, HQ; auto.
  assert (Hf : forall i, 0 <= i < len -> full k' p' i = if i =? q then full keys pay p else if i =? p then full keys pay q else full keys pay i).
  { intros i Hi. unfold full. rewrite Hv, Hrow by auto. destruct (i =? q); auto. destruct (i =? p); auto. }
  repeat split; auto.
  - apply (map_swap_perm _ _ is (ie + 1) p q); try lia.
    + rewrite Hf by lia. rewrite Z.eqb_refl. destruct (Z.eqb_spec p q); congruence.
    + rewrite Hf by lia. rewrite Z.eqb_refl. auto.
    + intros i Hi N1 N2. rewrite Hf by lia. destruct (Z.eqb_spec i q); [lia|]. destruct (Z.eqb_spec i p); [lia|]. auto.
  - intros i Hi N. rewrite Hf by lia. destruct (Z.eqb_spec i q); [lia|]. destruct (Z.eqb_spec i p); [lia|]. auto.
Qed.

Lemma scan_up_wp fuel keys v i stop (Q : Z -> Prop) :
  0 <= i <= stop -> stop < zlen keys -> lt (znth d keys stop) v = false -> stop - i < Z.of_nat fuel ->
  (forall i', i <= i' <= stop -> lt (znth d keys i') v = false ->
     (forall k, i <= k < i' -> lt (znth d keys k) v = true) -> Q i') ->
  wp (scan_up lt fuel keys v i) Q.
Proof.
  intros Hi Hs Hst Hf HQ. unfold scan_up.
  apply (while_wp (fun i' => i <= i' <= stop /\ forall k, i <= k < i' -> lt (znth d keys k) v = true) (fun i' => stop - i')).
  - split; [lia|]. intros; lia.
  - lia.
  - intros k (Hk & Hlt). split; [lia|]. apply wp_bind, (wp_rd d); [lia|]. apply wp_ok.
    destruct (lt (znth d keys k) v) eqn:E.
    + apply wp_ok. assert (k <> stop) by congruence. split; [split|]; try lia.
      intros k' Hk'. destruct (Z.eq_dec k' k); [congruence|apply Hlt; lia].
    + apply HQ; auto.
Qed.

Lemma scan_down_wp fuel keys v j stop (Q : Z -> Prop) :
  0 <= stop <= j -> j < zlen keys -> lt v (znth d keys stop) = false -> j - stop < Z.of_nat fuel ->
  (forall j', stop <= j' <= j -> lt v (znth d keys j') = false ->
     (forall k, j' < k <= j -> lt v (znth d keys k) = true) -> Q j') ->
  wp (scan_down lt fuel keys v j) Q.
Proof.
  intros Hi Hs Hst Hf HQ. unfold scan_down.
  apply (while_wp (fun j' => stop <= j' <= j /\ forall k, j' < k <= j -> lt v (znth d keys k) = true) (fun j' => j' - stop)).
  - split; [lia|]. intros; lia.
  - lia.
  - intros k (Hk & Hlt). split; [lia|]. apply wp_bind, (wp_rd d); [lia|]. apply wp_ok.
    destruct (lt v (znth d keys k)) eqn:E.
    + apply wp_ok. assert (k <> stop) by congruence. split; [split|]; try lia.
      intros k' Hk'. destruct (Z.eq_dec k' k); [congruence|apply Hlt; lia].
    + apply HQ; auto.
Qed.

(** the partition loop *)
Definition part_inv (is ie : Z) (v : K) (k0 : list K) (p0 : P) (s : Z * Z * list K * P) : Prop :=
  let '(i, j, keys, pay) := s in
  permuted is ie k0 keys p0 pay /\ zlen keys = len /\
  is <= i <= ie + 1 /\ is - 1 <= j <= ie /\
  (forall k, is <= k < i -> lt v (znth d keys k) = false) /\
  (forall k, j < k <= ie -> lt (znth d keys k) v = false) /\
  (* before the first exchange the pivot sits at ie *)
  ((i = is /\ j = ie /\ znth d keys ie = v) \/ (is < i /\ j < ie)).

Lemma partition_wp is ie v k0 p0 keys pay fuel (Q : Z * Z * list K * P -> Prop) :
  0 <= is < ie -> ie < len -> zlen keys = len ->
  permuted is ie k0 keys p0 pay -> znth d keys ie = v ->
  fuel = Z.to_nat (ie - is + 3) ->
  (forall i j keys pay, part_inv is ie v k0 p0 (i, j, keys, pay) -> j < i -> is < i -> j < ie -> Q (i, j, keys, pay)) ->
  wp (while_ fuel
        (fun s => let '(i, j, keys, pay) := s in Ok (i <=? j))
        (fun s => let '(i, j, keys, pay) := s in
          i <- scan_up lt fuel keys v i ;;
          j <- scan_down lt fuel keys v j ;;
          if i <=? j then
            (keys <- swap keys i j ;;
             pay <- swp i j pay ;;
             Ok (i + 1, j - 1, keys, pay))
          else Ok (i, j, keys, pay))
        (is, ie, keys, pay)) Q.
Proof.
  intros His Hie Hl Hperm Hv Hfuel HQ.
  apply (while_wp (part_inv is ie v k0 p0)
          (fun s => let '(i, j, _, _) := s in Z.max 0 (j - i + 1))).
  - unfold part_inv. split; [assumption|]. split; [assumption|]. split; [lia|]. split; [lia|].
    split; [intros; lia|]. split; [intros; lia|]. left. auto.
  - lia.
  - intros [[[i j] ks] py] (Hp & Hlk & Hi & Hj & HL & HR & Hst).
    split; [lia|]. apply wp_ok. destruct (Z.leb_spec i j) as [Hle|Hgt].
    + (* body *)
      apply wp_bind.
      (* a sentinel for the upward scan *)
      assert (Hsu : exists stop, i <= stop <= ie /\ lt (znth d ks stop) v = false).
      { destruct Hst as [(-> & -> & Hx)|(Hx & Hy)].
        - exists ie. split; [lia|]. rewrite Hx. apply lt_irrefl.
        - exists ie. split; [lia|]. apply HR. lia. }
      destruct Hsu as (su & Hsu1 & Hsu2).
      apply (scan_up_wp _ _ _ _ su); auto; try lia.
      intros i' Hi' Hstop' Hskip.
      apply wp_bind.
      assert (Hsd : exists stop, is <= stop <= j /\ lt v (znth d ks stop) = false /\ (i' <= ie)).
      { destruct Hst as [(-> & -> & Hx)|(Hx & Hy)].
        - exists ie. split; [lia|]. rewrite Hx. split; [apply lt_irrefl|lia].
        - exists is. split; [lia|]. split; [apply HL; lia|lia]. }
      destruct Hsd as (sd & Hsd1 & Hsd2 & Hi'e).
      apply (scan_down_wp _ _ _ _ sd); auto; try lia.
      intros j' Hj' Hstopj Hskipj.
      assert (HLi' : forall k, is <= k < i' -> lt v (znth d ks k) = false).
      { intros k Hk. destruct (Z.lt_ge_cases k i); [apply HL; lia|]. apply lt_asym, Hskip. lia. }
      assert (HRj' : forall k, j' < k <= ie -> lt (znth d ks k) v = false).
      { intros k Hk. destruct (Z.lt_ge_cases j k); [apply HR; lia|]. apply lt_asym, Hskipj. lia. }
      destruct (Z.leb_spec i' j') as [Hle'|Hgt'].
      * pose proof (swap_both i' j' is ie ks py) as HS.
        assert (HS' : wp (keys' <- swap ks i' j' ;; pay' <- swp i' j' py ;; Ok (keys', pay'))
           (fun s => wp (Ok (i' + 1, j' - 1, fst s, snd s)) (fun s' => part_inv is ie v k0 p0 s' /\
               (let '(i, j, _, _) := s' in Z.max 0 (j - i + 1)) < Z.max 0 (j - i + 1)))).
        { apply HS; auto; try lia. { apply Hp. }
          intros k' p' Hp' Hv'. apply wp_ok. cbn [fst snd]. split; [|lia].
          unfold part_inv. split. { eapply permuted_trans; eauto. }
          split. { destruct Hp' as (E & _). lia. }
          split; [lia|]. split; [lia|]. split; [|split].
          - intros k Hk. rewrite Hv'. destruct (Z.eqb_spec k j'); [subst; assert (i' = j') by lia; subst; auto|].
            destruct (Z.eqb_spec k i'); [auto|]. apply HLi'. lia.
          - intros k Hk. rewrite Hv'. destruct (Z.eqb_spec k j'); [auto|].
            destruct (Z.eqb_spec k i'); [subst; lia|]. apply HRj'. lia.
          - right. lia. }
        clear HS. revert HS'. unfold bind. destruct (swap ks i' j'); auto. destruct (swp i' j' py); auto.
      * (* i' > j': only possible after the first exchange *)
        assert (Hx : is < i /\ j < ie).
        { destruct Hst as [(-> & -> & Hx)|?]; [|auto].
          assert (j' = ie). { destruct (Z.eq_dec j' ie); auto. assert (lt v (znth d ks ie) = true) by (apply Hskipj; lia).
            rewrite Hx, lt_irrefl in H. discriminate. }
          lia. }
        apply wp_ok. split; [|lia]. unfold part_inv.
        repeat (split; [first [assumption | lia]|]). right; lia.
    + apply HQ; auto; try lia. repeat (split; [assumption|]). assumption.
Qed.

Lemma qsort_wp fuel : forall is ie keys pay (Q : list K * P -> Prop),
  0 <= is -> ie < len -> zlen keys = len -> pok pay -> Z.max 0 (ie - is) + 1 < Z.of_nat fuel ->
  (forall keys' pay', permuted is ie keys keys' pay pay' -> sorted_range keys' is ie -> Q (keys', pay')) ->
  wp (qsort lt swp fuel is ie keys pay) Q.
Proof.
  induction fuel; intros is ie keys pay Q H0 H1 Hl Hp Hf HQ.
  { lia. }
  cbn [qsort]. destruct (Z.leb_spec ie is) as [Hle|Hlt].
  - apply wp_ok, HQ. { apply permuted_refl; auto. }
    intros p q Hpq Hq. assert (p = q) by lia. subst. apply lt_irrefl.
  - set (p := Z.quot (is + ie) 2).
    assert (Hpb : is <= p <= ie).
    { unfold p. rewrite Z.quot_div_nonneg by lia.
      pose proof (Z.div_mod (is + ie) 2). pose proof (Z.mod_pos_bound (is + ie) 2). lia. }
    cbv zeta. apply wp_bind, (wp_rd d); [lia|]. set (v := znth d keys p).
    pose proof (swap_both p ie is ie keys pay) as HS.
    match goal with |- wp (bind (swap keys p ie) (fun k => bind (swp p ie pay) (fun y => @?C k y))) Q =>
      assert (HS' : wp (keys' <- swap keys p ie ;; pay' <- swp p ie pay ;; Ok (keys', pay'))
         (fun s => wp (C (fst s) (snd s)) Q)) end.
    2:{ revert HS'. unfold bind at 1 2 4 5. destruct (swap keys p ie); auto. destruct (swp p ie pay); auto. }
    apply HS; auto; try lia. clear HS. intros k1 p1 Hp1 Hv1. cbn [fst snd].
    apply wp_bind. eapply (partition_wp is ie v keys pay k1 p1); auto; try lia.
    { destruct Hp1 as (E & _). lia. }
    { rewrite Hv1, Z.eqb_refl. reflexivity. }
    intros i j k2 p2 (Hp2 & Hl2 & Hi & Hj & HL & HR & _) Hji Hisi Hjie.
    apply wp_bind. apply IHfuel; try lia. { apply Hp2. }
    intros k3 p3 Hp3 Hs3. pose proof Hp3 as (L3 & P3 & Q3 & O3).
    apply IHfuel; try lia. { auto. }
    intros k4 p4 Hp4 Hs4. pose proof Hp4 as (L4 & P4 & Q4 & O4).
    apply HQ.
    { eapply permuted_trans; [exact Hp2|]. eapply permuted_trans.
      - apply (permuted_widen is j); eauto; lia.
      - apply (permuted_widen i ie); eauto; lia. }
    (* elements of a permuted range keep their bound *)
    assert (B3 : forall k, is <= k <= j -> lt v (znth d k3 k) = false).
    { intros k Hk. assert (Hin : In (full k3 p3 k) (map (full k2 p2) (zrange is (j + 1)))).
      { rewrite <- Q3. apply in_map. apply In_zrange. lia. }
      apply in_map_iff in Hin. destruct Hin as (k' & E & Hk'). apply In_zrange in Hk'.
      unfold full in E. assert (E1 := f_equal fst E); cbn [fst] in E1. rewrite <- E1. apply HL. lia. }
    assert (B3' : forall k, j < k <= ie -> znth d k3 k = znth d k2 k).
    { intros k Hk. specialize (O3 k). unfold full in O3. assert (HH := O3 ltac:(lia) ltac:(lia)). exact (f_equal fst HH). }
    assert (B4 : forall k, i <= k <= ie -> lt (znth d k4 k) v = false).
    { intros k Hk. assert (Hin : In (full k4 p4 k) (map (full k3 p3) (zrange i (ie + 1)))).
      { rewrite <- Q4. apply in_map. apply In_zrange. lia. }
      apply in_map_iff in Hin. destruct Hin as (k' & E & Hk'). apply In_zrange in Hk'.
      unfold full in E. assert (E1 := f_equal fst E); cbn [fst] in E1. rewrite <- E1. rewrite B3' by lia. apply HR. lia. }
    assert (B4' : forall k, is <= k < i -> znth d k4 k = znth d k3 k).
    { intros k Hk. specialize (O4 k). unfold full in O4. assert (HH := O4 ltac:(lia) ltac:(lia)). exact (f_equal fst HH). }
    assert (LO : forall k, is <= k < i -> lt v (znth d k4 k) = false).
    { intros k Hk. rewrite B4' by lia. destruct (Z.le_gt_cases k j); [apply B3; lia|].
      rewrite B3' by lia. apply HL. lia. }
    assert (HI : forall k, j < k <= ie -> lt (znth d k4 k) v = false).
    { intros k Hk. destruct (Z.lt_ge_cases k i); [|apply B4; lia].
      rewrite B4', B3' by lia. apply HR. lia. }
    intros a b Hab Hb.
    destruct (Z.le_gt_cases b j).
    + rewrite !B4' by lia. apply Hs3; lia.
    + destruct (Z.lt_ge_cases a i).
      * apply (le_trans _ v); [apply LO; lia|apply HI; lia].
      * apply Hs4; lia.
Qed.

Lemma quick_wp is ie keys pay (Q : list K * P -> Prop) :
  0 <= is -> ie < len -> zlen keys = len -> pok pay ->
  (forall keys' pay', permuted is ie keys keys' pay pay' -> sorted_range keys' is ie -> Q (keys', pay')) ->
  wp (quick lt swp is ie keys pay) Q.
Proof. intros. apply qsort_wp; auto. lia. Qed.

End Quick.

(** ** Instances *)
Lemma zltb_irrefl x : (x <? x) = false. Proof. apply Z.ltb_irrefl. Qed.
Lemma zltb_asym x y : (x <? y) = true -> (y <? x) = false.
Proof. rewrite Z.ltb_lt, Z.ltb_ge. lia. Qed.
Lemma zltb_le_trans x y z : (y <? x) = false -> (z <? y) = false -> (z <? x) = false.
Proof. rewrite !Z.ltb_ge. lia. Qed.
Lemma zgtb_irrefl x : (x >? x) = false. Proof. rewrite Z.gtb_ltb. apply Z.ltb_irrefl. Qed.
Lemma zgtb_asym x y : (x >? y) = true -> (y >? x) = false.
Proof. rewrite !Z.gtb_ltb, Z.ltb_lt, Z.ltb_ge. lia. Qed.
Lemma zgtb_le_trans x y z : (y >? x) = false -> (z >? y) = false -> (z >? x) = false.
Proof. rewrite !Z.gtb_ltb, !Z.ltb_ge. lia. Qed.

(** payload = one array *)
Lemma swp1 {D} (d : D) len : forall p q pay (Q : list D -> Prop), zlen pay = len -> 0 <= p < len -> 0 <= q < len ->
  (forall pay', zlen pay' = len ->
     (forall i, 0 <= i < len -> znth d pay' i = if i =? q then znth d pay p else if i =? p then znth d pay q else znth d pay i) -> Q pay') ->
  wp (swap pay p q) Q.
Proof. intros p q pay Q Hl Hp Hq HQ. apply (wp_swap d); [lia|lia|]. intros a' Ha Hv. apply HQ; [lia|]. intros; apply Hv. Qed.

Section Inst.
Context {D : Type} (d : D).

(** sorting [is..ie] of the key array [k] (ascending for [lt] = "<") together with the
    rows [row]; [row' i] are the rows afterwards *)
Definition sorts {K R} (lt : K -> K -> bool) (dk : K) (is ie : Z) (k k' : list K) (row row' : Z -> R) : Prop :=
  zlen k' = zlen k /\
  Permutation (map (fun i => (znth dk k' i, row' i)) (zrange is (ie + 1)))
              (map (fun i => (znth dk k i, row i)) (zrange is (ie + 1))) /\
  (forall i, 0 <= i < zlen k -> ~ (is <= i <= ie) -> znth dk k' i = znth dk k i /\ row' i = row i) /\
  (forall p q, is <= p <= q -> q <= ie -> lt (znth dk k' q) (znth dk k' p) = false).

Lemma sorts_of {K P R} (lt : K -> K -> bool) dk len (pok : P -> Prop) (row : P -> Z -> R) is ie k k' p p' :
  zlen k = len ->
  permuted dk len pok row is ie k k' p p' -> sorted_range lt dk k' is ie ->
  sorts lt dk is ie k k' (row p) (row p').
Proof.
  intros Hl (A1 & A2 & A3 & A4) Hs. split; [auto|]. split; [exact A3|]. split; [|exact Hs].
  intros i Hi Hn. specialize (A4 i ltac:(lia) Hn). unfold full in A4.
  split; [exact (f_equal fst A4)|exact (f_equal snd A4)].
Qed.

Lemma lis_sort_i_wp is ie k (Q : list Z -> Prop) :
  0 <= is -> ie < zlen k ->
  (forall k', sorts Z.ltb 0 is ie k k' (fun _ => tt) (fun _ => tt) -> Q k') ->
  wp (lis_sort_i is ie k) Q.
Proof.
  intros H0 H1 HQ. unfold lis_sort_i. apply wp_bind.
  apply (quick_wp Z.ltb _ 0 (zlen k) (fun _ => True) (fun (_ : unit) (_ : Z) => tt)); auto using zltb_irrefl, zltb_asym.
  - intros. apply wp_ok. apply H4; auto. intros. destruct (i =? q), (i =? p); auto.
  - intros x y z; apply zltb_le_trans.
  - intros k' p' HP HS. apply wp_ok, HQ. 
    exact (sorts_of Z.ltb 0 (zlen k) _ _ is ie k k' tt p' eq_refl HP HS).
Qed.

(** one key order, payload one array: lis_sort_id/_ii/_di/_dd, lis_sortr_ii *)
Lemma quick1_wp {K} (lt : K -> K -> bool) dk is ie k (p : list D) (Q : list K * list D -> Prop) :
  (forall x, lt x x = false) -> (forall x y, lt x y = true -> lt y x = false) ->
  (forall x y z, lt y x = false -> lt z y = false -> lt z x = false) ->
  0 <= is -> ie < zlen k -> zlen p = zlen k ->
  (forall k' p', zlen p' = zlen k -> sorts lt dk is ie k k' (znth d p) (znth d p') -> Q (k', p')) ->
  wp (quick lt (fun a b x => swap x a b) is ie k p) Q.
Proof.
  intros L1 L2 L3 H0 H1 Hl HQ.
  apply (quick_wp lt _ dk (zlen k) (fun p => zlen p = zlen k) (znth d)); auto.
  { intros; eapply (swp1 d); eauto. }
  intros k' p' HP HS. apply HQ; [apply HP|].
  exact (sorts_of lt dk (zlen k) _ _ is ie k k' p p' eq_refl HP HS).
Qed.

Lemma quick0_wp {K} (lt : K -> K -> bool) dk is ie k (Q : list K * unit -> Prop) :
  (forall x, lt x x = false) -> (forall x y, lt x y = true -> lt y x = false) ->
  (forall x y z, lt y x = false -> lt z y = false -> lt z x = false) ->
  0 <= is -> ie < zlen k ->
  (forall k', sorts lt dk is ie k k' (fun _ => tt) (fun _ => tt) -> Q (k', tt)) ->
  wp (quick lt (fun _ _ u => Ok u) is ie k tt) Q.
Proof.
  intros L1 L2 L3 H0 H1 HQ.
  apply (quick_wp lt _ dk (zlen k) (fun _ => True) (fun (_ : unit) (_ : Z) => tt)); auto.
  - intros p q pay Q' _ Hp Hq HQ'. apply wp_ok, HQ'; auto. intros. destruct (i =? q), (i =? p); auto.
  - intros k' [] HP HS. apply HQ. exact (sorts_of lt dk (zlen k) _ _ is ie k k' tt tt eq_refl HP HS).
Qed.

Lemma lis_sort_iid_wp is ie i1 i2 (d1 : list D) (Q : list Z * (list Z * list D) -> Prop) :
  0 <= is -> ie < zlen i1 -> zlen i2 = zlen i1 -> zlen d1 = zlen i1 ->
  (forall i1' i2' d1', zlen i2' = zlen i1 -> zlen d1' = zlen i1 ->
     sorts Z.ltb 0 is ie i1 i1' (fun i => (znth 0 i2 i, znth d d1 i)) (fun i => (znth 0 i2' i, znth d d1' i)) ->
     Q (i1', (i2', d1'))) ->
  wp (lis_sort_iid is ie i1 i2 d1) Q.
Proof.
  intros H0 H1 L2 L3 HQ. unfold lis_sort_iid.
  apply (quick_wp Z.ltb _ 0 (zlen i1) (fun p => zlen (fst p) = zlen i1 /\ zlen (snd p) = zlen i1)
           (fun p i => (znth 0 (fst p) i, znth d (snd p) i))); auto using zltb_irrefl, zltb_asym.
  - intros p q [a b] Q' (Ha & Hb) Hp Hq HQ'. cbn [fst snd] in *.
    apply wp_bind, (wp_swap 0); [lia|lia|]. intros a' Ha' Hva.
    apply wp_bind, (wp_swap d); [lia|lia|]. intros b' Hb' Hvb. apply wp_ok, HQ'; cbn [fst snd]; [lia|].
    intros i Hi. rewrite Hva, Hvb. destruct (i =? q), (i =? p); auto.
  - intros x y z; apply zltb_le_trans.
  - intros k' [a b] HP HS. apply HQ; try apply HP.
    exact (sorts_of Z.ltb 0 (zlen i1) _ _ is ie i1 k' (i2, d1) (a, b) eq_refl HP HS).
Qed.

Lemma lis_sort_iiid_wp is ie i1 i2 i3 (d1 : list D) (Q : list Z * (list Z * list Z * list D) -> Prop) :
  0 <= is -> ie < zlen i1 -> zlen i2 = zlen i1 -> zlen i3 = zlen i1 -> zlen d1 = zlen i1 ->
  (forall i1' i2' i3' d1', zlen i2' = zlen i1 -> zlen i3' = zlen i1 -> zlen d1' = zlen i1 ->
     sorts Z.ltb 0 is ie i1 i1' (fun i => (znth 0 i2 i, znth 0 i3 i, znth d d1 i))
                                (fun i => (znth 0 i2' i, znth 0 i3' i, znth d d1' i)) ->
     Q (i1', (i2', i3', d1'))) ->
  wp (lis_sort_iiid is ie i1 i2 i3 d1) Q.
Proof.
  intros H0 H1 L2 L3 L4 HQ. unfold lis_sort_iiid.
  apply (quick_wp Z.ltb _ 0 (zlen i1)
           (fun p => zlen (fst (fst p)) = zlen i1 /\ zlen (snd (fst p)) = zlen i1 /\ zlen (snd p) = zlen i1)
           (fun p i => (znth 0 (fst (fst p)) i, znth 0 (snd (fst p)) i, znth d (snd p) i))); auto using zltb_irrefl, zltb_asym.
  - intros p q [[a c] b] Q' (Ha & Hc & Hb) Hp Hq HQ'. cbn [fst snd] in *.
    apply wp_bind, (wp_swap 0); [lia|lia|]. intros a' Ha' Hva.
    apply wp_bind, (wp_swap 0); [lia|lia|]. intros c' Hc' Hvc.
    apply wp_bind, (wp_swap d); [lia|lia|]. intros b' Hb' Hvb. apply wp_ok, HQ'; cbn [fst snd]; [lia|].
    intros i Hi. rewrite Hva, Hvb, Hvc. destruct (i =? q), (i =? p); auto.
  - intros x y z; apply zltb_le_trans.
  - intros k' [[a c] b] HP HS. apply HQ; try apply HP.
    exact (sorts_of Z.ltb 0 (zlen i1) _ _ is ie i1 k' (i2, i3, d1) (a, c, b) eq_refl HP HS).
Qed.

(** block payload *)
Lemma copy_block_wp bs (src : list D) so dst dO (Q : list D -> Prop) :
  0 <= bs -> 0 <= so -> so + bs <= zlen src -> 0 <= dO -> dO + bs <= zlen dst ->
  (forall dst', zlen dst' = zlen dst ->
     (forall i, znth d dst' i = if (dO <=? i) && (i <? dO + bs) then znth d src (so + (i - dO)) else znth d dst i) ->
     Q dst') ->
  wp (copy_block bs src so dst dO) Q.
Proof.
  intros Hb Hs Hs' Hd Hd' HQ. unfold copy_block.
  apply (for_wp' (fun k a => zlen a = zlen dst /\
     forall i, znth d a i = if (dO <=? i) && (i <? dO + k) then znth d src (so + (i - dO)) else znth d dst i)); auto.
  - split; auto. intros i. destruct (Z.leb_spec dO i), (Z.ltb_spec i (dO + 0)); cbn; auto; lia.
  - intros k a Hk (Hl & Hv). apply wp_bind, (wp_rd d); [lia|]. apply wp_wr; [lia|]. rewrite zlen_zupd. split; [auto|].
    intros i. rewrite znth_zupd by lia. rewrite Hv.
    destruct (Z.eqb_spec i (dO + k)).
    + subst i. destruct (Z.leb_spec dO (dO + k)), (Z.ltb_spec (dO + k) (dO + (k + 1))); cbn; try lia. f_equal; lia.
    + destruct (Z.leb_spec dO i), (Z.ltb_spec i (dO + k)), (Z.ltb_spec i (dO + (k + 1))); cbn; auto; lia.
  - intros a (Hl & Hv). apply HQ; auto.
Qed.

Definition blk (bs : Z) (a : list D) (i : Z) : list D := map (fun k => znth d a (bs * i + k)) (zrange 0 bs).

Lemma swap_block_wp js1 bs len : 0 <= bs <= 9 -> forall p q pay (Q : list D -> Prop),
  zlen pay = bs * len -> 0 <= p < len -> 0 <= q < len ->
  (forall pay', zlen pay' = bs * len ->
     (forall i, 0 <= i < len -> blk bs pay' i = if i =? q then blk bs pay p else if i =? p then blk bs pay q else blk bs pay i) -> Q pay') ->
  wp (swap_block js1 bs p q pay) Q.
Proof.
  intros Hbs p q pay Q Hl Hp Hq HQ. unfold swap_block.
  assert (Hpb : bs * p + bs <= bs * len) by nia. assert (Hqb : bs * q + bs <= bs * len) by nia.
  apply wp_bind, copy_block_wp; try (rewrite ?zlen_alloc; nia). intros s1 Ls1 Vs1. rewrite zlen_alloc in Ls1 by lia.
  apply wp_bind, copy_block_wp; try nia. intros a1 La1 Va1.
  apply copy_block_wp; try nia. intros a2 La2 Va2. apply HQ; [lia|].
  intros i Hi.
  assert (HS : forall k, 0 <= k < bs -> znth d s1 k = znth d pay (bs * p + k)).
  { intros k Hk. rewrite Vs1. destruct (Z.leb_spec 0 k), (Z.ltb_spec k (0 + bs)); cbn [andb]; try lia. f_equal; lia. }
  assert (HE : forall x y, 0 <= x < len -> 0 <= y < len -> x <> y -> forall k, 0 <= k < bs -> ~ (bs * y <= bs * x + k < bs * y + bs)) by (intros; nia).
  destruct (Z.eqb_spec i q); [|destruct (Z.eqb_spec i p)]; apply map_ext_in; intros k Hk; apply In_zrange in Hk.
  - subst i. rewrite Va2. destruct (Z.leb_spec (bs * q) (bs * q + k)), (Z.ltb_spec (bs * q + k) (bs * q + bs)); cbn [andb]; try lia.
    replace (0 + (bs * q + k - bs * q)) with k by lia. apply HS; lia.
  - subst i. specialize (HE p q Hp Hq n k Hk). rewrite Va2.
    destruct (Z.leb_spec (bs * q) (bs * p + k)), (Z.ltb_spec (bs * p + k) (bs * q + bs)); cbn [andb]; try lia;
    rewrite Va1; destruct (Z.leb_spec (bs * p) (bs * p + k)), (Z.ltb_spec (bs * p + k) (bs * p + bs)); cbn [andb]; try lia; f_equal; lia.
  - pose proof (HE i q Hi Hq n k Hk). pose proof (HE i p Hi Hp n0 k Hk). rewrite Va2.
    destruct (Z.leb_spec (bs * q) (bs * i + k)), (Z.ltb_spec (bs * i + k) (bs * q + bs)); cbn [andb]; try lia;
    rewrite Va1; destruct (Z.leb_spec (bs * p) (bs * i + k)), (Z.ltb_spec (bs * i + k) (bs * p + bs)); cbn [andb]; try lia; f_equal; lia.
Qed.

Lemma lis_sort_id_block_wp js1 bs is ie k (d1 : list D) (Q : list Z * list D -> Prop) :
  0 <= bs <= 9 -> 0 <= is -> ie < zlen k -> zlen d1 = bs * zlen k ->
  (forall k' d1', zlen d1' = bs * zlen k -> sorts Z.ltb 0 is ie k k' (blk bs d1) (blk bs d1') -> Q (k', d1')) ->
  wp (lis_sort_id_block js1 is ie k d1 bs) Q.
Proof.
  intros Hb H0 H1 Hl HQ. unfold lis_sort_id_block.
  apply (quick_wp Z.ltb _ 0 (zlen k) (fun p => zlen p = bs * zlen k) (blk bs)); auto using zltb_irrefl, zltb_asym.
  - intros p q pay Q' Hp Hpp Hq HQ'. apply (swap_block_wp js1 bs (zlen k)); auto.
  - intros x y z; apply zltb_le_trans.
  - intros k' p' HP HS. apply HQ; [apply HP|].
    exact (sorts_of Z.ltb 0 (zlen k) _ _ is ie k k' d1 p' eq_refl HP HS).
Qed.

(** blocks of more than 9 elements overflow the local buffer *)
Lemma copy_block_overflow bs (src : list D) so dst dO :
  0 <= dO -> zlen dst < dO + bs -> 0 <= so -> so + bs <= zlen src -> dO <= zlen dst ->
  copy_block bs src so dst dO = UB.
Proof.
  intros Hd Hl Hs Hs' Hd'. unfold copy_block.
  set (m := zlen dst - dO).
  assert (G : forall (n : nat) k a, zlen a = zlen dst -> 0 <= k <= m -> Z.of_nat n = bs - k -> for_n n k (fun k dst0 => x <- rd src (so + k);; wr dst0 (dO + k) x) a = UB).
  { induction n; intros k a Ha Hk Hn.
    - unfold m in *. lia.
    - cbn [for_n]. rewrite (rd_ok d) by (unfold m in *; lia). cbn [bind].
      destruct (Z.eq_dec k m).
      + rewrite wr_ub by (unfold m in *; lia). reflexivity.
      + rewrite wr_ok by (unfold m in *; lia). cbn [bind]. apply IHn; try lia.
        rewrite zlen_zupd; auto. }
  unfold for_. apply G; auto; unfold m in *; lia.
Qed.

Lemma lis_sort_id_block_overflow js1 bs is ie k (d1 : list D) :
  9 < bs -> 0 <= is < ie -> ie < zlen k -> zlen d1 = bs * zlen k ->
  lis_sort_id_block js1 is ie k d1 bs = UB.
Proof.
  intros Hb H0 H1 Hl. unfold lis_sort_id_block, quick.
  replace (Z.to_nat (Z.max 0 (ie - is) + 2)) with (S (Z.to_nat (ie - is + 1))) by lia.
  cbn [qsort]. destruct (Z.leb_spec ie is); [lia|]. cbv zeta.
  assert (Hpb : is <= Z.quot (is + ie) 2 <= ie).
  { rewrite Z.quot_div_nonneg by lia.
    pose proof (Z.div_mod (is + ie) 2). pose proof (Z.mod_pos_bound (is + ie) 2). lia. }
  rewrite (rd_ok 0) by lia. cbn [bind].
  unfold swap. rewrite !(rd_ok 0) by lia. cbn [bind]. rewrite wr_ok by lia. cbn [bind].
  rewrite wr_ok by (rewrite zlen_zupd; lia). cbn [bind].
  unfold swap_block. rewrite copy_block_overflow; rewrite ?zlen_alloc; try nia. reflexivity.
Qed.

End Inst.
