(** lis_sort_jad (Sort.v): a stable counting sort in descending order *)
Require Import ZArith List Bool Lia Permutation.
From Verif Require Import Base Scalar Items Sort SortProof.
Import ListNotations.
Open Scope Z_scope.

Section Jad.
Context (b m : Z) (key : Z -> Z) (total : list Z).
Hypothesis Hb : 0 <= b.
Hypothesis Hkey : forall e, In e total -> 0 <= key e < m.

Definition jrep (d : list Z) (iw i2 : list Z) : Prop :=
  forall r, 0 <= r < m ->
    znth 0 iw r = b + start key total r + cntk key r d /\
    forall t, 0 <= t < cntk key r d -> znth 0 i2 (b + start key total r + t) = znth 0 (bucket key r d) t.

Lemma jstep d iw i2 e :
  prefix (d ++ [e]) total -> m <= zlen iw -> b + zlen total <= zlen i2 -> jrep d iw i2 ->
  let p := znth 0 iw (key e) in
  b <= p < b + zlen total /\ jrep (d ++ [e]) (zupd iw (key e) (p + 1)) (zupd i2 p e).
Proof.
  intros Hp Hiw Hi2 HR p.
  assert (He : 0 <= key e < m). { destruct Hp as [x ->]. apply Hkey. rewrite !in_app_iff. left; right; left; auto. }
  pose proof (fill_room key m total d e Hkey Hp) as [Hr1 Hr2].
  assert (Hpv : p = b + start key total (key e) + cntk key (key e) d) by (apply HR; auto).
  split; [lia|].
  intros r Hr. rewrite cntk_app, cntk_single. destruct (HR r Hr) as [H1 H2]. split.
  - rewrite znth_zupd by lia. destruct (Z.eqb_spec r (key e)).
    + subst r. rewrite Z.eqb_refl. lia.
    + destruct (Z.eqb_spec (key e) r); [lia|]. lia.
  - intros t Ht. rewrite bucket_app. rewrite znth_zupd by lia.
    destruct (Z.eqb_spec (key e) r).
    + subst r. assert (Hbe : bucket key (key e) [e] = [e]) by (unfold bucket; simpl; rewrite Z.eqb_refl; auto).
      rewrite Hbe. destruct (Z.eq_dec t (cntk key (key e) d)).
      * subst t. rewrite <- Hpv, Z.eqb_refl. symmetry. apply (znth_snoc_last 0 (bucket key (key e) d)).
      * unfold cntk in *. rewrite znth_snoc_lt by lia.
        destruct (Z.eqb_spec (b + start key total (key e) + t) p); [lia|]. apply H2; lia.
    + assert (Hbe : bucket key r [e] = []) by (unfold bucket; simpl; destruct (Z.eqb_spec (key e) r); [lia|auto]).
      rewrite Hbe, app_nil_r.
      assert (Hne : b + start key total r + t <> p).
      { assert (Hcr : cntk key r d <= cntk key r total) by (apply cntk_prefix; eapply prefix_app_inv; eauto).
        pose proof (start_succ key total r). pose proof (start_succ key total (key e)).
        destruct (Z.lt_ge_cases r (key e)).
        - pose proof (start_mono key total (r + 1) (key e)). pose proof (cntk_nonneg key (key e) d). lia.
        - pose proof (start_mono key total (key e + 1) r). lia. }
      destruct (Z.eqb_spec (b + start key total r + t) p); [lia|]. apply H2; lia.
Qed.
End Jad.

(** What lis_sort_jad must deliver on [is,ie): keys descending; i2 the original
    indices, each once; equal keys keep their order; nothing else touched. *)
Definition jad_sorted (is ie : Z) (i1 i1' i2 i2' : list Z) : Prop :=
  zlen i1' = zlen i1 /\ zlen i2' = zlen i2 /\
  Permutation (map (znth 0 i2') (zrange is ie)) (zrange is ie) /\
  (forall k, is <= k < ie -> znth 0 i1' k = znth 0 i1 (znth 0 i2' k)) /\
  (forall p q, is <= p < q -> q < ie ->
     znth 0 i1' p > znth 0 i1' q \/ (znth 0 i1' p = znth 0 i1' q /\ znth 0 i2' p < znth 0 i2' q)) /\
  (forall k, ~ (is <= k < ie) -> znth 0 i1' k = znth 0 i1 k /\ znth 0 i2' k = znth 0 i2 k).

Lemma for_pos_set (d : Z) lo hi f (a : list Z) (Q : list Z -> Prop) :
  0 <= lo <= hi -> hi <= zlen a ->
  (forall a', zlen a' = zlen a -> (forall i, znth d a' i = if (lo <=? i) && (i <? hi) then f i else znth d a i) -> Q a') ->
  wp (for_ lo hi (fun j a => wr a j (f j)) a) Q.
Proof.
  intros H1 H2 HQ.
  apply (for_wp' (fun k a' => zlen a' = zlen a /\ forall i, znth d a' i = if (lo <=? i) && (i <? k) then f i else znth d a i)); try lia.
  - split; auto. intros i. destruct (Z.leb_spec lo i), (Z.ltb_spec i lo); cbn; auto; lia.
  - intros k a' Hk (Hl & Hv). apply wp_wr; [lia|]. rewrite zlen_zupd. split; [auto|]. intros i.
    rewrite znth_zupd by lia. rewrite Hv. destruct (Z.eqb_spec i k).
    + subst. destruct (Z.leb_spec lo k), (Z.ltb_spec k (k + 1)); cbn; auto; lia.
    + destruct (Z.leb_spec lo i), (Z.ltb_spec i k), (Z.ltb_spec i (k + 1)); cbn; auto; lia.
  - intros a' (Hl & Hv). auto.
Qed.

Lemma lt_or_sorted_filter p lo hi x y : 0 <= x < y -> y < zlen (filter p (zrange lo hi)) ->
  znth 0 (filter p (zrange lo hi)) x < znth 0 (filter p (zrange lo hi)) y.
Proof.
  intros Hx Hy. destruct (Z.le_gt_cases lo hi) as [Hlh|Hlh].
  2:{ rewrite zrange_empty in Hy by lia. change (zlen (filter p [])) with 0 in Hy. lia. }
  replace hi with (lo + Z.of_nat (Z.to_nat (hi - lo))) in * by lia.
  set (n := Z.to_nat (hi - lo)) in *. clearbody n. clear Hlh. revert x y Hx Hy.
  induction n; intros x y Hx Hy.
  - rewrite zrange_empty in Hy by lia. change (zlen (filter p [])) with 0 in Hy. lia.
  - replace (lo + Z.of_nat (S n)) with (lo + Z.of_nat n + 1) in * by lia.
    rewrite zrange_snoc in * by lia. rewrite filter_app in *.
    set (l := filter p (zrange lo (lo + Z.of_nat n))) in *.
    cbn [filter] in *. destruct (p (lo + Z.of_nat n)).
    + rewrite zlen_app in Hy. change (zlen [lo + Z.of_nat n]) with 1 in Hy.
      destruct (Z.eq_dec y (zlen l)).
      * subst y. rewrite znth_snoc_last. rewrite znth_snoc_lt by lia.
        assert (Hin : In (znth 0 l x) l) by (apply znth_In; lia).
        apply filter_In in Hin. destruct Hin as [Hin _]. apply In_zrange in Hin. lia.
      * rewrite !znth_snoc_lt by lia. apply IHn; lia.
    + rewrite app_nil_r in *. apply IHn; auto.
Qed.

Theorem lis_sort_jad_wp j1 j2 is ie maxnzr i1 i2 (Q : list Z * list Z -> Prop) :
  0 <= is <= ie -> ie <= zlen i1 -> ie <= zlen i2 -> 0 <= maxnzr ->
  (forall k, is <= k < ie -> 0 <= znth 0 i1 k <= maxnzr) ->
  (forall i1' i2', jad_sorted is ie i1 i1' i2 i2' -> Q (i1', i2')) ->
  wp (lis_sort_jad j1 j2 is ie maxnzr i1 i2) Q.
Proof.
  intros His Hl1 Hl2 Hm Hk HQ. unfold lis_sort_jad. cbv zeta.
  set (key := fun i => maxnzr - znth 0 i1 i). set (total := zrange is ie).
  assert (Hkey : forall e, In e total -> 0 <= key e < maxnzr + 1).
  { intros e He. apply In_zrange in He. unfold key. specialize (Hk e He). lia. }
  assert (Htl : zlen total = ie - is) by (unfold total; rewrite zlen_zrange; lia).
  apply wp_bind, (for_set 0 (fun _ => 0)); [lia|rewrite zlen_alloc; lia|].
  intros iw1 L1 Z1 _. rewrite zlen_alloc in L1 by lia.
  (* counting *)
  apply wp_bind.
  apply (for_list (fun d a => zlen a = maxnzr + 2 /\ count_rep key (maxnzr + 1) 1 d a) total (fun i => i) is ie _ []); try lia.
  { rewrite map_id. apply prefix_refl. }
  { split; [lia|]. intros r Hr. rewrite Z1 by lia. reflexivity. }
  { intros k a d Hkr _ Hp (La & Hc). apply wp_bind, (wp_rd 0); [lia|]. unfold incr.
    assert (0 <= key k < maxnzr + 1) by (apply Hkey, In_zrange; lia). unfold key in H.
    apply wp_bind, (wp_rd 0); [lia|]. apply wp_wr; [lia|]. rewrite zlen_zupd. split; [auto|].
    apply (count_step key (maxnzr + 1) 1 d a k Hc); unfold key; lia. }
  rewrite map_id. intros iw2 (L2 & C2). cbn [app] in C2. fold total in C2.
  apply wp_bind, wp_wr; [lia|].
  (* prefix sums *)
  apply wp_bind.
  apply (for_wp' (fun i a => zlen a = maxnzr + 2 /\
     (forall r, 0 <= r <= i -> znth 0 a r = is + start key total r) /\
     (forall r, i <= r <= maxnzr -> znth 0 a (r + 1) = cntk key r total))); try lia.
  { rewrite zlen_zupd. split; [lia|]. split; intros r Hr.
    - replace r with 0 by lia. rewrite znth_zupd_eq by lia. rewrite start_0. lia.
    - rewrite znth_zupd_neq by lia. apply C2. lia. }
  { intros i a Hi (La & P1 & P2). apply wp_bind, (wp_rd 0); [lia|]. apply wp_bind, (wp_rd 0); [lia|].
    apply wp_wr; [lia|]. rewrite zlen_zupd. split; [auto|]. split; intros r Hr.
    - rewrite znth_zupd by lia. destruct (Z.eqb_spec r (i + 1)).
      + subst r. rewrite start_succ by lia. rewrite P2, P1 by lia. lia.
      + apply P1; lia.
    - rewrite znth_zupd_neq by lia. apply P2; lia. }
  intros iw3 (L3 & P3 & _).
  (* the copy iw2 *)
  apply wp_bind.
  apply (for_wp' (fun i a => zlen a = maxnzr + 2 /\ forall r, 0 <= r < i -> znth 0 a r = is + start key total r)); try lia.
  { rewrite zlen_alloc by lia. split; [auto|intros; lia]. }
  { intros i a Hi (La & Pa). apply wp_bind, (wp_rd 0); [lia|]. apply wp_wr; [lia|]. rewrite zlen_zupd. split; [auto|].
    intros r Hr. rewrite znth_zupd by lia. destruct (Z.eqb_spec r i); [subst; apply P3; lia|apply Pa; lia]. }
  intros iwc (Lc & Pc).
  (* filling *)
  apply wp_bind.
  apply (for_list (fun d s => zlen (fst s) = maxnzr + 2 /\ zlen (snd s) = zlen i2 /\
            jrep is (maxnzr + 1) key total d (fst s) (snd s) /\
            (forall k, ~ (is <= k < ie) -> znth 0 (snd s) k = znth 0 i2 k)) total (fun i => i) is ie _ []); try lia.
  { rewrite map_id. apply prefix_refl. }
  { cbn [fst snd]. split; [auto|]. split; [auto|]. split; [|auto]. intros r Hr. change (cntk key r []) with 0. split; [|intros; lia].
    rewrite P3 by lia. lia. }
  { intros k [a i2a] d Hkr _ Hp (La & Lb & HR & Ho). cbn [fst snd] in *.
    assert (Hkk : 0 <= key k < maxnzr + 1) by (apply Hkey, In_zrange; lia).
    pose proof (jstep is (maxnzr + 1) key total ltac:(lia) Hkey d a i2a k Hp ltac:(lia) ltac:(lia) HR) as HJ.
    cbv zeta in HJ. destruct HJ as [HJ1 HJ2].
    apply wp_bind, (wp_rd 0); [lia|]. fold (key k).
    apply wp_bind, (wp_rd 0); [lia|]. apply wp_bind, wp_wr; [lia|]. unfold incr. apply wp_bind.
    apply wp_bind, (wp_rd 0); [lia|]. apply wp_wr; [lia|]. apply wp_ok. cbn [fst snd]. rewrite !zlen_zupd.
    split; [auto|]. split; [auto|]. split; [exact HJ2|].
    intros k' Hk'. rewrite znth_zupd by lia. destruct (Z.eqb_spec k' (znth 0 a (key k))); [lia|auto]. }
  rewrite map_id. intros [iw4 i2'] (_ & L4 & HR & Ho4). cbn [fst snd app] in *. fold total in HR.
  (* rewriting the keys *)
  assert (Hst : start key total (maxnzr + 1) = ie - is) by (rewrite (start_total key (maxnzr + 1) total Hkey); auto).
  apply wp_bind.
  apply (for_wp' (fun i a => zlen a = zlen i1 /\
     (forall r t, 0 <= r < i -> is + start key total r <= t < is + start key total (r + 1) -> znth 0 a t = maxnzr - r) /\
     (forall t, ~ (is <= t < is + start key total i) -> znth 0 a t = znth 0 i1 t))); try lia.
  { split; [auto|]. split; [intros; lia|auto]. }
  { intros i a Hi (La & A1 & A2). apply wp_bind, (wp_rd 0); [lia|]. apply wp_bind, (wp_rd 0); [lia|].
    rewrite !Pc by lia.
    pose proof (start_nonneg key total i). pose proof (start_succ key total i). pose proof (cntk_nonneg key i total).
    pose proof (start_mono key total (i + 1) (maxnzr + 1)).
    apply (for_pos_set 0 _ _ (fun _ => maxnzr - i)); try lia.
    intros a' La' Va'. split; [lia|]. split.
    - intros r t Hr Ht. rewrite Va'. destruct (Z.eq_dec r i).
      + subst r. destruct (Z.leb_spec (is + start key total i) t), (Z.ltb_spec t (is + start key total (i + 1))); cbn; try lia.
      + pose proof (start_mono key total (r + 1) i).
        destruct (Z.leb_spec (is + start key total i) t); cbn; try lia. apply A1; lia.
    - intros t Ht. rewrite Va'.
      destruct (Z.leb_spec (is + start key total i) t), (Z.ltb_spec t (is + start key total (i + 1))); cbn; try lia; apply A2; lia. }
  intros i1' (L5 & A1 & A2). apply wp_ok, HQ.
  (* every position is in exactly one bucket *)
  assert (Hpos : forall k, is <= k < ie -> exists r t, 0 <= r < maxnzr + 1 /\ 0 <= t < cntk key r total /\ k = is + start key total r + t).
  { intros k Hkr.
    assert (G : forall n : nat, Z.of_nat n <= maxnzr + 1 -> k < is + start key total (Z.of_nat n) ->
       exists r t, 0 <= r < maxnzr + 1 /\ 0 <= t < cntk key r total /\ k = is + start key total r + t).
    { induction n; intros Hn Hlt. - rewrite start_0 in Hlt. lia.
      - destruct (Z.lt_ge_cases k (is + start key total (Z.of_nat n))).
        + apply IHn; auto; lia.
        + exists (Z.of_nat n), (k - is - start key total (Z.of_nat n)).
          replace (Z.of_nat (S n)) with (Z.of_nat n + 1) in Hlt by lia. rewrite start_succ in Hlt by lia. lia. }
    apply (G (Z.to_nat (maxnzr + 1))); rewrite ?Z2Nat.id; lia. }
  assert (Hv2 : forall r t, 0 <= r < maxnzr + 1 -> 0 <= t < cntk key r total ->
     znth 0 i2' (is + start key total r + t) = znth 0 (bucket key r total) t).
  { intros r t Hr Ht. apply HR; auto. }
  assert (Hv1 : forall r t, 0 <= r < maxnzr + 1 -> 0 <= t < cntk key r total ->
     znth 0 i1' (is + start key total r + t) = maxnzr - r).
  { intros r t Hr Ht. apply A1; auto. rewrite start_succ by lia. lia. }
  assert (Hbk : forall r t, 0 <= r < maxnzr + 1 -> 0 <= t < cntk key r total ->
     is <= znth 0 (bucket key r total) t < ie /\ key (znth 0 (bucket key r total) t) = r).
  { intros r t Hr Ht. assert (Hin : In (znth 0 (bucket key r total) t) (bucket key r total)) by (apply znth_In; auto).
    apply filter_In in Hin. destruct Hin as [Hin Hkq]. apply In_zrange in Hin. split; [auto|]. apply Z.eqb_eq; auto. }
  split; [lia|]. split; [lia|]. split; [|split; [|split]].
  - (* permutation *)
    assert (E : map (znth 0 i2') (zrange is ie) = flat_map (fun r => bucket key r total) (zrange 0 (maxnzr + 1))).
    { apply (list_ext 0).
      - rewrite zlen_map_zrange by lia. unfold start in Hst. lia.
      - rewrite zlen_map_zrange by lia. intros i Hi.
        rewrite znth_map with (d := 0) by (rewrite zlen_zrange; lia). rewrite znth_zrange by lia.
        destruct (Hpos (is + i)) as (r & t & Hr & Ht & E); [lia|].
        rewrite E, Hv2 by auto. replace i with (start key total r + t) by lia.
        pose proof (flat_map_segment 0 (fun r => bucket key r total) (maxnzr + 1) r Hr) as FS.
        fold (start key total r) in FS. fold (start key total (r + 1)) in FS.
        rewrite <- FS. rewrite start_succ by lia.
        rewrite znth_map with (d := 0) by (rewrite zlen_zrange; lia). rewrite znth_zrange by lia. reflexivity. }
    rewrite E. apply (buckets_perm key); auto.
  - intros k Hkr. destruct (Hpos k Hkr) as (r & t & Hr & Ht & ->). rewrite Hv1, Hv2 by auto.
    destruct (Hbk r t Hr Ht) as [_ HK]. unfold key in HK at 1. lia.
  - intros p q Hp Hq. destruct (Hpos p ltac:(lia)) as (r & t & Hr & Ht & ->).
    destruct (Hpos q ltac:(lia)) as (r' & t' & Hr' & Ht' & ->).
    rewrite !Hv1, !Hv2 by auto.
    destruct (Z.lt_trichotomy r r') as [Hlt|[Heq|Hgt]].
    + left. lia.
    + subst r'. right. split; [auto|]. unfold bucket, total. apply lt_or_sorted_filter; [lia|]. apply Ht'.
    + exfalso. pose proof (start_mono key total (r' + 1) r). pose proof (start_succ key total r'). lia.
  - intros k Hkn. split; [|apply Ho4; auto]. apply A2. lia.
Qed.
