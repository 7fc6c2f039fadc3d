(** Proofs about JadSolve.v: the layout of a triangle and the positions of its entries *)
Require Import ZArith List Bool Lia Permutation.
From Verif Require Import Base Scalar Spec Items Sort SortProof Fmt JadProof JadSolve.
Import ListNotations.
Open Scope Z_scope.

Definition laid (n m N : Z) (len : Z -> Z) (perm ptr col : list Z) : Prop :=
  zlen perm = n /\ zlen ptr = m + 1 /\ zlen col = n /\ ptr_ok m ptr /\ znth 0 ptr m = N /\
  Permutation (map (znth 0 perm) (zrange 0 n)) (zrange 0 n) /\
  (forall r, 0 <= r < n -> 0 <= znth 0 col r < n /\ znth 0 perm (znth 0 col r) = r) /\
  (forall t, 0 <= t < n -> 0 <= znth 0 perm t < n /\ znth 0 col (znth 0 perm t) = t) /\
  (forall s t, 0 <= s < m -> 0 <= t < n -> (t < znth 0 ptr (s + 1) - znth 0 ptr s <-> s < len (znth 0 perm t))) /\
  (forall s, 0 <= s < m -> 0 <= znth 0 ptr (s + 1) - znth 0 ptr s <= n).

Lemma jad_longest_wp n w (Q : Z -> Prop) : 0 <= n -> zlen w = n -> (forall k, 0 <= k < n -> 0 <= znth 0 w k) ->
  (forall m, 0 <= m -> (forall k, 0 <= k < n -> znth 0 w k <= m) -> (0 < n -> exists k, 0 <= k < n /\ znth 0 w k = m) -> Q m) -> wp (jad_longest n w) Q.
Proof.
  intros Hn Hl Hw HQ. unfold jad_longest.
  apply (for_wp' (fun i m => 0 <= m /\ (forall k, 0 <= k < i -> znth 0 w k <= m) /\ (m = 0 \/ exists k, 0 <= k < i /\ znth 0 w k = m))); [lia| | |].
  - split; [lia|]. split; [intros; lia|]. auto.
  - intros i m Hi (H1 & H2 & H3). wrd 0; [lia|]. apply wp_ok. specialize (Hw i Hi). destruct (Z.ltb_spec m (znth 0 w i)).
    + split; [lia|]. split. { intros k Hk. destruct (Z.eq_dec k i) as [->|]; [lia|]. specialize (H2 k). lia. } right. exists i. split; [lia|auto].
    + split; [lia|]. split. { intros k Hk. destruct (Z.eq_dec k i) as [->|]; [lia|]. specialize (H2 k). lia. } destruct H3 as [H3|(k & Hk & H3)]; [auto|]. right. exists k. split; [lia|auto].
  - intros m (H1 & H2 & H3). apply HQ; auto. intros H0. destruct H3 as [->|H3]; auto. exists 0. split; [lia|]. specialize (H2 0). specialize (Hw 0). lia.
Qed.

Lemma perm_inj n l p q : Permutation (map (znth 0 l) (zrange 0 n)) (zrange 0 n) -> 0 <= p < n -> 0 <= q < n -> znth 0 l p = znth 0 l q -> p = q.
Proof.
  intros HP Hp Hq E. assert (ND : NoDup (map (znth 0 l) (zrange 0 n))). { eapply Permutation_NoDup; [apply Permutation_sym; exact HP|]. apply NoDup_zrange. }
  rewrite (zrange_app 0 p n) in ND by lia. rewrite (zrange_cons p n) in ND by lia. rewrite map_app in ND. cbn [map] in ND.
  destruct (Z.lt_trichotomy p q) as [H|[H|H]]; auto; exfalso; apply NoDup_remove_2 in ND; apply ND; apply in_app_iff; rewrite E.
  - right. apply in_map. apply In_zrange. lia.
  - left. apply in_map. apply In_zrange. lia.
Qed.
Lemma perm_range n l p : Permutation (map (znth 0 l) (zrange 0 n)) (zrange 0 n) -> 0 <= p < n -> 0 <= znth 0 l p < n.
Proof. intros HP Hp. apply (In_zrange 0). apply (Permutation_in _ HP). apply in_map. apply In_zrange; auto. Qed.

Theorem jad_layout_wp n m N len row w jq jp jc (Q : list Z * list Z * list Z * list Z -> Prop) :
  0 <= n -> 0 <= m -> n <= zlen row -> Permutation (map (znth 0 row) (zrange 0 n)) (zrange 0 n) -> zlen w = n ->
  (forall k, 0 <= k < n -> znth 0 w k = len (znth 0 row k)) -> (forall r, 0 <= r < n -> 0 <= len r <= m) ->
  zlen (flat_map (fun r => zrange 0 (len r)) (zrange 0 n)) = N ->
  (forall perm ptr col w', laid n m N len perm ptr col -> zlen w' = n -> (forall k, 0 <= k < n -> znth 0 w' k = 0) -> Q (perm, ptr, col, w')) ->
  wp (jad_layout n m row w jq jp jc) Q.
Proof.
  intros Hn Hm Lrow HR Lw Hw Hlen HN HQ. unfold jad_layout.
  apply wp_bind, (for_set 0 (fun _ => 0)); [lia|rewrite zlen_alloc; lia|]. rewrite zlen_alloc by lia. intros pt0 Lpt0 Zpt0 _.
  set (rlen := fun i => len (znth 0 row i)).
  set (total := flat_map (fun i => zrange 0 (rlen i)) (zrange 0 n)).
  set (id' := fun x : Z => x).
  assert (Hrl : forall i, 0 <= i < n -> 0 <= rlen i <= m). { intros i Hi. apply Hlen. apply perm_range with (n := n); auto. }
  assert (Htk : forall e, In e total -> 0 <= id' e < m).
  { intros e He. apply in_flat_map in He. destruct He as (i & Hi & He). apply In_zrange in Hi. apply In_zrange in He. specialize (Hrl i Hi). unfold id'. lia. }
  assert (Htot : zlen total = N).
  { rewrite <- HN. unfold total, rlen. rewrite <- (flat_map_map (fun r => zrange 0 (len r)) (znth 0 row)). unfold zlen. f_equal. apply Permutation_length. apply Permutation_flat_map. exact HR. }
  apply wp_bind.
  apply (for_wp' (fun i s => let '(pm, pt) := s in zlen pm = n /\ zlen pt = m + 1 /\ (forall q, 0 <= q < i -> znth 0 pm q = znth 0 row q) /\ znth 0 pt 0 = 0 /\
      count_rep id' m 1 (flat_map (fun i => zrange 0 (rlen i)) (zrange 0 i)) pt)); [lia| | |].
  { rewrite zlen_alloc by lia. split; [auto|]. split; [lia|]. split; [intros; lia|]. split; [apply Zpt0; lia|]. rewrite zrange_empty by lia.
    intros r Hr. rewrite Zpt0 by lia. reflexivity. }
  { intros i [pm pt] Hi (Lpm & Lpt & Hpm1 & Hp0 & Hc). wrd 0; [lia|]. wwr; [lia|]. wrd 0; [lia|]. apply wp_bind.
    rewrite (Hw i Hi). fold (rlen i). pose proof (Hrl i Hi) as Hri.
    apply (for_wp' (fun j pt => zlen pt = m + 1 /\ znth 0 pt 0 = 0 /\ count_rep id' m 1 (flat_map (fun i => zrange 0 (rlen i)) (zrange 0 i) ++ zrange 0 j) pt)); [lia| | |].
    - split; auto. split; auto. rewrite (zrange_empty 0 0) by lia. rewrite app_nil_r. auto.
    - intros j a Hj (La & Ha0 & Hca). unfold incr. wrd 0; [lia|]. apply wp_wr; [lia|]. rewrite zlen_zupd. split; auto. split. { rewrite znth_zupd_neq by lia. auto. }
      rewrite (zrange_snoc 0 j) by lia. rewrite app_assoc. apply (count_step id' m 1); auto; unfold id'; lia.
    - intros a (La & Ha0 & Hca). apply wp_ok. rewrite zlen_zupd. split; [auto|]. split; [auto|]. split; [|split; [auto|]].
      + intros q Hq. rewrite znth_zupd by lia. destruct (Z.eqb_spec q i); [subst; auto|apply Hpm1; lia].
      + rewrite flat_map_snoc by lia. auto. }
  intros [pm pt] (Lpm & Lpt & Hpm1 & Hp00 & Hc). fold total in Hc.
  apply wp_bind. unfold lis_sortr_ii.
  apply (quick1_wp 0 Z.gtb 0); try lia.
  intros w' pm' Lpm' (Lw' & HPs & _ & Hsort). cbn beta iota.
  replace (n - 1 + 1) with n in HPs by lia.
  assert (HPall : Permutation (map (fun i => (znth 0 w' i, znth 0 pm' i)) (zrange 0 n)) (map (fun i => (rlen i, znth 0 row i)) (zrange 0 n))).
  { rewrite HPs. apply Permutation_refl'. apply map_ext_in. intros i Hi. apply In_zrange in Hi. rewrite Hw, Hpm1 by auto. auto. }
  assert (HPm : Permutation (map (znth 0 pm') (zrange 0 n)) (zrange 0 n)).
  { pose proof (Permutation_map snd HPall) as HM. rewrite !map_map in HM. cbn [snd] in HM. rewrite HM. exact HR. }
  assert (Hwl : forall t, 0 <= t < n -> 0 <= znth 0 pm' t < n /\ znth 0 w' t = len (znth 0 pm' t)).
  { intros t Ht. split; [apply perm_range with (n := n); auto|]. assert (Hin : In (znth 0 w' t, znth 0 pm' t) (map (fun i => (rlen i, znth 0 row i)) (zrange 0 n))).
    { apply (Permutation_in _ HPall). apply in_map_iff. exists t. split; auto. apply In_zrange; auto. }
    apply in_map_iff in Hin. destruct Hin as (i & E & Hi). inversion E; subst. reflexivity. }
  assert (Hdesc : forall p q, 0 <= p <= q -> q < n -> len (znth 0 pm' q) <= len (znth 0 pm' p)).
  { intros p q Hpq Hq. destruct (Hwl p) as [_ <-]; [lia|]. destruct (Hwl q) as [_ <-]; [lia|]. specialize (Hsort p q Hpq ltac:(lia)). lia. }
  assert (Hcut : forall s, 0 <= s -> 0 <= cntk id' s total <= n /\ forall t, 0 <= t < n -> (s < len (znth 0 pm' t) <-> t < cntk id' s total)).
  { intros s Hs. destruct (desc_cut (fun t => len (znth 0 pm' t)) n s Hn Hdesc) as (c & Hc1 & Hc2).
    assert (Ec : cntk id' s total = c).
    { unfold total, id'. rewrite cnt_lengths by auto. unfold rlen. transitivity (zlen (filter (fun r => s <? len r) (zrange 0 n))).
      - rewrite <- (filter_zlen_perm (fun r => s <? len r) _ _ HR). rewrite filter_map, zlen_map. reflexivity.
      - rewrite <- (filter_zlen_perm (fun r => s <? len r) _ _ HPm). rewrite filter_map, zlen_map. rewrite (filter_cut _ n c); auto.
        + rewrite zlen_zrange. lia.
        + intros t Ht. rewrite Z.ltb_lt. apply Hc2; auto. }
    rewrite Ec. auto. }
  apply wp_bind, (prefix_self_start id' total); [lia|lia|auto|auto|]. intros pt' Lpt' Hpt'.
  apply wp_bind.
  apply (for_wp' (fun i s => let '(w, col) := s in zlen w = n /\ zlen col = n /\ (forall k, 0 <= k < i -> znth 0 w k = 0) /\ forall t, 0 <= t < i -> znth 0 col (znth 0 pm' t) = t)); [lia| | |].
  { rewrite zlen_alloc by lia. split; [lia|]. split; [auto|]. split; intros; lia. }
  { intros i [w1 col] Hi (L1 & L2 & H1 & H2). destruct (Hwl i Hi) as [Hpi _]. wwr; [lia|]. wrd 0; [lia|]. wwr; [lia|]. apply wp_ok. rewrite !zlen_zupd.
    split; auto. split; auto. split.
    - intros k Hk. rewrite znth_zupd by lia. destruct (Z.eqb_spec k i); [auto|apply H1; lia].
    - intros t Ht. destruct (Hwl t ltac:(lia)) as [Hpt _]. rewrite znth_zupd by lia. destruct (Z.eqb_spec (znth 0 pm' t) (znth 0 pm' i)) as [E|E].
      + symmetry. apply (perm_inj n pm'); auto. lia.
      + apply H2. assert (t <> i) by congruence. lia. }
  intros [w1 col] (L1 & L2 & H1 & H2). apply wp_ok. apply HQ; auto.
  split; [lia|]. split; [lia|]. split; [lia|]. split.
  { split; [lia|]. split; [lia|]. split; [rewrite Hpt' by lia; reflexivity|]. intros i Hi. rewrite !Hpt' by lia. rewrite start_succ by lia. pose proof (cntk_nonneg id' i total). lia. }
  split; [rewrite Hpt' by lia; rewrite (start_total id' m total Htk); auto|]. split; [auto|]. split.
  { intros r Hr. assert (Hin : In r (map (znth 0 pm') (zrange 0 n))). { apply (Permutation_in _ (Permutation_sym HPm)). apply In_zrange; auto. }
    apply in_map_iff in Hin. destruct Hin as (t & <- & Ht). apply In_zrange in Ht. rewrite H2 by auto. auto. }
  split. { intros t Ht. destruct (Hwl t Ht). auto. }
  split.
  { intros s t Hs Ht. rewrite !Hpt' by lia. rewrite start_succ by lia. destruct (Hcut s ltac:(lia)) as [_ Hcs]. specialize (Hcs t Ht). lia. }
  intros s Hs. rewrite !Hpt' by lia. rewrite start_succ by lia. destruct (Hcut s ltac:(lia)). lia.
Qed.

Section Laid.
Variables (n m N : Z) (len : Z -> Z) (perm ptr col : list Z).
Hypothesis HL : laid n m N len perm ptr col.
Hypothesis Hlen : forall r, 0 <= r < n -> 0 <= len r <= m.
Lemma slot_lt s r : 0 <= r < n -> 0 <= s < len r -> 0 <= znth 0 col r < znth 0 ptr (s + 1) - znth 0 ptr s.
Proof using HL Hlen.
  intros Hr Hs. destruct HL as (_ & _ & _ & _ & _ & _ & H1 & _ & H2 & _). destruct (H1 r Hr) as [Hc E]. specialize (Hlen r Hr). split; [lia|]. apply H2; [lia|auto|]. rewrite E. lia.
Qed.
Lemma slot_end r : 0 <= r < n -> 0 <= len r < m -> znth 0 ptr (len r + 1) - znth 0 ptr (len r) <= znth 0 col r.
Proof using HL Hlen.
  intros Hr Hs. destruct HL as (_ & _ & _ & _ & _ & _ & H1 & _ & H2 & _). destruct (H1 r Hr) as [Hc E]. specialize (H2 (len r) (znth 0 col r) Hs Hc). rewrite E in H2. lia.
Qed.
Lemma slot_range s r : 0 <= r < n -> 0 <= s < len r -> 0 <= znth 0 ptr s + znth 0 col r < N.
Proof using HL Hlen.
  intros Hr Hs. pose proof (slot_lt s r Hr Hs). destruct HL as (_ & _ & _ & Hp & HN & _). specialize (Hlen r Hr).
  pose proof (ptr_ok_mono m ptr 0 s Hp ltac:(lia) ltac:(lia)). pose proof (ptr_ok_mono m ptr (s + 1) m Hp ltac:(lia) ltac:(lia)). destruct Hp as (_ & _ & H00 & _). lia.
Qed.
Lemma slot_inj s r s' r' : 0 <= r < n -> 0 <= r' < n -> 0 <= s < len r -> 0 <= s' < len r' -> znth 0 ptr s + znth 0 col r = znth 0 ptr s' + znth 0 col r' -> s = s' /\ r = r'.
Proof using HL Hlen.
  intros Hr Hr' Hs Hs' E. pose proof (slot_lt s r Hr Hs). pose proof (slot_lt s' r' Hr' Hs'). pose proof HL as (_ & _ & _ & Hp & _ & _ & H1 & _).
  pose proof (Hlen r Hr). pose proof (Hlen r' Hr').
  assert (s = s'). { destruct (Z.lt_trichotomy s s') as [G|[G|G]]; auto; exfalso.
    - pose proof (ptr_ok_mono m ptr (s + 1) s' Hp ltac:(lia) ltac:(lia)). lia.
    - pose proof (ptr_ok_mono m ptr (s' + 1) s Hp ltac:(lia) ltac:(lia)). lia. }
  subst s'. split; auto. destruct (H1 r Hr) as [_ <-]. destruct (H1 r' Hr') as [_ <-]. f_equal. lia.
Qed.

Context {T : Type} {S : Scalar T}.
Definition filled (G : Z -> list (Z * T)) (s : list Z * list Z * list T) : Prop :=
  let '(w, ix, vl) := s in zlen w = n /\ zlen ix = N /\ zlen vl = N /\ forall r, 0 <= r < n -> znth 0 w r = zlen (G r) /\ zlen (G r) <= len r /\
    forall q, 0 <= q < zlen (G r) -> (znth 0 ix (znth 0 ptr q + znth 0 col r), znth s0 vl (znth 0 ptr q + znth 0 col r)) = znth (0, s0) (G r) q.
Lemma filled_ext G G' s : (forall r, 0 <= r < n -> G r = G' r) -> filled G s -> filled G' s.
Proof using. destruct s as [[w ix] vl]. intros H (H1 & H2 & H3 & H4). split; auto. split; auto. split; auto. intros r Hr. rewrite <- H by auto. auto. Qed.
Lemma jad_put_wp G r c v s : filled G s -> 0 <= r < n -> zlen (G r) < len r ->
  wp (jad_put ptr col r c v s) (filled (fun q => if q =? r then G r ++ [(c, v)] else G q)).
Proof using HL Hlen.
  destruct s as [[w ix] vl]. intros (L1 & L2 & L3 & H) Hr Hg. pose proof HL as (_ & Lp & Lc & _). pose proof (Hlen r Hr) as Hlr. destruct (H r Hr) as (Hw & _ & _).
  pose proof (zlen_nonneg (G r)) as Hz. pose proof (slot_range (zlen (G r)) r Hr ltac:(lia)) as Hs. unfold jad_put.
  wrd 0; [lia|]. rewrite Hw. wrd 0; [lia|]. wrd 0; [lia|]. wwr; [lia|]. wwr; [lia|]. wwr; [lia|]. apply wp_ok. unfold filled. rewrite !zlen_zupd. split; auto. split; auto. split; auto.
  intros q Hq. destruct (H q Hq) as (Hwq & Hgq & Hs'). rewrite znth_zupd by lia. destruct (Z.eqb_spec q r) as [->|Hne].
  - rewrite zlen_app. change (zlen [(c, v)]) with 1. split; [lia|]. split; [lia|]. intros t Ht. destruct (Z.eq_dec t (zlen (G r))) as [->|Ht'].
    + rewrite !znth_zupd_eq by lia. rewrite znth_snoc_last. reflexivity.
    + rewrite !znth_zupd by (try lia; pose proof (slot_range t r Hr ltac:(lia)); lia). destruct (Z.eqb_spec (znth 0 ptr t + znth 0 col r) (znth 0 ptr (zlen (G r)) + znth 0 col r)) as [E|E]. { apply slot_inj in E; lia. } rewrite znth_snoc_lt by lia. apply Hs'. lia.
  - split; auto. split; auto. intros t Ht. rewrite !znth_zupd by lia. destruct (Z.eqb_spec (znth 0 ptr t + znth 0 col q) (znth 0 ptr (zlen (G r)) + znth 0 col r)) as [E|E]. { apply slot_inj in E; try lia. } apply Hs'. auto.
Qed.
End Laid.
