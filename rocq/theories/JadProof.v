(** Proofs about Jad.v *)
Require Import ZArith List Bool Lia Permutation.
From Verif Require Import Base Scalar Spec Items Sort SortProof Csc CscProof Coo CooProof Fmt EllProof ConvFinal Jad.
Import ListNotations.
Open Scope Z_scope.

(** a descending function is above [s] exactly on an initial segment *)
Lemma desc_cut (f : Z -> Z) n s :
  0 <= n -> (forall p q, 0 <= p <= q -> q < n -> f q <= f p) ->
  exists c, 0 <= c <= n /\ forall t, 0 <= t < n -> (s < f t <-> t < c).
Proof.
  intros Hn Hd.
  assert (G : forall m : nat, Z.of_nat m <= n -> exists c, 0 <= c <= Z.of_nat m /\ forall t, 0 <= t < Z.of_nat m -> (s < f t <-> t < c)).
  { induction m; intros Hm.
    - exists 0. split; [lia|]. intros; lia.
    - destruct IHm as (c & Hc & Hcut); [lia|].
      destruct (Z.lt_ge_cases s (f (Z.of_nat m))).
      + exists (Z.of_nat m + 1). split; [lia|]. intros t Ht. split; [lia|]. intros _.
        specialize (Hd t (Z.of_nat m)). lia.
      + exists c. split; [lia|]. intros t Ht. destruct (Z.eq_dec t (Z.of_nat m)); [subst; lia|]. apply Hcut. lia. }
  destruct (G (Z.to_nat n)) as (c & Hc & Hcut); [lia|]. rewrite Z2Nat.id in * by lia. exists c. auto.
Qed.

Lemma filter_cut (p : Z -> bool) n c : 0 <= c <= n -> (forall t, 0 <= t < n -> (p t = true <-> t < c)) ->
  filter p (zrange 0 n) = zrange 0 c.
Proof.
  intros Hc H. rewrite (zrange_app 0 c n) by lia. rewrite filter_app.
  rewrite filter_all by (intros x Hx; apply In_zrange in Hx; apply H; lia).
  rewrite filter_none; [apply app_nil_r|]. intros x Hx. apply In_zrange in Hx.
  destruct (p x) eqn:E; auto. apply H in E; lia.
Qed.

(** the number of j's emitted by rows longer than j *)
Lemma cnt_lengths (len : Z -> Z) l j : 0 <= j ->
  cntk (fun x => x) j (flat_map (fun i => zrange 0 (len i)) l) = zlen (filter (fun i => j <? len i) l).
Proof.
  intros Hj. induction l as [|i l IH]; [reflexivity|]. cbn [flat_map filter].
  rewrite cntk_app, IH.
  assert (E : cntk (fun x => x) j (zrange 0 (len i)) = if j <? len i then 1 else 0).
  { unfold cntk, bucket. destruct (Z.ltb_spec j (len i)).
    - rewrite (zrange_app 0 j (len i)) by lia. rewrite (zrange_cons j) by lia. rewrite filter_app. cbn [filter]. rewrite Z.eqb_refl.
      rewrite !filter_none; [reflexivity| |]; intros x Hx; apply In_zrange in Hx; apply Z.eqb_neq; lia.
    - rewrite filter_none; [reflexivity|]. intros x Hx; apply In_zrange in Hx; apply Z.eqb_neq; lia. }
  rewrite E. destruct (j <? len i); [rewrite zlen_cons|]; lia.
Qed.

Lemma filter_zlen_perm (p : Z -> bool) l m : Permutation l m -> zlen (filter p l) = zlen (filter p m).
Proof. intros H. unfold zlen. rewrite (Permutation_length (Permutation_filter p l m H)). auto. Qed.

(** walking a segmented structure: positions of different segments differ *)
Lemma start_disjoint {E} (key : E -> Z) total s t s' t' :
  0 <= s -> 0 <= s' -> 0 <= t < cntk key s total -> 0 <= t' < cntk key s' total ->
  start key total s + t = start key total s' + t' -> s = s' /\ t = t'.
Proof.
  intros Hs Hs' Ht Ht' Eq. destruct (Z.lt_trichotomy s s') as [H|[H|H]].
  - pose proof (start_mono key total (s + 1) s' ltac:(lia)) as M. rewrite start_succ in M by lia. lia.
  - subst. lia.
  - pose proof (start_mono key total (s' + 1) s ltac:(lia)) as M. rewrite start_succ in M by lia. lia.
Qed.

Lemma ptr_find n p k : ptr_ok n p -> 0 <= k < znth 0 p n -> exists q, 0 <= q < n /\ znth 0 p q <= k < znth 0 p (q + 1).
Proof.
  intros (Hn & _ & Hz & _) Hk.
  assert (G : forall m : nat, Z.of_nat m <= n -> k < znth 0 p (Z.of_nat m) -> exists q, 0 <= q < n /\ znth 0 p q <= k < znth 0 p (q + 1)).
  { induction m; intros Hm Hlt. - change (Z.of_nat 0) with 0 in Hlt. lia.
    - destruct (Z.lt_ge_cases k (znth 0 p (Z.of_nat m))); [apply IHm; auto; lia|].
      exists (Z.of_nat m). replace (Z.of_nat m + 1) with (Z.of_nat (Datatypes.S m)) by lia. lia. }
  apply (G (Z.to_nat n)); rewrite ?Z2Nat.id; lia.
Qed.

(** for_ptr whose body also uses the start of the segment *)
Lemma for_seg_items {E St} (R : list E -> St -> Prop) (total : list E) (f : Z -> Z -> E) n ptr (body : Z -> Z -> Z -> St -> res St) done s (Q : St -> Prop) :
  ptr_ok n ptr ->
  prefix (done ++ ptr_items n ptr f) total ->
  R done s ->
  (forall i k s d, 0 <= i < n -> znth 0 ptr i <= k < znth 0 ptr (i + 1) -> 0 <= k < znth 0 ptr n ->
     prefix (d ++ [f i k]) total -> R d s -> wp (body (znth 0 ptr i) i k s) (R (d ++ [f i k]))) ->
  (forall s, R (done ++ ptr_items n ptr f) s -> Q s) ->
  wp (for_ 0 n (fun i s => lo <- rd ptr i ;; hi <- rd ptr (i + 1) ;; for_ lo hi (fun k s => body lo i k s) s) s) Q.
Proof.
  intros Hok Hp H0 Hs HQ. pose proof Hok as (Hn & Hl & Hz & Hm).
  apply (for_items R total (fun i => map (f i) (zrange (znth 0 ptr i) (znth 0 ptr (i + 1)))) 0 n _ done); try assumption.
  intros i s' d Hi Hd Hpre HR.
  apply wp_bind, (wp_rd 0); [lia|]. apply wp_bind, (wp_rd 0); [lia|].
  apply (for_list R total (f i) _ _ _ d); try assumption; [apply Hm; lia| |trivial].
  intros k s'' d' Hk _ Hpre' HR'. apply Hs; auto.
  eapply ptr_ok_bounds; eauto.
Qed.

Section JadProof.
Context {T : Type} {S : Scalar T}.

Lemma jad_in_shape (A : jad T) : jad_ok A -> in_shape (jad_n A) (jad_np A) (jad_entries A).
Proof.
  intros (Hn & Hp & Hnnz & Hpl & HP & Hli & Hlv & Hix & Hw) e He. unfold jad_entries in He.
  apply in_flat_map in He. destruct He as (j & Hj & He). apply in_map_iff in He. destruct He as (k & <- & Hk).
  apply In_zrange in Hj. apply In_zrange in Hk. unfold erow, ecol; cbn.
  pose proof (ptr_ok_bounds _ _ j k Hp Hj Hk) as Hb. rewrite Hnnz in Hb. specialize (Hix k Hb). split; [|auto].
  apply (In_zrange 0). apply (Permutation_in _ HP). apply in_map. apply In_zrange. specialize (Hw j Hj). lia.
Qed.

Lemma jad_entries_len (A : jad T) : jad_ok A -> zlen (jad_entries A) = jad_nnz A.
Proof.
  intros (Hn & Hp & Hnnz & _). rewrite <- Hnnz. exact (zlen_ptr_items (jad_maxnzr A) (jad_ptr A) _ Hp).
Qed.

Theorem convert_csr2jad_wp jw jq jp ji jv (A : csr T) (Q : jad T -> Prop) :
  csr_ok A ->
  (forall B, jad_ok B -> jad_n B = csr_n A -> jad_np B = csr_np A -> jad_nnz B = csr_nnz A ->
     Permutation (jad_entries B) (csr_entries A) -> Q B) ->
  wp (convert_csr2jad jw jq jp ji jv A) Q.
Proof.
  intros Hok HQ. pose proof Hok as (Hp & Hnp & Hnnz & Hli & Hlv & Hix). pose proof Hp as (Hn & Hlp & Hp0 & Hpm).
  unfold convert_csr2jad. cbv zeta.
  set (n := csr_n A) in *. set (nnz := csr_nnz A) in *. set (ptr := csr_ptr A) in *.
  set (len := fun i => znth 0 ptr (i + 1) - znth 0 ptr i).
  assert (Hlen : forall i, 0 <= i < n -> 0 <= len i) by (intros i Hi; unfold len; specialize (Hpm i Hi); lia).
  assert (Hnn : 0 <= nnz) by (rewrite <- Hnnz; pose proof (ptr_ok_mono n ptr 0 n Hp ltac:(lia) ltac:(lia)); lia).
  (* row lengths *)
  apply wp_bind.
  apply (for_wp' (fun i s => let '(w, m) := s in zlen w = n /\ (forall q, 0 <= q < i -> znth 0 w q = len q /\ len q <= m) /\ 0 <= m)); auto.
  { rewrite zlen_alloc by lia. split; [auto|]. split; [intros; lia|lia]. }
  { intros i [w m] Hi (Lw & Hw & Hm). wrd 0; [lia|]. wrd 0; [lia|]. wwr; [lia|]. wrd 0; [rewrite zlen_zupd; lia|].
    rewrite znth_zupd_eq by lia. apply wp_ok. rewrite zlen_zupd. fold (len i).
    split; [auto|]. split.
    - intros q Hq. rewrite znth_zupd by lia. destruct (Z.eqb_spec q i).
      + subst q. split; [auto|]. destruct (Z.ltb_spec m (len i)); lia.
      + destruct (Hw q ltac:(lia)) as [-> Hq2]. split; [auto|]. destruct (Z.ltb_spec m (len i)); lia.
    - destruct (Z.ltb_spec m (len i)); lia. }
  intros [w m] (Lw & Hw & Hm).
  (* zero ptr *)
  apply wp_bind, (for_set 0 (fun _ => 0)); [lia|rewrite zlen_alloc; lia|]. rewrite zlen_alloc by lia.
  intros pt0 Lpt0 Zpt0 _.
  (* count *)
  set (total := flat_map (fun i => zrange 0 (len i)) (zrange 0 n)).
  set (id' := fun x : Z => x).
  assert (Htk : forall e, In e total -> 0 <= id' e < m).
  { intros e He. apply in_flat_map in He. destruct He as (i & Hi & He). apply In_zrange in Hi. apply In_zrange in He.
    destruct (Hw i Hi). unfold id'. lia. }
  apply wp_bind.
  apply (for_wp' (fun i s => let '(pm, pt) := s in zlen pm = n /\ zlen pt = m + 1 /\ (forall q, 0 <= q < i -> znth 0 pm q = q) /\
      count_rep id' m 1 (flat_map (fun i => zrange 0 (len i)) (zrange 0 i)) pt)); auto.
  { rewrite zlen_alloc by lia. split; [auto|]. split; [lia|]. split; [intros; lia|]. rewrite zrange_empty by lia.
    intros r Hr. rewrite Zpt0 by lia. reflexivity. }
  { intros i [pm pt] Hi (Lpm & Lpt & Hpm1 & Hc). wwr; [lia|]. wrd 0; [lia|]. apply wp_bind.
    destruct (Hw i Hi) as [-> Hlm]. specialize (Hlen i Hi).
    apply (for_wp' (fun j pt => zlen pt = m + 1 /\ count_rep id' m 1 (flat_map (fun i => zrange 0 (len i)) (zrange 0 i) ++ zrange 0 j) pt)); auto.
    - split; auto. rewrite (zrange_empty 0 0) by lia. rewrite app_nil_r. auto.
    - intros j a Hj (La & Hca). unfold incr. wrd 0; [lia|]. apply wp_wr; [lia|]. rewrite zlen_zupd. split; auto.
      rewrite (zrange_snoc 0 j) by lia. rewrite app_assoc. apply (count_step id' m 1); auto; unfold id'; lia.
    - intros a (La & Hca). apply wp_ok. rewrite zlen_zupd. split; [auto|]. split; [auto|]. split.
      + intros q Hq. rewrite znth_zupd by lia. destruct (Z.eqb_spec q i); [auto|apply Hpm1; lia].
      + rewrite flat_map_snoc by lia. auto. }
  intros [pm pt] (Lpm & Lpt & Hpm1 & Hc). fold total in Hc.
  (* sort *)
  apply wp_bind. unfold lis_sortr_ii.
  apply (quick1_wp 0 Z.gtb 0); try lia.
  intros w' pm' Lpm' (Lw' & HPs & _ & Hsort). cbn beta iota.
  replace (n - 1 + 1) with n in HPs by lia.
  assert (HPall : Permutation (map (fun i => (znth 0 w' i, znth 0 pm' i)) (zrange 0 n)) (map (fun i => (len i, i)) (zrange 0 n))).
  { rewrite HPs. rewrite (map_ext_in _ (fun i => (len i, i))); [apply Permutation_refl|].
    intros i Hi. apply In_zrange in Hi. destruct (Hw i Hi) as [-> _]. rewrite Hpm1 by auto. auto. }
  assert (HPm : Permutation (map (znth 0 pm') (zrange 0 n)) (zrange 0 n)).
  { pose proof (Permutation_map snd HPall) as HM. rewrite !map_map in HM. cbn [snd] in HM. rewrite map_id in HM. exact HM. }
  assert (Hwl : forall t, 0 <= t < n -> 0 <= znth 0 pm' t < n /\ znth 0 w' t = len (znth 0 pm' t)).
  { intros t Ht. assert (Hin : In (znth 0 w' t, znth 0 pm' t) (map (fun i => (len i, i)) (zrange 0 n))).
    { apply (Permutation_in _ HPall). apply in_map_iff. exists t. split; auto. apply In_zrange; auto. }
    apply in_map_iff in Hin. destruct Hin as (i & E & Hi). apply In_zrange in Hi. inversion E; subst. auto. }
  assert (Hdesc : forall p q, 0 <= p <= q -> q < n -> len (znth 0 pm' q) <= len (znth 0 pm' p)).
  { intros p q Hpq Hq. destruct (Hwl p) as [_ <-]; [lia|]. destruct (Hwl q) as [_ <-]; [lia|].
    specialize (Hsort p q Hpq ltac:(lia)). lia. }
  assert (Hcut : forall s, 0 <= s -> 0 <= cntk id' s total <= n /\ forall t, 0 <= t < n -> (s < len (znth 0 pm' t) <-> t < cntk id' s total)).
  { intros s Hs. destruct (desc_cut (fun t => len (znth 0 pm' t)) n s Hn Hdesc) as (c & Hc1 & Hc2).
    assert (Ec : cntk id' s total = c).
    { unfold total, id'. rewrite cnt_lengths by auto. rewrite <- (filter_zlen_perm _ _ _ HPm). rewrite filter_map, zlen_map.
      rewrite (filter_cut _ n c); auto.
      - rewrite zlen_zrange. lia.
      - intros t Ht. rewrite Z.ltb_lt. apply Hc2; auto. }
    rewrite Ec. auto. }
  assert (Htot : zlen total = nnz).
  { rewrite <- Hnnz. rewrite <- (zlen_ptr_items n ptr (fun i k => k) Hp). unfold total, ptr_items, zlen. f_equal.
    clear - Hpm. assert (G : forall l, (forall i, In i l -> 0 <= i < n) ->
       length (flat_map (fun i => zrange 0 (len i)) l) = length (flat_map (fun i => map (fun k => k) (zrange (znth 0 ptr i) (znth 0 ptr (i + 1)))) l)).
    { induction l; simpl; intros; auto. rewrite !app_length, IHl by auto. f_equal. rewrite map_length.
      unfold zrange. rewrite !map_length, !seq_length. unfold len. f_equal. lia. }
    apply G. intros i Hi. apply In_zrange in Hi. auto. }
  assert (Hstm : start id' total m = nnz) by (rewrite (start_total id' m total Htk); auto).
  (* prefix *)
  apply wp_bind, wp_wr; [lia|].
  apply wp_bind, (prefix_self_start id' total); rewrite ?zlen_zupd; try lia.
  { apply znth_zupd_eq. lia. }
  { intros r Hr. rewrite znth_zupd_neq by lia. apply Hc; auto. }
  intros pt' Lpt' Hpt'.
  (* fill *)
  assert (Hroom : forall s t, 0 <= s -> 0 <= t < cntk id' s total -> 0 <= start id' total s + t < nnz).
  { intros s t Hs Ht. pose proof (start_nonneg id' total s). split; [lia|].
    assert (Hsm : s < m).
    { destruct (Z.lt_ge_cases s m); auto. exfalso. destruct (Hcut s Hs) as [Hc1 Hc2]. specialize (Hc2 t).
      destruct (Hwl t) as [Hwr _]; [lia|]. destruct (Hw _ Hwr) as [_ Hle]. lia. }
    pose proof (start_mono id' total (s + 1) m ltac:(lia)) as M. rewrite start_succ in M by lia. lia. }
  apply wp_bind.
  set (src := fun t s => znth 0 ptr (znth 0 pm' t) + s).
  apply (for_wp' (fun i st => let '(ix, vl) := st in zlen ix = nnz /\ zlen vl = nnz /\
     forall t s, 0 <= t < i -> 0 <= s < len (znth 0 pm' t) ->
       znth 0 ix (start id' total s + t) = znth 0 (csr_index A) (src t s) /\
       znth s0 vl (start id' total s + t) = znth s0 (csr_value A) (src t s))); auto.
  { rewrite !zlen_alloc by lia. split; [auto|]. split; [auto|]. intros; lia. }
  { intros i [ix vl] Hi (Lix & Lvl & HR). wrd 0; [lia|]. destruct (Hwl i Hi) as [Hpi _].
    wrd 0; [lia|]. wrd 0; [lia|].
    apply (for_wp' (fun j st => let '(ix, vl) := st in zlen ix = nnz /\ zlen vl = nnz /\
     forall t s, (0 <= t < i /\ 0 <= s < len (znth 0 pm' t)) \/ (t = i /\ 0 <= s < j - znth 0 ptr (znth 0 pm' i)) ->
       znth 0 ix (start id' total s + t) = znth 0 (csr_index A) (src t s) /\
       znth s0 vl (start id' total s + t) = znth s0 (csr_value A) (src t s))).
    - specialize (Hpm _ Hpi). lia.
    - split; [auto|]. split; [auto|]. intros t s [H|H]; [apply HR; tauto|lia].
    - intros j [ix' vl'] Hj (Lix' & Lvl' & HR').
      set (js := znth 0 ptr (znth 0 pm' i)) in *.
      assert (Hs : 0 <= j - js < len (znth 0 pm' i)) by (unfold len; fold js; lia).
      destruct (Hcut (j - js) ltac:(lia)) as [Hc1 Hc2].
      assert (Hti : i < cntk id' (j - js) total) by (apply Hc2; lia).
      assert (Hjm : j - js < m) by (destruct (Hw _ Hpi); lia).
      pose proof (ptr_ok_bounds n ptr _ j Hp Hpi Hj) as Hjb. rewrite Hnnz in Hjb.
      wrd 0; [lia|]. rewrite Hpt' by lia. pose proof (Hroom (j - js) i ltac:(lia) ltac:(lia)) as Hrm.
      wrd (s0 : T); [lia|]. wwr; [lia|]. wrd 0; [lia|]. wwr; [lia|]. apply wp_ok. rewrite !zlen_zupd.
      split; [auto|]. split; [auto|]. intros t s Hts. rewrite !znth_zupd by lia.
      destruct (Z.eqb_spec (start id' total s + t) (start id' total (j - js) + i)) as [E|Ne].
      + assert (Hst : 0 <= s /\ 0 <= t < cntk id' s total).
        { destruct Hts as [[Ht Hs']|[-> Hs']].
          - split; [lia|]. destruct (Hcut s ltac:(lia)) as [_ Hcs]. split; [lia|]. apply Hcs; lia.
          - split; [lia|]. destruct (Hcut s ltac:(lia)) as [_ Hcs]. split; [lia|]. apply Hcs; lia. }
        destruct Hst as [Hs0 Ht0].
        destruct (start_disjoint id' total s t (j - js) i Hs0 ltac:(lia) Ht0 ltac:(lia) E) as [-> ->].
        unfold src. fold js. replace (js + (j - js)) with j by lia. auto.
      + apply HR'. destruct Hts as [?|[-> Hs']]; [left; auto|right]. split; auto. assert (s <> j - js) by congruence. lia.
    - intros [ix' vl'] (Lix' & Lvl' & HR'). split; [auto|]. split; [auto|]. intros t s Ht Hs.
      apply HR'. destruct (Z.eq_dec t i); [right; subst; unfold len in Hs; lia|left; lia]. }
  intros [ix vl] (Lix & Lvl & HR). apply wp_ok.
  assert (Hpok : ptr_ok m pt').
  { split; [lia|]. split; [rewrite ?zlen_zupd in *; lia|]. split; [rewrite Hpt' by lia; reflexivity|].
    intros i Hi. rewrite !Hpt' by lia. rewrite start_succ by lia. pose proof (cntk_nonneg id' i total). lia. }
  assert (HE : Permutation (jad_entries (mkJad n (csr_np A) nnz m pm' pt' ix vl)) (csr_entries A)).
  { unfold jad_entries; cbn [jad_n jad_maxnzr jad_perm jad_ptr jad_index jad_value].
    set (ent := fun t s => (znth 0 pm' t, znth 0 (csr_index A) (src t s), znth s0 (csr_value A) (src t s)) : entry T).
    transitivity (flat_map (fun s => flat_map (fun t => if s <? len (znth 0 pm' t) then [ent t s] else []) (zrange 0 n)) (zrange 0 m)).
    { apply Permutation_flat_map_ext. intros s Hs. apply In_zrange in Hs. rewrite !Hpt' by lia. rewrite start_succ by lia.
      destruct (Hcut s ltac:(lia)) as [Hc1 Hc2]. set (c := cntk id' s total) in *.
      rewrite (zrange_app 0 c n) by lia. rewrite flat_map_app.
      rewrite (flat_map_ext_in _ (fun _ => []) (zrange c n)), flat_map_nil, app_nil_r.
      2:{ intros t Ht. apply In_zrange in Ht. destruct (Z.ltb_spec s (len (znth 0 pm' t))); auto. apply Hc2 in H; lia. }
      rewrite (flat_map_ext_in _ (fun t => [ent t s]) (zrange 0 c)), flat_map_single.
      2:{ intros t Ht. apply In_zrange in Ht. destruct (Z.ltb_spec s (len (znth 0 pm' t))); auto. assert (s < len (znth 0 pm' t)) by (apply Hc2; lia). lia. }
      pose proof (zrange_shift 0 c (start id' total s)) as ZS. rewrite Z.add_0_l, (Z.add_comm c) in ZS. rewrite ZS, map_map.
      match goal with |- Permutation (map ?f _) (map ?g _) => rewrite (map_ext_in f g); [apply Permutation_refl|] end.
      intros t Ht. apply In_zrange in Ht. replace (t + start id' total s - start id' total s) with t by lia.
      rewrite (Z.add_comm t). destruct (HR t s) as [-> ->]; [lia|split; [lia|apply Hc2; lia]|]. reflexivity. }
    rewrite flat_map_exchange.
    transitivity (flat_map (fun t => map (ent t) (zrange 0 (len (znth 0 pm' t)))) (zrange 0 n)).
    { apply Permutation_flat_map_ext. intros t Ht. apply In_zrange in Ht. destruct (Hwl t Ht) as [Hpt _]. destruct (Hw _ Hpt) as [_ Hle].
      specialize (Hlen _ Hpt). set (c := len (znth 0 pm' t)) in *.
      rewrite (zrange_app 0 c m) by lia. rewrite flat_map_app.
      rewrite (flat_map_ext_in _ (fun _ => []) (zrange c m)), flat_map_nil, app_nil_r.
      2:{ intros s Hs. apply In_zrange in Hs. destruct (Z.ltb_spec s c); auto. lia. }
      rewrite (flat_map_ext_in _ (fun s => [ent t s]) (zrange 0 c)), flat_map_single; [apply Permutation_refl|].
      intros s Hs. apply In_zrange in Hs. destruct (Z.ltb_spec s c); auto. lia. }
    unfold csr_entries. fold n ptr.
    rewrite <- (Permutation_flat_map (fun i => map (fun k => (i, znth 0 (csr_index A) k, znth s0 (csr_value A) k) : entry T) (zrange (znth 0 ptr i) (znth 0 ptr (i + 1)))) _ _ HPm).
    rewrite flat_map_map. apply Permutation_flat_map_ext. intros t Ht. apply In_zrange in Ht.
    set (r := znth 0 pm' t). pose proof (zrange_shift 0 (len r) (znth 0 ptr r)) as ZS. rewrite Z.add_0_l in ZS.
    replace (len r + znth 0 ptr r) with (znth 0 ptr (r + 1)) in ZS by (unfold len; lia). rewrite ZS, map_map.
    match goal with |- Permutation (map ?f _) (map ?g _) => rewrite (map_ext_in f g); [apply Permutation_refl|] end.
    intros s Hs. unfold ent, src. fold r. rewrite (Z.add_comm s). reflexivity. }
  apply HQ; auto.
  unfold jad_ok; cbn [jad_n jad_np jad_nnz jad_maxnzr jad_perm jad_ptr jad_index jad_value].
  split; [lia|]. split; [auto|]. split; [rewrite Hpt' by lia; auto|]. split; [lia|]. split; [auto|].
  split; [lia|]. split; [lia|]. split.
  - intros k Hk.
    assert (Hin : In (znth 0 ix k) (map ecol (csr_entries A))).
    { apply (Permutation_in _ (Permutation_map ecol HE)).
      destruct (ptr_find m pt' k Hpok) as (q & Hq & Hkq); [rewrite Hpt' by lia; lia|].
      apply in_map_iff. exists (znth 0 pm' (k - znth 0 pt' q), znth 0 ix k, znth s0 vl k). split; [reflexivity|].
      apply in_flat_map. exists q. split; [apply In_zrange; auto|]. apply in_map_iff. exists k. split; [reflexivity|apply In_zrange; auto]. }
    apply in_map_iff in Hin. destruct Hin as (e & <- & He). apply (csr_in_shape A Hok e He).
  - intros j Hj. rewrite !Hpt' by lia. rewrite start_succ by lia. destruct (Hcut j ltac:(lia)). lia.
Qed.

Theorem convert_jad2csr_wp jw jp ji jv (A : jad T) (Q : csr T -> Prop) :
  jad_ok A ->
  (forall B, csr_ok B -> csr_n B = jad_n A -> csr_np B = jad_np A -> csr_nnz B = jad_nnz A ->
     csr_entries B = flat_map (fun r => bucket erow r (jad_entries A)) (zrange 0 (jad_n A)) -> Q B) ->
  wp (convert_jad2csr jw jp ji jv A) Q.
Proof.
  intros Hok HQ. pose proof Hok as (Hn & Hp & Hnnz & Hpl & HP & Hli & Hlv & Hix & Hw). pose proof Hp as (Hm & Hlp & Hp0 & Hpm).
  pose proof (jad_in_shape A Hok) as Hsh. pose proof (jad_entries_len A Hok) as Hlen.
  unfold convert_jad2csr. cbv zeta.
  set (n := jad_n A) in *. set (nnz := jad_nnz A) in *. set (m := jad_maxnzr A) in *. set (ptr := jad_ptr A) in *.
  set (total := jad_entries A) in *. pose proof (zlen_nonneg total) as Hnn.
  set (f := fun j k => (znth 0 (jad_perm A) (k - znth 0 ptr j), znth 0 (jad_index A) k, znth s0 (jad_value A) k) : entry T).
  assert (Htot : total = ptr_items m ptr f) by reflexivity.
  assert (Hrow : forall j k, 0 <= j < m -> znth 0 ptr j <= k < znth 0 ptr (j + 1) -> 0 <= k - znth 0 ptr j < n /\ 0 <= znth 0 (jad_perm A) (k - znth 0 ptr j) < n).
  { intros j k Hj Hk. specialize (Hw j Hj). split; [lia|]. apply (In_zrange 0). apply (Permutation_in _ HP). apply in_map. apply In_zrange. lia. }
  apply wp_bind, (for_set 0 (fun _ => 0)); [lia|rewrite zlen_alloc; lia|]. rewrite zlen_alloc by lia. intros pt0 Lpt0 Zpt0 _.
  apply wp_bind.
  apply (for_seg_items (fun d pt => zlen pt = n + 1 /\ znth 0 pt 0 = 0 /\ count_rep erow n 1 d pt) total f m ptr
           (fun lo j i pt => r <- rd (jad_perm A) (i - lo) ;; incr pt (r + 1)) []); auto.
  { apply prefix_refl. }
  { split; [auto|]. split; [apply Zpt0; lia|]. intros r Hr. rewrite Zpt0 by lia. reflexivity. }
  { intros j k pt d Hj Hk _ _ (Lpt & Hz & Hc). destruct (Hrow j k Hj Hk) as [Hr1 Hr2]. wrd 0; [lia|]. unfold incr. wrd 0; [lia|].
    apply wp_wr; [lia|]. rewrite zlen_zupd. split; [auto|]. split; [rewrite znth_zupd_neq by lia; auto|].
    apply (count_step erow n 1 d pt (f j k)); auto; unfold erow; cbn; lia. }
  cbn [app]. rewrite <- Htot. intros pt1 (Lpt1 & Hz1 & Hc1).
  apply wp_bind, (prefix_self_start erow total); try lia; auto. intros pt2 Lpt2 Hpt2.
  apply wp_bind, (for_copy 0); rewrite ?zlen_alloc by lia; try lia. intros iw1 Liw1 Hiw1 _.
  apply wp_bind.
  apply (for_seg_items (fun d st => let '(iw, ix, vl) := st in zlen iw = n /\ zlen ix = nnz /\ zlen vl = nnz /\ fill_rep erow ecol eval s0 n total d iw ix vl) total f m ptr
      (fun lo j i s => let '(iw, index, value) := s in
        r <- rd (jad_perm A) (i - lo) ;;
        k <- rd iw r ;; iw <- wr iw r (k + 1) ;;
        v <- rd (jad_value A) i ;; value <- wr value k v ;;
        c <- rd (jad_index A) i ;; index <- wr index k c ;;
        Ok (iw, index, value)) []); auto.
  { apply prefix_refl. }
  { rewrite !zlen_alloc by lia. split; [lia|]. split; [auto|]. split; [auto|]. apply fill_init. intros r Hr. rewrite Hiw1 by lia. apply Hpt2; lia. }
  { intros j k [[iw ix] vl] d Hj Hk Hkb Hpre (Liw & Lix & Lvl & HF). destruct (Hrow j k Hj Hk) as [Hr1 Hr2]. rewrite Hnnz in Hkb.
    destruct (fill_step erow ecol eval s0 n total d iw ix vl (f j k)) as [Hb HF']; auto; try lia.
    { intros e He. apply Hsh. auto. }
    unfold f, erow, ecol, eval in Hb, HF'; cbn [fst snd] in Hb, HF'.
    wrd 0; [lia|]. wrd 0; [lia|]. wwr; [lia|]. wrd (s0 : T); [lia|]. wwr; [lia|]. wrd 0; [lia|]. wwr; [lia|]. apply wp_ok.
    rewrite !zlen_zupd. split; [auto|]. split; [auto|]. split; [auto|]. exact HF'. }
  cbn [app]. rewrite <- Htot. intros [[iw ix] vl] (Liw & Lix & Lvl & HF). apply wp_ok.
  eapply (csr_of_fill n (jad_np A) nnz total pt2) in HF; auto; try lia.
  cbv zeta in HF. destruct HF as [HF1 HF2]. apply HQ; auto.
Qed.

(** ** reordering vectors *)
Theorem vector_sort_jad_order_wp jt n np perm (v : list T) (Q : list T -> Prop) :
  0 <= n <= np -> n <= zlen perm -> n <= zlen v ->
  (forall i, 0 <= i < n -> 0 <= znth 0 perm i < n) ->
  (forall t, zlen t = np -> (forall i, 0 <= i < n -> znth s0 t i = znth s0 v (znth 0 perm i)) -> Q t) ->
  wp (vector_sort_jad_order jt n np perm v) Q.
Proof.
  intros Hn Hp Hv Hr HQ. unfold vector_sort_jad_order.
  apply (for_wp' (fun i t => zlen t = np /\ forall q, 0 <= q < i -> znth s0 t q = znth s0 v (znth 0 perm q))); try lia.
  - rewrite zlen_alloc by lia. split; auto. intros; lia.
  - intros i t Hi (Lt & Ht). specialize (Hr i Hi). wrd 0; [lia|]. wrd (s0 : T); [lia|]. apply wp_wr; [lia|]. rewrite zlen_zupd. split; auto.
    intros q Hq. rewrite znth_zupd by lia. destruct (Z.eqb_spec q i); [subst; auto|apply Ht; lia].
  - intros t (Lt & Ht). apply HQ; auto.
Qed.

Theorem vector_sort_ascending_order_wp jt n np perm (v : list T) (Q : list T -> Prop) :
  0 <= n <= np -> n <= zlen perm -> n <= zlen v ->
  Permutation (map (znth 0 perm) (zrange 0 n)) (zrange 0 n) ->
  (forall t, zlen t = np -> (forall i, 0 <= i < n -> znth s0 t (znth 0 perm i) = znth s0 v i) -> Q t) ->
  wp (vector_sort_ascending_order jt n np perm v) Q.
Proof.
  intros Hn Hp Hv HP HQ. unfold vector_sort_ascending_order.
  assert (Hr : forall i, 0 <= i < n -> 0 <= znth 0 perm i < n).
  { intros i Hi. apply (In_zrange 0). apply (Permutation_in _ HP). apply in_map. apply In_zrange; auto. }
  assert (Hinj : forall i j, 0 <= i < n -> 0 <= j < n -> znth 0 perm i = znth 0 perm j -> i = j).
  { assert (HN : NoDup (map (znth 0 perm) (zrange 0 n))) by (apply (Permutation_NoDup (Permutation_sym HP)); apply NoDup_zrange).
    intros i j Hi Hj E. rewrite NoDup_nth with (d := 0) in HN.
    assert (L : Z.of_nat (length (map (znth 0 perm) (zrange 0 n))) = n) by (change (zlen (map (znth 0 perm) (zrange 0 n)) = n); rewrite zlen_map, zlen_zrange; lia).
    specialize (HN (Z.to_nat i) (Z.to_nat j) ltac:(lia) ltac:(lia)).
    assert (G : forall k, 0 <= k < n -> nth (Z.to_nat k) (map (znth 0 perm) (zrange 0 n)) 0 = znth 0 perm k).
    { intros k Hk. transitivity (znth 0 (map (znth 0 perm) (zrange 0 n)) k).
      - unfold znth. destruct (Z.ltb_spec k 0); [lia|auto].
      - rewrite znth_map with (d := 0) by (rewrite zlen_zrange; lia). rewrite znth_zrange by lia. f_equal. }
    rewrite !G in HN by auto. specialize (HN E). lia. }
  apply (for_wp' (fun i t => zlen t = np /\ forall q, 0 <= q < i -> znth s0 t (znth 0 perm q) = znth s0 v q)); try lia.
  - rewrite zlen_alloc by lia. split; auto. intros; lia.
  - intros i t Hi (Lt & Ht). specialize (Hr i Hi) as Hri. wrd 0; [lia|]. wrd (s0 : T); [lia|]. apply wp_wr; [lia|]. rewrite zlen_zupd. split; auto.
    intros q Hq. rewrite znth_zupd by lia. destruct (Z.eqb_spec (znth 0 perm q) (znth 0 perm i)) as [E|N].
    + apply Hinj in E; [subst; auto|lia|lia].
    + apply Ht. assert (q <> i) by congruence. lia.
  - intros t (Lt & Ht). apply HQ; auto.
Qed.
End JadProof.
