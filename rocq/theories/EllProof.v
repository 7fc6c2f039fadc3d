(** Proofs about Ell.v *)
Require Import ZArith List Bool Lia Permutation.
From Verif Require Import Base Scalar Spec Items Csc CscProof Fmt Ell.
Import ListNotations.
Open Scope Z_scope.

Section EllProof.
Context {T : Type} {S : Scalar T}.

Lemma nz_flat2 (f : Z -> Z -> entry T) (a b : Z -> Z) lo hi :
  nz (flat_map (fun j => map (f j) (zrange (a j) (b j))) (zrange lo hi)) =
  flat_map (fun j => flat_map (fun i => nz [f j i]) (zrange (a j) (b j))) (zrange lo hi).
Proof.
  unfold nz. rewrite filter_flat_map. apply flat_map_ext_in. intros j _.
  rewrite <- filter_flat_map, flat_map_single. reflexivity.
Qed.

Lemma ell_in_shape (A : ell T) : ell_ok A -> in_shape (ell_n A) (ell_np A) (ell_entries A).
Proof.
  intros (H1 & H2 & H3 & H4 & H5) e He. apply in_flat_map in He. destruct He as (j & Hj & He).
  apply in_map_iff in He. destruct He as (i & <- & Hi). apply In_zrange in Hi. apply In_zrange in Hj.
  unfold erow, ecol; cbn. split; [lia|]. apply H5. nia.
Qed.

Theorem convert_ell2csr_wp jw jp ji jv (A : ell T) (Q : csr T -> Prop) :
  ell_ok A ->
  (forall B, csr_ok B -> csr_n B = ell_n A -> csr_np B = ell_np A ->
     csr_entries B = flat_map (fun r => bucket erow r (nz (ell_entries A))) (zrange 0 (ell_n A)) -> Q B) ->
  wp (convert_ell2csr jw jp ji jv A) Q.
Proof.
  intros Hok HQ. pose proof Hok as (Hn & Hm & Li & Lv & Hix).
  set (n := ell_n A) in *. set (m := ell_maxnzr A) in *.
  set (f := fun j i => (i, znth 0 (ell_index A) (j * n + i), znth s0 (ell_value A) (j * n + i)) : entry T).
  set (total := nz (ell_entries A)).
  assert (Htot : total = flat_map (fun j => flat_map (fun i => nz [f j i]) (zrange 0 n)) (zrange 0 m))
    by apply (nz_flat2 f (fun _ => 0) (fun _ => n)).
  assert (Hsh : in_shape n (ell_np A) total) by (apply nz_in_shape, ell_in_shape; auto).
  assert (Hkey : forall e, In e total -> 0 <= erow e < n) by (intros; apply Hsh; auto).
  unfold convert_ell2csr. cbv zeta. fold n m.
  apply wp_bind, (for_set 0 (fun _ => 0)); [lia|rewrite zlen_alloc; lia|].
  intros iw1 Lw1 Z1 _. rewrite zlen_alloc in Lw1 by lia.
  apply wp_bind.
  apply (for2_items (fun d w => zlen w = n /\ count_rep erow n 0 d w) (fun j i => nz [f j i]) 0 m (fun _ => 0) (fun _ => n)).
  { split; auto. intros r Hr. rewrite Z.add_0_r, Z1 by lia. reflexivity. }
  { intros j i w d Hj Hi _ (Lw & Hc). wrd s0; [nia|].
    replace (nz [f j i]) with (if nonzero (znth s0 (ell_value A) (j * n + i)) then [f j i] else []) by reflexivity.
    destruct (nonzero (znth s0 (ell_value A) (j * n + i))).
    - unfold incr. wrd 0; [lia|]. wwr; [lia|]. rewrite zlen_zupd. split; auto.
      pose proof (count_step erow n 0 d w (f j i) Hc) as HS. rewrite Z.add_0_r in HS. apply HS; unfold f, erow; cbn; lia.
    - apply wp_ok. rewrite app_nil_r. auto. }
  rewrite <- Htot. intros iw2 (Lw2 & C2).
  apply wp_bind, (for_set 0 (fun _ => 0)); [lia|rewrite zlen_alloc; lia|].
  intros p1 Lp1 Zp1 _. rewrite zlen_alloc in Lp1 by lia.
  apply wp_bind, (prefix_from erow total); try lia.
  { apply Zp1; lia. }
  { intros i Hi. rewrite <- (C2 i Hi), Z.add_0_r. auto. }
  intros ptr Lp Hptr.
  apply wp_bind, (for_copy 0); try lia. intros iw3 Lw3 Hw3 _.
  wrd 0; [lia|]. rewrite Hptr by lia. rewrite (start_total erow n total Hkey).
  pose proof (zlen_nonneg total).
  apply wp_bind.
  apply (for2_items (fun d s => let '(w, ix, vl) := s in zlen w = n /\ zlen ix = zlen total /\ zlen vl = zlen total /\
       fill_rep erow ecol eval s0 n total d w ix vl) (fun j i => nz [f j i]) 0 m (fun _ => 0) (fun _ => n)).
  { rewrite !zlen_alloc by lia. split; [lia|]. split; auto. split; auto. apply fill_init.
    intros r Hr. rewrite Hw3 by lia. apply Hptr; lia. }
  { rewrite <- Htot. intros j i [[w ix] vl] d Hj Hi Hp (Lw & Lix & Lvl & HF). wrd s0; [nia|].
    replace (nz [f j i]) with (if nonzero (znth s0 (ell_value A) (j * n + i)) then [f j i] else []) in * by reflexivity.
    destruct (nonzero (znth s0 (ell_value A) (j * n + i))).
    - pose proof (fill_step erow ecol eval s0 n total d w ix vl (f j i) Hkey Hp ltac:(lia) ltac:(lia) ltac:(lia) HF) as HS.
      cbv zeta in HS. change (erow (f j i)) with i in HS. destruct HS as [HS1 HS2].
      wrd 0; [lia|]. wwr; [lia|]. wwr; [lia|]. wrd 0; [nia|]. wwr; [lia|]. apply wp_ok. rewrite !zlen_zupd.
      split; [auto|]. split; [auto|]. split; [auto|]. exact HS2.
    - apply wp_ok. rewrite app_nil_r. auto. }
  rewrite <- Htot. intros [[w ix] vl] (Lw & Lix & Lvl & HF). apply wp_ok.
  eapply (csr_of_fill n (ell_np A) (zlen total) total ptr) in HF; auto; try lia.
  cbv zeta in HF. destruct HF as [HF1 HF2]. apply HQ; auto.
Qed.

(** ** CSR -> ELL *)
Theorem convert_csr2ell_wp (HZ : eqb_zero S) ji jv (A : csr T) (Q : ell T -> Prop) :
  csr_ok A ->
  (forall B, ell_ok B -> ell_n B = csr_n A -> ell_np B = csr_np A ->
     same_entries (ell_entries B) (csr_entries A) -> Q B) ->
  wp (convert_csr2ell ji jv A) Q.
Proof.
  intros Hok HQ. pose proof Hok as (Hp & Hnp & Hnnz & Hli & Hlv & Hix). pose proof Hp as (Hn & Hlp & Hp0 & Hpm).
  set (n := csr_n A) in *. set (len := fun i => znth 0 (csr_ptr A) (i + 1) - znth 0 (csr_ptr A) i).
  assert (Hlen : forall i, 0 <= i < n -> 0 <= len i) by (intros i Hi; specialize (Hpm i Hi); unfold len; lia).
  unfold convert_csr2ell. cbv zeta. fold n.
  apply wp_bind.
  apply (for_wp' (fun i m => 0 <= m /\ forall q, 0 <= q < i -> len q <= m)); try lia.
  { split; [lia|intros; lia]. }
  { intros i m Hi (Hm & Hq). wrd 0; [lia|]. wrd 0; [lia|]. apply wp_ok. fold (len i).
    destruct (Z.ltb_spec m (len i)); split; try lia; intros q Hqq; destruct (Z.eq_dec q i); subst; try lia;
      specialize (Hq q ltac:(lia)); lia. }
  intros m (Hm & Hmax).
  apply wp_bind.
  apply (for_wp' (fun j s => zlen (fst s) = n * m /\ zlen (snd s) = n * m /\
     forall j' i, 0 <= j' < j -> 0 <= i < n -> znth 0 (fst s) (j' * n + i) = i /\ znth s0 (snd s) (j' * n + i) = s0)); auto.
  { cbn [fst snd]. rewrite !zlen_alloc by nia. split; auto. split; auto. intros; lia. }
  { intros j [ix vl] Hj (Li & Lv & HE). cbn [fst snd] in *.
    apply (for_wp' (fun i s => zlen (fst s) = n * m /\ zlen (snd s) = n * m /\
      forall j' i', 0 <= j' -> 0 <= i' < n -> j' * n + i' < j * n + i -> znth 0 (fst s) (j' * n + i') = i' /\ znth s0 (snd s) (j' * n + i') = s0)); auto.
    - cbn [fst snd]. split; auto. split; auto. intros j' i' Hj' Hi' Hlt. apply HE; auto. nia.
    - intros i [ix' vl'] Hi (Li' & Lv' & HE'). cbn [fst snd] in *. wwr; [nia|]. wwr; [nia|]. apply wp_ok.
      cbn [fst snd]. rewrite !zlen_zupd. split; auto. split; auto. intros j' i' Hj' Hi' Hlt.
      rewrite !znth_zupd by nia. destruct (Z.eqb_spec (j' * n + i') (j * n + i)) as [E|N].
      + apply mul_inj in E; auto. destruct E; subst. auto.
      + apply HE'; auto. lia.
    - intros [ix' vl'] (Li' & Lv' & HE'). cbn [fst snd] in *. split; auto. split; auto.
      intros j' i Hj' Hi. apply HE'; auto; nia. }
  intros [ix1 vl1] (L1 & L1' & HE1). cbn [fst snd] in *.
  set (src := fun j i => if j <? len i then (znth 0 (csr_index A) (znth 0 (csr_ptr A) i + j), znth s0 (csr_value A) (znth 0 (csr_ptr A) i + j)) else (i, s0)).
  apply wp_bind.
  apply (for_wp' (fun r s => zlen (fst s) = n * m /\ zlen (snd s) = n * m /\
     forall j i, 0 <= j < m -> 0 <= i < n -> (znth 0 (fst s) (j * n + i), znth s0 (snd s) (j * n + i)) = if i <? r then src j i else (i, s0))); auto.
  { cbn [fst snd]. split; auto. split; auto. intros j i Hj Hi. destruct (Z.ltb_spec i 0); [lia|].
    destruct (HE1 j i Hj Hi) as [-> ->]. auto. }
  { intros r [ix vl] Hr (Li & Lv & HE). cbn [fst snd] in *. wrd 0; [lia|]. wrd 0; [lia|].
    set (lo := znth 0 (csr_ptr A) r). set (hi := znth 0 (csr_ptr A) (r + 1)).
    apply wp_bind.
    apply (for_wp' (fun p s => let '(k, ix, vl) := s in k = p - lo /\ zlen ix = n * m /\ zlen vl = n * m /\
      forall j i, 0 <= j < m -> 0 <= i < n -> (znth 0 ix (j * n + i), znth s0 vl (j * n + i)) =
        if (i <? r) || ((i =? r) && (j <? p - lo)) then src j i else (i, s0))).
    - apply Hpm; auto.
    - rewrite Z.sub_diag. do 3 (split; [auto|]). intros j i Hj Hi. rewrite HE by auto.
      destruct (Z.ltb_spec j 0); [lia|]. rewrite andb_false_r, orb_false_r. auto.
    - intros p [[k ix'] vl'] Hpp (-> & Li' & Lv' & HE').
      assert (Hpb : 0 <= p < csr_nnz A).
      { rewrite <- Hnnz. eapply ptr_ok_bounds; eauto. }
      assert (Hkm : p - lo < m). { specialize (Hmax r Hr). unfold len in Hmax. unfold lo, hi in *. lia. }
      wrd s0; [lia|]. wwr; [unfold lo in *; nia|]. wrd 0; [lia|]. wwr; [unfold lo in *; nia|]. apply wp_ok.
      rewrite !zlen_zupd. split; [lia|]. do 2 (split; [auto|]). intros j i Hj Hi.
      rewrite !znth_zupd by (unfold lo in *; nia).
      destruct (Z.eqb_spec (j * n + i) ((p - lo) * n + r)) as [E|N].
      + apply mul_inj in E; auto. destruct E; subst j i. rewrite Z.eqb_refl.
        destruct (Z.ltb_spec (p - lo) (p + 1 - lo)); [|lia]. rewrite orb_true_r. unfold src.
        unfold len. destruct (Z.ltb_spec (p - lo) (znth 0 (csr_ptr A) (r + 1) - znth 0 (csr_ptr A) r)); [|unfold lo, hi in *; lia].
        fold lo. replace (lo + (p - lo)) with p by lia. reflexivity.
      + rewrite HE' by auto. destruct (Z.eqb_spec i r); [|auto]. subst i.
        replace (j <? p + 1 - lo) with (j <? p - lo); auto.
        destruct (Z.ltb_spec j (p - lo)), (Z.ltb_spec j (p + 1 - lo)); auto; try lia.
        exfalso. apply N. f_equal. f_equal. lia.
    - intros [[k ix'] vl'] (_ & Li' & Lv' & HE'). apply wp_ok. cbn [fst snd]. do 2 (split; [auto|]).
      intros j i Hj Hi. rewrite HE' by auto.
      destruct (Z.ltb_spec i r), (Z.ltb_spec i (r + 1)); cbn [orb]; auto; try lia.
      + assert (i = r) by lia. subst i. rewrite Z.eqb_refl. cbn [andb].
        destruct (Z.ltb_spec j (hi - lo)); auto. unfold src, len. fold lo hi. destruct (Z.ltb_spec j (hi - lo)); [lia|auto].
      + destruct (Z.eqb_spec i r); [lia|]. auto. }
  intros [ix vl] (Li & Lv & HE). cbn [fst snd] in *. apply wp_ok.
  assert (HE' : forall j i, 0 <= j < m -> 0 <= i < n -> (znth 0 ix (j * n + i), znth s0 vl (j * n + i)) = src j i).
  { intros j i Hj Hi. rewrite HE by auto. destruct (Z.ltb_spec i n); [auto|lia]. }
  clear HE. apply HQ; auto.
  - unfold ell_ok; cbn. fold n. do 4 (split; [lia|]). intros k Hk.
    assert (Hn0 : 0 < n) by nia.
    assert (Hj : 0 <= k / n < m). { split; [apply Z.div_pos; lia|]. apply Z.div_lt_upper_bound; lia. }
    pose proof (Z.mod_pos_bound k n Hn0) as Hi.
    specialize (HE' (k / n) (k mod n) Hj Hi).
    replace (k / n * n + k mod n) with k in HE' by (pose proof (Z.div_mod k n); lia).
    unfold src in HE'. destruct (Z.ltb_spec (k / n) (len (k mod n))).
    + inversion HE' as [[E1 E2]]. rewrite E1. apply Hix. rewrite <- Hnnz.
      eapply ptr_ok_bounds; eauto. unfold len in *. lia.
    + inversion HE'. lia.
  - unfold same_entries.
    assert (HX : ell_entries (mkEll n (csr_np A) m ix vl) =
       flat_map (fun j => map (fun i => (i, fst (src j i), snd (src j i)) : entry T) (zrange 0 n)) (zrange 0 m)).
    { unfold ell_entries; cbn [ell_n ell_maxnzr ell_index ell_value]. apply flat_map_ext_in. intros j Hj. apply In_zrange in Hj.
      apply map_ext_in. intros i Hi. apply In_zrange in Hi. rewrite <- (HE' j i) by auto. reflexivity. }
    rewrite HX.
    set (g := fun j i => (i, fst (src j i), snd (src j i)) : entry T).
    rewrite (nz_flat2 g (fun _ => 0) (fun _ => n)).
    rewrite (flat_map_exchange (fun j i => nz [g j i])).
    unfold csr_entries. fold n. unfold nz at 2. rewrite filter_flat_map.
    apply Permutation_flat_map_ext. intros i Hi. apply In_zrange in Hi. fold (len i).
    assert (Hl : 0 <= len i <= m) by (split; [apply Hlen|apply Hmax]; auto).
    rewrite (zrange_app 0 (len i) m) by lia. rewrite flat_map_app.
    assert (HN : flat_map (fun j => nz [g j i]) (zrange (len i) m) = []).
    { rewrite (flat_map_ext_in _ (fun _ => [])); [apply flat_map_nil|]. intros j Hj. apply In_zrange in Hj.
      unfold g, src. destruct (Z.ltb_spec j (len i)); [lia|]. cbn. unfold eval, nonzero; cbn. rewrite HZ. reflexivity. }
    rewrite HN, app_nil_r.
    assert (HM : flat_map (fun j => nz [g j i]) (zrange 0 (len i)) =
       filter (fun e : entry T => nonzero (eval e)) (map (fun k => (i, znth 0 (csr_index A) k, znth s0 (csr_value A) k)) (zrange (znth 0 (csr_ptr A) i) (znth 0 (csr_ptr A) (i + 1))))).
    { unfold nz. rewrite <- filter_flat_map, flat_map_single. f_equal.
      replace (zrange (znth 0 (csr_ptr A) i) (znth 0 (csr_ptr A) (i + 1))) with (map (fun x => x + znth 0 (csr_ptr A) i) (zrange 0 (len i))).
      - rewrite map_map. apply map_ext_in. intros j Hj. apply In_zrange in Hj. unfold g, src.
        destruct (Z.ltb_spec j (len i)); [|lia]. cbn. rewrite (Z.add_comm j). reflexivity.
      - rewrite <- zrange_shift. unfold len. f_equal; lia. }
    rewrite HM. apply Permutation_refl.
Qed.

End EllProof.
