(** Proofs about JadSolve.v: lis_matrix_merge_jad *)
Require Import ZArith List Bool Lia Permutation.
From Verif Require Import Base Scalar Spec Items Sort Fmt SpecSplit SplitProof JadProof JadSolve SpecJadSolve JadLay JadSplitP.
Import ListNotations.
Open Scope Z_scope.

Section M.
Context {T : Type} {S : Scalar T}.
Notation ent := (entry T).
Notation slot := (fun (ptr col : list Z) (ix : list Z) (vl : list T) r q => (znth 0 ix (znth 0 ptr q + znth 0 col r), znth s0 vl (znth 0 ptr q + znth 0 col r))).

Section C.
Variables (n np m : Z) (perm ptr col ix : list Z) (vl : list T) (P : ent -> bool) (F : list ent).
Notation N := (zlen (filter P F)).
Notation len := (fun r => zlen (jln P F r)).
Hypothesis HL : laid n m N len perm ptr col.
Hypothesis Hn : 0 <= n <= np.
Hypothesis Hm : 0 <= m.
Hypothesis Hlen : forall r, 0 <= r < n -> len r <= m.
Hypothesis HF : forall e, In e F -> 0 <= erow e < n /\ 0 <= ecol e < np.
Hypothesis Lix : zlen ix = N.
Hypothesis Lvl : zlen vl = N.
Hypothesis Hs : forall r q, 0 <= r < n -> 0 <= q < len r -> slot ptr col ix vl r q = znth (0, s0) (jln P F r) q.

Lemma jad_complete_perm nnz : Permutation (jad_entries (mkJad n np nnz m perm ptr ix vl)) (filter P F).
Proof using HL Hn Hm Hlen HF Hs S.
  destruct HL as (Lp & Lpt & Lc & Hp & HN & HPm & H1 & H2 & H3 & H4).
  unfold jad_entries; cbn [jad_n jad_maxnzr jad_perm jad_ptr jad_index jad_value].
  set (en := fun t s => (znth 0 perm t, znth 0 ix (znth 0 ptr s + t), znth s0 vl (znth 0 ptr s + t)) : ent).
  transitivity (flat_map (fun s => flat_map (fun t => if s <? len (znth 0 perm t) then [en t s] else []) (zrange 0 n)) (zrange 0 m)).
  { apply Permutation_flat_map_ext. intros s Hs'. apply In_zrange in Hs'. set (c := znth 0 ptr (s + 1) - znth 0 ptr s). pose proof (H4 s Hs') as H4s. fold c in H4s.
    rewrite (zrange_app 0 c n) by lia. rewrite flat_map_app.
    rewrite (flat_map_ext_in _ (fun _ => []) (zrange c n)), flat_map_nil, app_nil_r.
    2:{ intros t Ht. apply In_zrange in Ht. destruct (Z.ltb_spec s (len (znth 0 perm t))) as [G|G]; auto. apply H3 in G; lia. }
    rewrite (flat_map_ext_in _ (fun t => [en t s]) (zrange 0 c)), flat_map_single.
    2:{ intros t Ht. apply In_zrange in Ht. destruct (Z.ltb_spec s (len (znth 0 perm t))) as [G|G]; auto. assert (s < len (znth 0 perm t)) by (apply H3; [lia|lia|fold c; lia]). cbv beta in *; lia. }
    pose proof (zrange_shift 0 c (znth 0 ptr s)) as ZS. rewrite Z.add_0_l in ZS. replace (c + znth 0 ptr s) with (znth 0 ptr (s + 1)) in ZS by (unfold c; lia). rewrite ZS, map_map.
    match goal with |- Permutation (map ?f _) (map ?g _) => rewrite (map_ext_in f g); [apply Permutation_refl|] end.
    intros t Ht. unfold en. replace (t + znth 0 ptr s - znth 0 ptr s) with t by lia. rewrite (Z.add_comm t). reflexivity. }
  rewrite flat_map_exchange.
  transitivity (flat_map (fun t => map (en t) (zrange 0 (len (znth 0 perm t)))) (zrange 0 n)).
  { apply Permutation_flat_map_ext. intros t Ht. apply In_zrange in Ht. destruct (H2 t Ht) as [Hpt _]. pose proof (Hlen _ Hpt) as Hl. cbv beta in Hl. set (c := zlen (jln P F (znth 0 perm t))) in *. assert (0 <= c) by apply zlen_nonneg.
    rewrite (zrange_app 0 c m) by lia. rewrite flat_map_app.
    rewrite (flat_map_ext_in _ (fun _ => []) (zrange c m)), flat_map_nil, app_nil_r.
    2:{ intros s Hs'. apply In_zrange in Hs'. destruct (Z.ltb_spec s c); auto. lia. }
    rewrite (flat_map_ext_in _ (fun s => [en t s]) (zrange 0 c)), flat_map_single; [apply Permutation_refl|].
    intros s Hs'. apply In_zrange in Hs'. destruct (Z.ltb_spec s c); auto. lia. }
  transitivity (flat_map (fun r => bucket erow r (filter P F)) (map (znth 0 perm) (zrange 0 n))).
  { rewrite flat_map_map. apply Permutation_flat_map_ext. intros t Ht. apply In_zrange in Ht. destruct (H2 t Ht) as [Hpt Ecp]. set (r := znth 0 perm t) in *.
    match goal with |- Permutation ?a ?b => replace b with a; [apply Permutation_refl|] end.
    transitivity (map (fun q => (r, fst (znth (0, s0) (jln P F r) q), snd (znth (0, s0) (jln P F r) q)) : ent) (zrange 0 (zlen (jln P F r)))).
    { apply map_ext_in. intros q Hq. apply In_zrange in Hq. rewrite <- (Hs r q Hpt Hq). rewrite Ecp. reflexivity. }
    transitivity (map (fun p => (r, fst p, snd p) : ent) (jln P F r)).
    { symmetry. etransitivity; [exact (f_equal _ (list_table (0, s0) (jln P F r)))|]. rewrite map_map. reflexivity. }
    unfold jln, bucket. rewrite filter_filter, map_map. rewrite (map_ext_in _ (fun e => e)); [apply map_id|].
    intros e He. apply filter_In in He. destruct He as [_ He]. apply andb_true_iff in He. destruct He as [_ He]. apply Z.eqb_eq in He. unfold pay. cbn [fst snd]. rewrite <- He. destruct e as [[a b] v]; reflexivity. }
  rewrite (Permutation_flat_map (fun r => bucket erow r (filter P F)) _ _ HPm).
  apply buckets_perm. intros e He. apply filter_In in He. apply HF. tauto.
Qed.
Lemma jad_complete_ok : jad_ok (mkJad n np N m perm ptr ix vl).
Proof using HL Hn Hm Hlen HF Hs Lix Lvl S.
  pose proof (jad_complete_perm N) as HE. destruct HL as (Lp & Lpt & Lc & Hp & HN & HPm & H1 & H2 & H3 & H4).
  unfold jad_ok; cbn [jad_n jad_np jad_nnz jad_maxnzr jad_perm jad_ptr jad_index jad_value].
  split; [lia|]. split; [auto|]. split; [auto|]. split; [lia|]. split; [auto|]. split; [lia|]. split; [lia|]. split.
  - intros k Hk. assert (Hin : In (znth 0 ix k) (map ecol (filter P F))).
    { apply (Permutation_in _ (Permutation_map ecol HE)). destruct (ptr_find m ptr k Hp) as (q & Hq & Hkq); [lia|].
      apply in_map_iff. exists (znth 0 perm (k - znth 0 ptr q), znth 0 ix k, znth s0 vl k). split; [reflexivity|].
      apply in_flat_map. exists q. split; [apply In_zrange; auto|]. apply in_map_iff. exists k. split; [reflexivity|apply In_zrange; auto]. }
    apply in_map_iff in Hin. destruct Hin as (e & <- & He). apply filter_In in He. apply HF; tauto.
  - intros j Hj. apply H4; auto.
Qed.
End C.

(** a triangle as a JAD matrix *)
Lemma side_jad (A : jad T) P B : jad_ok A -> jad_np A = jad_n A -> side_ok A P B ->
  jad_ok (jd_A B) /\ jad_n (jd_A B) = jad_n A /\ jad_np (jd_A B) = jad_n A /\ Permutation (jad_entries (jd_A B)) (filter P (jad_entries A)).
Proof.
  intros HA Hsq (S1 & S2 & S3 & S4 & S5 & _ & S6 & S7 & S8 & S9). destruct B as [[n np nz m perm ptr ix vl] col]. cbn [jd_A jd_col jad_n jad_np jad_nnz jad_maxnzr jad_perm jad_ptr jad_index jad_value] in *. subst n np nz.
  pose proof HA as (Hn & _). pose proof (jad_in_shape A HA) as Hsh.
  split; [|split; [reflexivity|split; [auto|]]].
  - apply (jad_complete_ok (jad_n A) (jad_np A) m perm ptr col ix vl P (jad_entries A)); auto.
  - apply (jad_complete_perm (jad_n A) (jad_np A) m perm ptr col ix vl P (jad_entries A)); auto.
Qed.

Lemma for_shift {St} lo hi (f : Z -> St -> res St) s : for_ 0 (hi - lo) f s = for_ lo hi (fun i => f (i - lo)) s.
Proof.
  unfold for_. rewrite Z.sub_0_r. assert (G : forall k i s, for_n k i f s = for_n k (lo + i) (fun j => f (j - lo)) s).
  { induction k as [|k IH]; intros i s'; cbn [for_n]; [reflexivity|]. replace (lo + i - lo) with i by lia. destruct (f i s'); cbn [bind]; auto. rewrite IH. f_equal. lia. }
  rewrite G. f_equal. lia.
Qed.
Lemma rd_no_err {B} (a : list B) i z : rd a i <> Err z.
Proof. unfold rd. destruct (i <? 0); [discriminate|]. destruct (nth_error a (Z.to_nat i)); discriminate. Qed.
Lemma for_body_ext {St} lo hi (f g : Z -> St -> res St) s : (forall i s, f i s = g i s) -> for_ lo hi f s = for_ lo hi g s.
Proof.
  intros H. unfold for_. generalize (Z.to_nat (hi - lo)) as k. intros k. revert s. generalize lo as i. induction k as [|k IH]; intros i s; cbn [for_n]; [reflexivity|]. rewrite H. destruct (g i s); cbn [bind]; auto.
Qed.
Definition yes (e : ent) : bool := true.
Lemma filter_yes l : filter yes l = l.
Proof. induction l as [|e l IH]; cbn; [|rewrite IH]; reflexivity. Qed.
Lemma jln_app P (d e : list ent) r : jln P (d ++ e) r = jln P d r ++ jln P e r.
Proof. unfold jln. rewrite filter_app, map_app. reflexivity. Qed.

(** counting the entries of a triangle *)
Lemma bump_wp (B : jad T) n (c0 : Z -> Z) iw (Q : list Z -> Prop) : jad_ok B -> jad_n B = n -> zlen iw = n -> (forall r, 0 <= r < n -> znth 0 iw r = c0 r) ->
  (forall iw', zlen iw' = n -> (forall r, 0 <= r < n -> znth 0 iw' r = c0 r + zlen (jln yes (jad_entries B) r)) -> Q iw') ->
  wp (for_ 0 (jad_maxnzr B) (fun j iw => hi <- rd (jad_ptr B) (j + 1) ;; lo <- rd (jad_ptr B) j ;; for_ 0 (hi - lo) (fun i iw => r <- rd (jad_perm B) i ;; incr iw r) iw) iw) Q.
Proof.
  intros HB Hn Liw H0 HQ. subst n. pose proof HB as (Hn & Hp & Hnnz & Hpl & HP & Hli & Hlv & Hix & Hw). pose proof Hp as (Hm & Hlp & _ & Hpm).
  set (R := fun (d : list ent) (iw : list Z) => zlen iw = jad_n B /\ forall r, 0 <= r < jad_n B -> znth 0 iw r = c0 r + zlen (jln yes d r)).
  assert (W : wp (jad_items B (fun k _ iw => r <- rd (jad_perm B) k ;; incr iw r) iw) (R (jad_entries B))).
  { apply (jad_items_wp B HB R); auto.
    - split; auto. intros r Hr. rewrite H0 by auto. change (zlen (jln yes [] r)) with 0. lia.
    - intros q k s d e Hq Hk Hkv Hqp He Hpre [L1 L2]. wrd 0; [lia|]. set (r := znth 0 (jad_perm B) q). assert (Hr : 0 <= r < jad_n B) by (apply perm_range with (n := jad_n B); auto).
      unfold incr. wrd 0; [lia|]. apply wp_wr; [lia|]. split; [len|]. intros r' Hr'. rewrite jln_snoc. cbn [yes andb]. rewrite He. unfold erow at 1. cbn [fst snd]. fold r. rewrite znth_zupd by lia.
      destruct (Z.eqb_spec r' r) as [->|Hne]; [rewrite Z.eqb_refl, zlen_app, L2 by auto; change (zlen [pay _]) with 1; unfold zlen; cbn [length]; lia|].
      destruct (Z.eqb_spec r r'); [congruence|]. auto. }
  match goal with |- wp ?a _ => replace a with (jad_items B (fun k _ iw => r <- rd (jad_perm B) k ;; incr iw r) iw) end.
  { eapply wp_mono; [exact W|]. intros iw' [A1 A2]. apply HQ; auto. }
  unfold jad_items. apply for_body_ext. intros j s.
  destruct (rd (jad_ptr B) (j + 1)) as [hi|z|] eqn:Eh; destruct (rd (jad_ptr B) j) as [lo|z'|] eqn:El; cbn [bind]; try reflexivity.
  all: try (match goal with H : rd _ _ = Err _ |- _ => destruct (rd_no_err _ _ _ H) end).
  exact (eq_sym (for_shift lo hi (fun i0 s0 => r <- rd (jad_perm B) i0;; incr s0 r) s)).
Qed.

Lemma jln_count P (d : list ent) r : zlen (jln P d r) = zlen (filter (fun e => P e && (erow e =? r)) d).
Proof. unfold jln, zlen. rewrite map_length. reflexivity. Qed.
Lemma jln_perm P (d e : list ent) r : Permutation d e -> zlen (jln P d r) = zlen (jln P e r).
Proof. intros H. rewrite !jln_count. clear -H. unfold zlen. f_equal. apply Permutation_length. apply Permutation_filter. exact H. Qed.
Lemma jln_diag n D r : 0 <= r < n -> zlen (jln yes (diag_entries n D) r) = 1.
Proof.
  intros Hr. unfold jln, diag_entries. rewrite filter_map, map_map. unfold zlen. rewrite map_length. unfold yes, erow. cbn [fst snd andb].
  rewrite (zrange_app 0 r n) by lia. rewrite (zrange_cons r n) by lia. rewrite filter_app. cbn [filter]. rewrite Z.eqb_refl.
  assert (G : forall l, (forall x, In x l -> x <> r) -> filter (fun x => x =? r) l = []).
  { induction l as [|x l IH]; intros H; cbn [filter]; auto. destruct (Z.eqb_spec x r) as [E|_]; [exfalso; apply (H x); auto; left; auto|]. apply IH. intros y Hy. apply H. right; auto. }
  rewrite !G; [reflexivity| |]; intros x Hx; apply In_zrange in Hx; lia.
Qed.

Section F.
Variables (n np : Z) (F : list ent).
Hypothesis HF : forall e, In e F -> 0 <= erow e < n /\ 0 <= ecol e < np.
Notation N := (zlen F).
Notation len := (fun r => zlen (jln yes F r)).
Lemma fput_wp m perm ptr col d e s : laid n m N len perm ptr col -> (forall r, 0 <= r < n -> len r <= m) -> filled n N len ptr col (jln yes d) s -> 0 <= erow e < n -> prefix (d ++ [e]) F ->
  wp (jad_put ptr col (erow e) (ecol e) (eval e) s) (filled n N len ptr col (jln yes (d ++ [e]))).
Proof using.
  intros HL Hm HFl Hr Hpre. pose proof (jln_prefix yes _ _ (erow e) Hpre) as Hle. rewrite jln_snoc, Z.eqb_refl in Hle. cbn [yes andb] in Hle. rewrite zlen_app in Hle. change (zlen [pay e]) with 1 in Hle.
  eapply wp_mono; [apply (jad_put_wp n m _ _ perm ptr col HL); [intros r Hr'; split; [apply zlen_nonneg|auto]|exact HFl|auto|lia]|].
  intros s'. apply filled_ext. intros r Hr'. rewrite jln_snoc. cbn [yes andb]. rewrite (Z.eqb_sym r). destruct (Z.eqb_spec (erow e) r) as [<-|_]; reflexivity.
Qed.
End F.

Variables (L U : jad T) (n : Z) (D : list T) (lc uc : list Z).
Hypothesis HL : jad_ok L.
Hypothesis HU : jad_ok U.
Hypothesis NL : jad_n L = n.
Hypothesis NU : jad_n U = n.
Hypothesis PL : jad_np L = n.
Hypothesis PU : jad_np U = n.
Hypothesis HD : n <= zlen D.
Notation F := (jad_entries L ++ diag_entries n D ++ jad_entries U).
Lemma jad_merge_wp jw jw2 jq jp ji jv m0 : wp (merge_jad jw jw2 jq jp ji jv n m0 (mkJsplit n (mkJside L lc) D (mkJside U uc))) (fun B =>
  jad_n B = n /\ jad_np B = n /\ jad_maxnzr B = m0 /\ (longest_row n F m0 -> jad_ok B /\ Permutation (jad_entries B) F)).
Proof using HL HU NL NU PL PU HD.
  pose proof HL as (Hn & _). rewrite NL in Hn. unfold merge_jad. cbn [js_n js_L js_U js_D jd_A].
  assert (HF : forall e, In e F -> 0 <= erow e < n /\ 0 <= ecol e < n).
  { intros e He. rewrite !in_app_iff in He. destruct He as [He|[He|He]].
    - pose proof (jad_in_shape L HL e He). rewrite NL, PL in *. auto.
    - unfold diag_entries in He. apply in_map_iff in He. destruct He as (i & <- & Hi). apply In_zrange in Hi. unfold erow, ecol. cbn [fst snd]. lia.
    - pose proof (jad_in_shape U HU e He). rewrite NU, PU in *. auto. }
  assert (HN : jad_nnz L + jad_nnz U + n = zlen F).
  { rewrite !zlen_app. rewrite (jad_entries_len L HL), (jad_entries_len U HU). unfold diag_entries. rewrite zlen_map, zlen_zrange. lia. }
  rewrite HN. set (len := fun r => zlen (jln yes F r)).
  apply wp_bind, (for_set 0 (fun _ => 1)); [lia|rewrite zlen_alloc; lia|]. rewrite zlen_alloc by lia. intros w0 Lw0 Zw0 _.
  apply wp_bind. apply (bump_wp L n (fun _ => 1)); auto. intros w1 Lw1 Zw1.
  apply wp_bind. apply (bump_wp U n (fun r => 1 + zlen (jln yes (jad_entries L) r))); auto. intros w2 Lw2 Zw2.
  assert (Zw : forall r, 0 <= r < n -> znth 0 w2 r = len r).
  { intros r Hr. rewrite Zw2 by auto. unfold len. rewrite !jln_app, !zlen_app, jln_diag by auto. lia. }
  apply wp_bind. apply jad_longest_wp; [lia|auto| |]. { intros q Hq. rewrite Zw by auto. apply zlen_nonneg. }
  intros m Hm Hmax Hatt.
  assert (Hle : forall r, 0 <= r < n -> len r <= m) by (intros r Hr; rewrite <- Zw by auto; auto).
  apply wp_bind. apply (jad_layout_wp n m (zlen F) len); auto; try lia.
  { rewrite zlen_zrange. lia. }
  { apply Permutation_refl'. transitivity (map (fun i => i) (zrange 0 n)); [|apply map_id]. apply map_ext_in. intros i Hi. apply In_zrange in Hi. rewrite znth_zrange; lia. }
  { intros k Hk. rewrite znth_zrange by lia. rewrite Zw by auto. f_equal. }
  { intros r Hr. split; [apply zlen_nonneg|auto]. }
  { unfold len. rewrite jln_total; [rewrite filter_yes; reflexivity|]. intros e He. apply HF; auto. }
  intros perm ptr col w3 Hlaid Lw3 Zw3.
  set (R := fun (d : list ent) s => filled n (zlen F) len ptr col (jln yes d) s).
  assert (Hput : forall d e s, In e F -> prefix (d ++ [e]) F -> R d s -> wp (jad_put ptr col (erow e) (ecol e) (eval e) s) (R (d ++ [e]))).
  { intros d e s He Hpre HR. apply (fput_wp n F m perm); auto. apply HF; auto. }
  assert (Hitems : forall B d0 tl s, jad_ok B -> F = d0 ++ jad_entries B ++ tl -> R d0 s ->
     wp (jad_items B (fun k i s => r <- rd (jad_perm B) k ;; c <- rd (jad_index B) i ;; v <- rd (jad_value B) i ;; jad_put ptr col r c v s) s) (R (d0 ++ jad_entries B))).
  { intros B d0 tl s HB HFB HR. apply (jad_items_wp B HB (fun d s => R (d0 ++ d) s)); auto. { rewrite app_nil_r. auto. }
    intros q k s1 d e Hq Hk Hkv Hqp He Hpre HR1. wrd 0; [lia|]. wrd 0; [lia|]. wrd s0; [lia|]. rewrite app_assoc.
    replace (znth 0 (jad_perm B) q) with (erow e) by (rewrite He; reflexivity). replace (znth 0 (jad_index B) k) with (ecol e) by (rewrite He; reflexivity). replace (znth s0 (jad_value B) k) with (eval e) by (rewrite He; reflexivity).
    destruct Hpre as (y & Hy). assert (HFe : F = (d0 ++ d) ++ [e] ++ y ++ tl). { rewrite HFB, Hy, !app_assoc. reflexivity. }
    apply Hput; auto.
    - rewrite HFe. apply in_app_iff. right. left. auto.
    - exists (y ++ tl). rewrite HFe, !app_assoc. reflexivity. }
  apply wp_bind. eapply wp_mono; [apply (Hitems L [] (diag_entries n D ++ jad_entries U)); auto|].
  { split; auto. pose proof (zlen_nonneg F). split; [apply zlen_alloc; auto|]. split; [apply zlen_alloc; auto|]. intros r Hr. change (jln yes [] r) with (@nil (Z * T)). split; [apply Zw3; auto|]. split; [apply zlen_nonneg|]. change (zlen (@nil (Z * T))) with 0. intros; lia. }
  intros s1 HR1. change ([] ++ jad_entries L) with (jad_entries L) in HR1. apply wp_bind.
  apply (for_wp' (fun i s => R (jad_entries L ++ map (fun i => (i, i, znth s0 D i)) (zrange 0 i)) s)); [lia| | |].
  { rewrite zrange_empty by lia. cbn [map]. rewrite app_nil_r. auto. }
  { intros i s Hi HR. wrd s0; [lia|]. rewrite zrange_snoc by lia. rewrite map_app, app_assoc. cbn [map].
    apply (Hput _ (i, i, znth s0 D i) s); auto.
    - apply in_app_iff. right. apply in_app_iff. left. unfold diag_entries. apply in_map_iff. exists i. split; auto. apply In_zrange; lia.
    - exists (map (fun i => (i, i, znth s0 D i)) (zrange (i + 1) n) ++ jad_entries U). unfold diag_entries. rewrite (zrange_app 0 i n) by lia. rewrite (zrange_cons i n) by lia. rewrite map_app. cbn [map]. rewrite <- !app_assoc. reflexivity. }
  intros s2 HR2. fold (diag_entries n D) in HR2. apply wp_bind. eapply wp_mono; [apply (Hitems U (jad_entries L ++ diag_entries n D) []); auto|].
  { rewrite app_nil_r, <- app_assoc. reflexivity. }
  intros [[w ix] vl] (_ & A1 & A2 & A3). rewrite <- app_assoc in A3. apply wp_ok. cbn [jad_n jad_np jad_maxnzr]. split; auto. split; auto. split; auto.
  intros [Hl1 Hl2]. assert (Hc : forall r, zlen (filter (fun e => erow e =? r) F) = len r). { intros r. unfold len. rewrite jln_count. reflexivity. }
  assert (m0 = m).
  { destruct Hl2 as (r & Hr & Hr2). rewrite Hc in Hr2. specialize (Hle r Hr). destruct (Hatt ltac:(lia)) as (r' & Hr' & Er'). rewrite Zw in Er' by auto. specialize (Hl1 r' Hr'). rewrite Hc in Hl1. lia. }
  subst m0. clear Hl1 Hl2.
  assert (EN : zlen F = zlen (filter yes F)) by (rewrite filter_yes; reflexivity). rewrite EN in *. split.
  - rewrite <- EN at 1. rewrite EN. apply (jad_complete_ok n n m perm ptr col ix vl yes F); auto; [lia|]. intros r q Hr Hq. destruct (A3 r Hr) as (_ & _ & H). apply H. exact Hq.
  - etransitivity; [apply (jad_complete_perm n n m perm ptr col ix vl yes F); auto; [lia|]; intros r q Hr Hq; destruct (A3 r Hr) as (_ & _ & H); apply H; exact Hq|]. rewrite filter_yes. apply Permutation_refl.
Qed.
End M.
