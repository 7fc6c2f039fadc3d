(** Proofs about Msr.v *)
Require Import ZArith List Bool Lia Permutation.
From Verif Require Import Base Scalar Spec Items Csc CscProof Fmt Msr.
Import ListNotations.
Open Scope Z_scope.

Section MsrProof.
Context {T : Type} {S : Scalar T}.

Definition dg (e : entry T) : bool := erow e =? ecol e.
Definition offd (E : list (entry T)) : list (entry T) := filter (fun e => negb (dg e)) E.
Definition csr_row (A : csr T) (i : Z) : list (entry T) :=
  map (fun k => (i, znth 0 (csr_index A) k, znth s0 (csr_value A) k)) (zrange (znth 0 (csr_ptr A) i) (znth 0 (csr_ptr A) (i + 1))).

Lemma csr_rows (A : csr T) : csr_entries A = flat_map (csr_row A) (zrange 0 (csr_n A)).
Proof. reflexivity. Qed.

Lemma row_erow A i e : In e (csr_row A i) -> erow e = i.
Proof. intros H. apply in_map_iff in H. destruct H as (k & <- & _). reflexivity. Qed.

Lemma has_diag_row A i : 0 <= i < csr_n A -> has_diag (csr_entries A) i = existsb dg (csr_row A i).
Proof.
  intros Hi. apply eq_true_iff_eq. unfold has_diag. rewrite !existsb_exists. split.
  - intros (e & He & Ha). apply andb_true_iff in Ha. rewrite !Z.eqb_eq in Ha. destruct Ha as [H1 H2].
    rewrite csr_rows in He. apply in_flat_map in He. destruct He as (r & Hr & He).
    assert (erow e = r) by (eapply row_erow; eauto). replace r with i in He by lia.
    exists e. split; auto. unfold dg. apply Z.eqb_eq. lia.
  - intros (e & He & Hd). exists e. split.
    + rewrite csr_rows. apply in_flat_map. exists i. split; auto. apply In_zrange; auto.
    + unfold dg in Hd. apply Z.eqb_eq in Hd. pose proof (row_erow A i e He). unfold at_ij.
      apply andb_true_iff. rewrite !Z.eqb_eq. lia.
Qed.

Lemma NoDup_app_l {A} (l m : list A) : NoDup (l ++ m) -> NoDup l.
Proof. induction l; simpl; intros H; [constructor|]. inversion H; subst. constructor; auto. intros Hi. apply H2. apply in_app_iff; auto. Qed.
Lemma NoDup_app_r {A} (l m : list A) : NoDup (l ++ m) -> NoDup m.
Proof. induction l; simpl; intros H; auto. inversion H; subst. auto. Qed.

(** at most one diagonal entry per row *)
Lemma diag_row_list A i : 0 <= i < csr_n A -> no_dup_pos (csr_entries A) ->
  filter dg (csr_row A i) = [] /\ existsb dg (csr_row A i) = false \/
  exists e, filter dg (csr_row A i) = [e] /\ fst e = (i, i) /\ existsb dg (csr_row A i) = true.
Proof.
  intros Hi Hnd.
  assert (HN : NoDup (map fst (filter dg (csr_row A i)))).
  { apply NoDup_filter_map. unfold no_dup_pos in Hnd. rewrite csr_rows, (flat_map_split _ 0 i) in Hnd by lia.
    rewrite !map_app in Hnd. apply NoDup_app_r in Hnd. apply NoDup_app_l in Hnd. exact Hnd. }
  assert (Hpos : forall e, In e (filter dg (csr_row A i)) -> fst e = (i, i)).
  { intros e He. apply filter_In in He. destruct He as [He Hd]. pose proof (row_erow _ _ _ He). unfold dg in Hd. apply Z.eqb_eq in Hd.
    destruct e as [[a b] c]. unfold erow, ecol in *; cbn in *. congruence. }
  destruct (filter dg (csr_row A i)) as [|e [|e' t]] eqn:E.
  - left. split; auto. apply not_true_iff_false. intros H. apply existsb_exists in H. destruct H as (x & Hx & Hd).
    assert (In x (filter dg (csr_row A i))) by (apply filter_In; auto). rewrite E in H. destruct H.
  - right. exists e. split; auto. split; [apply Hpos; left; auto|]. apply existsb_exists. exists e.
    assert (In e (filter dg (csr_row A i))) by (rewrite E; left; auto). apply filter_In in H. exact H.
  - exfalso. assert (fst e = (i, i)) by (apply Hpos; left; auto). assert (fst e' = (i, i)) by (apply Hpos; right; left; auto).
    cbn in HN. inversion HN; subst. apply H3. left. congruence.
Qed.

Lemma zlen_filter_split {A} (p : A -> bool) l : zlen (filter p l) + zlen (filter (fun x => negb (p x)) l) = zlen l.
Proof. induction l as [|a l IH]; [reflexivity|]. cbn [filter]. destruct (p a); cbn [negb]; rewrite !zlen_cons; lia. Qed.

Lemma filter_split_perm {A} (p : A -> bool) l : Permutation (filter p l ++ filter (fun x => negb (p x)) l) l.
Proof.
  induction l as [|a l IH]; [constructor|]. cbn [filter]. destruct (p a); cbn [negb app].
  - constructor; auto.
  - rewrite <- Permutation_middle. constructor; auto.
Qed.

Definition b2z (b : bool) : Z := if b then 1 else 0.
Lemma diag_row_len A i : 0 <= i < csr_n A -> no_dup_pos (csr_entries A) ->
  zlen (offd (csr_row A i)) = zlen (csr_row A i) - b2z (existsb dg (csr_row A i)).
Proof.
  intros Hi Hnd. pose proof (zlen_filter_split dg (csr_row A i)). unfold offd.
  destruct (diag_row_list A i Hi Hnd) as [[E1 E2]|(e & E1 & _ & E2)]; rewrite E1 in H; rewrite E2; cbn [b2z]; [change (zlen (@nil (entry T))) with 0 in H|change (zlen [e]) with 1 in H]; lia.
Qed.

(** value at (q,q) after the items d, [jv q] if none *)
Definition dval (jv : Z -> T) (d : list (entry T)) (q : Z) : T :=
  if existsb (at_ij q q) d then lastval d (q, q) else jv q.

Lemma dval_snoc jv d e q : dval jv (d ++ [e]) q = if at_ij q q e then eval e else dval jv d q.
Proof.
  unfold dval. rewrite existsb_app. cbn [existsb]. rewrite orb_false_r, lastval_snoc.
  change ((erow e =? fst (q, q)) && (ecol e =? snd (q, q))) with (at_ij q q e).
  destruct (at_ij q q e); [rewrite orb_true_r; auto|]. rewrite orb_false_r. auto.
Qed.

Definition msr_rep (n : Z) (iw : list Z) (jv : Z -> T) (d : list (entry T)) (index : list Z) (value : list T) : Prop :=
  (forall r, 0 <= r <= n -> znth 0 index r = znth 0 iw r) /\
  (forall t, 0 <= t < zlen (offd d) -> znth 0 index (n + 1 + t) = ecol (znth e0 (offd d) t) /\ znth s0 value (n + 1 + t) = eval (znth e0 (offd d) t)) /\
  (forall q, 0 <= q < n -> znth s0 value q = dval jv d q).

Theorem convert_csr2msr_wp jw ji jv (A : csr T) (Q : msr T -> Prop) :
  csr_ok A -> no_dup_pos (csr_entries A) ->
  (forall B, msr_ok B -> msr_n B = csr_n A -> msr_np B = csr_np A -> msr_nnz B = csr_nnz A ->
     Permutation (msr_entries B) (csr_entries A ++
        map (fun i => (i, i, jv i) : entry T) (filter (fun i => negb (has_diag (csr_entries A) i)) (zrange 0 (csr_n A)))) -> Q B) ->
  wp (convert_csr2msr jw ji jv A) Q.
Proof.
  intros Hok Hnd HQ. pose proof Hok as (Hp & Hnp & Hnnz & Hli & Hlv & Hix). pose proof Hp as (Hn & Hlp & Hp0 & Hpm).
  pose proof (csr_entries_len A Hok) as Hlen.
  set (n := csr_n A) in *. set (row := csr_row A) in *.
  assert (Hrl : forall i, 0 <= i < n -> zlen (row i) = znth 0 (csr_ptr A) (i + 1) - znth 0 (csr_ptr A) i).
  { intros i Hi. unfold row, csr_row. apply zlen_map_zrange. apply Hpm; auto. }
  unfold convert_csr2msr. cbv zeta. fold n.
  apply wp_bind, (for_set 0 (fun _ => 0)); [lia|rewrite zlen_alloc; lia|].
  intros w1 L1 Z1 _. rewrite zlen_alloc in L1 by lia.
  (* flags *)
  apply wp_bind.
  apply (for_wp' (fun i w => zlen w = n + 1 /\ forall q, 0 <= q < i -> znth 0 w (q + 1) = b2z (existsb dg (row q)))); try lia.
  { split; auto. intros; lia. }
  { intros i w Hi (Lw & Hw). wwr; [lia|]. wrd 0; [lia|]. wrd 0; [lia|].
    apply (for_list (fun d w => zlen w = n + 1 /\ (forall q, 0 <= q < i -> znth 0 w (q + 1) = b2z (existsb dg (row q))) /\
       znth 0 w (i + 1) = b2z (existsb dg d)) (row i) (fun k => (i, znth 0 (csr_index A) k, znth s0 (csr_value A) k) : entry T) _ _ _ []).
    - apply Hpm; auto.
    - apply prefix_refl.
    - rewrite zlen_zupd. split; auto. split.
      + intros q Hq. rewrite znth_zupd_neq by lia. auto.
      + rewrite znth_zupd_eq by lia. reflexivity.
    - intros k w' d Hk _ _ (Lw' & Hw' & Hd). assert (0 <= k < csr_nnz A) by (rewrite <- Hnnz; eapply ptr_ok_bounds; eauto).
      wrd 0; [lia|]. rewrite existsb_app. cbn [existsb]. unfold dg at 3, erow at 1, ecol at 1. cbn [fst snd]. rewrite orb_false_r.
      destruct (i =? znth 0 (csr_index A) k).
      + apply wp_wr; [lia|]. rewrite zlen_zupd. split; auto. split.
        * intros q Hq. rewrite znth_zupd_neq by lia. auto.
        * rewrite znth_zupd_eq by lia. rewrite orb_true_r. reflexivity.
      + apply wp_ok. rewrite orb_false_r. auto.
    - cbn [app]. intros w' (Lw' & Hw' & Hd). split; auto. intros q Hq. destruct (Z.eq_dec q i); [subst; exact Hd|apply Hw'; lia]. }
  intros w2 (L2 & H2).
  (* count *)
  apply wp_bind.
  apply (for_wp' (fun i c => c = zlen (filter (fun q => existsb dg (row q)) (zrange 0 i)))); try lia.
  { reflexivity. }
  { intros i c Hi ->. wrd 0; [lia|]. apply wp_ok. rewrite zrange_snoc, filter_app, zlen_app by lia. cbn [filter].
    rewrite H2 by lia. destruct (existsb dg (row i)); reflexivity. }
  intros count Hcount.
  apply wp_bind.
  apply (for_wp' (fun i w => zlen w = n + 1 /\ (forall q, 0 <= q < i -> znth 0 w (q + 1) = zlen (offd (row q))) /\
       (forall q, i <= q < n -> znth 0 w (q + 1) = b2z (existsb dg (row q))))); try lia.
  { split; auto. split; intros; auto; lia. }
  { intros i w Hi (Lw & Hw & Hw'). wrd 0; [lia|]. wrd 0; [lia|]. wrd 0; [lia|]. apply wp_wr; [lia|]. rewrite zlen_zupd.
    split; auto. split; intros q Hq.
    - rewrite znth_zupd by lia. destruct (Z.eqb_spec (q + 1) (i + 1)); [|apply Hw; lia].
      replace q with i by lia. rewrite Hw' by lia. rewrite <- Hrl by auto. symmetry. apply diag_row_len; auto.
    - rewrite znth_zupd_neq by lia. apply Hw'; lia. }
  intros w3 (L3 & H3 & _).
  (* sizes *)
  set (total := csr_entries A).
  set (offt := flat_map (fun i => offd (row i)) (zrange 0 n)).
  assert (Hoff : offd total = offt) by (unfold total, offt, offd; rewrite csr_rows; apply filter_flat_map).
  assert (Hsz : forall m, 0 <= m <= n -> zlen (flat_map row (zrange 0 m)) = zlen (flat_map (fun i => offd (row i)) (zrange 0 m)) + zlen (filter (fun q => existsb dg (row q)) (zrange 0 m))).
  { intros m Hm. replace m with (Z.of_nat (Z.to_nat m)) in * by lia. revert Hm. generalize (Z.to_nat m). intros k. induction k; intros Hk.
    - reflexivity.
    - replace (Z.of_nat (Datatypes.S k)) with (Z.of_nat k + 1) in * by lia. rewrite !flat_map_snoc, !zlen_app by lia.
      rewrite zrange_snoc, filter_app, zlen_app by lia. rewrite IHk by lia.
      pose proof (diag_row_len A (Z.of_nat k) ltac:(fold n; lia) Hnd) as HD. fold row in HD. cbn [filter].
      destruct (existsb dg (row (Z.of_nat k))); cbn [b2z] in HD; [change (zlen [Z.of_nat k]) with 1|change (zlen (@nil Z)) with 0]; lia. }
  assert (Hc0 : zlen offt = csr_nnz A - count).
  { pose proof (Hsz n ltac:(lia)) as HH. change (flat_map row (zrange 0 n)) with total in HH. unfold total in HH. rewrite Hlen in HH.
    fold offt in HH. lia. }
  assert (Hcn : 0 <= count <= n).
  { rewrite Hcount. split; [apply zlen_nonneg|]. transitivity (zlen (zrange 0 n)).
    - pose proof (zlen_filter_split (fun q => existsb dg (row q)) (zrange 0 n)) as HS. cbv beta in HS.
      pose proof (zlen_nonneg (filter (fun x => negb (existsb dg (row x))) (zrange 0 n))). lia.
    - rewrite zlen_zrange. lia. }
  pose proof (zlen_nonneg offt) as Hoff0.
  assert (Hsize : csr_nnz A + (n - count) + 1 = n + 1 + zlen offt) by lia.
  (* ptr part *)
  wwr; [lia|].
  apply wp_bind, (prefix_self_base (fun i => offd (row i)) (n + 1)); rewrite ?zlen_zupd; try lia.
  { apply znth_zupd_eq; lia. }
  { intros i Hi. rewrite znth_zupd_neq by lia. apply H3; lia. }
  intros w4 L4 H4. rewrite L3 in L4.
  apply wp_bind, (for_copy 0); rewrite ?zlen_alloc by lia; try lia.
  intros ix0 Lix0 Hix0 _.
  (* fill *)
  apply wp_bind.
  apply (for_items (fun d s => zlen (fst s) = n + 1 + zlen offt /\ zlen (snd s) = n + 1 + zlen offt /\ msr_rep n w4 jv d (fst s) (snd s))
            total row 0 n _ []); try lia.
  { apply prefix_refl. }
  { cbn [fst snd]. rewrite zlen_alloc by lia. split; [lia|]. split; [lia|]. split; [|split].
    - intros r Hr. apply Hix0; lia.
    - intros t Ht. change (zlen (offd [])) with 0 in Ht. lia.
    - intros q Hq. rewrite znth_alloc by lia. reflexivity. }
  { intros i [ix vl] d Hi Hd Hpre (Li & Lv & HR1 & HR2 & HR3). cbn [fst snd app] in *.
    wrd 0; [lia|]. wrd 0; [lia|]. wrd 0; [lia|].
    apply wp_bind.
    apply (for_list (fun d s => let '(k, ix, vl) := s in k = n + 1 + zlen (offd d) /\ zlen ix = n + 1 + zlen offt /\ zlen vl = n + 1 + zlen offt /\ msr_rep n w4 jv d ix vl)
       total (fun k => (i, znth 0 (csr_index A) k, znth s0 (csr_value A) k) : entry T) _ _ _ d).
    - apply Hpm; auto.
    - exact Hpre.
    - rewrite HR1, H4 by lia. split.
      + f_equal. rewrite Hd. unfold offd. rewrite filter_flat_map. reflexivity.
      + split; [auto|]. split; [auto|]. split; auto.
    - clear HR1 HR2 HR3 Li Lv ix vl. intros k [[kk ix] vl] d' Hk _ Hpre' (-> & Li & Lv & HR1 & HR2 & HR3).
      assert (Hkn : 0 <= k < csr_nnz A) by (rewrite <- Hnnz; eapply ptr_ok_bounds; eauto).
      wrd 0; [lia|]. wrd s0; [lia|].
      set (e := (i, znth 0 (csr_index A) k, znth s0 (csr_value A) k) : entry T) in *.
      assert (Ho : offd (d' ++ [e]) = offd d' ++ (if znth 0 (csr_index A) k =? i then [] else [e])).
      { unfold offd. rewrite filter_app. f_equal. cbn [filter]. unfold dg, e, erow, ecol. cbn [fst snd]. rewrite Z.eqb_sym.
        destruct (znth 0 (csr_index A) k =? i); reflexivity. }
      assert (Hroom : zlen (offd (d' ++ [e])) <= zlen offt).
      { rewrite <- Hoff. apply prefix_len. destruct Hpre' as [r ->]. unfold offd. rewrite (filter_app _ (d' ++ [e]) r). eexists; reflexivity. }
      rewrite Ho in *. pose proof (zlen_nonneg (offd d')).
      destruct (Z.eqb_spec (znth 0 (csr_index A) k) i) as [Eq|Ne].
      + rewrite app_nil_r in *. wwr; [lia|]. apply wp_ok. split; auto. rewrite zlen_zupd. split; auto. split; auto.
        split; [auto|]. split.
        * intros t Ht. rewrite Ho in Ht |- *. rewrite znth_zupd_neq by lia. apply HR2; auto.
        * intros q Hq. rewrite dval_snoc. unfold at_ij, e, erow, ecol, eval; cbn [fst snd]. rewrite Eq.
          rewrite znth_zupd by lia. rewrite (Z.eqb_sym i q). destruct (Z.eqb_spec q i); cbn [andb]; auto.
      + rewrite zlen_app in *. change (zlen [e]) with 1 in *. wwr; [lia|]. wwr; [lia|]. apply wp_ok. split; [lia|].
        rewrite !zlen_zupd. split; auto. split; auto. split; [|split].
        * intros r Hr. rewrite znth_zupd_neq by lia. auto.
        * intros t Ht. rewrite Ho in Ht |- *. rewrite zlen_app in Ht. change (zlen [e]) with 1 in Ht.
          rewrite !znth_zupd by lia. destruct (Z.eqb_spec (n + 1 + t) (n + 1 + zlen (offd d'))).
          -- replace t with (zlen (offd d')) by lia. rewrite znth_snoc_last. auto.
          -- rewrite znth_snoc_lt by lia. apply HR2; lia.
        * intros q Hq. rewrite znth_zupd_neq by lia. rewrite dval_snoc, HR3 by auto. unfold at_ij, e, erow, ecol; cbn [fst snd].
          destruct (Z.eqb_spec i q); cbn [andb]; auto. destruct (Z.eqb_spec (znth 0 (csr_index A) k) q); auto. lia.
    - intros [[kk ix'] vl'] (_ & Li' & Lv' & HR'). apply wp_ok. cbn [fst snd]. auto. }
  cbn [app]. change (flat_map row (zrange 0 n)) with total. intros [ix vl] (Li & Lv & HR1 & HR2 & HR3). cbn [fst snd] in *. apply wp_ok.
  rewrite Hoff in HR2.
  assert (Hsh : in_shape n (csr_np A) total) by (apply csr_in_shape; auto).
  apply HQ; auto.
  - unfold msr_ok; cbn [msr_n msr_np msr_nnz msr_ndz msr_index msr_value]. do 5 (split; [lia|]). split; [rewrite HR1, H4 by lia; change (zlen (flat_map _ (zrange 0 0))) with 0; lia|].
    split; [|split].
    + intros i Hi. rewrite !HR1, !H4 by lia. rewrite flat_map_snoc, zlen_app by lia. pose proof (zlen_nonneg (offd (row i))). lia.
    + rewrite HR1, H4 by lia. fold offt. lia.
    + intros k Hk. rewrite HR1, H4 in Hk by lia. fold offt in Hk. replace k with (n + 1 + (k - (n + 1))) by lia.
      destruct (HR2 (k - (n + 1)) ltac:(lia)) as [-> _]. apply Hsh.
      assert (Hin : In (znth e0 offt (k - (n + 1))) offt) by (apply znth_In; lia). rewrite <- Hoff in Hin at 2. apply filter_In in Hin. apply Hin.
  - set (extra := fun i => if has_diag total i then [] else [(i, i, jv i) : entry T]).
    assert (Hex : map (fun i => (i, i, jv i) : entry T) (filter (fun i => negb (has_diag total i)) (zrange 0 n)) = flat_map extra (zrange 0 n)).
    { unfold extra. generalize (zrange 0 n). induction l as [|a l IH]; [reflexivity|]. cbn [filter flat_map].
      destruct (has_diag total a); cbn [negb map app]; rewrite IH; reflexivity. }
    fold total. rewrite Hex. unfold total. rewrite csr_rows. fold n row. rewrite <- (flat_map_add row extra).
    unfold msr_entries; cbn [msr_n msr_index msr_value]. apply Permutation_flat_map_ext. intros i Hi. apply In_zrange in Hi.
    rewrite !HR1, !H4 by lia.
    assert (Hseg : map (fun k => (i, znth 0 ix k, znth s0 vl k) : entry T) (zrange (n + 1 + zlen (flat_map (fun i => offd (row i)) (zrange 0 i))) (n + 1 + zlen (flat_map (fun i => offd (row i)) (zrange 0 (i + 1))))) = offd (row i)).
    { rewrite <- (flat_map_segment e0 (fun i => offd (row i)) n i Hi). fold offt.
      rewrite !(Z.add_comm (n + 1)). rewrite zrange_shift, map_map. apply map_ext_in. intros t Ht.
      assert (Hin : In (znth e0 offt t) (offd (row i))).
      { rewrite <- (flat_map_segment e0 (fun i => offd (row i)) n i Hi). fold offt. apply in_map. auto. }
      apply In_zrange in Ht. pose proof (zlen_nonneg (flat_map (fun i => offd (row i)) (zrange 0 i))).
      pose proof (flat_map_le (fun i => offd (row i)) (i + 1) n ltac:(lia)) as HL. fold offt in HL.
      rewrite (Z.add_comm t). destruct (HR2 t ltac:(lia)) as [-> ->].
      apply filter_In in Hin. destruct Hin as [Hin _]. apply row_erow in Hin. destruct (znth e0 offt t) as [[a b] c].
      unfold erow in Hin; cbn in Hin. subst. reflexivity. }
    match goal with |- Permutation (_ :: ?m) _ => replace m with (offd (row i)) by (symmetry; exact Hseg) end. rewrite HR3 by auto. unfold extra, dval. change (existsb (at_ij i i) total) with (has_diag total i).
    rewrite <- (filter_split_perm dg (row i)) at 2. fold (offd (row i)).
    assert (Hhd : has_diag total i = existsb dg (row i)) by (apply has_diag_row; auto). rewrite Hhd.
    destruct (diag_row_list A i Hi Hnd) as [[E1 E2]|(e & E1 & Ep & E2)]; fold row in E1, E2; rewrite E1, E2.
    + cbn [app]. apply Permutation_cons_append.
    + rewrite app_nil_r. cbn [app].
      assert (He : In e total). { unfold total. rewrite csr_rows. apply in_flat_map. exists i. split; [apply In_zrange; auto|].
        assert (In e (filter dg (row i))) by (rewrite E1; left; auto). apply filter_In in H. apply H. }
      rewrite <- Ep. rewrite (lastval_unique total e Hnd He). destruct e as [[a b] c]. cbn in Ep. inversion Ep; subst. apply Permutation_refl.
Qed.

(** ** MSR -> CSR *)
Definition msr_row (A : msr T) (i : Z) : list (entry T) :=
  nz [(i, i, znth s0 (msr_value A) i)] ++
  map (fun k => (i, znth 0 (msr_index A) k, znth s0 (msr_value A) k)) (zrange (znth 0 (msr_index A) i) (znth 0 (msr_index A) (i + 1))).

Lemma msr_rows_len (A : msr T) : msr_ok A -> zlen (flat_map (msr_row A) (zrange 0 (msr_n A))) = msr_stored A.
Proof.
  intros (Hn & Hnz & Hdz & Li & Lv & H0 & Hm & Hend & Hix). unfold msr_stored.
  assert (G : forall k : nat, Z.of_nat k <= msr_n A -> zlen (flat_map (msr_row A) (zrange 0 (Z.of_nat k))) =
     znth 0 (msr_index A) (Z.of_nat k) - (msr_n A + 1) + zlen (filter (fun i => nonzero (znth s0 (msr_value A) i)) (zrange 0 (Z.of_nat k)))).
  { induction k; intros Hk.
    - change (Z.of_nat 0) with 0. rewrite H0. cbn. lia.
    - replace (Z.of_nat (Datatypes.S k)) with (Z.of_nat k + 1) in * by lia. rewrite flat_map_snoc, zlen_app, IHk by lia.
      rewrite zrange_snoc, filter_app, zlen_app by lia. unfold msr_row at 1. rewrite zlen_app, zlen_map_zrange by (apply Hm; lia).
      assert (E : zlen (nz [(Z.of_nat k, Z.of_nat k, znth s0 (msr_value A) (Z.of_nat k)) : entry T]) = zlen (filter (fun i => nonzero (znth s0 (msr_value A) i)) [Z.of_nat k])).
      { cbn. unfold eval; cbn. destruct (nonzero _); reflexivity. }
      unfold entry in *. lia. }
  specialize (G (Z.to_nat (msr_n A))). rewrite Z2Nat.id in G by lia. apply G; lia.
Qed.

Lemma msr_rows_same (A : msr T) : same_entries (flat_map (msr_row A) (zrange 0 (msr_n A))) (msr_entries A).
Proof.
  assert (G : forall l, nz (flat_map (msr_row A) l) = nz (flat_map (fun i => ((i, i, znth s0 (msr_value A) i) : entry T) ::
     map (fun k => (i, znth 0 (msr_index A) k, znth s0 (msr_value A) k) : entry T) (zrange (znth 0 (msr_index A) i) (znth 0 (msr_index A) (i + 1)))) l)).
  { induction l as [|i l IH]; [reflexivity|]. cbn [flat_map]. rewrite !nz_app, IH. f_equal. unfold msr_row. rewrite nz_app, nz_idem.
    match goal with |- _ = nz (?x :: ?l) => change (x :: l) with ([x] ++ l) end. rewrite nz_app. reflexivity. }
  unfold same_entries. rewrite G. apply Permutation_refl.
Qed.

Theorem convert_msr2csr_wp jp ji jv (A : msr T) (Q : csr T -> Prop) :
  msr_ok A -> msr_stored A <= msr_nnz A ->
  (forall B, csr_n B = msr_n A -> csr_np B = msr_np A -> csr_nnz B = msr_nnz A ->
     csr_entries B = flat_map (msr_row A) (zrange 0 (msr_n A)) ->
     (msr_stored A = msr_nnz A -> csr_ok B) -> Q B) ->
  wp (convert_msr2csr jp ji jv A) Q.
Proof.
  intros Hok Hst HQ. pose proof (msr_rows_len A Hok) as Hlen. pose proof Hok as (Hn & Hnz & Hdz & Li & Lv & H0 & Hm & Hend & Hix).
  assert (Hmono : forall i, 0 <= i <= msr_n A -> msr_n A + 1 <= znth 0 (msr_index A) i <= znth 0 (msr_index A) (msr_n A)).
  { assert (G : forall k : nat, forall i, 0 <= i -> i + Z.of_nat k <= msr_n A -> znth 0 (msr_index A) i <= znth 0 (msr_index A) (i + Z.of_nat k)).
    { induction k; intros i Hi Hk. - replace (i + Z.of_nat 0) with i by lia. lia.
      - replace (i + Z.of_nat (Datatypes.S k)) with (i + Z.of_nat k + 1) in * by lia. specialize (IHk i Hi ltac:(lia)). specialize (Hm (i + Z.of_nat k)). lia. }
    intros i Hi. split.
    - specialize (G (Z.to_nat i) 0). rewrite Z2Nat.id in G by lia. rewrite H0 in G. apply G; lia.
    - specialize (G (Z.to_nat (msr_n A - i)) i). rewrite Z2Nat.id in G by lia. replace (i + (msr_n A - i)) with (msr_n A) in G by lia. apply G; lia. }
  set (n := msr_n A) in *. set (g := msr_row A) in *. set (total := flat_map g (zrange 0 n)) in *.
  pose proof (zlen_nonneg total) as Htot.
  unfold convert_msr2csr. cbv zeta. fold n.
  assert (Hnn : 0 <= msr_nnz A) by lia.
  assert (Hln : n + 1 <= zlen (msr_index A) /\ n + 1 <= zlen (msr_value A)).
  { pose proof (Hmono 0). pose proof (Hmono n). lia. }
  apply wp_bind.
  apply (for_wp' (fun i p => zlen p = n + 1 /\ forall q, 0 <= q < i -> znth 0 p (q + 1) = zlen (g q))); try lia.
  { rewrite zlen_alloc by lia. split; auto; intros; lia. }
  { intros i p Hi (Lp & Hp). wrd 0; [lia|]. wrd 0; [lia|]. wwr; [lia|]. wrd s0; [lia|].
    assert (Hg : zlen (g i) = znth 0 (msr_index A) (i + 1) - znth 0 (msr_index A) i + (if nonzero (znth s0 (msr_value A) i) then 1 else 0)).
    { unfold g, msr_row. rewrite zlen_app, zlen_map_zrange by (apply Hm; auto).
      replace (nz [(i, i, znth s0 (msr_value A) i) : entry T]) with (if nonzero (znth s0 (msr_value A) i) then [(i, i, znth s0 (msr_value A) i) : entry T] else []) by reflexivity.
      destruct (nonzero _); [change (zlen [_]) with 1|change (zlen (@nil (entry T))) with 0]; lia. }
    destruct (nonzero (znth s0 (msr_value A) i)).
    - unfold incr. wrd 0; [rewrite zlen_zupd; lia|]. apply wp_wr; [rewrite zlen_zupd; lia|]. rewrite !zlen_zupd. split; auto.
      intros q Hq. rewrite znth_zupd by (rewrite zlen_zupd; lia). destruct (Z.eqb_spec (q + 1) (i + 1)).
      + replace q with i by lia. rewrite znth_zupd_eq by lia. lia.
      + rewrite znth_zupd_neq by lia. apply Hp; lia.
    - apply wp_ok. rewrite zlen_zupd. split; auto. intros q Hq. rewrite znth_zupd by lia. destruct (Z.eqb_spec (q + 1) (i + 1)).
      + replace q with i by lia. lia.
      + apply Hp; lia. }
  intros p1 (Lp1 & Hp1). wwr; [lia|].
  apply wp_bind, (prefix_self g); rewrite ?zlen_zupd; try lia.
  { apply znth_zupd_eq; lia. }
  { intros i Hi. rewrite znth_zupd_neq by lia. apply Hp1; lia. }
  intros ptr Lp Hptr. rewrite Lp1 in Lp.
  apply wp_bind.
  apply (for_items (fun d s => zlen (fst s) = msr_nnz A /\ zlen (snd s) = msr_nnz A /\ emit_rep d (fst s) (snd s)) total g 0 n _ []); try lia.
  { apply prefix_refl. }
  { cbn [fst snd]. rewrite !zlen_alloc by lia. split; auto. split; auto. apply emit_nil. }
  { intros i [ix vl] d Hi Hd Hpre (Lix & Lvl & HE). cbn [fst snd app] in *. wrd 0; [lia|]. wrd s0; [lia|]. rewrite Hptr by lia. rewrite <- Hd.
    pose proof (zlen_nonneg d) as Hd0.
    set (e := (i, i, znth s0 (msr_value A) i) : entry T).
    assert (Hstep : wp (if nonzero (znth s0 (msr_value A) i) then
           (value <- wr vl (zlen d) (znth s0 (msr_value A) i) ;; index <- wr ix (zlen d) i ;; Ok (zlen d + 1, index, value))
         else Ok (zlen d, ix, vl)) (fun s => let '(k, ix, vl) := s in k = zlen (d ++ nz [e]) /\ zlen ix = msr_nnz A /\ zlen vl = msr_nnz A /\ emit_rep (d ++ nz [e]) ix vl)).
    { replace (nz [e]) with (if nonzero (znth s0 (msr_value A) i) then [e] else []) by reflexivity.
      assert (Hpre1 : zlen (d ++ nz [e]) <= zlen total).
      { apply prefix_len. destruct Hpre as [r Hr]. unfold g, msr_row in Hr. fold e in Hr. eexists. rewrite Hr, <- !app_assoc. reflexivity. }
      replace (nz [e]) with (if nonzero (znth s0 (msr_value A) i) then [e] else []) in Hpre1 by reflexivity.
      destruct (nonzero (znth s0 (msr_value A) i)).
      - rewrite zlen_app in *. change (zlen [e]) with 1 in *. wwr; [lia|]. wwr; [lia|]. apply wp_ok. rewrite !zlen_zupd. do 3 (split; [auto|]).
        apply (emit_step d ix vl e); auto; lia.
      - apply wp_ok. rewrite app_nil_r. auto. }
    apply wp_bind. eapply wp_mono; [exact Hstep|]. clear Hstep. intros [[k ix1] vl1] (Hk & Lix1 & Lvl1 & HE1).
    wrd 0; [lia|]. wrd 0; [lia|]. apply wp_bind.
    apply (for_list (fun d s => let '(k, ix, vl) := s in k = zlen d /\ zlen ix = msr_nnz A /\ zlen vl = msr_nnz A /\ emit_rep d ix vl)
        total (fun k => (i, znth 0 (msr_index A) k, znth s0 (msr_value A) k) : entry T) _ _ _ (d ++ nz [e])).
    - apply Hm; auto.
    - unfold g, msr_row in Hpre. fold e in Hpre. rewrite <- app_assoc. exact Hpre.
    - auto.
    - intros j [[k' ix'] vl'] d' Hj _ Hpre' (-> & Lix' & Lvl' & HE').
      pose proof (Hmono i ltac:(lia)). pose proof (Hmono (i + 1) ltac:(lia)).
      apply prefix_len in Hpre'. rewrite zlen_app in *. change (zlen [_]) with 1 in Hpre'. pose proof (zlen_nonneg d').
      wrd s0; [lia|]. wwr; [lia|]. wrd 0; [lia|]. wwr; [lia|]. apply wp_ok. rewrite !zlen_zupd. change (zlen [_]) with 1. do 3 (split; [auto|]).
      apply (emit_step d' ix' vl' (i, znth 0 (msr_index A) j, znth s0 (msr_value A) j)); auto; lia.
    - intros [[k' ix'] vl'] (_ & Lix' & Lvl' & HE'). apply wp_ok. cbn [fst snd]. split; auto. split; auto.
      unfold g, msr_row. fold e. rewrite app_assoc. exact HE'. }
  cbn [app]. fold total. intros [ix vl] (Lix & Lvl & HE). cbn [fst snd] in *. apply wp_ok.
  pose proof (csr_of_emit g n (msr_np A) (msr_nnz A) ptr ix vl) as HC. cbv zeta in HC. fold total in HC.
  destruct HC as [HC1 HC2]; auto; try lia.
  - intros x Hx. apply in_flat_map in Hx. destruct Hx as (i & Hi & Hx). apply In_zrange in Hi. unfold g, msr_row in Hx.
    apply in_app_iff in Hx. destruct Hx as [Hx|Hx].
    + apply filter_In in Hx. destruct Hx as [[<-|[]] _]. unfold erow, ecol; cbn. lia.
    + apply in_map_iff in Hx. destruct Hx as (k & <- & Hk). apply In_zrange in Hk. unfold erow, ecol; cbn. split; [lia|].
      apply Hix. pose proof (Hmono i ltac:(lia)). pose proof (Hmono (i + 1) ltac:(lia)). lia.
  - intros i x Hi Hx. unfold g, msr_row in Hx. apply in_app_iff in Hx. destruct Hx as [Hx|Hx].
    + apply filter_In in Hx. destruct Hx as [[<-|[]] _]. reflexivity.
    + apply in_map_iff in Hx. destruct Hx as (k & <- & Hk). reflexivity.
  - apply HQ; auto. intros E. apply HC2. lia.
Qed.

End MsrProof.
