(** Proofs about Assemble.v *)
Require Import ZArith List Bool Lia Permutation.
From Verif Require Import Base Scalar Spec Items Csc CscProof Coo CooProof Fmt Assemble SpecAssemble.
Import ListNotations.
Open Scope Z_scope.

Section AP.
Context {T : Type} {S : Scalar T}.

Lemma hist_snoc o ops op i j : hist o (ops ++ [op]) i j = hist_step o i j (hist o ops i j) op.
Proof. unfold hist. rewrite fold_left_app. reflexivity. Qed.

(** *** row buffers *)
Definition rep (n : Z) (nnz row : list Z) (index : list (list Z)) (value : list (list T)) (rows : Z -> list (Z * T)) : Prop :=
  zlen nnz = n /\ zlen row = n /\ zlen index = n /\ zlen value = n /\
  forall r, 0 <= r < n ->
    zlen (znth [] index r) = znth 0 nnz r /\ zlen (znth [] value r) = znth 0 nnz r /\
    znth 0 row r = zlen (rows r) /\ zlen (rows r) <= znth 0 nnz r /\
    (forall k, 0 <= k < zlen (rows r) -> (znth 0 (znth [] index r) k, znth s0 (znth [] value r) k) = znth (0, s0) (rows r) k) /\
    NoDup (map fst (rows r)) /\ (forall p, In p (rows r) -> 0 <= fst p < n).

Lemma scan_wp row j (l : list Z) : forall fuel k (Q : Z -> Prop),
  0 <= k -> k + Z.of_nat fuel <= zlen row ->
  (forall q, k <= q <= k + Z.of_nat fuel -> (forall p, k <= p < q -> znth 0 row p <> j) -> (q < k + Z.of_nat fuel -> znth 0 row q = j) -> Q q) ->
  wp (scan row j k fuel) Q.
Proof.
  induction fuel; intros k Q Hk Hl HQ; cbn [scan].
  - apply wp_ok. apply HQ; intros; lia.
  - wrd 0; [lia|]. destruct (Z.eqb_spec (znth 0 row k) j).
    + apply wp_ok. apply HQ; intros; try lia. 
    + apply IHfuel; [lia|lia|]. intros q Hq H1 H2. apply HQ; [lia| |].
      * intros p Hp. destruct (Z.eq_dec p k); [congruence|]. apply H1. lia.
      * intros. apply H2. lia.
Qed.

Lemma fst_znth (l : list (Z * T)) k : 0 <= k < zlen l -> znth 0 (map fst l) k = fst (znth (0, s0) l k).
Proof. intros. apply (znth_map fst (0, s0)). auto. Qed.

Lemma nodup_keys_inj (l : list (Z * T)) p q : NoDup (map fst l) -> 0 <= p < zlen l -> 0 <= q < zlen l ->
  fst (znth (0, s0) l p) = fst (znth (0, s0) l q) -> p = q.
Proof.
  intros ND Hp Hq E. rewrite <- !fst_znth in E by auto. unfold znth, zlen in *.
  destruct (Z.ltb_spec p 0); [lia|]. destruct (Z.ltb_spec q 0); [lia|].
  assert (Z.to_nat p = Z.to_nat q); [|lia].
  apply (proj1 (NoDup_nth (map fst l) 0) ND); auto; rewrite map_length; lia.
Qed.

Lemma in_zupd {A} (d : A) l k x y : 0 <= k < zlen l -> (In y (zupd l k x) <-> y = x \/ exists q, 0 <= q < zlen l /\ q <> k /\ znth d l q = y).
Proof.
  intros Hk. split.
  - intros H. apply (In_znth d) in H. destruct H as (q & Hq & E). rewrite zlen_zupd in Hq. rewrite znth_zupd in E by lia.
    destruct (Z.eqb_spec q k); [auto|]. right. exists q. auto.
  - intros [->|(q & Hq & Hne & <-)].
    + rewrite <- (znth_zupd_eq d l k x Hk) at 1. apply znth_In. rewrite zlen_zupd; auto.
    + rewrite <- (znth_zupd_neq d l k q x Hk Hne). apply znth_In. rewrite zlen_zupd; auto.
Qed.

Lemma map_fst_zupd (l : list (Z * T)) k x : 0 <= k < zlen l -> fst x = fst (znth (0, s0) l k) -> map fst (zupd l k x) = map fst l.
Proof.
  intros Hk E. apply (list_ext 0).
  - rewrite !zlen_map, zlen_zupd. auto.
  - intros q Hq. rewrite zlen_map, zlen_zupd in Hq. rewrite !fst_znth by (rewrite ?zlen_zupd; auto). rewrite znth_zupd by auto.
    destruct (Z.eqb_spec q k); [subst; auto|auto].
Qed.

(** what one accepted call does to the rows *)
Definition newval (flag : Z) (v : T) (old : option T) : T :=
  if flag =? INS_VALUE then v else match old with Some w => sadd w v | None => v end.
Definition rows_step (rows rows' : Z -> list (Z * T)) (flag i j : Z) (v : T) : Prop :=
  (forall r, r <> i -> rows' r = rows r) /\
  (forall c w, In (c, w) (rows' i) <-> (c <> j /\ In (c, w) (rows i)) \/
      (c = j /\ w = newval flag v (option_map snd (find (fun p => fst p =? j) (rows i))))).

Lemma find_nodup (l : list (Z * T)) j w : NoDup (map fst l) -> In (j, w) l -> find (fun p => fst p =? j) l = Some (j, w).
Proof.
  induction l as [|[a b] l IH]; [intros _ []|]. intros ND H. inversion ND; subst. cbn [find fst].
  destruct H as [E|H].
  - inversion E; subst. rewrite Z.eqb_refl. auto.
  - destruct (Z.eqb_spec a j); [|auto]. exfalso. apply H2. subst a. apply (in_map fst _ _ H).
Qed.
Lemma find_none_keys (l : list (Z * T)) j : (forall p, In p l -> fst p <> j) -> find (fun p => fst p =? j) l = None.
Proof.
  intros H. induction l as [|p l IH]; auto. cbn [find]. destruct (Z.eqb_spec (fst p) j); [exfalso; apply (H p); auto; left; auto|].
  apply IH. intros; apply H; right; auto.
Qed.

Lemma core_wp ji jv flag i j v n annz nnz row index value rows (Q : (list Z * list Z * list (list Z) * list (list T)) -> Prop) :
  0 < annz -> 0 <= i < n -> 0 <= j < n -> rep n nnz row index value rows ->
  (forall nnz' row' index' value' rows', rep n nnz' row' index' value' rows' -> rows_step rows rows' flag i j v -> Q (nnz', row', index', value')) ->
  wp (set_core ji jv flag i j v annz nnz row index value) Q.
Proof.
  unfold set_core.
  intros Ha Hi Hj (Ln & Lr & Lx & Lv & HR) HQ.
  destruct (HR i Hi) as (H1 & H2 & H3 & H4 & H5 & H6 & H7).
  wrd 0; [lia|]. wrd 0; [lia|]. wrd (@nil Z); [lia|]. wrd (@nil T); [lia|].
  set (cap := znth 0 nnz i) in *. set (cnt := znth 0 row i) in *. set (idx := znth [] index i) in *. set (val := znth [] value i) in *.
  pose proof (zlen_nonneg (rows i)) as Hc0.
  (* room for one more *)
  apply wp_bind. apply (wp_mono _ (fun s => let '(nnz', idx', val') := s in
      zlen nnz' = n /\ (forall r, 0 <= r < n -> r <> i -> znth 0 nnz' r = znth 0 nnz r) /\
      zlen idx' = znth 0 nnz' i /\ zlen val' = znth 0 nnz' i /\ cnt < znth 0 nnz' i /\
      (forall k, 0 <= k < cnt -> (znth 0 idx' k, znth s0 val' k) = znth (0, s0) (rows i) k))).
  { destruct (Z.eqb_spec cap cnt).
    - cbv zeta. apply wp_bind, wp_wr; [lia|]. unfold realloc.
      destruct (Z.ltb_spec (cap + annz) (zlen idx)); [lia|]. cbn [bind].
      destruct (Z.ltb_spec (cap + annz) (zlen val)); [lia|]. cbn [bind]. apply wp_ok.
      split; [rewrite zlen_zupd; auto|]. rewrite znth_zupd_eq by lia.
      split. { intros r Hr Hne. rewrite znth_zupd_neq by lia. auto. }
      rewrite !zlen_app, !zlen_alloc by lia. split; [lia|]. split; [lia|]. split; [lia|].
      intros k Hk. rewrite !znth_app by lia.
      destruct (Z.ltb_spec k (zlen idx)); [|lia]. destruct (Z.ltb_spec k (zlen val)); [|lia]. apply H5. lia.
    - apply wp_ok. split; [auto|]. split; [auto|]. split; [auto|]. split; [auto|]. split; [lia|]. intros. apply H5; lia. }
  intros [[nnz' idx'] val'] (N1 & N2 & N3 & N4 & N5 & N6).
  apply wp_bind. apply (scan_wp idx' j []); [lia|lia|]. rewrite Z2Nat.id by lia. rewrite Z.add_0_l.
  intros k Hk Hbefore Hat.
  assert (FIN : forall row' idx'' val'' newrow,
     zlen row' = n -> (forall r, 0 <= r < n -> r <> i -> znth 0 row' r = znth 0 row r) -> znth 0 row' i = zlen newrow ->
     zlen idx'' = zlen idx' -> zlen val'' = zlen val' -> zlen newrow <= znth 0 nnz' i ->
     (forall q, 0 <= q < zlen newrow -> (znth 0 idx'' q, znth s0 val'' q) = znth (0, s0) newrow q) ->
     NoDup (map fst newrow) -> (forall p, In p newrow -> 0 <= fst p < n) ->
     (forall c w, In (c, w) newrow <-> (c <> j /\ In (c, w) (rows i)) \/ (c = j /\ w = newval flag v (option_map snd (find (fun p => fst p =? j) (rows i))))) ->
     wp (index <- wr index i idx'' ;; value <- wr value i val'' ;; Ok (nnz', row', index, value)) Q).
  { intros row' idx'' val'' newrow F1 F2 F3 F4 F5 F6 F7 F8 F9 F10.
    apply wp_bind, wp_wr; [lia|]. apply wp_bind, wp_wr; [lia|]. apply wp_ok.
    apply (HQ _ _ _ _ (fun r => if r =? i then newrow else rows r)).
    - split; [auto|]. split; [auto|]. split; [rewrite zlen_zupd; auto|]. split; [rewrite zlen_zupd; auto|].
      intros r Hr. rewrite !znth_zupd by lia. destruct (Z.eqb_spec r i) as [->|Hne].
      + do 2 (split; [lia|]). split; [auto|]. split; [auto|]. split; [auto|]. split; auto.
      + rewrite N2, F2 by auto. apply HR; auto.
    - split. + intros r Hne. destruct (Z.eqb_spec r i); [contradiction|]. auto. + rewrite Z.eqb_refl. exact F10. }
  destruct (Z.ltb_spec k cnt).
  - (* found *)
    specialize (Hat ltac:(lia)).
    pose proof (N6 k ltac:(lia)) as Ek.
    set (old := znth (0, s0) (rows i) k) in *.
    assert (Hold : fst old = j) by (rewrite <- Ek; exact Hat).
    assert (Efind : find (fun p => fst p =? j) (rows i) = Some old).
    { rewrite (surjective_pairing old), Hold. apply find_nodup; auto. rewrite <- Hold, <- surjective_pairing. apply znth_In. lia. }
    assert (Kv : znth s0 val' k = snd old) by (rewrite <- Ek; reflexivity).
    set (nv := newval flag v (Some (snd old))).
    assert (G : wp (index <- wr index i idx' ;; value <- wr value i (zupd val' k nv) ;; Ok (nnz', row, index, value)) Q).
    { apply (FIN row idx' (zupd val' k nv) (zupd (rows i) k (j, nv))); rewrite ?zlen_zupd; auto.
      - lia.
      - intros q Hq. rewrite !znth_zupd by lia. destruct (Z.eqb_spec q k) as [->|]; [rewrite Hat; auto|]. apply N6. lia.
      - rewrite map_fst_zupd; auto. lia.
      - intros p Hp. apply (in_zupd (0, s0)) in Hp; [|lia]. destruct Hp as [->|(q & Hq & _ & <-)]; [auto|]. apply H7. apply znth_In; auto.
      - intros c w. rewrite (in_zupd (0, s0)) by lia. rewrite Efind. cbn [option_map]. fold nv. split.
        + intros [E|(q & Hq & Hne & E)]; [inversion E; auto|]. left. split.
          * intros ->. apply Hne. apply (nodup_keys_inj (rows i)); auto; [lia|]. fold old. rewrite E, Hold. reflexivity.
          * rewrite <- E. apply znth_In; auto.
        + intros [[Hne Hin]|[-> ->]]; [|auto]. right. apply (In_znth (0, s0)) in Hin. destruct Hin as (q & Hq & E). exists q. split; auto. split; auto.
          intros ->. fold old in E. apply Hne. rewrite <- Hold, E. reflexivity. }
    destruct (Z.eqb_spec flag INS_VALUE) as [Ef|Ef].
    + rewrite bind_assoc. apply wp_bind, wp_wr; [lia|]. cbn [bind].
      replace v with nv; [exact G|]. unfold nv, newval. rewrite Ef. reflexivity.
    + rewrite bind_assoc. apply wp_bind, (wp_rd s0); [lia|]. rewrite bind_assoc. apply wp_bind, wp_wr; [lia|]. cbn [bind].
      replace (sadd (znth s0 val' k) v) with nv; [exact G|]. unfold nv, newval. rewrite Kv.
      destruct (Z.eqb_spec flag INS_VALUE); [contradiction|reflexivity].
  - (* appended *)
    assert (k = cnt) by lia. subst k.
    assert (Habs : forall p, In p (rows i) -> fst p <> j).
    { intros p Hp. apply (In_znth (0, s0)) in Hp. destruct Hp as (q & Hq & <-). rewrite <- N6 by lia. cbn [fst]. apply Hbefore. lia. }
    rewrite bind_assoc. apply wp_bind, wp_wr; [lia|]. rewrite bind_assoc. apply wp_bind, wp_wr; [lia|]. rewrite bind_assoc. apply wp_bind, wp_wr; [lia|]. cbn [bind].
    apply (FIN _ _ _ (rows i ++ [(j, v)])); rewrite ?zlen_zupd; auto.
    + intros r Hr Hne. rewrite znth_zupd_neq by lia. auto.
    + rewrite znth_zupd_eq by lia. rewrite zlen_app. change (zlen [(j, v)]) with 1. lia.
    + rewrite zlen_app. change (zlen [(j, v)]) with 1. lia.
    + intros q Hq. rewrite zlen_app in Hq. change (zlen [(j, v)]) with 1 in Hq. rewrite !znth_zupd by lia.
      rewrite znth_app by lia. destruct (Z.eqb_spec q cnt) as [->|Hne].
      * destruct (Z.ltb_spec cnt (zlen (rows i))); [lia|]. rewrite H3, Z.sub_diag. reflexivity.
      * destruct (Z.ltb_spec q (zlen (rows i))); [|lia]. apply N6. lia.
    + rewrite map_app. cbn [map fst]. apply (Permutation_NoDup (Permutation_app_comm [j] (map fst (rows i)))).
      { cbn [app]. constructor; auto. intros Hin. apply in_map_iff in Hin. destruct Hin as (p & E & Hp). apply (Habs p); auto. }
    + intros p Hp. apply in_app_or in Hp. destruct Hp as [Hp|[<-|[]]]; auto.
    + intros c w. rewrite (find_none_keys _ _ Habs). cbn [option_map]. unfold newval.
      replace (if flag =? INS_VALUE then v else v) with v by (destruct (flag =? INS_VALUE); auto).
      rewrite in_app_iff. split.
      * intros [Hin|[E|[]]]; [left; split; auto; apply (Habs _ Hin)|inversion E; auto].
      * intros [[_ Hin]|[-> ->]]; [auto|]. right. left. auto.
Qed.

(** *** the row buffers as a list of entries *)
Definition row_item (rows : Z -> list (Z * T)) (i k : Z) : entry T :=
  (i, fst (znth (0, s0) (rows i) k), snd (znth (0, s0) (rows i) k)).
Definition row_items (rows : Z -> list (Z * T)) (i : Z) : list (entry T) := map (row_item rows i) (zrange 0 (zlen (rows i))).
Definition all_items (n : Z) (rows : Z -> list (Z * T)) : list (entry T) := flat_map (row_items rows) (zrange 0 n).

Lemma in_row_items rows i e : In e (row_items rows i) <-> erow e = i /\ In (ecol e, eval e) (rows i).
Proof.
  unfold row_items. rewrite in_map_iff. split.
  - intros (k & <- & Hk). apply In_zrange in Hk. split; [reflexivity|].
    change (In (fst (znth (0, s0) (rows i) k), snd (znth (0, s0) (rows i) k)) (rows i)).
    rewrite <- surjective_pairing. apply znth_In. auto.
  - intros (E & H). apply (In_znth (0, s0)) in H. destruct H as (k & Hk & Ek). exists k. split; [|apply In_zrange; auto].
    unfold row_item. rewrite Ek. cbn [fst snd]. destruct e as [[a b] c]. unfold erow, ecol, eval in *. cbn in *. subst. reflexivity.
Qed.

Lemma in_all_items n rows i j v : In (i, j, v) (all_items n rows) <-> 0 <= i < n /\ In (j, v) (rows i).
Proof.
  unfold all_items. rewrite in_flat_map. split.
  - intros (r & Hr & H). apply in_row_items in H. destruct H as (E & H). unfold erow, ecol, eval in *. cbn [fst snd] in *.
    subst r. apply In_zrange in Hr. auto.
  - intros (Hi & H). exists i. split; [apply In_zrange; auto|]. apply in_row_items. auto.
Qed.

Lemma NoDup_app_intro {A} (l1 l2 : list A) : NoDup l1 -> NoDup l2 -> (forall x, In x l1 -> In x l2 -> False) -> NoDup (l1 ++ l2).
Proof.
  induction l1 as [|a l1 IH]; intros H1 H2 H; cbn [app]; auto. inversion H1; subst. constructor.
  - rewrite in_app_iff. intros [Hx|Hx]; [auto|]. apply (H a); auto. left; auto.
  - apply IH; auto. intros x Hx. apply H. right; auto.
Qed.

Lemma all_items_nodup n rows : (forall r, 0 <= r < n -> NoDup (map fst (rows r))) -> no_dup_pos (all_items n rows).
Proof.
  unfold no_dup_pos, all_items. intros H. destruct (Z.le_gt_cases n 0) as [Hn|Hn]; [rewrite zrange_empty by lia; constructor|].
  revert H. pattern n. apply natlike_ind; [intros; rewrite zrange_empty by lia; constructor| |lia].
  clear n Hn. intros n Hn IH H. unfold Z.succ in *. rewrite zrange_snoc by lia. rewrite flat_map_app, map_app. cbn [flat_map]. rewrite app_nil_r.
  apply NoDup_app_intro.
  - apply IH. intros; apply H; lia.
  - unfold row_items. rewrite map_map.
    assert (E : map (fun x => fst (row_item rows n x)) (zrange 0 (zlen (rows n))) = map (fun c => (n, c)) (map fst (rows n))).
    { rewrite (list_table (0, s0) (rows n)) at 2. rewrite !map_map. reflexivity. }
    rewrite E. apply FinFun.Injective_map_NoDup; [intros a b Eab; congruence|]. apply H; lia.
  - intros p Hp1 Hp2. apply in_map_iff in Hp1, Hp2. destruct Hp1 as (e1 & <- & H1). destruct Hp2 as (e2 & E2 & H2).
    destruct e1 as [[a b] c]. apply in_all_items in H1. apply in_row_items in H2. destruct H2 as (H2 & _). destruct e2 as [[a2 b2] c2].
    unfold erow in H2. cbn [fst] in *. inversion E2. lia.
Qed.

Lemma rep_shape n nnz row index value rows : rep n nnz row index value rows -> in_shape n n (all_items n rows).
Proof.
  intros (_ & _ & _ & _ & H) [[i j] v] He. apply in_all_items in He. destruct He as (Hi & Hin).
  destruct (H i Hi) as (_ & _ & _ & _ & _ & _ & H7). specialize (H7 _ Hin). unfold erow, ecol; cbn [fst snd] in *. auto.
Qed.

Lemma zlen_row_items rows i : zlen (row_items rows i) = zlen (rows i).
Proof. unfold row_items. rewrite zlen_map, zlen_zrange. pose proof (zlen_nonneg (rows i)). lia. Qed.

Theorem rco2csr_wp jp ji jv n nnz row index value rows (Q : csr T -> Prop) :
  0 <= n -> rep n nnz row index value rows ->
  (forall B, csr_ok B -> csr_exact B -> csr_n B = n -> csr_np B = n -> csr_entries B = all_items n rows -> Q B) ->
  wp (convert_rco2csr jp ji jv n row index value) Q.
Proof.
  intros Hn HR HQ. pose proof (rep_shape _ _ _ _ _ _ HR) as Hsh. pose proof HR as (L1 & L2 & L3 & L4 & H).
  unfold convert_rco2csr. apply wp_bind.
  apply (for_wp' (fun i s => s = zlen (flat_map (row_items rows) (zrange 0 i)))); [lia|reflexivity| |].
  { intros i s Hi ->. wrd 0; [lia|]. apply wp_ok. rewrite zrange_snoc by lia. rewrite flat_map_app, zlen_app. cbn [flat_map]. rewrite app_nil_r, zlen_row_items.
    destruct (H i Hi) as (_ & _ & -> & _). reflexivity. }
  intros tot ->. cbv zeta. fold (all_items n rows). set (N := zlen (all_items n rows)). assert (0 <= N) by apply zlen_nonneg.
  wwr; [rewrite zlen_alloc; lia|]. apply wp_bind.
  apply (for_wp' (fun i p => zlen p = n + 1 /\ forall r, 0 <= r <= i -> znth 0 p r = zlen (flat_map (row_items rows) (zrange 0 r)))); [lia| | |].
  { rewrite zlen_zupd, zlen_alloc by lia. split; [lia|]. intros r Hr. replace r with 0 by lia. rewrite znth_zupd_eq by (rewrite zlen_alloc; lia). reflexivity. }
  { intros i p Hi (Lp & HP). wrd 0; [lia|]. wrd 0; [lia|]. apply wp_wr; [lia|]. rewrite zlen_zupd. split; [auto|]. intros r Hr.
    rewrite znth_zupd by lia. destruct (Z.eqb_spec r (i + 1)); [|apply HP; lia]. subst r. rewrite zrange_snoc by lia.
    rewrite flat_map_app, zlen_app. cbn [flat_map]. rewrite app_nil_r, zlen_row_items. rewrite HP by lia. destruct (H i Hi) as (_ & _ & -> & _). reflexivity. }
  intros ptr (Lp & HP). apply wp_bind.
  apply (for_items0 (fun d s => zlen (fst s) = N /\ zlen (snd s) = N /\ emit_rep d (fst s) (snd s)) (all_items n rows) (row_items rows) 0 n _ []).
  { apply prefix_refl. }
  { cbn [fst snd]. rewrite !zlen_alloc by lia. split; [auto|]. split; [auto|]. apply emit_nil. }
  { intros i [ix vl] d Hi Ed Hpre (Li & Lv & HE). cbn [fst snd app] in *. subst d.
    destruct (H i Hi) as (A1 & A2 & A3 & A4 & A5 & _).
    wrd 0; [lia|]. wrd 0; [lia|]. wrd (@nil Z); [lia|]. wrd (@nil T); [lia|].
    rewrite HP by lia. set (D := flat_map (row_items rows) (zrange 0 i)) in *.
    apply wp_bind. rewrite A3.
    apply (for_items0 (fun d s => let '(k, ix, vl) := s in k = zlen d /\ zlen ix = N /\ zlen vl = N /\ emit_rep d ix vl)
             (all_items n rows) (fun k => [row_item rows i k]) 0 (zlen (rows i)) _ D).
    - rewrite flat_map_single. exact Hpre.
    - auto.
    - intros k [[kk ix'] vl'] d Hk _ Hp (-> & L5 & L6 & HE'). pose proof (prefix_len _ _ Hp) as Hl. rewrite zlen_app in Hl. change (zlen [row_item rows i k]) with 1 in Hl. fold N in Hl.
      pose proof (zlen_nonneg d). pose proof (A5 k Hk) as Ek.
      wrd 0; [lia|]. wwr; [lia|]. wrd s0; [lia|]. wwr; [lia|]. apply wp_ok.
      rewrite !zlen_zupd, zlen_app. change (zlen [row_item rows i k]) with 1. split; [auto|]. split; [auto|]. split; [auto|].
      pose proof (emit_step d ix' vl' (row_item rows i k) HE' ltac:(lia) ltac:(lia)) as HS. unfold row_item in HS at 2 3. unfold ecol, eval in HS. cbn [fst snd] in HS.
      rewrite <- Ek in HS. exact HS.
    - intros [[kk ix'] vl'] (_ & L5 & L6 & HE'). apply wp_ok. cbn [fst snd]. rewrite flat_map_single in HE'. auto. }
  intros [ix vl] (Li & Lv & HE). cbn [fst snd app] in *. fold (all_items n rows) in HE. apply wp_ok.
  destruct (csr_of_emit (row_items rows) n n N ptr ix vl) as (E & Hok); auto; try lia.
  { intros i e Hi He. apply in_row_items in He. apply He. }
  { fold (all_items n rows). lia. } { fold (all_items n rows). lia. }
  apply HQ; auto. unfold csr_exact; cbn [csr_value csr_index]. lia.
Qed.

Theorem rco2csc_wp jp ji jw jv n nnz row index value rows (Q : csc T -> Prop) :
  0 <= n -> rep n nnz row index value rows ->
  (forall B, csc_ok B -> csc_n B = n -> csc_np B = n -> Permutation (csc_entries B) (all_items n rows) -> Q B) ->
  wp (convert_rco2csc jp ji jw jv n row index value) Q.
Proof.
  intros Hn HR HQ. pose proof (rep_shape _ _ _ _ _ _ HR) as Hsh. pose proof HR as (L1 & L2 & L3 & L4 & H).
  assert (Hk : forall e, In e (all_items n rows) -> 0 <= ecol e < n) by (intros; apply Hsh; auto).
  unfold convert_rco2csc. set (total := all_items n rows) in *. pose proof (zlen_nonneg total).
  apply wp_bind, (for_set 0 (fun _ => 0)); [lia|rewrite zlen_alloc; lia|].
  intros w1 Lw1 Z1 _. rewrite zlen_alloc in Lw1 by lia.
  apply wp_bind.
  apply (for_items0 (fun d a => zlen a = n /\ count_rep ecol n 0 d a) total (row_items rows) 0 n _ []).
  { apply prefix_refl. }
  { split; [lia|]. intros q Hq. rewrite Z1 by lia. reflexivity. }
  { intros i a d Hi Ed Hpre (La & HC). destruct (H i Hi) as (A1 & A2 & A3 & A4 & A5 & A6 & A7). cbn [app] in *.
    wrd 0; [lia|]. rewrite A3.
    apply (for_items0 (fun d a => zlen a = n /\ count_rep ecol n 0 d a) total (fun k => [row_item rows i k]) 0 (zlen (rows i)) _ d).
    - rewrite flat_map_single. exact Hpre.
    - auto.
    - intros k a' d' Hkk _ Hp (La' & HC'). wrd (@nil Z); [lia|]. wrd 0; [lia|].
      pose proof (A5 k Hkk) as Ek. assert (E1 : znth 0 (znth [] index i) k = ecol (row_item rows i k)) by (unfold row_item, ecol; cbn [fst snd]; rewrite <- Ek; reflexivity).
      rewrite E1. assert (Hc : 0 <= ecol (row_item rows i k) < n). { apply A7. apply znth_In; auto. }
      unfold incr. wrd 0; [lia|]. apply wp_wr; [lia|]. rewrite zlen_zupd. split; [auto|].
      pose proof (count_step ecol n 0 d' a' (row_item rows i k) HC' Hc) as HS. rewrite Z.add_0_r in HS. apply HS; lia.
    - intros s Hs. rewrite flat_map_single in Hs. exact Hs. }
  cbn [app]. change (flat_map (row_items rows) (zrange 0 n)) with total. intros w2 (Lw2 & HC).
  wwr; [rewrite zlen_alloc; lia|]. apply wp_bind. apply (prefix_phase ecol total); auto.
  { rewrite zlen_zupd, zlen_alloc; lia. } { lia. } { rewrite znth_zupd_eq by (rewrite zlen_alloc; lia). reflexivity. }
  intros ptr w3 Lp Lw3 HP HW. rewrite zlen_zupd, zlen_alloc in Lp by lia. cbv beta iota.
  wrd 0; [lia|]. rewrite HP by lia. rewrite (start_total ecol n) by auto.
  apply wp_bind.
  apply (for_items0 (fun d s => let '(iw, ix, vl) := s in zlen iw = n /\ zlen ix = zlen total /\ zlen vl = zlen total /\
            fill_rep ecol erow eval s0 n total d iw ix vl) total (row_items rows) 0 n _ []).
  { apply prefix_refl. }
  { rewrite !zlen_alloc by lia. split; [lia|]. split; [auto|]. split; [auto|]. apply fill_init. intros; apply HW; auto. }
  { intros i s d Hi Ed Hpre HI. destruct (H i Hi) as (A1 & A2 & A3 & A4 & A5 & A6 & A7). cbn [app] in *.
    wrd 0; [lia|]. rewrite A3.
    apply (for_items0 (fun d s => let '(iw, ix, vl) := s in zlen iw = n /\ zlen ix = zlen total /\ zlen vl = zlen total /\
            fill_rep ecol erow eval s0 n total d iw ix vl) total (fun k => [row_item rows i k]) 0 (zlen (rows i)) _ d).
    - rewrite flat_map_single. exact Hpre.
    - exact HI.
    - intros k [[iw ix] vl] d' Hkk _ Hp (La' & Lx & Lv & HF). wrd (@nil Z); [lia|]. wrd (@nil T); [lia|]. wrd 0; [lia|].
      pose proof (A5 k Hkk) as Ek. assert (E1 : znth 0 (znth [] index i) k = ecol (row_item rows i k)) by (unfold row_item, ecol; cbn [fst snd]; rewrite <- Ek; reflexivity).
      assert (E2 : znth s0 (znth [] value i) k = eval (row_item rows i k)) by (unfold row_item, eval; cbn [fst snd]; rewrite <- Ek; reflexivity).
      rewrite E1. assert (Hc : 0 <= ecol (row_item rows i k) < n). { apply A7. apply znth_In; auto. }
      wrd 0; [lia|]. wrd s0; [lia|]. rewrite E2.
      destruct (fill_step ecol erow eval s0 n total d' iw ix vl (row_item rows i k) Hk Hp ltac:(lia) ltac:(lia) ltac:(lia) HF) as (Hpos & HS).
      wwr; [lia|]. wwr; [lia|]. unfold incr. rewrite bind_assoc. wrd 0; [lia|]. wwr; [lia|]. apply wp_ok.
      rewrite !zlen_zupd. split; [auto|]. split; [auto|]. split; [auto|]. exact HS.
    - intros s' Hs. rewrite flat_map_single in Hs. exact Hs. }
  intros [[iw ix] vl] (L5 & L6 & L7 & HF). cbn [app] in HF. change (flat_map (row_items rows) (zrange 0 n)) with total in HF. apply wp_ok.
  destruct (csc_of_fill n n (zlen total) total ptr iw ix vl) as (Hok & HE); auto; try lia.
  apply HQ; auto. rewrite HE. apply buckets_perm. auto.
Qed.

(** *** histories of calls *)
Definition rows_hist (o : bool) (n : Z) (ops : list (Z * Z * Z * T)) (rows : Z -> list (Z * T)) : Prop :=
  forall i j v, 0 <= i < n -> 0 <= j < n -> (In (j, v) (rows i) <-> hist o ops i j = Some v).

Definition st (n : Z) (o : bool) (t : Z) (ops : list (Z * Z * Z * T)) (A : mat T) : Prop :=
  m_origin A = o /\ m_type A = t /\
  ((ready n A /\ existsb (op_in_range o n) ops = false) \/
   (m_status A = MATRIX_ASSEMBLING /\ m_n A = n /\ m_gn A = n /\ m_is A = 0 /\ 0 < n /\ 0 < m_annz A /\
    existsb (op_in_range o n) ops = true /\
    exists nnz rows, m_nnz A = Some nnz /\ rep n nnz (m_row A) (m_index A) (m_value A) rows /\ rows_hist o n ops rows)).

Lemma hist_none o n ops i j : existsb (op_in_range o n) ops = false -> 0 <= i < n -> 0 <= j < n -> hist o ops i j = None.
Proof.
  intros H Hi Hj. unfold hist. induction ops as [|[[[f a] b] v] ops IH] using rev_ind; auto.
  rewrite existsb_app in H. apply orb_false_iff in H. destruct H as (H1 & H2). rewrite fold_left_app. rewrite IH by auto. cbn [fold_left hist_step].
  cbn [existsb op_in_range] in H2. destruct (Z.eqb_spec (a - (if o then 1 else 0)) i); auto. destruct (Z.eqb_spec (b - (if o then 1 else 0)) j); auto.
  exfalso. rewrite orb_false_r in H2. rewrite !andb_false_iff, !Z.leb_gt, !Z.ltb_ge in H2. lia.
Qed.

Lemma malloc_rco_wp ji jv n w (Q : _ -> Prop) :
  0 <= n -> zlen w = n -> (forall r, 0 <= r < n -> 0 <= znth 0 w r) ->
  (forall row index value, rep n w row index value (fun _ => []) -> Q (row, index, value)) ->
  wp (malloc_rco (T:=T) ji jv n w) Q.
Proof.
  intros Hn Lw Hw HQ. unfold malloc_rco. apply wp_bind. apply (for_wp' (fun _ _ => True)); auto.
  { intros i s Hi _. wrd 0; [lia|]. destruct (Z.ltb_spec (znth 0 w i) 0); [specialize (Hw i Hi); lia|]. apply wp_ok; auto. }
  intros _ _. apply wp_ok. apply HQ. split; [auto|]. do 3 (split; [rewrite zlen_map, zlen_zrange; lia|]).
  intros r Hr. rewrite !znth_map with (d := 0) by (rewrite zlen_zrange; lia). rewrite znth_zrange by lia. rewrite Z.add_0_l.
  specialize (Hw r Hr). rewrite !zlen_alloc by auto. change (zlen (@nil (Z * T))) with 0.
  do 4 (split; [auto|]). split; [intros; lia|]. split; [constructor|]. intros p [].
Qed.

Lemma set_value_step ji jv n o t ops A flag i j v (Q : Z * mat T -> Prop) :
  st n o t ops A ->
  (forall A', st n o t (ops ++ [(flag, i, j, v)]) A' -> Q (if op_in_range o n (flag, i, j, v) then SUCCESS else ILL_ARG, A')) ->
  wp (set_value ji jv flag i j v A) Q.
Proof.
  intros (Ho & Ht & Hst) HQ. unfold set_value.
  assert (Hna : not_assembled A = true).
  { unfold not_assembled. destruct Hst as [((E & _) & _)|(E & _)]; rewrite E; reflexivity. }
  rewrite Hna. cbn [negb].
  assert (Hn : m_n A = n /\ m_gn A = n /\ m_is A = 0 /\ 0 < n /\ 0 < m_annz A).
  { destruct Hst as [((_ & E1 & E2 & E3 & E4 & E5 & _) & _)|(_ & E1 & E2 & E3 & E4 & E5 & _)]; auto. }
  destruct Hn as (En & Eg & Ei & Hn & Ha). rewrite Ho, Eg, Ei, En.
  set (i' := i - (if o then 1 else 0)). set (j' := j - (if o then 1 else 0)).
  replace (if o then i - 1 else i) with i' by (unfold i'; destruct o; lia).
  replace (if o then j - 1 else j) with j' by (unfold j'; destruct o; lia).
  assert (HR : op_in_range o n (flag, i, j, v) = negb ((i' <? 0) || (j' <? 0)) && negb ((n <=? i') || (n <=? j'))).
  { cbn [op_in_range]. fold i' j'. rewrite !Z.leb_antisym. destruct (i' <? 0), (j' <? 0), (i' <? n), (j' <? n); reflexivity. }
  rewrite HR in HQ.
  assert (BAD : negb ((i' <? 0) || (j' <? 0)) && negb ((n <=? i') || (n <=? j')) = false -> Q (ILL_ARG, A)).
  { intros E. rewrite E in HQ. apply HQ. split; [auto|]. split; [auto|]. rewrite existsb_app. cbn [existsb]. rewrite HR, E. cbn [orb]. rewrite orb_false_r.
    destruct Hst as [(H1 & H2)|(H1 & H2 & H3 & H4 & H5 & H6 & H7 & nnz & rows & H8 & H9 & H10)]; [left; auto|].
    right. do 7 (split; [auto|]). exists nnz, rows. split; [auto|]. split; [auto|].
    intros a b w Hia Hjb. rewrite hist_snoc. cbn [hist_step]. fold i' j'. rewrite (H10 a b w Hia Hjb).
    destruct (Z.eqb_spec i' a); [|cbn [andb]; tauto]. destruct (Z.eqb_spec j' b); [|cbn [andb]; tauto]. exfalso.
    destruct (Z.ltb_spec i' 0); [lia|]. destruct (Z.ltb_spec j' 0); [lia|]. destruct (Z.leb_spec n i'); [lia|]. destruct (Z.leb_spec n j'); [lia|]. discriminate. }
  destruct (Z.ltb_spec i' 0) as [?|G1]; [apply wp_ok, BAD; reflexivity|]. destruct (Z.ltb_spec j' 0) as [?|G2]; [apply wp_ok, BAD; reflexivity|].
  cbn [orb]. destruct (Z.leb_spec n i') as [?|G3]; [apply wp_ok, BAD; reflexivity|]. destruct (Z.leb_spec n j') as [?|G4]; [apply wp_ok, BAD; reflexivity|]. cbn [orb].
  cbn [orb negb andb] in HQ. clear BAD. rewrite Z.sub_0_r.
  assert (COMMON : forall nnz row index value rows, rep n nnz row index value rows -> rows_hist o n ops rows ->
     wp (' (nnz, row, index, value) <- set_core ji jv flag i' j' v (m_annz A) nnz row index value;;
         Ok (SUCCESS, mkMat MATRIX_ASSEMBLING (m_type A) n n 0 o (m_annz A) (Some nnz) row index value (m_csr A) (m_csc A))) Q).
  { intros nnz row index value rows Hrep Hh. apply wp_bind. apply (core_wp _ _ _ _ _ _ n _ _ _ _ _ rows); auto.
    intros nnz' row' index' value' rows' Hrep' (HS1 & HS2). apply wp_ok. apply HQ.
    split; [reflexivity|]. split; [exact Ht|]. right. cbn [m_status m_n m_gn m_is m_annz m_nnz m_row m_index m_value].
    do 6 (split; [auto|]). split. { rewrite existsb_app. cbn [existsb]. rewrite HR. apply orb_true_r. }
    exists nnz', rows'. split; [auto|]. split; [auto|].
    intros a b w Hia Hjb. rewrite hist_snoc. cbn [hist_step]. fold i' j'.
    destruct (Z.eqb_spec i' a) as [<-|Ne]; cbn [andb].
    - rewrite HS2. destruct (Z.eqb_spec j' b) as [<-|Ne].
      + assert (EO : option_map snd (find (fun p => fst p =? j') (rows i')) = hist o ops i' j').
        { destruct Hrep as (_ & _ & _ & _ & Hrep). destruct (Hrep i' ltac:(lia)) as (_ & _ & _ & _ & _ & ND & _).
          destruct (hist o ops i' j') as [u|] eqn:EH.
          - apply (Hh i' j') in EH; auto. rewrite (find_nodup _ _ u); auto.
          - rewrite find_none_keys; auto. intros [p q] Hp Ep. cbn [fst] in Ep. subst p. apply (Hh i' j') in Hp; auto. congruence. }
        rewrite EO. fold (newval flag v (hist o ops i' j')). split.
        * intros [[? _]|[_ ->]]; [contradiction|]. reflexivity.
        * intros E. right. split; [auto|]. inversion E. reflexivity.
      + rewrite <- (Hh i' b w) by auto. split; [intros [[_ ?]|[? _]]; [auto|congruence]|]. auto.
    - rewrite HS1 by auto. rewrite (Hh a b w) by auto. tauto. }
  destruct Hst as [((H1 & H2 & H3 & H4 & H5 & H6 & H7) & H8)|(H1 & H2 & H3 & H4 & H5 & H6 & H7 & nnz & rows & H8 & H9 & H10)].
  - rewrite H1. change (MATRIX_NULL =? MATRIX_NULL) with true. cbv iota.
    set (w := match m_nnz A with Some w => w | None => map (fun _ => m_annz A) (zrange 0 n) end).
    assert (Hw : zlen w = n /\ forall r, 0 <= r < n -> 0 <= znth 0 w r).
    { unfold w. destruct (m_nnz A); [exact H7|]. split; [rewrite zlen_map, zlen_zrange; lia|].
      intros r Hr. rewrite znth_map with (d := 0) by (rewrite zlen_zrange; lia). lia. }
    rewrite bind_assoc. apply wp_bind. apply malloc_rco_wp; [lia|apply Hw|apply Hw|].
    intros row index value Hrep. cbn [bind]. apply (COMMON _ _ _ _ (fun _ => [])); auto.
    intros a b u Hia Hjb. rewrite (hist_none o n) by auto. split; [intros []|discriminate].
  - rewrite H1. change (MATRIX_ASSEMBLING =? MATRIX_NULL) with false. cbv iota. cbn [bind]. rewrite H8.
    apply (COMMON _ _ _ _ rows); auto.
Qed.

Lemma set_values_wp ji jv n o t : forall ops done c A (Q : list Z * mat T -> Prop),
  st n o t done A ->
  (forall A', st n o t (done ++ ops) A' -> Q (map (op_code o n) ops, A')) ->
  wp (set_values ji jv ops c A) Q.
Proof.
  induction ops as [|[[[f i] j] v] ops IH]; intros done c A Q HS HQ; cbn [set_values].
  - apply wp_ok. apply HQ. rewrite app_nil_r. auto.
  - apply wp_bind. apply (set_value_step _ _ n o t done); auto. intros A1 H1. apply wp_bind.
    apply (IH (done ++ [(f, i, j, v)])); auto. intros A' HA'. apply wp_ok. rewrite <- app_assoc in HA'. cbn [app] in HA'.
    apply (HQ A' HA').
Qed.

(** *** assembling the result of a history *)
Lemma is_history_perm o n ops E E' : Permutation E E' -> is_history o n ops E -> is_history o n ops E'.
Proof.
  intros HP (H1 & H2). split.
  - unfold no_dup_pos in *. apply (Permutation_NoDup (Permutation_map fst HP)); auto.
  - intros. rewrite <- H2. split; apply Permutation_in; auto. symmetry; auto.
Qed.

Lemma rep_history o n ops nnz row index value rows :
  rep n nnz row index value rows -> rows_hist o n ops rows -> is_history o n ops (all_items n rows).
Proof.
  intros HR Hh. split.
  - apply all_items_nodup. intros r Hr. destruct HR as (_ & _ & _ & _ & HR). apply HR; auto.
  - intros i j v. rewrite in_all_items. split.
    + intros (Hi & Hin). destruct HR as (_ & _ & _ & _ & HR). assert (Hj : 0 <= j < n) by (destruct (HR i Hi) as (_ & _ & _ & _ & _ & _ & H7); apply (H7 _ Hin)).
      split; [auto|]. split; [auto|]. apply Hh; auto.
    + intros (Hi & Hj & E). split; [auto|]. apply Hh; auto.
Qed.

Lemma assemble_history jp ji jw jv n o t ops A :
  st n o t ops A -> existsb (op_in_range o n) ops = true ->
  (t = MATRIX_CSR -> exists B A', assemble jp ji jw jv A = Ok (SUCCESS, A') /\ m_csr A' = Some B /\ m_status A' = MATRIX_CSR /\
      csr_ok B /\ csr_exact B /\ csr_n B = n /\ csr_np B = n /\ is_history o n ops (csr_entries B)) /\
  (t = MATRIX_CSC -> exists B A', assemble jp ji jw jv A = Ok (SUCCESS, A') /\ m_csc A' = Some B /\ m_status A' = MATRIX_CSC /\
      csc_ok B /\ csc_n B = n /\ csc_np B = n /\ is_history o n ops (csc_entries B)).
Proof.
  intros (Ho & Ht & Hst) Hex. destruct Hst as [(_ & E)|(H1 & H2 & H3 & H4 & H5 & H6 & H7 & nnz & rows & H8 & H9 & H10)]; [congruence|].
  unfold assemble. rewrite H1, Ht, H2. change (MATRIX_ASSEMBLING =? MATRIX_DECIDING_SIZE) with false. change (MATRIX_ASSEMBLING =? MATRIX_NULL) with false.
  change (MATRIX_ASSEMBLING =? MATRIX_ASSEMBLING) with true. cbn [andb]. cbv iota.
  pose proof (rep_history _ _ _ _ _ _ _ _ H9 H10) as HH.
  split; intros ->.
  - change (MATRIX_CSR =? MATRIX_CSR) with true. cbv iota.
    destruct (wp_inv _ _ (rco2csr_wp jp ji jv n nnz _ _ _ rows (fun B => csr_ok B /\ csr_exact B /\ csr_n B = n /\ csr_np B = n /\ csr_entries B = all_items n rows) ltac:(lia) H9 ltac:(intros; cbv beta; auto 10))) as (B & EB & B1 & B2 & B3 & B4 & B5).
    rewrite EB. cbn [bind]. eexists B, _. split; [reflexivity|]. cbn [m_csr m_status]. rewrite B5. auto 10.
  - change (MATRIX_CSC =? MATRIX_CSR) with false. change (MATRIX_CSC =? MATRIX_CSC) with true. cbv iota.
    destruct (wp_inv _ _ (rco2csc_wp jp ji jw jv n nnz _ _ _ rows (fun B => csc_ok B /\ csc_n B = n /\ csc_np B = n /\ Permutation (csc_entries B) (all_items n rows)) ltac:(lia) H9 ltac:(intros; cbv beta; auto 10))) as (B & EB & B1 & B2 & B3 & B4).
    rewrite EB. cbn [bind]. eexists B, _. split; [reflexivity|]. cbn [m_csc m_status].
    do 5 (split; [auto|]). eapply is_history_perm; [symmetry; exact B4|auto].
Qed.

Lemma assemble_empty jp ji jw jv n o t ops A :
  st n o t ops A -> existsb (op_in_range o n) ops = false -> assemble jp ji jw jv A = Ok (ILL_ARG, A).
Proof.
  intros (Ho & Ht & Hst) Hex. destruct Hst as [((H1 & H2 & _ & _ & H3 & _) & _)|(_ & _ & _ & _ & _ & _ & E & _)]; [|congruence].
  unfold assemble. rewrite H1, H2. change (MATRIX_NULL =? MATRIX_DECIDING_SIZE) with false. change (MATRIX_NULL =? MATRIX_NULL) with true. cbv iota.
  destruct (Z.ltb_spec 0 n); [|lia]. reflexivity.
Qed.

Lemma ready_st n (A : mat T) : ready n A -> st n (m_origin A) (m_type A) [] A.
Proof. intros H. split; [auto|]. split; [auto|]. left. auto. Qed.

(** the program: a sequence of lis_matrix_set_value calls, then lis_matrix_assemble *)
Theorem history_wp ji jv jp ji' jw jv' n (A : mat T) ops c :
  ready n A ->
  exists A1, set_values ji jv ops c A = Ok (map (op_code (m_origin A) n) ops, A1) /\
   (existsb (op_in_range (m_origin A) n) ops = false -> assemble jp ji' jw jv' A1 = Ok (ILL_ARG, A1)) /\
   (existsb (op_in_range (m_origin A) n) ops = true ->
     (m_type A = MATRIX_CSR -> exists B A', assemble jp ji' jw jv' A1 = Ok (SUCCESS, A') /\ m_csr A' = Some B /\ m_status A' = MATRIX_CSR /\
       csr_ok B /\ csr_exact B /\ csr_n B = n /\ csr_np B = n /\ is_history (m_origin A) n ops (csr_entries B)) /\
     (m_type A = MATRIX_CSC -> exists B A', assemble jp ji' jw jv' A1 = Ok (SUCCESS, A') /\ m_csc A' = Some B /\ m_status A' = MATRIX_CSC /\
       csc_ok B /\ csc_n B = n /\ csc_np B = n /\ is_history (m_origin A) n ops (csc_entries B))).
Proof.
  intros HR.
  destruct (wp_inv _ _ (set_values_wp ji jv n _ _ ops [] c A (fun r => fst r = map (op_code (m_origin A) n) ops /\ st n (m_origin A) (m_type A) ops (snd r)) (ready_st n A HR) ltac:(intros; split; auto)))
    as ([codes A1] & E & E1 & HS). cbn [fst snd] in *. subst codes. exists A1. split; [exact E|]. split.
  - intros Hex. eapply assemble_empty; eauto.
  - intros Hex. eapply assemble_history; eauto.
Qed.

(** two histories that write the same last values give the same matrix, whatever the memory allocator returned *)
Lemma ready_create n : 0 < n -> ready n (snd (set_size (matrix_create (T:=T)) 0 n)).
Proof.
  intros Hn. unfold set_size. cbn [matrix_create m_type m_origin m_annz m_nnz m_row m_index m_value m_csr m_csc].
  destruct (Z.ltb_spec 0 n); [|lia]. destruct (Z.ltb_spec n 0); [lia|]. cbn [andb orb]. change (0 <? 0) with false. cbn [orb].
  destruct (Z.eqb_spec n 0); [lia|]. cbn [andb snd]. change (0 =? 0) with true. cbv iota. unfold ready. cbn. repeat split; auto; lia.
Qed.
Lemma ready_malloc n k (A : mat T) : ready n A -> 0 < k -> ready n (snd (matrix_malloc A k)).
Proof.
  intros (H1 & H2 & H3 & H4 & H5 & H6 & H7) Hk. unfold matrix_malloc, not_assembled. rewrite H1. cbn [negb orb snd].
  change (MATRIX_NULL =? MATRIX_DECIDING_SIZE) with false. change (MATRIX_NULL =? MATRIX_NULL) with true. cbn [orb negb snd].
  unfold ready. cbn [m_status m_n m_gn m_is m_annz m_nnz]. do 6 (split; [auto|]). rewrite H2. split; [rewrite zlen_map, zlen_zrange; lia|].
  intros r Hr. rewrite znth_map with (d := 0) by (rewrite zlen_zrange; lia). lia.
Qed.
Lemma ready_set_type n t (A : mat T) : ready n A -> 1 <= t <= 11 -> ready n (snd (set_type A t)) /\ m_type (snd (set_type A t)) = t /\ fst (set_type A t) = SUCCESS.
Proof.
  intros H Ht. unfold set_type, not_assembled. destruct H as (H1 & H). rewrite H1.
  change (MATRIX_NULL =? MATRIX_DECIDING_SIZE) with false. change (MATRIX_NULL =? MATRIX_NULL) with true. cbn [orb negb].
  change MATRIX_CSR with 1. change MATRIX_DNS with 11. destruct (Z.ltb_spec t 1); [lia|]. destruct (Z.ltb_spec 11 t); [lia|]. cbn [orb snd fst].
  split; [|auto]. split; [reflexivity|exact H].
Qed.

(** *** refused calls *)
Lemma assembled_refuses (A : mat T) : not_assembled A = false ->
  (forall ji jv flag i j v, set_value ji jv flag i j v A = Ok (ILL_ARG, A)) /\
  (forall t, set_type A t = (ILL_ARG, A)) /\ (forall k, matrix_malloc A k = (ILL_ARG, A)) /\
  (forall w, matrix_malloc_rows A w = Ok (ILL_ARG, A)).
Proof.
  intros H. split; [|split; [|split]]; intros; unfold set_value, set_type, matrix_malloc, matrix_malloc_rows; rewrite H; reflexivity.
Qed.

Lemma index_refused ji jv (flag i j : Z) (v : T) A : 
  not_assembled A = true -> op_in_range (m_origin A) (m_gn A) (flag, i, j, v) = false -> set_value ji jv flag i j v A = Ok (ILL_ARG, A).
Proof.
  intros Hna H. unfold set_value. rewrite Hna. cbn [negb op_in_range] in *.
  set (b := if m_origin A then 1 else 0) in *.
  replace (if m_origin A then i - 1 else i) with (i - b) by (unfold b; destruct (m_origin A); lia).
  replace (if m_origin A then j - 1 else j) with (j - b) by (unfold b; destruct (m_origin A); lia).
  cbv zeta. destruct (Z.ltb_spec (i - b) 0); [reflexivity|]. destruct (Z.ltb_spec (j - b) 0); [reflexivity|]. cbn [orb].
  destruct (Z.leb_spec (m_gn A) (i - b)); [reflexivity|]. destruct (Z.leb_spec (m_gn A) (j - b)); [reflexivity|]. exfalso.
  rewrite !andb_false_iff, !Z.leb_gt, !Z.ltb_ge in H. lia.
Qed.

Lemma set_size_refused (A : mat T) l g : ~ (0 <= l /\ 0 <= g /\ (0 < l \/ 0 < g) /\ (g = 0 \/ l <= g)) -> set_size A l g = (ILL_ARG, A).
Proof.
  intros H. unfold set_size. destruct (Z.ltb_spec 0 g); destruct (Z.ltb_spec g l); cbn [andb]; try reflexivity;
  destruct (Z.ltb_spec l 0); cbn [orb]; try reflexivity; destruct (Z.ltb_spec g 0); try reflexivity;
  destruct (Z.eqb_spec l 0); cbn [andb]; try (exfalso; apply H; lia); destruct (Z.eqb_spec g 0); try reflexivity; exfalso; apply H; lia.
Qed.
End AP.
