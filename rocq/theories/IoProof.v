(** Proofs about file input: the two passes of lis_input_mm_csr build the CSR matrix of the
    elements in the file. *)
Require Import ZArith List Bool Lia String Permutation.
From Verif Require Import Base Scalar Spec Items Fmt CscProof Copy SpecCopy Convert Io SpecIo.
Import ListNotations.
Open Scope Z_scope.

Section G.
Context {T : Type}.
Lemma for_read {E St} (get : St -> list (line T)) (P : line T -> E -> Prop) (R : list E -> St -> Prop) rest (body : St -> res St) es :
  forall ls d s (Q : St -> Prop),
  Forall2 P ls es -> get s = ls ++ rest -> R d s ->
  (forall d' e L f s, P L e -> get s = L :: f -> prefix (d' ++ [e]) (d ++ es) -> R d' s -> wp (body s) (fun s' => get s' = f /\ R (d' ++ [e]) s')) ->
  (forall s, get s = rest -> R (d ++ es) s -> Q s) ->
  forall lo, wp (for_ lo (lo + zlen es) (fun _ s => body s) s) Q.
Proof.
  induction es as [|e es IH]; intros ls d s Q HF Hg HR Hb HQ lo.
  - inversion HF; subst. rewrite for_empty by (change (zlen []) with 0; lia). apply HQ; [exact Hg|]. rewrite app_nil_r; auto.
  - inversion HF as [|L ? ls' ? HP HF']; subst.
    rewrite zlen_cons. rewrite for_step by (pose proof (zlen_nonneg es); lia).
    apply wp_bind. eapply wp_mono; [apply (Hb d e L (ls' ++ rest) s HP Hg)|]; auto.
    + exists es. rewrite <- app_assoc. reflexivity.
    + intros s' [Hg' HR']. cbv beta. replace (lo + (1 + zlen es)) with (lo + 1 + zlen es) by lia.
      apply (IH ls' (d ++ [e]) s' Q HF' Hg' HR').
      * intros d' e' L' f' s1 H1 H2 H3 H4. apply (Hb d' e' L' f' s1 H1 H2); auto. rewrite <- app_assoc in H3. exact H3.
      * intros s1 H1 H2. apply HQ; auto. rewrite <- app_assoc in H2. exact H2.
Qed.
End G.

Section S.
Context {T : Type} {S : Scalar T}.
Variable J : Z -> Z -> Z.
Variable JV : Z -> Z -> T.
Variable of_int : Z -> T.
Variable revI : Z -> Z.
Variable revV : T -> T.
Variable me : Z.
Notation next_mat := (next_mat of_int revI revV me).

(** what line L reads as *)
Definition mreads (isbin : Z) (L : line T) (e : entry T) : Prop := forall f, next_mat isbin (L :: f) = Ok (erow e, ecol e, eval e, f).

Variable symm : bool.
Variable n : Z.
Definition mir (e : entry T) : list (entry T) :=
  let '(i, j, v) := e in if symm && negb (i =? j) then (if (0 <? j) && (j <=? n) then [(j - 1, i - 1, v)] else []) else [].
Definition dir (e : entry T) : list (entry T) :=
  let '(i, j, v) := e in if (0 <? i) && (i <=? n) then [(i - 1, j - 1, v)] else [].
Definition both e := mir e ++ dir e.

Lemma mir_row e x : In x (mir e) -> 0 <= erow x < n.
Proof.
  destruct e as [[i j] v]. unfold mir. destruct (symm && negb (i =? j)); [|simpl; tauto].
  destruct (Z.ltb_spec 0 j); cbn [andb]; [|simpl; tauto]. destruct (Z.leb_spec j n); [|simpl; tauto].
  intros [<-|[]]. unfold erow; cbn. lia.
Qed.
Lemma dir_row e x : In x (dir e) -> 0 <= erow x < n.
Proof.
  destruct e as [[i j] v]. unfold dir.
  destruct (Z.ltb_spec 0 i); cbn [andb]; [|simpl; tauto]. destruct (Z.leb_spec i n); [|simpl; tauto].
  intros [<-|[]]. unfold erow; cbn. lia.
Qed.
Lemma both_row es x : In x (flat_map both es) -> 0 <= erow x < n.
Proof. intros H. apply in_flat_map in H. destruct H as (e & _ & H). unfold both in H. apply in_app_iff in H. destruct H; [eapply mir_row|eapply dir_row]; eauto. Qed.
Lemma cnt_both r es : cntk erow r (flat_map both es) = cntk erow r (flat_map mir es) + cntk erow r (flat_map dir es).
Proof.
  induction es as [|e es IH]; [reflexivity|]. cbn [flat_map]. unfold both at 1. rewrite !cntk_app, IH. lia.
Qed.

Lemma count_wp isbin ls es rest (Q : list (line T) * list Z * list Z -> Prop) : 0 < n ->
  Forall2 (mreads isbin) ls es ->
  (forall f ptr work, zlen ptr = n + 1 -> zlen work = n + 1 -> znth 0 ptr 0 = 0 ->
     count_rep erow n 1 (flat_map dir es) ptr -> count_rep erow n 0 (flat_map mir es) work -> Q (f, ptr, work)) ->
  wp (mm_count of_int revI revV me symm n (zlen es) isbin (ls ++ rest)) Q.
Proof.
  intros Hn HF HQ. unfold mm_count.
  refine (for_read (fun s : list (line T) * list Z * list Z => fst (fst s)) (mreads isbin) (fun d s => let '(_, ptr, work) := s in
     zlen ptr = n + 1 /\ zlen work = n + 1 /\ znth 0 ptr 0 = 0 /\ count_rep erow n 1 (flat_map dir d) ptr /\ count_rep erow n 0 (flat_map mir d) work) rest _ es ls [] _ Q HF _ _ _ _ 0); [reflexivity| | |].
  - assert (Hz : forall i, 0 <= i < n + 1 -> znth 0 (alloc (n + 1) (fun _ => 0)) i = 0) by (intros; rewrite znth_alloc by lia; auto).
    rewrite !zlen_alloc by lia. do 2 (split; [lia|]). split; [apply Hz; lia|]. split; intros r Hr; rewrite Hz by lia; reflexivity.
  - intros d [[i j] v] L f [[f' ptr] work] HP Hg _ (H1 & H2 & H3 & H4 & H5). cbn [fst snd] in Hg. subst f'.
    rewrite HP. unfold erow, ecol, eval. cbn [bind fst snd].
    apply wp_bind.
    apply (wp_mono _ (fun work' => zlen work' = n + 1 /\ count_rep erow n 0 (flat_map mir (d ++ [(i, j, v)])) work')).
    { rewrite flat_map_app. cbn [flat_map]. rewrite app_nil_r. unfold mir at 2.
      destruct (symm && negb (i =? j)); [|rewrite app_nil_r; simpl; auto].
      destruct (Z.ltb_spec 0 j); cbn [andb]; [|rewrite app_nil_r; simpl; auto].
      destruct (Z.leb_spec j n); [|rewrite app_nil_r; simpl; auto].
      unfold incr. wrd 0; [lia|]. wwr; [lia|]. rewrite zlen_zupd. split; auto.
      pose proof (count_step erow n 0 (flat_map mir d) work (j - 1, i - 1, v) H5 ltac:(unfold erow; cbn; lia) ltac:(lia) ltac:(unfold erow; cbn; lia)) as HS.
      unfold erow in HS at 2 3. cbn [fst] in HS. replace (j - 0 - 1) with (j - 1 + 0) by lia. exact HS. }
    intros work' [Hw1 Hw2]. apply wp_bind.
    apply (wp_mono _ (fun ptr' => zlen ptr' = n + 1 /\ znth 0 ptr' 0 = 0 /\ count_rep erow n 1 (flat_map dir (d ++ [(i, j, v)])) ptr')).
    { rewrite flat_map_app. cbn [flat_map]. rewrite app_nil_r. unfold dir at 2.
      destruct (Z.ltb_spec 0 i); cbn [andb]; [|rewrite app_nil_r; simpl; auto].
      destruct (Z.leb_spec i n); [|rewrite app_nil_r; simpl; auto].
      unfold incr. wrd 0; [lia|]. wwr; [lia|]. rewrite zlen_zupd. split; auto. split; [rewrite znth_zupd_neq by lia; auto|].
      pose proof (count_step erow n 1 (flat_map dir d) ptr (i - 1, j - 1, v) H4 ltac:(unfold erow; cbn; lia) ltac:(lia) ltac:(unfold erow; cbn; lia)) as HS.
      unfold erow in HS at 2 3. cbn [fst] in HS. replace (i - 0) with (i - 1 + 1) by lia. exact HS. }
    intros ptr' (Hp1 & Hp2 & Hp3). simpl. auto 10.
  - intros [[f ptr] work] _ (H1 & H2 & H3 & H4 & H5). apply HQ; auto.
Qed.

Lemma not_symm_mir es : symm = false -> flat_map mir es = [].
Proof. intros H. induction es as [|[[i j] v] es IH]; [reflexivity|]. cbn [flat_map]. unfold mir at 1. rewrite H, IH. reflexivity. Qed.

Lemma ptr_wp es ptr work (Q : list Z * list Z -> Prop) : 0 < n -> zlen ptr = n + 1 -> zlen work = n + 1 -> znth 0 ptr 0 = 0 ->
  count_rep erow n 1 (flat_map dir es) ptr -> count_rep erow n 0 (flat_map mir es) work ->
  (forall ptr' work', zlen ptr' = n + 1 -> zlen work' = n + 1 -> (forall r, 0 <= r <= n -> znth 0 ptr' r = start erow (flat_map both es) r) ->
      (forall r, 0 <= r < n -> znth 0 work' r = 0) -> Q (ptr', work')) ->
  wp (mm_ptr symm n ptr work) Q.
Proof.
  intros Hn H1 H2 H3 H4 H5 HQ. unfold mm_ptr. wwr; [lia|].
  apply (for_wp' (fun i s => let '(p, w) := s in zlen p = n + 1 /\ zlen w = n + 1 /\
     (forall r, 0 <= r <= i -> znth 0 p r = start erow (flat_map both es) r) /\ (forall r, i < r <= n -> znth 0 p r = znth 0 ptr r) /\
     (forall r, 0 <= r < i -> znth 0 w r = 0) /\ (forall r, i <= r < n -> znth 0 w r = znth 0 work r))).
  - lia.
  - rewrite zlen_zupd. split; [lia|]. split; [lia|]. split.
    { intros r Hr. replace r with 0 by lia. rewrite znth_zupd_eq by lia. reflexivity. }
    split; [intros r Hr; rewrite znth_zupd_neq by lia; auto|]. split; [intros; lia|auto].
  - intros i [p w] Hi (P1 & P2 & P3 & P4 & P5 & P6).
    wrd 0; [lia|]. wrd 0; [lia|]. wrd 0; [lia|]. wwr; [lia|]. wwr; [lia|]. cbn [wp]. rewrite !zlen_zupd.
    split; [lia|]. split; [lia|]. split; [|split; [|split]].
    + intros r Hr. rewrite znth_zupd by lia. destruct (Z.eqb_spec r (i + 1)) as [->|]; [|apply P3; lia].
      rewrite start_succ by lia. rewrite (P3 i) by lia. rewrite (P4 (i + 1)) by lia. rewrite cnt_both.
      rewrite (P6 i) by lia. rewrite <- (H4 i) by lia. pose proof (H5 i ltac:(lia)) as H5'. rewrite Z.add_0_r in H5'. rewrite <- H5'.
      destruct symm eqn:Es; [lia|]. rewrite (not_symm_mir es) in H5 by auto. rewrite (not_symm_mir es Es) in H5'. change (cntk erow i []) with 0 in H5'. lia.
    + intros r Hr. rewrite znth_zupd_neq by lia. apply P4; lia.
    + intros r Hr. rewrite znth_zupd by lia. destruct (Z.eqb_spec r i); auto. apply P5; lia.
    + intros r Hr. rewrite znth_zupd_neq by lia. apply P6; lia.
  - intros [p w] (P1 & P2 & P3 & P4 & P5 & P6). apply HQ; auto.
Qed.

(** value[ptr[r]+work[r]] = ...; index[...] = ...; work[r]++ *)
Definition frep (total D : list (entry T)) (work index : list Z) (value : list T) : Prop :=
  zlen work = n + 1 /\ zlen index = zlen total /\ zlen value = zlen total /\
  (forall r, 0 <= r < n -> znth 0 work r = cntk erow r D) /\
  fill_rep erow ecol eval s0 n total D (map (fun r => start erow total r + cntk erow r D) (zrange 0 n)) index value.
Lemma put_wp total ptr D e work index value (Q : list Z * list Z * list T -> Prop) : 0 < n -> zlen ptr = n + 1 ->
  (forall r, 0 <= r <= n -> znth 0 ptr r = start erow total r) ->
  (forall e, In e total -> 0 <= erow e < n) -> prefix (D ++ [e]) total -> frep total D work index value ->
  (forall work' index' value', frep total (D ++ [e]) work' index' value' -> Q (work', index', value')) ->
  wp (p <- rd ptr (erow e - 0) ;; w <- rd work (erow e - 0) ;; value <- wr value (p + w) (eval e) ;; index <- wr index (p + w) (ecol e) ;;
      work <- incr work (erow e - 0) ;; Ok (work, index, value)) Q.
Proof.
  intros Hn Hpl Hp Ht Hpre (W1 & W2 & W3 & W4 & W5) HQ.
  assert (He : 0 <= erow e < n). { apply Ht. destruct Hpre as [x ->]. rewrite !in_app_iff. left; right; left; auto. }
  rewrite Z.sub_0_r. set (iw := map (fun r => start erow total r + cntk erow r D) (zrange 0 n)) in *.
  assert (Hiw : zlen iw = n) by (unfold iw; rewrite zlen_map, zlen_zrange by lia; lia).
  assert (Hz : forall r, 0 <= r < n -> znth 0 iw r = start erow total r + cntk erow r D).
  { intros r Hr. unfold iw. rewrite (znth_map _ 0) by (rewrite zlen_zrange; lia). rewrite znth_zrange by lia. rewrite Z.add_0_l. auto. }
  destruct (fill_step erow ecol eval s0 n total D iw index value e Ht Hpre ltac:(lia) ltac:(lia) ltac:(lia) W5) as (Hpos & HS).
  rewrite Hz in Hpos, HS by auto.
  wrd 0; [lia|]. wrd 0; [lia|]. rewrite Hp, W4 by lia. wwr; [lia|]. wwr; [lia|]. unfold incr. wbind. wrd 0; [lia|]. wwr; [lia|]. cbn [wp].
  apply HQ. split; [rewrite zlen_zupd; lia|]. split; [rewrite zlen_zupd; lia|]. split; [rewrite zlen_zupd; lia|]. split.
  - intros r Hr. rewrite znth_zupd by lia. rewrite cntk_app, cntk_single. destruct (Z.eqb_spec r (erow e)) as [->|].
    + rewrite Z.eqb_refl, W4 by lia. lia.
    + destruct (Z.eqb_spec (erow e) r); [congruence|]. rewrite W4 by lia. lia.
  - replace (map (fun r => start erow total r + cntk erow r (D ++ [e])) (zrange 0 n)) with (zupd iw (erow e) (start erow total (erow e) + cntk erow (erow e) D + 1)); [exact HS|].
    apply (list_ext 0).
    + rewrite zlen_zupd, Hiw, zlen_map, zlen_zrange; lia.
    + intros k Hk. rewrite zlen_zupd, Hiw in Hk. rewrite znth_zupd by lia. rewrite (znth_map _ 0) by (rewrite zlen_zrange; lia). rewrite znth_zrange by lia. rewrite Z.add_0_l.
      rewrite cntk_app, cntk_single. destruct (Z.eqb_spec k (erow e)) as [->|].
      * rewrite Z.eqb_refl. lia.
      * destruct (Z.eqb_spec (erow e) k); [congruence|]. rewrite Hz by lia. lia.
Qed.

Lemma fill_wp isbin ls es rest ptr work index value (Q : list (line T) * list Z * list Z * list T -> Prop) : 0 < n ->
  Forall2 (mreads isbin) ls es -> zlen ptr = n + 1 ->
  (forall r, 0 <= r <= n -> znth 0 ptr r = start erow (flat_map both es) r) ->
  frep (flat_map both es) [] work index value ->
  (forall work index value, frep (flat_map both es) (flat_map both es) work index value -> Q (rest, work, index, value)) ->
  wp (mm_fill of_int revI revV me symm n (zlen es) isbin (ls ++ rest) ptr work index value) Q.
Proof.
  intros Hn HF Hpl Hp HR0 HQ. unfold mm_fill.
  refine (for_read (fun s : list (line T) * list Z * list Z * list T => fst (fst (fst s))) (mreads isbin) (fun d s => let '(_, work, index, value) := s in
     frep (flat_map both es) (flat_map both d) work index value) rest _ es ls [] _ Q HF _ _ _ _ 0); [reflexivity| | |].
  - exact HR0.
  - intros d [[i j] v] L f [[[f' work'] index'] value'] HP Hg Hpre HR. cbn [fst snd] in Hg. subst f'. cbn [app] in Hpre.
    rewrite HP. unfold erow, ecol, eval. cbn [bind fst snd].
    assert (Hpre' : exists tl, flat_map both es = flat_map both d ++ mir (i, j, v) ++ dir (i, j, v) ++ tl).
    { destruct Hpre as [r Hr]. rewrite Hr, !flat_map_app. cbn [flat_map]. exists (flat_map both r). unfold both at 2. rewrite app_nil_r, <- !app_assoc. auto. }
    destruct Hpre' as (tl & Htl).
    apply wp_bind. apply (wp_mono _ (fun s => let '(work, index, value) := s in frep (flat_map both es) (flat_map both d ++ mir (i, j, v)) work index value)).
    { unfold mir in Htl |- *. replace (i - 1 =? j - 1) with (i =? j) by (destruct (Z.eqb_spec i j), (Z.eqb_spec (i - 1) (j - 1)); lia).
      replace (0 <=? j - 1) with (0 <? j) by (destruct (Z.ltb_spec 0 j), (Z.leb_spec 0 (j - 1)); lia).
      replace (j - 1 <? n) with (j <=? n) by (destruct (Z.leb_spec j n), (Z.ltb_spec (j - 1) n); lia).
      destruct (symm && negb (i =? j)); cbn [andb]; [|rewrite app_nil_r; exact HR].
      destruct ((0 <? j) && (j <=? n)); [|rewrite app_nil_r; exact HR].
      apply (put_wp (flat_map both es) ptr (flat_map both d) (j - 1, i - 1, v)); auto.
      - intros; eapply both_row; eauto.
      - eexists. rewrite Htl. rewrite <- !app_assoc. reflexivity. }
    intros [[w1 i1] v1] HR1. apply wp_bind.
    apply (wp_mono _ (fun s => let '(work, index, value) := s in frep (flat_map both es) ((flat_map both d ++ mir (i, j, v)) ++ dir (i, j, v)) work index value)).
    { unfold dir in Htl |- *.
      replace (0 <=? i - 1) with (0 <? i) by (destruct (Z.ltb_spec 0 i), (Z.leb_spec 0 (i - 1)); lia).
      replace (i - 1 <? n) with (i <=? n) by (destruct (Z.leb_spec i n), (Z.ltb_spec (i - 1) n); lia).
      destruct ((0 <? i) && (i <=? n)); [|rewrite app_nil_r; exact HR1].
      apply (put_wp (flat_map both es) ptr (flat_map both d ++ mir (i, j, v)) (i - 1, j - 1, v)); auto.
      - intros; eapply both_row; eauto.
      - exists tl. rewrite Htl. rewrite <- !app_assoc. reflexivity. }
    intros [[w2 i2] v2] HR2. cbn [wp fst snd]. split; [reflexivity|]. rewrite flat_map_app. cbn [flat_map]. rewrite app_nil_r. unfold both at 3. rewrite app_assoc. exact HR2.
  - intros [[[f work'] index'] value'] Hg HR. cbn [fst] in Hg. subst f. apply HQ. exact HR.
Qed.

(** *** the two passes *)
Definition rows_of (es : list (entry T)) := flat_map (fun r => bucket erow r es) (zrange 0 n).
Lemma zero_wp total ptr index value (Q : list Z * list T -> Prop) : ptr_ok n ptr -> znth 0 ptr n = total -> zlen index = total -> zlen value = total ->
  (forall i v, zlen i = total -> zlen v = total -> Q (i, v)) ->
  wp (for_ptr n ptr (fun _ j s => index <- wr (fst s) j 0 ;; value <- wr (snd s) j s0 ;; Ok (index, value)) (index, value)) Q.
Proof.
  intros Hp Ht Hi Hv HQ.
  apply (for_ptr_pos (fun _ s => zlen (fst s) = total /\ zlen (snd s) = total)); auto.
  - intros i k [a b] H1 H2 H3 [H4 H5]. cbn [fst snd] in *. wwr; [lia|]. wwr; [lia|]. cbn [wp fst snd]. rewrite !zlen_zupd. auto.
  - intros [a b] [H1 H2]. apply HQ; auto.
Qed.
Lemma ptr_ok_of_start (es : list (entry T)) ptr : 0 < n -> zlen ptr = n + 1 -> (forall r, 0 <= r <= n -> znth 0 ptr r = start erow es r) -> ptr_ok n ptr.
Proof. intros Hn Hl H. apply (ptr_ok_start erow es); auto; lia. Qed.

Lemma read_csr_wp sz ls es rest f0 (Q : csr T * list (line T) -> Prop) : 0 < n -> sz_nr sz = n -> sz_nnz sz = zlen es ->
  Forall2 (mreads (sz_isbin sz)) ls es ->
  (' (_, f) <- fgets f0 ;; ' (_, f) <- skip_comments f ;; Ok f) = Ok (ls ++ rest) ->
  (forall ptr index value work, let B := mkCsr n n (zlen (flat_map both es)) ptr index value in
     zlen ptr = n + 1 -> zlen index = zlen (flat_map both es) -> zlen value = zlen (flat_map both es) ->
     (forall r, 0 <= r <= n -> znth 0 ptr r = start erow (flat_map both es) r) ->
     fill_rep erow ecol eval s0 n (flat_map both es) (flat_map both es) work index value -> Q (B, rest)) ->
  wp (mm_read_csr J JV of_int revI revV me symm sz f0 (ls ++ rest)) Q.
Proof.
  intros Hn Hnr Hnnz HF Hf0 HQ. unfold mm_read_csr. rewrite Hnr, Hnnz. apply wp_bind.
  apply (count_wp _ _ es); auto. intros f ptr work H1 H2 H3 H4 H5. apply wp_bind.
  apply (ptr_wp es); auto. clear ptr work H1 H2 H3 H4 H5. intros ptr work H1 H2 H3 H4.
  wrd 0; [lia|]. rewrite H3 by lia.
  assert (Ht : start erow (flat_map both es) n = zlen (flat_map both es)) by (apply start_total; intros; eapply both_row; eauto).
  rewrite Ht. pose proof (zlen_nonneg (flat_map both es)).
  apply wp_bind. apply (zero_wp (zlen (flat_map both es))); [eapply ptr_ok_of_start; eauto|rewrite H3 by lia; auto|rewrite zlen_alloc; lia|rewrite zlen_alloc; lia|].
  intros index value Hi Hv.
  destruct (fgets f0) as [[l1 f1]| |]; try discriminate Hf0. cbn [bind] in Hf0 |- *.
  destruct (skip_comments f1) as [[l2 f2]| |]; try discriminate Hf0. cbn [bind] in Hf0 |- *. injection Hf0 as ->.
  apply wp_bind. apply (fill_wp _ ls es rest); auto.
  - split; [lia|]. split; [auto|]. split; [auto|]. split; [intros r Hr; apply H4; auto|]. apply fill_init.
    intros r Hr. rewrite (znth_map _ 0) by (rewrite zlen_zrange; lia). rewrite znth_zrange by lia. rewrite Z.add_0_l. change (cntk erow r []) with 0. lia.
  - intros work' index' value' (W1 & W2 & W3 & W4 & W5). cbn [wp]. eapply HQ; eauto.
Qed.
End S.
