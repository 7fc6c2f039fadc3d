(** Reading any text file: lis_input_matrix never leaves its arrays; reading "array" files. *)
Require Import ZArith List Bool Lia String Ascii Permutation.
From Verif Require Import Base Scalar Spec Items Fmt CscProof Unblk Split Copy SpecCopy Convert SpecConvert ConvertFinal Io SpecIo IoProof IoFinal IoFinal2 IoFinal3.
Import ListNotations.
Open Scope Z_scope.

Definition safe {A} (m : res A) (Q : A -> Prop) : Prop := match m with Ok a => Q a | Err _ => True | UB => False end.
Lemma safe_bind {A B} (m : res A) (k : A -> res B) (Q : B -> Prop) : safe m (fun a => safe (k a) Q) -> safe (bind m k) Q.
Proof. destruct m; simpl; auto. Qed.
Lemma safe_mono {A} (m : res A) (P Q : A -> Prop) : safe m P -> (forall a, P a -> Q a) -> safe m Q.
Proof. destruct m; simpl; auto. Qed.
Lemma safe_for {A} (I : Z -> A -> Prop) lo hi (body : Z -> A -> res A) s : lo <= hi -> I lo s ->
  (forall i s, lo <= i < hi -> I i s -> safe (body i s) (I (i + 1))) -> safe (for_ lo hi body s) (I hi).
Proof.
  intros Hle H0 Hs. remember (Z.to_nat (hi - lo)) as k. revert lo s Hle H0 Hs Heqk. induction k as [|k IH]; intros lo s Hle H0 Hs Hk.
  - assert (lo = hi) by lia. subst. rewrite for_empty by lia. exact H0.
  - rewrite for_step by lia. apply safe_bind. eapply safe_mono; [apply Hs; [lia|exact H0]|].
    intros a Ha. apply IH; auto; try lia. intros; apply Hs; auto; lia.
Qed.

Section S.
Context {T : Type} {S : Scalar T}.
Variable J : Z -> Z -> Z.
Variable JV : Z -> Z -> T.
Variable of_int : Z -> T.
Variable revI : Z -> Z.
Variable revV : T -> T.
Variable me : Z.


Lemma scan_denotes l i j (v : T) : scan_iiv of_int l = Some (i, j, v) -> mat_line of_int (Text l) (i, j, v).
Proof.
  unfold scan_iiv. destruct l as [|[?|a|?] [|[?|b|?] [|t r]]]; try discriminate. destruct (num of_int t) eqn:E; try discriminate. intros H. injection H as <- <- <-.
  exists t, r. split; [reflexivity|]. unfold denotes. destruct t; cbn in E; try discriminate; injection E as <-; eauto.
Qed.
Lemma count_safe symm n nnz f : 0 < n -> 0 <= nnz -> Forall is_text f ->
  safe (mm_count of_int revI revV me symm n nnz 0 f) (fun _ => exists ls es rest, f = ls ++ rest /\ zlen es = nnz /\ Forall2 (mat_line of_int) ls es).
Proof.
  intros Hn Hz Hf. unfold mm_count.
  eapply safe_mono; [apply (safe_for (fun i s => let '(g, ptr, work) := s in zlen ptr = n + 1 /\ zlen work = n + 1 /\
     exists ls es, f = ls ++ g /\ zlen es = i /\ Forall2 (mat_line of_int) ls es))|].
  - lia.
  - rewrite !zlen_alloc by lia. do 2 (split; [lia|]). exists [], []. repeat split; auto.
  - intros i [[g ptr] work] Hi (H1 & H2 & ls & es & E1 & E2 & E3). apply safe_bind. unfold next_mat. change (negb (0 =? 0)) with false. cbv iota.
    destruct g as [|L g]; [exact I|].
    assert (HL : is_text L). { rewrite Forall_forall in Hf. apply Hf. rewrite E1. apply in_app_iff. right. left. auto. }
    destruct HL as (l & ->). cbn [fgets bind]. destruct (scan_iiv of_int l) as [[[r c] v]|] eqn:Es; [|exact I]. cbn [safe].
    assert (HI : exists ls0 es0, f = ls0 ++ g /\ zlen es0 = i + 1 /\ Forall2 (mat_line of_int) ls0 es0).
    { exists (ls ++ [Text l]), (es ++ [(r, c, v)]). split; [rewrite <- app_assoc; exact E1|]. split; [rewrite zlen_app; cbn; lia|]. apply Forall2_app; auto. constructor; [|constructor]. apply scan_denotes; auto. }
    apply safe_bind. apply (safe_mono _ (fun w => zlen w = n + 1)).
    { destruct (symm && negb (r =? c)); [|cbn; auto]. destruct ((0 <? c) && (c <=? n)) eqn:Ec; [|cbn; auto]. apply andb_prop in Ec. destruct Ec as [Ec1 Ec2]. apply Z.ltb_lt in Ec1. apply Z.leb_le in Ec2.
      unfold incr. rewrite (rd_ok 0) by lia. cbn [bind]. rewrite wr_ok by lia. cbn. rewrite zlen_zupd. auto. }
    intros w Hw. apply safe_bind. apply (safe_mono _ (fun p => zlen p = n + 1)).
    { destruct ((0 <? r) && (r <=? n)) eqn:Ec; [|cbn; auto]. apply andb_prop in Ec. destruct Ec as [Ec1 Ec2]. apply Z.ltb_lt in Ec1. apply Z.leb_le in Ec2.
      unfold incr. rewrite (rd_ok 0) by lia. cbn [bind]. rewrite wr_ok by lia. cbn. rewrite zlen_zupd. auto. }
    intros p Hp. cbn [safe]. auto.
  - intros [[g ptr] work] (_ & _ & ls & es & E1 & E2 & E3). eauto 10.
Qed.

Lemma read_csr_safe symm sz n f0 f : 0 < n -> sz_nr sz = n -> sz_isbin sz = 0 -> Forall is_text f ->
  (' (_, f) <- fgets f0 ;; ' (_, f) <- skip_comments f ;; Ok f) = Ok f ->
  safe (mm_read_csr J JV of_int revI revV me symm sz f0 f) (fun r => csr_n (fst r) = n /\ csr_np (fst r) = n).
Proof.
  intros Hn Hsz Hb Hf Hf0.
  assert (Hgen : forall sz, sz_nr sz = n -> sz_isbin sz = 0 -> 0 <= sz_nnz sz -> safe (mm_read_csr J JV of_int revI revV me symm sz f0 f) (fun r => csr_n (fst r) = n /\ csr_np (fst r) = n)).
  { clear sz Hsz Hb. intros sz Hsz Hb Hz. pose proof (count_safe symm n (sz_nnz sz) f Hn Hz Hf) as HC.
    destruct (mm_count of_int revI revV me symm n (sz_nnz sz) 0 f) as [a|e|] eqn:EC; [|unfold mm_read_csr; rewrite Hsz, Hb, EC; exact I|destruct HC].
    destruct HC as (ls & es & rest & E1 & E2 & E3). subst f.
    assert (W : wp (mm_read_csr J JV of_int revI revV me symm sz f0 (ls ++ rest)) (fun r => csr_n (fst r) = n /\ csr_np (fst r) = n)).
    { apply (read_csr_wp J JV of_int revI revV me symm n sz ls es rest f0); auto.
      rewrite Hb. eapply Forall2_imp; [|exact E3]. intros. apply mat_line_reads; auto. }
    destruct (wp_inv _ _ W) as (r & E & Q). rewrite E. exact Q. }
  destruct (Z_le_dec 0 (sz_nnz sz)) as [Hz|Hz]; [apply Hgen; auto|].
  specialize (Hgen (mkSize (sz_nr sz) 0 (sz_isb sz) (sz_isx sz) (sz_isbin sz)) Hsz Hb ltac:(cbn; lia)).
  assert (EQ : mm_read_csr J JV of_int revI revV me symm sz f0 f = mm_read_csr J JV of_int revI revV me symm (mkSize (sz_nr sz) 0 (sz_isb sz) (sz_isx sz) (sz_isbin sz)) f0 f).
  { unfold mm_read_csr, mm_count, mm_fill. cbn [sz_nr sz_nnz sz_isbin]. rewrite !(for_empty 0 (sz_nnz sz)) by lia. rewrite !(for_empty 0 0) by lia. cbn [bind].
    destruct (mm_ptr symm (sz_nr sz) _ _) as [[p w]| |]; [|reflexivity|reflexivity]. cbn [bind]. destruct (rd p (sz_nr sz)); [|reflexivity|reflexivity]. cbn [bind].
    destruct (for_ptr _ _ _ _) as [[u z]| |]; [|reflexivity|reflexivity]. cbn [bind]. destruct (fgets f0) as [[l1 f1]| |]; [|reflexivity|reflexivity]. cbn [bind].
    destruct (skip_comments f1) as [[l2 f2]| |]; [|reflexivity|reflexivity]. cbn [bind]. rewrite !for_empty by lia. reflexivity. }
  rewrite EQ. exact Hgen.
Qed.

(** *** "array" files *)
Lemma scan_v_denotes l (v : T) : scan_v of_int l = Some v -> val_line of_int (Text l) v.
Proof.
  unfold scan_v. destruct l as [|t r]; try discriminate. intros E. exists t, r. split; auto. unfold denotes. destruct t; cbn in E; try discriminate; injection E as <-; eauto.
Qed.
Lemma dns_scan_safe n f : 0 <= n -> Forall is_text f ->
  safe (for_ 0 n (fun _ f => ' (_, f) <- next_dns of_int 0 f ;; Ok f) f) (fun _ => exists ls vs rest, f = ls ++ rest /\ zlen vs = n /\ Forall2 (val_line of_int) ls vs).
Proof.
  intros Hn Hf.
  eapply safe_mono; [apply (safe_for (fun i g => exists ls vs, f = ls ++ g /\ zlen vs = i /\ Forall2 (val_line of_int) ls vs)); [lia|exists [], []; auto|]|].
  - intros i g Hi (ls & vs & E1 & E2 & E3). apply safe_bind. unfold next_dns. change (negb (0 =? 0)) with false. cbv iota.
    destruct g as [|L g]; [exact I|]. assert (HL : is_text L). { rewrite Forall_forall in Hf. apply Hf. rewrite E1. apply in_app_iff. right. left. auto. }
    destruct HL as (l & ->). cbn [fgets bind]. destruct (scan_v of_int l) eqn:Es; [|exact I]. cbn [safe]. exists (ls ++ [Text l]), (vs ++ [t]).
    split; [rewrite <- app_assoc; auto|]. split; [rewrite zlen_app; cbn; lia|]. apply Forall2_app; auto. constructor; [apply scan_v_denotes; auto|constructor].
  - intros g (ls & vs & E1 & E2 & E3). eauto 10.
Qed.
Lemma next_dns_ok L v f : val_line of_int L v -> next_dns of_int 0 (L :: f) = Ok (v, f).
Proof. intros (t & r & -> & H). unfold next_dns. cbn [Z.eqb negb fgets bind scan_v]. rewrite (denotes_num of_int t v H). reflexivity. Qed.
Lemma read_dns_ok sz n ls vs rest f0 : 0 < n -> sz_nr sz = n -> sz_isbin sz = 0 -> zlen vs = n * n -> Forall2 (val_line of_int) ls vs ->
  (' (_, f) <- fgets f0 ;; ' (_, f) <- skip_comments f ;; Ok f) = Ok (ls ++ rest) ->
  mm_read_dns JV of_int sz f0 (ls ++ rest) = Ok (mkDns n n vs, rest).
Proof.
  intros Hn Hsz Hb Hl HF Hf0.
  assert (W : wp (mm_read_dns JV of_int sz f0 (ls ++ rest)) (fun r => r = (mkDns n n vs, rest))).
  2: { destruct (wp_inv _ _ W) as (r & E & ->). exact E. }
  unfold mm_read_dns. rewrite Hsz, Hb. change (0 =? 0) with true. rewrite <- Hl. apply wp_bind.
  refine (for_read (fun f => f) (val_line of_int) (fun _ _ => True) rest (fun f => ' (_, f) <- next_dns of_int 0 f ;; Ok f) vs ls [] (ls ++ rest) _ HF eq_refl I _ _ 0).
  { intros d v L f s HL Hs _ _. subst s. rewrite (next_dns_ok L v) by auto. cbn. auto. }
  intros _ _ _. apply wp_bind.
  apply (for_wp' (fun _ v => zlen v = zlen vs)); [pose proof (zlen_nonneg vs); lia|rewrite zlen_alloc; pose proof (zlen_nonneg vs); lia|intros i v Hi Hv; rewrite wr_ok by lia; cbn; rewrite zlen_zupd; auto|].
  intros value Hv. destruct (fgets f0) as [[l1 f1]| |]; try discriminate Hf0. cbn [bind] in Hf0 |- *.
  destruct (skip_comments f1) as [[l2 f2]| |]; try discriminate Hf0. cbn [bind] in Hf0 |- *. injection Hf0 as ->.
  apply wp_bind.
  pose proof (zlen_nonneg vs).
  apply (for_wp' (fun i s => zlen (fst s) = zlen vs /\ (forall k, 0 <= k < i -> znth s0 (fst s) k = znth s0 vs k) /\
     exists l1 l2 v1 v2, ls = l1 ++ l2 /\ vs = v1 ++ v2 /\ zlen v1 = i /\ Forall2 (val_line of_int) l2 v2 /\ snd s = l2 ++ rest)); [lia| | |].
  - cbn [fst snd]. split; [auto|]. split; [intros; lia|]. exists [], ls, [], vs. auto 10.
  - intros i [a g] Hi (P1 & P2 & l1' & l2' & v1 & v2 & E1 & E2 & E3 & E4 & E5). cbn [fst snd] in *. subst g.
    destruct E4 as [|L v l2' v2 HL HF'].
    { rewrite app_nil_r in E2. subst v1. lia. }
    cbn [app]. rewrite (next_dns_ok L v) by auto. cbn [bind]. wwr; [lia|]. cbn [wp fst snd]. split; [rewrite zlen_zupd; auto|]. split.
    { intros k Hk. rewrite znth_zupd by lia. destruct (Z.eqb_spec k i) as [->|]; [|apply P2; lia]. rewrite E2, <- E3. rewrite znth_app by (pose proof (zlen_nonneg v1); lia). destruct (Z.ltb_spec (zlen v1) (zlen v1)); [lia|]. rewrite Z.sub_diag. reflexivity. }
    exists (l1' ++ [L]), l2', (v1 ++ [v]), v2. rewrite <- !app_assoc. split; [exact E1|]. split; [exact E2|]. split; [rewrite zlen_app; cbn; lia|]. auto.
  - intros [a g] (P1 & P2 & l1' & l2' & v1 & v2 & E1 & E2 & E3 & E4 & E5). cbn [fst snd] in *. subst g.
    assert (v2 = []). { assert (L : zlen vs = zlen v1 + zlen v2) by (rewrite E2 at 1; rewrite zlen_app; auto). destruct v2; auto. rewrite zlen_cons in L. pose proof (zlen_nonneg v2). lia. }
    subst v2. inversion E4. subst l2'. cbn [wp app]. f_equal. f_equal. apply (list_ext s0); auto. intros k Hk. apply P2. lia.
Qed.
Lemma read_dns_safe sz n f0 f : 0 < n -> sz_nr sz = n -> sz_isbin sz = 0 -> Forall is_text f ->
  (' (_, f) <- fgets f0 ;; ' (_, f) <- skip_comments f ;; Ok f) = Ok f ->
  safe (mm_read_dns JV of_int sz f0 f) (fun r => exists vs, fst r = mkDns n n vs /\ zlen vs = n * n).
Proof.
  intros Hn Hsz Hb Hf Hf0. pose proof (dns_scan_safe (n * n) f ltac:(nia) Hf) as HC.
  destruct (for_ 0 (n * n) (fun _ f => ' (_, f) <- next_dns of_int 0 f ;; Ok f) f) as [a|e|] eqn:EC; [|unfold mm_read_dns; rewrite Hsz, Hb, EC; exact I|destruct HC].
  destruct HC as (ls & vs & rest & E1 & E2 & E3). subst f. rewrite (read_dns_ok sz n ls vs rest f0) by auto. cbn [safe fst]. eauto.
Qed.

(** *** any text file *)
Lemma skip_text (f : list (line T)) l g : Forall is_text f -> skip_comments f = Ok (l, g) -> Forall is_text g.
Proof.
  induction 1 as [|L f (k & ->) Hf IH]; cbn [skip_comments]; [discriminate|]. destruct (is_comment k); [exact IH|]. intros E. injection E as _ <-. exact Hf.
Qed.
Lemma skip_safe (f : list (line T)) : Forall is_text f -> skip_comments f <> UB.
Proof. induction 1 as [|L f (k & ->) Hf IH]; cbn [skip_comments]; [discriminate|]. destruct (is_comment k); [exact IH|discriminate]. Qed.
Lemma skip_inv (f : list (line T)) : Forall is_text f -> forall l g, skip_comments f = Ok (l, g) -> exists cs, f = cs ++ Text l :: g /\ Forall comment cs /\ ~ comment (T:=T) (Text l).
Proof.
  induction 1 as [|L f (k & ->) Hf IH]; intros l g; cbn [skip_comments]; [discriminate|]. destruct (is_comment k) eqn:E.
  - intros Hk. destruct (IH l g Hk) as (cs & -> & H1 & H2). exists (Text k :: cs). split; [reflexivity|]. split; [|auto]. constructor; auto.
    unfold is_comment in E. destruct k as [|[[|c s]|z|v] r]; try discriminate. apply Ascii.eqb_eq in E. subst c. exists s, r. reflexivity.
  - intros Hk. injection Hk as <- <-. exists []. split; [reflexivity|]. split; [constructor|]. intros (s & r & Er). injection Er as ->. cbn in E. discriminate.
Qed.
Lemma leading_scan (l : list (tok T)) : In (leading_ints l) [2; 3; 5] -> In (zlen (scan_ints 6 l)) [2; 3; 5].
Proof.
  assert (Hp : forall l : list (tok T), 0 <= leading_ints l) by (induction l0 as [|[ | | ] l0 IH]; cbn [leading_ints]; lia).
  assert (Hg : forall (k : nat) (l : list (tok T)), zlen (scan_ints k l) = Z.min (Z.of_nat k) (leading_ints l)).
  { induction k as [|k IH]; intros m; [destruct m as [|[ | | ] m]; cbn [scan_ints]; change (zlen []) with 0; specialize (Hp m) || idtac; cbn [leading_ints] in *; lia|].
    destruct m as [|[ | | ] m]; cbn [scan_ints leading_ints]; try (change (zlen []) with 0; lia). rewrite zlen_cons, IH. lia. }
  intros H. rewrite Hg. cbn [In] in *. intuition lia.
Qed.
Lemma size_safe (f : list (line T)) : Forall is_text f -> (forall l g, skip_comments f = Ok (l, g) -> In (zlen (scan_ints 6 l)) [2; 3; 5]) ->
  match mm_size f with
  | UB => False | Err _ => True
  | Ok (sz, g) => sz_isbin sz = 0 /\ Forall is_text g /\ exists l, skip_comments f = Ok (l, g)
  end.
Proof.
  intros Hf Hsz. unfold mm_size. pose proof (skip_safe f Hf). destruct (skip_comments f) as [[l g]| |] eqn:E; [|exact I|congruence]. cbn [bind].
  specialize (Hsz l g eq_refl). pose proof (skip_text f l g Hf E).
  destruct (scan_ints 6 l) as [|a [|b [|c [|d [|e [|x [|y q]]]]]]]; try (exfalso; cbn in Hsz; intuition discriminate); cbn [bind]; try (destruct (negb (a =? b)); cbn; eauto).
  all: exfalso; rewrite !zlen_cons in Hsz; pose proof (zlen_nonneg q); cbn [In] in Hsz; intuition lia.
Qed.

(** lis_input_matrix of any text file into a fresh CSR matrix *)
Theorem any_text_file (HZ : eqb_zero S) (A : mobj T) banner f : ob_status A = DECIDING_SIZE -> ob_split A = None -> ob_type A = 1 ->
  5 <= zlen banner -> Forall is_text f ->
  (forall cs l g, f = cs ++ Text l :: g -> Forall comment cs -> ~ comment (T:=T) (Text l) -> In (leading_ints l) [2; 3; 5]) ->
  exists err A', input_matrix J JV of_int revI revV me A (Some (Text banner :: f)) = Ok (err, A').
Proof.
  intros Hst HS HT Hb Hf Hsz0.
  assert (Hsz : forall l g, skip_comments f = Ok (l, g) -> In (zlen (scan_ints 6 l)) [2; 3; 5]).
  { intros l g E. destruct (skip_inv f Hf l g E) as (cs & E1 & E2 & E3). apply leading_scan. eapply Hsz0; eauto. }
  assert (G : exists r, input J JV of_int revI revV me A None None (Some (Text banner :: f)) = Ok r); [|destruct G as ([[[e A'] b] x] & E); exists e, A'; unfold input_matrix; rewrite E; reflexivity].
  destruct banner as [|t1 [|t2 [|t3 [|t4 [|t5 br]]]]]; try (exfalso; cbv in Hb; apply Hb; reflexivity).
  unfold input. cbn [first_word fgets bind]. destruct (starts "%%MatrixMarket" (word t1)); [|eauto].
  set (F0 := Text (t1 :: t2 :: t3 :: t4 :: t5 :: br) :: f).
  pose proof (size_safe f Hf Hsz) as HSZ.
  assert (Hcsr : forall st, exists o, input_mm_csr J JV of_int revI revV me A None None st F0 f = Ok o).
  { intros st. unfold input_mm_csr. destruct (mm_size f) as [[sz g]| |]; [|eauto|contradiction]. destruct HSZ as (H1 & H2 & l & H3).
    unfold obj_size. destruct (Z.leb_spec (sz_nr sz) 0); cbn [negb Z.eqb LIS_SUCCESS LIS_ERR_ILL_ARG]; [eauto|].
    assert (R : safe (mm_read_csr J JV of_int revI revV me (st =? 1) sz F0 g) (fun r => csr_n (fst r) = sz_nr sz /\ csr_np (fst r) = sz_nr sz)).
    { apply read_csr_safe; auto. unfold F0. cbn [fgets bind]. rewrite H3. reflexivity. }
    destruct (mm_read_csr J JV of_int revI revV me (st =? 1) sz F0 g) as [[B h]| |]; [|eauto|contradiction].
    destruct (store (MCsr B) _) as [err A1]. destruct (negb (err =? LIS_SUCCESS)); eauto. }
  assert (Hdns : exists o, (o <- input_mm_dns JV of_int revI revV me A None None F0 f ;; input_mm_to J JV 1 11 o) = Ok o).
  { unfold input_mm_dns. destruct (mm_size f) as [[sz g]| |]; [|cbn [bind input_mm_to]; change (1 =? 11) with false; cbv iota; rewrite Hst; cbn; eauto|contradiction]. destruct HSZ as (H1 & H2 & l & H3).
    unfold obj_size. destruct (Z.leb_spec (sz_nr sz) 0) as [Hle|Hgt]; cbn [negb Z.eqb LIS_SUCCESS LIS_ERR_ILL_ARG]; [cbn [bind input_mm_to]; change (1 =? 11) with false; cbv iota; rewrite Hst; cbn; eauto|].
    set (A1 := mkObj MNULL (ob_type A) (sz_nr sz) (sz_nr sz) (ob_mat A) (ob_split A)).
    assert (R : safe (mm_read_dns JV of_int sz F0 g) (fun r => exists vs, fst r = mkDns (sz_nr sz) (sz_nr sz) vs /\ zlen vs = sz_nr sz * sz_nr sz)).
    { apply read_dns_safe; auto. unfold F0. cbn [fgets bind]. rewrite H3. reflexivity. }
    destruct (mm_read_dns JV of_int sz F0 g) as [[B h]|e|]; [| |contradiction].
    - destruct R as (vs & EB & Hl). cbn [fst] in EB. subst B.
      assert (HO : amat_ok (MDns (mkDns (sz_nr sz) (sz_nr sz) vs))) by (cbn; unfold dns_ok; cbn; lia).
      destruct (store_ok (MDns (mkDns (sz_nr sz) (sz_nr sz) vs)) A1 HO Hgt eq_refl HS eq_refl eq_refl) as (A2 & E & HH). rewrite E. change (negb (LIS_SUCCESS =? LIS_SUCCESS)) with false. cbv iota. cbn [bind]. unfold input_mm_to. change (1 =? 11) with false. cbv iota.
      destruct (ob_status A2 =? DECIDING_SIZE); [eauto|].
      destruct (convert_final J JV HZ false false conv_init A2 (mkObj MNULL 1 (ob_n A2) (ob_np A2) None None) _ 1 HH HO Hgt eq_refl eq_refl eq_refl eq_refl eq_refl ltac:(lia)) as (B2 & m & E1 & _).
      + intros _. split; [exact I|]. unfold target_ok. repeat split; intros; cbn [In] in *; intuition lia.
      + intros _ K. discriminate K.
      + rewrite E1. cbn [bind]. eauto.
    - cbn [bind input_mm_to]. change (1 =? 11) with false. cbv iota. change (ob_status A1 =? DECIDING_SIZE) with false. cbv iota.
      unfold convert. change (ob_status A1 <=? 0) with true. replace (0 <? ob_n A1) with true by (symmetry; apply Z.ltb_lt; exact Hgt). cbn [andb bind]. eauto. }
  unfold input_mm, mm_banner. unfold F0 at 1. cbn [fgets bind five_words].
  destruct (_ || _); [eauto|]. destruct (_ && _); [eauto|]. destruct (negb (starts "real" _)); [eauto|]. rewrite HT. fold F0.
  destruct (starts "general" _); [|destruct (starts "symmetric" _); [|eauto]]; (destruct (starts "coordinate" _); [change (0 =? 0) with true|change (1 =? 0) with false]; cbv iota; [|exact Hdns];
    match goal with |- context [input_mm_csr _ _ _ _ _ _ _ _ _ ?st] => destruct (Hcsr st) as ([[[e A'] b] x] & E) end; rewrite E; cbn [bind input_mm_to]; change (1 =? 1) with true; eauto).
Qed.

(** an "array" file of n*n numbers, by columns, into a matrix of any type *)
Theorem array_final (HZ : eqb_zero S) comments n ls vs rest (A : mobj T) ty b x :
  0 < n -> Forall comment comments -> Forall2 (val_line of_int) ls vs -> zlen vs = n * n -> ob_split A = None -> ob_type A = ty -> 1 <= ty <= 11 ->
  let E := dns_entries (mkDns n n vs) in
  (ty <> 11 -> target_ok ty conv_init n n (stored (MDns (mkDns n n vs)))) ->
  exists A' m, input J JV of_int revI revV me A b x (Some (array_file comments n ls rest)) = Ok (LIS_SUCCESS, A', b, x) /\
    holds A' m /\ amat_ok m /\ amat_type m = ty /\ amat_n m = n /\ amat_np m = n /\ same_entries (amat_entries m) E.
Proof.
  intros Hn Hc HF Hl HS Hty Htr E Htg. set (F0 := array_file comments n ls rest). set (f := comments ++ Text [TInt n; TInt n] :: ls ++ rest).
  assert (Hsk : skip_comments f = Ok ([TInt n; TInt n], ls ++ rest)) by (apply skip_ok; auto).
  assert (Hsz : mm_size f = Ok (mkSize n (n * n) 0 0 0, ls ++ rest)). { unfold mm_size. rewrite Hsk. cbn [bind scan_ints]. rewrite Z.eqb_refl. reflexivity. }
  assert (HO : amat_ok (MDns (mkDns n n vs))) by (cbn; unfold dns_ok; cbn; lia).
  set (A1 := mkObj MNULL (ob_type A) n n (ob_mat A) (ob_split A)).
  destruct (store_ok (MDns (mkDns n n vs)) A1 HO Hn eq_refl HS eq_refl eq_refl) as (A2 & E2 & HH).
  assert (Hd : input_mm_dns JV of_int revI revV me A b x F0 f = Ok (LIS_SUCCESS, A2, b, x)).
  { unfold input_mm_dns. rewrite Hsz. unfold obj_size. cbn [sz_nr sz_isb sz_isx sz_isbin]. destruct (Z.leb_spec n 0); [lia|]. cbn [negb Z.eqb LIS_SUCCESS].
    rewrite (read_dns_ok (mkSize n (n * n) 0 0 0) n ls vs rest F0); auto; [|unfold F0, array_file, mm_header; cbn [fgets bind]; fold f; rewrite Hsk; reflexivity].
    fold A1. rewrite E2. cbn [negb Z.eqb LIS_SUCCESS]. destruct b as [b|], x as [x|]; reflexivity. }
  assert (HI : input J JV of_int revI revV me A b x (Some F0) = input_mm_to J JV ty 11 (LIS_SUCCESS, A2, b, x)).
  { unfold input. change (first_word F0) with (@Ok string "%%MatrixMarket"%string). cbv iota. change (starts "%%MatrixMarket" "%%MatrixMarket") with true. cbv iota.
    unfold input_mm. change (mm_banner F0) with (Ok (1, 0, f)). change (1 =? 0) with false. cbv iota. rewrite Hd, Hty. reflexivity. }
  destruct (Z.eq_dec ty 11) as [->|Hne].
  - exists A2, (MDns (mkDns n n vs)). split; [exact HI|]. split; [exact HH|]. split; [exact HO|]. do 3 (split; [reflexivity|]). apply Permutation_refl.
  - pose proof HH as (P1 & P2 & P3 & P4 & P5 & P6).
    destruct (convert_final J JV HZ false false conv_init A2 (mkObj MNULL ty (ob_n A2) (ob_np A2) None None) _ ty HH HO Hn eq_refl eq_refl eq_refl eq_refl eq_refl Htr) as (B2 & m & F1 & F2 & F3 & F4 & F5 & F6 & F7).
    + intros _. split; [exact I|]. apply Htg; auto.
    + intros _ K. discriminate K.
    + exists B2, m. split; [|auto 10]. rewrite HI. unfold input_mm_to. destruct (Z.eqb_spec ty 11); [contradiction|]. rewrite P4. change (amat_type (MDns (mkDns n n vs)) =? DECIDING_SIZE) with false. cbv iota.
      rewrite F1. cbn [bind]. reflexivity.
Qed.

(** *** the LIS vector format *)
Theorem lis_vector_first_only (to_int : T -> Z) (v v0 : vobj T) a0 a : vo_val v = Some (a0 :: a) ->
  exists f, output_vector to_int v FMT_LIS true = Ok (LIS_SUCCESS, Some f) /\
  input_vector JV of_int revI revV me v0 (Some f) = Ok (LIS_SUCCESS, mkVo (vo_int v0) (Some (printed of_int to_int v a0 :: map (fun _ => s0) a))).
Proof.
  intros Ha. unfold output_vector, vec_n. rewrite Ha. change (FMT_LIS =? FMT_PLAIN) with false. change (FMT_LIS =? FMT_MM) with false. change (FMT_LIS =? FMT_LIS) with true. cbn [orb negb].
  set (tk := fun x : T => if vo_int v then TInt (to_int x) else TNum x).
  set (H := [@Text T [TWord "#LIS"; TWord "A"; TWord "vec"]; Text [TInt 1]; Text [TWord "#"; TInt 0; TInt (zlen (a0 :: a))]]).
  set (al := a0 :: a) in *. pose proof (zlen_nonneg a).
  assert (Hlen : zlen al = 1 + zlen a) by (unfold al; rewrite zlen_cons; auto).
  assert (W : wp (output_vector_lis to_int v (zlen al)) (fun f => exists g, f = H ++ g /\ tokens g = map (fun i => tk (znth s0 al i)) (zrange 0 (zlen al)))).
  { unfold output_vector_lis. fold H. apply wp_bind.
    apply (for_wp' (fun i s => exists g, fst s = H ++ g /\ tokens g ++ snd s = map (fun k => tk (znth s0 al k)) (zrange 0 i) /\ (i mod 3 = 0 -> snd s = []))).
    - lia.
    - exists []. cbn [fst snd]. rewrite app_nil_r. auto.
    - intros i [f cur] Hi (g & P1 & P2 & P3). cbn [fst snd] in *. rewrite (print_ok to_int v al) by (auto; lia). cbn [bind wp]. fold (tk (znth s0 al i)).
      rewrite zrange_snoc by lia. rewrite map_app. cbn [map].
      destruct (Z.eqb_spec ((i + 1) mod 3) 0) as [Hm|Hm].
      + exists (g ++ [Text (cur ++ [tk (znth s0 al i)])]). cbn [fst snd]. split; [rewrite P1, app_assoc; reflexivity|]. split; [|auto].
        unfold tokens. rewrite flat_map_app. cbn [flat_map]. rewrite !app_nil_r, app_assoc. unfold tokens in P2. rewrite P2. reflexivity.
      + exists g. cbn [fst snd]. split; [exact P1|]. split; [rewrite app_assoc, P2; reflexivity|]. intros; contradiction.
    - intros [f cur] (g & P1 & P2 & P3). cbn [fst snd wp] in *. destruct (Z.eqb_spec (zlen al mod 3) 0) as [Hm|Hm]; cbn [negb].
      + exists g. split; [exact P1|]. rewrite <- P2, P3, app_nil_r by auto. reflexivity.
      + exists (g ++ [Text cur]). split; [rewrite P1, app_assoc; reflexivity|]. unfold tokens. rewrite flat_map_app. cbn [flat_map]. rewrite app_nil_r. exact P2. }
  destruct (wp_inv _ _ W) as (f & E & g & -> & Eg). rewrite E. cbn [bind]. eexists. split; [reflexivity|].
  unfold input_vector. change (first_word (H ++ g)) with (@Ok string "#LIS"%string). cbv iota. change (starts "%%MatrixMarket" "#LIS") with false. change (starts "#LIS" "#LIS") with true. cbv iota.
  unfold input_vector_lis, H. cbn [fgets app word]. change (negb (starts "#LIS" "#LIS")) with false. change (starts "B" "A" || starts "L" "A") with false. change (starts "vec" "vec") with true. cbv iota.
  unfold input_vector_lis_ascii. cbn [fgets bind scan_ints]. change (negb (1 =? 1)) with false. cbv iota. cbn [lis_find]. change (Ascii.eqb "#" "#") with true. change (0 =? 0) with true. cbv iota. cbn [bind].
  destruct (Z.ltb_spec (zlen al) 0); [lia|]. unfold fscan_scalar. destruct (Z.leb_spec (zlen al) 0); [lia|]. rewrite Eg. rewrite zrange_cons by lia. cbn [map].
  assert (Hnum : num of_int (tk (znth s0 al 0)) = Some (printed of_int to_int v a0)) by (unfold tk, printed; change (znth s0 al 0) with a0; destruct (vo_int v); reflexivity). rewrite Hnum.
  rewrite wr_ok by (rewrite zlen_alloc; lia). cbn [bind]. change (1 =? LIS_SUCCESS) with false. cbv iota. f_equal. f_equal. f_equal. f_equal.
  apply (list_ext s0).
  - rewrite zlen_zupd, zlen_alloc, zlen_cons, zlen_map by lia. lia.
  - rewrite zlen_zupd, zlen_alloc by lia. intros i Hi. rewrite znth_zupd by (rewrite zlen_alloc; lia). destruct (Z.eqb_spec i 0) as [->|Hi0]; [reflexivity|]. rewrite znth_alloc by lia.
    change (printed of_int to_int v a0 :: map (fun _ => s0) a) with ([printed of_int to_int v a0] ++ map (fun _ => s0) a). rewrite znth_app by lia. change (zlen [printed of_int to_int v a0]) with 1. destruct (Z.ltb_spec i 1); [lia|].
    rewrite (znth_map _ s0) by lia. reflexivity.
Qed.

(** *** symmetric files *)
Lemma sym_perm (es : list (entry T)) : Permutation (map (fun e => (ecol e, erow e, eval e)) (file_entries true es)) (file_entries true es).
Proof.
  unfold file_entries. induction es as [|[[i j] v] es IH]; [constructor|]. cbn [flat_map]. rewrite map_app. apply Permutation_app; [|exact IH].
  unfold elements. cbn [andb]. destruct (Z.eqb_spec i j) as [->|Hne]; cbn [negb app map erow ecol eval fst snd]; [apply Permutation_refl|apply perm_swap].
Qed.
Lemma coef_swap (E : list (entry T)) i j : coef (map (fun e => (ecol e, erow e, eval e)) E) j i = coef E i j.
Proof.
  unfold coef. induction E as [|[[a b] v] E IH]; [reflexivity|].
  change (map (fun e => (ecol e, erow e, eval e)) ((a, b, v) :: E)) with ((b, a, v) :: map (fun e : entry T => (ecol e, erow e, eval e)) E).
  cbn [filter]. assert (HA : at_ij (T:=T) j i (b, a, v) = at_ij i j (a, b, v)) by (unfold at_ij, erow, ecol; cbn [fst snd]; apply andb_comm). rewrite HA.
  destruct (at_ij i j (a, b, v)); [|exact IH]. cbn [map ssum]. f_equal. exact IH.
Qed.
Theorem symmetric_coef (RT : is_ring S) (HZ : eqb_ok S) (es F : list (entry T)) n i j : inside n es -> same_entries F (by_rows n (file_entries true es)) -> coef F i j = coef F j i.
Proof.
  intros Hin HF. rewrite !(coef_same RT HZ F _ _ _ HF).
  assert (P : Permutation (by_rows n (file_entries true es)) (file_entries true es)).
  { apply by_rows_perm. intros e He. pose proof (elements_shape true n es Hin) as Hs. apply Hs in He. tauto. }
  rewrite !(coef_perm RT _ _ _ _ P). rewrite <- (coef_swap _ i j). apply (coef_perm RT). apply sym_perm.
Qed.

(** *** vectors of integers *)
Lemma emit_prefix (to_int : T -> Z) v n (g : list (line T)) : forall k lo g0, k = Z.to_nat (n - lo) -> (exists c, g0 = g ++ c) ->
  match for_ lo n (fun i f => t <- print_elem to_int v i ;; Ok (f ++ [Text [TInt (i + 0 + 1); t]])) g0 with Ok h => exists c, h = g ++ c | _ => True end.
Proof.
  induction k as [|k IH]; intros lo g0 Hk Hg; [rewrite for_empty by lia; exact Hg|]. rewrite for_step by lia. destruct (print_elem to_int v lo); cbn [bind]; auto.
  apply IH; [lia|]. destruct Hg as (c & ->). rewrite <- app_assoc. eauto.
Qed.
Theorem mm_integer_rejected (to_int : T -> Z) (v v0 : vobj T) f : vo_int v = true ->
  output_vector to_int v FMT_MM true = Ok (LIS_SUCCESS, Some f) ->
  input_vector JV of_int revI revV me v0 (Some f) = Ok (LIS_ERR_FILE_IO, v0).
Proof.
  intros Hi E. unfold output_vector in E. change (FMT_MM =? FMT_PLAIN) with false in E. change (FMT_MM =? FMT_MM) with true in E. cbn [orb negb] in E.
  unfold output_vector_mm in E. rewrite Hi in E.
  pose proof (emit_prefix to_int v (vec_n v) [mm_banner_line "vector" "integer"; Text [TInt (vec_n v)]] _ 0 _ eq_refl (ex_intro _ [] (eq_sym (app_nil_r _)))) as H.
  destruct (for_ 0 (vec_n v) _ _) as [h| |] eqn:E1; try discriminate. cbn [bind] in E. injection E as <-. destruct H as (k & ->). reflexivity.
Qed.
End S.
