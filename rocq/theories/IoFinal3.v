(** Round trips through a file, and files that are not well formed. *)
Require Import ZArith List Bool Lia String Ascii Permutation.
From Verif Require Import Base Scalar Spec Items Fmt CscProof Unblk Split Copy SpecCopy Convert SpecConvert ConvertFinal Io SpecIo IoProof IoFinal IoFinal2.
Import ListNotations.
Open Scope Z_scope.

Section S.
Context {T : Type} {S : Scalar T}.
Variable J : Z -> Z -> Z.
Variable JV : Z -> Z -> T.
Variable of_int : Z -> T.
Variable to_int : T -> Z.
Variable revI : Z -> Z.
Variable revV : T -> T.
Hypothesis HI : forall z, revI (revI z) = z.
Hypothesis HV : forall v, revV (revV v) = v.
(** byte order of the machine that writes and of the one that reads *)
Variable wr_ rd_ : Z.
Hypothesis Hw : wr_ = 0 \/ wr_ = 1.
Hypothesis Hr : rd_ = 0 \/ rd_ = 1.

Definition pairs (a : list T) : list (Z * T) := map (fun i => (i + 1, znth s0 a i)) (zrange 0 (zlen a)).
Lemma pairs_once a : all_once (zlen a) (pairs a).
Proof.
  pose proof (zlen_nonneg a). split; [|split].
  - unfold pairs. rewrite zlen_map, zlen_zrange; lia.
  - unfold pairs. rewrite map_map. cbn [fst]. apply FinFun.Injective_map_NoDup; [intros x y E; lia|apply NoDup_zrange].
  - intros i v H1. unfold pairs in H1. apply in_map_iff in H1. destruct H1 as (k & E & Hk). apply In_zrange in Hk. injection E as <- <-. lia.
Qed.
Lemma pairs_vector a a' : is_vector (zlen a) (pairs a) a' -> a' = a.
Proof.
  intros (H1 & H2). apply (list_ext s0); auto. intros k Hk. rewrite H1 in Hk.
  specialize (H2 (k + 1) (znth s0 a k)). replace (k + 1 - 1) with k in H2 by lia. apply H2. unfold pairs. apply in_map_iff. exists k. split; auto. apply In_zrange. auto.
Qed.
Definition binof (format : Z) : Z := if format =? FMT_MM then 0 else wr_ + 1.
Lemma vlines_read format a : format = FMT_MM \/ format = FMT_MMB -> Forall2 (vreads of_int revI revV rd_ (binof format)) (vlines wr_ format a) (pairs a).
Proof.
  intros Hf. unfold vlines, pairs. induction (zrange 0 (zlen a)) as [|i l IH]; cbn [map]; constructor; auto.
  destruct Hf as [-> | ->]; unfold vline, binof.
  - change (FMT_MM =? FMT_MM) with true. cbv iota. apply vec_line_reads. exists (TNum (znth s0 a i)), []. split; [reflexivity|left; reflexivity].
  - change (FMT_MMB =? FMT_MM) with false. cbv iota. apply recv_reads; auto.
Qed.
Lemma mlines_read format (E : list (entry T)) : format = FMT_MM \/ format = FMT_MMB ->
  Forall2 (mreads of_int revI revV rd_ (binof format)) (map (mline wr_ format) E) (map (fun e => (erow e + 1, ecol e + 1, eval e)) E).
Proof.
  intros Hf. induction E as [|e E IH]; cbn [map]; constructor; auto.
  destruct Hf as [-> | ->]; unfold mline, binof.
  - change (FMT_MM =? FMT_MM) with true. cbv iota. apply mat_line_reads. exists (TNum (eval e)), []. split; [reflexivity|left; reflexivity].
  - change (FMT_MMB =? FMT_MM) with false. cbv iota. apply rec_reads; auto.
Qed.
Lemma general_entries (E : list (entry T)) : file_entries false (map (fun e => (erow e + 1, ecol e + 1, eval e)) E) = E.
Proof.
  unfold file_entries. induction E as [|[[i j] v] E IH]; [reflexivity|]. cbn [map flat_map]. rewrite IH. unfold elements, erow, ecol, eval. cbn.
  rewrite !Z.add_simpl_r. reflexivity.
Qed.


Lemma read_back (HZ : eqb_zero S) (C : csr T) b x format (A2 : mobj T) ty b2 x2 : csr_ok C -> csr_np C = csr_n C -> 0 < csr_n C ->
  format = FMT_MM \/ format = FMT_MMB -> vec_of b (csr_n C) -> vec_of x (csr_n C) -> (format = FMT_MM -> vo_val x = None) ->
  ob_split A2 = None -> ob_type A2 = ty -> 1 <= ty <= 11 -> (ty <> 1 -> target_ok ty conv_init (csr_n C) (csr_n C) (csr_entries C)) ->
  exists f, output_mm_csr to_int wr_ C (Some b) (Some x) format true = Ok f /\
  exists A' m b' x', input J JV of_int revI revV rd_ A2 (Some b2) (Some x2) (Some f) = Ok (LIS_SUCCESS, A', Some b', Some x') /\
    holds A' m /\ amat_ok m /\ amat_type m = ty /\ amat_n m = csr_n C /\ amat_np m = csr_n C /\ same_entries (amat_entries m) (csr_entries C) /\
    (ty = 1 -> amat_entries m = csr_entries C) /\ same_vec b b2 b' /\ same_vec x x2 x'.
Proof.
  intros HC Hsq Hn Hf Hb Hx Hx0 HA Hty Htr Htg. eexists. split; [apply output_mm_csr_ok; auto|].
  set (es := map (fun e : entry T => (erow e + 1, ecol e + 1, eval e)) (csr_entries C)).
  set (ls := map (mline wr_ format) (csr_entries C)).
  set (bl := vsec wr_ format b). set (xl := vsec wr_ format x).
  set (szl := if format =? FMT_MM then _ else _).
  assert (Hlen : zlen es = csr_nnz C) by (unfold es; rewrite zlen_map; apply csr_entries_len; auto).
  assert (Hsz : mm_size (Text szl :: ls ++ lines bl ++ lines xl) = Ok (mkSize (csr_n C) (csr_nnz C) (flag bl) (flag xl) (binof format), ls ++ lines bl ++ lines xl)
     /\ skip_comments (Text szl :: ls ++ lines bl ++ lines xl) = Ok (szl, ls ++ lines bl ++ lines xl)).
  { unfold szl, binof, mm_size. destruct Hf as [-> | ->].
    - change (FMT_MM =? FMT_MM) with true. cbv iota. destruct bl, xl; cbn [skip_comments is_comment bind scan_ints flag]; rewrite Z.eqb_refl; split; reflexivity.
    - change (FMT_MMB =? FMT_MM) with false. cbv iota. cbn [skip_comments is_comment bind scan_ints flag]; rewrite Z.eqb_refl; split; reflexivity. }
  destruct Hsz as [Hsz Hsk].
  assert (Hin : inside (csr_n C) es).
  { intros e He. unfold es in He. apply in_map_iff in He. destruct He as (e' & <- & He'). apply (csr_in_shape C HC) in He'. unfold erow, ecol in *. cbn. lia. }
  assert (Hsec : forall v, vec_of v (csr_n C) -> sec of_int revI revV rd_ (binof format) (csr_n C) (vsec wr_ format v) (option_map pairs (vo_val v))).
  { intros v [_ [E | (a & E & Ha)]]; unfold vsec; rewrite E; cbn; auto. rewrite <- Ha. split; [apply vlines_read; auto|apply pairs_once]. }
  set (f0 := mm_header "matrix" "coordinate" "general" :: Text szl :: ls ++ lines bl ++ lines xl).
  destruct (input_csr_gen J JV of_int revI revV rd_ false (csr_n C) ls es bl (option_map pairs (vo_val b)) xl (option_map pairs (vo_val x)) [] f0 (Text szl :: ls ++ lines bl ++ lines xl)
     (mkSize (csr_n C) (csr_nnz C) (flag bl) (flag xl) (binof format)) A2 b2 x2 Hn) as (A1 & B & b' & x' & E1 & _ & H1 & H2 & H3 & H4 & H5 & H6 & G1 & G2);
    rewrite ?app_nil_r; cbn [sz_nr sz_nnz sz_isb sz_isx sz_isbin]; auto.
  { unfold f0, fgets, mm_header. cbn [bind]. rewrite Hsk. reflexivity. }
  { unfold ls, es. apply mlines_read; auto. }
  { apply Hsec; auto. } { apply Hsec; auto. }
  assert (EE : csr_entries B = csr_entries C). { rewrite H6. unfold es. rewrite general_entries. apply by_rows_csr. }
  destruct (input_to_ok J JV HZ ty A1 B (Some b') (Some x') H1 H2 H3 ltac:(lia) Htr ltac:(rewrite H4, H5, EE; auto)) as (A3 & m & F1 & F2 & F3 & F4 & F5 & F6 & F7 & F8).
  exists A3, m, b', x'.
  assert (Hg : forall v v0 v', vec_of v (csr_n C) -> got (csr_n C) (option_map pairs (vo_val v)) v0 v' -> same_vec v v0 v').
  { intros v v0 v' [_ [E | (a & E & Ha)]]; rewrite E; unfold same_vec; rewrite E; cbn [option_map got]; auto.
    intros (a' & -> & Hv). rewrite <- Ha in Hv. apply pairs_vector in Hv. subst; auto. }
  split. { unfold input. change (first_word f0) with (@Ok string "%%MatrixMarket"%string). cbv iota. change (starts "%%MatrixMarket" "%%MatrixMarket") with true. cbv iota.
    unfold input_mm. change (mm_banner f0) with (Ok (0, 0, Text szl :: ls ++ lines bl ++ lines xl)). cbv iota beta. change (0 =? 0) with true. cbv iota.
    change (if false then 1 else 0) with 0 in E1. rewrite E1. cbn [bind]. rewrite Hty. exact F1. }
  rewrite <- EE. split; [exact F2|]. split; [exact F3|]. split; [exact F4|]. split; [lia|]. split; [lia|]. split; [exact F7|].
  split; [intros E; rewrite (F8 E); reflexivity|]. split; apply Hg; auto.
Qed.

Theorem round_trip_from_csr (HZ : eqb_zero S) (A : mobj T) (C : csr T) b x format (A2 : mobj T) ty b2 x2 : holds A (MCsr C) -> csr_ok C -> csr_np C = csr_n C -> 0 < csr_n C ->
  format = FMT_MM \/ format = FMT_MMB -> vec_of b (csr_n C) -> vec_of x (csr_n C) -> (format = FMT_MM -> vo_val x = None) ->
  ob_split A2 = None -> ob_type A2 = ty -> 1 <= ty <= 11 -> (ty <> 1 -> target_ok ty conv_init (csr_n C) (csr_n C) (csr_entries C)) ->
  exists f, output J JV to_int wr_ A (Some b) (Some x) format true = Ok (LIS_SUCCESS, Some f) /\
  exists A' m b' x', input J JV of_int revI revV rd_ A2 (Some b2) (Some x2) (Some f) = Ok (LIS_SUCCESS, A', Some b', Some x') /\
    holds A' m /\ amat_ok m /\ amat_type m = ty /\ amat_n m = csr_n C /\ amat_np m = csr_n C /\ same_entries (amat_entries m) (csr_entries C) /\
    (ty = 1 -> amat_entries m = csr_entries C) /\ same_vec b b2 b' /\ same_vec x x2 x'.
Proof.
  intros (P1 & P2 & P3 & P4 & P5 & P6) HC Hsq Hn Hf Hb Hx Hx0 HA Hty Htr Htg.
  destruct (read_back HZ C b x format A2 ty b2 x2 HC Hsq Hn Hf Hb Hx Hx0 HA Hty Htr Htg) as (f & E & Q). exists f. split; [|exact Q].
  unfold output. rewrite P4. cbn [amat_type]. change (1 =? DECIDING_SIZE) with false. change (1 <=? 0) with false. cbn [orb andb].
  rewrite P3, P2, P1. cbn [amat_type]. change (1 =? 1) with true. cbv iota. rewrite E. cbn [bind]. destruct Hf as [-> | ->]; reflexivity.
Qed.

Theorem round_trip_to_csr (HZ : eqb_zero S) (A : mobj T) (m0 : amat T) b x format (A2 : mobj T) b2 x2 : holds A m0 -> amat_ok m0 -> amat_np m0 = amat_n m0 -> 0 < amat_n m0 ->
  source_ok false m0 ->
  format = FMT_MM \/ format = FMT_MMB -> vec_of b (amat_n m0) -> vec_of x (amat_n m0) -> (format = FMT_MM -> vo_val x = None) ->
  ob_split A2 = None -> ob_type A2 = 1 ->
  exists f, output J JV to_int wr_ A (Some b) (Some x) format true = Ok (LIS_SUCCESS, Some f) /\
  exists A' C b' x', input J JV of_int revI revV rd_ A2 (Some b2) (Some x2) (Some f) = Ok (LIS_SUCCESS, A', Some b', Some x') /\
    holds A' (MCsr C) /\ csr_ok C /\ csr_n C = amat_n m0 /\ csr_np C = amat_n m0 /\ same_entries (csr_entries C) (amat_entries m0) /\
    same_vec b b2 b' /\ same_vec x x2 x'.
Proof.
  intros HA HO Hsq Hn Hso Hf Hb Hx Hx0 HA2 Hty.
  pose proof HA as (P1 & P2 & P3 & P4 & P5 & P6).
  assert (Hred : exists C, csr_ok C /\ csr_n C = amat_n m0 /\ csr_np C = amat_n m0 /\ same_entries (csr_entries C) (amat_entries m0) /\
     forall f, output_mm_csr to_int wr_ C (Some b) (Some x) format true = Ok f -> output J JV to_int wr_ A (Some b) (Some x) format true = Ok (LIS_SUCCESS, Some f)).
  { assert (Hst : (ob_status A =? DECIDING_SIZE) || ((ob_status A <=? 0) && (0 <? ob_n A)) = false) by (rewrite P4; destruct m0; reflexivity).
    assert (Hfm : (format =? FMT_MM) || (format =? FMT_MMB) = true) by (destruct Hf as [-> | ->]; reflexivity).
    destruct (Z.eq_dec (amat_type m0) 1) as [E|E].
    - destruct m0; try discriminate E. rename A0 into C. exists C. cbn [amat_n amat_np amat_ok amat_entries] in *. split; [auto|]. split; [auto|]. split; [auto|]. split; [apply Permutation_refl|].
      intros f Ef. unfold output. rewrite Hst, Hfm, P3, P2, P1. cbn [amat_type]. change (1 =? 1) with true. cbv iota. rewrite Ef. reflexivity.
    - destruct (convert_final J JV HZ false false conv_init A (mkObj MNULL 1 (ob_n A) (ob_np A) None None) m0 1 HA HO Hn eq_refl eq_refl eq_refl eq_refl eq_refl ltac:(lia)) as (B & m & E1 & E2 & E3 & E4 & E5 & E6 & E7).
      + intros _. split; auto. unfold target_ok. repeat split; intros; cbn [In] in *; intuition lia.
      + intros; contradiction.
      + destruct m; try discriminate E4. rename A0 into C. exists C. cbn [amat_n amat_np amat_ok amat_entries] in *. split; [auto|]. split; [auto|]. split; [lia|]. split; [auto|].
        intros f Ef. unfold output. rewrite Hst, Hfm, P3. destruct (Z.eqb_spec (amat_type m0) 1); [contradiction|]. rewrite E1. cbn [bind]. rewrite Z.eqb_refl. cbn [negb].
        destruct E2 as (Q1 & _). rewrite Q1, Ef. reflexivity. }
  destruct Hred as (C & C1 & C2 & C3 & C4 & C5).
  destruct (read_back HZ C b x format A2 1 b2 x2 C1 ltac:(lia) ltac:(lia) Hf ltac:(rewrite C2; auto) ltac:(rewrite C2; auto) Hx0 HA2 Hty ltac:(lia) ltac:(intros; contradiction))
    as (f & E & A' & m & b' & x' & F1 & F2 & F3 & F4 & F5 & F6 & F7 & F8 & F9 & F10).
  exists f. split; [auto|]. destruct m; try discriminate F4. rename A0 into D. exists A', D, b', x'. cbn [amat_n amat_np amat_ok amat_entries] in *. split; [auto|]. split; [auto|]. split; [auto|].
  split; [lia|]. split; [lia|]. split; [|auto]. eapply Permutation_trans; [exact F7|exact C4].
Qed.

(** *** vectors *)
Lemma print_ok (v : vobj T) a i : vo_val v = Some a -> 0 <= i < zlen a -> print_elem to_int v i = Ok (if vo_int v then TInt (to_int (znth s0 a i)) else TNum (znth s0 a i)).
Proof. intros E Hi. unfold print_elem, value. destruct v as [vi vv]. cbn in E. subst vv. cbn [bind]. rewrite (rd_ok s0) by lia. reflexivity. Qed.
Theorem vector_mm_round_trip (v v0 : vobj T) a : vo_int v = false -> vo_val v = Some a ->
  exists f, output_vector to_int v FMT_MM true = Ok (LIS_SUCCESS, Some f) /\
  input_vector JV of_int revI revV rd_ v0 (Some f) = Ok (LIS_SUCCESS, mkVo (vo_int v0) (Some a)).
Proof.
  intros Hi Ha. pose proof (zlen_nonneg a). unfold output_vector, vec_n. rewrite Ha. change (FMT_MM =? FMT_PLAIN) with false. change (FMT_MM =? FMT_MM) with true. cbn [orb negb].
  unfold output_vector_mm. rewrite (emit_loop (fun i => Text [TInt (i + 1); TNum (znth s0 a i)])) by (auto; intros i f Hk; rewrite (print_ok v a) by auto; rewrite Hi, Z.add_0_r; reflexivity).
  cbn [bind]. eexists. split; [reflexivity|]. rewrite Hi.
  set (ls := map (fun i => Text [TInt (i + 1); TNum (znth s0 a i)]) (zrange 0 (zlen a))).
  unfold input_vector. change (first_word _) with (@Ok string "%%MatrixMarket"%string). cbv iota. change (starts "%%MatrixMarket" "%%MatrixMarket") with true. cbv iota.
  unfold input_vector_mm. cbn [fgets app mm_banner_line bind five_words].
  cbv beta iota. cbn [word].
  change (negb (starts "%%MatrixMarket" "%%MatrixMarket") || negb (starts "vector" (lower "vector"))) with false.
  change (negb (starts "coordinate" (lower "coordinate")) && negb (starts "array" (lower "coordinate"))) with false.
  change (negb (starts "real" (lower "real"))) with false. change (negb (starts "general" (lower "general"))) with false. cbv iota.
  cbn [skip_comments is_comment bind scan_ints]. destruct (Z.ltb_spec (zlen a) 0); [lia|].
  destruct (vec_part_ok of_int revI revV rd_ (zlen a) 0 ls (pairs a) [] H (pairs_once a)) as (a' & E & Hv).
  - assert (Hl : ls = vlines wr_ FMT_MM a) by reflexivity. rewrite Hl. clear. unfold vlines, pairs. induction (zrange 0 (zlen a)) as [|i l IH]; cbn [map]; constructor; auto. apply vec_line_reads. exists (TNum (znth s0 a i)), []. split; [reflexivity|left; reflexivity].
  - rewrite app_nil_r in E. rewrite E. apply pairs_vector in Hv. subst a'. reflexivity.
Qed.

Lemma count_nums_all (l : list (tok T)) : (forall t, In t l -> num of_int t <> None) -> count_nums of_int l = zlen l.
Proof.
  induction l as [|t l IH]; intros H; [reflexivity|]. cbn [count_nums]. rewrite zlen_cons. destruct (num of_int t) eqn:E; [|exfalso; apply (H t); [left; auto|auto]].
  rewrite IH; auto. intros; apply H; right; auto.
Qed.
Theorem vector_plain_round_trip (v v0 : vobj T) a : vo_val v = Some a -> 0 < zlen a ->
  exists f, output_vector to_int v FMT_PLAIN true = Ok (LIS_SUCCESS, Some f) /\
  input_vector JV of_int revI revV rd_ v0 (Some f) = Ok (LIS_SUCCESS, mkVo (vo_int v0) (Some (map (printed of_int to_int v) a))).
Proof.
  intros Ha Hpos. unfold output_vector, vec_n. rewrite Ha. change (FMT_PLAIN =? FMT_PLAIN) with true. cbn [orb negb].
  set (tk := fun x : T => if vo_int v then TInt (to_int x) else TNum x).
  unfold output_vector_plain. rewrite (emit_loop (fun i => Text [tk (znth s0 a i)])) by (try lia; intros i f Hk; rewrite (print_ok v a) by auto; reflexivity).
  cbn [bind app]. eexists. split; [reflexivity|].
  assert (Hnum : forall x, num of_int (tk x) = Some (printed of_int to_int v x)) by (intros; unfold tk, printed; destruct (vo_int v); reflexivity).
  assert (El : map (fun i => Text [tk (znth s0 a i)]) (zrange 0 (zlen a)) = map (fun x => Text [tk x]) a).
  { transitivity (map (fun x => Text [tk x]) (map (znth s0 a) (zrange 0 (zlen a)))); [rewrite map_map; auto|]. rewrite <- list_table. reflexivity. }
  rewrite El. destruct a as [|x0 a0] eqn:Ea; [change (zlen []) with 0 in Hpos; lia|]. rewrite <- Ea in *.
  assert (EW : exists w, first_word (map (fun x => Text [tk x]) a) = Ok w /\ starts "%%MatrixMarket" w = false /\ starts "#LIS" w = false).
  { rewrite Ea. cbn [map]. unfold first_word, fgets. cbn [bind]. eexists. split; [reflexivity|]. unfold tk. destruct (vo_int v); split; reflexivity. }
  destruct EW as (w & EW & W1 & W2). unfold input_vector. rewrite EW, W1, W2. unfold input_vector_plain.
  assert (Et : tokens (map (fun x => Text [tk x]) a) = map tk a).
  { clear. unfold tokens. induction a as [|x a IH]; [reflexivity|]. cbn [map flat_map app]. rewrite IH. reflexivity. }
  rewrite Et. rewrite count_nums_all by (intros t Ht; apply in_map_iff in Ht; destruct Ht as (x & <- & _); rewrite Hnum; discriminate). rewrite zlen_map.
  assert (W : wp (for_ 0 (zlen a) (fun i s => let '(a, f) := s in ' (l, f) <- fgets f ;; match scan_v of_int l with Some x => a <- wr a (i - 0) x ;; Ok (a, f) | None => Err LIS_ERR_FILE_IO end)
       (alloc (zlen a) (fun _ => s0), map (fun x => Text [tk x]) a)) (fun s => fst s = map (printed of_int to_int v) a)).
  { apply (for_wp' (fun i s => snd s = map (fun k => Text [tk (znth s0 a k)]) (zrange i (zlen a)) /\ zlen (fst s) = zlen a /\ forall k, 0 <= k < i -> znth s0 (fst s) k = printed of_int to_int v (znth s0 a k))).
    - lia.
    - cbn [fst snd]. split; [symmetry; exact El|]. split; [rewrite zlen_alloc; lia|intros; lia].
    - intros i [c f] Hi (P1 & P2 & P3). cbn [fst snd] in *. subst f. rewrite zrange_cons by lia. cbn [map fgets bind]. cbn [scan_v]. rewrite Hnum. rewrite Z.sub_0_r.
      wwr; [lia|]. cbn [wp fst snd]. split; [reflexivity|]. split; [rewrite zlen_zupd; auto|]. intros k Hk. rewrite znth_zupd by lia. destruct (Z.eqb_spec k i) as [->|]; auto. apply P3; lia.
    - intros [c f] (P1 & P2 & P3). cbn [fst snd] in *. apply (list_ext s0).
      + rewrite zlen_map. auto.
      + intros k Hk. rewrite P3 by lia. rewrite (znth_map _ s0) by lia. reflexivity. }
  destruct (wp_inv _ _ W) as ([c f] & E & Q). cbn [fst] in Q. subst c. rewrite E. reflexivity.
Qed.
End S.
