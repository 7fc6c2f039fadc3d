(** Reading a Matrix Market file; writing one; round trips. *)
Require Import ZArith List Bool Lia String Ascii Permutation.
From Verif Require Import Base Scalar Spec Items Fmt CscProof Unblk Split Copy SpecCopy Convert SpecConvert ConvertFinal Io SpecIo IoProof IoFinal.
Import ListNotations.
Open Scope Z_scope.

Section S.
Context {T : Type} {S : Scalar T}.
Variable J : Z -> Z -> Z.
Variable JV : Z -> Z -> T.
Variable of_int : Z -> T.
Variable revI : Z -> Z.
Variable revV : T -> T.
Variable me : Z.

Lemma Forall2_imp {A B} (P Q : A -> B -> Prop) l m : (forall a b, P a b -> Q a b) -> Forall2 P l m -> Forall2 Q l m.
Proof. intros H. induction 1; constructor; auto. Qed.
Lemma tsec_sec n l ps : tsec of_int n l ps -> sec of_int revI revV me 0 n l ps.
Proof.
  destruct l, ps; auto. intros [H1 H2]. split; auto. eapply Forall2_imp; [|exact H1]. intros. apply vec_line_reads; auto.
Qed.
Lemma size_ok (cs : list (line T)) n k b x f : Forall comment cs ->
  exists sz, mm_size (cs ++ size_line n k b x :: f) = Ok (sz, f) /\ sz = mkSize n k (flag b) (flag x) 0.
Proof.
  intros H. eexists. split; [|reflexivity]. unfold mm_size, size_line. rewrite skip_ok by (auto; destruct b, x; reflexivity).
  cbn [bind]. destruct b, x; cbn [scan_ints bind flag]; rewrite Z.eqb_refl; reflexivity.
Qed.
Lemma zlen_Forall2 {A B} (P : A -> B -> Prop) l m : Forall2 P l m -> zlen l = zlen m.
Proof. induction 1; [reflexivity|]. rewrite !zlen_cons. lia. Qed.

Theorem input_final (HZ : eqb_zero S) (symm : bool) comments n ms es bl bp xl xp rest (A : mobj T) ty b x :
  0 < n -> Forall comment comments -> Forall2 (mat_line of_int) ms es -> inside n es -> tsec of_int n bl bp -> tsec of_int n xl xp ->
  ob_split A = None -> ob_type A = ty -> 1 <= ty <= 11 ->
  (ty <> 1 -> target_ok ty conv_init n n (by_rows n (file_entries symm es))) ->
  exists A' m b' x', input J JV of_int revI revV me A (Some b) (Some x) (Some (mm_file symm comments n ms bl xl rest)) = Ok (LIS_SUCCESS, A', Some b', Some x') /\
    input_matrix J JV of_int revI revV me A (Some (mm_file symm comments n ms bl xl rest)) = Ok (LIS_SUCCESS, A') /\
    holds A' m /\ amat_ok m /\ amat_type m = ty /\ amat_n m = n /\ amat_np m = n /\ same_entries (amat_entries m) (by_rows n (file_entries symm es)) /\
    (ty = 1 -> amat_entries m = by_rows n (file_entries symm es)) /\ got n bp b b' /\ got n xp x x'.
Proof.
  intros Hn Hc HF Hin Hb Hx HA Hty Htr Htg.
  set (f0 := mm_file symm comments n ms bl xl rest). set (f1 := comments ++ size_line n (zlen ms) bl xl :: ms ++ lines bl ++ lines xl ++ rest).
  destruct (size_ok comments n (zlen ms) bl xl (ms ++ lines bl ++ lines xl ++ rest) Hc) as (sz & Hsz & Esz).
  assert (Hf0 : (' (_, f) <- fgets f0 ;; ' (_, f) <- skip_comments f ;; Ok f) = Ok (ms ++ lines bl ++ lines xl ++ rest)).
  { unfold f0, mm_file, mm_header, fgets. cbn [bind]. unfold size_line. rewrite skip_ok by (auto; destruct bl, xl; reflexivity). reflexivity. }
  destruct (input_csr_gen J JV of_int revI revV me symm n ms es bl bp xl xp rest f0 f1 sz A b x Hn Hsz Hf0) as (A1 & B & b' & x' & E1 & E2 & H1 & H2 & H3 & H4 & H5 & H6 & G1 & G2); subst sz; cbn [sz_nr sz_nnz sz_isb sz_isx sz_isbin]; auto.
  { apply (zlen_Forall2 _ _ _ HF). }
  { eapply Forall2_imp; [|exact HF]. intros. apply mat_line_reads; auto. }
  { apply tsec_sec; auto. } { apply tsec_sec; auto. }
  destruct (input_to_ok J JV HZ ty A1 B (Some b') (Some x') H1 H2 H3 ltac:(lia) Htr ltac:(rewrite H4, H5, H6; auto)) as (A2 & m & F1 & F2 & F3 & F4 & F5 & F6 & F7 & F8).
  destruct (input_to_ok J JV HZ ty A1 B None None H1 H2 H3 ltac:(lia) Htr ltac:(rewrite H4, H5, H6; auto)) as (A2' & m' & F1' & _).
  assert (A2' = A2). { unfold input_mm_to in F1, F1'. destruct (ty =? 1); [congruence|]. destruct (ob_status A1 =? DECIDING_SIZE); [congruence|].
    destruct (convert _ _ _ _ _ _ _) as [[e C]| |]; try discriminate. cbn [bind] in F1, F1'. destruct (e =? LIS_SUCCESS); congruence. }
  subst A2'. exists A2, m, b', x'.
  assert (EB : mm_banner f0 = Ok (0, if symm then 1 else 0, f1)) by (destruct symm; reflexivity).
  assert (EW : first_word f0 = Ok "%%MatrixMarket"%string) by reflexivity.
  split. { unfold input. rewrite EW. cbv iota. change (starts "%%MatrixMarket" "%%MatrixMarket") with true. cbv iota. unfold input_mm. rewrite EB. change (0 =? 0) with true. cbv iota. rewrite E1. cbn [bind]. rewrite Hty. exact F1. }
  split. { unfold input_matrix, input. rewrite EW. cbv iota. change (starts "%%MatrixMarket" "%%MatrixMarket") with true. cbv iota. unfold input_mm. rewrite EB. change (0 =? 0) with true. cbv iota. rewrite E2. cbn [bind]. rewrite Hty, F1'. reflexivity. }
  split; [exact F2|]. split; [exact F3|]. split; [exact F4|]. split; [lia|]. split; [lia|]. rewrite <- H6. split; [exact F7|]. split; [intros E; rewrite (F8 E); reflexivity|]. auto.
Qed.

(** *** by_rows *)
Lemma by_rows_perm n (E : list (entry T)) : (forall e, In e E -> 0 <= erow e < n) -> Permutation (by_rows n E) E.
Proof. intros H. apply (buckets_perm erow n E H). Qed.
Lemma by_rows_csr (A : csr T) : by_rows (csr_n A) (csr_entries A) = csr_entries A.
Proof.
  unfold by_rows. unfold csr_entries at 2. apply flat_map_ext_in. intros r Hr. apply In_zrange in Hr.
  unfold csr_entries. rewrite filter_flat_map. rewrite (flat_map_only _ 0 (csr_n A) r) by
   (auto; intros x Hx Hne; apply filter_none; intros e He; apply in_map_iff in He; destruct He as (k & <- & _); unfold erow; cbn [fst]; apply Z.eqb_neq; auto).
  apply filter_all. intros e He. apply in_map_iff in He. destruct He as (k & <- & _). unfold erow; cbn [fst]. apply Z.eqb_refl.
Qed.

(** *** writing *)
Definition mline (format : Z) (e : entry T) : line T :=
  if format =? FMT_MM then Text [TInt (erow e + 1); TInt (ecol e + 1); TNum (eval e)] else RecM me (erow e + 1) (ecol e + 1) (eval e).
Definition vline (format i : Z) (v : T) : line T := if format =? FMT_MM then Text [TInt (i + 1); TNum v] else RecV me (i + 1) v.
Definition vlines (format : Z) (a : list T) : list (line T) := map (fun i => vline format i (znth s0 a i)) (zrange 0 (zlen a)).
Variable to_int : T -> Z.
Lemma emit_loop (g : Z -> line T) n (body : Z -> list (line T) -> res (list (line T))) f : 0 <= n -> (forall i f, 0 <= i < n -> body i f = Ok (f ++ [g i])) ->
  for_ 0 n body f = Ok (f ++ map g (zrange 0 n)).
Proof.
  intros Hn H.
  assert (W : wp (for_ 0 n body f) (fun r => r = f ++ map g (zrange 0 n))).
  { apply (for_wp' (fun i r => r = f ++ map g (zrange 0 i))); auto.
    - rewrite zrange_empty by lia. cbn. rewrite app_nil_r; auto.
    - intros i r Hi ->. rewrite H by auto. cbn [wp]. rewrite zrange_snoc by lia. rewrite map_app, <- app_assoc. reflexivity. }
  destruct (wp_inv _ _ W) as (r & E & ->). exact E.
Qed.
Lemma csr_emit (A : csr T) format f : csr_ok A ->
  for_ptr (csr_n A) (csr_ptr A) (fun i j f =>
         c <- rd (csr_index A) j ;; v <- rd (csr_value A) j ;;
         let jj := c + 1 in
         Ok (f ++ [if format =? FMT_MM then Text [TInt (i + 1); TInt jj; TNum v] else RecM me (i + 1) jj v])) f = Ok (f ++ map (mline format) (csr_entries A)).
Proof.
  intros (H1 & H2 & H3 & H4 & H5 & H6).
  assert (W : wp (for_ptr (csr_n A) (csr_ptr A) (fun i j f =>
         c <- rd (csr_index A) j ;; v <- rd (csr_value A) j ;;
         let jj := c + 1 in
         Ok (f ++ [if format =? FMT_MM then Text [TInt (i + 1); TInt jj; TNum v] else RecM me (i + 1) jj v])) f) (fun r => r = f ++ map (mline format) (csr_entries A))).
  { rewrite csr_entries_items.
    apply (for_ptr_items (fun d r => r = f ++ map (mline format) d) (ptr_items (csr_n A) (csr_ptr A) (fun i k => (i, znth 0 (csr_index A) k, znth s0 (csr_value A) k)))
       (fun i k => (i, znth 0 (csr_index A) k, znth s0 (csr_value A) k)) _ _ _ []); auto.
    - apply prefix_refl.
    - cbn. rewrite app_nil_r; auto.
    - intros i k s d Hi Hk Hk' _ ->. wrd 0; [lia|]. wrd s0; [lia|]. cbn [wp]. rewrite map_app, <- app_assoc. reflexivity. }
  destruct (wp_inv _ _ W) as (r & E & ->). exact E.
Qed.

(** vectors that print as themselves *)
Definition vsec (format : Z) (v : vobj T) : option (list (line T)) := option_map (vlines format) (vo_val v).
Lemma output_mm_csr_ok (A : csr T) b x format : csr_ok A -> format = FMT_MM \/ format = FMT_MMB -> vec_of b (csr_n A) -> vec_of x (csr_n A) -> (format = FMT_MM -> vo_val x = None) ->
  output_mm_csr to_int me A (Some b) (Some x) format true = Ok (
     mm_header "matrix" "coordinate" "general" ::
     Text (if format =? FMT_MM then (match vsec format b, vsec format x with None, None => [TInt (csr_n A); TInt (csr_n A); TInt (csr_nnz A)] | _, _ => [TInt (csr_n A); TInt (csr_n A); TInt (csr_nnz A); TInt (flag (vsec format b)); TInt (flag (vsec format x))] end)
           else [TInt (csr_n A); TInt (csr_n A); TInt (csr_nnz A); TInt (flag (vsec format b)); TInt (flag (vsec format x)); TInt (me + 1)]) ::
     map (mline format) (csr_entries A) ++ lines (vsec format b) ++ lines (vsec format x)).
Proof.
  intros HA Hf [Hb1 Hb2] [Hx1 Hx2] Hx. unfold output_mm_csr, output_mm_header.
  pose proof HA as ((Hn & _) & _).
  destruct b as [bi bv], x as [xi xv]. cbn [vo_int vo_val] in *. subst bi xi.
  assert (EB : forall f (v : vobj T) a, zlen a = csr_n A -> vo_val v = Some a -> for_ 0 (csr_n A) (fun i f => a <- value (Some v) ;; x <- rd a i ;; Ok (f ++ [RecV me (i + 1) x])) f = Ok (f ++ map (fun i => RecV me (i + 1) (znth s0 a i)) (zrange 0 (csr_n A)))).
  { intros f v a Ha Hv. apply emit_loop; auto. intros i g Hi. destruct v as [vi vv]. cbn in Hv. subst vv. cbn [value bind]. rewrite (rd_ok s0) by lia. reflexivity. }
  assert (ET : forall f a, zlen a = csr_n A -> for_ 0 (csr_n A) (fun i f => isint <- intvalue (Some (mkVo false (Some a))) ;; a <- value (Some (mkVo false (Some a))) ;; v <- rd a i ;; Ok (f ++ [Text [TInt (i + 1); if isint : bool then TInt (to_int v) else TNum v]])) f = Ok (f ++ map (fun i => Text [TInt (i + 1); TNum (znth s0 a i)]) (zrange 0 (csr_n A)))).
  { intros f a Ha. apply emit_loop; auto. intros i g Hi. cbn [value intvalue vo_int bind]. rewrite (rd_ok s0) by lia. reflexivity. }
  unfold vsec. cbn [vo_val].
  destruct Hf as [-> | ->].
  - rewrite (Hx eq_refl) in *. change (FMT_MM =? FMT_MM) with true in *. cbv iota.
    destruct Hb2 as [-> | (a & -> & Ha)]; cbn [is_null bind vo_val negb Z.eqb andb option_map flag lines].
    + rewrite (csr_emit A FMT_MM) by auto. cbn [bind]. unfold output_mm_vec. cbn [is_null bind vo_val]. rewrite !app_nil_r. reflexivity.
    + rewrite (csr_emit A FMT_MM) by auto. cbn [bind]. unfold output_mm_vec. cbn [is_null bind vo_val]. change (FMT_MM =? FMT_MM) with true. cbv iota.
      rewrite ET by auto. cbn [bind]. rewrite app_nil_r. unfold vlines, vline. rewrite Ha. change (FMT_MM =? FMT_MM) with true. cbv iota. reflexivity.
  - change (FMT_MMB =? FMT_MM) with false. cbv iota.
    destruct Hb2 as [-> | (a & -> & Ha)], Hx2 as [-> | (a' & -> & Ha')]; cbn [is_null bind vo_val negb Z.eqb andb option_map flag lines];
      rewrite (csr_emit A FMT_MMB) by auto; cbn [bind]; unfold output_mm_vec; cbn [is_null bind vo_val]; change (FMT_MMB =? FMT_MM) with false; cbv iota.
    + cbn [app]. rewrite app_nil_r. reflexivity.
    + cbn [bind]. rewrite (EB _ _ a') by auto. cbn [app]. unfold vlines, vline. rewrite Ha'. reflexivity.
    + rewrite (EB _ _ a) by auto. cbn [bind]. unfold vlines, vline. rewrite Ha, app_nil_r. reflexivity.
    + rewrite (EB _ _ a) by auto. cbn [bind]. rewrite (EB _ _ a') by auto. unfold vlines, vline. rewrite Ha, Ha', <- !app_assoc. reflexivity.
Qed.
End S.
