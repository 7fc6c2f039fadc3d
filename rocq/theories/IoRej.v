(** C46: files that lis_input refuses *)
Require Import ZArith List Bool Lia String Ascii Permutation.
From Verif Require Import Base Scalar Spec Split Copy SpecCopy Convert SpecConvert Io SpecIo IoFinal2 IoFinal3 IoSafe Matvec.
Import ListNotations.
Open Scope Z_scope.
Lemma skip_comments_app : forall (T : Type) (cs : list (line T)) l f, Forall comment cs -> is_comment l = false ->
  skip_comments (cs ++ Text l :: f) = Ok (l, f).
Proof.
  intros T cs l f H Hl. induction H as [|c cs [s [r Hc]] _ IH]; [simpl; rewrite Hl; reflexivity|].
  subst c. cbn [app skip_comments is_comment]. cbn. exact IH.
Qed.
Lemma io_rejects : forall (T : Type) (S : Scalar T) J JV of_int revI revV me (A : mobj T) b x,
  let refused file := input J JV of_int revI revV me A b x file = Ok (LIS_ERR_FILE_IO, A, b, x) in
  refused None /\ refused (Some []) /\
  (forall mtx fmt ty st rest, String.prefix "matrix" (lower mtx) = false \/
        (String.prefix "coordinate" (lower fmt) = false /\ String.prefix "array" (lower fmt) = false) \/
        String.prefix "real" (lower ty) = false \/
        (String.prefix "general" (lower st) = false /\ String.prefix "symmetric" (lower st) = false) ->
     refused (Some (Text [TWord "%%MatrixMarket"; TWord mtx; TWord fmt; TWord ty; TWord st] :: rest))) /\
  (forall fmt st comments nr nc nnz rest, fmt = "coordinate"%string \/ fmt = "array"%string -> st = "general"%string \/ st = "symmetric"%string -> Forall comment comments -> nr <> nc ->
     ob_type A = (if String.eqb fmt "coordinate" then 1 else 11) ->
     refused (Some (mm_header "matrix" fmt st :: comments ++ Text [TInt nr; TInt nc; TInt nnz] :: rest))).
Proof.
  intros T S J JV of_int revI revV me A b x refused. unfold refused. split; [reflexivity|]. split; [reflexivity|]. split.
  - intros mtx fmt ty st rest H. unfold input. cbn [first_word fgets bind word].
    assert (E : starts "%%MatrixMarket" "%%MatrixMarket" = true) by reflexivity. rewrite E. unfold input_mm, mm_banner.
    cbn [fgets bind five_words word]. rewrite E. cbn [negb orb]. unfold starts in *.
    destruct H as [H|[[H1 H2]|[H|[H1 H2]]]].
    + rewrite H. reflexivity.
    + rewrite H1, H2. destruct (String.prefix "matrix" (lower mtx)); reflexivity.
    + rewrite H. destruct (String.prefix "matrix" (lower mtx)), (String.prefix "coordinate" (lower fmt)), (String.prefix "array" (lower fmt)); reflexivity.
    + rewrite H1, H2. destruct (String.prefix "matrix" (lower mtx)), (String.prefix "coordinate" (lower fmt)), (String.prefix "array" (lower fmt)), (String.prefix "real" (lower ty)); reflexivity.
  - intros fmt st cs nr nc nnz rest Hf Hst Hc Hn Hty. unfold input, mm_header. cbn [first_word fgets bind word].
    assert (E : starts "%%MatrixMarket" "%%MatrixMarket" = true) by reflexivity. rewrite E. unfold input_mm.
    assert (Es : mm_size (T:=T) (cs ++ Text [TInt nr; TInt nc; TInt nnz] :: rest) = Err LIS_ERR_FILE_IO).
    { unfold mm_size. rewrite skip_comments_app; [|exact Hc|reflexivity]. cbn [bind scan_ints]. destruct (Z.eqb_spec nr nc); [contradiction|reflexivity]. }
    revert Es. generalize (cs ++ Text [TInt nr; TInt nc; TInt nnz] :: rest). intros F Es.
    destruct Hf as [Hf|Hf]; destruct Hst as [Hs|Hs]; subst fmt st; cbn in Hty; unfold input_mm_csr, input_mm_dns; 
    match goal with |- context [mm_banner ?f] => let t := eval vm_compute in (mm_banner f) in replace (mm_banner f) with t by reflexivity end; cbv iota beta; cbn [Z.eqb];
    rewrite Es; cbn [bind]; unfold input_mm_to; rewrite Hty; reflexivity.
Qed.
