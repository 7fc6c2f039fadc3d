(** C46: reading and writing Matrix Market and vector files.
    Io.v is the model (files are lists of token lines or of binary records); SpecIo.v says what
    a file means: [mm_file], [array_file], [file_entries], [mat_line], [tsec], [got], ...
    J, JV: the unknown contents of malloc'ed arrays; of_int, to_int: the conversions between
    int and double; revI, revV: byte reversal; me, wr_, rd_: a machine's byte order (1 little,
    0 big). *)
Require Import ZArith List Bool Lia String Ascii Permutation.
From Verif Require Import Base Scalar Spec Split Copy SpecCopy Convert SpecConvert Io SpecIo IoFinal2 IoFinal3 IoSafe IoRej Matvec.
Import ListNotations.
Open Scope Z_scope.

(** lis_input and lis_input_matrix of a well-formed coordinate file (general or symmetric, with
    or without sections for b and x) into a matrix of any type: the matrix holds the elements
    of the file and the vectors those of their sections.  For CSR the elements are in row order
    and, within a row, in file order.  [target_ok]: what the type needs (SpecConvert.v). *)
Theorem C46_input : forall (T : Type) (S : Scalar T) J JV of_int revI revV me, eqb_zero S -> forall symm comments n ms es bl bp xl xp rest (A : mobj T) ty b x,
  0 < n -> Forall comment comments -> Forall2 (mat_line of_int) ms es -> inside n es -> tsec of_int n bl bp -> tsec of_int n xl xp ->
  ob_split A = None -> ob_type A = ty -> 1 <= ty <= 11 ->
  (ty <> 1 -> target_ok ty conv_init n n (by_rows n (file_entries symm es))) ->
  exists A' m b' x', input J JV of_int revI revV me A (Some b) (Some x) (Some (mm_file symm comments n ms bl xl rest)) = Ok (LIS_SUCCESS, A', Some b', Some x') /\
    input_matrix J JV of_int revI revV me A (Some (mm_file symm comments n ms bl xl rest)) = Ok (LIS_SUCCESS, A') /\
    holds A' m /\ amat_ok m /\ amat_type m = ty /\ amat_n m = n /\ amat_np m = n /\ same_entries (amat_entries m) (by_rows n (file_entries symm es)) /\
    (ty = 1 -> amat_entries m = by_rows n (file_entries symm es)) /\ got n bp b b' /\ got n xp x x'.
Proof. exact @input_final. Qed.
Print Assumptions C46_input.

(** what was read from a symmetric file is a symmetric matrix (F: its elements) *)
Theorem C46_symmetric : forall (T : Type) (S : Scalar T), is_ring S -> eqb_ok S -> forall (es F : list (entry T)) n i j,
  inside n es -> same_entries F (by_rows n (file_entries true es)) -> coef F i j = coef F j i.
Proof. intros T S. exact (symmetric_coef (fun _ _ => 0) (fun _ _ => s0) (fun _ => s0) (fun z => z) (fun v => v) 0). Qed.
Print Assumptions C46_symmetric.

(** an "array" file: n*n numbers by columns *)
Theorem C46_input_array : forall (T : Type) (S : Scalar T) J JV of_int revI revV me, eqb_zero S -> forall comments n ls vs rest (A : mobj T) ty b x,
  0 < n -> Forall comment comments -> Forall2 (val_line of_int) ls vs -> zlen vs = n * n -> ob_split A = None -> ob_type A = ty -> 1 <= ty <= 11 ->
  (ty <> 11 -> target_ok ty conv_init n n (stored (MDns (mkDns n n vs)))) ->
  exists A' m, input J JV of_int revI revV me A b x (Some (array_file comments n ls rest)) = Ok (LIS_SUCCESS, A', b, x) /\
    holds A' m /\ amat_ok m /\ amat_type m = ty /\ amat_n m = n /\ amat_np m = n /\
    same_entries (amat_entries m) (flat_map (fun j => map (fun i => (i, j, znth s0 vs (j * n + i))) (zrange 0 n)) (zrange 0 n)).
Proof. exact @array_final. Qed.
Print Assumptions C46_input_array.

(** lis_input_matrix of ANY text file, however malformed or truncated, into a fresh CSR matrix
    stays inside its arrays and returns - provided the first line has five words and the size
    line starts with 2, 3 or 5 integers (otherwise uninitialised variables are used, see below) *)
Theorem C46_any_text_file : forall (T : Type) (S : Scalar T) J JV of_int revI revV me, eqb_zero S -> forall (A : mobj T) banner f,
  ob_status A = DECIDING_SIZE -> ob_split A = None -> ob_type A = 1 -> 5 <= zlen banner -> Forall is_text f ->
  (forall cs l g, f = cs ++ Text l :: g -> Forall comment cs -> ~ comment (T:=T) (Text l) -> In (leading_ints l) [2; 3; 5]) ->
  exists err A', input_matrix J JV of_int revI revV me A (Some (Text banner :: f)) = Ok (err, A').
Proof. exact @any_text_file. Qed.
Print Assumptions C46_any_text_file.

(** a file that cannot be opened, is empty, does not say "matrix", "coordinate"/"array", "real",
    "general"/"symmetric" in its first line, or gives a non-square size is refused with
    LIS_ERR_FILE_IO and the matrix and the vectors stay as they were *)
Theorem C46_rejects : forall (T : Type) (S : Scalar T) J JV of_int revI revV me (A : mobj T) b x,
  let refused file := input J JV of_int revI revV me A b x file = Ok (LIS_ERR_FILE_IO, A, b, x) in
  refused None /\ refused (Some []) /\
  (forall mtx fmt ty st rest, String.prefix "matrix" (lower mtx) = false \/
        (String.prefix "coordinate" (lower fmt) = false /\ String.prefix "array" (lower fmt) = false) \/
        String.prefix "real" (lower ty) = false \/
        (String.prefix "general" (lower st) = false /\ String.prefix "symmetric" (lower st) = false) ->
     refused (Some (Text [TWord "%%MatrixMarket"; TWord mtx; TWord fmt; TWord ty; TWord st] :: rest))) /\
  (forall fmt st comments nr nc nnz rest, fmt = "coordinate"%string \/ fmt = "array"%string -> st = "general"%string \/ st = "symmetric"%string -> Forall comment comments -> nr <> nc ->
     ob_type A = (if String.eqb fmt "coordinate" then 1 else 11) ->
     refused (Some (mm_header "matrix" fmt st :: comments ++ Text [TInt nr; TInt nc; TInt nnz] :: rest))).
Proof. exact @io_rejects. Qed.
Print Assumptions C46_rejects.
Example C46_rejects_case : exists A, ob_type A = 1 /\ Forall (comment (T:=Z)) [Text [TWord "%c"%string]] /\
  input (T:=Z) (fun _ _ => 99) (fun _ _ => 99) (fun z => z) Z.opp Z.opp 1 A None None (Some [mm_header "matrix" "coordinate" "general"; Text [TWord "%c"%string]; Text [TInt 2; TInt 3; TInt 0]]) = Ok (LIS_ERR_FILE_IO, A, None, None).
Proof. exists (mkObj DECIDING_SIZE 1 0 0 None None). split; [reflexivity|]. split; [repeat constructor; do 2 eexists; reflexivity|vm_compute; reflexivity]. Qed.

(** lis_output then lis_input: a CSR matrix read back as any type, in text or binary, also on
    a machine of the other byte order.  In text form x must be empty (see C46_x_refuted). *)
Theorem C46_round_trip_from_csr : forall (T : Type) (S : Scalar T) J JV of_int to_int revI revV,
  (forall z, revI (revI z) = z) -> (forall v, revV (revV v) = v) -> forall wr_ rd_, wr_ = 0 \/ wr_ = 1 -> rd_ = 0 \/ rd_ = 1 -> eqb_zero S ->
  forall (A : mobj T) (C : csr T) b x format (A2 : mobj T) ty b2 x2, holds A (MCsr C) -> csr_ok C -> csr_np C = csr_n C -> 0 < csr_n C ->
  format = FMT_MM \/ format = FMT_MMB -> vec_of b (csr_n C) -> vec_of x (csr_n C) -> (format = FMT_MM -> vo_val x = None) ->
  ob_split A2 = None -> ob_type A2 = ty -> 1 <= ty <= 11 -> (ty <> 1 -> target_ok ty conv_init (csr_n C) (csr_n C) (csr_entries C)) ->
  exists f, output J JV to_int wr_ A (Some b) (Some x) format true = Ok (LIS_SUCCESS, Some f) /\
  exists A' m b' x', input J JV of_int revI revV rd_ A2 (Some b2) (Some x2) (Some f) = Ok (LIS_SUCCESS, A', Some b', Some x') /\
    holds A' m /\ amat_ok m /\ amat_type m = ty /\ amat_n m = csr_n C /\ amat_np m = csr_n C /\ same_entries (amat_entries m) (csr_entries C) /\
    (ty = 1 -> amat_entries m = csr_entries C) /\ same_vec b b2 b' /\ same_vec x x2 x'.
Proof. exact @round_trip_from_csr. Qed.
Print Assumptions C46_round_trip_from_csr.

(** a matrix of any type read back as CSR *)
Theorem C46_round_trip_to_csr : forall (T : Type) (S : Scalar T) J JV of_int to_int revI revV,
  (forall z, revI (revI z) = z) -> (forall v, revV (revV v) = v) -> forall wr_ rd_, wr_ = 0 \/ wr_ = 1 -> rd_ = 0 \/ rd_ = 1 -> eqb_zero S ->
  forall (A : mobj T) (m0 : amat T) b x format (A2 : mobj T) b2 x2, holds A m0 -> amat_ok m0 -> amat_np m0 = amat_n m0 -> 0 < amat_n m0 ->
  source_ok false m0 -> format = FMT_MM \/ format = FMT_MMB -> vec_of b (amat_n m0) -> vec_of x (amat_n m0) -> (format = FMT_MM -> vo_val x = None) ->
  ob_split A2 = None -> ob_type A2 = 1 ->
  exists f, output J JV to_int wr_ A (Some b) (Some x) format true = Ok (LIS_SUCCESS, Some f) /\
  exists A' C b' x', input J JV of_int revI revV rd_ A2 (Some b2) (Some x2) (Some f) = Ok (LIS_SUCCESS, A', Some b', Some x') /\
    holds A' (MCsr C) /\ csr_ok C /\ csr_n C = amat_n m0 /\ csr_np C = amat_n m0 /\ same_entries (csr_entries C) (amat_entries m0) /\
    same_vec b b2 b' /\ same_vec x x2 x'.
Proof. exact @round_trip_to_csr. Qed.
Print Assumptions C46_round_trip_to_csr.

(** lis_output_vector then lis_input_vector, Matrix Market and PLAIN *)
Theorem C46_vector_mm : forall (T : Type) (S : Scalar T) JV of_int to_int revI revV me (v v0 : vobj T) a, vo_int v = false -> vo_val v = Some a ->
  exists f, output_vector to_int v FMT_MM true = Ok (LIS_SUCCESS, Some f) /\
  input_vector JV of_int revI revV me v0 (Some f) = Ok (LIS_SUCCESS, mkVo (vo_int v0) (Some a)).
Proof. intros T S JV of_int to_int revI revV me. exact (vector_mm_round_trip JV of_int to_int revI revV me me). Qed.
Print Assumptions C46_vector_mm.
Theorem C46_vector_plain : forall (T : Type) (S : Scalar T) JV of_int to_int revI revV me (v v0 : vobj T) a, vo_val v = Some a -> 0 < zlen a ->
  exists f, output_vector to_int v FMT_PLAIN true = Ok (LIS_SUCCESS, Some f) /\
  input_vector JV of_int revI revV me v0 (Some f) = Ok (LIS_SUCCESS, mkVo (vo_int v0) (Some (map (printed of_int to_int v) a))).
Proof. exact @vector_plain_round_trip. Qed.
Print Assumptions C46_vector_plain.
(** the LIS format does not round-trip: of every vector only the first element comes back, the
    others are 0, and LIS_SUCCESS is returned *)
Theorem C46_vector_lis_refuted : forall (T : Type) (S : Scalar T) JV of_int revI revV me to_int (v v0 : vobj T) a0 a, vo_val v = Some (a0 :: a) ->
  exists f, output_vector to_int v FMT_LIS true = Ok (LIS_SUCCESS, Some f) /\
  input_vector JV of_int revI revV me v0 (Some f) = Ok (LIS_SUCCESS, mkVo (vo_int v0) (Some (printed of_int to_int v a0 :: map (fun _ => s0) a))).
Proof. exact @lis_vector_first_only. Qed.
Print Assumptions C46_vector_lis_refuted.
(** nor does a vector of integers in Matrix Market form: it is written as "integer", which
    lis_input_vector rejects *)
Theorem C46_vector_mm_integer_refuted : forall (T : Type) (S : Scalar T) JV of_int to_int revI revV me (v v0 : vobj T) f, vo_int v = true ->
  output_vector to_int v FMT_MM true = Ok (LIS_SUCCESS, Some f) ->
  input_vector JV of_int revI revV me v0 (Some f) = Ok (LIS_ERR_FILE_IO, v0).
Proof. intros T S JV of_int to_int revI revV me v v0 f. exact (mm_integer_rejected JV of_int revI revV me to_int v v0 f). Qed.
Print Assumptions C46_vector_mm_integer_refuted.

(** *** What is wrong *)
Definition id_ (z : Z) := z.
Definition fresh ty : mobj Z := mkObj DECIDING_SIZE ty 0 0 None None.
Definition none : vobj Z := mkVo false None.
Definition vec a : vobj Z := mkVo false (Some a).
Definition inp := input (T:=Z) (fun _ _ => 99) (fun _ _ => 99) id_ Z.opp Z.opp 1.
Definition inpm := input_matrix (T:=Z) (fun _ _ => 99) (fun _ _ => 99) id_ Z.opp Z.opp 1.
Definition outp := output (T:=Z) (fun _ _ => 99) (fun _ _ => 99) id_ 1.
(** [5 0; 7 3] *)
Definition exB : csr Z := mkCsr 2 2 3 [0;1;3] [0;0;1] [5;7;3].
Definition obB := mkObj 1 1 2 2 (Some (MCsr exB)) None.
Definition W (s : string) : tok Z := TWord s.
Definition hdr : line Z := Text [W "%%MatrixMarket"; W "matrix"; W "coordinate"; W "real"; W "general"].

(** lis_output of A, b = (1,2), x = (3,4) in text form: what is read back as x is b *)
Theorem C46_x_refuted : exists f, outp obB (Some (vec [1;2])) (Some (vec [3;4])) FMT_MM true = Ok (LIS_SUCCESS, Some f) /\
  inp (fresh 1) (Some none) (Some none) (Some f) = Ok (LIS_SUCCESS, obB, Some (vec [1;2]), Some (vec [1;2])).
Proof. eexists. split; vm_compute; reflexivity. Qed.
Print Assumptions C46_x_refuted.
(** with x but without b: a NULL array is read.  The guide allows b or x to be NULL: dereferenced *)
Theorem C46_x_only_refuted : outp obB (Some none) (Some (vec [3;4])) FMT_MM true = UB /\ outp obB (Some (vec [3;4])) None FMT_MM true = UB /\ outp obB None None FMT_MM true = UB.
Proof. repeat split; vm_compute; reflexivity. Qed.
Print Assumptions C46_x_only_refuted.
(** a file that cannot be opened for writing: the NULL stream is written to *)
Theorem C46_open_failure_refuted : outp obB (Some none) (Some none) FMT_MM false = UB /\ output_matrix (T:=Z) (fun _ _ => 99) (fun _ _ => 99) id_ 1 obB FMT_MM false = UB.
Proof. split; vm_compute; reflexivity. Qed.
Print Assumptions C46_open_failure_refuted.
(** any format other than MM and MMB: LIS_SUCCESS, and nothing is written *)
Theorem C46_unknown_format_refuted : forall (T : Type) (S : Scalar T) J JV to_int me (A : mobj T) m b x format can_open, holds A m -> format <> FMT_MM -> format <> FMT_MMB ->
  output J JV to_int me A b x format can_open = Ok (LIS_SUCCESS, None).
Proof.
  intros T S J JV to_int me A m b x format can_open (H1 & H2 & H3 & H4 & _) Hf1 Hf2. unfold output. rewrite H4.
  replace (amat_type m =? DECIDING_SIZE) with false by (destruct m; reflexivity). replace (amat_type m <=? 0) with false by (destruct m; reflexivity). cbn [orb andb].
  apply Z.eqb_neq in Hf1. apply Z.eqb_neq in Hf2. rewrite Hf1, Hf2. reflexivity.
Qed.
Print Assumptions C46_unknown_format_refuted.
(** the vector section is cut short: an array is freed twice (coordinate); LIS_SUCCESS and a
    matrix whose arrays are gone (array) *)
Theorem C46_truncated_vector_refuted :
  inp (fresh 1) (Some none) (Some none) (Some [hdr; Text [TInt 1; TInt 1; TInt 1; TInt 1; TInt 0]; Text [TInt 1; TInt 1; TInt 5]]) = UB /\
  inp (fresh 11) (Some none) (Some none) (Some [Text [W "%%MatrixMarket"; W "matrix"; W "array"; W "real"; W "general"]; Text [TInt 1; TInt 1; TInt 1; TInt 1; TInt 0]; Text [TInt 5]])
    = Ok (LIS_SUCCESS, mkObj 11 11 1 1 None None, Some none, Some none).
Proof. split; vm_compute; reflexivity. Qed.
Print Assumptions C46_truncated_vector_refuted.
(** a column number outside the matrix is accepted; multiplying by that matrix then reads
    outside x *)
Theorem C46_column_refuted : inpm (fresh 1) (Some [hdr; Text [TInt 2; TInt 2; TInt 1]; Text [TInt 1; TInt 9; TInt 5]])
    = Ok (LIS_SUCCESS, mkObj 1 1 2 2 (Some (MCsr (mkCsr 2 2 1 [0;1;1] [8] [5]))) None) /\
  matvec_csr (S:=ScalarZ) (mkCsr 2 2 1 [0;1;1] [8] [5]) [1;1] [0;0] = UB.
Proof. split; vm_compute; reflexivity. Qed.
Print Assumptions C46_column_refuted.
(** four numbers on the size line, or four words on the first line: uninitialised variables *)
Theorem C46_uninitialised_refuted : inpm (fresh 1) (Some [hdr; Text [TInt 1; TInt 1; TInt 1; TInt 0]; Text [TInt 1; TInt 1; TInt 5]]) = UB /\
  inpm (fresh 1) (Some [Text [W "%%MatrixMarket"; W "matrix"; W "coordinate"; W "real"]]) = UB.
Proof. split; vm_compute; reflexivity. Qed.
Print Assumptions C46_uninitialised_refuted.
(** lis_input with only one of b and x: neither is read *)
Theorem C46_only_b_refuted : exists f, outp obB (Some (vec [1;2])) (Some none) FMT_MM true = Ok (LIS_SUCCESS, Some f) /\
  inp (fresh 1) (Some none) None (Some f) = Ok (LIS_SUCCESS, obB, Some none, None).
Proof. eexists. split; vm_compute; reflexivity. Qed.
Print Assumptions C46_only_b_refuted.
(** the values of a binary "array" file are not stored; "symmetric" is ignored in an "array"
    file, so that one that holds the lower triangle only is rejected *)
Theorem C46_array_refuted :
  inpm (fresh 11) (Some [Text [W "%%MatrixMarket"; W "matrix"; W "array"; W "real"; W "general"]; Text [TInt 1; TInt 1; TInt 1; TInt 0; TInt 0; TInt 2]; RecM 1 0 0 5])
    = Ok (LIS_SUCCESS, mkObj 11 11 1 1 (Some (MDns (mkDns 1 1 [0]))) None) /\
  inpm (fresh 11) (Some [Text [W "%%MatrixMarket"; W "matrix"; W "array"; W "real"; W "symmetric"]; Text [TInt 2; TInt 2]; Text [TInt 5]; Text [TInt 6]; Text [TInt 7]])
    = Ok (LIS_ERR_FILE_IO, mkObj MNULL 11 2 2 None None).
Proof. split; vm_compute; reflexivity. Qed.
Print Assumptions C46_array_refuted.

(** *** Concrete cases *)
(** a symmetric file of [5 7; 7 3] with b and x, read as CSR and as DNS *)
Definition ms : list (line Z) := [Text [TInt 2; TInt 1; TInt 7]; Text [TInt 1; TInt 1; TNum 5]; Text [TInt 2; TInt 2; TInt 3]].
Definition es : list (entry Z) := [(2,1,7); (1,1,5); (2,2,3)].
Definition bl : list (line Z) := [Text [TInt 2; TInt 20]; Text [TInt 1; TInt 10]].
Definition cm : list (line Z) := [Text [W "%"; W "a"; W "comment"]].
Definition fileS := mm_file true cm 2 ms (Some bl) (Some bl) [].
Example C46_input_case : Forall comment cm /\ Forall2 (mat_line id_) ms es /\ inside 2 es /\ tsec id_ 2 (Some bl) (Some [(2,20); (1,10)]) /\
  target_ok 11 conv_init 2 2 (by_rows 2 (file_entries true es)) /\
  inp (fresh 1) (Some none) (Some none) (Some fileS) = Ok (LIS_SUCCESS, mkObj 1 1 2 2 (Some (MCsr (mkCsr 2 2 4 [0;2;4] [1;0;0;1] [7;5;7;3]))) None, Some (vec [10;20]), Some (vec [10;20])) /\
  inp (fresh 11) (Some none) (Some none) (Some fileS) = Ok (LIS_SUCCESS, mkObj 11 11 2 2 (Some (MDns (mkDns 2 2 [5;7;7;3]))) None, Some (vec [10;20]), Some (vec [10;20])).
Proof.
  split; [repeat constructor; do 2 eexists; reflexivity|].
  split; [repeat constructor; (do 2 eexists; split; [reflexivity|]); first [left; reflexivity|right; eexists; split; reflexivity]|].
  split; [intros e He; cbn in He; intuition subst; cbv; intuition discriminate|].
  split; [split; [repeat constructor; (do 2 eexists; split; [reflexivity|]); right; eexists; split; reflexivity|]|].
  { split; [reflexivity|]. split; [repeat constructor; cbn; intuition discriminate|]. intros i v Hi. cbn in Hi. intuition congruence || idtac. all: repeat match goal with H : _ \/ _ |- _ => destruct H | H : (_, _) = (_, _) |- _ => injection H as <- <- | H : False |- _ => destruct H end; lia. }
  split.
  { unfold target_ok. split; [intros _; vm_compute; repeat constructor; cbn; intuition discriminate|]. repeat split; intros; cbn [In] in *; intuition lia. }
  split; vm_compute; reflexivity.
Qed.
Example C46_any_case : (* a line that is cut off *)
  5 <= zlen [W "%%MatrixMarket"; W "matrix"; W "coordinate"; W "real"; W "general"] /\ Forall is_text [@Text Z [TInt 2; TInt 2; TInt 2]; Text [TInt 1; TInt 1; TInt 5]; Text [TInt 2; TInt 2]] /\
  (forall cs l g, [@Text Z [TInt 2; TInt 2; TInt 2]; Text [TInt 1; TInt 1; TInt 5]; Text [TInt 2; TInt 2]] = cs ++ Text l :: g -> Forall comment cs -> ~ comment (T:=Z) (Text l) -> In (leading_ints l) [2; 3; 5]) /\
  inpm (fresh 1) (Some [hdr; Text [TInt 2; TInt 2; TInt 2]; Text [TInt 1; TInt 1; TInt 5]; Text [TInt 2; TInt 2]]) = Ok (LIS_ERR_FILE_IO, mkObj MNULL 1 2 2 None None).
Proof.
  split; [cbv; intuition discriminate|]. split; [repeat constructor; eexists; reflexivity|]. split; [|vm_compute; reflexivity].
  intros cs l g E Hc _. destruct cs as [|c cs]; [injection E as <- _; cbn; auto|]. inversion Hc as [|? ? (s & r & Hs) _]; subst. cbn in E. discriminate E.
Qed.
Example C46_array_case : inp (fresh 1) None None (Some (array_file [] 2 [Text [TInt 5]; Text [TInt 7]; Text [TInt 0]; Text [TNum 3]] [])) = Ok (LIS_SUCCESS, obB, None, None) /\
  target_ok 1 conv_init 2 2 (stored (MDns (mkDns 2 2 [5;7;0;3]))).
Proof. split; [vm_compute; reflexivity|]. unfold target_ok. repeat split; intros; cbn [In] in *; intuition lia. Qed.
(** the matrix exB, binary, written on a big-endian machine and read on a little-endian one *)
Lemma exB_ok : csr_ok exB.
Proof.
  unfold csr_ok, ptr_ok; repeat match goal with |- _ /\ _ => split end; try (vm_compute; intuition congruence).
  - intros i Hi. cbn in Hi. assert (i = 0 \/ i = 1) as [-> | ->] by lia; vm_compute; discriminate.
  - intros i Hi. cbn in Hi. assert (i = 0 \/ i = 1 \/ i = 2) as [-> | [-> | ->]] by lia; vm_compute; intuition discriminate.
Qed.
Example C46_round_trip_case : holds obB (MCsr exB) /\ csr_ok exB /\ vec_of (vec [1;2]) 2 /\ source_ok false (MCsr exB) /\
  exists f, output (T:=Z) (fun _ _ => 99) (fun _ _ => 99) id_ 0 obB (Some (vec [1;2])) (Some (vec [3;4])) FMT_MMB true = Ok (LIS_SUCCESS, Some f) /\
  inp (fresh 1) (Some none) (Some none) (Some f) = Ok (LIS_SUCCESS, obB, Some (vec [1;2]), Some (vec [3;4])).
Proof.
  split; [vm_compute; intuition congruence|]. split; [exact exB_ok|]. split; [split; [reflexivity|right; exists [1;2]; split; reflexivity]|].
  split; [split; [reflexivity|discriminate]|]. eexists. split; vm_compute; reflexivity.
Qed.
Example C46_vector_case : exists f g, output_vector (T:=Z) id_ (vec [1;2;3;4]) FMT_MM true = Ok (LIS_SUCCESS, Some f) /\ input_vector (T:=Z) (fun _ _ => 99) id_ Z.opp Z.opp 1 none (Some f) = Ok (LIS_SUCCESS, vec [1;2;3;4]) /\
  output_vector (T:=Z) id_ (vec [1;2;3;4]) FMT_LIS true = Ok (LIS_SUCCESS, Some g) /\ input_vector (T:=Z) (fun _ _ => 99) id_ Z.opp Z.opp 1 none (Some g) = Ok (LIS_SUCCESS, vec [1;0;0;0]).
Proof. do 2 eexists. repeat split; vm_compute; reflexivity. Qed.
