(** C65: reading Harwell-Boeing files (lis_input and lis_input_matrix on a file that is not a Matrix
    Market file).  Hb.v is the model, character by character; SpecHb.v says what a legal file is:
    [hb_file n ptr index value f], the numbers of value being decimal (m * 10^e).
    J, JV, b0: the unknown contents of uninitialised arrays and of the line buffer; of_dec m e:
    the scalar nearest to m * 10^e. *)
Require Import ZArith List Bool Lia Ascii Permutation QArith Qcanon.
From Verif Require Import Base Scalar Spec Csc Split Copy SpecCopy Convert SpecConvert Io Hb SpecHb HbProof HbData HbCut HbFiles.
Import ListNotations.
Open Scope Z_scope.

(** A legal file (type RUA; formats (aIw), (aEw.d) or (aDw.d); numbers without exponent or with the
    letter E) is read into a matrix of any type with the coefficients of the file; the CSC arrays
    are those of the file, the CSR elements those of the file in row order. *)
Theorem C65_read : forall (T : Type) (S : Scalar T) J JV of_dec, eqb_zero S -> forall n ptr index value f b0 (A : mobj T),
  0 < n -> length b0 = 1024%nat -> hb_file n ptr index value f -> length value = length index ->
  let C := mkCsc n n (zlen index) ptr index (map (fun me => of_dec (fst me) (snd me)) value) in
  zlen ptr = n + 1 -> csc_ok C -> ob_split A = None -> 1 <= ob_type A <= 11 ->
  (ob_type A <> 1 -> ob_type A <> 2 -> target_ok (ob_type A) conv_init n n (flat_map (fun r => filter (fun e => erow e =? r) (csc_entries C)) (zrange 0 n))) ->
  exists A' m, input_hb J JV of_dec b0 A f = Ok (LIS_SUCCESS, A') /\ holds A' m /\ amat_ok m /\ amat_type m = ob_type A /\ amat_n m = n /\ amat_np m = n /\ same_entries (amat_entries m) (csc_entries C) /\
    (ob_type A = 2 -> m = MCsc C) /\ (ob_type A = 1 -> amat_entries m = flat_map (fun r => filter (fun e => erow e =? r) (csc_entries C)) (zrange 0 n)).
Proof. intros T S J JV of_dec. exact (hb_final J JV of_dec). Qed.
Print Assumptions C65_read.

(** A file cut anywhere before the end of its values is reported as an input error and no matrix is
    stored (the size and the status have been set). *)
Theorem C65_truncated : forall (T : Type) (S : Scalar T) J JV of_dec rest n ptr index value f g b0 (A : mobj T),
  0 < n -> length b0 = 1024%nat -> zlen ptr = n + 1 -> length value = length index -> hb_with rest n ptr index value (f ++ g ++ rest) -> g <> [] ->
  exists A', input_hb J JV of_dec b0 A f = Ok (LIS_ERR_FILE_IO, A') /\ ob_mat A' = ob_mat A /\ ob_split A' = ob_split A /\ ob_type A' = ob_type A.
Proof. intros T S J JV of_dec. exact (cut_final J JV of_dec). Qed.
Print Assumptions C65_truncated.

(** A matrix that is not real, unsymmetric and assembled is rejected and A stays as it was. *)
Theorem C65_kind : forall (T : Type) (S : Scalar T) J JV of_dec title l2 w c t rest b0 (A : mobj T), (length title <= 1022)%nat -> (length l2 <= 1022)%nat ->
  plain_line (w ++ c :: t) -> c = " "%char -> length w = 3%nat -> ~ In " "%char w -> Forall (fun c => (33 <= nat_of_ascii c)%nat) w -> ~ rua w -> length b0 = 1024%nat ->
  input_hb J JV of_dec b0 A (title :: l2 :: (w ++ c :: t) :: rest) = Ok (LIS_ERR_FILE_IO, A).
Proof.
  intros T S J JV of_dec title l2 w c t rest b0 A H1 H2 H3 -> H4 _ H5 H6 H7. apply kind_final; auto. eapply Forall_impl; [|exact H5]. intros a Ha. cbv beta in Ha. unfold isspace.
  destruct (Nat.eqb_spec (nat_of_ascii a) 32); [lia|]. destruct (Nat.leb_spec (nat_of_ascii a) 13); [lia|]. rewrite andb_false_r. reflexivity.
Qed.
Print Assumptions C65_kind.

(** A rectangular matrix is rejected and A stays as it was. *)
Theorem C65_rectangular : forall (T : Type) (S : Scalar T) J JV of_dec title l2 code k cs nr nc nnz nel rest b0 (A : mobj T), (length title <= 1022)%nat -> (length l2 <= 1022)%nat ->
  plain_line (code ++ blanks k ++ concat cs) -> rua code -> Forall2 (int_field 1 14) cs [nr; nc; nnz; nel] -> nr <> nc -> length b0 = 1024%nat ->
  input_hb J JV of_dec b0 A (title :: l2 :: (code ++ blanks k ++ concat cs) :: rest) = Ok (LIS_ERR_FILE_IO, A).
Proof. intros T S J JV of_dec. exact (square_final J JV of_dec). Qed.
Print Assumptions C65_rectangular.

(** *** A file *)

Definition dec (m e : Z) : Qc := Q2Qc (inject_Z m * Qpower (inject_Z 10) e).
Definition obj0 : mobj Qc := mkObj MNULL 2 0 0 None None.
Definition bufs : list ascii := repeat "7"%char 1024.

Ltac num k z := exists k, z; split; [reflexivity|split; [reflexivity|split; [lia|split; [discriminate|split; [constructor; [cbv; lia|constructor]|reflexivity]]]]].
Example C65_file : hb_file 2 [0; 2; 3] [0; 1; 1] [(15000, -4); (-25000, -5); (3125, -4)] file.
Proof.
  exists [], title, l2, l3, l4, [], [d1], [d2], [d3; d4]. split; [reflexivity|]. split.
  { assert (P : forall l, (Nat.leb (length l) 1022 && forallb (fun c => negb (Ascii.eqb c (ascii_of_nat 0))) l)%bool = true -> plain_line l).
    { intros l H. apply andb_true_iff in H. destruct H as [H1 H2]. split; [apply Nat.leb_le; exact H1|]. intros X. rewrite forallb_forall in H2. specialize (H2 _ X). rewrite Ascii.eqb_refl in H2. discriminate. }
    repeat (apply Forall_cons; [apply P; vm_compute; reflexivity|]). apply Forall_nil. }
  split; [|split].
  - exists [n14 four; n14 one; n14 one; n14 two], 4, 0. split; [reflexivity|]. left. split; [|reflexivity].
    constructor; [num 13%nat ["4"%char]|constructor; [num 13%nat ["1"%char]|constructor; [num 13%nat ["1"%char]|constructor; [num 13%nat ["2"%char]|constructor]]]].
  - exists ["R"; "U"; "A"]%char, [n14 two; n14 two; n14 three; n14 zero], 11%nat. split; [reflexivity|]. split.
    + exists "R"%char, "U"%char, "A"%char. repeat split; cbn; auto.
    + constructor; [num 13%nat ["2"%char]|constructor; [num 13%nat ["2"%char]|constructor; [num 13%nat ["3"%char]|constructor; [num 13%nat ["0"%char]|constructor]]]].
  - exists (fmt1), (fmt1), (fmt3), [], 3, 4, 3, 4, 2, 12, [n4 one; n4 three; n4 four], [n4 one; n4 two; n4 two],
      [v1; v2; v3]. split; [reflexivity|].
    assert (I : int_fmt (fmt1) 3 4).
    { exists ["3"%char], "I"%char, ["4"%char]. split; [auto|]. split; [repeat split; [discriminate|repeat constructor; cbv; lia]|]. split; [repeat split; [discriminate|repeat constructor; cbv; lia]|]. exists (sp11). split; reflexivity. }
    split; [exact I|]. split; [exact I|]. split.
    { exists ["2"%char], "E"%char, ["1"; "2"]%char, ["4"%char]. split; [cbn; auto|]. split; [repeat split; [discriminate|repeat constructor; cbv; lia]|]. split; [repeat split; [discriminate|repeat constructor; cbv; lia]|]. split; [repeat constructor; cbv; lia|]. exists (sp12). split; reflexivity. }
    split; [left; intros []|]. split; [lia|]. split; [lia|]. split; [lia|]. split; [|split; [|split; [|split; [|split]]]].
    + constructor; [num 3%nat ["1"%char]|constructor; [num 3%nat ["3"%char]|constructor; [num 3%nat ["4"%char]|constructor]]].
    + apply (laid_cons 3 [n4 one; n4 three; n4 four] [] [] []); [auto|constructor].
    + constructor; [num 3%nat ["1"%char]|constructor; [num 3%nat ["2"%char]|constructor; [num 3%nat ["2"%char]|constructor]]].
    + apply (laid_cons 3 [n4 one; n4 two; n4 two] [] [] []); [auto|constructor].
    + assert (D : forall ds, forallb (fun c => Nat.leb 48 (nat_of_ascii c) && Nat.leb (nat_of_ascii c) 57)%bool ds = true -> Forall a_digit ds).
      { clear. induction ds as [|c ds IH]; cbn [forallb]; intros H; [constructor|]. apply andb_true_iff in H. destruct H as [H1 H2]. apply andb_true_iff in H1. destruct H1 as [H0 H1]. apply Nat.leb_le in H0, H1. constructor; [split; auto|auto]. }
      constructor; [|constructor; [|constructor; [|constructor]]]; cbn [fst snd].
      * exists 2%nat, t1, e1, 4%nat, 0. split; [reflexivity|]. split; [reflexivity|]. split; [|split; [reflexivity|right; left; exists ["+"%char], false, ["0"; "0"]%char, 0]].
        { exists [], false, ["1"%char], ["5"; "0"; "0"; "0"]%char. split; [reflexivity|]. split; [left; auto|]. split; [apply D; reflexivity|]. split; [apply D; reflexivity|]. split; [discriminate|]. split; reflexivity. }
        split; [reflexivity|]. split; [right; left; auto|]. split; [|reflexivity]. split; [discriminate|]. split; [apply D; reflexivity|reflexivity].
      * exists 1%nat, t2, e2, 4%nat, (-1). split; [reflexivity|]. split; [reflexivity|]. split; [|split; [reflexivity|right; left; exists ["-"%char], true, ["0"; "1"]%char, 1]].
        { exists ["-"%char], true, ["2"%char], ["5"; "0"; "0"; "0"]%char. split; [reflexivity|]. split; [right; right; auto|]. split; [apply D; reflexivity|]. split; [apply D; reflexivity|]. split; [discriminate|]. split; reflexivity. }
        split; [reflexivity|]. split; [right; right; auto|]. split; [|reflexivity]. split; [discriminate|]. split; [apply D; reflexivity|reflexivity].
      * exists 6%nat, t3, [], 4%nat, 0. split; [reflexivity|]. split; [reflexivity|]. split; [|split; [reflexivity|left; auto]].
        exists [], false, ["0"%char], ["3"; "1"; "2"; "5"]%char. split; [reflexivity|]. split; [left; auto|]. split; [apply D; reflexivity|]. split; [apply D; reflexivity|]. split; [discriminate|]. split; reflexivity.
    + apply (laid_cons 2 [v1; v2] [v3] [] [d4]); [auto|].
      apply (laid_cons 2 [v3] [] [] []); [right; split; [reflexivity|cbn; lia]|constructor].
Qed.

(** what is stored in a CSC matrix: code, ptr, index, value *)
Definition stored (r : Base.res (Z * mobj Qc)) : option (Z * list Z * list Z * list Q) :=
  match r with Ok (e, A) => match ob_mat A with Some (MCsc C) => Some (e, csc_ptr C, csc_index C, map this (csc_value C)) | _ => None end | _ => None end.
(** what uninitialised int and scalar variables hold *)
Definition junk (z : Z) (_ k : Z) : Z := z.
Definition junkv (_ k : Z) : Qc := Q2Qc 7.
Example C65_read_file : stored (input_hb (junk 77) junkv dec bufs obj0 file) = Some (0, [0; 2; 3], [0; 1; 1], [3 # 2; -1 # 4; 5 # 16]%Q).
Proof. vm_compute. reflexivity. Qed.
Example C65_read_e : stored (input_hb (junk 77) junkv dec bufs obj0 file_e) = Some (0, [0; 1; 2], [0; 1], [1500; 5 # 2]%Q).
Proof. vm_compute. reflexivity. Qed.
Example C65_truncated_file : stored (input_hb (junk 77) junkv dec bufs obj0 (firstn 7 file)) = None /\ exists A, input_hb (junk 77) junkv dec bufs obj0 (firstn 7 file) = Ok (LIS_ERR_FILE_IO, A).
Proof. split; [vm_compute; reflexivity|]. eexists. vm_compute. reflexivity. Qed.
Example C65_rectangular_file : input_hb (junk 77) junkv dec bufs obj0 (title :: l2 :: (["R"; "U"; "A"]%char ++ blanks 11 ++ List.concat [n14 two; n14 three; n14 three; n14 zero]) :: [l4; d1; d2; d3; d4]) = Ok (LIS_ERR_FILE_IO, obj0).
Proof. vm_compute. reflexivity. Qed.
Example C65_kind_file : input_hb (junk 77) junkv dec bufs obj0 (title :: l2 :: (["R"; "S"; "A"]%char ++ " "%char :: skipn 4 l3) :: [l4; d1; d2; d3; d4]) = Ok (LIS_ERR_FILE_IO, obj0).
Proof. vm_compute. reflexivity. Qed.

(** *** What is read wrongly without a word *)

(** Refuted: D formats are accepted but the exponent behind a D is dropped: a field that stands for
    m * 10^(x - d) is read as m * 10^(-d), whatever x is. *)
Theorem C65_d_exponent_refuted : forall (T : Type) (S : Scalar T) (of_dec : Z -> Z -> T) k t ex m d x, fixed_text t m d -> exponent "D"%char ex x ->
  atof of_dec (blanks k ++ t ++ ex) = of_dec m (- Z.of_nat d).
Proof. intros T S of_dec k t ex m d x Ht (sg & neg & ds & z & -> & _). apply atof_dropped; [exact Ht|reflexivity|discriminate]. Qed.
Print Assumptions C65_d_exponent_refuted.
Example C65_d_file : stored (input_hb (junk 77) junkv dec bufs obj0 file_d) = Some (0, [0; 1; 2], [0; 1], [3 # 2; 5 # 2]%Q).
Proof. vm_compute. reflexivity. Qed.

(** Refuted: LIS_SUCCESS means that the coefficients were read.  With a scale factor (1P2E12.4), an F
    format or no repeat count, values stay what they were in the malloc'ed array, or depend on
    uninitialised ints; 7 is such a value. *)
Theorem C65_format_refuted :
  stored (input_hb (junk 0) junkv dec bufs obj0 file_p) = Some (0, [0; 1; 2], [0; 1], [1500; 7]%Q) /\
  stored (input_hb (junk 0) junkv dec bufs obj0 file_f) = Some (0, [0; 1; 2], [0; 1], [7; 7]%Q) /\
  stored (input_hb (junk 12) junkv dec bufs obj0 file_f) = Some (0, [0; 1; 2], [0; 1], [1500; 5 # 2]%Q) /\
  stored (input_hb (junk 77) junkv dec bufs obj0 file_1) = Some (0, [0; 1; 2], [0; 1], [7; 7]%Q).
Proof. repeat apply conj; vm_compute; reflexivity. Qed.
Print Assumptions C65_format_refuted.

(** Refuted: a format the reader does not take is reported: without a closing parenthesis it writes
    through a null pointer. *)
Theorem C65_bad_format_refuted : input_hb (junk 0) junkv dec bufs obj0 file_u = UB.
Proof. vm_compute. reflexivity. Qed.
Print Assumptions C65_bad_format_refuted.

(** Refuted: a value line with too few fields is reported: the missing number is read as 0. *)
Theorem C65_short_line_refuted : stored (input_hb (junk 0) junkv dec bufs obj0 file_s) = Some (0, [0; 2; 3], [0; 1; 1], [3 # 2; 0; 5 # 2]%Q).
Proof. vm_compute. reflexivity. Qed.
Print Assumptions C65_short_line_refuted.
