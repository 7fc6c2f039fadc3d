(** C27: lis_matrix_convert between any two storage types.
    [holds], [amat_ok], [amat_entries] are in SpecCopy.v; [stored], [source_ok], [target_ok]
    (what each source and target type needs) in SpecConvert.v; [same_entries] in Spec.v.
    [J], [JV] are the unknown contents of the arrays malloc'ed on the way. *)
Require Import ZArith List Bool Lia Permutation.
From Verif Require Import Base Scalar Spec Split SpecSplit Bsr Vbr Copy SpecCopy Convert SpecConvert ConvertFinal.
Import ListNotations.
Open Scope Z_scope.

(** Aout: a matrix object with Ain's size and a type set, nothing stored.  Afterwards it holds
    a well-formed matrix of that type with the same entries.  [block] and [sorted] are Ain's
    flags is_block and is_sorted, c the block sizes set in Aout. *)
Theorem C27_convert : forall (T : Type) (S : Scalar T) J JV, eqb_zero S -> forall block sorted c (Ain Aout : mobj T) (m : amat T) ty,
  holds Ain m -> amat_ok m -> 0 < amat_n m ->
  ob_status Aout = MNULL -> ob_split Aout = None -> ob_n Aout = ob_n Ain -> ob_np Aout = ob_np Ain -> ob_type Aout = ty -> 1 <= ty <= 11 ->
  (ty <> amat_type m \/ block = true -> source_ok sorted m /\ target_ok ty c (amat_n m) (amat_np m) (stored m)) ->
  (ty = 1 -> amat_type m = 1 -> block = false) ->
  exists Aout' m', convert J JV block sorted c Ain Aout = Ok (LIS_SUCCESS, Aout') /\ holds Aout' m' /\ amat_ok m' /\ amat_type m' = ty /\
    amat_n m' = amat_n m /\ amat_np m' = amat_np m /\ same_entries (amat_entries m') (amat_entries m).
Proof. exact @convert_final. Qed.
Print Assumptions C27_convert.

(** a CSR matrix that lis_matrix_split has split is merged on the way *)
Theorem C27_convert_split : forall (T : Type) (S : Scalar T) J JV, eqb_zero S -> forall c (Ain Aout : mobj T) (P : split T) ty,
  holds_split Ain P -> split_ok P -> 0 < sp_n P ->
  ob_status Aout = MNULL -> ob_split Aout = None -> ob_n Aout = ob_n Ain -> ob_np Aout = ob_np Ain -> ob_type Aout = ty -> 1 <= ty <= 11 ->
  target_ok ty c (sp_n P) (sp_np P) (split_entries P) ->
  exists Aout' m', convert J JV false false c Ain Aout = Ok (LIS_SUCCESS, Aout') /\ holds Aout' m' /\ amat_ok m' /\ amat_type m' = ty /\
    amat_n m' = sp_n P /\ amat_np m' = sp_np P /\ same_entries (amat_entries m') (split_entries P).
Proof. exact @convert_split_final. Qed.
Print Assumptions C27_convert_split.

(** a matrix that has not been assembled is rejected and nothing is written *)
Theorem C27_not_assembled : forall (T : Type) (S : Scalar T) J JV block sorted c (Ain Aout : mobj T), ob_status Ain <= 0 -> 0 < ob_n Ain ->
  convert J JV block sorted c Ain Aout = Ok (LIS_ERR_ILL_ARG, Aout).
Proof. intros T S J JV block sorted c Ain Aout H1 H2. unfold convert. apply Z.leb_le in H1. apply Z.ltb_lt in H2. rewrite H1, H2. reflexivity. Qed.
Print Assumptions C27_not_assembled.

(** lis_matrix_set_blocksize without row[] and col[] sets the block size of the next conversion *)
Theorem C27_blocksize : forall jr jc n bnr bnc c, 0 < bnr -> 0 < bnc ->
  set_blocksize jr jc n bnr bnc None None c = Ok (LIS_SUCCESS, mkConv bnr bnc (cv_rowcol c)).
Proof. intros jr jc n bnr bnc c H1 H2. unfold set_blocksize. apply Z.leb_gt in H1. apply Z.leb_gt in H2. rewrite H1, H2. reflexivity. Qed.
Print Assumptions C27_blocksize.

(** *** Concrete cases *)
(** [5 0 7; 0 3 0; 2 0 4] as CSC; every target type can be reached from it *)
Definition exC : csc Z := mkCsc 3 3 5 [0;2;3;5] [0;2;1;0;2] [5;2;3;7;4].
Definition obC := mkObj 2 2 3 3 (Some (MCsc exC)) None.
Definition out ty : mobj Z := mkObj MNULL ty 3 3 None None.
Ltac small := intros; repeat match goal with H : 0 <= ?k < _ |- _ => cbn in H end;
  match goal with k : Z |- _ => first
    [ assert (k = 0) by lia | assert (k = 0 \/ k = 1) by lia | assert (k = 0 \/ k = 1 \/ k = 2) by lia
    | assert (k = 0 \/ k = 1 \/ k = 2 \/ k = 3) by lia | assert (k = 0 \/ k = 1 \/ k = 2 \/ k = 3 \/ k = 4) by lia] end;
  repeat match goal with H : _ \/ _ |- _ => destruct H end; subst; vm_compute; intuition congruence.
Lemma exC_ok : csc_ok exC.
Proof. unfold csc_ok, ptr_ok; repeat match goal with |- _ /\ _ => split end; try (vm_compute; intuition congruence); small. Qed.
Example C27_case : holds obC (MCsc exC) /\ amat_ok (MCsc exC) /\ source_ok false (MCsc exC) /\
  (forall ty, 1 <= ty <= 11 -> target_ok ty conv_init 3 3 (stored (MCsc exC))) /\
  convert (fun k i => 90 + k) (fun k i => 90 + k) false false conv_init obC (out 7) = Ok (LIS_SUCCESS, mkObj 7 7 3 3
    (Some (MBsr (mkBsr 3 3 2 2 2 4 [0; 2; 4] [0; 1; 0; 1] [5; 0; 0; 3; 7; 0; 0; 0; 2; 0; 0; 0; 4; 0; 0; 0]))) None) /\
  convert (fun k i => 90 + k) (fun k i => 90 + k) false false conv_init obC (out 4) = Ok (LIS_SUCCESS, mkObj 4 4 3 3
    (Some (MDia (mkDia 3 3 3 [-2; 0; 2; 101; 101; 101; 101; 101; 101] [0; 0; 2; 5; 3; 4; 7; 0; 0]))) None).
Proof.
  split; [repeat split|]. split; [apply exC_ok|]. split; [exact I|]. split; [|split; vm_compute; reflexivity].
  intros ty Hty. unfold target_ok, conv_init. cbn [cv_bnr cv_bnc cv_rowcol].
  split; [intros _; unfold no_dup_pos; vm_compute; repeat constructor; simpl; intuition congruence|]. split; [auto|].
  split; [intros _ i Hi; assert (i = 0 \/ i = 1 \/ i = 2) as [->|[->| ->]] by lia; eexists; vm_compute; tauto|].
  split; [intros _; vm_compute; discriminate|]. split; [lia|]. split; [lia|]. intros _. exists (2, 2, 4). split; [vm_compute; tauto|reflexivity].
Qed.
Definition exP : split Z := mkSplit 3 3 (mkCsr 3 3 1 [0; 0; 0; 1] [0] [2]) [5; 3; 4] (mkCsr 3 3 1 [0; 1; 1; 1] [2] [7]).
Example C27_split_case : holds_split (mkObj 1 1 3 3 None (Some exP)) exP /\ split_entries exP = [(2, 0, 2); (0, 0, 5); (1, 1, 3); (2, 2, 4); (0, 2, 7)] /\
  convert (fun k i => 90 + k) (fun k i => 90 + k) false false conv_init (mkObj 1 1 3 3 None (Some exP)) (out 2) = Ok (LIS_SUCCESS, mkObj 2 2 3 3
    (Some (MCsc exC)) None).
Proof. split; [repeat split|]. split; [reflexivity|]. vm_compute; reflexivity. Qed.

(** *** What fails *)
(** "any format to any other": without the diagonal stored, a conversion to MSR invents
    diagonal elements from uninitialised memory *)
Definition exN : csr Z := mkCsr 2 2 1 [0; 1; 1] [1] [9].
Theorem C27_any_to_msr_refuted : exists J JV, exists (Ain Aout' : mobj Z) (m m' : amat Z),
  holds Ain m /\ amat_ok m /\ 0 < amat_n m /\ no_dup_pos (amat_entries m) /\ source_ok false m /\
  convert J JV false false conv_init Ain (mkObj MNULL 3 2 2 None None) = Ok (LIS_SUCCESS, Aout') /\ holds Aout' m' /\ coef (amat_entries m) 0 0 = 0 /\ coef (amat_entries m') 0 0 = 77.
Proof.
  exists (fun _ _ => 0), (fun _ _ => 77), (mkObj 1 1 2 2 (Some (MCsr exN)) None). eexists. exists (MCsr exN). eexists.
  split; [repeat split|]. split; [unfold amat_ok, csr_ok, ptr_ok; repeat match goal with |- _ /\ _ => split end; try (vm_compute; intuition congruence); small|].
  split; [reflexivity|]. split; [unfold no_dup_pos; vm_compute; repeat constructor; simpl; tauto|]. split; [split; [reflexivity|discriminate]|].
  split; [vm_compute; reflexivity|]. split; [repeat split|]. split; vm_compute; reflexivity.
Qed.
Print Assumptions C27_any_to_msr_refuted.

(** a CSR matrix whose is_block flag is set - lis_matrix_convert leaves it so when it makes a CSR
    matrix from a BSR matrix (lis_matrix_duplicate copies is_block) - cannot be converted to CSR *)
Theorem C27_csr_to_csr_refuted : exists (Ain Aout : mobj Z) (m : amat Z), forall J JV sorted c,
  holds Ain m /\ amat_ok m /\ 0 < amat_n m /\ ob_status Aout = MNULL /\ ob_split Aout = None /\ ob_n Aout = ob_n Ain /\ ob_np Aout = ob_np Ain /\
  convert J JV true sorted c Ain Aout = Ok (LIS_ERR_NOT_IMPLEMENTED, Aout).
Proof.
  exists (mkObj 1 1 2 2 (Some (MCsr exN)) None), (mkObj MNULL 1 2 2 None None), (MCsr exN). intros. split; [repeat split|].
  split; [unfold amat_ok, csr_ok, ptr_ok; repeat match goal with |- _ /\ _ => split end; try (vm_compute; intuition congruence); small|].
  split; [reflexivity|]. do 4 (split; [reflexivity|]). reflexivity.
Qed.
Print Assumptions C27_csr_to_csr_refuted.

(** lis_matrix_set_blocksize(A,nr,nc,row,col) does not record nr and nc: a 4 x 4 matrix with the
    valid partition {0},{1},{2,3} is converted to VBR with its first two block rows only *)
Definition exV : csr Z := mkCsr 4 4 4 [0; 1; 2; 3; 4] [0; 1; 2; 3] [1; 2; 3; 4].
Theorem C27_vbr_partition_refuted : exists c' Aout' m', partition 4 3 [0; 1; 2; 4] /\
  set_blocksize (fun _ => 0) (fun _ => 0) 4 3 3 (Some [0; 1; 2; 4]) (Some [0; 1; 2; 4]) conv_init = Ok (LIS_SUCCESS, c') /\
  amat_ok (MCsr exV) /\ source_ok false (MCsr exV) /\ no_dup_pos (csr_entries exV) /\
  convert (fun _ _ => 0) (fun _ _ => 0) false false c' (mkObj 1 1 4 4 (Some (MCsr exV)) None) (mkObj MNULL 9 4 4 None None) = Ok (LIS_SUCCESS, Aout') /\
  holds Aout' m' /\ coef (csr_entries exV) 3 3 = 4 /\ amat_entries m' = [(0, 0, 1); (1, 1, 2)].
Proof.
  eexists. eexists. eexists. split; [unfold partition, ptr_ok; repeat match goal with |- _ /\ _ => split end; try (vm_compute; intuition congruence); small|]. split; [vm_compute; reflexivity|].
  split; [unfold amat_ok, csr_ok, ptr_ok; repeat match goal with |- _ /\ _ => split end; try (vm_compute; intuition congruence); small|].
  split; [split; [reflexivity|discriminate]|]. split; [unfold no_dup_pos; vm_compute; repeat constructor; simpl; intuition congruence|].
  split; [vm_compute; reflexivity|]. split; [repeat split|]. split; vm_compute; reflexivity.
Qed.
Print Assumptions C27_vbr_partition_refuted.

(** ... and it reads n elements of row[] although a partition into nr blocks has nr+1: out of
    bounds for the partition {0..5} of a matrix of size 6 *)
Theorem C27_blocksize_overrun_refuted : partition 6 1 [0; 6] /\ forall jr jc c, set_blocksize jr jc 6 1 1 (Some [0; 6]) (Some [0; 6]) c = UB.
Proof. split; [unfold partition, ptr_ok; repeat match goal with |- _ /\ _ => split end; try (vm_compute; intuition congruence); small|]. intros. reflexivity. Qed.
Print Assumptions C27_blocksize_overrun_refuted.

(** a destination that already holds a matrix is left alone, with LIS_SUCCESS *)
Theorem C27_overwrite_refuted : forall J JV, exists Aout', convert J JV false false conv_init (mkObj 1 1 2 2 (Some (MCsr exN)) None)
   (mkObj 2 2 2 2 (Some (MCsc (mkCsc 2 2 0 [0; 0; 0] [] []))) None) = Ok (LIS_SUCCESS, Aout') /\ holds Aout' (MCsc (mkCsc 2 2 0 [0; 0; 0] [] [])) /\ csr_entries exN = [(0, 1, 9)].
Proof. intros. eexists. split; [vm_compute; reflexivity|]. split; [repeat split|reflexivity]. Qed.
Print Assumptions C27_overwrite_refuted.
