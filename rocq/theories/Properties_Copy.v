(** C44: lis_matrix_copy gives a matrix with the same type, size and elements.
    [holds], [amat_ok], [amat_entries] are in SpecCopy.v. *)
Require Import ZArith List Bool Lia.
From Verif Require Import Base Scalar Spec Split SpecSplit Copy SpecCopy CopyFinal.
Import ListNotations.
Open Scope Z_scope.

(** every storage format; Aout has been given the size of Ain and nothing else *)
Theorem C44_copy : forall (T : Type) (S : Scalar T) ji jv (Ain Aout : mobj T) (m : amat T), holds Ain m -> amat_ok m -> 0 < amat_n m ->
  ob_status Aout = MNULL -> ob_split Aout = None -> ob_n Aout = ob_n Ain -> ob_np Aout = ob_np Ain ->
  exists Aout' m', copy ji jv Ain Aout = Ok (LIS_SUCCESS, Aout') /\ holds Aout' m' /\ amat_ok m' /\ amat_type m' = amat_type m /\
    amat_n m' = amat_n m /\ amat_np m' = amat_np m /\ amat_entries m' = amat_entries m.
Proof. exact @copy_final. Qed.
Print Assumptions C44_copy.

(** in particular into a fresh lis_matrix_duplicate *)
Theorem C44_copy_duplicate : forall (T : Type) (S : Scalar T) ji jv (Ain : mobj T) (m : amat T), holds Ain m -> amat_ok m -> 0 < amat_n m ->
  exists Aout' m', copy ji jv Ain (duplicate Ain) = Ok (LIS_SUCCESS, Aout') /\ holds Aout' m' /\ amat_ok m' /\ amat_type m' = amat_type m /\
    amat_n m' = amat_n m /\ amat_np m' = amat_np m /\ amat_entries m' = amat_entries m.
Proof. intros. apply copy_final; auto. Qed.
Print Assumptions C44_copy_duplicate.

(** a CSR matrix split into L, D, U is copied split *)
Theorem C44_copy_split : forall (T : Type) (S : Scalar T) ji jv (Ain Aout : mobj T) (P : split T), holds_split Ain P -> split_ok P -> 0 < sp_n P ->
  ob_status Aout = MNULL -> ob_n Aout = ob_n Ain -> ob_np Aout = ob_np Ain ->
  exists Aout' P', copy ji jv Ain Aout = Ok (LIS_SUCCESS, Aout') /\ holds_split Aout' P' /\ split_ok P' /\ sp_n P' = sp_n P /\ sp_np P' = sp_np P /\
    csr_entries (sp_L P') = csr_entries (sp_L P) /\ csr_entries (sp_U P') = csr_entries (sp_U P) /\ (forall i, 0 <= i < sp_n P -> znth s0 (sp_D P') i = znth s0 (sp_D P) i) /\
    split_entries P' = split_entries P.
Proof. exact @copy_split_final. Qed.
Print Assumptions C44_copy_split.

(** *** Concrete cases *)
Definition exA : csr Z := mkCsr 2 2 3 [0; 2; 3] [0; 1; 1] [4; 5; 6].
Definition exB : csr Z := mkCsr 2 2 1 [0; 1; 1] [0] [9].
Definition obA := mkObj 1 1 2 2 (Some (MCsr exA)) None.
Definition obB := mkObj 1 1 2 2 (Some (MCsr exB)) None.
Example exA_ok : csr_ok exA.
Proof.
  unfold csr_ok, ptr_ok. cbn [exA csr_n csr_np csr_nnz csr_ptr csr_index csr_value].
  repeat match goal with |- _ /\ _ => split end; try (vm_compute; first [reflexivity|discriminate|auto; fail]); try lia.
  { intros i Hi. assert (i = 0 \/ i = 1) as [->| ->] by lia; vm_compute; discriminate. }
  intros k Hk. assert (k = 0 \/ k = 1 \/ k = 2) as [->|[->| ->]] by lia; vm_compute; split; discriminate || reflexivity.
Qed.
Example C44_copy_case : holds obA (MCsr exA) /\ amat_ok (MCsr exA) /\ 0 < amat_n (MCsr exA) /\ exists B, copy (fun _ => 7) (fun _ => 7) obA (duplicate obA) = Ok (LIS_SUCCESS, B) /\ ob_mat B = Some (MCsr exA).
Proof. split; [repeat split|]. split; [apply exA_ok|]. split; [reflexivity|]. eexists. split; vm_compute; reflexivity. Qed.
Definition exP : split Z := mkSplit 2 2 (mkCsr 2 2 1 [0; 0; 1] [0] [3]) [4; 6] (mkCsr 2 2 1 [0; 1; 1] [1] [5]).
Example C44_copy_split_case : holds_split (mkObj 1 1 2 2 None (Some exP)) exP /\ split_entries exP = [(1, 0, 3); (0, 0, 4); (1, 1, 6); (0, 1, 5)] /\
  exists B, copy (fun _ => 7) (fun _ => 7) (mkObj 1 1 2 2 None (Some exP)) (mkObj MNULL 1 2 2 None None) = Ok (LIS_SUCCESS, B) /\ ob_split B = Some exP.
Proof. split; [repeat split|]. split; [reflexivity|]. eexists. split; vm_compute; reflexivity. Qed.

(** *** What fails *)
(** the documentation says "copies all elements of Ain to Aout" and returns an error code: a
    destination that already holds a matrix is left as it was, and LIS_SUCCESS is returned *)
Theorem C44_overwrite_refuted : ~ (forall (T : Type) (S : Scalar T) ji jv (Ain Aout Aout' : mobj T) (m : amat T), holds Ain m -> amat_ok m -> 0 < amat_n m ->
  ob_split Aout = None -> ob_n Aout = ob_n Ain -> ob_np Aout = ob_np Ain -> copy ji jv Ain Aout = Ok (LIS_SUCCESS, Aout') ->
  exists m', holds Aout' m' /\ amat_entries m' = amat_entries m).
Proof.
  intros H. destruct (H Z ScalarZ (fun _ => 0) (fun _ => 0) obA obB obB (MCsr exA)) as (m' & Hm & E); [repeat split|apply exA_ok|reflexivity|reflexivity|reflexivity|reflexivity|reflexivity|].
  destruct Hm as [Hm _]. cbn in Hm. injection Hm as <-. vm_compute in E. discriminate.
Qed.
Print Assumptions C44_overwrite_refuted.

(** copying into a matrix whose size was never set copies nothing and returns LIS_SUCCESS *)
Theorem C44_unsized_refuted : ~ (forall (T : Type) (S : Scalar T) ji jv (Ain Aout Aout' : mobj T) (m : amat T), holds Ain m -> amat_ok m -> 0 < amat_n m ->
  ob_status Aout = DECIDING_SIZE -> copy ji jv Ain Aout = Ok (LIS_SUCCESS, Aout') -> exists m', holds Aout' m' /\ amat_entries m' = amat_entries m).
Proof.
  intros H. destruct (H Z ScalarZ (fun _ => 0) (fun _ => 0) obA (mkObj DECIDING_SIZE 1 0 0 None None) (mkObj DECIDING_SIZE 1 0 0 None None) (MCsr exA)) as (m' & Hm & _); [repeat split|apply exA_ok|reflexivity|reflexivity|reflexivity|].
  destruct Hm as [Hm _]. discriminate Hm.
Qed.
Print Assumptions C44_unsized_refuted.

(** a size mismatch is not detected: Aout becomes an ill-formed matrix, with LIS_SUCCESS *)
Theorem C44_size_refuted : ~ (forall (T : Type) (S : Scalar T) ji jv (Ain Aout Aout' : mobj T) (m : amat T), holds Ain m -> amat_ok m -> 0 < amat_n m ->
  ob_status Aout = MNULL -> 0 < ob_n Aout -> ob_np Aout = ob_n Aout -> ob_split Aout = None -> copy ji jv Ain Aout = Ok (LIS_SUCCESS, Aout') -> forall m', holds Aout' m' -> amat_ok m').
Proof.
  intros H. specialize (H Z ScalarZ (fun _ => 0) (fun _ => 0) obA (mkObj MNULL 1 3 3 None None) (mkObj 1 1 3 3 (Some (MCsr (mkCsr 3 3 3 [0; 2; 3] [0; 1; 1] [4; 5; 6]))) None) (MCsr exA)).
  destruct (H ltac:(repeat split) exA_ok eq_refl eq_refl eq_refl eq_refl eq_refl eq_refl (MCsr (mkCsr 3 3 3 [0; 2; 3] [0; 1; 1] [4; 5; 6])) ltac:(repeat split)) as [(_ & Hl & _) _]. vm_compute in Hl. apply Hl. reflexivity.
Qed.
Print Assumptions C44_size_refuted.

(** lis_matrix_copy_csc onto an assembled CSR destination leaves its arrays and relabels them
    as compressed columns: Aout is neither Ain nor what it was (it is transposed) *)
Definition exC : csc Z := mkCsc 2 2 3 [0; 1; 3] [0; 0; 1] [4; 5; 6].
Definition obC := mkObj 2 2 2 2 (Some (MCsc exC)) None.
Definition exD : csr Z := mkCsr 2 2 1 [0; 1; 1] [1] [9].
Example exC_ok : csc_ok exC.
Proof.
  unfold csc_ok, ptr_ok. cbn [exC csc_n csc_np csc_nnz csc_ptr csc_index csc_value].
  repeat match goal with |- _ /\ _ => split end; try (vm_compute; first [reflexivity|discriminate|auto; fail]); try lia.
  { intros i Hi. assert (i = 0 \/ i = 1) as [->| ->] by lia; vm_compute; discriminate. }
  intros k Hk. assert (k = 0 \/ k = 1 \/ k = 2) as [->|[->| ->]] by lia; vm_compute; split; discriminate || reflexivity.
Qed.
Theorem C44_csc_onto_csr_refuted : exists (Ain Aout Aout' : mobj Z) (A m' : amat Z), holds Ain (MCsc exC) /\ amat_ok (MCsc exC) /\ holds Aout A /\
  copy (fun _ => 0) (fun _ => 0) Ain Aout = Ok (LIS_SUCCESS, Aout') /\ holds Aout' m' /\
  amat_entries m' <> amat_entries (MCsc exC) /\ amat_entries A = [(0, 1, 9)] /\ amat_entries m' = [(1, 0, 9)].
Proof.
  exists obC, (mkObj 1 1 2 2 (Some (MCsr exD)) None). eexists. exists (MCsr exD). eexists. split; [repeat split|]. split; [apply exC_ok|]. split; [repeat split|]. split; [reflexivity|].
  split; [split; [reflexivity|repeat split]|]. split; [vm_compute; discriminate|]. split; reflexivity.
Qed.
Print Assumptions C44_csc_onto_csr_refuted.
