(** C24 - C26: conversions between the compressed and the blocked formats.  The
    meaning of the formats ([*_entries], [*_ok], [same_entries]) is in Spec.v; the
    functions j* are the unknown contents of freshly allocated memory; "= Ok B"
    says that no access is out of bounds. *)
Require Import ZArith List Bool Lia Permutation.
From Verif Require Import Base Scalar Spec Sort Csc Coo Dia Bsr Vbr BlockFinal.
Import ListNotations.
Open Scope Z_scope.

Ltac small := intros; repeat match goal with H : 0 <= ?k < _ |- _ => cbn in H end;
  match goal with k : Z |- _ => first
    [ assert (k = 0) by lia | assert (k = 0 \/ k = 1) by lia | assert (k = 0 \/ k = 1 \/ k = 2) by lia
    | assert (k = 0 \/ k = 1 \/ k = 2 \/ k = 3) by lia | assert (k = 0 \/ k = 1 \/ k = 2 \/ k = 3 \/ k = 4) by lia] end;
  repeat match goal with H : _ \/ _ |- _ => destruct H end; subst; vm_compute; intuition congruence.
Ltac csr_ok_tac := unfold csr_ok, csc_ok, ptr_ok; repeat match goal with |- _ /\ _ => split end; try (vm_compute; intuition congruence); small.
Ltac nodup_tac := unfold no_dup_pos; vm_compute; repeat constructor; simpl; intuition congruence.
Definition j9 : Z -> Z := fun _ => 99.
(** [5 0 7; 0 3 0; 2 0 4] by rows and by columns *)
Definition exA : csr Z := mkCsr 3 3 5 [0;2;3;5] [0;2;1;0;2] [5;7;3;2;4].
Definition exAc : csc Z := mkCsc 3 3 5 [0;2;3;5] [0;2;1;0;2] [5;2;3;7;4].
Lemma exA_ok : csr_ok exA. Proof. csr_ok_tac. Qed.
Lemma exA_nodup : no_dup_pos (csr_entries exA). Proof. nodup_tac. Qed.

(** ** C24: BSR *)
Theorem C24_csr2bsr : forall (T : Type) (S : Scalar T), eqb_zero S -> forall jb jw jw2 jw3 ji (jv : Z -> T) bnr bnc (A : csr T),
  csr_ok A -> 0 < csr_n A -> csr_np A = csr_n A -> 0 < bnr -> 0 < bnc -> no_dup_pos (csr_entries A) ->
  exists B, convert_csr2bsr jb jw jw2 jw3 ji jv bnr bnc A = Ok B /\ bsr_ok B /\ bsr_n B = csr_n A /\ bsr_np B = csr_np A /\
     bsr_bnr B = bnr /\ bsr_bnc B = bnc /\ same_entries (bsr_entries B) (csr_entries A).
Proof. exact csr2bsr_final. Qed.
Print Assumptions C24_csr2bsr.

Theorem C24_bsr2csr : forall (T : Type) (S : Scalar T) jp ji (jv : Z -> T) (A : bsr T), bsr_ok A ->
  exists B, convert_bsr2csr jp ji jv A = Ok B /\ csr_ok B /\ csr_n B = bsr_n A /\ csr_np B = bsr_np A /\
    Permutation (csr_entries B) (nz (bsr_entries A)).
Proof. exact bsr2csr_final. Qed.
Print Assumptions C24_bsr2csr.

Theorem C24_round_trip : forall (T : Type) (S : Scalar T), eqb_zero S -> forall jb jw jw2 jw3 ji (jv : Z -> T) jp' ji' jv' bnr bnc (A : csr T),
  csr_ok A -> 0 < csr_n A -> csr_np A = csr_n A -> 0 < bnr -> 0 < bnc -> no_dup_pos (csr_entries A) ->
  exists B C, convert_csr2bsr jb jw jw2 jw3 ji jv bnr bnc A = Ok B /\ convert_bsr2csr jp' ji' jv' B = Ok C /\ csr_ok C /\
     csr_n C = csr_n A /\ csr_np C = csr_np A /\ same_entries (csr_entries C) (csr_entries A).
Proof. exact bsr_round_final. Qed.
Print Assumptions C24_round_trip.

Example C24_ex : csr_ok exA /\ no_dup_pos (csr_entries exA) /\
  exists B, convert_csr2bsr j9 j9 j9 j9 j9 j9 2 2 exA = Ok B /\
    bsr_bptr B = [0;2;4] /\ bsr_bindex B = [0;1;0;1] /\ bsr_value B = [5;0;0;3; 7;0;0;0; 2;0;0;0; 4;0;0;0] /\
    bsr_entries B <> csr_entries exA /\ convert_bsr2csr j9 j9 j9 B = Ok exA.
Proof. split; [exact exA_ok|]. split; [exact exA_nodup|]. eexists. split; [vm_compute; reflexivity|]. repeat split; try (vm_compute; reflexivity). vm_compute. congruence. Qed.

(** two entries at one position (they denote a sum, see C17_C26_same_coefficients):
    the last one overwrites the other *)
Theorem C24_csr2bsr_duplicates_refuted : exists (A : csr Z) B, csr_ok A /\ csr_np A = csr_n A /\
  convert_csr2bsr j9 j9 j9 j9 j9 j9 2 2 A = Ok B /\ coef (csr_entries A) 0 0 = 7 /\ coef (bsr_entries B) 0 0 = 4.
Proof.
  exists (mkCsr 2 2 2 [0;2;2] [0;0] [3;4]). eexists. split; [csr_ok_tac|]. split; [auto|]. split; [vm_compute; reflexivity|]. vm_compute; auto.
Qed.
Print Assumptions C24_csr2bsr_duplicates_refuted.
(** a BSR matrix (as accepted by lis_matrix_set_bsr) with a non-zero number in the padding
    of its last block row: the row counter of a row that does not exist is written *)
Theorem C24_bsr2csr_padding_refuted :
  let B := mkBsr 3 3 2 2 2 1 [0;0;1] [0] [1;1;1;1] in
  ptr_ok (bsr_nr B) (bsr_bptr B) /\ (bsr_nr B - 1) * bsr_bnr B < bsr_n B <= bsr_nr B * bsr_bnr B /\
  zlen (bsr_value B) = bsr_bnnz B * (bsr_bnr B * bsr_bnc B) /\ convert_bsr2csr j9 j9 j9 B = UB.
Proof. cbv zeta. split; [unfold ptr_ok; repeat match goal with |- _ /\ _ => split end; try (vm_compute; intuition congruence); small|]. split; [cbn; lia|]. split; vm_compute; reflexivity. Qed.
Print Assumptions C24_bsr2csr_padding_refuted.

(** ** C25: BSC (CSR -> BSC goes through CSC, C17) *)
Theorem C25_csc2bsc : forall (T : Type) (S : Scalar T), eqb_zero S -> forall jb jw jw2 jw3 ji (jv : Z -> T) b (A : csc T),
  csc_ok A -> 0 < csc_n A -> csc_np A = csc_n A -> 0 < b -> no_dup_pos (csc_entries A) ->
  exists B, convert_csc2bsc jb jw jw2 jw3 ji jv b b A = Ok B /\ bsc_ok B /\ bsc_n B = csc_n A /\ bsc_np B = csc_np A /\
     bsc_bnr B = b /\ bsc_bnc B = b /\ same_entries (bsc_entries B) (csc_entries A).
Proof. exact csc2bsc_final. Qed.
Print Assumptions C25_csc2bsc.
Theorem C25_bsc2csr : forall (T : Type) (S : Scalar T) jw jp ji (jv : Z -> T) (A : bsc T), bsc_ok A ->
  exists B, convert_bsc2csr jw jp ji jv A = Ok B /\ csr_ok B /\ csr_n B = bsc_n A /\ csr_np B = bsc_np A /\
    Permutation (csr_entries B) (nz (bsc_entries A)).
Proof. exact bsc2csr_final. Qed.
Print Assumptions C25_bsc2csr.

Example C25_ex : csc_ok exAc /\ no_dup_pos (csc_entries exAc) /\
  exists B, convert_csc2bsc j9 j9 j9 j9 j9 j9 2 2 exAc = Ok B /\
    bsc_bptr B = [0;2;4] /\ bsc_bindex B = [0;1;0;1] /\ bsc_value B = [5;0;0;3; 2;0;0;0; 7;0;0;0; 4;0;0;0] /\
    convert_bsc2csr j9 j9 j9 j9 B = Ok exA.
Proof. split; [csr_ok_tac|]. split; [nodup_tac|]. eexists. split; [vm_compute; reflexivity|]. repeat split; vm_compute; reflexivity. Qed.

(** blocks that are not square: the offset inside a block is j + ii*bnc instead of j + ii*bnr.
    With 1 x 2 blocks the write leaves the array; with 3 x 2 blocks the coefficients are mixed up *)
Theorem C25_rectangular_refuted :
  (exists A : csc Z, csc_ok A /\ csc_np A = csc_n A /\ no_dup_pos (csc_entries A) /\ convert_csc2bsc j9 j9 j9 j9 j9 j9 1 2 A = UB) /\
  (exists (A : csc Z) B, csc_ok A /\ csc_np A = csc_n A /\ no_dup_pos (csc_entries A) /\
    convert_csc2bsc j9 j9 j9 j9 j9 j9 3 2 A = Ok B /\ coef (csc_entries A) 2 0 = 8 /\ coef (csc_entries A) 0 1 = 9 /\ coef (bsc_entries B) 2 0 = 9).
Proof.
  split.
  - exists (mkCsc 2 2 1 [0;0;1] [0] [9]). split; [csr_ok_tac|]. split; [auto|]. split; [nodup_tac|]. vm_compute; reflexivity.
  - exists (mkCsc 3 3 3 [0;1;2;3] [2;0;2] [8;9;4]). eexists. split; [csr_ok_tac|]. split; [auto|]. split; [nodup_tac|].
    split; [vm_compute; reflexivity|]. vm_compute; auto.
Qed.
Print Assumptions C25_rectangular_refuted.

(** ** C26: VBR *)
(** a partition of rows and columns chosen by the caller (lis_matrix_set_blocksize) *)
Theorem C26_csr2vbr_partition : forall (T : Type) (S : Scalar T), eqb_zero S -> forall jb jc jp2 jw jw2 jw3 jptr ji (jv : Z -> T) nr nc row col (A : csr T),
  csr_ok A -> csr_np A = csr_n A -> no_dup_pos (csr_entries A) ->
  ptr_ok nr row -> znth 0 row nr = csr_n A -> ptr_ok nc col -> znth 0 col nc = csr_n A ->
  exists B, csr2vbr_with jb jc jp2 jw jw2 jw3 jptr ji jv nr nc row col A = Ok B /\ vbr_ok B /\ vbr_n B = csr_n A /\ vbr_np B = csr_np A /\
     vbr_nr B = nr /\ vbr_nc B = nc /\ vbr_row B = row /\ vbr_col B = col /\ same_entries (vbr_entries B) (csr_entries A).
Proof. exact csr2vbr_with_final. Qed.
Print Assumptions C26_csr2vbr_partition.
(** the partition chosen by the library: correct if the last column has an entry *)
Theorem C26_csr2vbr : forall (T : Type) (S : Scalar T), eqb_zero S -> forall jb jc jp2 jw jw2 jw3 jptr ji (jv : Z -> T) flag (A : csr T),
  csr_ok A -> csr_exact A -> csr_np A = csr_n A -> no_dup_pos (csr_entries A) -> (flag = true -> rows_sorted A) ->
  csr_n A = 0 \/ (exists e, In e (csr_entries A) /\ ecol e = csr_n A - 1) ->
  exists B, convert_csr2vbr jb jc jp2 jw jw2 jw3 jptr ji jv flag A = Ok B /\ vbr_ok B /\ vbr_n B = csr_n A /\ vbr_np B = csr_np A /\
     same_entries (vbr_entries B) (csr_entries A).
Proof. exact csr2vbr_final. Qed.
Print Assumptions C26_csr2vbr.
Theorem C26_vbr2csr : forall (T : Type) (S : Scalar T) jp ji (jv : Z -> T) (A : vbr T), vbr_ok A ->
  exists B, convert_vbr2csr jp ji jv A = Ok B /\ csr_ok B /\ csr_n B = vbr_n A /\ csr_np B = vbr_np A /\
    Permutation (csr_entries B) (nz (vbr_entries A)).
Proof. exact vbr2csr_final. Qed.
Print Assumptions C26_vbr2csr.
Theorem C26_round_trip : forall (T : Type) (S : Scalar T), eqb_zero S -> forall jb jc jp2 jw jw2 jw3 jptr ji (jv : Z -> T) jp' ji' jv' flag (A : csr T),
  csr_ok A -> csr_exact A -> csr_np A = csr_n A -> no_dup_pos (csr_entries A) -> (flag = true -> rows_sorted A) ->
  csr_n A = 0 \/ (exists e, In e (csr_entries A) /\ ecol e = csr_n A - 1) ->
  exists B C, convert_csr2vbr jb jc jp2 jw jw2 jw3 jptr ji jv flag A = Ok B /\ convert_vbr2csr jp' ji' jv' B = Ok C /\ csr_ok C /\
     csr_n C = csr_n A /\ csr_np C = csr_np A /\ same_entries (csr_entries C) (csr_entries A).
Proof. exact vbr_round_final. Qed.
Print Assumptions C26_round_trip.

Example C26_ex : csr_ok exA /\ csr_exact exA /\ no_dup_pos (csr_entries exA) /\ (exists e, In e (csr_entries exA) /\ ecol e = csr_n exA - 1) /\
  exists B, convert_csr2vbr j9 j9 j9 j9 j9 j9 j9 j9 j9 false exA = Ok B /\ vbr_row B = [0;1;2;3] /\ vbr_value B = [5;7;3;2;4] /\
    convert_vbr2csr j9 j9 j9 B = Ok exA.
Proof.
  split; [exact exA_ok|]. split; [reflexivity|]. split; [exact exA_nodup|]. split; [exists (0,2,7); vm_compute; auto|].
  eexists. split; [vm_compute; reflexivity|]. repeat split; vm_compute; reflexivity.
Qed.
Example C26_ex_partition : ptr_ok 2 [0;2;3] /\ znth 0 [0;2;3] 2 = csr_n exA /\
  exists B, csr2vbr_with j9 j9 j9 j9 j9 j9 j9 j9 j9 2 2 [0;2;3] [0;2;3] exA = Ok B /\
    vbr_ptr B = [0;4;6;8;9] /\ vbr_bindex B = [0;1;0;1] /\ vbr_value B = [5;0;0;3; 7;0; 2;0; 4].
Proof.
  split; [unfold ptr_ok; repeat match goal with |- _ /\ _ => split end; try (vm_compute; intuition congruence); small|]. split; [reflexivity|].
  eexists. split; [vm_compute; reflexivity|]. repeat split; vm_compute; reflexivity.
Qed.

(** no entry in the last column: the library's partition ends too early and the rows
    behind it are lost *)
Theorem C26_last_column_refuted : exists (A : csr Z) B, csr_ok A /\ csr_exact A /\ csr_np A = csr_n A /\ no_dup_pos (csr_entries A) /\
  convert_csr2vbr j9 j9 j9 j9 j9 j9 j9 j9 j9 false A = Ok B /\ coef (csr_entries A) 1 0 = 5 /\ vbr_entries B = [(0, 0, 3)].
Proof.
  exists (mkCsr 2 2 2 [0;1;2] [0;0] [3;5]). eexists. split; [csr_ok_tac|]. split; [reflexivity|]. split; [reflexivity|]. split; [nodup_tac|].
  split; [vm_compute; reflexivity|]. vm_compute; auto.
Qed.
Print Assumptions C26_last_column_refuted.
