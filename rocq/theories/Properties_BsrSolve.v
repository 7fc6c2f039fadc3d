(** C31 and C56 for BSR: lis_matrix_split, lis_matrix_merge, and the block triangular solves of
    lis_matrix_solve (flags LOWER, UPPER, SSOR) with the inverted diagonal blocks.
    The meaning of the solves is in SpecBsrSolve.v, from the coefficients of the matrix that was
    split; rows n, n+1, ... of the last block row are padding. *)
Require Import ZArith List Bool Lia QArith Qcanon Permutation.
From Verif Require Import Base Scalar Spec SpecArray BsrSolve SpecBsrSolve BsrEnd4.
Import ListNotations.
Open Scope Z_scope.

Theorem C56_bsr : forall (T : Type) (S : Scalar T), is_ring S -> is_field S -> eqb_ok S -> forall (A : bsr T) jlp jli jlv jup jui juv jd,
  bsr_ok A -> bsr_bnc A = bsr_bnr A -> no_dup_pos (bsr_entries A) -> diagonal_blocks_lu (bsr_n A) (bsr_bnr A) (bsr_nr A) (bsr_entries A) ->
  exists P wd, split_bsr jlp jli jlv jup jui juv jd A = Ok P /\ diag_inverse_blk (bsr_n A) (bsr_nr A) (bsr_bnr A) (bs_D P) = Ok wd /\
    solves_block_lower (bsr_n A) (bsr_nr A * bsr_bnr A) (bsr_bnr A) (bsr_entries A) (solve_lower_bsr P wd) /\
    solves_block_upper (bsr_n A) (bsr_nr A * bsr_bnr A) (bsr_bnr A) (bsr_entries A) (solve_upper_bsr P wd) /\
    solves_block_ssor (bsr_n A) (bsr_nr A * bsr_bnr A) (bsr_bnr A) (bsr_entries A) (solve_ssor_bsr P wd).
Proof. intros T S RT FT EO A jlp jli jlv jup jui juv jd HB Hsq Hu HLU. exact (bsr_solve_final RT jlp jli jlv jup jui juv jd A HB Hsq Hu FT EO HLU). Qed.
Print Assumptions C56_bsr.

(** splitting puts the blocks below and above the block diagonal into L and U, and merging gives the matrix back *)
Theorem C31_bsr : forall (T : Type) (S : Scalar T), is_ring S -> forall (A : bsr T) jlp jli jlv jup jui juv jd jp ji jv,
  bsr_ok A -> bsr_bnc A = bsr_bnr A -> no_dup_pos (bsr_entries A) -> diagonal_blocks_stored (bsr_bnr A) (bsr_nr A) (bsr_entries A) ->
  exists P B, split_bsr jlp jli jlv jup jui juv jd A = Ok P /\
    bsr_entries (bs_L P) = filter (fun e => ecol e / bsr_bnr A <? erow e / bsr_bnr A) (bsr_entries A) /\
    bsr_entries (bs_U P) = filter (fun e => erow e / bsr_bnr A <? ecol e / bsr_bnr A) (bsr_entries A) /\
    merge_bsr jp ji jv P = Ok B /\ bsr_ok B /\ bsr_n B = bsr_n A /\ bsr_np B = bsr_np A /\ bsr_bnr B = bsr_bnr A /\ bsr_bnc B = bsr_bnr A /\
    Permutation (bsr_entries B) (bsr_entries A).
Proof. intros T S RT A jlp jli jlv jup jui juv jd jp ji jv HB Hsq Hu Hst. exact (bsr_merge_final RT jlp jli jlv jup jui juv jd jp ji jv A HB Hsq Hu Hst). Qed.
Print Assumptions C31_bsr.

(** blocks which are not square are refused, whatever the matrix *)
Theorem C31_bsr_rectangular : forall (T : Type) (S : Scalar T) (A : bsr T) jlp jli jlv jup jui juv jd, bsr_bnc A <> bsr_bnr A -> split_bsr jlp jli jlv jup jui juv jd A = Err LIS_ERR_NOT_IMPLEMENTED.
Proof. intros T S A jlp jli jlv jup jui juv jd H. exact (bsr_rect_final jlp jli jlv jup jui juv jd A H). Qed.
Print Assumptions C31_bsr_rectangular.

(** *** what fails: the diagonal block of a block row which stores none is never set, so that the
    merged matrix contains whatever malloc returned; the conversion from CSR stores no block for
    a zero diagonal block *)
Ltac small := intros ?k Hk; let K := fresh in assert (K : (k = 0 \/ k = 1 \/ k = 2 \/ k = 3 \/ k = 4)%Z) by (cbn in Hk; lia);
  repeat (destruct K as [->|K]; [try (vm_compute in Hk; intuition discriminate); try (vm_compute; intuition congruence)|]); try (subst k; try (vm_compute in Hk; intuition discriminate); vm_compute; intuition congruence).
Ltac shape := intros e He; vm_compute in He; repeat (destruct He as [<-|He]; [vm_compute; intuition congruence|]); destruct He.
Ltac nodup := unfold no_dup_pos; vm_compute; repeat constructor; cbn; intuition congruence.
Ltac okb := unfold bsr_ok, ptr_ok; cbn -[Z.le Z.lt in_shape Z.mul]; repeat match goal with |- _ /\ _ => split end; try (vm_compute; intuition congruence); match goal with |- in_shape _ _ _ => shape | |- forall _ : Z, _ => small end.
Definition exN : bsr Z := mkBsr 4 4 2 2 2 3 [0; 1; 3] [1; 0; 1] [1; 2; 3; 4; 5; 6; 7; 8; 1; 1; 1; 1].
Theorem C31_bsr_missing_block_refuted : exists (A : bsr Z), bsr_ok A /\ bsr_bnc A = bsr_bnr A /\ no_dup_pos (bsr_entries A) /\
  exists jlp jli jlv jup jui juv jd jp ji jv P B, split_bsr jlp jli jlv jup jui juv jd A = Ok P /\ merge_bsr jp ji jv P = Ok B /\ coef (bsr_entries B) 0 0 <> coef (bsr_entries A) 0 0.
Proof.
  exists exN. split; [okb|]. split; [reflexivity|]. split; [nodup|].
  exists (fun _ => 9), (fun _ => 9), (fun _ => 9), (fun _ => 9), (fun _ => 9), (fun _ => 9), (fun _ => 77), (fun _ => 9), (fun _ => 9), (fun _ => 9).
  eexists _, _. split; [vm_compute; reflexivity|]. split; [vm_compute; reflexivity|]. vm_compute. discriminate.
Qed.
Print Assumptions C31_bsr_missing_block_refuted.

(** *** a concrete matrix which meets the hypotheses: 3 x 3 in blocks of order 2,
        2 1 0 / 1 4 3 / 0 5 1 *)
Definition qc (z : Z) : Qc := Q2Qc (inject_Z z).
Definition exB : bsr Qc := mkBsr 3 3 2 2 2 4 [0; 2; 4] [0; 1; 0; 1]
  [qc 2; qc 1; qc 1; qc 4; qc 0; qc 3; qc 0; qc 0; qc 0; qc 0; qc 5; qc 0; qc 1; qc 0; qc 0; qc 0].
Definition mat2 (a b c d : Qc) (i j : Z) : Qc := if i =? 0 then if j =? 0 then a else b else if j =? 0 then c else d.
Ltac lu22 := split; [|split; [|split; [|split]]]; intros; repeat match goal with H : 0 <= ?i < 2 |- _ => let K := fresh in assert (K : i = 0 \/ i = 1) by lia; clear H; destruct K as [-> | ->] end;
  try lia; try (apply Qc_is_canon; vm_compute; reflexivity); try (let X := fresh in intro X; apply (f_equal this) in X; vm_compute in X; discriminate).
Example exB_meets : bsr_ok exB /\ bsr_bnc exB = bsr_bnr exB /\ no_dup_pos (bsr_entries exB) /\
  diagonal_blocks_lu (bsr_n exB) (bsr_bnr exB) (bsr_nr exB) (bsr_entries exB) /\ diagonal_blocks_stored (bsr_bnr exB) (bsr_nr exB) (bsr_entries exB).
Proof.
  split; [okb|split; [reflexivity|split; [nodup|split]]].
  - intros i Hi. assert (K : (i = 0 \/ i = 1)%Z) by (cbn in Hi; lia). destruct K as [-> | ->].
    + exists (mat2 (qc 1) (qc 0) (Q2Qc (1 # 2)) (qc 1)), (mat2 (qc 2) (qc 1) (qc 0) (Q2Qc (7 # 2))). cbn [bsr_bnr exB]. lu22.
    + exists (mat2 (qc 1) (qc 0) (qc 0) (qc 1)), (mat2 (qc 1) (qc 0) (qc 0) (qc 1)). cbn [bsr_bnr exB]. lu22.
  - intros i Hi. assert (K : (i = 0 \/ i = 1)%Z) by (cbn in Hi; lia). destruct K as [-> | ->].
    + exists (0, 0, qc 2). split; [vm_compute; tauto|]. split; reflexivity.
    + exists (2, 2, qc 1). split; [vm_compute; tauto|]. split; reflexivity.
Qed.
(** its solves with right-hand side (3, 9, 11, 0): (D+L) x = b, (D+U) x = b and the SSOR product *)
Example exB_solves : exists P wd x y z,
  split_bsr (fun _ => 77) (fun _ => 77) (fun _ => qc 77) (fun _ => 77) (fun _ => 77) (fun _ => qc 77) (fun _ => qc 77) exB = Ok P /\ diag_inverse_blk 3 2 2 (bs_D P) = Ok wd /\
  solve_lower_bsr P wd [qc 7; qc 14; qc 11; qc 0] [qc 8; qc 8; qc 8; qc 8] = Ok x /\ map this x = [2 # 1; 3 # 1; -4 # 1; 0 # 1]%Q /\
  solve_upper_bsr P wd [qc 7; qc 20; qc 2; qc 0] [qc 8; qc 8; qc 8; qc 8] = Ok y /\ map this y = [2 # 1; 3 # 1; 2 # 1; 0 # 1]%Q /\
  solve_ssor_bsr P wd [qc 7; qc 14; qc 17; qc 0] [qc 8; qc 8; qc 8; qc 8] = Ok z /\ map this z = [20 # 7; 9 # 7; 2 # 1; 0 # 1]%Q.
Proof.
  eexists _, _, _, _, _. split; [vm_compute; reflexivity|]. split; [vm_compute; reflexivity|]. split; [vm_compute; reflexivity|]. split; [vm_compute; reflexivity|].
  split; [vm_compute; reflexivity|]. split; [vm_compute; reflexivity|]. split; [vm_compute; reflexivity|]. vm_compute; reflexivity.
Qed.
