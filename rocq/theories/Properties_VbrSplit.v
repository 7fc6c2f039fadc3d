(** C31 for VBR: lis_matrix_split passes the number of blocks and the number of elements to the allocation
    in the wrong order, so that it writes behind the array of the elements as soon as some block
    outside the diagonal has more than one element. *)
Require Import ZArith List Bool Lia.
From Verif Require Import Base Scalar Spec VbrSplit SpecVbrSplit VbrSplitP.
Import ListNotations.
Open Scope Z_scope.

Theorem C31_vbr_refuted : forall (T : Type) (S : Scalar T) (A : vbr T) jlr jlc jlp jlb jli jlv jur juc jup jub jui juv jb jd i j,
  no_empty_blocks A -> off_diagonal_block A i j -> 2 <= block_elements A i j ->
  split_vbr jlr jlc jlp jlb jli jlv jur juc jup jub jui juv jb jd A = UB.
Proof. intros T S A jlr jlc jlp jlb jli jlv jur juc jup jub jui juv jb jd i j Hne. exact (split_vbr_out A Hne jlr jlc jlp jlb jli jlv jur juc jup jub jui juv jb jd i j). Qed.
Print Assumptions C31_vbr_refuted.

(** *** a well-formed matrix which meets the hypotheses: blocks (0,0), (1,0), (1,1) of order 2 *)
Definition exV : vbr Z := mkVbr 4 4 2 2 3 12 [0; 2; 4] [0; 2; 4] [0; 4; 8; 12] [0; 1; 3] [0; 0; 1] [1; 0; 0; 1; 5; 6; 7; 8; 2; 0; 0; 2].
Ltac upto k Hk := let K := fresh in assert (K : (k = 0 \/ k = 1 \/ k = 2 \/ k = 3)%Z) by (cbn in Hk; lia);
  repeat (destruct K as [->|K]; [try (vm_compute in Hk; intuition discriminate); try (vm_compute; intuition congruence)|]); try (subst k; try (vm_compute in Hk; intuition discriminate); vm_compute; intuition congruence).
Example exV_meets : vbr_ok exV /\ no_empty_blocks exV /\ off_diagonal_block exV 1 1 /\ block_elements exV 1 1 = 4.
Proof.
  assert (K : forall i j, 0 <= i < vbr_nr exV -> znth 0 (vbr_bptr exV) i <= j < znth 0 (vbr_bptr exV) (i + 1) -> i = 0 /\ j = 0 \/ i = 1 /\ j = 1 \/ i = 1 /\ j = 2).
  { intros i j Hi Hj. assert (K : i = 0 \/ i = 1) by (cbn in Hi; lia). destruct K as [-> | ->].
    - change (0 <= j < 1) in Hj. lia.
    - change (1 <= j < 3) in Hj. lia. }
  split; [|split; [|split]].
  - unfold vbr_ok, ptr_ok. repeat match goal with |- _ /\ _ => split end; try (vm_compute; intuition congruence); try (intros k Hk; upto k Hk).
    intros i j Hi Hj. destruct (K i j Hi Hj) as [[-> ->]|[[-> ->]|[-> ->]]]; vm_compute; intuition congruence.
  - intros i j Hi Hj. destruct (K i j Hi Hj) as [[-> ->]|[[-> ->]|[-> ->]]]; vm_compute; intuition congruence.
  - unfold off_diagonal_block. split; [vm_compute; intuition congruence|]. split; vm_compute; intuition congruence.
  - reflexivity.
Qed.
Definition jz : Z -> Z := fun _ => 77.
Example exV_out : split_vbr jz jz jz jz jz jz jz jz jz jz jz jz jz (fun _ => jz) exV = UB.
Proof. exact (C31_vbr_refuted Z _ exV jz jz jz jz jz jz jz jz jz jz jz jz jz (fun _ => jz) 1 1 (proj1 (proj2 exV_meets)) (proj1 (proj2 (proj2 exV_meets))) ltac:(rewrite (proj2 (proj2 (proj2 exV_meets))); lia)). Qed.

(** a matrix with a diagonal block of order 2 whose other blocks have one element: split, and merged again *)
Definition exW : vbr Z := mkVbr 4 4 3 3 5 8 [0; 2; 3; 4] [0; 2; 3; 4] [0; 4; 5; 6; 7; 8] [0; 1; 3; 5] [0; 1; 2; 1; 2] [1; 2; 3; 4; 5; 6; 7; 8].
Example exW_split : exists P B, split_vbr jz jz jz jz jz jz jz jz jz jz jz jz jz (fun _ => jz) exW = Ok P /\ vs_D P = [[1; 2; 3; 4]; [5]; [8]] /\
  vbr_entries (vs_L P) = [(3, 2, 7)] /\ vbr_entries (vs_U P) = [(2, 3, 6)] /\
  merge_vbr jz jz jz jz jz jz 8 P = Ok B /\ vbr_entries B = vbr_entries exW.
Proof. eexists. eexists. split; [reflexivity|]. split; [reflexivity|]. split; [reflexivity|]. split; [reflexivity|]. split; reflexivity. Qed.
