(** Specification vocabulary for splitting a VBR matrix *)
Require Import ZArith List Bool.
From Verif Require Import Base Scalar Spec.
Import ListNotations.
Open Scope Z_scope.

Section S.
Context {T : Type}.
(** the number of elements of block j, in block row i *)
Definition block_elements (A : vbr T) (i j : Z) : Z :=
  let jj := znth 0 (vbr_bindex A) j in
  (znth 0 (vbr_row A) (i + 1) - znth 0 (vbr_row A) i) * (znth 0 (vbr_col A) (jj + 1) - znth 0 (vbr_col A) jj).
(** j is the position of a block of block row i which is not on the diagonal *)
Definition off_diagonal_block (A : vbr T) (i j : Z) : Prop :=
  0 <= i < vbr_nr A /\ znth 0 (vbr_bptr A) i <= j < znth 0 (vbr_bptr A) (i + 1) /\ znth 0 (vbr_bindex A) j <> i.
Definition no_empty_blocks (A : vbr T) : Prop := forall i j, 0 <= i < vbr_nr A -> znth 0 (vbr_bptr A) i <= j < znth 0 (vbr_bptr A) (i + 1) -> 1 <= block_elements A i j.
End S.
