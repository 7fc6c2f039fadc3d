(** What shifting and scaling mean for the block formats, over the entries of Spec.v. *)
Require Import ZArith List Bool.
From Verif Require Import Base Scalar Spec.
Import ListNotations.
Open Scope Z_scope.

Section S.
Context {T : Type} {S : Scalar T}.

(** rows below n: sigma leaves each stored diagonal element, nothing else changes (rows n and
    above of a block matrix are padding) *)
Definition shifted_n (n : Z) (E E' : list (entry T)) (sigma : T) : Prop :=
  forall i j, 0 <= i < n -> coef E' i j = if (i =? j) && has_diag E i then ssub (coef E i j) sigma else coef E i j.

(** E' = D E and E' = D E D *)
Definition rows_scaled (E E' : list (entry T)) (d : list T) : Prop := forall i j, coef E' i j = smul (coef E i j) (znth s0 d i).
Definition both_scaled (E E' : list (entry T)) (d : list T) : Prop := forall i j, coef E' i j = smul (smul (znth s0 d i) (coef E i j)) (znth s0 d j).

(** the blocks of a VBR matrix follow each other in the value array, and ptr has one entry more than there are blocks *)
Definition vbr_packed (A : vbr T) : Prop :=
  vbr_bnnz A + 1 <= zlen (vbr_ptr A) /\
  forall bi bj, 0 <= bi < vbr_nr A -> znth 0 (vbr_bptr A) bi <= bj < znth 0 (vbr_bptr A) (bi + 1) ->
    znth 0 (vbr_ptr A) (bj + 1) = znth 0 (vbr_ptr A) bj +
      (znth 0 (vbr_row A) (bi + 1) - znth 0 (vbr_row A) bi) *
      (znth 0 (vbr_col A) (znth 0 (vbr_bindex A) bj + 1) - znth 0 (vbr_col A) (znth 0 (vbr_bindex A) bj)).
End S.
