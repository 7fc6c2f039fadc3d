(** Exchanging the two block indices of every entry.  No code of the library. *)
Require Import ZArith List Bool.
From Verif Require Import Base Scalar Spec.
Import ListNotations.
Open Scope Z_scope.

Section S.
Context {T : Type} {S : Scalar T}.
(** the entry at position (i,j) of block (r,c) goes to position (i,j) of block (c,r) *)
Definition swap_blocks (b : Z) (e : entry T) : entry T := ((ecol e / b) * b + erow e mod b, (erow e / b) * b + ecol e mod b, eval e).
(** block (r,c) equals block (c,r) *)
Definition block_symmetric (b : Z) (E : list (entry T)) : Prop :=
  forall r c i j, 0 <= i < b -> 0 <= j < b -> coef E (r * b + i) (c * b + j) = coef E (c * b + i) (r * b + j).
End S.
