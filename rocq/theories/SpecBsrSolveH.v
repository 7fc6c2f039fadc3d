(** What the solves with the conjugate transpose of the block triangles compute (lis_matrix_solveh).
    The part is always that of the conjugate transpose: LOWER means the block lower triangle of A^H,
    whose entries are the conjugates of those of the block upper triangle of A.  No code of the
    library. *)
Require Import ZArith List Bool.
From Verif Require Import Base Scalar Spec SpecBsrSolve.
Import ListNotations.
Open Scope Z_scope.

Section S.
Context {T : Type} {S : Scalar T}.
(** with m the padded length, f bv x returns a vector of the length of x whose product with the
    conjugate transpose of E is bv *)
Definition solvesh_part (n m : Z) (E : list (entry T)) (f : list T -> list T -> res (list T)) : Prop :=
  forall bv x, m <= zlen bv -> m <= zlen x -> exists x', f bv x = Ok x' /\ zlen x' = zlen x /\
    forall i, 0 <= i < n -> mvh_spec E n (znth s0 x') i = znth s0 bv i.
Definition solvesh_block_lower n m b (E : list (entry T)) := solvesh_part n m (filter (in_block_upper b) E).
Definition solvesh_block_upper n m b (E : list (entry T)) := solvesh_part n m (filter (in_block_lower b) E).
(** (D+U)^H z = bv, (D+L)^H x' = D^H z *)
Definition solvesh_block_ssor (n m b : Z) (E : list (entry T)) (f : list T -> list T -> res (list T)) : Prop :=
  forall bv x, m <= zlen bv -> m <= zlen x -> exists x' z, f bv x = Ok x' /\ zlen x' = zlen x /\
    (forall i, 0 <= i < n -> mvh_spec (filter (in_block_upper b) E) n z i = znth s0 bv i) /\
    (forall i, 0 <= i < n -> mvh_spec (filter (in_block_lower b) E) n (znth s0 x') i = mvh_spec (filter (in_block_diag b) E) n z i).
(** real scalars *)
Definition real_scalars : Prop := forall a : T, sconj a = a.
End S.
