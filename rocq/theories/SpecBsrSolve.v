(** Block triangles of a square matrix of order n with blocks of order b, and what the block
    triangular solves compute.  No code of the library. *)
Require Import ZArith List Bool.
From Verif Require Import Base Scalar Spec SpecArray.
Import ListNotations.
Open Scope Z_scope.

Section S.
Context {T : Type} {S : Scalar T}.
(** the entry lies in a block on or below, on or above, on the block diagonal *)
Definition in_block_lower (b : Z) (e : entry T) : bool := ecol e / b <=? erow e / b.
Definition in_block_upper (b : Z) (e : entry T) : bool := erow e / b <=? ecol e / b.
Definition in_block_diag (b : Z) (e : entry T) : bool := erow e / b =? ecol e / b.
(** the diagonal block of block row i; rows >= n of the last block are completed by the identity *)
Definition diagonal_block (n b : Z) (E : list (entry T)) (i ii jj : Z) : T :=
  if (n <=? i * b + ii) && (ii =? jj) then s1 else coef E (i * b + ii) (i * b + jj).
(** every diagonal block has an LU factorisation (the inversion does not pivot) *)
Definition diagonal_blocks_lu (n b nr : Z) (E : list (entry T)) : Prop :=
  forall i, 0 <= i < nr -> exists L U, lu_of b (diagonal_block n b E i) L U.
(** a block is stored for every block row on the diagonal *)
Definition diagonal_blocks_stored (b nr : Z) (E : list (entry T)) : Prop :=
  forall i, 0 <= i < nr -> exists e, In e E /\ erow e / b = i /\ ecol e / b = i.

(** with m the padded length, f bv x returns a vector of the length of x whose product with the matrix E is bv *)
Definition solves_part (n m : Z) (E : list (entry T)) (f : list T -> list T -> res (list T)) : Prop :=
  forall bv x, m <= zlen bv -> m <= zlen x -> exists x', f bv x = Ok x' /\ zlen x' = zlen x /\
    forall i, 0 <= i < n -> mv_spec E n (znth s0 x') i = znth s0 bv i.
Definition solves_block_lower n m b (E : list (entry T)) := solves_part n m (filter (in_block_lower b) E).
Definition solves_block_upper n m b (E : list (entry T)) := solves_part n m (filter (in_block_upper b) E).
(** (D+L) z = bv, (D+U) x' = D z *)
Definition solves_block_ssor (n m b : Z) (E : list (entry T)) (f : list T -> list T -> res (list T)) : Prop :=
  forall bv x, m <= zlen bv -> m <= zlen x -> exists x' z, f bv x = Ok x' /\ zlen x' = zlen x /\
    (forall i, 0 <= i < n -> mv_spec (filter (in_block_lower b) E) n z i = znth s0 bv i) /\
    (forall i, 0 <= i < n -> mv_spec (filter (in_block_upper b) E) n (znth s0 x') i = mv_spec (filter (in_block_diag b) E) n z i).
End S.
