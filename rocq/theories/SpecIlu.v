(** What an incomplete LU factorisation with fill level k means. *)
Require Import ZArith List Bool.
From Verif Require Import Base Scalar Spec.
Import ListNotations.
Open Scope Z_scope.

(** [fills E i j l]: position (i,j) gets level l in Gaussian elimination on the pattern E:
    level 0 for the entries of E, and eliminating column k of row i with row k, k<i, k<j,
    turns levels a of (i,k) and b of (k,j) into level a+b+1 of (i,j). *)
Inductive fills (E : Z -> Z -> Prop) : Z -> Z -> Z -> Prop :=
| fills_entry i j : E i j -> fills E i j 0
| fills_step i k j a b : k < i -> k < j -> fills E i k a -> fills E k j b -> fills E i j (a + b + 1).

(** (i,j) has fill level at most l *)
Definition level_le (E : Z -> Z -> Prop) (l i j : Z) : Prop := exists l', l' <= l /\ fills E i j l'.

Section S.
Context {T : Type} {S : Scalar T}.

(** the positions of the stored entries of a matrix inside the square block [lo,hi) *)
Definition stored_in (lo hi : Z) (M : list (entry T)) (i j : Z) : Prop :=
  lo <= i < hi /\ lo <= j < hi /\ exists v, In (i, j, v) M.

(** value at column c of a sparse row *)
Definition row_at (ix : list Z) (v : list T) (c : Z) : T :=
  ssum (map (fun p => if fst p =? c then snd p else s0) (combine ix v)).

(** unit lower factor I+L and upper factor diag(d)+U, from rows *)
Definition unit_lower (L : list (list Z)) (Lv : list (list T)) (i k : Z) : T :=
  if k =? i then s1 else row_at (znth [] L i) (znth [] Lv i) k.
Definition upper_with (d : Z -> T) (U : list (list Z)) (Uv : list (list T)) (k j : Z) : T :=
  if k =? j then d k else row_at (znth [] U k) (znth [] Uv k) j.
(** (F*G)_{ij}, F and G square of rows [lo,hi) *)
Definition mat_mul (lo hi : Z) (F G : Z -> Z -> T) (i j : Z) : T := ssum (map (fun k => smul (F i k) (G k j)) (zrange lo hi)).
(** (M x)_i and (M^H x)_i *)
Definition mat_vec (lo hi : Z) (M : Z -> Z -> T) (x : Z -> T) (i : Z) : T := ssum (map (fun j => smul (M i j) (x j)) (zrange lo hi)).
Definition mat_vech (lo hi : Z) (M : Z -> Z -> T) (x : Z -> T) (i : Z) : T := ssum (map (fun j => smul (sconj (M j i)) (x j)) (zrange lo hi)).
End S.
