(** Specification vocabulary for the triangular solves of a split JAD matrix *)
Require Import ZArith List Bool.
From Verif Require Import Base Scalar Spec JadSolve.
Import ListNotations.
Open Scope Z_scope.

Section S.
Context {T : Type}.
(** the same triangle in a memory in which the word right behind the array [ptr] can be read and
    holds [w] *)
Definition word_behind (w : Z) (B : jside T) : jside T :=
  let A := jd_A B in
  mkJside (mkJad (jad_n A) (jad_np A) (jad_nnz A) (jad_maxnzr A) (jad_perm A) (jad_ptr A ++ [w]) (jad_index A) (jad_value A)) (jd_col B).
Definition words_behind (wl wu : Z) (P : jsplit T) : jsplit T :=
  mkJsplit (js_n P) (word_behind wl (js_L P)) (js_D P) (word_behind wu (js_U P)).
(** f b x leaves the arrays it was given, whatever b and x of order n *)
Definition out_of_bounds (n : Z) (f : list T -> list T -> res (list T)) : Prop :=
  forall b x, n <= zlen b -> n <= zlen x -> f b x = UB.
End S.
(** m is the number of entries of the longest of the rows 0..n-1 *)
Definition longest_row {T} (n : Z) (E : list (entry T)) (m : Z) : Prop :=
  let count r := zlen (filter (fun e => erow e =? r) E) in
  (forall r, 0 <= r < n -> count r <= m) /\ exists r, 0 <= r < n /\ count r = m.
