(** Split VBR matrices and what their block triangular solves compute.  No code of the library. *)
Require Import ZArith List Bool.
From Verif Require Import Base Scalar Spec SpecArray VbrSplit.
Import ListNotations.
Open Scope Z_scope.

Section S.
Context {T : Type} {S : Scalar T}.
(** the order of block row i *)
Definition border (P : vsplit T) (i : Z) : Z := znth 0 (vbr_row (vs_L P)) (i + 1) - znth 0 (vbr_row (vs_L P)) i.
(** the entries of the diagonal blocks, which are stored by columns *)
Definition vdiag_entries (P : vsplit T) : list (entry T) :=
  flat_map (fun i => flat_map (fun j => map (fun k =>
     (znth 0 (vbr_row (vs_L P)) i + k, znth 0 (vbr_row (vs_L P)) i + j, elt (znth [] (vs_D P) i) (border P i) k j)) (zrange 0 (border P i)))
     (zrange 0 (border P i))) (zrange 0 (vs_nr P)).
(** L and U are VBR matrices whose block rows and block columns are those of a square matrix, L holds blocks
    below and U blocks above the diagonal, and D a block for every block row *)
Definition split_form (P : vsplit T) : Prop :=
  let side (B : vbr T) := vbr_ok B /\ vbr_nr B = vs_nr P /\ vbr_nc B = vs_nr P /\ vbr_n B = vs_n P /\ vbr_np B = vs_n P /\
     forall i, 0 <= i <= vs_nr P -> znth 0 (vbr_row B) i = znth 0 (vbr_row (vs_L P)) i /\ znth 0 (vbr_col B) i = znth 0 (vbr_row (vs_L P)) i in
  side (vs_L P) /\ side (vs_U P) /\
  (forall i k, 0 <= i < vs_nr P -> znth 0 (vbr_bptr (vs_L P)) i <= k < znth 0 (vbr_bptr (vs_L P)) (i + 1) -> znth 0 (vbr_bindex (vs_L P)) k < i) /\
  (forall i k, 0 <= i < vs_nr P -> znth 0 (vbr_bptr (vs_U P)) i <= k < znth 0 (vbr_bptr (vs_U P)) (i + 1) -> i < znth 0 (vbr_bindex (vs_U P)) k) /\
  vs_nr P <= zlen (vs_D P) /\ vs_nr P <= zlen (vs_bns P) /\
  forall i, 0 <= i < vs_nr P -> znth 0 (vs_bns P) i = border P i /\ border P i * border P i <= zlen (znth [] (vs_D P) i).
(** every diagonal block has an LU factorisation (the inversion does not pivot) *)
Definition blocks_have_lu (P : vsplit T) : Prop :=
  forall i, 0 <= i < vs_nr P -> exists L U, lu_of (border P i) (elt (znth [] (vs_D P) i) (border P i)) L U.
(** f b x returns the solution of E x' = b *)
Definition vsolves (n : Z) (E : list (entry T)) (f : list T -> list T -> res (list T)) : Prop :=
  forall b x, n <= zlen b -> n <= zlen x -> exists x', f b x = Ok x' /\ zlen x' = zlen x /\
    forall i, 0 <= i < n -> mv_spec E n (znth s0 x') i = znth s0 b i.
(** (D+L) z = b, (D+U) x' = D z *)
Definition vsolves_ssor (n : Z) (L D U : list (entry T)) (f : list T -> list T -> res (list T)) : Prop :=
  forall b x, n <= zlen b -> n <= zlen x -> exists x' z, f b x = Ok x' /\ zlen x' = zlen x /\
    (forall i, 0 <= i < n -> mv_spec (L ++ D) n z i = znth s0 b i) /\
    (forall i, 0 <= i < n -> mv_spec (D ++ U) n (znth s0 x') i = mv_spec D n z i).
End S.
