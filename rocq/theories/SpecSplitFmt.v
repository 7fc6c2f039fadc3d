(** What the triangular solves mean: sums over the coefficients of the matrix. *)
Require Import ZArith List Bool.
From Verif Require Import Base Scalar Spec.
Import ListNotations.
Open Scope Z_scope.

Section S.
Context {T : Type} {S : Scalar T}.
(** row i of (D+L) x, of (D+U) x, of (D+U)^H x and of (D+L)^H x, where E are the entries of a square matrix
    of order n, D its diagonal, L and U its strictly lower and upper parts *)
Definition low_row (E : list (entry T)) (x : Z -> T) (i : Z) : T :=
  ssum (map (fun j => smul (coef E i j) (x j)) (zrange 0 (i + 1))).
Definition upp_row (n : Z) (E : list (entry T)) (x : Z -> T) (i : Z) : T :=
  ssum (map (fun j => smul (coef E i j) (x j)) (zrange i n)).
Definition lowh_row (E : list (entry T)) (x : Z -> T) (i : Z) : T :=
  ssum (map (fun j => smul (sconj (coef E j i)) (x j)) (zrange 0 (i + 1))).
Definition upph_row (n : Z) (E : list (entry T)) (x : Z -> T) (i : Z) : T :=
  ssum (map (fun j => smul (sconj (coef E j i)) (x j)) (zrange i n)).

(** f b x is a program which returns a vector of the length of x with row i of some product equal to b_i *)
Definition solves (n : Z) (row : (Z -> T) -> Z -> T) (f : list T -> list T -> res (list T)) : Prop :=
  forall b x, n <= zlen b -> n <= zlen x -> exists x', f b x = Ok x' /\ zlen x' = zlen x /\
    forall i, 0 <= i < n -> row (znth s0 x') i = znth s0 b i.
Definition solves_lower n E := solves n (low_row E).
Definition solves_upper n E := solves n (upp_row n E).
Definition solvesh_lower n E := solves n (lowh_row E).
Definition solvesh_upper n E := solves n (upph_row n E).
(** (D+L) D^-1 (D+U) x = b: (D+L) z = b and (D+U) x = D z *)
Definition solves_ssor n (E : list (entry T)) (f : list T -> list T -> res (list T)) : Prop :=
  forall b x, n <= zlen b -> n <= zlen x -> exists x' z, f b x = Ok x' /\ zlen x' = zlen x /\
    (forall i, 0 <= i < n -> low_row E z i = znth s0 b i) /\
    (forall i, 0 <= i < n -> upp_row n E (znth s0 x') i = smul (coef E i i) (z i)).
(** (D+U)^H D^-H (D+L)^H x = b *)
Definition solvesh_ssor n (E : list (entry T)) (f : list T -> list T -> res (list T)) : Prop :=
  forall b x, n <= zlen b -> n <= zlen x -> exists x' z, f b x = Ok x' /\ zlen x' = zlen x /\
    (forall i, 0 <= i < n -> lowh_row E z i = znth s0 b i) /\
    (forall i, 0 <= i < n -> upph_row n E (znth s0 x') i = smul (sconj (coef E i i)) (z i)).

End S.
