(** What the Crout incomplete factorisation means (ILUC). *)
Require Import ZArith List Bool.
From Verif Require Import Base Scalar Spec SpecIlu.
Import ListNotations.
Open Scope Z_scope.

Section S.
Context {T : Type} {S : Scalar T}.

(** I+L with L stored by columns *)
Definition unit_lower_c (L : list (list Z)) (Lv : list (list T)) (i k : Z) : T :=
  if k =? i then s1 else row_at (znth [] L k) (znth [] Lv k) i.
(** strictly upper part, stored by rows *)
Definition upper_r (U : list (list Z)) (Uv : list (list T)) (k j : Z) : T := row_at (znth [] U k) (znth [] Uv k) j.

(** a_ij after eliminating with the first m columns of L and rows of U *)
Definition reduced (a l u : Z -> Z -> T) (m i j : Z) : T := ssub (a i j) (ssum (map (fun t => smul (l i t) (u t j)) (zrange 0 m))).

(** [ix]: at most lfil of the positions c in (k,n) with |z_c| > thr; all of them if fewer than lfil *)
Definition kept (lfil k n : Z) (thr : T) (z : Z -> T) (ix : list Z) : Prop :=
  NoDup ix /\ zlen ix <= lfil /\
  (forall c, In c ix -> k < c < n /\ sleb (sabs (z c)) thr = false) /\
  (zlen ix < lfil -> forall c, k < c < n -> z c <> s0 -> sleb (sabs (z c)) thr = false -> In c ix).

(** the factors L (by columns), U (by rows) and pivots d of step k: row k of U and column k of L are
    the kept entries of row and column k of the reduced matrix, L is divided by the pivot, and the
    pivot has been updated with the products before dropping *)
Definition crout_step (n lfil : Z) (tol gamma : T) (a : Z -> Z -> T) (L : list (list Z)) (Lv : list (list T)) (U : list (list Z)) (Uv : list (list T)) (d : Z -> T) (k : Z) : Prop :=
  let red := reduced a (unit_lower_c L Lv) (upper_r U Uv) in
  d k = ssub (smul gamma (a k k)) (ssum (map (fun m => smul (smul (red m m k) (red m k m)) (sdiv s1 (d m))) (zrange 0 k))) /\
  kept lfil k n (smul (sabs (d k)) tol) (fun j => red k k j) (znth [] U k) /\ znth [] Uv k = map (fun j => red k k j) (znth [] U k) /\
  kept lfil k n (smul (sabs (d k)) tol) (fun j => red k j k) (znth [] L k) /\ znth [] Lv k = map (fun j => smul (red k j k) (sdiv s1 (d k))) (znth [] L k).
End S.
