(** What an approximate inverse by incomplete biconjugation is (SAINV). *)
Require Import ZArith List Bool Reals.
From Verif Require Import Base Scalar ScalarReal Spec SpecIlu SpecIlut.
Import ListNotations.
Open Scope Z_scope.

Section S.
Context {T : Type} {S : Scalar T}.

(** value at column c of row i of a matrix stored as rows: row i consists of the first nnz[i]
    elements of ix[i] (columns) and v[i] (values) *)
Definition rows_at (nnz : list Z) (ix : list (list Z)) (v : list (list T)) (i c : Z) : T :=
  ssum (map (fun k => if znth 0 (znth [] ix i) k =? c then znth s0 (znth [] v i) k else s0) (zrange 0 (znth 0 nnz i))).
(** such rows are well formed: distinct columns between 0 and i, inside the arrays *)
Definition rows_ok (n : Z) (nnz : list Z) (ix : list (list Z)) (v : list (list T)) : Prop :=
  zlen nnz = n /\ zlen ix = n /\ zlen v = n /\
  forall i, 0 <= i < n -> 0 <= znth 0 nnz i <= zlen (znth [] ix i) /\ zlen (znth [] v i) = zlen (znth [] ix i) /\
    (forall k, 0 <= k < znth 0 nnz i -> 0 <= znth 0 (znth [] ix i) k <= i) /\
    (forall k k', 0 <= k < znth 0 nnz i -> 0 <= k' < znth 0 nnz i -> znth 0 (znth [] ix i) k = znth 0 (znth [] ix i) k' -> k = k').

(** (A z)_r, (w^T A)_c, w^T A z for an n x n matrix a *)
Definition right_mul (n : Z) (a : Z -> Z -> T) (z : Z -> T) (r : Z) : T := ssum (map (fun c => smul (a r c) (z c)) (zrange 0 n)).
Definition left_mul (n : Z) (a : Z -> Z -> T) (w : Z -> T) (c : Z) : T := ssum (map (fun r => smul (w r) (a r c)) (zrange 0 n)).
Definition bilinear (n : Z) (a : Z -> Z -> T) (w z : Z -> T) : T := ssum (map (fun r => smul (w r) (right_mul n a z r)) (zrange 0 n)).
Definition delta (i j : Z) : T := if i =? j then s1 else s0.

(** Rows w_j, z_j: starting from unit vectors, row j is made conjugate to the rows i<j by
    subtracting multiples of them, of which [keep i] lets through some:
      w_j = e_j - sum_{i<j} keep((A z_i)_j d_i w_i),  z_j = e_j - sum_{i<j} keep((w_i^T A)_j d_i z_i),
      d_i = 1/(w_i^T A z_i) *)
Definition biconjugation (keep : Z -> T -> T) (n : Z) (a W Z_ : Z -> Z -> T) (d : Z -> T) : Prop :=
  forall j, 0 <= j < n ->
    d j = sdiv s1 (bilinear n a (W j) (Z_ j)) /\
    forall c, 0 <= c < n ->
      W j c = ssub (delta j c) (ssum (map (fun i => keep i (smul (smul (right_mul n a (Z_ i) j) (d i)) (W i c))) (zrange 0 j))) /\
      Z_ j c = ssub (delta j c) (ssum (map (fun i => keep i (smul (smul (left_mul n a (W i) j) (d i)) (Z_ i c))) (zrange 0 j))).

(** m is the largest magnitude in row i (or 0) *)
Definition row_max (E : list (entry T)) (i : Z) (m : T) : Prop :=
  (m = s0 \/ exists e, In e E /\ erow e = i /\ sabs (eval e) = m) /\ sleb s0 m = true /\
  forall e, In e E -> erow e = i -> sleb (sabs (eval e)) m = true.
(** a value t survives in step i if |t|/m > tol, m being the largest magnitude in row i *)
Definition keep_above (tol : T) (m : Z -> T) (i : Z) (t : T) : T := if sleb (smul (sabs t) (sdiv s1 (m i))) tol then s0 else t.

(** the matrix sum_i z_i d_i w_i^H *)
Definition sainv_mat (n : Z) (W Z_ : Z -> Z -> T) (d : Z -> T) (r c : Z) : T :=
  ssum (map (fun i => smul (smul (Z_ i r) (d i)) (sconj (W i c))) (zrange 0 n)).
End S.

(** x^T A x > 0 for x <> 0 *)
Definition positive_definite (n : Z) (a : Z -> Z -> R) : Prop :=
  forall x : Z -> R, (exists c, (0 <= c < n)%Z /\ x c <> 0%R) -> (0 < bilinear n a x x)%R.
