(** Dense matrices as functions.  No code of the library. *)
Require Import ZArith List Bool.
From Verif Require Import Base Scalar.
Import ListNotations.
Open Scope Z_scope.
Section S.
Context {T : Type} {S : Scalar T}.
(** element (i,j) of a column-major array with leading dimension ld *)
Definition elt (a : list T) (ld i j : Z) : T := znth s0 a (i + j * ld).
(** the old value o combined with t: 0 replaces, 1 adds, 2 subtracts *)
Definition combine (op : Z) (o t : T) : T := if op =? 0 then t else if op =? 1 then sadd o t else ssub o t.
Definition sum_to (n : Z) (f : Z -> T) : T := ssum (map f (zrange 0 n)).
Definition delta (i j : Z) : T := if i =? j then s1 else s0.
(** A = L U on {0..n-1}, L unit lower triangular, U upper triangular with non-zero diagonal *)
Definition lu_of (n : Z) (A L U : Z -> Z -> T) : Prop :=
  (forall i j, 0 <= i < n -> 0 <= j < n -> A i j = sum_to n (fun l => smul (L i l) (U l j))) /\
  (forall i j, 0 <= i < n -> 0 <= j < n -> i < j -> L i j = s0) /\ (forall i, 0 <= i < n -> L i i = s1) /\
  (forall i j, 0 <= i < n -> 0 <= j < n -> j < i -> U i j = s0) /\ (forall i, 0 <= i < n -> U i i <> s0).
(** A x = b *)
Definition solves (n : Z) (A : Z -> Z -> T) (x b : Z -> T) : Prop :=
  forall i, 0 <= i < n -> sum_to n (fun j => smul (A i j) (x j)) = b i.
(** A X = X A = I *)
Definition is_inverse (n : Z) (A X : Z -> Z -> T) : Prop :=
  (forall i k, 0 <= i < n -> 0 <= k < n -> sum_to n (fun j => smul (A i j) (X j k)) = delta i k) /\
  (forall i k, 0 <= i < n -> 0 <= k < n -> sum_to n (fun j => smul (X i j) (A j k)) = delta i k).
(** the 2-norm and the (unconjugated) inner product of vectors given as functions *)
Definition norm_of (n : Z) (v : Z -> T) : T := ssqrt (sum_to n (fun i => smul (sconj (v i)) (v i))).
Definition inner (n : Z) (u v : Z -> T) : T := sum_to n (fun i => smul (u i) (v i)).
(** the Hermitian inner product *)
Definition dot_of (n : Z) (u v : Z -> T) : T := sum_to n (fun i => smul (sconj (u i)) (v i)).
(** A = Q R *)
Definition is_product (n : Z) (A Q R : Z -> Z -> T) : Prop :=
  forall i c, 0 <= i < n -> 0 <= c < n -> A i c = sum_to n (fun j => smul (Q i j) (R j c)).
Definition upper_triangular (n : Z) (R : Z -> Z -> T) : Prop := forall i j, 0 <= i < n -> 0 <= j < n -> j < i -> R i j = s0.
(** a is shorter than tol *)
Definition below (a tol : T) : Prop := sleb tol a = false.
End S.
