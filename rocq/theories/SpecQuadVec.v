(** Specification vocabulary for the quad vectors and matrix products: sums of
    real numbers and the matrix of real numbers that CSR or CSC arrays of
    doubles stand for.  The entries and the products are those of Spec.v. *)
From Coq Require Import ZArith Reals List.
From Flocq Require Import Core BinarySingleNaN.
From Verif Require Import Base Scalar ScalarReal Spec Quad SpecQuad Omp.
Import ListNotations.
Open Scope R_scope.

(** f lo + ... + f (hi-1) *)
Fixpoint listsum (l : list R) : R := match l with [] => 0 | x :: l => x + listsum l end.
Definition rsum (lo hi : Z) (f : Z -> R) : R := listsum (map f (zrange lo hi)).

(** element i of a quad vector *)
Definition elt (x : list (b64 * b64)) (i : Z) : b64 * b64 := znth (b64_of 0 0, b64_of 0 0) x i.
Definition normal_upto (n : Z) (x : list (b64 * b64)) : Prop :=
  (n <= zlen x)%Z /\ forall i, (0 <= i < n)%Z -> normal (elt x i).

(** The matrix of the CSR (resp. CSC) arrays, and the matrix of the absolute values. *)
Definition csr_matrix (w : R -> R) (n np : Z) (ptr index : list Z) (value : list b64) : list (Z * Z * R) :=
  csr_entries (mkCsr n np (znth 0%Z ptr n) ptr index (map (fun v => w (real v)) value)).
Definition csc_matrix (w : R -> R) (n np : Z) (ptr index : list Z) (value : list b64) : list (Z * Z * R) :=
  csc_entries (mkCsc n np (znth 0%Z ptr np) ptr index (map (fun v => w (real v)) value)).
Definition same (x : R) : R := x.

(** how many entries are stored in row i, in column j *)
Definition in_row (E : list (Z * Z * R)) (i : Z) : R := INR (length (filter (fun e => erow e =? i)%Z E)).
Definition in_col (E : list (Z * Z * R)) (j : Z) : R := INR (length (filter (fun e => ecol e =? j)%Z E)).

(** what is stored beside ptr: 0 <= ptr[0] <= ... <= ptr[n], indices below m *)
Definition arrays_ok (n m : Z) (ptr index : list Z) (value : list b64) : Prop :=
  (0 <= n)%Z /\ (n + 1 <= zlen ptr)%Z /\ (0 <= znth 0%Z ptr 0)%Z /\
  (forall i, (0 <= i < n)%Z -> (znth 0%Z ptr i <= znth 0%Z ptr (i + 1))%Z) /\
  (znth 0%Z ptr n <= zlen index)%Z /\ (znth 0%Z ptr n <= zlen value)%Z /\
  (forall k, (0 <= k < znth 0%Z ptr n)%Z -> (0 <= znth 0%Z index k < m)%Z).
(** no row holds the same index twice *)
Definition rows_nodup (n : Z) (ptr index : list Z) : Prop :=
  forall i, (0 <= i < n)%Z -> NoDup (map (znth 0%Z index) (zrange (znth 0%Z ptr i) (znth 0%Z ptr (i + 1)))).

(** without OpenMP, or with p threads *)
Definition threads_ok (threads : option Z) : Prop := match threads with None => True | Some p => (0 < p)%Z end.
Definition team (threads : option Z) : Z := match threads with None => 1%Z | Some p => p end.

(** q is the sum s of k terms whose absolute values add up to t *)
Definition near (q : b64 * b64) (s t k : R) : Prop :=
  fin q -> normal q /\ Rabs (val q - s) <= k * (bpow radix2 (-100) * t + bpow radix2 (-1069)).
Definition few (k : R) : Prop := k <= IZR (2 ^ 50).

(** y' is y with the elements 0..n-1 replaced by base i + add i, where nb i holds *)
Definition updated (n : Z) (y y' : list (b64 * b64)) (base add : Z -> R) (nb : Z -> Prop) : Prop :=
  zlen y' = zlen y /\ (forall i, (n <= i)%Z -> elt y' i = elt y i) /\
  (forall i, (0 <= i < n)%Z -> nb i -> fin (elt y' i) -> normal (elt y' i) /\
     Rabs (val (elt y' i) - (base i + add i)) <= bpow radix2 (-101) * (Rabs (base i) + Rabs (add i)) + bpow radix2 (-1070)).

(** a number whose reciprocal is in range *)
Definition invertible (q : b64 * b64) : Prop := normal q /\ real (fst q) <> 0 /\ Rabs (real (fst q)) <= bpow radix2 900.
(** element i of the shared arrays value (0) and value_lo (1) *)
Definition at_cell (s : store b64) (i : Z) : b64 * b64 := (s (0, i)%Z, s (1, i)%Z).
