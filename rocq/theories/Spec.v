(** What the storage formats mean.  Each format denotes a finite list of entries
    (row, column, value); the coefficient at (i,j) is the sum of the values
    stored there.  This file contains no code of the library, only the standard
    (manual) meaning of the formats, and the well-formedness conditions. *)
Require Import ZArith List Bool Lia Permutation.
From Verif Require Import Base Scalar.
Import ListNotations.
Open Scope Z_scope.

Section Spec.
Context {T : Type} {S : Scalar T}.

Definition entry : Type := (Z * Z * T)%type.
Definition erow (e : entry) : Z := fst (fst e).
Definition ecol (e : entry) : Z := snd (fst e).
Definition eval (e : entry) : T := snd e.

(** entries whose value is not the number 0 *)
Definition nonzero (v : T) : bool := negb (seqb v s0).
Definition nz (E : list entry) : list entry := filter (fun e => nonzero (eval e)) E.

(** Two lists of entries describe the same matrix if they hold the same
    non-zero entries, each equally often, in whatever order.  No arithmetic. *)
Definition same_entries (E F : list entry) : Prop := Permutation (nz E) (nz F).

(** coefficient (i,j): the sum of everything stored at (i,j) *)
Definition at_ij (i j : Z) (e : entry) : bool := (erow e =? i) && (ecol e =? j).
Definition coef (E : list entry) (i j : Z) : T := ssum (map eval (filter (at_ij i j) E)).

(** (A x)_i with np columns, and (A^H x)_j with n rows *)
Definition mv_spec (E : list entry) (np : Z) (x : Z -> T) (i : Z) : T :=
  ssum (map (fun j => smul (coef E i j) (x j)) (zrange 0 np)).
Definition mvh_spec (E : list entry) (n : Z) (x : Z -> T) (j : Z) : T :=
  ssum (map (fun i => smul (sconj (coef E i j)) (x i)) (zrange 0 n)).

(** no position is stored twice *)
Definition no_dup_pos (E : list entry) : Prop := NoDup (map fst E).

(** entries inside an n x np matrix *)
Definition in_shape (n np : Z) (E : list entry) : Prop :=
  forall e, In e E -> 0 <= erow e < n /\ 0 <= ecol e < np.

(** ** Storage formats *)

(** Compressed rows: row i occupies positions ptr[i] .. ptr[i+1]-1. *)
Record csr := mkCsr { csr_n : Z; csr_np : Z; csr_nnz : Z;
  csr_ptr : list Z; csr_index : list Z; csr_value : list T }.
Definition csr_entries (A : csr) : list entry :=
  flat_map (fun i =>
    map (fun k => (i, znth 0 (csr_index A) k, znth s0 (csr_value A) k))
        (zrange (znth 0 (csr_ptr A) i) (znth 0 (csr_ptr A) (i + 1))))
    (zrange 0 (csr_n A)).

(** A "ptr" array: starts at 0, never decreases, n+1 entries. *)
Definition ptr_ok (n : Z) (p : list Z) : Prop :=
  0 <= n /\ n + 1 <= zlen p /\ znth 0 p 0 = 0 /\
  (forall i, 0 <= i < n -> znth 0 p i <= znth 0 p (i + 1)).

Definition csr_ok (A : csr) : Prop :=
  ptr_ok (csr_n A) (csr_ptr A) /\ csr_n A <= csr_np A /\
  znth 0 (csr_ptr A) (csr_n A) = csr_nnz A /\
  csr_nnz A <= zlen (csr_index A) /\ csr_nnz A <= zlen (csr_value A) /\
  (forall k, 0 <= k < csr_nnz A -> 0 <= znth 0 (csr_index A) k < csr_np A).

(** the index and value arrays have the same length (both are allocated with nnz elements) *)
Definition csr_exact (A : csr) : Prop := zlen (csr_value A) = zlen (csr_index A).
(** columns in non-decreasing order inside every row *)
Definition rows_sorted (A : csr) : Prop :=
  forall i p q, 0 <= i < csr_n A -> znth 0 (csr_ptr A) i <= p <= q -> q < znth 0 (csr_ptr A) (i + 1) ->
    znth 0 (csr_index A) p <= znth 0 (csr_index A) q.

(** Compressed columns *)
Record csc := mkCsc { csc_n : Z; csc_np : Z; csc_nnz : Z;
  csc_ptr : list Z; csc_index : list Z; csc_value : list T }.
Definition csc_entries (A : csc) : list entry :=
  flat_map (fun j =>
    map (fun k => (znth 0 (csc_index A) k, j, znth s0 (csc_value A) k))
        (zrange (znth 0 (csc_ptr A) j) (znth 0 (csc_ptr A) (j + 1))))
    (zrange 0 (csc_np A)).
Definition csc_ok (A : csc) : Prop :=
  ptr_ok (csc_np A) (csc_ptr A) /\ 0 <= csc_n A <= csc_np A /\
  znth 0 (csc_ptr A) (csc_np A) = csc_nnz A /\
  csc_nnz A <= zlen (csc_index A) /\ csc_nnz A <= zlen (csc_value A) /\
  (forall k, 0 <= k < csc_nnz A -> 0 <= znth 0 (csc_index A) k < csc_n A).

(** Coordinates *)
Record coo := mkCoo { coo_n : Z; coo_np : Z; coo_nnz : Z;
  coo_row : list Z; coo_col : list Z; coo_value : list T }.
Definition coo_entries (A : coo) : list entry :=
  map (fun k => (znth 0 (coo_row A) k, znth 0 (coo_col A) k, znth s0 (coo_value A) k))
      (zrange 0 (coo_nnz A)).
Definition coo_ok (A : coo) : Prop :=
  0 <= coo_n A <= coo_np A /\ 0 <= coo_nnz A /\
  coo_nnz A <= zlen (coo_row A) /\ coo_nnz A <= zlen (coo_col A) /\ coo_nnz A <= zlen (coo_value A) /\
  (forall k, 0 <= k < coo_nnz A ->
     0 <= znth 0 (coo_row A) k < coo_n A /\ 0 <= znth 0 (coo_col A) k < coo_np A).

(** Modified sparse rows: value[0..n-1] is the diagonal, row i's other entries
    are at positions index[i] .. index[i+1]-1 (column in index, value in value). *)
Record msr := mkMsr { msr_n : Z; msr_np : Z; msr_nnz : Z; msr_ndz : Z;
  msr_index : list Z; msr_value : list T }.
Definition msr_entries (A : msr) : list entry :=
  flat_map (fun i =>
    (i, i, znth s0 (msr_value A) i) ::
    map (fun k => (i, znth 0 (msr_index A) k, znth s0 (msr_value A) k))
        (zrange (znth 0 (msr_index A) i) (znth 0 (msr_index A) (i + 1))))
    (zrange 0 (msr_n A)).
Definition msr_ok (A : msr) : Prop :=
  0 <= msr_n A <= msr_np A /\ 0 <= msr_nnz A /\ 0 <= msr_ndz A /\
  msr_nnz A + msr_ndz A + 1 <= zlen (msr_index A) /\
  msr_nnz A + msr_ndz A + 1 <= zlen (msr_value A) /\
  znth 0 (msr_index A) 0 = msr_n A + 1 /\
  (forall i, 0 <= i < msr_n A -> znth 0 (msr_index A) i <= znth 0 (msr_index A) (i + 1)) /\
  znth 0 (msr_index A) (msr_n A) <= msr_nnz A + msr_ndz A + 1 /\
  (forall k, msr_n A < k < znth 0 (msr_index A) (msr_n A) -> 0 <= znth 0 (msr_index A) k < msr_np A).

(** number of entries of an MSR matrix once zero diagonals are dropped *)
Definition msr_stored (A : msr) : Z :=
  znth 0 (msr_index A) (msr_n A) - (msr_n A + 1) +
  zlen (filter (fun i => nonzero (znth s0 (msr_value A) i)) (zrange 0 (msr_n A))).
(** row i of E has something stored at (i,i) *)
Definition has_diag (E : list entry) (i : Z) : bool := existsb (at_ij i i) E.

(** ELLPACK: maxnzr columns of n slots each *)
Record ell := mkEll { ell_n : Z; ell_np : Z; ell_maxnzr : Z;
  ell_index : list Z; ell_value : list T }.
Definition ell_entries (A : ell) : list entry :=
  flat_map (fun j =>
    map (fun i => (i, znth 0 (ell_index A) (j * ell_n A + i), znth s0 (ell_value A) (j * ell_n A + i)))
        (zrange 0 (ell_n A)))
    (zrange 0 (ell_maxnzr A)).
Definition ell_ok (A : ell) : Prop :=
  0 <= ell_n A <= ell_np A /\ 0 <= ell_maxnzr A /\
  ell_n A * ell_maxnzr A <= zlen (ell_index A) /\ ell_n A * ell_maxnzr A <= zlen (ell_value A) /\
  (forall k, 0 <= k < ell_n A * ell_maxnzr A -> 0 <= znth 0 (ell_index A) k < ell_np A).

(** Dense, column major *)
Record dns := mkDns { dns_n : Z; dns_np : Z; dns_value : list T }.
Definition dns_entries (A : dns) : list entry :=
  flat_map (fun j => map (fun i => (i, j, znth s0 (dns_value A) (j * dns_n A + i))) (zrange 0 (dns_n A)))
    (zrange 0 (dns_np A)).
Definition dns_ok (A : dns) : Prop :=
  0 <= dns_n A <= dns_np A /\ dns_n A * dns_np A <= zlen (dns_value A).

(** Diagonals (single-thread layout): diagonal d has offset index[d] and its
    element in row i is value[d*n+i].  Slots whose column falls outside the
    n columns hold nothing. *)
Record dia := mkDia { dia_n : Z; dia_np : Z; dia_nnd : Z;
  dia_index : list Z; dia_value : list T }.
Definition dia_entries (A : dia) : list entry :=
  flat_map (fun d =>
    map (fun i => (i, i + znth 0 (dia_index A) d, znth s0 (dia_value A) (d * dia_n A + i)))
        (zrange (Z.max 0 (- znth 0 (dia_index A) d)) (Z.min (dia_n A) (dia_n A - znth 0 (dia_index A) d))))
    (zrange 0 (dia_nnd A)).
Definition dia_ok (A : dia) : Prop :=
  0 <= dia_n A /\ dia_np A = dia_n A /\ 0 <= dia_nnd A /\
  dia_nnd A <= zlen (dia_index A) /\ dia_nnd A * dia_n A <= zlen (dia_value A).

(** Jagged diagonals (single-thread layout): the j-th jagged diagonal occupies
    ptr[j] .. ptr[j+1]-1; its t-th element belongs to row perm[t]. *)
Record jad := mkJad { jad_n : Z; jad_np : Z; jad_nnz : Z; jad_maxnzr : Z;
  jad_perm : list Z; jad_ptr : list Z; jad_index : list Z; jad_value : list T }.
Definition jad_entries (A : jad) : list entry :=
  flat_map (fun j =>
    map (fun k => (znth 0 (jad_perm A) (k - znth 0 (jad_ptr A) j),
                   znth 0 (jad_index A) k, znth s0 (jad_value A) k))
        (zrange (znth 0 (jad_ptr A) j) (znth 0 (jad_ptr A) (j + 1))))
    (zrange 0 (jad_maxnzr A)).
Definition jad_ok (A : jad) : Prop :=
  0 <= jad_n A <= jad_np A /\ ptr_ok (jad_maxnzr A) (jad_ptr A) /\
  znth 0 (jad_ptr A) (jad_maxnzr A) = jad_nnz A /\
  jad_n A <= zlen (jad_perm A) /\
  Permutation (map (znth 0 (jad_perm A)) (zrange 0 (jad_n A))) (zrange 0 (jad_n A)) /\
  jad_nnz A <= zlen (jad_index A) /\ jad_nnz A <= zlen (jad_value A) /\
  (forall k, 0 <= k < jad_nnz A -> 0 <= znth 0 (jad_index A) k < jad_np A) /\
  (forall j, 0 <= j < jad_maxnzr A -> znth 0 (jad_ptr A) (j + 1) - znth 0 (jad_ptr A) j <= jad_n A).

(** Block sparse rows: nr block rows of bnr x bnc blocks stored column major;
    rows >= n and columns >= n of the last blocks are padding. *)
Record bsr := mkBsr { bsr_n : Z; bsr_np : Z; bsr_bnr : Z; bsr_bnc : Z; bsr_nr : Z; bsr_bnnz : Z;
  bsr_bptr : list Z; bsr_bindex : list Z; bsr_value : list T }.
Definition bsr_entries (A : bsr) : list entry :=
  flat_map (fun bi =>
    flat_map (fun bj =>
      flat_map (fun j =>
        map (fun i => (bi * bsr_bnr A + i, znth 0 (bsr_bindex A) bj * bsr_bnc A + j,
                       znth s0 (bsr_value A) (bj * (bsr_bnr A * bsr_bnc A) + j * bsr_bnr A + i)))
            (zrange 0 (bsr_bnr A)))
        (zrange 0 (bsr_bnc A)))
      (zrange (znth 0 (bsr_bptr A) bi) (znth 0 (bsr_bptr A) (bi + 1))))
    (zrange 0 (bsr_nr A)).

(** Block sparse columns *)
Record bsc := mkBsc { bsc_n : Z; bsc_np : Z; bsc_bnr : Z; bsc_bnc : Z; bsc_nc : Z; bsc_bnnz : Z;
  bsc_bptr : list Z; bsc_bindex : list Z; bsc_value : list T }.
Definition bsc_entries (A : bsc) : list entry :=
  flat_map (fun bj =>
    flat_map (fun bi =>
      flat_map (fun j =>
        map (fun i => (znth 0 (bsc_bindex A) bi * bsc_bnr A + i, bj * bsc_bnc A + j,
                       znth s0 (bsc_value A) (bi * (bsc_bnr A * bsc_bnc A) + j * bsc_bnr A + i)))
            (zrange 0 (bsc_bnr A)))
        (zrange 0 (bsc_bnc A)))
      (zrange (znth 0 (bsc_bptr A) bj) (znth 0 (bsc_bptr A) (bj + 1))))
    (zrange 0 (bsc_nc A)).

(** rows and columns >= n exist only as padding, which must be zero *)
Definition bsr_ok (A : bsr) : Prop :=
  0 < bsr_n A /\ bsr_np A = bsr_n A /\ 0 < bsr_bnr A /\ 0 < bsr_bnc A /\
  (bsr_nr A - 1) * bsr_bnr A < bsr_n A <= bsr_nr A * bsr_bnr A /\
  ptr_ok (bsr_nr A) (bsr_bptr A) /\ znth 0 (bsr_bptr A) (bsr_nr A) = bsr_bnnz A /\
  bsr_bnnz A <= zlen (bsr_bindex A) /\ bsr_bnnz A * (bsr_bnr A * bsr_bnc A) <= zlen (bsr_value A) /\
  (forall k, 0 <= k < bsr_bnnz A -> 0 <= znth 0 (bsr_bindex A) k /\ znth 0 (bsr_bindex A) k * bsr_bnc A < bsr_np A) /\
  in_shape (bsr_n A) (bsr_np A) (nz (bsr_entries A)).
Definition bsc_ok (A : bsc) : Prop :=
  0 < bsc_n A /\ bsc_np A = bsc_n A /\ 0 < bsc_bnr A /\ 0 < bsc_bnc A /\
  (bsc_nc A - 1) * bsc_bnc A < bsc_n A <= bsc_nc A * bsc_bnc A /\
  ptr_ok (bsc_nc A) (bsc_bptr A) /\ znth 0 (bsc_bptr A) (bsc_nc A) = bsc_bnnz A /\
  bsc_bnnz A <= zlen (bsc_bindex A) /\ bsc_bnnz A * (bsc_bnr A * bsc_bnc A) <= zlen (bsc_value A) /\
  (forall k, 0 <= k < bsc_bnnz A -> 0 <= znth 0 (bsc_bindex A) k /\ znth 0 (bsc_bindex A) k * bsc_bnr A < bsc_n A) /\
  in_shape (bsc_n A) (bsc_np A) (nz (bsc_entries A)).

(** Variable blocks: block row bi holds rows row[bi] .. row[bi+1]-1, block column
    b holds columns col[b] .. col[b+1]-1; block bj of the structure starts at
    value[ptr[bj]] and is stored column major. *)
Record vbr := mkVbr { vbr_n : Z; vbr_np : Z; vbr_nr : Z; vbr_nc : Z; vbr_bnnz : Z; vbr_nnz : Z;
  vbr_row : list Z; vbr_col : list Z; vbr_ptr : list Z;
  vbr_bptr : list Z; vbr_bindex : list Z; vbr_value : list T }.
Definition vbr_entries (A : vbr) : list entry :=
  flat_map (fun bi =>
    flat_map (fun bj =>
      flat_map (fun j =>
        map (fun i => (znth 0 (vbr_row A) bi + i, znth 0 (vbr_col A) (znth 0 (vbr_bindex A) bj) + j,
                       znth s0 (vbr_value A) (znth 0 (vbr_ptr A) bj + j * (znth 0 (vbr_row A) (bi + 1) - znth 0 (vbr_row A) bi) + i)))
            (zrange 0 (znth 0 (vbr_row A) (bi + 1) - znth 0 (vbr_row A) bi)))
        (zrange 0 (znth 0 (vbr_col A) (znth 0 (vbr_bindex A) bj + 1) - znth 0 (vbr_col A) (znth 0 (vbr_bindex A) bj))))
      (zrange (znth 0 (vbr_bptr A) bi) (znth 0 (vbr_bptr A) (bi + 1))))
    (zrange 0 (vbr_nr A)).
Definition vbr_ok (A : vbr) : Prop :=
  0 <= vbr_n A <= vbr_np A /\
  ptr_ok (vbr_nr A) (vbr_row A) /\ znth 0 (vbr_row A) (vbr_nr A) = vbr_n A /\
  ptr_ok (vbr_nc A) (vbr_col A) /\ znth 0 (vbr_col A) (vbr_nc A) = vbr_np A /\
  ptr_ok (vbr_nr A) (vbr_bptr A) /\ znth 0 (vbr_bptr A) (vbr_nr A) = vbr_bnnz A /\
  vbr_bnnz A <= zlen (vbr_bindex A) /\ vbr_bnnz A <= zlen (vbr_ptr A) /\
  (forall bj, 0 <= bj < vbr_bnnz A -> 0 <= znth 0 (vbr_bindex A) bj < vbr_nc A) /\
  (forall bi bj, 0 <= bi < vbr_nr A -> znth 0 (vbr_bptr A) bi <= bj < znth 0 (vbr_bptr A) (bi + 1) ->
     0 <= znth 0 (vbr_ptr A) bj /\
     znth 0 (vbr_ptr A) bj + (znth 0 (vbr_row A) (bi + 1) - znth 0 (vbr_row A) bi) *
        (znth 0 (vbr_col A) (znth 0 (vbr_bindex A) bj + 1) - znth 0 (vbr_col A) (znth 0 (vbr_bindex A) bj)) <= zlen (vbr_value A)).

End Spec.

Arguments entry T : clear implicits.
Arguments csr T : clear implicits.
Arguments csc T : clear implicits.
Arguments coo T : clear implicits.
Arguments msr T : clear implicits.
Arguments ell T : clear implicits.
Arguments dns T : clear implicits.
Arguments dia T : clear implicits.
Arguments jad T : clear implicits.
Arguments bsr T : clear implicits.
Arguments bsc T : clear implicits.
Arguments vbr T : clear implicits.
