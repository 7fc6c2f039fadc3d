(** Model of the CSR <-> COO conversions, src/matrix/lis_matrix_coo.c *)
Require Import ZArith List.
From Verif Require Import Base Scalar Spec Sort.
Import ListNotations.
Open Scope Z_scope.

Section Coo.
Context {T : Type} {S : Scalar T}.

(** lis_matrix_convert_csr2coo, lis_matrix_coo.c:729-779 *)
Definition convert_csr2coo (jr jc : Z -> Z) (jv : Z -> T) (A : csr T) : res (coo T) :=
  let n := csr_n A in let nnz := csr_nnz A in
  let row := alloc nnz jr in
  let col := alloc nnz jc in
  let value := alloc nnz jv in
  ' (k, row, col, value) <- for_ptr n (csr_ptr A) (fun i j s =>
      let '(k, row, col, value) := s in
      row <- wr row k i ;;
      c <- rd (csr_index A) j ;;
      col <- wr col k c ;;
      v <- rd (csr_value A) j ;;
      value <- wr value k v ;;
      Ok (k + 1, row, col, value)) (0, row, col, value) ;;
  Ok (mkCoo n (csr_np A) nnz row col value).

(** lis_matrix_convert_coo2csr, lis_matrix_coo.c:784-851.  The input's own arrays
    are sorted in place: the function returns the modified input as well. *)
Definition convert_coo2csr (jp ji : Z -> Z) (jv : Z -> T) (A : coo T) : res (csr T * coo T) :=
  let n := coo_n A in let nnz := coo_nnz A in
  let ptr := alloc (n + 1) jp in
  let index := alloc nnz ji in
  let value := alloc nnz jv in
  ' (arow, (acol, avalue)) <- lis_sort_iid 0 (nnz - 1) (coo_row A) (coo_col A) (coo_value A) ;;
  ptr <- for_ 0 (n + 1) (fun i ptr => wr ptr i 0) ptr ;;
  ptr <- for_ 0 nnz (fun i ptr => r <- rd arow i ;; incr ptr (r + 1)) ptr ;;
  ptr <- for_ 0 n (fun i ptr =>
           a <- rd ptr (i + 1) ;; b <- rd ptr i ;; wr ptr (i + 1) (a + b)) ptr ;;
  ' (index, value) <- for_ptr n ptr (fun i j s =>
      let '(index, value) := s in
      v <- rd avalue j ;;
      value <- wr value j v ;;
      c <- rd acol j ;;
      index <- wr index j c ;;
      Ok (index, value)) (index, value) ;;
  Ok (mkCsr n (coo_np A) nnz ptr index value,
      mkCoo n (coo_np A) nnz arow acol avalue).

End Coo.
