(** Model of the CSR <-> CSC conversions, src/matrix/lis_matrix_csc.c
    (single-thread branches; the OpenMP branches are in CscOmp.v).
    [ji], [jv], ... are the arbitrary contents of freshly malloc'd arrays. *)
Require Import ZArith List.
From Verif Require Import Base Scalar Spec.
Import ListNotations.
Open Scope Z_scope.

Section Csc.
Context {T : Type} {S : Scalar T}.

(** lis_matrix_convert_csr2csc, lis_matrix_csc.c:904-1086, #else branch 1040-1068.
    Allocation failure is not modelled.  set_csc/assemble only store the arrays. *)
Definition convert_csr2csc (jp ji jw : Z -> Z) (jv : Z -> T) (A : csr T) : res (csc T) :=
  let n := csr_n A in let np := csr_np A in let nnz := csr_nnz A in
  let ptr := alloc (np + 1) jp in
  let index := alloc nnz ji in
  let value := alloc nnz jv in
  let iw := alloc (np + 1) jw in
  iw <- for_ 0 (np + 1) (fun i iw => wr iw i 0) iw ;;
  iw <- for_ptr n (csr_ptr A) (fun i j iw =>
          jj <- rd (csr_index A) j ;; incr iw jj) iw ;;
  ptr <- wr ptr 0 0 ;;
  ' (ptr, iw) <- for_ 0 np (fun i s =>
          let '(ptr, iw) := s in
          p <- rd ptr i ;; c <- rd iw i ;;
          ptr <- wr ptr (i + 1) (p + c) ;;
          p <- rd ptr i ;;
          iw <- wr iw i p ;;
          Ok (ptr, iw)) (ptr, iw) ;;
  ' (iw, index, value) <- for_ptr n (csr_ptr A) (fun i j s =>
          let '(iw, index, value) := s in
          k <- rd (csr_index A) j ;;
          l <- rd iw k ;;
          v <- rd (csr_value A) j ;;
          value <- wr value l v ;;
          index <- wr index l i ;;
          iw <- incr iw k ;;
          Ok (iw, index, value)) (iw, index, value) ;;
  Ok (mkCsc n np nnz ptr index value).

(** lis_matrix_convert_csc2csr, lis_matrix_csc.c:1091-1270, #else branch 1212-1240 *)
Definition convert_csc2csr (jp ji jw : Z -> Z) (jv : Z -> T) (A : csc T) : res (csr T) :=
  let n := csc_n A in let np := csc_np A in let nnz := csc_nnz A in
  let ptr := alloc (n + 1) jp in
  let index := alloc nnz ji in
  let value := alloc nnz jv in
  let iw := alloc n jw in
  iw <- for_ 0 n (fun i iw => wr iw i 0) iw ;;
  iw <- for_ptr np (csc_ptr A) (fun i j iw =>
          jj <- rd (csc_index A) j ;; incr iw jj) iw ;;
  ptr <- wr ptr 0 0 ;;
  ' (ptr, iw) <- for_ 0 n (fun i s =>
          let '(ptr, iw) := s in
          p <- rd ptr i ;; c <- rd iw i ;;
          ptr <- wr ptr (i + 1) (p + c) ;;
          p <- rd ptr i ;;
          iw <- wr iw i p ;;
          Ok (ptr, iw)) (ptr, iw) ;;
  ' (iw, index, value) <- for_ptr np (csc_ptr A) (fun i j s =>
          let '(iw, index, value) := s in
          k <- rd (csc_index A) j ;;
          l <- rd iw k ;;
          v <- rd (csc_value A) j ;;
          value <- wr value l v ;;
          index <- wr index l i ;;
          iw <- incr iw k ;;
          Ok (iw, index, value)) (iw, index, value) ;;
  Ok (mkCsr n np nnz ptr index value).

End Csc.
