(** Model of lis_matrix_sort_csr (lis_matrix_csr.c) and of the CSR <-> DIA
    conversions, src/matrix/lis_matrix_dia.c *)
Require Import ZArith List.
From Verif Require Import Base Scalar Spec Sort.
Import ListNotations.
Open Scope Z_scope.

Section Dia.
Context {T : Type} {S : Scalar T}.

(** lis_matrix_sort_csr, lis_matrix_csr.c:1486-1521, unsplit matrix.
    [is_sorted] is A->is_sorted. *)
Definition sort_csr (is_sorted : bool) (A : csr T) : res (csr T) :=
  if is_sorted then Ok A else
  ' (index, value) <- for_ 0 (csr_n A) (fun i s =>
      let '(index, value) := s in
      lo <- rd (csr_ptr A) i ;; hi <- rd (csr_ptr A) (i + 1) ;;
      lis_sort_id lo (hi - 1) index value) (csr_index A, csr_value A) ;;
  Ok (mkCsr (csr_n A) (csr_np A) (csr_nnz A) (csr_ptr A) index value).

(** lis_matrix_convert_csr2dia, lis_matrix_dia.c:1191-1303, one thread.
    lis_matrix_malloc_dia allocates n*nnd of each array.
    The result also contains the (now sorted) input matrix. *)
Definition convert_csr2dia (jw ji : Z -> Z) (jv : Z -> T) (is_sorted : bool) (A : csr T) : res (dia T * csr T) :=
  let n := csr_n A in let nnz := csr_nnz A in
  let iw := alloc nnz jw in
  A <- sort_csr is_sorted A ;;
  iw <- for_ptr n (csr_ptr A) (fun i j iw => c <- rd (csr_index A) j ;; wr iw j (c - i)) iw ;;
  iw <- lis_sort_i 0 (nnz - 1) iw ;;
  k <- rd iw 0 ;;
  ' (nnd, k) <- for_ 1 nnz (fun i s =>
      let '(nnd, k) := s in
      x <- rd iw i ;;
      Ok (if negb (k =? x) then (nnd + 1, x) else (nnd, k))) (1, k) ;;
  let index := alloc (n * nnd) ji in
  let value := alloc (n * nnd) jv in
  k <- rd iw 0 ;;
  index <- wr index 0 k ;;
  ' (j, k, index) <- for_ 1 nnz (fun i s =>
      let '(j, k, index) := s in
      x <- rd iw i ;;
      if negb (k =? x) then
        (index <- wr index j x ;; Ok (j + 1, x, index))
      else Ok (j, k, index)) (1, k, index) ;;
  value <- for_ 0 (n * nnd) (fun t value => wr value t s0) value ;;
  value <- for_ 0 n (fun i value =>
      lo <- rd (csr_ptr A) i ;; hi <- rd (csr_ptr A) (i + 1) ;;
      ' (k, value) <- for_ lo hi (fun j s =>
          let '(k, value) := s in
          c <- rd (csr_index A) j ;;
          let jj := c - i in
          k <- while_ (Datatypes.S (Z.to_nat nnd)) (fun k => x <- rd index k ;; Ok (negb (jj =? x))) (fun k => Ok (k + 1)) k ;;
          v <- rd (csr_value A) j ;;
          value <- wr value (k * n + i) v ;;
          Ok (k, value)) (0, value) ;;
      Ok value) value ;;
  Ok (mkDia n (csr_np A) nnd index value, A).

(** lis_matrix_convert_dia2csr, lis_matrix_dia.c:1308-1432, one thread, no MPI. *)
Definition convert_dia2csr (jw jp ji : Z -> Z) (jv : Z -> T) (A : dia T) : res (csr T) :=
  let n := dia_n A in let nnd := dia_nnd A in
  let iw := alloc (n + 1) jw in
  iw <- wr iw 0 0 ;;
  iw <- for_ 0 n (fun t iw => wr iw (t + 1) 0) iw ;;
  iw <- for_ 0 nnd (fun j iw =>
      jj <- rd (dia_index A) j ;;
      let js := Z.max 0 (- jj) in let je := Z.min n (n - jj) in
      for_ js je (fun i iw =>
        v <- rd (dia_value A) (j * n + i) ;;
        if nonzero v then incr iw (i + 1) else Ok iw) iw) iw ;;
  iw <- for_ 0 n (fun i iw => a <- rd iw (i + 1) ;; b <- rd iw i ;; wr iw (i + 1) (a + b)) iw ;;
  nnz <- rd iw n ;;
  let ptr := alloc (n + 1) jp in
  let index := alloc nnz ji in
  let value := alloc nnz jv in
  ptr <- wr ptr 0 0 ;;
  ptr <- for_ 0 n (fun i ptr => p <- rd iw (i + 1) ;; wr ptr (i + 1) p) ptr ;;
  ' (iw, index, value) <- for_ 0 nnd (fun j s =>
      jj <- rd (dia_index A) j ;;
      let js := Z.max 0 (- jj) in let je := Z.min n (n - jj) in
      for_ js je (fun i s =>
        let '(iw, index, value) := s in
        v <- rd (dia_value A) (j * n + i) ;;
        if nonzero v then
          (k <- rd iw i ;;
           iw <- wr iw i (k + 1) ;;
           value <- wr value k v ;;
           index <- wr index k (i + jj) ;;
           Ok (iw, index, value))
        else Ok (iw, index, value)) s) (iw, index, value) ;;
  Ok (mkCsr n (dia_np A) nnz ptr index value).

End Dia.
