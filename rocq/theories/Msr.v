(** Model of the CSR <-> MSR conversions, src/matrix/lis_matrix_msr.c *)
Require Import ZArith List.
From Verif Require Import Base Scalar Spec.
Import ListNotations.
Open Scope Z_scope.

Section Msr.
Context {T : Type} {S : Scalar T}.

(** lis_matrix_convert_csr2msr, lis_matrix_msr.c:982-1110, one thread.
    lis_matrix_malloc_msr (170-195) allocates nnz+ndz+1 entries, uninitialised. *)
Definition convert_csr2msr (jw ji : Z -> Z) (jv : Z -> T) (A : csr T) : res (msr T) :=
  let n := csr_n A in let nnz := csr_nnz A in
  let iw := alloc (n + 1) jw in
  iw <- for_ 0 (n + 1) (fun i iw => wr iw i 0) iw ;;
  iw <- for_ 0 n (fun i iw =>
      iw <- wr iw (i + 1) 0 ;;
      lo <- rd (csr_ptr A) i ;; hi <- rd (csr_ptr A) (i + 1) ;;
      for_ lo hi (fun j iw =>
        c <- rd (csr_index A) j ;;
        if i =? c then wr iw (i + 1) 1 else Ok iw) iw) iw ;;
  count <- for_ 0 n (fun i count => c <- rd iw (i + 1) ;; Ok (count + c)) 0 ;;
  iw <- for_ 0 n (fun i iw =>
      hi <- rd (csr_ptr A) (i + 1) ;; lo <- rd (csr_ptr A) i ;; c <- rd iw (i + 1) ;;
      wr iw (i + 1) (hi - lo - c)) iw ;;
  let ndz := n - count in
  let index := alloc (nnz + ndz + 1) ji in
  let value := alloc (nnz + ndz + 1) jv in
  iw <- wr iw 0 (n + 1) ;;
  iw <- for_ 0 n (fun i iw => a <- rd iw (i + 1) ;; b <- rd iw i ;; wr iw (i + 1) (a + b)) iw ;;
  index <- for_ 0 (n + 1) (fun i index => p <- rd iw i ;; wr index i p) index ;;
  ' (index, value) <- for_ 0 n (fun i s =>
      let '(index, value) := s in
      k <- rd index i ;;
      lo <- rd (csr_ptr A) i ;; hi <- rd (csr_ptr A) (i + 1) ;;
      ' (k, index, value) <- for_ lo hi (fun j s =>
          let '(k, index, value) := s in
          jj <- rd (csr_index A) j ;;
          v <- rd (csr_value A) j ;;
          if jj =? i then
            (value <- wr value i v ;; Ok (k, index, value))
          else
            (value <- wr value k v ;;
             index <- wr index k jj ;;
             Ok (k + 1, index, value))) (k, index, value) ;;
      Ok (index, value)) (index, value) ;;
  Ok (mkMsr n (csr_np A) nnz ndz index value).

(** lis_matrix_convert_msr2csr, lis_matrix_msr.c:1115-1200.  Allocates nnz
    entries, whatever the number of entries written. *)
Definition convert_msr2csr (jp ji : Z -> Z) (jv : Z -> T) (A : msr T) : res (csr T) :=
  let n := msr_n A in let nnz := msr_nnz A in
  let ptr := alloc (n + 1) jp in
  let index := alloc nnz ji in
  let value := alloc nnz jv in
  ptr <- for_ 0 n (fun i ptr =>
      b <- rd (msr_index A) (i + 1) ;; a <- rd (msr_index A) i ;;
      ptr <- wr ptr (i + 1) (b - a) ;;
      v <- rd (msr_value A) i ;;
      if nonzero v then incr ptr (i + 1) else Ok ptr) ptr ;;
  ptr <- wr ptr 0 0 ;;
  ptr <- for_ 0 n (fun i ptr => a <- rd ptr (i + 1) ;; b <- rd ptr i ;; wr ptr (i + 1) (a + b)) ptr ;;
  ' (index, value) <- for_ 0 n (fun i s =>
      let '(index, value) := s in
      k <- rd ptr i ;;
      v <- rd (msr_value A) i ;;
      ' (k, index, value) <-
        (if nonzero v then
           (value <- wr value k v ;; index <- wr index k i ;; Ok (k + 1, index, value))
         else Ok (k, index, value)) ;;
      lo <- rd (msr_index A) i ;; hi <- rd (msr_index A) (i + 1) ;;
      ' (k, index, value) <- for_ lo hi (fun j s =>
          let '(k, index, value) := s in
          v <- rd (msr_value A) j ;;
          value <- wr value k v ;;
          c <- rd (msr_index A) j ;;
          index <- wr index k c ;;
          Ok (k + 1, index, value)) (k, index, value) ;;
      Ok (index, value)) (index, value) ;;
  Ok (mkCsr n (msr_np A) nnz ptr index value).

End Msr.
