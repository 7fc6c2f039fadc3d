(** Model of the CSR <-> ELL conversions, src/matrix/lis_matrix_ell.c *)
Require Import ZArith List.
From Verif Require Import Base Scalar Spec.
Import ListNotations.
Open Scope Z_scope.

Section Ell.
Context {T : Type} {S : Scalar T}.

(** lis_matrix_convert_csr2ell, lis_matrix_ell.c:958-1069, one thread
    (#else branch 1002-1008 for maxnzr; is=0, ie=n afterwards).
    lis_matrix_malloc_ell allocates n*maxnzr entries. *)
Definition convert_csr2ell (ji : Z -> Z) (jv : Z -> T) (A : csr T) : res (ell T) :=
  let n := csr_n A in
  maxnzr <- for_ 0 n (fun i maxnzr =>
      b <- rd (csr_ptr A) (i + 1) ;; a <- rd (csr_ptr A) i ;;
      let count := b - a in
      Ok (if maxnzr <? count then count else maxnzr)) 0 ;;
  let index := alloc (n * maxnzr) ji in
  let value := alloc (n * maxnzr) jv in
  ' (index, value) <- for_ 0 maxnzr (fun j s =>
      for_ 0 n (fun i s =>
        let '(index, value) := s in
        value <- wr value (j * n + i) s0 ;;
        index <- wr index (j * n + i) i ;;
        Ok (index, value)) s) (index, value) ;;
  ' (index, value) <- for_ 0 n (fun i s =>
      let '(index, value) := s in
      lo <- rd (csr_ptr A) i ;; hi <- rd (csr_ptr A) (i + 1) ;;
      ' (k, index, value) <- for_ lo hi (fun j s =>
          let '(k, index, value) := s in
          v <- rd (csr_value A) j ;;
          value <- wr value (k * n + i) v ;;
          c <- rd (csr_index A) j ;;
          index <- wr index (k * n + i) c ;;
          Ok (k + 1, index, value)) (0, index, value) ;;
      Ok (index, value)) (index, value) ;;
  Ok (mkEll n (csr_np A) maxnzr index value).

(** lis_matrix_convert_ell2csr, lis_matrix_ell.c:1074-1213, one thread.
    memset(&iw[is],0,..) is the first loop. *)
Definition convert_ell2csr (jw jp ji : Z -> Z) (jv : Z -> T) (A : ell T) : res (csr T) :=
  let n := ell_n A in let maxnzr := ell_maxnzr A in
  let iw := alloc n jw in
  let ptr := alloc (n + 1) jp in
  iw <- for_ 0 n (fun i iw => wr iw i 0) iw ;;
  iw <- for_ 0 maxnzr (fun j iw =>
      for_ 0 n (fun i iw =>
        v <- rd (ell_value A) (j * n + i) ;;
        if nonzero v then incr iw i else Ok iw) iw) iw ;;
  ptr <- for_ 0 (n + 1) (fun i ptr => wr ptr i 0) ptr ;;
  ptr <- for_ 0 n (fun i ptr => a <- rd ptr i ;; b <- rd iw i ;; wr ptr (i + 1) (a + b)) ptr ;;
  iw <- for_ 0 n (fun i iw => p <- rd ptr i ;; wr iw i p) iw ;;
  nnz <- rd ptr n ;;
  let index := alloc nnz ji in
  let value := alloc nnz jv in
  ' (iw, index, value) <- for_ 0 maxnzr (fun j s =>
      for_ 0 n (fun i s =>
        let '(iw, index, value) := s in
        v <- rd (ell_value A) (j * n + i) ;;
        if nonzero v then
          (k <- rd iw i ;;
           iw <- wr iw i (k + 1) ;;
           value <- wr value k v ;;
           c <- rd (ell_index A) (j * n + i) ;;
           index <- wr index k c ;;
           Ok (iw, index, value))
        else Ok (iw, index, value)) s) (iw, index, value) ;;
  Ok (mkCsr n (ell_np A) nnz ptr index value).

End Ell.
