(** Model of the CSR <-> JAD conversions and of the two vector reorderings,
    src/matrix/lis_matrix_jad.c *)
Require Import ZArith List.
From Verif Require Import Base Scalar Spec Sort.
Import ListNotations.
Open Scope Z_scope.

Section Jad.
Context {T : Type} {S : Scalar T}.

(** lis_matrix_convert_csr2jad, lis_matrix_jad.c:1591-1770, one thread
    (nprocs = 1, is = 0, ie = n; then maxnzrpe[0] = maxnzr, nnzpe[0] = 0).
    lis_matrix_malloc_jad (jad.c:217-262) allocates perm[n], ptr[maxnzr+1],
    index[nnz], value[nnz]. *)
Definition convert_csr2jad (jw jq jp ji : Z -> Z) (jv : Z -> T) (A : csr T) : res (jad T) :=
  let n := csr_n A in let nnz := csr_nnz A in
  let iw := alloc n jw in
  ' (iw, maxnzr) <- for_ 0 n (fun i s =>
      let '(iw, m) := s in
      hi <- rd (csr_ptr A) (i + 1) ;; lo <- rd (csr_ptr A) i ;;
      iw <- wr iw i (hi - lo) ;;
      w <- rd iw i ;;
      Ok (iw, if m <? w then w else m)) (iw, 0) ;;
  let perm := alloc n jq in
  let ptr := alloc (maxnzr + 1) jp in
  let index := alloc nnz ji in
  let value := alloc nnz jv in
  ptr <- for_ 0 (maxnzr + 1) (fun i ptr => wr ptr i 0) ptr ;;
  ' (perm, ptr) <- for_ 0 n (fun i s =>
      let '(perm, ptr) := s in
      perm <- wr perm i i ;;
      w <- rd iw i ;;
      ptr <- for_ 0 w (fun j ptr => incr ptr (j + 1)) ptr ;;
      Ok (perm, ptr)) (perm, ptr) ;;
  ' (iw, perm) <- lis_sortr_ii 0 (n - 1) iw perm ;;
  ptr <- wr ptr 0 0 ;;
  ptr <- for_ 0 maxnzr (fun j ptr => a <- rd ptr (j + 1) ;; b <- rd ptr j ;; wr ptr (j + 1) (a + b)) ptr ;;
  ' (index, value) <- for_ 0 n (fun i s =>
      p <- rd perm i ;;
      js <- rd (csr_ptr A) p ;; je <- rd (csr_ptr A) (p + 1) ;;
      for_ js je (fun j s =>
        let '(index, value) := s in
        q <- rd ptr (j - js) ;;
        let l := q + i in
        v <- rd (csr_value A) j ;; value <- wr value l v ;;
        c <- rd (csr_index A) j ;; index <- wr index l c ;;
        Ok (index, value)) s) (index, value) ;;
  Ok (mkJad n (csr_np A) nnz maxnzr perm ptr index value).

(** lis_matrix_convert_jad2csr, lis_matrix_jad.c:2049-2175, serial branch 2119-2154.
    The C variable [k] (resp. [jj]) counts up in step with [i], from 0: it is
    i - ptr[j] here. *)
Definition convert_jad2csr (jw jp ji : Z -> Z) (jv : Z -> T) (A : jad T) : res (csr T) :=
  let n := jad_n A in let nnz := jad_nnz A in let maxnzr := jad_maxnzr A in
  let iw := alloc n jw in
  let ptr := alloc (n + 1) jp in
  let index := alloc nnz ji in
  let value := alloc nnz jv in
  ptr <- for_ 0 (n + 1) (fun i ptr => wr ptr i 0) ptr ;;
  ptr <- for_ 0 maxnzr (fun j ptr =>
      lo <- rd (jad_ptr A) j ;; hi <- rd (jad_ptr A) (j + 1) ;;
      for_ lo hi (fun i ptr => r <- rd (jad_perm A) (i - lo) ;; incr ptr (r + 1)) ptr) ptr ;;
  ptr <- for_ 0 n (fun i ptr => a <- rd ptr (i + 1) ;; b <- rd ptr i ;; wr ptr (i + 1) (a + b)) ptr ;;
  iw <- for_ 0 n (fun i iw => p <- rd ptr i ;; wr iw i p) iw ;;
  ' (iw, index, value) <- for_ 0 maxnzr (fun j s =>
      lo <- rd (jad_ptr A) j ;; hi <- rd (jad_ptr A) (j + 1) ;;
      for_ lo hi (fun i s =>
        let '(iw, index, value) := s in
        r <- rd (jad_perm A) (i - lo) ;;
        k <- rd iw r ;; iw <- wr iw r (k + 1) ;;
        v <- rd (jad_value A) i ;; value <- wr value k v ;;
        c <- rd (jad_index A) i ;; index <- wr index k c ;;
        Ok (iw, index, value)) s) (iw, index, value) ;;
  Ok (mkCsr n (jad_np A) nnz ptr index value).

(** lis_vector_sort_jad_order, lis_matrix_jad.c:2180-2216: t[i] = v[row[i]] *)
Definition vector_sort_jad_order (jt : Z -> T) (n np : Z) (perm : list Z) (v : list T) : res (list T) :=
  for_ 0 n (fun i t => r <- rd perm i ;; x <- rd v r ;; wr t i x) (alloc np jt).

(** lis_vector_sort_ascending_order, lis_matrix_jad.c:2218-2254: t[row[i]] = v[i] *)
Definition vector_sort_ascending_order (jt : Z -> T) (n np : Z) (perm : list Z) (v : list T) : res (list T) :=
  for_ 0 n (fun i t => r <- rd perm i ;; x <- rd v i ;; wr t r x) (alloc np jt).

End Jad.
