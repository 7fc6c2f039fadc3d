(** Model of the CSR <-> BSR conversions (src/matrix/lis_matrix_bsr.c) and of the
    CSC -> BSC, BSC -> CSR conversions (src/matrix/lis_matrix_bsc.c). *)
Require Import ZArith List.
From Verif Require Import Base Scalar Spec.
Import ListNotations.
Open Scope Z_scope.

(** The number of blocks, 1 + (n-1)/b with C's truncating division. *)
Definition nblocks (n b : Z) : Z := 1 + Z.quot (n - 1) b.

Section Bsr.
Context {T : Type} {S : Scalar T}.

(** First pass of lis_matrix_convert_csr2bsr, lis_matrix_bsr.c:405-446 (one thread,
    the #else branch of USE_MPI), and of lis_matrix_convert_csc2bsc, lis_matrix_bsc.c:402-455,
    which is the same loop with rows and columns exchanged.  Lines [0,nl) of the
    compressed structure are grouped into nb groups of b lines; minor index j is in
    block j/c.  Returns bptr with bptr[i+1] = number of different blocks in group i.
    The loop condition ii+kk<n && ii<b has the constant bound min(b, n-kk). *)
Definition block_count (n b c nb nc : Z) (ptr index : list Z) (jw jw2 : Z -> Z) (bptr : list Z) : res (list Z) :=
  iw <- for_ 0 nc (fun t iw => wr iw t 0) (alloc nc jw) ;;
  let iw2 := alloc nc jw2 in
  ' (iw, iw2, bptr) <- for_ 0 nb (fun i s =>
      let '(iw, iw2, bptr) := s in
      let kk := b * i in
      ' (iw, iw2, jj) <- for_ 0 (Z.min b (n - kk)) (fun ii s =>
          lo <- rd ptr (kk + ii) ;; hi <- rd ptr (kk + ii + 1) ;;
          for_ lo hi (fun j s =>
            let '(iw, iw2, jj) := s in
            x <- rd index j ;;
            let bj := Z.quot x c in
            jpos <- rd iw bj ;;
            if jpos =? 0 then
              (iw <- wr iw bj 1 ;; iw2 <- wr iw2 jj bj ;; Ok (iw, iw2, jj + 1))
            else Ok (iw, iw2, jj)) s) (iw, iw2, 0) ;;
      ' (k, iw) <- for_ 0 jj (fun bj s =>
          let '(k, iw) := s in
          ii <- rd iw2 bj ;;
          iw <- wr iw ii 0 ;;
          Ok (k + 1, iw)) (0, iw) ;;
      bptr <- wr bptr (i + 1) k ;;
      Ok (iw, iw2, bptr)) (iw, iw2, bptr) ;;
  Ok bptr.

(** Second pass, lis_matrix_bsr.c:475-529 / lis_matrix_bsc.c:484-541.
    [loc j ii] is the offset inside a block: j*bnr + ii for BSR, j + ii*bnc for BSC. *)
Definition block_fill (n b c bs nb nc : Z) (loc : Z -> Z -> Z) (ptr index : list Z) (vals : list T)
    (jw : Z -> Z) (bptr bindex : list Z) (value : list T) : res (list Z * list T) :=
  iw <- for_ 0 nc (fun t iw => wr iw t 0) (alloc nc jw) ;;
  ' (iw, bindex, value) <- for_ 0 nb (fun bi s =>
      let '(iw, bindex, value) := s in
      let i := bi * b in
      kk <- rd bptr bi ;;
      ' (iw, bindex, value, kk) <- for_ 0 (Z.min b (n - i)) (fun ii s =>
          lo <- rd ptr (i + ii) ;; hi <- rd ptr (i + ii + 1) ;;
          for_ lo hi (fun k s =>
            let '(iw, bindex, value, kk) := s in
            x <- rd index k ;;
            let bj := Z.quot x c in
            let j := Z.rem x c in
            jpos <- rd iw bj ;;
            if jpos =? 0 then
              (let kv := kk * bs in
               iw <- wr iw bj (kv + 1) ;;
               bindex <- wr bindex kk bj ;;
               value <- for_ 0 bs (fun jj value => wr value (kv + jj) s0) value ;;
               v <- rd vals k ;;
               value <- wr value (kv + loc j ii) v ;;
               Ok (iw, bindex, value, kk + 1))
            else
              (v <- rd vals k ;;
               value <- wr value (jpos + loc j ii - 1) v ;;
               Ok (iw, bindex, value, kk))) s) (iw, bindex, value, kk) ;;
      lo <- rd bptr bi ;; hi <- rd bptr (bi + 1) ;;
      iw <- for_ lo hi (fun j iw => bj <- rd bindex j ;; wr iw bj 0) iw ;;
      Ok (iw, bindex, value)) (iw, bindex, value) ;;
  Ok (bindex, value).

(** bptr[0]=0; bptr[i+1] += bptr[i], lis_matrix_bsr.c:448-452 *)
Definition prefix_sum (nb : Z) (bptr : list Z) : res (list Z) :=
  bptr <- wr bptr 0 0 ;;
  for_ 0 nb (fun i bptr => a <- rd bptr (i + 1) ;; c <- rd bptr i ;; wr bptr (i + 1) (a + c)) bptr.

(** lis_matrix_convert_csr2bsr, lis_matrix_bsr.c:351-553; n == np, no MPI, one thread *)
Definition convert_csr2bsr (jb jw jw2 jw3 ji : Z -> Z) (jv : Z -> T) (bnr bnc : Z) (A : csr T) : res (bsr T) :=
  let n := csr_n A in
  let nr := nblocks n bnr in let nc := nblocks n bnc in
  bptr <- block_count n bnr bnc nr nc (csr_ptr A) (csr_index A) jw jw2 (alloc (nr + 1) jb) ;;
  bptr <- prefix_sum nr bptr ;;
  bnnz <- rd bptr nr ;;
  let nnz := bnnz * bnr * bnc in
  ' (bindex, value) <- block_fill n bnr bnc (bnr * bnc) nr nc (fun j ii => j * bnr + ii)
      (csr_ptr A) (csr_index A) (csr_value A) jw3 bptr (alloc bnnz ji) (alloc nnz jv) ;;
  Ok (mkBsr n (csr_np A) bnr bnc nr bnnz bptr bindex value).

(** lis_matrix_convert_bsr2csr, lis_matrix_bsr.c:556-684 (no MPI).
    The break at bi*bnr+i==n bounds the loop by min(bnr, n - bi*bnr). *)
Definition convert_bsr2csr (jp ji : Z -> Z) (jv : Z -> T) (A : bsr T) : res (csr T) :=
  let n := bsr_n A in let nr := bsr_nr A in let bnr := bsr_bnr A in let bnc := bsr_bnc A in
  let bs := bnr * bnc in
  ptr <- for_ 0 (n + 1) (fun i ptr => wr ptr i 0) (alloc (n + 1) jp) ;;
  ptr <- for_ptr nr (bsr_bptr A) (fun bi bj ptr =>
      for_ 0 bnc (fun j ptr =>
        for_ 0 bnr (fun i ptr =>
          v <- rd (bsr_value A) (bj * bs + j * bnr + i) ;;
          if nonzero v then incr ptr (bi * bnr + i + 1) else Ok ptr) ptr) ptr) ptr ;;
  ptr <- for_ 0 n (fun i ptr => a <- rd ptr (i + 1) ;; b <- rd ptr i ;; wr ptr (i + 1) (a + b)) ptr ;;
  nnz <- rd ptr n ;;
  ' (index, value) <- for_ 0 nr (fun bi s =>
      for_ 0 (Z.min bnr (n - bi * bnr)) (fun i s =>
        let '(index, value) := s in
        k <- rd ptr (bi * bnr + i) ;;
        lo <- rd (bsr_bptr A) bi ;; hi <- rd (bsr_bptr A) (bi + 1) ;;
        ' (k, index, value) <- for_ lo hi (fun bj s =>
            for_ 0 bnc (fun j s =>
              let '(k, index, value) := s in
              v <- rd (bsr_value A) (bj * bs + j * bnr + i) ;;
              if nonzero v then
                (value <- wr value k v ;;
                 b <- rd (bsr_bindex A) bj ;;
                 index <- wr index k (b * bnc + j) ;;
                 Ok (k + 1, index, value))
              else Ok (k, index, value)) s) (k, index, value) ;;
        Ok (index, value)) s) (alloc nnz ji, alloc nnz jv) ;;
  Ok (mkCsr n (bsr_np A) nnz ptr index value).

(** lis_matrix_convert_csc2bsc, lis_matrix_bsc.c:352-560; n == np, no MPI, one thread.
    Note the offset j + ii*bnc, lines 518 and 525. *)
Definition convert_csc2bsc (jb jw jw2 jw3 ji : Z -> Z) (jv : Z -> T) (bnr bnc : Z) (A : csc T) : res (bsc T) :=
  let n := csc_n A in let np := csc_np A in
  let nr := nblocks n bnr in let nc := nblocks n bnc in
  bptr <- block_count np bnc bnr nc nr (csc_ptr A) (csc_index A) jw jw2 (alloc (nc + 1) jb) ;;
  bptr <- prefix_sum nc bptr ;;
  bnnz <- rd bptr nc ;;
  let nnz := bnnz * bnr * bnc in
  ' (bindex, value) <- block_fill np bnc bnr (bnr * bnc) nc nr (fun j ii => j + ii * bnc)
      (csc_ptr A) (csc_index A) (csc_value A) jw3 bptr (alloc bnnz ji) (alloc nnz jv) ;;
  Ok (mkBsc n np bnr bnc nc bnnz bptr bindex value).

(** lis_matrix_convert_bsc2csr, lis_matrix_bsc.c:563-735, one thread.
    The break at bj*bnc+j==n bounds the loop by min(bnc, n - bj*bnc). *)
Definition convert_bsc2csr (jw jp ji : Z -> Z) (jv : Z -> T) (A : bsc T) : res (csr T) :=
  let n := bsc_n A in let nc := bsc_nc A in let bnr := bsc_bnr A in let bnc := bsc_bnc A in
  let bs := bnr * bnc in
  iw <- for_ 0 n (fun i iw => wr iw i 0) (alloc n jw) ;;
  iw <- for_ 0 nc (fun bj iw =>
      for_ 0 bnc (fun j iw =>
        lo <- rd (bsc_bptr A) bj ;; hi <- rd (bsc_bptr A) (bj + 1) ;;
        for_ lo hi (fun bi iw =>
          for_ 0 bnr (fun i iw =>
            v <- rd (bsc_value A) (bi * bs + j * bnr + i) ;;
            if nonzero v then (b <- rd (bsc_bindex A) bi ;; incr iw (b * bnr + i)) else Ok iw) iw) iw) iw) iw ;;
  ptr <- for_ 0 n (fun i ptr => w <- rd iw i ;; wr ptr (i + 1) w) (alloc (n + 1) jp) ;;
  ptr <- prefix_sum n ptr ;;
  nnz <- rd ptr n ;;
  iw <- for_ 0 n (fun i iw => k <- rd ptr i ;; wr iw i k) iw ;;
  ' (iw, index, value) <- for_ 0 nc (fun bj s =>
      for_ 0 (Z.min bnc (n - bj * bnc)) (fun j s =>
        lo <- rd (bsc_bptr A) bj ;; hi <- rd (bsc_bptr A) (bj + 1) ;;
        for_ lo hi (fun bi s =>
          for_ 0 bnr (fun i s =>
            let '(iw, index, value) := s in
            v <- rd (bsc_value A) (bi * bs + j * bnr + i) ;;
            if nonzero v then
              (b <- rd (bsc_bindex A) bi ;;
               k <- rd iw (b * bnr + i) ;;
               iw <- wr iw (b * bnr + i) (k + 1) ;;
               value <- wr value k v ;;
               index <- wr index k (bj * bnc + j) ;;
               Ok (iw, index, value))
            else Ok (iw, index, value)) s) s) s) (iw, alloc nnz ji, alloc nnz jv) ;;
  Ok (mkCsr n (bsc_np A) nnz ptr index value).

End Bsr.
