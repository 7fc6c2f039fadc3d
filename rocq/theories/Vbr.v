(** Model of the CSR <-> VBR conversions, src/matrix/lis_matrix_vbr.c *)
Require Import ZArith List.
From Verif Require Import Base Scalar Spec Sort Dia Bsr.
Import ListNotations.
Open Scope Z_scope.

Section Vbr.
Context {T : Type} {S : Scalar T}.

(** lis_matrix_get_vbr_rowcol, lis_matrix_vbr.c:240-331 (the active version, #if 0 excluded).
    The result is the common content of row and col, entries 0..nr, and nr. *)
Definition get_vbr_rowcol (jw : Z -> Z) (A : csr T) : res (Z * list Z) :=
  let n := csr_n A in
  iw <- for_ 0 (n + 1) (fun i iw => wr iw i 0) (alloc (n + 1) jw) ;;
  iw <- for_ 0 n (fun i iw =>
      lo <- rd (csr_ptr A) i ;; hi <- rd (csr_ptr A) (i + 1) ;;
      if lo <? hi then
        (jj <- rd (csr_index A) lo ;;
         iw <- wr iw jj 1 ;;
         ' (jj, iw) <- for_ (lo + 1) hi (fun j s =>
             let '(_, iw) := s in
             jj <- rd (csr_index A) j ;;
             kk <- rd (csr_index A) (j - 1) ;;
             if negb (kk =? jj - 1) then
               (iw <- wr iw jj 1 ;; iw <- wr iw (kk + 1) 1 ;; Ok (jj, iw))
             else Ok (jj, iw)) (jj, iw) ;;
         wr iw (jj + 1) 1)
      else Ok iw) iw ;;
  iw <- wr iw 0 0 ;;
  ' (k, iw) <- for_ 1 (n + 1) (fun i s =>
      let '(k, iw) := s in
      x <- rd iw i ;;
      if negb (x =? 0) then (iw <- wr iw (k + 1) i ;; Ok (k + 1, iw)) else Ok (k, iw)) (0, iw) ;;
  row <- for_ 0 (k + 1) (fun i row => x <- rd iw i ;; wr row i x) (alloc (k + 1) jw) ;;
  Ok (k, row).

(** lis_matrix_convert_csr2vbr, lis_matrix_vbr.c:501-741, after row/col have been
    determined (from the caller or from get_vbr_rowcol); one thread; gn = n. *)
Definition csr2vbr_with (jb jc jp2 jw jw2 jw3 jptr ji : Z -> Z) (jv : Z -> T)
    (nr nc : Z) (row col : list Z) (A : csr T) : res (vbr T) :=
  let n := csr_n A in
  (* p2bindex *)
  p2b <- for_ 0 nc (fun i p2b =>
      lo <- rd col i ;; hi <- rd col (i + 1) ;;
      for_ lo hi (fun j p2b => wr p2b j i) p2b) (alloc n jp2) ;;
  count <- for_ 0 (nr + 1) (fun i count => wr count i 0) (alloc (nr + 1) jc) ;;
  iw <- for_ 0 nc (fun t iw => wr iw t 0) (alloc nc jw) ;;
  let iw2 := alloc nc jw2 in
  ' (iw, iw2, bptr, count) <- for_ 0 nr (fun i s =>
      let '(iw, iw2, bptr, count) := s in
      kk <- rd row i ;;
      r1 <- rd row (i + 1) ;;
      let bnr := r1 - kk in
      ' (iw, iw2, jj) <- for_ 0 (Z.min bnr (n - kk)) (fun ii s =>
          lo <- rd (csr_ptr A) (kk + ii) ;; hi <- rd (csr_ptr A) (kk + ii + 1) ;;
          for_ lo hi (fun j s =>
            let '(iw, iw2, jj) := s in
            x <- rd (csr_index A) j ;;
            bj <- rd p2b x ;;
            jpos <- rd iw bj ;;
            if jpos =? 0 then
              (iw <- wr iw bj 1 ;; iw2 <- wr iw2 jj bj ;; Ok (iw, iw2, jj + 1))
            else Ok (iw, iw2, jj)) s) (iw, iw2, 0) ;;
      ' (k, iw, count) <- for_ 0 jj (fun bj s =>
          let '(k, iw, count) := s in
          ii <- rd iw2 bj ;;
          iw <- wr iw ii 0 ;;
          c1 <- rd col (ii + 1) ;; c0 <- rd col ii ;;
          c <- rd count (i + 1) ;;
          count <- wr count (i + 1) (c + bnr * (c1 - c0)) ;;
          Ok (k + 1, iw, count)) (0, iw, count) ;;
      bptr <- wr bptr (i + 1) k ;;
      Ok (iw, iw2, bptr, count)) (iw, iw2, alloc (nr + 1) jb, count) ;;
  bptr <- prefix_sum nr bptr ;;
  bnnz <- rd bptr nr ;;
  count <- for_ 0 nr (fun i count => a <- rd count (i + 1) ;; c <- rd count i ;; wr count (i + 1) (a + c)) count ;;
  nnz <- rd count nr ;;
  (* second pass *)
  ptr <- for_ 0 nr (fun i ptr => j <- rd bptr i ;; c <- rd count i ;; wr ptr j c) (alloc (bnnz + 1) jptr) ;;
  iw <- for_ 0 nc (fun t iw => wr iw t 0) (alloc nc jw3) ;;
  ' (iw, bindex, value, ptr) <- for_ 0 nr (fun bi s =>
      let '(iw, bindex, value, ptr) := s in
      i <- rd row bi ;;
      kk <- rd bptr bi ;;
      kv <- rd ptr kk ;;
      r1 <- rd row (bi + 1) ;;
      let bnr := r1 - i in
      ' (iw, bindex, value, ptr, kk, kv) <- for_ 0 (Z.min bnr (n - i)) (fun ii s =>
          lo <- rd (csr_ptr A) (i + ii) ;; hi <- rd (csr_ptr A) (i + ii + 1) ;;
          for_ lo hi (fun k s =>
            let '(iw, bindex, value, ptr, kk, kv) := s in
            x <- rd (csr_index A) k ;;
            bj <- rd p2b x ;;
            c0 <- rd col bj ;;
            let j := x - c0 in
            jpos <- rd iw bj ;;
            if jpos =? 0 then
              (c1 <- rd col (bj + 1) ;;
               let ret := bnr * (c1 - c0) in
               let ij := j * bnr + ii in
               value <- for_ 0 ret (fun t value => wr value (kv + t) s0) value ;;
               bindex <- wr bindex kk bj ;;
               v <- rd (csr_value A) k ;;
               value <- wr value (kv + ij) v ;;
               iw <- wr iw bj (kv + 1) ;;
               ptr <- wr ptr (kk + 1) (kv + ret) ;;
               Ok (iw, bindex, value, ptr, kk + 1, kv + ret))
            else
              (v <- rd (csr_value A) k ;;
               value <- wr value (jpos + (j * bnr + ii) - 1) v ;;
               Ok (iw, bindex, value, ptr, kk, kv))) s) (iw, bindex, value, ptr, kk, kv) ;;
      lo <- rd bptr bi ;; hi <- rd bptr (bi + 1) ;;
      iw <- for_ lo hi (fun j iw => bj <- rd bindex j ;; wr iw bj 0) iw ;;
      Ok (iw, bindex, value, ptr)) (iw, alloc bnnz ji, alloc nnz jv, ptr) ;;
  Ok (mkVbr n (csr_np A) nr nc bnnz nnz row col ptr bptr bindex value).

(** lis_matrix_convert_csr2vbr when the caller gave no block partition (conv_row==NULL) *)
Definition convert_csr2vbr (jb jc jp2 jw jw2 jw3 jptr ji : Z -> Z) (jv : Z -> T) (is_sorted : bool) (A : csr T) : res (vbr T) :=
  A <- sort_csr is_sorted A ;;
  ' (nr, row) <- get_vbr_rowcol jw A ;;
  csr2vbr_with jb jc jp2 jw jw2 jw3 jptr ji jv nr nr row row A.

(** lis_matrix_convert_vbr2csr, lis_matrix_vbr.c:743-868 *)
Definition convert_vbr2csr (jp ji : Z -> Z) (jv : Z -> T) (A : vbr T) : res (csr T) :=
  let n := vbr_n A in let nr := vbr_nr A in
  ptr <- for_ 0 nr (fun bi ptr =>
      k <- rd (vbr_row A) bi ;; r1 <- rd (vbr_row A) (bi + 1) ;;
      for_ 0 (r1 - k) (fun i ptr => wr ptr (k + i + 1) 0) ptr) (alloc (n + 1) jp) ;;
  ptr <- for_ 0 nr (fun bi ptr =>
      k <- rd (vbr_row A) bi ;; r1 <- rd (vbr_row A) (bi + 1) ;;
      let bnr := r1 - k in
      lo <- rd (vbr_bptr A) bi ;; hi <- rd (vbr_bptr A) (bi + 1) ;;
      for_ lo hi (fun bj ptr =>
        b <- rd (vbr_bindex A) bj ;;
        c1 <- rd (vbr_col A) (b + 1) ;; c0 <- rd (vbr_col A) b ;;
        for_ 0 (c1 - c0) (fun j ptr =>
          for_ 0 bnr (fun i ptr =>
            p <- rd (vbr_ptr A) bj ;;
            v <- rd (vbr_value A) (p + j * bnr + i) ;;
            if nonzero v then incr ptr (k + i + 1) else Ok ptr) ptr) ptr) ptr) ptr ;;
  ptr <- prefix_sum n ptr ;;
  nnz <- rd ptr n ;;
  ' (index, value) <- for_ 0 nr (fun bi s =>
      l <- rd (vbr_row A) bi ;; r1 <- rd (vbr_row A) (bi + 1) ;;
      let bnr := r1 - l in
      for_ 0 bnr (fun i s =>
        let '(index, value) := s in
        k <- rd ptr (l + i) ;;
        lo <- rd (vbr_bptr A) bi ;; hi <- rd (vbr_bptr A) (bi + 1) ;;
        ' (k, index, value) <- for_ lo hi (fun bj s =>
            b <- rd (vbr_bindex A) bj ;;
            c1 <- rd (vbr_col A) (b + 1) ;; c0 <- rd (vbr_col A) b ;;
            for_ 0 (c1 - c0) (fun j s =>
              let '(k, index, value) := s in
              p <- rd (vbr_ptr A) bj ;;
              v <- rd (vbr_value A) (p + j * bnr + i) ;;
              if nonzero v then
                (value <- wr value k v ;;
                 index <- wr index k (c0 + j) ;;
                 Ok (k + 1, index, value))
              else Ok (k, index, value)) s) (k, index, value) ;;
        Ok (index, value)) s) (alloc nnz ji, alloc nnz jv) ;;
  Ok (mkCsr n (vbr_np A) nnz ptr index value).

End Vbr.
