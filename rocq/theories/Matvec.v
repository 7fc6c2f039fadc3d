(** Model of lis_matvec and lis_matvech (src/matvec/): y = A x and y = A^H x for
    an unsplit matrix in every storage format, without OpenMP and MPI
    (nprocs = 1: LIS_GET_ISIE gives is = 0, ie = n).  Threads are in Omp.v. *)
Require Import ZArith List Bool.
From Verif Require Import Base Scalar Spec.
Import ListNotations.
Open Scope Z_scope.

Section Matvec.
Context {T : Type} {S : Scalar T}.

(** y[i] += v *)
Definition acc (y : list T) (i : Z) (v : T) : res (list T) := c <- rd y i ;; wr y i (sadd c v).

(** for(i=0;i<n;i++) y[i] = 0.0 *)
Definition zero_to (n : Z) (y : list T) : res (list T) := for_ 0 n (fun i y => wr y i s0) y.

(** lis_matvec_csr, lis_matvec_csr.c:52-109, else branch *)
Definition matvec_csr (A : csr T) (x y : list T) : res (list T) :=
  for_ 0 (csr_n A) (fun i y =>
    is <- rd (csr_ptr A) i ;; ie <- rd (csr_ptr A) (i + 1) ;;
    t0 <- for_ is ie (fun j t0 =>
        j0 <- rd (csr_index A) j ;;
        v <- rd (csr_value A) j ;; w <- rd x j0 ;;
        Ok (sadd t0 (smul v w))) s0 ;;
    wr y i t0) y.

(** lis_matvech_csr, lis_matvec_csr.c:111-250, serial else branch *)
Definition matvech_csr (A : csr T) (x y : list T) : res (list T) :=
  y <- zero_to (csr_np A) y ;;
  for_ 0 (csr_n A) (fun i y =>
    js <- rd (csr_ptr A) i ;; je <- rd (csr_ptr A) (i + 1) ;;
    t <- rd x i ;;
    for_ js je (fun j y =>
      jj <- rd (csr_index A) j ;;
      v <- rd (csr_value A) j ;;
      acc y jj (smul (sconj v) t)) y) y.

(** lis_matvec_csc, lis_matvec_csc.c:52-145, serial else branch *)
Definition matvec_csc (A : csc T) (x y : list T) : res (list T) :=
  y <- zero_to (csc_n A) y ;;
  for_ 0 (csc_np A) (fun i y =>
    js <- rd (csc_ptr A) i ;; je <- rd (csc_ptr A) (i + 1) ;;
    t <- rd x i ;;
    for_ js je (fun j y =>
      jj <- rd (csc_index A) j ;;
      v <- rd (csc_value A) j ;;
      acc y jj (smul v t)) y) y.

(** lis_matvech_csc, lis_matvec_csc.c:147-195, else branch *)
Definition matvech_csc (A : csc T) (x y : list T) : res (list T) :=
  for_ 0 (csc_np A) (fun i y =>
    js <- rd (csc_ptr A) i ;; je <- rd (csc_ptr A) (i + 1) ;;
    t <- for_ js je (fun j t =>
        jj <- rd (csc_index A) j ;;
        v <- rd (csc_value A) j ;; w <- rd x jj ;;
        Ok (sadd t (smul (sconj v) w))) s0 ;;
    wr y i t) y.

(** lis_matvec_coo, lis_matvec_coo.c:49-88, else branch *)
Definition matvec_coo (A : coo T) (x y : list T) : res (list T) :=
  y <- zero_to (coo_n A) y ;;
  for_ 0 (coo_nnz A) (fun k y =>
    i <- rd (coo_row A) k ;; j <- rd (coo_col A) k ;;
    v <- rd (coo_value A) k ;; w <- rd x j ;;
    acc y i (smul v w)) y.

(** lis_matvech_coo, lis_matvec_coo.c:90-128, else branch: there is no conj() *)
Definition matvech_coo (A : coo T) (x y : list T) : res (list T) :=
  y <- zero_to (coo_n A) y ;;
  for_ 0 (coo_nnz A) (fun k y =>
    i <- rd (coo_row A) k ;; j <- rd (coo_col A) k ;;
    v <- rd (coo_value A) k ;; w <- rd x i ;;
    acc y j (smul v w)) y.

(** lis_matvec_msr, lis_matvec_msr.c:50-100, else branch *)
Definition matvec_msr (A : msr T) (x y : list T) : res (list T) :=
  for_ 0 (msr_n A) (fun i y =>
    d <- rd (msr_value A) i ;; xi <- rd x i ;;
    js <- rd (msr_index A) i ;; je <- rd (msr_index A) (i + 1) ;;
    t <- for_ js je (fun j t =>
        jj <- rd (msr_index A) j ;;
        v <- rd (msr_value A) j ;; w <- rd x jj ;;
        Ok (sadd t (smul v w))) (smul d xi) ;;
    wr y i t) y.

(** lis_matvech_msr, lis_matvec_msr.c:102-196, serial else branch *)
Definition matvech_msr (A : msr T) (x y : list T) : res (list T) :=
  y <- for_ 0 (msr_n A) (fun i y => v <- rd (msr_value A) i ;; w <- rd x i ;; wr y i (smul (sconj v) w)) y ;;
  for_ 0 (msr_n A) (fun i y =>
    t <- rd x i ;;
    js <- rd (msr_index A) i ;; je <- rd (msr_index A) (i + 1) ;;
    for_ js je (fun j y =>
      jj <- rd (msr_index A) j ;;
      v <- rd (msr_value A) j ;;
      acc y jj (smul (sconj v) t)) y) y.

(** lis_matvec_ell, lis_matvec_ell.c:50-134, else branch, one thread *)
Definition matvec_ell (A : ell T) (x y : list T) : res (list T) :=
  let n := ell_n A in
  y <- zero_to n y ;;
  for_ 0 (ell_maxnzr A) (fun j y =>
    for_ 0 n (fun i y =>
      v <- rd (ell_value A) (j * n + i) ;; c <- rd (ell_index A) (j * n + i) ;; w <- rd x c ;;
      acc y i (smul v w)) y) y.

(** lis_matvech_ell, lis_matvec_ell.c:136-247, serial else branch *)
Definition matvech_ell (A : ell T) (x y : list T) : res (list T) :=
  let n := ell_n A in
  y <- zero_to n y ;;
  for_ 0 (ell_maxnzr A) (fun j y =>
    for_ 0 n (fun i y =>
      c <- rd (ell_index A) (j * n + i) ;; v <- rd (ell_value A) (j * n + i) ;; w <- rd x i ;;
      acc y c (smul (sconj v) w)) y) y.

(** lis_matvec_dns, lis_matvec_dns.c:50-88, one thread *)
Definition matvec_dns (A : dns T) (x y : list T) : res (list T) :=
  let n := dns_n A in
  y <- zero_to n y ;;
  for_ 0 (dns_np A) (fun j y =>
    for_ 0 n (fun i y =>
      v <- rd (dns_value A) (j * n + i) ;; w <- rd x j ;;
      acc y i (smul v w)) y) y.

(** lis_matvech_dns, lis_matvec_dns.c:90-140, serial branch *)
Definition matvech_dns (A : dns T) (x y : list T) : res (list T) :=
  let n := dns_n A in
  for_ 0 (dns_np A) (fun j y =>
    t <- for_ 0 n (fun i t =>
        v <- rd (dns_value A) (j * n + i) ;; w <- rd x i ;;
        Ok (sadd t (smul (sconj v) w))) s0 ;;
    wr y j t) y.

(** lis_matvec_dia, lis_matvec_dia.c:50-168, else branch, one thread: k = j*n, ii = i *)
Definition matvec_dia (A : dia T) (x y : list T) : res (list T) :=
  let n := dia_n A in
  y <- zero_to n y ;;
  for_ 0 (dia_nnd A) (fun j y =>
    jj <- rd (dia_index A) j ;;
    for_ (Z.max 0 (- jj)) (Z.min n (n - jj)) (fun i y =>
      v <- rd (dia_value A) (j * n + i) ;; w <- rd x (jj + i) ;;
      acc y i (smul v w)) y) y.

(** lis_matvech_dia, lis_matvec_dia.c:170-351, serial else branch *)
Definition matvech_dia (A : dia T) (x y : list T) : res (list T) :=
  let n := dia_n A in
  y <- zero_to (dia_np A) y ;;
  for_ 0 (dia_nnd A) (fun j y =>
    jj <- rd (dia_index A) j ;;
    for_ (Z.max 0 (- jj)) (Z.min n (n - jj)) (fun i y =>
      v <- rd (dia_value A) (j * n + i) ;; w <- rd x i ;;
      acc y (jj + i) (smul (sconj v) w)) y) y.

(** lis_matvec_jad, lis_matvec_jad.c:51-199, else branch, one thread;
    w is A->work, n scalars.  The running k equals i - js. *)
Definition matvec_jad (jw : Z -> T) (A : jad T) (x y : list T) : res (list T) :=
  let n := jad_n A in
  w <- zero_to n (alloc n jw) ;;
  w <- for_ 0 (jad_maxnzr A) (fun j w =>
      js <- rd (jad_ptr A) j ;; je <- rd (jad_ptr A) (j + 1) ;;
      for_ js je (fun i w =>
        v <- rd (jad_value A) i ;; c <- rd (jad_index A) i ;; xv <- rd x c ;;
        acc w (i - js) (smul v xv)) w) w ;;
  for_ 0 n (fun i y => r <- rd (jad_perm A) i ;; v <- rd w i ;; wr y r v) y.

(** lis_matvech_jad, lis_matvec_jad.c:484-611, serial else branch *)
Definition matvech_jad (A : jad T) (x y : list T) : res (list T) :=
  y <- zero_to (jad_np A) y ;;
  for_ 0 (jad_maxnzr A) (fun i y =>
    js <- rd (jad_ptr A) i ;; je <- rd (jad_ptr A) (i + 1) ;;
    for_ js je (fun j y =>
      jj <- rd (jad_index A) j ;; v <- rd (jad_value A) j ;;
      r <- rd (jad_perm A) (j - js) ;; xv <- rd x r ;;
      acc y jj (smul (sconj v) xv)) y) y.

(** lis_matvec_bsr, lis_matvec_bsr.c:57-150, else branch: block sizes above 4.
    The running k equals bc*bs + j*bnr + i. *)
Definition matvec_bsr_gen (A : bsr T) (x y : list T) : res (list T) :=
  let bnr := bsr_bnr A in let bnc := bsr_bnc A in let bs := bnr * bnc in
  y <- zero_to (bsr_n A) y ;;
  for_ 0 (bsr_nr A) (fun bi y =>
    lo <- rd (bsr_bptr A) bi ;; hi <- rd (bsr_bptr A) (bi + 1) ;;
    for_ lo hi (fun bc y =>
      b <- rd (bsr_bindex A) bc ;;
      for_ 0 bnc (fun j y =>
        for_ 0 bnr (fun i y =>
          v <- rd (bsr_value A) (bc * bs + j * bnr + i) ;; w <- rd x (b * bnc + j) ;;
          acc y (bi * bnr + i) (smul v w)) y) y) y) y.

(** The sixteen unrolled kernels lis_matvec_bsr_{1..4}x{1..4},
    lis_matvec_bsr.c:152-858, else branches: local accumulators t0,t1,.. (here the
    list t of bnr scalars), one statement per block element in the order of the
    block's storage, then bnr assignments. *)
Definition matvec_bsr_unrolled (A : bsr T) (x y : list T) : res (list T) :=
  let bnr := bsr_bnr A in let bnc := bsr_bnc A in let bs := bnr * bnc in
  for_ 0 (bsr_nr A) (fun i y =>
    js <- rd (bsr_bptr A) i ;; je <- rd (bsr_bptr A) (i + 1) ;;
    t <- for_ js je (fun j t =>
        jj <- rd (bsr_bindex A) j ;;
        for_ 0 bnc (fun c t =>
          for_ 0 bnr (fun r t =>
            v <- rd (bsr_value A) (j * bs + c * bnr + r) ;; w <- rd x (jj * bnc + c) ;;
            acc t r (smul v w)) t) t) (alloc bnr (fun _ => s0)) ;;
    for_ 0 bnr (fun r y => v <- rd t r ;; wr y (bnr * i + r) v) y) y.

(** the choice in lis_matvec, lis_matvec.c:74-86 *)
Definition matvec_bsr (A : bsr T) (x y : list T) : res (list T) :=
  if (bsr_bnr A <=? 4) && (bsr_bnc A <=? 4) then matvec_bsr_unrolled A x y else matvec_bsr_gen A x y.

(** lis_matvech_bsr, lis_matvec_bsr.c:860-992, serial else branch *)
Definition matvech_bsr (A : bsr T) (x y : list T) : res (list T) :=
  let bnr := bsr_bnr A in let bnc := bsr_bnc A in let bs := bnr * bnc in
  y <- zero_to (bsr_n A) y ;;
  for_ 0 (bsr_nr A) (fun bi y =>
    lo <- rd (bsr_bptr A) bi ;; hi <- rd (bsr_bptr A) (bi + 1) ;;
    for_ lo hi (fun bc y =>
      b <- rd (bsr_bindex A) bc ;;
      for_ 0 bnc (fun j y =>
        for_ 0 bnr (fun i y =>
          v <- rd (bsr_value A) (bc * bs + j * bnr + i) ;; w <- rd x (bi * bnr + i) ;;
          acc y (b * bnc + j) (smul (sconj v) w)) y) y) y) y.

(** lis_matvec_bsc, lis_matvec_bsc.c:57-152, else branch, one thread *)
Definition matvec_bsc (A : bsc T) (x y : list T) : res (list T) :=
  let bnr := bsc_bnr A in let bnc := bsc_bnc A in let bs := bnr * bnc in
  y <- zero_to (bsc_n A) y ;;
  for_ 0 (bsc_nc A) (fun bi y =>
    lo <- rd (bsc_bptr A) bi ;; hi <- rd (bsc_bptr A) (bi + 1) ;;
    for_ lo hi (fun bc y =>
      b <- rd (bsc_bindex A) bc ;;
      for_ 0 bnc (fun j y =>
        for_ 0 bnr (fun i y =>
          v <- rd (bsc_value A) (bc * bs + j * bnr + i) ;; w <- rd x (bi * bnc + j) ;;
          acc y (b * bnr + i) (smul v w)) y) y) y) y.

(** lis_matvech_bsc, lis_matvec_bsc.c:722-854, serial else branch *)
Definition matvech_bsc (A : bsc T) (x y : list T) : res (list T) :=
  let bnr := bsc_bnr A in let bnc := bsc_bnc A in let bs := bnr * bnc in
  y <- zero_to (bsc_n A) y ;;
  for_ 0 (bsc_nc A) (fun bi y =>
    lo <- rd (bsc_bptr A) bi ;; hi <- rd (bsc_bptr A) (bi + 1) ;;
    for_ lo hi (fun bc y =>
      b <- rd (bsc_bindex A) bc ;;
      for_ 0 bnc (fun j y =>
        for_ 0 bnr (fun i y =>
          v <- rd (bsc_value A) (bc * bs + j * bnr + i) ;; w <- rd x (b * bnr + i) ;;
          acc y (bi * bnc + j) (smul (sconj v) w)) y) y) y) y.

(** lis_matvec_vbr, lis_matvec_vbr.c:52-143, else branch.  The running k equals
    ptr[bc] + (j - col[bj]) * (row[bi+1]-row[bi]) + (i - row[bi]). *)
Definition matvec_vbr (A : vbr T) (x y : list T) : res (list T) :=
  y <- zero_to (vbr_n A) y ;;
  for_ 0 (vbr_nr A) (fun bi y =>
    lo <- rd (vbr_bptr A) bi ;; hi <- rd (vbr_bptr A) (bi + 1) ;;
    for_ lo hi (fun bc y =>
      bj <- rd (vbr_bindex A) bc ;;
      k <- rd (vbr_ptr A) bc ;;
      c0 <- rd (vbr_col A) bj ;; c1 <- rd (vbr_col A) (bj + 1) ;;
      r0 <- rd (vbr_row A) bi ;; r1 <- rd (vbr_row A) (bi + 1) ;;
      ' (k, y) <- for_ c0 c1 (fun j s =>
        for_ r0 r1 (fun i s =>
          let '(k, y) := s in
          v <- rd (vbr_value A) k ;; w <- rd x j ;;
          y <- acc y i (smul v w) ;;
          Ok (k + 1, y)) s) (k, y) ;;
      Ok y) y) y.

(** lis_matvech_vbr, lis_matvec_vbr.c:145-337, serial else branch *)
Definition matvech_vbr (A : vbr T) (x y : list T) : res (list T) :=
  y <- zero_to (vbr_n A) y ;;
  for_ 0 (vbr_nr A) (fun bi y =>
    lo <- rd (vbr_bptr A) bi ;; hi <- rd (vbr_bptr A) (bi + 1) ;;
    for_ lo hi (fun bc y =>
      bj <- rd (vbr_bindex A) bc ;;
      k <- rd (vbr_ptr A) bc ;;
      c0 <- rd (vbr_col A) bj ;; c1 <- rd (vbr_col A) (bj + 1) ;;
      r0 <- rd (vbr_row A) bi ;; r1 <- rd (vbr_row A) (bi + 1) ;;
      ' (k, y) <- for_ c0 c1 (fun j s =>
        for_ r0 r1 (fun i s =>
          let '(k, y) := s in
          v <- rd (vbr_value A) k ;; w <- rd x i ;;
          y <- acc y j (smul (sconj v) w) ;;
          Ok (k + 1, y)) s) (k, y) ;;
      Ok y) y) y.

End Matvec.
