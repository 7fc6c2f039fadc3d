(** Model of lis_matrix_solveh_bsr (one thread, double precision), lis_matrix_bsr.c:1773-2088. *)
Require Import ZArith List Bool.
From Verif Require Import Base Scalar Spec BsrSolve.
Import ListNotations.
Open Scope Z_scope.

Section S.
Context {T : Type} {S : Scalar T}.

(** the products with the conjugate transpose of a block, by block order: 1796, 1807-1808,
    1822-1824, 1841-1849 for WD and 1800, 1814-1815, 1831-1833, 1852-1862 for U in LOWER; the same
    shapes in UPPER (1872-1943) and SSOR (1951-2083); c1 and c2 stand for what is applied to the
    first and to the other elements of a column in the unrolled cases 2 and 3, where some of the
    conj() are missing.  The code writes x[i]*conj(WD) in case 1, the other order here. *)
Definition bmulh (c1 c2 : T -> T) (b : Z) (v : list T) (j : Z) (w : list T) : res (list T) :=
  match b, w with
  | 1, [t0] => a <- rd v j ;; Ok [smul (c1 a) t0]
  | 2, [t0; t1] =>
      a0 <- rd v (j * 4 + 0) ;; a1 <- rd v (j * 4 + 1) ;; a2 <- rd v (j * 4 + 2) ;; a3 <- rd v (j * 4 + 3) ;;
      Ok [sadd (smul (c1 a0) t0) (smul (c2 a1) t1); sadd (smul (c1 a2) t0) (smul (c2 a3) t1)]
  | 3, [t0; t1; t2] =>
      a0 <- rd v (j * 9 + 0) ;; a1 <- rd v (j * 9 + 1) ;; a2 <- rd v (j * 9 + 2) ;;
      a3 <- rd v (j * 9 + 3) ;; a4 <- rd v (j * 9 + 4) ;; a5 <- rd v (j * 9 + 5) ;;
      a6 <- rd v (j * 9 + 6) ;; a7 <- rd v (j * 9 + 7) ;; a8 <- rd v (j * 9 + 8) ;;
      Ok [sadd (sadd (smul (c1 a0) t0) (smul (c2 a1) t1)) (smul (c2 a2) t2);
          sadd (sadd (smul (c1 a3) t0) (smul (c2 a4) t1)) (smul (c2 a5) t2);
          sadd (sadd (smul (c1 a6) t0) (smul (c2 a7) t1)) (smul (c2 a8) t2)]
  | _, _ =>
      let bs := b * b in
      for_ 0 b (fun jj r =>
        t <- for_ 0 b (fun ii t => a <- rd v (j * bs + jj * b + ii) ;; y <- rd w ii ;; Ok (sadd t (smul (c1 a) y))) s0 ;;
        wr r jj t) (alloc b (fun _ => s0))
  end.
(** the loop over the blocks of block row i; with bnr = 1 the code reads x[i], which is w[0] *)
Definition hrow (c1 c2 : T -> T) (b : Z) (B : bsr T) (i : Z) (w x : list T) : res (list T) :=
  js <- rd (bsr_bptr B) i ;; je <- rd (bsr_bptr B) (i + 1) ;;
  for_ js je (fun j x => jj <- rd (bsr_bindex B) j ;; r <- bmulh c1 c2 b (bsr_value B) j w ;; bstore_sub b x jj r) x.
(** one block row; st: the product with WD is stored in x *)
Definition hstep (cw c1 c2 : T -> T) (st : bool) (b : Z) (B : bsr T) (wd x : list T) (i : Z) : res (list T) :=
  y <- bload b x i ;; w <- bmulh cw sconj b wd i y ;;
  x <- (if st then bstore b x i w else Ok x) ;;
  hrow c1 c2 b B i w x.
(** lis_vector_copy(B,X) (1788) copies n elements *)
Definition copyx (n : Z) (bv x : list T) : res (list T) := for_ 0 n (fun i x => v <- rd bv i ;; wr x i v) x.
Definition noconj (a : T) : T := a.
(** LIS_MATRIX_LOWER (1790-1868): no conj() on the later elements of the columns of U in the cases
    2 (1814-1815) and 3 (1831-1833); the extra arguments are not read in the other cases *)
Definition solveh_lower_bsr (A : bsplit T) (wd bv x : list T) : res (list T) :=
  x <- copyx (bs_n A) bv x ;;
  for_ 0 (bs_nr A) (fun i x => hstep sconj sconj noconj true (bs_b A) (bs_U A) wd x i) x.
(** LIS_MATRIX_UPPER (1869-1947): no conj() on WD in case 1 (1875), none on the later elements of
    the columns of L in case 2 (1893-1894) *)
Definition solveh_upper_bsr (A : bsplit T) (wd bv x : list T) : res (list T) :=
  x <- copyx (bs_n A) bv x ;;
  for_down (bs_nr A - 1) 0 (fun i x => hstep (if bs_b A =? 1 then noconj else sconj) sconj (if bs_b A =? 2 then noconj else sconj) true (bs_b A) (bs_L A) wd x i) x.
(** LIS_MATRIX_SSOR (1948-2084) *)
Definition solveh_ssor_bsr (A : bsplit T) (wd bv x : list T) : res (list T) :=
  x <- copyx (bs_n A) bv x ;;
  x <- for_ 0 (bs_nr A) (fun i x => hstep sconj sconj sconj false (bs_b A) (bs_U A) wd x i) x ;;
  for_down (bs_nr A - 1) 0 (fun i x => hstep sconj sconj sconj true (bs_b A) (bs_L A) wd x i) x.
End S.
