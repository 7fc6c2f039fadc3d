(** Model of lis_matrix_solveh_bsc (one thread, double precision, square blocks), lis_matrix_bsc.c:1716-2033.
    The code is that of lis_matrix_solveh_bsr (lis_matrix_bsr.c:1773-2090), line by line, except for
    the places where conj() is written; the model uses the same steps (BsrSolveH.v) with the places
    of this file. *)
Require Import ZArith List Bool.
From Verif Require Import Base Scalar Spec BsrSolve BsrSolveH BscSolve.
Import ListNotations.
Open Scope Z_scope.

Section S.
Context {T : Type} {S : Scalar T}.
(** LIS_MATRIX_LOWER (1733-1811): no conj() on WD in case 1 (1739), none on the later elements of
    the columns of U in the cases 2 (1757-1758) and 3 (1774-1776) *)
Definition solveh_lower_bsc (P : bsplit T) (wd bv x : list T) : res (list T) :=
  x <- copyx (bs_n P) bv x ;;
  for_ 0 (bs_nr P) (fun i x => hstep (if bs_b P =? 1 then noconj else sconj) sconj noconj true (bs_b P) (bs_U P) wd x i) x.
(** LIS_MATRIX_UPPER (1812-1890): no conj() on WD in case 1 (1818) *)
Definition solveh_upper_bsc (P : bsplit T) (wd bv x : list T) : res (list T) :=
  x <- copyx (bs_n P) bv x ;;
  for_down (bs_nr P - 1) 0 (fun i x => hstep (if bs_b P =? 1 then noconj else sconj) sconj sconj true (bs_b P) (bs_L P) wd x i) x.
(** LIS_MATRIX_SSOR (1891-2028): no conj() on WD in case 1 (1897, 1906), none on the later elements
    of the columns of U and L in case 2 (1923-1924, 1936-1937) *)
Definition solveh_ssor_bsc (P : bsplit T) (wd bv x : list T) : res (list T) :=
  x <- copyx (bs_n P) bv x ;;
  x <- for_ 0 (bs_nr P) (fun i x => hstep (if bs_b P =? 1 then noconj else sconj) sconj (if bs_b P =? 2 then noconj else sconj) false (bs_b P) (bs_U P) wd x i) x ;;
  for_down (bs_nr P - 1) 0 (fun i x => hstep (if bs_b P =? 1 then noconj else sconj) sconj (if bs_b P =? 2 then noconj else sconj) true (bs_b P) (bs_L P) wd x i) x.
End S.
