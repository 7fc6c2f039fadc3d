(** Model of lis_matrix_split_bsc, lis_matrix_merge_bsc and lis_matrix_solve_bsc (one thread, double
    precision, square blocks, where nr = nc).  Apart from the names nr/nc and n/np the code of these
    functions is that of the BSR functions, line by line, on the arrays bptr, bindex and value of the
    BSC matrix; the model says the same: [bsc_arrays] is the matrix object with these fields, read by
    the BSR functions of BsrSolve.v. *)
Require Import ZArith List Bool.
From Verif Require Import Base Scalar Spec BsrSolve.
Import ListNotations.
Open Scope Z_scope.

Section S.
Context {T : Type} {S : Scalar T}.
(** the fields n, np, bnr, bnc, nc, bnnz, bptr, bindex, value of the object, and back *)
Definition bsc_arrays (A : bsc T) : bsr T := mkBsr (bsc_n A) (bsc_np A) (bsc_bnr A) (bsc_bnc A) (bsc_nc A) (bsc_bnnz A) (bsc_bptr A) (bsc_bindex A) (bsc_value A).
Definition arrays_bsc (B : bsr T) : bsc T := mkBsc (bsr_n B) (bsr_np B) (bsr_bnr B) (bsr_bnc B) (bsr_nr B) (bsr_bnnz B) (bsr_bptr B) (bsr_bindex B) (bsr_value B).
(** lis_matrix_split_bsc, lis_matrix_bsc.c:1073-1277, #else branches: as lis_matrix_bsr.c:1131-1335 *)
Definition split_bsc (jlp jli : Z -> Z) (jlv : Z -> T) (jup jui : Z -> Z) (juv jd : Z -> T) (A : bsc T) : res (bsplit T) := split_bsr jlp jli jlv jup jui juv jd (bsc_arrays A).
(** A->L and A->U of a split BSC matrix *)
Definition bsc_L (P : bsplit T) : bsc T := arrays_bsc (bs_L P).
Definition bsc_U (P : bsplit T) : bsc T := arrays_bsc (bs_U P).
(** lis_matrix_merge_bsc, lis_matrix_bsc.c:1280-1338: as lis_matrix_bsr.c:1338-1395 *)
Definition merge_bsc (jp ji : Z -> Z) (jv : Z -> T) (P : bsplit T) : res (bsc T) := B <- merge_bsr jp ji jv P ;; Ok (arrays_bsc B).
(** lis_matrix_solve_bsc, lis_matrix_bsc.c:1341-1713: as lis_matrix_bsr.c:1398-1768 *)
Definition solve_lower_bsc (P : bsplit T) (wd bv x : list T) : res (list T) := solve_lower_bsr P wd bv x.
Definition solve_upper_bsc (P : bsplit T) (wd bv x : list T) : res (list T) := solve_upper_bsr P wd bv x.
Definition solve_ssor_bsc (P : bsplit T) (wd bv x : list T) : res (list T) := solve_ssor_bsr P wd bv x.
End S.
