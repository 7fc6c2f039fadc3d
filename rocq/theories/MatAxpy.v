(** Model of lis_matrix_axpy, lis_matrix_xpay, lis_matrix_axpyz and lis_matrix_shift_matrix
    (src/matrix/lis_matrix_ops.c, src/matrix/lis_matrix_dns.c) on one process and one thread,
    unsplit matrices; matrix objects as in Copy.v and Convert.v. *)
Require Import ZArith List Bool.
From Verif Require Import Base Scalar Spec Diag Copy Convert.
Import ListNotations.
Open Scope Z_scope.

Section S.
Context {T : Type} {S : Scalar T}.

(** lis_matrix_axpy_dns, lis_matrix_dns.c:280-335.  n and np are those of A; B is only seen
    through B->value. *)
Definition axpy_dns (alpha : T) (A : dns T) (b : list T) : res (list T) :=
  let n := dns_n A in
  for_ 0 (dns_np A) (fun j b => for_ 0 n (fun i b =>
    a <- rd (dns_value A) (j * n + i) ;; upd b (j * n + i) (fun v => sadd v (smul alpha a))) b) b.
(** lis_matrix_xpay_dns, lis_matrix_dns.c:338-393 *)
Definition xpay_dns (alpha : T) (A : dns T) (b : list T) : res (list T) :=
  let n := dns_n A in
  for_ 0 (dns_np A) (fun j b => for_ 0 n (fun i b =>
    a <- rd (dns_value A) (j * n + i) ;; upd b (j * n + i) (fun v => sadd a (smul alpha v))) b) b.
(** lis_matrix_axpyz_dns, lis_matrix_dns.c:396-451, C distinct from A and B *)
Definition axpyz_dns (alpha : T) (A : dns T) (b c : list T) : res (list T) :=
  let n := dns_n A in
  for_ 0 (dns_np A) (fun j c => for_ 0 n (fun i c =>
    a <- rd (dns_value A) (j * n + i) ;; v <- rd b (j * n + i) ;; upd c (j * n + i) (fun _ => sadd (smul alpha a) v)) c) c.

(** B->value of an object of any type *)
Definition amat_value (m : amat T) : list T :=
  match m with
  | MCsr A => csr_value A | MCsc A => csc_value A | MMsr A => msr_value A | MDia A => dia_value A | MEll A => ell_value A | MJad A => jad_value A
  | MBsr A => bsr_value A | MBsc A => bsc_value A | MVbr A => vbr_value A | MCoo A => coo_value A | MDns A => dns_value A
  end.
Definition put_value (m : amat T) (v : list T) : amat T :=
  match m with
  | MCsr A => MCsr (mkCsr (csr_n A) (csr_np A) (csr_nnz A) (csr_ptr A) (csr_index A) v)
  | MCsc A => MCsc (mkCsc (csc_n A) (csc_np A) (csc_nnz A) (csc_ptr A) (csc_index A) v)
  | MMsr A => MMsr (mkMsr (msr_n A) (msr_np A) (msr_nnz A) (msr_ndz A) (msr_index A) v)
  | MDia A => MDia (mkDia (dia_n A) (dia_np A) (dia_nnd A) (dia_index A) v)
  | MEll A => MEll (mkEll (ell_n A) (ell_np A) (ell_maxnzr A) (ell_index A) v)
  | MJad A => MJad (mkJad (jad_n A) (jad_np A) (jad_nnz A) (jad_maxnzr A) (jad_perm A) (jad_ptr A) (jad_index A) v)
  | MBsr A => MBsr (mkBsr (bsr_n A) (bsr_np A) (bsr_bnr A) (bsr_bnc A) (bsr_nr A) (bsr_bnnz A) (bsr_bptr A) (bsr_bindex A) v)
  | MBsc A => MBsc (mkBsc (bsc_n A) (bsc_np A) (bsc_bnr A) (bsc_bnc A) (bsc_nc A) (bsc_bnnz A) (bsc_bptr A) (bsc_bindex A) v)
  | MVbr A => MVbr (mkVbr (vbr_n A) (vbr_np A) (vbr_nr A) (vbr_nc A) (vbr_bnnz A) (vbr_nnz A) (vbr_row A) (vbr_col A) (vbr_ptr A) (vbr_bptr A) (vbr_bindex A) v)
  | MCoo A => MCoo (mkCoo (coo_n A) (coo_np A) (coo_nnz A) (coo_row A) (coo_col A) v)
  | MDns A => MDns (mkDns (dns_n A) (dns_np A) v)
  end.
Definition put_mat (O : mobj T) (m : amat T) : mobj T := mkObj (ob_status O) (ob_type O) (ob_n O) (ob_np O) (Some m) (ob_split O).

(** lis_matrix_check(A,LIS_MATRIX_CHECK_ALL), lis_matrix.c:168-195 *)
Definition unready (O : mobj T) : bool := (ob_status O <=? 0) && (0 <? ob_n O).
(** lis_matrix_axpy and lis_matrix_xpay, lis_matrix_ops.c:489-543: only the type of A is looked
    at, and the code of lis_matrix_*_dns is not returned *)
Definition matrix_op2 (f : T -> dns T -> list T -> res (list T)) (alpha : T) (A B : mobj T) : res (Z * mobj T) :=
  if unready A || unready B then Ok (LIS_ERR_ILL_ARG, B)
  else if ob_type A =? 11 then
    match ob_mat A, ob_mat B with
    | Some (MDns D), Some m => v <- f alpha D (amat_value m) ;; Ok (LIS_SUCCESS, put_mat B (put_value m v))
    | _, _ => UB
    end
  else Ok (LIS_ERR_NOT_IMPLEMENTED, B).
Definition matrix_axpy := matrix_op2 axpy_dns.
Definition matrix_xpay := matrix_op2 xpay_dns.
(** lis_matrix_axpyz, lis_matrix_ops.c:547-574 *)
Definition matrix_axpyz (alpha : T) (A B C : mobj T) : res (Z * mobj T) :=
  if unready A || unready B || unready C then Ok (LIS_ERR_ILL_ARG, C)
  else if ob_type A =? 11 then
    match ob_mat A, ob_mat B, ob_mat C with
    | Some (MDns D), Some mb, Some mc => v <- axpyz_dns alpha D (amat_value mb) (amat_value mc) ;; Ok (LIS_SUCCESS, put_mat C (put_value mc v))
    | _, _, _ => UB
    end
  else Ok (LIS_ERR_NOT_IMPLEMENTED, C).

(** lis_matrix_shift_matrix, lis_matrix_ops.c:833-856.  [blkA], [blkB]: the is_block flags, which
    lis_matrix_duplicate passes on; [cA]: conv_bnr, conv_bnc, conv_row, conv_col of A. *)
Definition shift_matrix (J : Z -> Z -> Z) (JV : Z -> Z -> T) (blkA blkB : bool) (cA : conv) (A B : mobj T) (sigma : T) : res (Z * mobj T) :=
  if unready B then Ok (LIS_ERR_ILL_ARG, A)                               (* lis_matrix_duplicate(B) *)
  else if unready A then UB          (* its error code is overwritten, Atmp stays uninitialised *)
  else
    let fresh O := mkObj MNULL 11 (ob_n O) (ob_np O) None None in       (* duplicate, set_type DNS *)
    ' (err, At) <- convert J JV blkA false conv_init A (fresh A) ;;
    if negb (err =? LIS_SUCCESS) then Ok (err, A)
    else
      ' (err, Bt) <- convert J JV blkB false conv_init B (fresh B) ;;
      if negb (err =? LIS_SUCCESS) then Ok (err, A)
      else match ob_mat At, ob_mat Bt with
      | Some (MDns a), Some (MDns b) =>
          v <- axpy_dns (sopp sigma) b (dns_value a) ;;
          ' (_, A') <- convert J JV blkA false cA (put_mat At (MDns (mkDns (dns_n a) (dns_np a) v))) A ;;   (* its code is ignored *)
          Ok (LIS_SUCCESS, A')
      | _, _ => UB
      end.
End S.
