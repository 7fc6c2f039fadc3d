(** Model of lis_matrix_convert and lis_matrix_set_blocksize (src/matrix/lis_matrix_ops.c)
    on one process and one thread.  Not modelled here: the RCO (assembling) source, see
    Assemble.v, and the split forms other than CSR's. *)
Require Import ZArith List Bool.
From Verif Require Import Base Scalar Spec Split Sort Csc Coo Dns Ell Msr Dia Jad Bsr Vbr Copy.
Import ListNotations.
Open Scope Z_scope.

(** the fields conv_bnr, conv_bnc, conv_row, conv_col of the destination;
    lis_matrix_init (lis_matrix.c:83-84) puts 2, 2, NULL, NULL *)
Record conv := mkConv { cv_bnr : Z; cv_bnc : Z; cv_rowcol : option (list Z * list Z) }.
Definition conv_init : conv := mkConv 2 2 None.

(** lis_matrix_set_blocksize, lis_matrix_ops.c:69-124, for a matrix of n rows.
    With row and col given, n elements of each are copied and conv_bnr, conv_bnc are left alone. *)
Definition set_blocksize (jr jc : Z -> Z) (n bnr bnc : Z) (row col : option (list Z)) (c : conv) : res (Z * conv) :=
  if (bnr <=? 0) || (bnc <=? 0) then Ok (LIS_ERR_ILL_ARG, c)
  else match row, col with
  | None, None => Ok (LIS_SUCCESS, mkConv bnr bnc (cv_rowcol c))
  | Some row, Some col =>
      ' (r, l) <- for_ 0 n (fun i s => r <- cp row i (fst s) ;; l <- cp col i (snd s) ;; Ok (r, l)) (alloc n jr, alloc n jc) ;;
      Ok (LIS_SUCCESS, mkConv (cv_bnr c) (cv_bnc c) (Some (r, l)))
  | _, _ => Ok (LIS_ERR_ILL_ARG, c)
  end.

Section S.
Context {T : Type} {S : Scalar T}.
(** contents of the k-th malloc'ed integer / scalar array *)
Variable J : Z -> Z -> Z.
Variable JV : Z -> Z -> T.

(** first switch, lis_matrix_ops.c:152-245: any type to CSR *)
Definition to_csr (m : amat T) : res (csr T) :=
  match m with
  | MCsr A => Ok A
  | MCsc A => convert_csc2csr (J 0) (J 1) (J 2) (JV 0) A
  | MMsr A => convert_msr2csr (J 0) (J 1) (JV 0) A
  | MDia A => convert_dia2csr (J 0) (J 1) (J 2) (JV 0) A
  | MEll A => convert_ell2csr (J 0) (J 1) (J 2) (JV 0) A
  | MJad A => convert_jad2csr (J 0) (J 1) (J 2) (JV 0) A
  | MBsr A => convert_bsr2csr (J 0) (J 1) (JV 0) A
  | MBsc A => convert_bsc2csr (J 0) (J 1) (J 2) (JV 0) A
  | MVbr A => convert_vbr2csr (J 0) (J 1) (JV 0) A
  | MCoo A => ' (B, _) <- convert_coo2csr (J 0) (J 1) (JV 0) A ;; Ok B
  | MDns A => convert_dns2csr (J 0) (J 1) (JV 0) A
  end.

(** second switch, lis_matrix_ops.c:264-306: CSR to type ty; None: not implemented.
    [sorted] is the is_sorted flag of the CSR matrix. *)
Definition from_csr (ty : Z) (c : conv) (sorted : bool) (A : csr T) : res (option (amat T)) :=
  if ty =? 7 then B <- convert_csr2bsr (J 10) (J 11) (J 12) (J 13) (J 14) (JV 10) (cv_bnr c) (cv_bnc c) A ;; Ok (Some (MBsr B))
  else if ty =? 2 then B <- convert_csr2csc (J 10) (J 11) (J 12) (JV 10) A ;; Ok (Some (MCsc B))
  else if ty =? 3 then B <- convert_csr2msr (J 10) (J 11) (JV 10) A ;; Ok (Some (MMsr B))
  else if ty =? 5 then B <- convert_csr2ell (J 10) (JV 10) A ;; Ok (Some (MEll B))
  else if ty =? 4 then ' (B, _) <- convert_csr2dia (J 10) (J 11) (JV 10) sorted A ;; Ok (Some (MDia B))
  else if ty =? 6 then B <- convert_csr2jad (J 10) (J 11) (J 12) (J 13) (JV 10) A ;; Ok (Some (MJad B))
  else if ty =? 8 then
    C <- convert_csr2csc (J 10) (J 11) (J 12) (JV 10) A ;;
    B <- convert_csc2bsc (J 20) (J 21) (J 22) (J 23) (J 24) (JV 20) (cv_bnr c) (cv_bnc c) C ;; Ok (Some (MBsc B))
  else if ty =? 9 then
    B <- (match cv_rowcol c with
          | None => convert_csr2vbr (J 10) (J 11) (J 12) (J 13) (J 14) (J 15) (J 16) (J 17) (JV 10) sorted A
          | Some (row, col) => csr2vbr_with (J 10) (J 11) (J 12) (J 13) (J 14) (J 15) (J 16) (J 17) (JV 10) (cv_bnr c) (cv_bnc c) row col A
          end) ;; Ok (Some (MVbr B))
  else if ty =? 11 then B <- convert_csr2dns (JV 10) A ;; Ok (Some (MDns B))
  else if ty =? 10 then B <- convert_csr2coo (J 10) (J 11) (JV 10) A ;; Ok (Some (MCoo B))
  else Ok None.

(** lis_matrix_set_* followed by lis_matrix_assemble at the end of every lis_matrix_convert_* *)
Definition store (m : amat T) (A : mobj T) : Z * mobj T :=
  let '(err, B) := assemble (set_mat m A) in
  if err =? LIS_SUCCESS then (err, B) else (err, mkObj (ob_status B) (ob_type B) (ob_n B) (ob_np B) None (ob_split B)).

(** lis_matrix_convert, lis_matrix_ops.c:126-318.  [block], [sorted]: is_block and is_sorted
    of Ain; a CSR matrix made on the way is not marked sorted. *)
Definition convert (block sorted : bool) (c : conv) (Ain Aout : mobj T) : res (Z * mobj T) :=
  if (ob_status Ain <=? 0) && (0 <? ob_n Ain) then Ok (LIS_ERR_ILL_ARG, Aout)
  else
    (* lis_matrix_merge: CSR only *)
    Ain <- (match ob_split Ain with
            | None => Ok Ain
            | Some P => A <- merge_csr (J 30) (J 31) (JV 30) P ;; Ok (mkObj (ob_status Ain) (ob_type Ain) (ob_n Ain) (ob_np Ain) (Some (MCsr A)) None)
            end) ;;
    let ty := ob_type Aout in
    if (ob_type Ain =? ty) && negb block then copy (J 40) (JV 40) Ain Aout
    else match ob_mat Ain with
    | None => UB
    | Some (MCsr A) =>
        r <- from_csr ty c sorted A ;;
        match r with None => Ok (LIS_ERR_NOT_IMPLEMENTED, Aout) | Some m => Ok (store m Aout) end
    | Some (MCsc A) =>
        if ty =? 8 then
          (B <- convert_csc2bsc (J 20) (J 21) (J 22) (J 23) (J 24) (JV 20) (cv_bnr c) (cv_bnc c) A ;; Ok (store (MBsc B) Aout))
        else
          (B <- to_csr (MCsc A) ;;
           let '(err, tmp) := store (MCsr B) (duplicate Ain) in
           if negb (err =? LIS_SUCCESS) then Ok (err, Aout)
           else if ty =? 1 then Ok (LIS_SUCCESS, tmp)
           else (r <- from_csr ty c false B ;;
                 match r with None => Ok (LIS_ERR_NOT_IMPLEMENTED, Aout) | Some m => Ok (store m Aout) end))
    | Some m0 =>
        (B <- to_csr m0 ;;
         let '(err, tmp) := store (MCsr B) (duplicate Ain) in
         if negb (err =? LIS_SUCCESS) then Ok (err, Aout)
         else if ty =? 1 then Ok (LIS_SUCCESS, tmp)
         else (r <- from_csr ty c false B ;;
               match r with None => Ok (LIS_ERR_NOT_IMPLEMENTED, Aout) | Some m => Ok (store m Aout) end))
    end.
End S.
