(** Model of lis_matrix_copy on one process and one thread: the eleven
    lis_matrix_elements_copy_*, lis_matrix_copy_* (including the split branch of the CSR
    version), lis_matrix_set_*, the part of lis_matrix_assemble they reach, and
    lis_matrix_duplicate. *)
Require Import ZArith List Bool.
From Verif Require Import Base Scalar Spec Split.
Import ListNotations.
Open Scope Z_scope.

(** o[k] = a[k] *)
Definition cp {A} (a : list A) (k : Z) (o : list A) : res (list A) := v <- rd a k ;; wr o k v.
(** for(k=lo;k<hi;k++) o[k] = a[k];  also memcpy *)
Definition cp_range {A} (a : list A) (lo hi : Z) (o : list A) : res (list A) := for_ lo hi (fun k o => cp a k o) o.

Section S.
Context {T : Type} {S : Scalar T}.
(** junk in the malloc'ed index and value arrays *)
Variable ji : Z -> Z.
Variable jv : Z -> T.

(** lis_matrix_elements_copy_csr (lis_matrix_csr.c:278-310) and _csc (lis_matrix_csc.c:127-158),
    into arrays from lis_matrix_malloc_csr (lis_matrix_csr.c:170-200) *)
Definition elements_copy (n nnz : Z) (ptr index : list Z) (value : list T) : res (list Z * list Z * list T) :=
  p <- for_ 0 (n + 1) (fun i p => cp ptr i p) (alloc (n + 1) ji) ;;
  ' (ix, vl) <- for_ 0 n (fun i s =>
      js <- rd ptr i ;; je <- rd ptr (i + 1) ;;
      for_ js je (fun j s => vl <- cp value j (snd s) ;; ix <- cp index j (fst s) ;; Ok (ix, vl)) s)
    (alloc nnz ji, alloc nnz jv) ;;
  Ok (p, ix, vl).
Definition copy_elements_csr (A : csr T) : res (csr T) :=
  ' (p, ix, vl) <- elements_copy (csr_n A) (csr_nnz A) (csr_ptr A) (csr_index A) (csr_value A) ;;
  Ok (mkCsr (csr_n A) (csr_np A) (csr_nnz A) p ix vl).
Definition copy_elements_csc (A : csc T) : res (csc T) :=
  ' (p, ix, vl) <- elements_copy (csc_np A) (csc_nnz A) (csc_ptr A) (csc_index A) (csc_value A) ;;
  Ok (mkCsc (csc_n A) (csc_np A) (csc_nnz A) p ix vl).
(** lis_matrix_msr.c:198-231 *)
Definition copy_elements_msr (A : msr T) : res (msr T) :=
  let len := msr_nnz A + msr_ndz A + 1 in
  s <- for_ 0 (msr_n A + 1) (fun i s => ix <- cp (msr_index A) i (fst s) ;; vl <- cp (msr_value A) i (snd s) ;; Ok (ix, vl)) (alloc len ji, alloc len jv) ;;
  ' (ix, vl) <- for_ 0 (msr_n A) (fun i s =>
      js <- rd (msr_index A) i ;; je <- rd (msr_index A) (i + 1) ;;
      for_ js je (fun j s => vl <- cp (msr_value A) j (snd s) ;; ix <- cp (msr_index A) j (fst s) ;; Ok (ix, vl)) s) s ;;
  Ok (mkMsr (msr_n A) (msr_np A) (msr_nnz A) (msr_ndz A) ix vl).
(** lis_matrix_ell.c:193-230, #else *)
Definition copy_elements_ell (A : ell T) : res (ell T) :=
  let n := ell_n A in let len := n * ell_maxnzr A in
  ' (ix, vl) <- for_ 0 (ell_maxnzr A) (fun j s =>
      for_ 0 n (fun i s => vl <- cp (ell_value A) (j * n + i) (snd s) ;; ix <- cp (ell_index A) (j * n + i) (fst s) ;; Ok (ix, vl)) s)
    (alloc len ji, alloc len jv) ;;
  Ok (mkEll n (ell_np A) (ell_maxnzr A) ix vl).
(** lis_matrix_dia.c:195-226: two memcpy (is=0, ie=n); malloc_dia allocates n*nnd for both *)
Definition copy_elements_dia (A : dia T) : res (dia T) :=
  ix <- cp_range (dia_index A) 0 (dia_nnd A) (alloc (dia_n A * dia_nnd A) ji) ;;
  vl <- cp_range (dia_value A) 0 (dia_n A * dia_nnd A) (alloc (dia_n A * dia_nnd A) jv) ;;
  Ok (mkDia (dia_n A) (dia_np A) (dia_nnd A) ix vl).
(** lis_matrix_jad.c:269-314, one thread *)
Definition copy_elements_jad (A : jad T) : res (jad T) :=
  p <- for_ 0 (jad_maxnzr A + 1) (fun j p => cp (jad_ptr A) j p) (alloc (jad_maxnzr A + 1) ji) ;;
  perm <- for_ 0 (jad_n A) (fun i p => cp (jad_perm A) i p) (alloc (jad_n A) ji) ;;
  ' (ix, vl) <- for_ 0 (jad_maxnzr A) (fun j s =>
      is_ <- rd (jad_ptr A) j ;; ie <- rd (jad_ptr A) (j + 1) ;;
      for_ is_ ie (fun i s => vl <- cp (jad_value A) i (snd s) ;; ix <- cp (jad_index A) i (fst s) ;; Ok (ix, vl)) s)
    (alloc (jad_nnz A) ji, alloc (jad_nnz A) jv) ;;
  Ok (mkJad (jad_n A) (jad_np A) (jad_nnz A) (jad_maxnzr A) perm p ix vl).
(** lis_matrix_coo.c:206-225 *)
Definition copy_elements_coo (A : coo T) : res (coo T) :=
  ' (r, c, v) <- for_ 0 (coo_nnz A) (fun i s =>
      let '(r, c, v) := s in
      r <- cp (coo_row A) i r ;; c <- cp (coo_col A) i c ;; v <- cp (coo_value A) i v ;; Ok (r, c, v))
    (alloc (coo_nnz A) ji, alloc (coo_nnz A) ji, alloc (coo_nnz A) jv) ;;
  Ok (mkCoo (coo_n A) (coo_np A) (coo_nnz A) r c v).
(** lis_matrix_dns.c:126-161 *)
Definition copy_elements_dns (A : dns T) : res (dns T) :=
  vl <- for_ 0 (dns_np A) (fun j v => for_ 0 (dns_n A) (fun i v => cp (dns_value A) (j * dns_n A + i) v) v) (alloc (dns_n A * dns_np A) jv) ;;
  Ok (mkDns (dns_n A) (dns_np A) vl).
(** lis_matrix_bsr.c:216-254 and lis_matrix_bsc.c:217-255 *)
Definition elements_copy_blk (nr bs bnnz : Z) (ptr index : list Z) (value : list T) : res (list Z * list Z * list T) :=
  p <- for_ 0 (nr + 1) (fun i p => cp ptr i p) (alloc (nr + 1) ji) ;;
  ' (ix, vl) <- for_ 0 nr (fun i s =>
      js <- rd ptr i ;; je <- rd ptr (i + 1) ;;
      for_ js je (fun j s =>
        vl <- for_ 0 bs (fun k v => cp value (j * bs + k) v) (snd s) ;;
        ix <- cp index j (fst s) ;; Ok (ix, vl)) s)
    (alloc bnnz ji, alloc (bnnz * bs) jv) ;;
  Ok (p, ix, vl).
Definition copy_elements_bsr (A : bsr T) : res (bsr T) :=
  let nr := 1 + (bsr_n A - 1) ÷ bsr_bnr A in
  ' (p, ix, vl) <- elements_copy_blk nr (bsr_bnr A * bsr_bnc A) (bsr_bnnz A) (bsr_bptr A) (bsr_bindex A) (bsr_value A) ;;
  Ok (mkBsr (bsr_n A) (bsr_np A) (bsr_bnr A) (bsr_bnc A) nr (bsr_bnnz A) p ix vl).
Definition copy_elements_bsc (A : bsc T) : res (bsc T) :=
  let nc := 1 + (bsc_np A - 1) ÷ bsc_bnc A in
  ' (p, ix, vl) <- elements_copy_blk nc (bsc_bnr A * bsc_bnc A) (bsc_bnnz A) (bsc_bptr A) (bsc_bindex A) (bsc_value A) ;;
  Ok (mkBsc (bsc_n A) (bsc_np A) (bsc_bnr A) (bsc_bnc A) nc (bsc_bnnz A) p ix vl).
(** lis_matrix_vbr.c:166-217 *)
Definition copy_elements_vbr (A : vbr T) : res (vbr T) :=
  let nr := vbr_nr A in let nc := vbr_nc A in
  ' (row, bp) <- for_ 0 (nr + 1) (fun i s => r <- cp (vbr_row A) i (fst s) ;; b <- cp (vbr_bptr A) i (snd s) ;; Ok (r, b)) (alloc (nr + 1) ji, alloc (nr + 1) ji) ;;
  col <- for_ 0 (nc + 1) (fun i c => cp (vbr_col A) i c) (alloc (nc + 1) ji) ;;
  ' (p, bx, vl) <- for_ 0 nr (fun bi s =>
      js <- rd (vbr_bptr A) bi ;; je <- rd (vbr_bptr A) (bi + 1) ;;
      for_ js je (fun bj s =>
        let '(p, bx, vl) := s in
        k <- rd (vbr_ptr A) bj ;; b <- rd (vbr_bindex A) bj ;;
        c0 <- rd (vbr_col A) b ;; c1 <- rd (vbr_col A) (b + 1) ;;
        r0 <- rd (vbr_row A) bi ;; r1 <- rd (vbr_row A) (bi + 1) ;;
        ' (vl, k) <- for_ c0 c1 (fun j s => for_ r0 r1 (fun i s => v <- cp (vbr_value A) (snd s) (fst s) ;; Ok (v, snd s + 1)) s) (vl, k) ;;
        bx <- cp (vbr_bindex A) bj bx ;; p <- cp (vbr_ptr A) (bj + 1) p ;; Ok (p, bx, vl)) s)
    (alloc (vbr_bnnz A + 1) ji, alloc (vbr_bnnz A) ji, alloc (vbr_nnz A) jv) ;;
  p <- cp (vbr_ptr A) 0 p ;;
  Ok (mkVbr (vbr_n A) (vbr_np A) nr nc (vbr_bnnz A) (vbr_nnz A) row col p bp bx vl).

(** *** A matrix of any storage type *)
Inductive amat :=
| MCsr (A : csr T) | MCsc (A : csc T) | MMsr (A : msr T) | MDia (A : dia T) | MEll (A : ell T) | MJad (A : jad T)
| MBsr (A : bsr T) | MBsc (A : bsc T) | MVbr (A : vbr T) | MCoo (A : coo T) | MDns (A : dns T).
(** include/lis.h:253-265 *)
Definition amat_type (m : amat) : Z :=
  match m with MCsr _ => 1 | MCsc _ => 2 | MMsr _ => 3 | MDia _ => 4 | MEll _ => 5 | MJad _ => 6 | MBsr _ => 7 | MBsc _ => 8 | MVbr _ => 9 | MCoo _ => 10 | MDns _ => 11 end.

(** the arrays malloc'ed and filled by lis_matrix_copy_* *)
Definition copy_elements (m : amat) : res amat :=
  match m with
  | MCsr A => B <- copy_elements_csr A ;; Ok (MCsr B)
  | MCsc A => B <- copy_elements_csc A ;; Ok (MCsc B)
  | MMsr A => B <- copy_elements_msr A ;; Ok (MMsr B)
  | MDia A => B <- copy_elements_dia A ;; Ok (MDia B)
  | MEll A => B <- copy_elements_ell A ;; Ok (MEll B)
  | MJad A => B <- copy_elements_jad A ;; Ok (MJad B)
  | MBsr A => B <- copy_elements_bsr A ;; Ok (MBsr B)
  | MBsc A => B <- copy_elements_bsc A ;; Ok (MBsc B)
  | MVbr A => B <- copy_elements_vbr A ;; Ok (MVbr B)
  | MCoo A => B <- copy_elements_coo A ;; Ok (MCoo B)
  | MDns A => B <- copy_elements_dns A ;; Ok (MDns B)
  end.

(** The same arrays inside a LIS_MATRIX whose n and np are those given (lis_matrix_set_*
    store the arrays and counts, never n and np; set_bsr/set_bsc recompute nr/nc from them) *)
Definition with_size (n np : Z) (m : amat) : amat :=
  match m with
  | MCsr A => MCsr (mkCsr n np (csr_nnz A) (csr_ptr A) (csr_index A) (csr_value A))
  | MCsc A => MCsc (mkCsc n np (csc_nnz A) (csc_ptr A) (csc_index A) (csc_value A))
  | MMsr A => MMsr (mkMsr n np (msr_nnz A) (msr_ndz A) (msr_index A) (msr_value A))
  | MDia A => MDia (mkDia n np (dia_nnd A) (dia_index A) (dia_value A))
  | MEll A => MEll (mkEll n np (ell_maxnzr A) (ell_index A) (ell_value A))
  | MJad A => MJad (mkJad n np (jad_nnz A) (jad_maxnzr A) (jad_perm A) (jad_ptr A) (jad_index A) (jad_value A))
  | MBsr A => MBsr (mkBsr n np (bsr_bnr A) (bsr_bnc A) (1 + (n - 1) ÷ bsr_bnr A) (bsr_bnnz A) (bsr_bptr A) (bsr_bindex A) (bsr_value A))
  | MBsc A => MBsc (mkBsc n np (bsc_bnr A) (bsc_bnc A) (1 + (n - 1) ÷ bsc_bnc A) (bsc_bnnz A) (bsc_bptr A) (bsc_bindex A) (bsc_value A))
  | MVbr A => MVbr (mkVbr n np (vbr_nr A) (vbr_nc A) (vbr_bnnz A) (vbr_nnz A) (vbr_row A) (vbr_col A) (vbr_ptr A) (vbr_bptr A) (vbr_bindex A) (vbr_value A))
  | MCoo A => MCoo (mkCoo n np (coo_nnz A) (coo_row A) (coo_col A) (coo_value A))
  | MDns A => MDns (mkDns n np (dns_value A))
  end.

(** a LIS_MATRIX as lis_matrix_copy sees it: status, n, np, the stored arrays, and L, D, U if
    is_splited.  is_save is never set for the CSR type, so a split matrix has no whole part. *)
Definition DECIDING_SIZE := -256.  (* include/lis.h:278-279 *)
Definition MNULL := -257.
Record mobj := mkObj { ob_status : Z; ob_type : Z; ob_n : Z; ob_np : Z; ob_mat : option amat; ob_split : option (split T) }.

(** lis_matrix_duplicate, lis_matrix.c:458-541: the size of Ain, nothing stored; matrix_type
    is LIS_MATRIX_CSR from lis_matrix_init *)
Definition duplicate (A : mobj) : mobj := mkObj MNULL 1 (ob_n A) (ob_np A) None None.

(** lis_matrix_set_*: nothing is done, and success returned, unless status is LIS_MATRIX_NULL *)
Definition set_mat (m : amat) (A : mobj) : mobj :=
  if ob_status A =? MNULL then mkObj (- amat_type m) (ob_type A) (ob_n A) (ob_np A) (Some (with_size (ob_n A) (ob_np A) m)) (ob_split A) else A.
(** lis_matrix_setDLU_csr, lis_matrix_csr.c:111-165 *)
Definition set_dlu (P : split T) (A : mobj) : mobj :=
  if ob_status A =? MNULL
  then mkObj (-1) (ob_type A) (ob_n A) (ob_np A) (ob_mat A)
         (Some (mkSplit (ob_n A) (ob_np A) (mkCsr (ob_n A) (ob_np A) (csr_nnz (sp_L P)) (csr_ptr (sp_L P)) (csr_index (sp_L P)) (csr_value (sp_L P))) (sp_D P)
                                (mkCsr (ob_n A) (ob_np A) (csr_nnz (sp_U P)) (csr_ptr (sp_U P)) (csr_index (sp_U P)) (csr_value (sp_U P)))))
  else A.

(** lis_matrix_assemble, lis_matrix.c:607-690, for a status other than LIS_MATRIX_ASSEMBLING;
    on an error the callers run lis_matrix_storage_destroy *)
Definition assemble (A : mobj) : Z * mobj :=
  if ob_status A =? DECIDING_SIZE then (LIS_ERR_ILL_ARG, A)
  else if (ob_status A =? MNULL) && (0 <? ob_n A) then (LIS_ERR_ILL_ARG, A)
  else if (ob_status A <? 0) && (0 <? ob_n A) then (LIS_SUCCESS, mkObj (- ob_status A) (- ob_status A) (ob_n A) (ob_np A) (ob_mat A) (ob_split A))
  else (LIS_SUCCESS, A).
(** the arrays of an object whose type field changed under it: what a reader sees *)
Definition reinterpret (ty : Z) (m : amat) : amat :=
  match m with
  | MCsr A => if ty =? 2 then MCsc (mkCsc (csr_n A) (csr_np A) (csr_nnz A) (csr_ptr A) (csr_index A) (csr_value A)) else m
  | _ => m
  end.
Definition finish (A : mobj) : mobj :=
  let '(err, B) := assemble A in
  if err =? LIS_SUCCESS then B else mkObj (ob_status B) (ob_type B) (ob_n B) (ob_np B) None (ob_split B).

(** lis_matrix_copy_csr, split branch (lis_matrix_csr.c:328-372): L, D, U are copied *)
Definition copy_split (P : split T) : res (split T) :=
  d <- for_ 0 (sp_n P) (fun i d => cp (sp_D P) i d) (alloc (sp_n P) jv) ;;
  L <- copy_elements_csr (sp_L P) ;; U <- copy_elements_csr (sp_U P) ;;
  Ok (mkSplit (sp_n P) (sp_np P) L d U).

(** lis_matrix_copy, lis_matrix_ops.c:372-425, on an assembled Ain.  The return value of
    lis_matrix_copy_* is not passed on: the result is always LIS_SUCCESS.
    lis_matrix_copy_csc sets Aout->status = -LIS_MATRIX_CSC whatever set_csr did
    (lis_matrix_csc.c:242).
    Simplification: the split branch is modelled for CSR only. *)
Definition copy (Ain Aout : mobj) : res (Z * mobj) :=
  if (ob_status Ain <=? 0) && (0 <? ob_n Ain) then Ok (LIS_ERR_ILL_ARG, Aout)
  else
    match ob_split Ain, ob_mat Ain with
    | Some P, _ => P' <- copy_split P ;; Ok (LIS_SUCCESS, finish (set_dlu P' Aout))
    | None, Some (MCsc A) =>
        m <- copy_elements (MCsc A) ;;
        let B := set_mat m Aout in
        Ok (LIS_SUCCESS, finish (mkObj (-2) (ob_type B) (ob_n B) (ob_np B) (option_map (reinterpret 2) (ob_mat B)) (ob_split B)))
    | None, Some m => m' <- copy_elements m ;; Ok (LIS_SUCCESS, finish (set_mat m' Aout))
    | None, None => UB
    end.
End S.
Arguments amat T : clear implicits.
Arguments mobj T : clear implicits.
