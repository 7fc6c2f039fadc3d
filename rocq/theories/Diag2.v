(** Model of lis_matrix_get_diagonal_<format>, lis_matrix_shift_diagonal_<format> and
    lis_matrix_scale(_symm)_<format> for the formats Diag.v leaves out: JAD, the ELL shift,
    BSR, BSC and VBR (src/matrix/lis_matrix_jad.c, lis_matrix_ell.c, lis_matrix_bsr.c,
    lis_matrix_bsc.c, lis_matrix_vbr.c); unsplit matrices, one thread, no MPI. *)
Require Import ZArith List Bool.
From Verif Require Import Base Scalar Spec Diag.
Import ListNotations.
Open Scope Z_scope.

Section S.
Context {T : Type} {S : Scalar T}.

(** lis_matrix_jad.c:468-483 and 544-559: the jagged diagonals one after the other, the row
    counter l (here i - js) restarts at 0 on each; k counts down from n, and the function
    returns as soon as n diagonal entries were met.  [act i r s] is what is done at position
    i for row r. *)
Definition jad_scan {St} (A : jad T) (act : Z -> Z -> St -> res St) (s : St) : res St :=
  r <- for_brk 0 (jad_maxnzr A) (fun j (st : Z * bool * St) =>
    js <- rd (jad_ptr A) j ;; je <- rd (jad_ptr A) (j + 1) ;;
    st' <- for_brk js je (fun i (st : Z * bool * St) =>
      let '(k, ret, s) := st in
      r <- rd (jad_perm A) (i - js) ;; c <- rd (jad_index A) i ;;
      if r =? c then
        s <- act i r s ;;
        if k - 1 =? 0 then Ok (true, (k - 1, true, s)) else Ok (false, (k - 1, false, s))
      else Ok (false, (k, ret, s))) st ;;
    Ok (snd (fst st'), st')) (jad_n A, false, s) ;;
  Ok (snd r).
(** lis_matrix_jad.c:415-487 *)
Definition get_diagonal_jad (A : jad T) (d : list T) : res (list T) :=
  jad_scan A (fun i r d => v <- rd (jad_value A) i ;; wr d r v) d.
(** lis_matrix_jad.c:490-562 *)
Definition shift_diagonal_jad (A : jad T) (sigma : T) : res (jad T) :=
  v <- jad_scan A (fun i _ v => upd v i (fun a => ssub a sigma)) (jad_value A) ;;
  Ok (mkJad (jad_n A) (jad_np A) (jad_nnz A) (jad_maxnzr A) (jad_perm A) (jad_ptr A) (jad_index A) v).

(** lis_matrix_ell.c:654-668: the first slot of row i that names column i *)
Definition shift_diagonal_ell (A : ell T) (sigma : T) : res (ell T) :=
  let n := ell_n A in
  v <- for_ 0 n (fun i v =>
    for_brk 0 (ell_maxnzr A) (fun j v =>
      c <- rd (ell_index A) (j * n + i) ;;
      if i =? c then v <- upd v (j * n + i) (fun a => ssub a sigma) ;; Ok (true, v) else Ok (false, v)) v) (ell_value A) ;;
  Ok (mkEll n (ell_np A) (ell_maxnzr A) (ell_index A) v).

(** lis_matrix_bsr.c:717-741 (get) and 775-799 (shift), and word for word the same code in
    lis_matrix_bsc.c:769-793 and 827-851, where bptr and bindex describe block COLUMNS.
    [act p i s] is the statement on value[p] and row i.  [value] is only used for its address. *)
Definition block_scan {St} (n nr bnr bnc : Z) (bptr bindex : list Z) (act : Z -> Z -> St -> res St) (s : St) : res St :=
  for_ 0 nr (fun bi s =>
    lo <- rd bptr bi ;; hi <- rd bptr (bi + 1) ;;
    r <- for_brk lo hi (fun bj (st : Z * Z * St) =>
      let '(k, i, s) := st in
      bjj <- rd bindex bj ;;
      st <- (if (bjj * bnc <=? i) && (i <? (bjj + 1) * bnc) then
               for_brk (i mod bnc) bnc (fun j (st : Z * Z * St) =>
                 let '(k, i, s) := st in
                 if (k <? bnr) && (i <? n) then
                   s <- act (bj * (bnr * bnc) + j * bnr + k) i s ;; Ok (false, (k + 1, i + 1, s))
                 else Ok (true, (k, i, s))) (k, i, s)
             else Ok (k, i, s)) ;;
      Ok (fst (fst st) =? bnr, st)) (0, bi * bnr, s) ;;
    Ok (snd r)) s.
Definition get_diagonal_bsr (A : bsr T) (d : list T) : res (list T) :=
  block_scan (bsr_n A) (bsr_nr A) (bsr_bnr A) (bsr_bnc A) (bsr_bptr A) (bsr_bindex A) (fun p i d => v <- rd (bsr_value A) p ;; wr d i v) d.
Definition shift_diagonal_bsr (A : bsr T) (sigma : T) : res (bsr T) :=
  v <- block_scan (bsr_n A) (bsr_nr A) (bsr_bnr A) (bsr_bnc A) (bsr_bptr A) (bsr_bindex A) (fun p _ v => upd v p (fun a => ssub a sigma)) (bsr_value A) ;;
  Ok (mkBsr (bsr_n A) (bsr_np A) (bsr_bnr A) (bsr_bnc A) (bsr_nr A) (bsr_bnnz A) (bsr_bptr A) (bsr_bindex A) v).
(** A->nr = 1 + (n-1)/bnr: lis_matrix_bsc.c:93, 158 *)
Definition bsc_nr (A : bsc T) : Z := 1 + (bsc_n A - 1) / bsc_bnr A.
Definition get_diagonal_bsc (A : bsc T) (d : list T) : res (list T) :=
  block_scan (bsc_n A) (bsc_nr A) (bsc_bnr A) (bsc_bnc A) (bsc_bptr A) (bsc_bindex A) (fun p i d => v <- rd (bsc_value A) p ;; wr d i v) d.
Definition shift_diagonal_bsc (A : bsc T) (sigma : T) : res (bsc T) :=
  v <- block_scan (bsc_n A) (bsc_nr A) (bsc_bnr A) (bsc_bnc A) (bsc_bptr A) (bsc_bindex A) (fun p _ v => upd v p (fun a => ssub a sigma)) (bsc_value A) ;;
  Ok (mkBsc (bsc_n A) (bsc_np A) (bsc_bnr A) (bsc_bnc A) (bsc_nc A) (bsc_bnnz A) (bsc_bptr A) (bsc_bindex A) v).

(** lis_matrix_bsr.c:861-873 and 938-951, again the same text in lis_matrix_bsc.c:913-925 and
    990-1003: value[bj*bs+j*bnr+i] *= d[bi*bnr+i] (Jacobi) or d[bi*bnr+i]*d[bjj*bnc+j] *)
Definition block_scale (symm : bool) (nr bnr bnc : Z) (bptr bindex : list Z) (d v : list T) : res (list T) :=
  for_ 0 nr (fun bi v =>
    lo <- rd bptr bi ;; hi <- rd bptr (bi + 1) ;;
    for_ lo hi (fun bj v =>
      bjj <- (if symm then rd bindex bj else Ok 0) ;;
      for_ 0 bnc (fun j v =>
        for_ 0 bnr (fun i v =>
          di <- rd d (bi * bnr + i) ;;
          f <- (if symm then dj <- rd d (bjj * bnc + j) ;; Ok (smul di dj) else Ok di) ;;
          upd v (bj * (bnr * bnc) + j * bnr + i) (fun a => smul a f)) v) v) v) v.
Definition scale_bsr_ (symm : bool) (A : bsr T) (d : list T) : res (bsr T) :=
  v <- block_scale symm (bsr_nr A) (bsr_bnr A) (bsr_bnc A) (bsr_bptr A) (bsr_bindex A) d (bsr_value A) ;;
  Ok (mkBsr (bsr_n A) (bsr_np A) (bsr_bnr A) (bsr_bnc A) (bsr_nr A) (bsr_bnnz A) (bsr_bptr A) (bsr_bindex A) v).
Definition scale_bsr := scale_bsr_ false.
Definition scale_symm_bsr := scale_bsr_ true.
Definition scale_bsc_ (symm : bool) (A : bsc T) (d : list T) : res (bsc T) :=
  v <- block_scale symm (bsc_nr A) (bsc_bnr A) (bsc_bnc A) (bsc_bptr A) (bsc_bindex A) d (bsc_value A) ;;
  Ok (mkBsc (bsc_n A) (bsc_np A) (bsc_bnr A) (bsc_bnc A) (bsc_nc A) (bsc_bnnz A) (bsc_bptr A) (bsc_bindex A) v).
Definition scale_bsc := scale_bsc_ false.
Definition scale_symm_bsc := scale_bsc_ true.

(** lis_matrix_vbr.c:902-928 and 964-990: the block column is located by bjj*bnc, as if all
    block columns had the width bnc of this one *)
Definition vbr_scan {St} (A : vbr T) (act : Z -> Z -> St -> res St) (s : St) : res St :=
  for_ 0 (vbr_nr A) (fun bi s =>
    i0 <- rd (vbr_row A) bi ;; i1 <- rd (vbr_row A) (bi + 1) ;; let bnr := i1 - i0 in
    lo <- rd (vbr_bptr A) bi ;; hi <- rd (vbr_bptr A) (bi + 1) ;;
    r <- for_brk lo hi (fun bj (st : Z * Z * St) =>
      let '(k, i, s) := st in
      bjj <- rd (vbr_bindex A) bj ;;
      c1 <- rd (vbr_col A) (bjj + 1) ;; c0 <- rd (vbr_col A) bjj ;; let bnc := c1 - c0 in
      st <- (if (bjj * bnc <=? i) && (i <? (bjj + 1) * bnc) then
               for_brk (i mod bnc) bnc (fun j (st : Z * Z * St) =>
                 let '(k, i, s) := st in
                 if (k <? bnr) && (i <? vbr_n A) then
                   p <- rd (vbr_ptr A) bj ;;
                   s <- act (p + j * bnr + k) i s ;; Ok (false, (k + 1, i + 1, s))
                 else Ok (true, (k, i, s))) (k, i, s)
             else Ok (k, i, s)) ;;
      Ok (fst (fst st) =? bnr, st)) (0, i0, s) ;;
    Ok (snd r)) s.
Definition get_diagonal_vbr (A : vbr T) (d : list T) : res (list T) :=
  vbr_scan A (fun p i d => v <- rd (vbr_value A) p ;; wr d i v) d.
Definition shift_diagonal_vbr (A : vbr T) (sigma : T) : res (vbr T) :=
  v <- vbr_scan A (fun p _ v => upd v p (fun a => ssub a sigma)) (vbr_value A) ;;
  Ok (mkVbr (vbr_n A) (vbr_np A) (vbr_nr A) (vbr_nc A) (vbr_bnnz A) (vbr_nnz A) (vbr_row A) (vbr_col A) (vbr_ptr A) (vbr_bptr A) (vbr_bindex A) v).
(** lis_matrix_vbr.c:1055-1069 and 1097-1111: one running position k per block row *)
Definition scale_vbr_ (symm : bool) (A : vbr T) (d : list T) : res (vbr T) :=
  v <- for_ 0 (vbr_nr A) (fun bi v =>
    lo <- rd (vbr_bptr A) bi ;; hi <- rd (vbr_bptr A) (bi + 1) ;; k <- rd (vbr_ptr A) lo ;;
    r0 <- rd (vbr_row A) bi ;; r1 <- rd (vbr_row A) (bi + 1) ;;
    r <- for_ lo hi (fun bj kv =>
      bjj <- rd (vbr_bindex A) bj ;; c0 <- rd (vbr_col A) bjj ;; c1 <- rd (vbr_col A) (bjj + 1) ;;
      for_ c0 c1 (fun j kv =>
        for_ r0 r1 (fun i kv =>
          let '(k, v) := kv in
          di <- rd d i ;;
          v <- (if symm then dj <- rd d j ;; upd v k (fun a => smul (smul a di) dj) else upd v k (fun a => smul a di)) ;;
          Ok (k + 1, v)) kv) kv) (k, v) ;;
    Ok (snd r)) (vbr_value A) ;;
  Ok (mkVbr (vbr_n A) (vbr_np A) (vbr_nr A) (vbr_nc A) (vbr_bnnz A) (vbr_nnz A) (vbr_row A) (vbr_col A) (vbr_ptr A) (vbr_bptr A) (vbr_bindex A) v).
Definition scale_vbr := scale_vbr_ false.
Definition scale_symm_vbr := scale_vbr_ true.
End S.
