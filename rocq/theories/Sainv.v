(** Model of the SAINV (stabilised approximate inverse) preconditioner for CSR matrices:
    src/precon/lis_precon_sainv.c  lis_precon_create_sainv_csr (the #if 1 branch),
    lis_psolve_sainv, lis_psolveh_sainv, and the routines of src/matrix/lis_matrix_ilu.c they
    use (lis_matrix_ilu_premalloc, lis_matrix_ilu_realloc, lis_matvech_ilu, lis_matvec_ilu).

    Simplifications: double precision only; malloc and realloc do not fail, malloc(0) returns a
    pointer to 0 bytes (as glibc does); one process (the test jj>n-1 of the MPI build is kept,
    it is always false in the other builds); matvec/matvech are the serial branches. *)
Require Import ZArith List Bool.
From Verif Require Import Base Scalar Spec Csc.
Import ListNotations.
Open Scope Z_scope.

Section S.
Context {T : Type} {S : Scalar T}.

(** struct LIS_MATRIX_ILU after lis_matrix_ilu_premalloc: row i consists of the first nnz[i]
    elements of the arrays index[i], value[i], which have nnz_ma[i] elements *)
Record ilum := mkIlum { m_nnz : list Z; m_ma : list Z; m_ix : list (list Z); m_v : list (list T) }.

(** index[i][k] *)
Definition rd2 {B : Type} (a : list (list B)) (i k : Z) : res B := r <- rd a i ;; rd r k.
Definition wr2 {B : Type} (a : list (list B)) (i k : Z) (v : B) : res (list (list B)) := r <- rd a i ;; r <- wr r k v ;; wr a i r.

(** lis_matrix_ilu_premalloc, lis_matrix_ilu.c:205-249; nnz comes from lis_matrix_ilu_setCR
    (malloc, not initialised).  jn, ji, jv: contents of freshly allocated memory *)
Definition ilu_premalloc (jn : Z -> Z) (ji : Z -> Z -> Z) (jv : Z -> Z -> T) (nnzrow n : Z) : ilum :=
  mkIlum (alloc n jn) (alloc n (fun _ => nnzrow)) (map (fun i => alloc nnzrow (ji i)) (zrange 0 n)) (map (fun i => alloc nnzrow (jv i)) (zrange 0 n)).

(** lis_matrix_ilu_realloc, lis_matrix_ilu.c:252-274: row is moved to arrays of nnz elements *)
Definition grow {B : Type} (nnz : Z) (j : Z -> B) (a : list B) : list B :=
  firstn (Z.to_nat nnz) a ++ map j (zrange (zlen a) nnz).
Definition ilu_realloc (ji : Z -> Z -> Z) (jv : Z -> Z -> T) (row nnz : Z) (M : ilum) : res ilum :=
  ix <- rd (m_ix M) row ;; ixs <- wr (m_ix M) row (grow nnz (ji row) ix) ;;
  v <- rd (m_v M) row ;; vs <- wr (m_v M) row (grow nnz (jv row) v) ;;
  Ok (mkIlum (m_nnz M) (m_ma M) ixs vs).

(** lis_precon_sainv.c:205-213, one of W, Z: row i becomes the unit vector e_i *)
Definition sainv_unit (n : Z) (M : ilum) : res ilum :=
  for_ 0 n (fun i M =>
    v <- wr2 (m_v M) i 0 s1 ;; ix <- wr2 (m_ix M) i 0 i ;; nz <- wr (m_nnz M) i 1 ;;
    Ok (mkIlum nz (m_ma M) ix v)) M.

(** _max(a,b) ((a) >= (b) ? (a) : (b)), include/lis.h:52 *)
Definition smax (a b : T) : T := if sleb b a then a else b.
(** lines 217-222: nrm = 1/max|a_ij| *)
Definition sainv_nrm (A : csr T) (i : Z) : res T :=
  js <- rd (csr_ptr A) i ;; je <- rd (csr_ptr A) (i + 1) ;;
  m <- for_ js je (fun j m => v <- rd (csr_value A) j ;; Ok (smax m (sabs v))) s0 ;;
  Ok (sdiv s1 m).

(** l (or u), ww, il (or iu), cl (or cu) *)
Record wrow := mkWrow { r_l : list T; r_ww : list Z; r_il : list Z; r_cl : Z }.

(** lines 236-240, 259-263: mark column jj *)
Definition sainv_mark (jj : Z) (w : wrow) : res wrow :=
  m <- rd (r_ww w) jj ;;
  if m =? 0 then
    ww <- wr (r_ww w) jj 1 ;; il <- wr (r_il w) (r_cl w) jj ;; Ok (mkWrow (r_l w) ww il (r_cl w + 1))
  else Ok w.

(** lines 244, 266: for(k=0;k<cl;k++) ww[il[k]] = 0 *)
Definition sainv_unmark (w : wrow) : res wrow :=
  ww <- for_ 0 (r_cl w) (fun k ww => j <- rd (r_il w) k ;; wr ww j 0) (r_ww w) ;;
  Ok (mkWrow (r_l w) ww (r_il w) (r_cl w)).

(** lines 225-244: l = A Z_i below row i *)
Definition sainv_l (n : Z) (B : csc T) (Z_ : ilum) (i : Z) (ww il : list Z) : res wrow :=
  nz <- rd (m_nnz Z_) i ;;
  w <- for_ 0 nz (fun k w =>
      ii <- rd2 (m_ix Z_) i k ;;
      js <- rd (csc_ptr B) ii ;; je <- rd (csc_ptr B) (ii + 1) ;;
      for_ js je (fun j w =>
        jj <- rd (csc_index B) j ;;
        if i <? jj then
          bv <- rd (csc_value B) j ;; zv <- rd2 (m_v Z_) i k ;; l0 <- rd (r_l w) jj ;;
          l <- wr (r_l w) jj (sadd l0 (smul bv zv)) ;;
          sainv_mark jj (mkWrow l (r_ww w) (r_il w) (r_cl w))
        else Ok w) w) (mkWrow (alloc n (fun _ => s0)) ww il 0) ;;
  sainv_unmark w.

(** lines 247-266: u = W_i' A *)
Definition sainv_u (n : Z) (A : csr T) (W : ilum) (i : Z) (ww iu : list Z) : res wrow :=
  nz <- rd (m_nnz W) i ;;
  w <- for_ 0 nz (fun k w =>
      ii <- rd2 (m_ix W) i k ;;
      js <- rd (csr_ptr A) ii ;; je <- rd (csr_ptr A) (ii + 1) ;;
      for_ js je (fun j w =>
        jj <- rd (csr_index A) j ;;
        if n - 1 <? jj then Ok w else
          av <- rd (csr_value A) j ;; wv <- rd2 (m_v W) i k ;; u0 <- rd (r_l w) jj ;;
          u <- wr (r_l w) jj (sadd u0 (smul av wv)) ;;
          let w := mkWrow u (r_ww w) (r_il w) (r_cl w) in
          if i <? jj then sainv_mark jj w else Ok w) w) (mkWrow (alloc n (fun _ => s0)) ww iu 0) ;;
  sainv_unmark w.

(** lines 269-274: d[i] = 1/(u Z_i) *)
Definition sainv_d (Z_ : ilum) (i : Z) (u : list T) : res T :=
  nz <- rd (m_nnz Z_) i ;;
  t <- for_ 0 nz (fun k t => c <- rd2 (m_ix Z_) i k ;; uv <- rd u c ;; zv <- rd2 (m_v Z_) i k ;; Ok (sadd t (smul uv zv))) s0 ;;
  Ok (sdiv s1 t).

(** fabs(t)*nrm > tol, lines 292, 300, 337, 345 *)
Definition sainv_keep (nrm tol t : T) : bool := negb (sleb (smul (sabs t) nrm) tol).

(** lines 288-313 (333-358 for Z): one entry of row i is subtracted from row j *)
Definition sainv_entry (ji : Z -> Z -> Z) (jv : Z -> Z -> T) (annz : Z) (nrm tol dd : T) (i j : Z) (ww : list Z) (ik : Z) (M : ilum) : res ilum :=
  c <- rd2 (m_ix M) i ik ;; jk <- rd ww c ;;
  wv <- rd2 (m_v M) i ik ;;
  let t := smul dd wv in
  if negb (jk =? 0) then
    if sainv_keep nrm tol t then
      v0 <- rd2 (m_v M) j (jk - 1) ;; v <- wr2 (m_v M) j (jk - 1) (ssub v0 t) ;;
      Ok (mkIlum (m_nnz M) (m_ma M) (m_ix M) v)
    else Ok M
  else
    if sainv_keep nrm tol t then
      nz <- rd (m_nnz M) j ;; ma <- rd (m_ma M) j ;;
      M <- (if nz =? ma then
              mas <- wr (m_ma M) j (ma + annz) ;; ilu_realloc ji jv j (ma + annz) (mkIlum (m_nnz M) mas (m_ix M) (m_v M))
            else Ok M) ;;
      c <- rd2 (m_ix M) i ik ;;
      ix <- wr2 (m_ix M) j nz c ;; v <- wr2 (m_v M) j nz (sopp t) ;; nzs <- wr (m_nnz M) j (nz + 1) ;;
      Ok (mkIlum nzs (m_ma M) ix v)
    else Ok M.

(** lines 282-318 (327-363 for Z): row j -= drop(dd * row i) *)
Definition sainv_axpy (ji : Z -> Z -> Z) (jv : Z -> Z -> T) (annz : Z) (nrm tol dd : T) (i j : Z) (p : ilum * list Z) : res (ilum * list Z) :=
  let '(M, ww) := p in
  nzj <- rd (m_nnz M) j ;;
  ww <- for_ 0 nzj (fun k ww => c <- rd2 (m_ix M) j k ;; wr ww c (k + 1)) ww ;;
  nzi <- rd (m_nnz M) i ;;
  M <- for_ 0 nzi (fun ik M => sainv_entry ji jv annz nrm tol dd i j ww ik M) M ;;
  nzj <- rd (m_nnz M) j ;;
  ww <- for_ 0 nzj (fun k ww => c <- rd2 (m_ix M) j k ;; wr ww c 0) ww ;;
  Ok (M, ww).

(** lines 278-319 (323-364 for Z): all rows j of the list il *)
Definition sainv_update (ji : Z -> Z -> Z) (jv : Z -> Z -> T) (annz : Z) (nrm tol di : T) (i : Z) (l : list T) (il : list Z) (cl : Z) (p : ilum * list Z) : res (ilum * list Z) :=
  for_ 0 cl (fun jj p =>
    j <- rd il jj ;; lv <- rd l j ;;
    sainv_axpy ji jv annz nrm tol (smul lv di) i j p) p.

(** state of the loop over i: W, Z, D, ww, il, iu *)
Record sst := mkSst { s_W : ilum; s_Z : ilum; s_d : list T; s_ww : list Z; s_il : list Z; s_iu : list Z }.

(** lines 214-365 *)
Definition sainv_step (ji : Z -> Z -> Z) (jv : Z -> Z -> T) (annz : Z) (tol : T) (n : Z) (A : csr T) (B : csc T) (i : Z) (s : sst) : res sst :=
  nrm <- sainv_nrm A i ;;
  wl <- sainv_l n B (s_Z s) i (s_ww s) (s_il s) ;;
  wu <- sainv_u n A (s_W s) i (r_ww wl) (s_iu s) ;;
  di <- sainv_d (s_Z s) i (r_l wu) ;;
  d <- wr (s_d s) i di ;;
  ' (W, ww) <- sainv_update ji jv annz nrm tol di i (r_l wl) (r_il wl) (r_cl wl) (s_W s, r_ww wu) ;;
  ' (Z_, ww) <- sainv_update ji jv annz nrm tol di i (r_l wu) (r_il wu) (r_cl wu) (s_Z s, ww) ;;
  Ok (mkSst W Z_ d ww (r_il wl) (r_il wu)).

(** lines 122-379; annz = A->n / 10.  Returns W, Z, D *)
Definition create_sainv (jp jc : Z -> Z) (ji : Z -> Z -> Z) (jv : Z -> Z -> T) (tol : T) (A : csr T) : res (ilum * ilum * list T) :=
  let n := csr_n A in let annz := n / 10 in
  let W := ilu_premalloc jp ji jv annz n in
  let Z_ := ilu_premalloc jp ji jv annz n in
  B <- convert_csr2csc jp jc jc (jv 0) A ;;
  ww <- for_ 0 n (fun i ww => wr ww i 0) (alloc n jp) ;;
  W <- sainv_unit n W ;; Z_ <- sainv_unit n Z_ ;;
  s <- for_ 0 n (fun i s => sainv_step ji jv annz tol n A B i s) (mkSst W Z_ (alloc (csr_np A) (fun _ => s0)) ww (alloc n jc) (alloc n jc)) ;;
  Ok (s_W s, s_Z s, s_d s).

(** lis_matvech_ilu, lis_matrix_ilu.c:277-375 (double branch): Y_i = sum_k conj(v_ik) x_k, i<n *)
Definition matvech_ilu (n : Z) (M : ilum) (x y : list T) : res (list T) :=
  for_ 0 n (fun i y =>
    nz <- rd (m_nnz M) i ;;
    t <- for_ 0 nz (fun j t => jj <- rd2 (m_ix M) i j ;; v <- rd2 (m_v M) i j ;; xv <- rd x jj ;; Ok (sadd t (smul (sconj v) xv))) s0 ;;
    wr y i t) y.
(** lis_matvec_ilu, lis_matrix_ilu.c:378-471 (double, serial branch): Y = sum_i row_i * x_i *)
Definition matvec_ilu (n np : Z) (M : ilum) (x y : list T) : res (list T) :=
  y <- for_ 0 np (fun i y => wr y i s0) y ;;
  for_ 0 n (fun i y =>
    nz <- rd (m_nnz M) i ;;
    for_ 0 nz (fun j y => jj <- rd2 (m_ix M) i j ;; v <- rd2 (m_v M) i j ;; xv <- rd x i ;; y0 <- rd y jj ;; wr y jj (sadd y0 (smul v xv))) y) y.

(** lis_psolve_sainv, lis_precon_sainv.c:735-799; x, t: old contents of the result and of precon->temp *)
Definition psolve_sainv (n np : Z) (W Z_ : ilum) (d b x t : list T) : res (list T) :=
  x <- matvech_ilu n W b x ;;
  t <- for_ 0 n (fun i t => xv <- rd x i ;; dv <- rd d i ;; wr t i (smul xv dv)) t ;;
  matvec_ilu n np Z_ t x.
(** lis_psolveh_sainv, lis_precon_sainv.c:803-867 *)
Definition psolveh_sainv (n np : Z) (W Z_ : ilum) (d b x t : list T) : res (list T) :=
  x <- matvech_ilu n Z_ b x ;;
  t <- for_ 0 n (fun i t => xv <- rd x i ;; dv <- rd d i ;; wr t i (smul xv (sconj dv))) t ;;
  matvec_ilu n np W t x.
End S.
Arguments ilum : clear implicits. Arguments sst : clear implicits. Arguments wrow : clear implicits.
