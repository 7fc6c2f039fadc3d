(** Model of the I+S preconditioner for split CSR matrices (A = L + D + U) and of the additive
    Schwarz (defect correction) wrapper around a preconditioner:
    src/precon/lis_precon_is.c  lis_precon_create_is_csr, lis_psolve_is, lis_psolveh_is;
    src/precon/lis_precon_ads.c lis_psolve_adds, lis_psolveh_adds.

    Simplifications: double precision, serial branches; one process (gn = np = n, the MPI test
    jj>=n is never true); malloc does not fail.  lis_precon_create_is, which converts other
    formats to CSR and splits (see Convert.v, Split.v), is not repeated here. *)
Require Import ZArith List Bool.
From Verif Require Import Base Scalar Spec Split Matvec.
Import ListNotations.
Open Scope Z_scope.

Section S.
Context {T : Type} {S : Scalar T}.

(** ** Counting pass, lis_precon_is.c:184-265 *)
(** iw, iw2, k, nnzl, nnzu *)
Record cnt := mkCnt { c_iw : list Z; c_iw2 : list Z; c_k : Z; c_l : Z; c_u : Z }.
(** iw2[k++] = jcol; iw[jcol] = k; *)
Definition cmark (jcol : Z) (s : cnt) : res cnt :=
  iw2 <- wr (c_iw2 s) (c_k s) jcol ;; iw <- wr (c_iw s) jcol (c_k s + 1) ;;
  Ok (mkCnt iw iw2 (c_k s + 1) (c_l s) (c_u s)).
Definition cl_inc (s : cnt) := mkCnt (c_iw s) (c_iw2 s) (c_k s) (c_l s + 1) (c_u s).
Definition cu_inc (s : cnt) := mkCnt (c_iw s) (c_iw2 s) (c_k s) (c_l s) (c_u s + 1).
(** a loop over the positions of row i of a CSR structure *)
Definition row_loop {X : Type} (B : csr T) (i : Z) (body : Z -> X -> res X) (s : X) : res X :=
  js <- rd (csr_ptr B) i ;; je <- rd (csr_ptr B) (i + 1) ;; for_ js je body s.
(** lines 194-207: I*A *)
Definition count_ia (A : split T) (i : Z) (s : cnt) : res cnt :=
  s <- row_loop (sp_L A) i (fun jb s => jcol <- rd (csr_index (sp_L A)) jb ;; s <- cmark jcol s ;; Ok (cl_inc s)) s ;;
  row_loop (sp_U A) i (fun jb s => jcol <- rd (csr_index (sp_U A)) jb ;; s <- cmark jcol s ;; Ok (cu_inc s)) s.
(** lines 217-252: row jj of A *)
Definition count_sa (A : split T) (i jj : Z) (s : cnt) : res cnt :=
  s <- row_loop (sp_L A) jj (fun jb s =>
      jcol <- rd (csr_index (sp_L A)) jb ;; jpos <- rd (c_iw s) jcol ;;
      if jpos =? 0 then
        s <- cmark jcol s ;; Ok (if jcol <? i then cl_inc s else if i <? jcol then cu_inc s else s)
      else Ok s) s ;;
  jpos <- rd (c_iw s) jj ;;
  s <- (if jpos =? 0 then s <- cmark jj s ;; Ok (cu_inc s) else Ok s) ;;
  row_loop (sp_U A) jj (fun jb s =>
      jcol <- rd (csr_index (sp_U A)) jb ;; jpos <- rd (c_iw s) jcol ;;
      if jpos =? 0 then s <- cmark jcol s ;; Ok (cu_inc s) else Ok s) s.
(** lines 184-259; n2 = min(U->ptr[i]+m, U->ptr[i+1]) *)
Definition count_row (A : split T) (m i : Z) (iw iw2 : list Z) : res cnt :=
  us <- rd (csr_ptr (sp_U A)) i ;; ue <- rd (csr_ptr (sp_U A)) (i + 1) ;;
  s <- count_ia A i (mkCnt iw iw2 0 0 0) ;;
  s <- for_ us (Z.min (us + m) ue) (fun ja s => jj <- rd (csr_index (sp_U A)) ja ;; count_sa A i jj s) s ;;
  iw <- for_ 0 (c_k s) (fun j iw => c <- rd (c_iw2 s) j ;; wr iw c 0) (c_iw s) ;;
  Ok (mkCnt iw (c_iw2 s) (c_k s) (c_l s) (c_u s)).
(** lines 177-272: lptr, uptr *)
Definition is_count (jl ju ji : Z -> Z) (A : split T) (m : Z) : res (list Z * list Z) :=
  let n := sp_n A in
  ' (lp, up, _, _) <- for_ 0 n (fun i '(lp, up, iw, iw2) =>
      s <- count_row A m i iw iw2 ;; lp <- wr lp (i + 1) (c_l s) ;; up <- wr up (i + 1) (c_u s) ;; Ok (lp, up, c_iw s, c_iw2 s))
    (alloc (n + 1) jl, alloc (n + 1) ju, alloc n (fun _ => 0), alloc n ji) ;;
  lp <- wr lp 0 0 ;; up <- wr up 0 0 ;;
  for_ 0 n (fun i '(lp, up) =>
    a <- rd lp i ;; a' <- rd lp (i + 1) ;; lp <- wr lp (i + 1) (a' + a) ;;
    c <- rd up i ;; c' <- rd up (i + 1) ;; up <- wr up (i + 1) (c' + c) ;; Ok (lp, up)) (lp, up).

(** ** Filling pass, lis_precon_is.c:281-399 *)
(** one triangle: index, value, fill position (lindex, lvalue, kl or uindex, uvalue, ku) *)
Record tri := mkTri { t_ix : list Z; t_v : list T; t_k : Z }.
(** index[k] = jcol; value[k++] = v; iw[jcol] = k; *)
Definition tput (jcol : Z) (v : T) (iw : list Z) (t : tri) : res (list Z * tri) :=
  ix <- wr (t_ix t) (t_k t) jcol ;; vl <- wr (t_v t) (t_k t) v ;; iw <- wr iw jcol (t_k t + 1) ;;
  Ok (iw, mkTri ix vl (t_k t + 1)).
(** if jpos==0 put else value[jpos-1] += v *)
Definition tadd (jcol : Z) (v : T) (iw : list Z) (t : tri) : res (list Z * tri) :=
  jpos <- rd iw jcol ;;
  if jpos =? 0 then tput jcol v iw t
  else v0 <- rd (t_v t) (jpos - 1) ;; vl <- wr (t_v t) (jpos - 1) (sadd v0 v) ;; Ok (iw, mkTri (t_ix t) vl (t_k t)).
(** iw, L, U, diag *)
Record fst_ := mkFst { f_iw : list Z; f_L : tri; f_U : tri; f_d : list T }.
Definition onL (op : list Z -> tri -> res (list Z * tri)) (s : fst_) : res fst_ :=
  ' (iw, t) <- op (f_iw s) (f_L s) ;; Ok (mkFst iw t (f_U s) (f_d s)).
Definition onU (op : list Z -> tri -> res (list Z * tri)) (s : fst_) : res fst_ :=
  ' (iw, t) <- op (f_iw s) (f_U s) ;; Ok (mkFst iw (f_L s) t (f_d s)).
(** lines 299-311: I*A, row i times val *)
Definition fill_ia (A : split T) (i : Z) (val : T) (s : fst_) : res fst_ :=
  s <- row_loop (sp_L A) i (fun jb s => jcol <- rd (csr_index (sp_L A)) jb ;; v <- rd (csr_value (sp_L A)) jb ;; onL (tput jcol (smul val v)) s) s ;;
  row_loop (sp_U A) i (fun jb s => jcol <- rd (csr_index (sp_U A)) jb ;; v <- rd (csr_value (sp_U A)) jb ;; onU (tput jcol (smul val v)) s) s.
(** lines 324-390: row jj of A times val *)
Definition fill_sa (A : split T) (i jj : Z) (val : T) (s : fst_) : res fst_ :=
  s <- row_loop (sp_L A) jj (fun jb s =>
      jcol <- rd (csr_index (sp_L A)) jb ;; v <- rd (csr_value (sp_L A)) jb ;;
      if jcol <? i then onL (tadd jcol (smul val v)) s
      else if i <? jcol then onU (tadd jcol (smul val v)) s
      else d0 <- rd (f_d s) i ;; d <- wr (f_d s) i (sadd d0 (smul val v)) ;; Ok (mkFst (f_iw s) (f_L s) (f_U s) d)) s ;;
  dv <- rd (sp_D A) jj ;;
  s <- onU (tadd jj (smul val dv)) s ;;
  row_loop (sp_U A) jj (fun jb s => jcol <- rd (csr_index (sp_U A)) jb ;; v <- rd (csr_value (sp_U A)) jb ;; onU (tadd jcol (smul val v)) s) s.
(** lines 286-399; returns the state and t, the new right hand side element; kl starts at lptr[i] *)
Definition fill_row (w : T) (A : split T) (m : Z) (b : list T) (lp up : list Z) (i : Z) (s : fst_) : res (fst_ * T) :=
  kl <- rd lp i ;; ku <- rd up i ;;
  us <- rd (csr_ptr (sp_U A)) i ;; ue <- rd (csr_ptr (sp_U A)) (i + 1) ;;
  val <- rd (sp_D A) i ;; bi <- rd b i ;;
  let s := mkFst (f_iw s) (mkTri (t_ix (f_L s)) (t_v (f_L s)) kl) (mkTri (t_ix (f_U s)) (t_v (f_U s)) ku) (f_d s) in
  s <- fill_ia A i val s ;;
  ' (s, t) <- for_ us (Z.min (us + m) ue) (fun ja '(s, t) =>
      jj <- rd (csr_index (sp_U A)) ja ;; uv <- rd (csr_value (sp_U A)) ja ;;
      let val := smul (sopp w) uv in
      bj <- rd b jj ;;
      s <- fill_sa A i jj val s ;; Ok (s, sadd t (smul val bj))) (s, smul val bi) ;;
  iw <- for_ kl (t_k (f_L s)) (fun j iw => c <- rd (t_ix (f_L s)) j ;; wr iw c 0) (f_iw s) ;;
  iw <- for_ ku (t_k (f_U s)) (fun j iw => c <- rd (t_ix (f_U s)) j ;; wr iw c 0) iw ;;
  Ok (mkFst iw (f_L s) (f_U s) (f_d s), t).

(** lis_precon_create_is_csr, lis_precon_is.c:142-413: the matrix precon->A and the right hand
    side precon->Pb.  w = params[ALPHA], m = options[M]+1.  lis_matrix_setDLU_csr stores the
    arrays, lis_matrix_merge_csr (Split.v) makes one CSR matrix of them. *)
Definition create_is (jl ju ji : Z -> Z) (jli jui : Z -> Z) (jlv juv jd jb : Z -> T) (jp jx : Z -> Z) (jv : Z -> T)
    (w : T) (m : Z) (A : split T) (b : list T) : res (csr T * list T) :=
  let n := sp_n A in
  ' (lp, up) <- is_count jl ju ji A m ;;
  nl <- rd lp n ;; nu <- rd up n ;;
  d <- for_ 0 n (fun i d => v <- rd (sp_D A) i ;; wr d i v) (alloc n jd) ;;
  ' (s, pb) <- for_ 0 n (fun i '(s, pb) => ' (s, t) <- fill_row w A m b lp up i s ;; pb <- wr pb i t ;; Ok (s, pb))
    (mkFst (alloc n (fun _ => 0)) (mkTri (alloc nl jli) (alloc nl jlv) 0) (mkTri (alloc nu jui) (alloc nu juv) 0) d, alloc n jb) ;;
  P <- merge_csr jp jx jv (mkSplit n n (mkCsr n n nl lp (t_ix (f_L s)) (t_v (f_L s))) (f_d s) (mkCsr n n nu up (t_ix (f_U s)) (t_v (f_U s)))) ;;
  Ok (P, pb).

(** ** Applying the preconditioner *)
(** lis_psolve_is, lis_precon_is.c:416-460 *)
Definition psolve_is (w : T) (m : Z) (A : split T) (x y : list T) : res (list T) :=
  let U := sp_U A in
  for_ 0 (sp_n A) (fun i y =>
    us <- rd (csr_ptr U) i ;; ue <- rd (csr_ptr U) (i + 1) ;;
    t <- for_ us (Z.min (us + m) ue) (fun j t => jj <- rd (csr_index U) j ;; v <- rd (csr_value U) j ;; xv <- rd x jj ;; Ok (sadd t (smul v xv))) s0 ;;
    xi <- rd x i ;; wr y i (ssub xi (smul w t))) y.
(** lis_psolveh_is, lis_precon_is.c:462-546 (#else branch) *)
Definition psolveh_is (w : T) (m : Z) (A : split T) (x y : list T) : res (list T) :=
  let U := sp_U A in
  y <- for_ 0 (sp_np A) (fun i y => v <- rd x i ;; wr y i v) y ;;
  for_ 0 (sp_n A) (fun i y =>
    t <- rd x i ;;
    us <- rd (csr_ptr U) i ;; ue <- rd (csr_ptr U) (i + 1) ;;
    for_ us (Z.min (us + m) ue) (fun j y => jj <- rd (csr_index U) j ;; v <- rd (csr_value U) j ;; y0 <- rd y jj ;; wr y jj (ssub y0 (smul (smul w (sconj v)) t))) y) y.

(** lis_psolve_adds, lis_precon_ads.c:113-214 (double).  [inner r w]: lis_psolve_xxx[ptype] with
    right hand side r and old contents w of the result; [mv x r]: lis_matvec(A,x,r). *)
Definition psolve_adds (inner : list T -> list T -> res (list T)) (mv : list T -> list T -> res (list T)) (n np iter : Z) (b x w : list T) : res (list T) :=
  x <- for_ 0 n (fun i x => wr x i s0) x ;;
  r <- for_ 0 n (fun i r => v <- rd b i ;; wr r i v) (alloc np (fun _ => s0)) ;;
  ' (x, _, _) <- for_ 0 (iter + 1) (fun k '(x, r, w) =>
      r <- for_ n np (fun i r => wr r i s0) r ;;
      w <- inner r w ;;
      x <- for_ 0 n (fun i x => xv <- rd x i ;; wv <- rd w i ;; wr x i (sadd xv wv)) x ;;
      if k =? iter then Ok (x, r, w)
      else
        r <- mv x r ;;
        r <- for_ 0 n (fun i r => bv <- rd b i ;; rv <- rd r i ;; wr r i (ssub bv rv)) r ;;
        Ok (x, r, w)) (x, r, w) ;;
  Ok x.
(** lis_psolveh_adds, lis_precon_ads.c:216-306 (double), is the same loop with lis_psolveh_xxx
    and lis_matvech *)
Definition psolveh_adds := psolve_adds.
End S.
Arguments cnt : clear implicits. Arguments tri : clear implicits. Arguments fst_ : clear implicits.
