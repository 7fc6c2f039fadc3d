(** Model of the ILUC (Crout) preconditioner for CSR matrices, src/precon/lis_precon_iluc.c:
    lis_precon_create_iluc_csr (#else branch, lines 560-921), lis_psolve_iluc (2094-2195),
    lis_psolveh_iluc (2448-2540).

    Simplifications: real scalars (the code keeps 1/D[k] in a LIS_REAL), double precision, one thread, one process; malloc does not fail; [A] is the split
    matrix after lis_matrix_sort_csr (line 662); L->nnz[k], U->nnz[k] are the lengths of
    L->index[k], U->index[k].  lfil, computed in floating point from A->nnz, n and -iluc_rate
    (line 586), is a parameter.
    The code treats the row z of U and the column w of L alike; the model has one function for
    both where the code repeats it with the names exchanged. *)
Require Import ZArith List Bool.
From Verif Require Import Base Scalar Spec Sort Csc Split Ilu Ilut.
Import ListNotations.
Open Scope Z_scope.

Section S.
Context {T : Type} {S : Scalar T}.

(** working row or column: (z,iz,zc,cz) or (w,iw,wc,cw) *)
Record wrow := mkWrow { w_v : list T; w_ix : list Z; w_c : list Z; w_n : Z }.
(** z[jj] = a; iz[cz++] = jj; zc[jj] = 1 *)
Definition wput (jj : Z) (a : T) (s : wrow) : res wrow :=
  v <- wr (w_v s) jj a ;; ix <- wr (w_ix s) (w_n s) jj ;; c <- wr (w_c s) jj 1 ;; Ok (mkWrow v ix c (w_n s + 1)).
(** lines 709-718 and 721-727: load the entries at positions [ptr[k],ptr[k+1]) *)
Definition wload (ptr index : list Z) (value : list T) (k : Z) (s : wrow) : res wrow :=
  js <- rd ptr k ;; je <- rd ptr (k + 1) ;;
  for_ js je (fun j s => jj <- rd index j ;; v <- rd value j ;; wput jj v s) s.

(** lines 738-753 / 780-794: subtract val times the stored row from position kk on; [skip]: line 741,
    which the second copy does not have *)
Definition wsub (skip : bool) (k kk : Z) (val : T) (ix : list Z) (v : list T) (s : wrow) : res wrow :=
  for_ kk (zlen ix) (fun j s =>
    jj <- rd ix j ;;
    if skip && (jj =? k) then Ok s else
    m <- rd (w_c s) jj ;; u <- rd v j ;;
    if m =? 1 then z <- rd (w_v s) jj ;; z' <- wr (w_v s) jj (ssub z (smul val u)) ;; Ok (mkWrow z' (w_ix s) (w_c s) (w_n s))
    else wput jj (smul (sopp val) u) s) s.

(** lines 730-769 (z; L,wc,wl; U) and 772-810 (w; U,zc,zl; L): walk the linked list of the rows i
    whose next unused entry is in column k.  [pc], [pl]: pointer and list arrays of the factor
    (Lx,Lv); the fuel n+1 always suffices. *)
Definition wlist (skip : bool) (n k : Z) (Lx : list (list Z)) (Lv : list (list T)) (Ux : list (list Z)) (Uv : list (list T))
    (pc pl : list Z) (s : wrow) : res (wrow * list Z * list Z) :=
  h <- rd pl k ;;
  ' (_, s, pc, pl) <- while_ (Z.to_nat (n + 1)) (fun q => let '(i, _, _, _) := q in Ok (0 <=? i))
    (fun q => let '(i, s, pc, pl) := q in
      ii <- rd pc i ;; kk <- rd (w_c s) i ;; lx <- rd Lx i ;; lv <- rd Lv i ;; val <- rd lv ii ;;
      ux <- rd Ux i ;; uv <- rd Uv i ;;
      s <- wsub skip k kk val ux uv s ;;
      pc <- wr pc i (ii + 1) ;;
      if ii + 1 <? zlen lx then
        kk <- rd lx (ii + 1) ;;
        nx <- rd pl i ;; old <- rd pl kk ;; pl <- wr pl i old ;; pl <- wr pl kk i ;; Ok (nx, s, pc, pl)
      else nx <- rd pl i ;; Ok (nx, s, pc, pl)) (h, s, pc, pl) ;;
  Ok (s, pc, pl).

(** lines 812-836: toldd, D[k] = 1/D[k], D[jj] -= z[jj]*w[jj]*t over the shorter list *)
Definition wdiag (k : Z) (tol : T) (D : list T) (z w : wrow) : res (T * T * list T) :=
  dk <- rd D k ;;
  let toldd := smul (sabs dk) tol in
  let t := sdiv s1 dk in
  D <- wr D k t ;;
  let upd (a b : wrow) := for_ 0 (w_n a) (fun j D =>
    jj <- rd (w_ix a) j ;; m <- rd (w_c b) jj ;;
    if m =? 0 then Ok D else
    d <- rd D jj ;; zj <- rd (w_v z) jj ;; wj <- rd (w_v w) jj ;; wr D jj (ssub d (smul (smul zj wj) t))) D in
  D <- (if w_n z <? w_n w then upd z w else upd w z) ;;
  Ok (toldd, t, D).

(** lines 837-869 (lump, f = id) and 871-902 (f: multiply by t): drop the small entries, keep at most lfil
    of the others: the first ones after sorting by tmp[j] = |z[j]| (not |z[iz[j]]|).
    Result: the working row with cz = nnz, tmp, and the stored row. *)
Definition wdrop (lump : bool) (k lfil : Z) (toldd : T) (f : T -> T) (s : wrow) (tmp : list T) : res (wrow * list T * list Z * list T) :=
  ' (v, ix, c, nnz) <- for_ 0 (w_n s) (fun j q => let '(v, ix, c, nnz) := q in
      jj <- rd ix j ;; z <- rd v jj ;;
      if sltb toldd (sabs z) then ix <- wr ix nnz jj ;; Ok (v, ix, c, nnz + 1)
      else v <- (if lump then zk <- rd v k ;; wr v k (sadd zk (sabs z)) else Ok v) ;; c <- wr c jj 0 ;; Ok (v, ix, c, nnz))
    (w_v s, w_ix s, w_c s, 0) ;;
  let len := Z.min lfil nnz in
  tmp <- for_ 0 nnz (fun j tmp => z <- rd v j ;; wr tmp j (sabs z)) tmp ;;
  ' (tmp, ix) <- lis_sort_di sltb 0 (nnz - 1) tmp ix ;;
  ix <- lis_sort_i 0 (len - 1) ix ;;
  ' (rx, rv) <- for_ 0 len (fun j p => jj <- rd ix j ;; z <- rd v jj ;; Ok (fst p ++ [jj], snd p ++ [f z])) ([], []) ;;
  c <- for_ len (w_n s) (fun j c => jj <- rd ix j ;; wr c jj 0) c ;;
  Ok (mkWrow v ix c nnz, tmp, rx, rv).

(** lines 905-906: for(j=0;j<cz;j++) zc[iz[j]] = 0 *)
Definition wclear (s : wrow) : res wrow :=
  c <- for_ 0 (w_n s) (fun j c => jj <- rd (w_ix s) j ;; wr c jj 0) (w_c s) ;; Ok (mkWrow (w_v s) (w_ix s) c (w_n s)).
(** lines 907-913 / 914-920: enter row k into the list of its first column *)
Definition wenter (k len : Z) (s : wrow) (pl : list Z) : res (wrow * list Z) :=
  if 0 <? len then
    jj <- rd (w_ix s) 0 ;; c <- wr (w_c s) k 0 ;; old <- rd pl jj ;; pl <- wr pl k old ;; pl <- wr pl jj k ;;
    Ok (mkWrow (w_v s) (w_ix s) c (w_n s), pl)
  else Ok (s, pl).

(** everything: factors, D, the two working rows (with zc and wc), zl, wl, tmp *)
Record cst := mkCst { c_L : list (list Z); c_Lv : list (list T); c_U : list (list Z); c_Uv : list (list T); c_D : list T;
                      c_z : wrow; c_w : wrow; c_zl : list Z; c_wl : list Z; c_tmp : list T }.
Definition setc (s : wrow) (c : list Z) : wrow := mkWrow (w_v s) (w_ix s) c (w_n s).
Definition setn (s : wrow) (n : Z) : wrow := mkWrow (w_v s) (w_ix s) (w_c s) n.

(** lines 704-921: one step k *)
Definition iluc_step (n : Z) (tol : T) (lfil : Z) (AU : csr T) (AL : csc T) (k : Z) (q : cst) : res cst :=
  z <- wload (csr_ptr AU) (csr_index AU) (csr_value AU) k (setn (c_z q) 0) ;;
  w <- wload (csc_ptr AL) (csc_index AL) (csc_value AL) k (setn (c_w q) 0) ;;
  ' (z, wc, wl) <- wlist true n k (c_L q) (c_Lv q) (c_U q) (c_Uv q) (w_c w) (c_wl q) z ;;
  ' (w, zc, zl) <- wlist false n k (c_U q) (c_Uv q) (c_L q) (c_Lv q) (w_c z) (c_zl q) (setc w wc) ;;
  let z := setc z zc in
  ' (toldd, t, D) <- wdiag k tol (c_D q) z w ;;
  ' (z, tmp, ux, uv) <- wdrop true k lfil toldd (fun a => a) z (c_tmp q) ;;
  U <- wr (c_U q) k ux ;; Uv <- wr (c_Uv q) k uv ;;
  ' (w, tmp, lx, lv) <- wdrop false k lfil toldd (fun a => smul a t) w tmp ;;
  L <- wr (c_L q) k lx ;; Lv <- wr (c_Lv q) k lv ;;
  z <- wclear z ;; w <- wclear w ;;
  ' (z, zl) <- wenter k (zlen ux) z zl ;;
  ' (w, wl) <- wenter k (zlen lx) w wl ;;
  Ok (mkCst L Lv U Uv D z w zl wl tmp).

(** lines 578-921; [J], [JV]: contents of the malloc'ed arrays.  The strictly lower part is transposed
    by the loops of lines 664-691, those of lis_matrix_convert_csr2csc (with iw of n elements). *)
Definition create_iluc (J : Z -> Z -> Z) (JV : Z -> Z -> T) (tol gamma : T) (lfil : Z) (A : split T) : res (factors T) :=
  let n := sp_n A in
  AL <- convert_csr2csc (J 1) (J 2) (J 3) (JV 1) (sp_L A) ;;
  ' (D, zl, wl, zc, wc) <- for_ 0 n (fun i q => let '(D, zl, wl, zc, wc) := q in
      d <- rd (sp_D A) i ;; D <- wr D i (smul gamma d) ;; zl <- wr zl i (-1) ;; wl <- wr wl i (-1) ;; zc <- wr zc i 0 ;; wc <- wr wc i 0 ;;
      Ok (D, zl, wl, zc, wc)) (alloc n (JV 2), alloc n (J 4), alloc n (J 5), alloc n (J 6), alloc n (J 7)) ;;
  let rows := alloc n (fun _ => []) in let vals := alloc n (fun _ => []) in
  q <- for_ 0 n (iluc_step n tol lfil (sp_U A) AL)
    (mkCst rows vals rows vals D (mkWrow (alloc n (JV 3)) (alloc n (J 8)) zc 0) (mkWrow (alloc n (JV 4)) (alloc n (J 9)) wc 0) zl wl (alloc n (JV 5))) ;;
  Ok (mkFactors (c_L q) (c_Lv q) (c_U q) (c_Uv q) (c_D q)).

(** lis_psolve_iluc, lines 2129-2151: L is stored by columns, U by rows *)
Definition psolve_iluc (n : Z) (P : factors T) (b : list T) : res (list T) :=
  x <- for_ 0 n (fun i x => lx <- rd (fa_L P) i ;; lv <- rd (fa_Lv P) i ;;
    for_ 0 (zlen lx) (fun j x => jj <- rd lx j ;; a <- rd lv j ;; xi <- rd x i ;; xj <- rd x jj ;; wr x jj (ssub xj (smul a xi))) x) b ;;
  for_down (n - 1) 0 (fun i x => ux <- rd (fa_U P) i ;; uv <- rd (fa_Uv P) i ;;
    w <- rd x i ;;
    w <- for_ 0 (zlen ux) (fun j w => jj <- rd ux j ;; a <- rd uv j ;; xj <- rd x jj ;; Ok (ssub w (smul a xj))) w ;;
    d <- rd (fa_D P) i ;; wr x i (smul w d)) x.
(** lis_psolveh_iluc, #else branch, lines 2479-2498: D without conj; the second loop starts at n-2 *)
Definition psolveh_iluc (n : Z) (P : factors T) (b : list T) : res (list T) :=
  x <- for_ 0 n (fun i x => d <- rd (fa_D P) i ;; xi <- rd x i ;; x <- wr x i (smul xi d) ;;
    ux <- rd (fa_U P) i ;; uv <- rd (fa_Uv P) i ;;
    for_ 0 (zlen ux) (fun j x => jj <- rd ux j ;; a <- rd uv j ;; xi <- rd x i ;; xj <- rd x jj ;; wr x jj (ssub xj (smul (sconj a) xi))) x) b ;;
  for_down (n - 2) 0 (fun i x => lx <- rd (fa_L P) i ;; lv <- rd (fa_Lv P) i ;;
    w <- rd x i ;;
    w <- for_ 0 (zlen lx) (fun j w => jj <- rd lx j ;; a <- rd lv j ;; xj <- rd x jj ;; Ok (ssub w (smul (sconj a) xj))) w ;;
    wr x i w) x.
End S.
