(** Model of the ILUT preconditioner for CSR matrices, src/precon/lis_precon_ilut.c:
    lis_precon_create_ilut_csr, lis_psolve_ilut_csr, lis_psolveh_ilut_csr.

    Simplifications: double precision only (no quad branches); malloc does not fail;
    L->nnz[i], U->nnz[i] are the lengths of the rows L->index[i], U->index[i].
    [is_, ie) is the row range of one OpenMP thread; the serial branches are is_=0, ie=n
    (there the test  col<is || col>=ie  is the  col>n-1  test of the MPI build and is
    always false otherwise; in that build the mean of line 442 is taken over the whole local row).  A thread runs on its own section (offset my_rank*n) of
    jbuf, iw, w, wn and reads and writes only the rows [is_, ie) of L, U, D, so a thread's
    result does not depend on the others.  [w] has n+1 elements as in the serial branch (the
    last one is never used).  lfil, computed in floating point from A->nnz, n and the
    parameter -ilut_rate (lines 129, 386), is a parameter. *)
Require Import ZArith List Bool.
From Verif Require Import Base Scalar Spec Sort Ilu.
Import ListNotations.
Open Scope Z_scope.

Section S.
Context {T : Type} {S : Scalar T}.

(** x < y on the results of fabs *)
Definition sltb (x y : T) : bool := negb (sleb y x).

(** working row: jbuf, iw, w, lenl, lenu *)
Record trow := mkTrow { t_jbuf : list Z; t_iw : list Z; t_w : list T; t_lenl : Z; t_lenu : Z }.

(** lines 437-443 (#else), 186-196 (OpenMP): tolnorm = tol * (mean of |a_ij| over the row) *)
Definition tnorm (is_ ie : Z) (A : csr T) (i : Z) : res T :=
  js <- rd (csr_ptr A) i ;; je <- rd (csr_ptr A) (i + 1) ;;
  ' (t, k) <- for_ js je (fun j p =>
    c <- rd (csr_index A) j ;;
    if (is_ <=? c) && (c <? ie) then v <- rd (csr_value A) j ;; Ok (sadd (fst p) (sabs v), sadd (snd p) s1) else Ok p) (s0, s0) ;;
  Ok (sdiv t k).

(** lines 460-463 and 535-538: a new column on the left of the diagonal *)
Definition app_l (c : Z) (v : T) (s : trow) : res trow :=
  jb <- wr (t_jbuf s) (t_lenl s) c ;; iw <- wr (t_iw s) c (t_lenl s) ;; w <- wr (t_w s) (t_lenl s) v ;;
  Ok (mkTrow jb iw w (t_lenl s + 1) (t_lenu s)).
(** lines 471-475 and 520-524: a new column on the right *)
Definition app_u (i c : Z) (v : T) (s : trow) : res trow :=
  let p := i + (t_lenu s + 1) in
  jb <- wr (t_jbuf s) p c ;; iw <- wr (t_iw s) c p ;; w <- wr (t_w s) p v ;;
  Ok (mkTrow jb iw w (t_lenl s) (t_lenu s + 1)).

(** lines 445-477: load row i of A *)
Definition ilut_load (is_ ie : Z) (A : csr T) (i : Z) (jb iw : list Z) (w : list T) : res trow :=
  jb <- wr jb i i ;; w <- wr w i s0 ;; iw <- wr iw i i ;;
  js <- rd (csr_ptr A) i ;; je <- rd (csr_ptr A) (i + 1) ;;
  for_ js je (fun j s =>
    c <- rd (csr_index A) j ;;
    if (is_ <=? c) && (c <? ie) then
      t <- rd (csr_value A) j ;;
      if c <? i then app_l c t s
      else if c =? i then w <- wr (t_w s) i t ;; Ok (mkTrow (t_jbuf s) (t_iw s) w (t_lenl s) (t_lenu s))
      else app_u i c t s
    else Ok s) (mkTrow jb iw w 0 0).

(** lines 484-504: bring the smallest remaining column of the left part to position j *)
Definition ilut_select (j : Z) (s : trow) : res (Z * trow) :=
  jr <- rd (t_jbuf s) j ;;
  ' (jrow, jpos) <- for_ (j + 1) (t_lenl s) (fun k m =>
      v <- rd (t_jbuf s) k ;; if v <? fst m then Ok (v, k) else Ok m) (jr, j) ;;
  if jpos =? j then Ok (jrow, s)
  else
    col <- rd (t_jbuf s) j ;; cp <- rd (t_jbuf s) jpos ;;
    jb <- wr (t_jbuf s) j cp ;; jb <- wr jb jpos col ;;
    iw <- wr (t_iw s) jrow j ;; iw <- wr iw col jpos ;;
    w <- swap (t_w s) j jpos ;;
    Ok (jrow, mkTrow jb iw w (t_lenl s) (t_lenu s)).

(** lines 509-546: subtract fact times row jrow of U, dropping small new entries *)
Definition ilut_merge (tolnorm : T) (i : Z) (fact : T) (urow : list Z) (uval : list T) (s : trow) : res trow :=
  for_ 0 (zlen urow) (fun k s =>
    c <- rd urow k ;; jpos <- rd (t_iw s) c ;; u <- rd uval k ;;
    let lxu := smul (sopp fact) u in
    if sltb (sabs lxu) tolnorm && (jpos =? -1) then Ok s
    else if jpos =? -1 then (if i <=? c then app_u i c lxu s else app_l c lxu s)
    else v <- rd (t_w s) jpos ;; w <- wr (t_w s) jpos (sadd v lxu) ;;
         Ok (mkTrow (t_jbuf s) (t_iw s) w (t_lenl s) (t_lenu s))) s.

(** lines 479-552:  j=-1; while( ++j < lenl ) ...  (the fuel n+1 always suffices) *)
Definition ilut_elim (n : Z) (tolnorm : T) (i : Z) (U : list (list Z)) (Uv : list (list T)) (D : list T) (s : trow) : res trow :=
  ' (_, s) <- while_ (Z.to_nat (n + 1)) (fun p => Ok (fst p <? t_lenl (snd p)))
    (fun p => let '(j, s) := p in
      ' (jrow, s) <- ilut_select j s ;;
      wj <- rd (t_w s) j ;; d <- rd D jrow ;;
      let fact := smul wj d in
      w <- wr (t_w s) j fact ;; iw <- wr (t_iw s) jrow (-1) ;;
      urow <- rd U jrow ;; uval <- rd Uv jrow ;;
      s <- ilut_merge tolnorm i fact urow uval (mkTrow (t_jbuf s) iw w (t_lenl s) (t_lenu s)) ;;
      Ok (j + 1, s)) (0, s) ;;
  Ok s.

(** lines 563-584 (base 0) and 586-607 (base i+1): keep min(lfil,len) of the [len] entries at
    positions base.. : lis_sort_di orders them by increasing fabs and the first ones are
    kept, in the order of their positions.  Returns the new wn, iw and the row. *)
Definition ilut_keep (lfil base len : Z) (jb : list Z) (w wn : list T) (iw : list Z) : res (list T * list Z * list Z * list T) :=
  let k := Z.min lfil len in
  ' (wn, iw) <- for_ 0 len (fun j p =>
      v <- rd w (base + j) ;; wn <- wr (fst p) j (sabs v) ;; iw <- wr (snd p) j (base + j) ;; Ok (wn, iw)) (wn, iw) ;;
  ' (wn, iw) <- lis_sort_di sltb 0 (len - 1) wn iw ;;
  iw <- lis_sort_i 0 (k - 1) iw ;;
  ' (ix, v) <- for_ 0 k (fun j p =>
      jpos <- rd iw j ;; c <- rd jb jpos ;; x <- rd w jpos ;; Ok (fst p ++ [c], snd p ++ [x])) ([], []) ;;
  iw <- for_ 0 len (fun j iw => wr iw j (-1)) iw ;;
  Ok (wn, iw, ix, v).

(** L, U, D, jbuf, iw, w, wn *)
Record tst := mkTst { q_L : list (list Z); q_Lv : list (list T); q_U : list (list Z); q_Uv : list (list T); q_D : list T;
                      q_jbuf : list Z; q_iw : list Z; q_w : list T; q_wn : list T }.

(** lines 437-607: one row *)
Definition ilut_row (n : Z) (tol : T) (lfil is_ ie : Z) (A : csr T) (i : Z) (q : tst) : res tst :=
  tn <- tnorm is_ ie A i ;;
  let tolnorm := smul tol tn in
  s <- ilut_load is_ ie A i (q_jbuf q) (q_iw q) (q_w q) ;;
  s <- ilut_elim n tolnorm i (q_U q) (q_Uv q) (q_D q) s ;;
  iw <- wr (t_iw s) i (-1) ;;
  iw <- for_ 0 (t_lenu s) (fun j iw => c <- rd (t_jbuf s) (i + j + 1) ;; wr iw c (-1)) iw ;;
  wi <- rd (t_w s) i ;; D <- wr (q_D q) i (sdiv s1 wi) ;;
  ' (wn, iw, lx, lv) <- ilut_keep lfil 0 (t_lenl s) (t_jbuf s) (t_w s) (q_wn q) iw ;;
  L <- wr (q_L q) i lx ;; Lv <- wr (q_Lv q) i lv ;;
  ' (wn, iw, ux, uv) <- ilut_keep lfil (i + 1) (t_lenu s) (t_jbuf s) (t_w s) wn iw ;;
  U <- wr (q_U q) i ux ;; Uv <- wr (q_Uv q) i uv ;;
  Ok (mkTst L Lv U Uv D (t_jbuf s) iw (t_w s) wn).

(** lines 383-616; jb, ji, jw, jn, jd: contents of the malloc'ed jbuf, iw, w, wn and D->value *)
Definition create_ilut (jb ji : Z -> Z) (jw jn jd : Z -> T) (tol : T) (lfil is_ ie : Z) (A : csr T) : res (factors T) :=
  let n := csr_n A in
  iw <- for_ is_ ie (fun i iw => wr iw i (-1)) (alloc n ji) ;;
  let rows := alloc n (fun _ => []) in let vals := alloc n (fun _ => []) in
  q <- for_ is_ ie (ilut_row n tol lfil is_ ie A) (mkTst rows vals rows vals (alloc n jd) (alloc n jb) iw (alloc (n + 1) jw) (alloc n jn)) ;;
  Ok (mkFactors (q_L q) (q_Lv q) (q_U q) (q_Uv q) (q_D q)).

(** ** lis_psolve_ilut_csr, lines 767-784 (#else), 658-681 (OpenMP): the same loops as lis_psolve_iluk_csr *)
Definition psolve_ilut := psolve_iluk (S:=S).

(** ** lis_psolveh_ilut_csr, lines 969-987 (#else): D->value[i] without conj *)
Definition psolveh_ilut := psolveh_iluk_with (S:=S) (fun d => d).
(** lines 863-887 (OpenMP):  x[i] = conj(D->value[i]*x[i]) *)
Definition psolveh_ilut_omp (is_ ie : Z) (P : factors T) (b : list T) : res (list T) :=
  x <- for_ is_ ie (fun i x =>
    d <- rd (fa_D P) i ;; xi <- rd x i ;; x <- wr x i (sconj (smul d xi)) ;;
    ux <- rd (fa_U P) i ;; uv <- rd (fa_Uv P) i ;; col_elim ux uv i x) b ;;
  for_down (ie - 1) is_ (fun i x => lx <- rd (fa_L P) i ;; lv <- rd (fa_Lv P) i ;; col_elim lx lv i x) x.
End S.
