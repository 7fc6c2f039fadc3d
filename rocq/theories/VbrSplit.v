(** Model of lis_matrix_split_vbr and lis_matrix_merge_vbr (src/matrix/lis_matrix_vbr.c, #else branches;
    one thread, one process).  The oracles j.. are the contents of freshly allocated arrays. *)
Require Import ZArith List Bool.
From Verif Require Import Base Scalar Spec BsrSolve.
Import ListNotations.
Open Scope Z_scope.

Section S.
Context {T : Type} {S : Scalar T}.

(** A->L, A->D (bns, v_value) and A->U of a split VBR matrix *)
Record vsplit := mkVsplit { vs_n : Z; vs_np : Z; vs_nr : Z; vs_nc : Z; vs_L : vbr T; vs_bns : list Z; vs_D : list (list T); vs_U : vbr T }.

(** (row[i+1]-row[i]) * (col[jj+1]-col[jj]) *)
Definition vsize (row col : list Z) (i jj : Z) : res Z :=
  r1 <- rd row (i + 1) ;; r0 <- rd row i ;; c1 <- rd col (jj + 1) ;; c0 <- rd col jj ;; Ok ((r1 - r0) * (c1 - c0)).
(** for(k=0;k<m;k++) d[k] = s[k], with d freshly allocated *)
Definition copy_ints (m : Z) (s : list Z) (j : Z -> Z) : res (list Z) :=
  for_ 0 m (fun k d => v <- rd s k ;; wr d k v) (alloc m j).

(** vbr.c:1234-1249: "nnzl" counts the blocks and "bnnzl" the elements *)
Definition split_count_vbr (A : vbr T) : res (Z * Z * (Z * Z)) :=
  for_ 0 (vbr_nr A) (fun i s =>
    js <- rd (vbr_bptr A) i ;; je <- rd (vbr_bptr A) (i + 1) ;;
    for_ js je (fun j s =>
      let '((nl, bl), (nu, bu)) := s in
      jj <- rd (vbr_bindex A) j ;;
      if jj <? i then bs <- vsize (vbr_row A) (vbr_col A) i jj ;; Ok ((nl + 1, bl + bs), (nu, bu))
      else if i <? jj then bs <- vsize (vbr_row A) (vbr_col A) i jj ;; Ok ((nl, bl), (nu + 1, bu + bs))
      else Ok s) s) ((0, 0), (0, 0)).

(** one block of bs elements, at src[p], is appended: bindex[nb]=c; memcpy(&value[ne],&src[p],bs);
    nb++; ne+=bs; ptr[nb]=ne (1341-1357, 1452-1460, 1461-1467, 1468-1476) *)
Notation vfill := (list Z * list T * list Z * Z * Z)%type.
Definition emitv (bs : Z) (st : vfill) (c : Z) (src : list T) (p : Z) : res vfill :=
  let '(ix, vl, pt, nb, ne) := st in
  ix <- wr ix nb c ;; vl <- memcpy bs vl ne src p ;; pt <- wr pt (nb + 1) (ne + bs) ;;
  Ok (ix, vl, pt, nb + 1, ne + bs).
(** lis_matrix_diag_duplicateM, lis_matrix_diag.c:394-420 *)
Definition diag_alloc_vbr (jb : Z -> Z) (jd : Z -> Z -> T) (nr : Z) (row : list Z) : res (list Z * list (list T)) :=
  for_ 0 nr (fun i s =>
    let '(bns, d) := s in
    r1 <- rd row (i + 1) ;; r0 <- rd row i ;;
    bns <- wr bns i (r1 - r0) ;; d <- wr d i (alloc ((r1 - r0) * (r1 - r0)) (jd i)) ;; Ok (bns, d))
    (alloc nr jb, alloc nr (fun _ => [])).

(** lis_matrix_split_vbr, lis_matrix_vbr.c:1120-1401.  lis_matrix_malloc_vbr (106-161) takes nnz elements for
    value and bnnz for bindex; the counts are passed the other way round (1256, 1261).  [nbl], [nel]: the number of blocks
    and of elements (the C function names them bnnzl and nnzl from 1327 on) *)
Definition split_vbr (jlr jlc jlp jlb jli : Z -> Z) (jlv : Z -> T) (jur juc jup jub jui : Z -> Z) (juv : Z -> T) (jb : Z -> Z) (jd : Z -> Z -> T) (A : vbr T) : res vsplit :=
  let nr := vbr_nr A in let nc := vbr_nc A in
  ' (cl, cu) <- split_count_vbr A ;;
  let '(nl, bl) := cl in let '(nu, bu) := cu in
  ' (bns, d) <- diag_alloc_vbr jb jd nr (vbr_row A) ;;
  lrow <- copy_ints (nr + 1) (vbr_row A) jlr ;; urow <- copy_ints (nr + 1) (vbr_row A) jur ;;
  lcol <- copy_ints (nc + 1) (vbr_col A) jlc ;; ucol <- copy_ints (nc + 1) (vbr_col A) juc ;;
  lptr <- wr (alloc (bl + 1) jlp) 0 0 ;; uptr <- wr (alloc (bu + 1) jup) 0 0 ;;
  lbptr <- wr (alloc (nr + 1) jlb) 0 0 ;; ubptr <- wr (alloc (nr + 1) jub) 0 0 ;;
  ' (l, u, d, lbptr, ubptr) <- for_ 0 nr (fun i s =>
      let '(l, u, d, lbptr, ubptr) := s in
      js <- rd (vbr_bptr A) i ;; je <- rd (vbr_bptr A) (i + 1) ;;
      ' (l, u, d) <- for_ js je (fun j s =>
          let '(l, u, d) := s in
          jj <- rd (vbr_bindex A) j ;;
          bs <- vsize (vbr_row A) (vbr_col A) i jj ;; p <- rd (vbr_ptr A) j ;;
          if jj <? i then l <- emitv bs l jj (vbr_value A) p ;; Ok (l, u, d)
          else if i <? jj then u <- emitv bs u jj (vbr_value A) p ;; Ok (l, u, d)
          else b <- rd d i ;; b <- memcpy bs b 0 (vbr_value A) p ;; d <- wr d i b ;; Ok (l, u, d)) (l, u, d) ;;
      let '(_, _, _, nbl, _) := l in let '(_, _, _, nbu, _) := u in
      lbptr <- wr lbptr (i + 1) nbl ;; ubptr <- wr ubptr (i + 1) nbu ;;
      Ok (l, u, d, lbptr, ubptr))
    ((alloc bl jli, alloc nl jlv, lptr, 0, 0), (alloc bu jui, alloc nu juv, uptr, 0, 0), d, lbptr, ubptr) ;;
  let '(li, lv, lptr, nbl, nel) := l in let '(ui, uv, uptr, nbu, neu) := u in
  Ok (mkVsplit (vbr_n A) (vbr_np A) nr nc (mkVbr (vbr_n A) (vbr_np A) nr nc nbl nel lrow lcol lptr lbptr li lv) bns d
                                         (mkVbr (vbr_n A) (vbr_np A) nr nc nbu neu urow ucol uptr ubptr ui uv)).

(** lis_matrix_merge_vbr, lis_matrix_vbr.c:1408-1489; nnz = A->nnz *)
Definition merge_vbr (jr jc jp jb ji : Z -> Z) (jv : Z -> T) (nnz : Z) (P : vsplit) : res (vbr T) :=
  let L := vs_L P in let U := vs_U P in let nr := vs_nr P in let nc := vs_nc P in
  let bnnz := vbr_bnnz L + vbr_bnnz U + nr in
  bptr <- wr (alloc (nr + 1) jb) 0 0 ;; ptr <- wr (alloc (bnnz + 1) jp) 0 0 ;;
  row <- copy_ints (nr + 1) (vbr_row L) jr ;; col <- copy_ints (nc + 1) (vbr_col L) jc ;;
  let part (B : vbr T) i e :=
      js <- rd (vbr_bptr B) i ;; je <- rd (vbr_bptr B) (i + 1) ;;
      for_ js je (fun j e => jj <- rd (vbr_bindex B) j ;; bs <- vsize (vbr_row B) (vbr_col B) i jj ;; p <- rd (vbr_ptr B) j ;; emitv bs e jj (vbr_value B) p) e in
  ' (e, bptr) <- for_ 0 nr (fun i s =>
      let '(e, bptr) := s in
      e <- part L i e ;;
      bn <- rd (vs_bns P) i ;; d <- rd (vs_D P) i ;; e <- emitv (bn * bn) e i d 0 ;;
      e <- part U i e ;;
      let '(_, _, _, nb, _) := e in
      bptr <- wr bptr (i + 1) nb ;; Ok (e, bptr))
    ((alloc bnnz ji, alloc nnz jv, ptr, 0, 0), bptr) ;;
  let '(ix, vl, ptr, nb, ne) := e in
  Ok (mkVbr (vs_n P) (vs_np P) nr nc nb nnz row col ptr bptr ix vl).
End S.
Arguments vsplit T : clear implicits.
