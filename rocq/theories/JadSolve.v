(** Model of lis_matrix_split_jad, lis_matrix_merge_jad, lis_matrix_solve_jad and
    lis_matrix_solveh_jad (src/matrix/lis_matrix_jad.c; one thread, one process).  The oracles j..
    are the contents of freshly allocated arrays.  The shared loop shapes are in SplitFmt.v. *)
Require Import ZArith List Bool.
From Verif Require Import Base Scalar Spec Sort SplitFmt.
Import ListNotations.
Open Scope Z_scope.

Section S.
Context {T : Type} {S : Scalar T}.

(** a triangle of a split JAD matrix: a JAD structure and the array [col], the inverse of
    the permutation [row] *)
Record jside := mkJside { jd_A : jad T; jd_col : list Z }.
Record jsplit := mkJsplit { js_n : Z; js_L : jside; js_D : list T; js_U : jside }.

(** for(j=0;j<maxnzr;j++){ k=0; for(i=ptr[j];i<ptr[j+1];i++){ ...; k++; } } *)
Definition jad_items {St} (A : jad T) (f : Z -> Z -> St -> res St) (s : St) : res St :=
  for_ 0 (jad_maxnzr A) (fun j s =>
    lo <- rd (jad_ptr A) j ;; hi <- rd (jad_ptr A) (j + 1) ;;
    for_ lo hi (fun i s => f (i - lo) i s) s) s.

(** jad.c:932-956: the entries of each triangle in all and in the row at each position *)
Definition split_jad_count (A : jad T) : res (Z * list Z * (Z * list Z)) :=
  let n := jad_n A in
  jad_items A (fun k i s =>
    let '((nl, lw), (nu, uw)) := s in
    c <- rd (jad_index A) i ;; r <- rd (jad_perm A) k ;;
    if c <? r then lw <- incr lw k ;; Ok ((nl + 1, lw), (nu, uw))
    else if r <? c then uw <- incr uw k ;; Ok ((nl, lw), (nu + 1, uw))
    else Ok s) ((0, alloc n (fun _ => 0)), (0, alloc n (fun _ => 0))).
(** jad.c:957-961 *)
Definition jad_longest (n : Z) (w : list Z) : res Z :=
  for_ 0 n (fun i m => a <- rd w i ;; Ok (if m <? a then a else m)) 0.
(** jad.c:1063-1095 for one triangle (the C function runs the two triangles side by side in the
    same loops; they share no array except A->row, which is only read): perm, ptr, col, and
    the work array set to zero *)
Definition jad_layout (n m : Z) (row w : list Z) (jq jp jc : Z -> Z) : res (list Z * list Z * list Z * list Z) :=
  ptr <- for_ 0 (m + 1) (fun i ptr => wr ptr i 0) (alloc (m + 1) jp) ;;
  ' (perm, ptr) <- for_ 0 n (fun i s =>
      let '(perm, ptr) := s in
      r <- rd row i ;; perm <- wr perm i r ;;
      c <- rd w i ;;
      ptr <- for_ 0 c (fun j ptr => incr ptr (j + 1)) ptr ;;
      Ok (perm, ptr)) (alloc n jq, ptr) ;;
  ' (w, perm) <- lis_sortr_ii 0 (n - 1) w perm ;;
  ptr <- for_ 0 m (fun j ptr => a <- rd ptr (j + 1) ;; b <- rd ptr j ;; wr ptr (j + 1) (a + b)) ptr ;;
  ' (w, col) <- for_ 0 n (fun i s =>
      let '(w, col) := s in
      w <- wr w i 0 ;; r <- rd perm i ;; col <- wr col r i ;; Ok (w, col)) (w, alloc n jc) ;;
  Ok (perm, ptr, col, w).
(** one entry of row r into a triangle, jad.c:1103-1106, 1110-1113 *)
Definition jad_put (ptr col : list Z) (r c : Z) (v : T) (s : list Z * list Z * list T) : res (list Z * list Z * list T) :=
  let '(w, ix, vl) := s in
  q <- rd w r ;; p <- rd ptr q ;; t <- rd col r ;;
  let kk := p + t in
  w <- wr w r (q + 1) ;; ix <- wr ix kk c ;; vl <- wr vl kk v ;;
  Ok (w, ix, vl).
(** lis_matrix_split_jad, lis_matrix_jad.c:815-1141, #else branches; D has A->np elements
    (lis_matrix_diag.c:421) *)
Definition split_jad (jlq jlp jlc jli : Z -> Z) (jlv : Z -> T) (juq jup juc jui : Z -> Z) (juv jd : Z -> T) (A : jad T) : res jsplit :=
  let n := jad_n A in
  ' (l, u) <- split_jad_count A ;;
  let '(nl, lw) := l in let '(nu, uw) := u in
  lm <- jad_longest n lw ;; um <- jad_longest n uw ;;
  ' (lperm, lptr, lcol, lw) <- jad_layout n lm (jad_perm A) lw jlq jlp jlc ;;
  ' (uperm, uptr, ucol, uw) <- jad_layout n um (jad_perm A) uw juq jup juc ;;
  ' (l, u, d) <- jad_items A (fun k i s =>
      let '(l, u, d) := s in
      c <- rd (jad_index A) i ;; r <- rd (jad_perm A) k ;; v <- rd (jad_value A) i ;;
      if c <? r then l <- jad_put lptr lcol r c v l ;; Ok (l, u, d)
      else if r <? c then u <- jad_put uptr ucol r c v u ;; Ok (l, u, d)
      else d <- wr d r v ;; Ok (l, u, d))
    ((lw, alloc nl jli, alloc nl jlv), (uw, alloc nu jui, alloc nu juv), alloc (jad_np A) jd) ;;
  let '(_, li, lv) := l in let '(_, ui, uv) := u in
  Ok (mkJsplit n (mkJside (mkJad n (jad_np A) nl lm lperm lptr li lv) lcol) d
                 (mkJside (mkJad n (jad_np A) nu um uperm uptr ui uv) ucol)).

(** one row of a triangle:
    k=col[i]; l=0; j=ptr[l++]+k; while( j<ptr[l] && l<=maxnzr ){ item j; j=ptr[l++]+k; } *)
Definition jad_walk {St} (B : jside) (i : Z) (item : Z -> St -> res St) (s : St) : res St :=
  let ptr := jad_ptr (jd_A B) in let m := jad_maxnzr (jd_A B) in
  k <- rd (jd_col B) i ;; p <- rd ptr 0 ;;
  st <- while_ (Z.to_nat (m + 2))
    (fun st => let '(j, l, _) := st in q <- rd ptr l ;; Ok ((j <? q) && (l <=? m)))
    (fun st => let '(j, l, s) := st in s <- item j s ;; q <- rd ptr l ;; Ok (q + k, l + 1, s))
    (p + k, 1, s) ;;
  Ok (snd st).
Definition jix (B : jside) := jad_index (jd_A B).
Definition jvl (B : jside) := jad_value (jd_A B).
(** lis_matrix_solve_jad, lis_matrix_jad.c:1433-1508 *)
Definition solve_lower_jad (A : jsplit) (wd b x : list T) : res (list T) :=
  fwd_gather (js_n A) ident (fun i x t => jad_walk (js_L A) i (item_sub ident (jix (js_L A)) (jvl (js_L A)) x) t) wd b x.
Definition solve_upper_jad (A : jsplit) (wd b x : list T) : res (list T) :=
  bwd_gather (js_n A) ident (fun i x t => jad_walk (js_U A) i (item_sub ident (jix (js_U A)) (jvl (js_U A)) x) t) wd b x.
Definition solve_ssor_jad (A : jsplit) (wd b x : list T) : res (list T) :=
  x <- solve_lower_jad A wd b x ;;
  bwd_correct (js_n A) ident (fun i x t => jad_walk (js_U A) i (item_add ident (jix (js_U A)) (jvl (js_U A)) x) t) wd x.
(** lis_matrix_solveh_jad, lis_matrix_jad.c:1513-1588 *)
Definition solveh_lower_jad (A : jsplit) (wd b x : list T) : res (list T) :=
  x <- copy_to (js_n A) b x ;;
  fwd_scatter (js_n A) sconj (fun i x => jad_walk (js_U A) i (item_live sconj (jix (js_U A)) (jvl (js_U A)) i) x) wd x.
Definition solveh_upper_jad (A : jsplit) (wd b x : list T) : res (list T) :=
  x <- copy_to (js_n A) b x ;;
  bwd_scatter (js_n A) sconj (fun i x => jad_walk (js_L A) i (item_live sconj (jix (js_L A)) (jvl (js_L A)) i) x) wd x.
Definition solveh_ssor_jad (A : jsplit) (wd b x : list T) : res (list T) :=
  x <- copy_to (js_n A) b x ;;
  x <- fwd_scatter_t (js_n A) sconj (fun i t x => jad_walk (js_U A) i (item_scat sconj (jix (js_U A)) (jvl (js_U A)) t) x) wd x ;;
  bwd_scatter_t (js_n A) sconj (fun i t x => jad_walk (js_L A) i (item_scat sconj (jix (js_L A)) (jvl (js_L A)) t) x) wd x.

(** lis_matrix_merge_jad, lis_matrix_jad.c:1143-1394, #else branches.  A->maxnzr is not
    assigned: the merged matrix keeps the [maxnzr] it had before the split, the parameter [m0] *)
Definition merge_jad (jw jw2 jq jp ji : Z -> Z) (jv : Z -> T) (np m0 : Z) (P : jsplit) : res (jad T) :=
  let n := js_n P in let L := jd_A (js_L P) in let U := jd_A (js_U P) in
  let nnz := jad_nnz L + jad_nnz U + n in
  let bump (B : jad T) iw := for_ 0 (jad_maxnzr B) (fun j iw =>
      hi <- rd (jad_ptr B) (j + 1) ;; lo <- rd (jad_ptr B) j ;;
      for_ 0 (hi - lo) (fun i iw => r <- rd (jad_perm B) i ;; incr iw r) iw) iw in
  iw <- for_ 0 n (fun i iw => wr iw i 1) (alloc n jw) ;;
  iw <- bump L iw ;;
  iw <- bump U iw ;;
  maxnzr <- jad_longest n iw ;;
  (* jad.c:1327-1348: the loops of jad_layout with perm[i] = i *)
  ' (perm, ptr, iw2, iw) <- jad_layout n maxnzr (zrange 0 n) iw jq jp jw2 ;;
  let put (B : jad T) := jad_items B (fun k i s =>
      r <- rd (jad_perm B) k ;; c <- rd (jad_index B) i ;; v <- rd (jad_value B) i ;; jad_put ptr iw2 r c v s) in
  s <- put L (iw, alloc nnz ji, alloc nnz jv) ;;
  s <- for_ 0 n (fun i s => v <- rd (js_D P) i ;; jad_put ptr iw2 i i v s) s ;;
  s <- put U s ;;
  let '(_, index, value) := s in
  Ok (mkJad n np nnz m0 perm ptr index value).
End S.
Arguments jside T : clear implicits.
Arguments jsplit T : clear implicits.
