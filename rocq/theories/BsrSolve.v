(** Model of lis_matrix_split_bsr, lis_matrix_merge_bsr, lis_matrix_solve_bsr and of
    lis_matrix_diag_inverse for blocks (one thread, double precision). *)
Require Import ZArith List Bool.
From Verif Require Import Base Scalar Spec Array.
Import ListNotations.
Open Scope Z_scope.

Section S.
Context {T : Type} {S : Scalar T}.

(** A->L, A->D, A->U of a split BSR matrix; D holds nr blocks of order b *)
Record bsplit := mkBsplit { bs_n : Z; bs_np : Z; bs_b : Z; bs_nr : Z; bs_L : bsr T; bs_D : list T; bs_U : bsr T }.

(** memcpy(&d[o],&s[p],k*sizeof(LIS_SCALAR)), element by element *)
Definition memcpy (k : Z) (d : list T) (o : Z) (s : list T) (p : Z) : res (list T) :=
  for_ 0 k (fun q d => v <- rd s (p + q) ;; wr d (o + q) v) d.

(** index/value arrays of blocks with a fill counter; block j of src is appended *)
Definition emitb (bs : Z) (st : list Z * list T * Z) (c : Z) (src : list T) (j : Z) : res (list Z * list T * Z) :=
  let '(ix, vl, k) := st in
  ix <- wr ix k c ;; vl <- memcpy bs vl (bs * k) src (bs * j) ;; Ok (ix, vl, k + 1).

(** lis_matrix_bsr.c:1206-1219: how many blocks go to L and to U *)
Definition split_count_bsr (A : bsr T) : res (Z * Z) :=
  for_ 0 (bsr_nr A) (fun i s =>
    js <- rd (bsr_bptr A) i ;; je <- rd (bsr_bptr A) (i + 1) ;;
    for_ js je (fun j s =>
      c <- rd (bsr_bindex A) j ;;
      let '(nl, nu) := s in
      if c <? i then Ok (nl + 1, nu) else if i <? c then Ok (nl, nu + 1) else Ok (nl, nu)) s) (0, 0).

(** lis_matrix_split_bsr, lis_matrix_bsr.c:1131-1335, #else branches; lis_matrix_malloc_bsr (177-212)
    takes 1 + (n-1)/bnr block rows; lis_matrix_diag_duplicateM (382-392) allocates nr*bnr*bnc elements.
    The seven oracles are the initial contents of the malloc'ed arrays. *)
Definition split_bsr (jlp jli : Z -> Z) (jlv : Z -> T) (jup jui : Z -> Z) (juv jd : Z -> T) (A : bsr T) : res bsplit :=
  let n := bsr_n A in let bnr := bsr_bnr A in let bnc := bsr_bnc A in
  let nr := bsr_nr A in let bs := bnr * bnc in
  if negb (bnr =? bnc) then Err LIS_ERR_NOT_IMPLEMENTED else
  ' (nnzl, nnzu) <- split_count_bsr A ;;
  let nrm := 1 + Z.quot (n - 1) bnr in
  lptr <- wr (alloc (nrm + 1) jlp) 0 0 ;;
  uptr <- wr (alloc (nrm + 1) jup) 0 0 ;;
  ' (l, u, d, lptr, uptr) <- for_ 0 nr (fun i s =>
      let '(l, u, d, lptr, uptr) := s in
      js <- rd (bsr_bptr A) i ;; je <- rd (bsr_bptr A) (i + 1) ;;
      ' (l, u, d) <- for_ js je (fun j s =>
          let '(l, u, d) := s in
          c <- rd (bsr_bindex A) j ;;
          if c <? i then l <- emitb bs l c (bsr_value A) j ;; Ok (l, u, d)
          else if i <? c then u <- emitb bs u c (bsr_value A) j ;; Ok (l, u, d)
          else d <- memcpy bs d (bs * i) (bsr_value A) (bs * j) ;; Ok (l, u, d)) (l, u, d) ;;
      lptr <- wr lptr (i + 1) (snd l) ;; uptr <- wr uptr (i + 1) (snd u) ;;
      Ok (l, u, d, lptr, uptr))
    ((alloc nnzl jli, alloc (nnzl * bnr * bnc) jlv, 0), (alloc nnzu jui, alloc (nnzu * bnr * bnc) juv, 0),
     alloc (nr * bnr * bnc) jd, lptr, uptr) ;;
  let '(li, lv, nl) := l in let '(ui, uv, nu) := u in
  Ok (mkBsplit n (bsr_np A) bnr nr (mkBsr n (bsr_np A) bnr bnc nr nl lptr li lv) d (mkBsr n (bsr_np A) bnr bnc nr nu uptr ui uv)).

(** lis_matrix_merge_bsr, lis_matrix_bsr.c:1338-1395 *)
Definition merge_bsr (jp ji : Z -> Z) (jv : Z -> T) (A : bsplit) : res (bsr T) :=
  let n := bs_n A in let nr := bs_nr A in let b := bs_b A in let bs := b * b in
  let L := bs_L A in let U := bs_U A in
  let bnnz := bsr_bnnz L + bsr_bnnz U + nr in
  ptr <- wr (alloc (1 + Z.quot (n - 1) b + 1) jp) 0 0 ;;
  ' (e, ptr) <- for_ 0 nr (fun i s =>
      let '(e, ptr) := s in
      js <- rd (bsr_bptr L) i ;; je <- rd (bsr_bptr L) (i + 1) ;;
      e <- for_ js je (fun j e => c <- rd (bsr_bindex L) j ;; emitb bs e c (bsr_value L) j) e ;;
      e <- emitb bs e i (bs_D A) i ;;
      ks <- rd (bsr_bptr U) i ;; ke <- rd (bsr_bptr U) (i + 1) ;;
      e <- for_ ks ke (fun j e => c <- rd (bsr_bindex U) j ;; emitb bs e c (bsr_value U) j) e ;;
      ptr <- wr ptr (i + 1) (snd e) ;;
      Ok (e, ptr)) ((alloc bnnz ji, alloc (bnnz * b * b) jv, 0), ptr) ;;
  let '(ix, vl, k) := e in
  Ok (mkBsr n (bs_np A) b b nr k ptr ix vl).

(** lis_matrix_diag_inverse, lis_matrix_diag.c:750-806 (D->bns == NULL); D holds nr blocks of order bn *)
Definition diag_inverse_blk (n nr bn : Z) (d : list T) : res (list T) :=
  let bs := bn * bn in
  if bn =? 1 then for_ 0 nr (fun i d => v <- rd d i ;; wr d i (sdiv s1 v)) d
  else
    let k := Z.rem n bn in
    d <- (if k =? 0 then Ok d else for_down (bn - 1) k (fun i d => wr d (bs * (nr - 1) + i * (bn + 1)) s1) d) ;;
    for_ 0 nr (fun i d =>
      (* lis_array_ge(bn,&d[i*bs]) works on the block in place *)
      a <- for_ 0 bs (fun q a => v <- rd d (i * bs + q) ;; wr a q v) (alloc bs (fun _ => s0)) ;;
      a <- lis_array_ge bn a ;;
      memcpy bs d (i * bs) a 0) d.

(** *** the loops of lis_matrix_solve_bsr, lis_matrix_bsr.c:1398-1768.  The locals t0, t1, t2 and
    the work array w are the list w of length bnr; op is -= in the solves and += in the second
    half of SSOR. *)
Section Op.
Variable op : T -> T -> T.
(** case 1: t0 op= value[j]*x[jj] (1425, 1520, ...) *)
Definition blk1 (v x : list T) (j jj : Z) (w : list T) : res (list T) :=
  match w with
  | [t0] => a0 <- rd v j ;; y <- rd x jj ;; Ok [op t0 (smul a0 y)]
  | _ => UB
  end.
(** case 2 (1438-1441) *)
Definition blk2 (v x : list T) (j jj : Z) (w : list T) : res (list T) :=
  match w with
  | [t0; t1] =>
      a <- rd v (j * 4 + 0) ;; y <- rd x (jj * 2 + 0) ;; let t0 := op t0 (smul a y) in
      a <- rd v (j * 4 + 1) ;; y <- rd x (jj * 2 + 0) ;; let t1 := op t1 (smul a y) in
      a <- rd v (j * 4 + 2) ;; y <- rd x (jj * 2 + 1) ;; let t0 := op t0 (smul a y) in
      a <- rd v (j * 4 + 3) ;; y <- rd x (jj * 2 + 1) ;; let t1 := op t1 (smul a y) in
      Ok [t0; t1]
  | _ => UB
  end.
(** case 3 (1456-1464) *)
Definition blk3 (v x : list T) (j jj : Z) (w : list T) : res (list T) :=
  match w with
  | [t0; t1; t2] =>
      a <- rd v (j * 9 + 0) ;; y <- rd x (jj * 3 + 0) ;; let t0 := op t0 (smul a y) in
      a <- rd v (j * 9 + 1) ;; y <- rd x (jj * 3 + 0) ;; let t1 := op t1 (smul a y) in
      a <- rd v (j * 9 + 2) ;; y <- rd x (jj * 3 + 0) ;; let t2 := op t2 (smul a y) in
      a <- rd v (j * 9 + 3) ;; y <- rd x (jj * 3 + 1) ;; let t0 := op t0 (smul a y) in
      a <- rd v (j * 9 + 4) ;; y <- rd x (jj * 3 + 1) ;; let t1 := op t1 (smul a y) in
      a <- rd v (j * 9 + 5) ;; y <- rd x (jj * 3 + 1) ;; let t2 := op t2 (smul a y) in
      a <- rd v (j * 9 + 6) ;; y <- rd x (jj * 3 + 2) ;; let t0 := op t0 (smul a y) in
      a <- rd v (j * 9 + 7) ;; y <- rd x (jj * 3 + 2) ;; let t1 := op t1 (smul a y) in
      a <- rd v (j * 9 + 8) ;; y <- rd x (jj * 3 + 2) ;; let t2 := op t2 (smul a y) in
      Ok [t0; t1; t2]
  | _ => UB
  end.
(** default (1481-1490) *)
Definition blkn (b : Z) (v x : list T) (j jj : Z) (w : list T) : res (list T) :=
  let bs := b * b in let k := jj * b in
  for_ 0 b (fun ii w =>
    t <- rd w ii ;;
    t <- for_ 0 b (fun jj t => a <- rd v (j * bs + jj * b + ii) ;; y <- rd x (k + jj) ;; Ok (op t (smul a y))) t ;;
    wr w ii t) w.
Definition blk (b : Z) : list T -> list T -> Z -> Z -> list T -> res (list T) :=
  match b with 1 => blk1 | 2 => blk2 | 3 => blk3 | _ => blkn b end.
(** the loop over the blocks of block row i of L or U *)
Definition brow (b : Z) (B : bsr T) (x : list T) (i : Z) (w : list T) : res (list T) :=
  js <- rd (bsr_bptr B) i ;; je <- rd (bsr_bptr B) (i + 1) ;;
  for_ js je (fun j w => jj <- rd (bsr_bindex B) j ;; blk b (bsr_value B) x j jj w) w.
End Op.

(** WD block i times w: 1427, 1443-1444, 1466-1468, 1492-1500 *)
Definition wdmul (b : Z) (wd : list T) (i : Z) (w : list T) : res (list T) :=
  match b, w with
  | 1, [t0] => a <- rd wd i ;; Ok [smul a t0]
  | 2, [t0; t1] =>
      a0 <- rd wd (4 * i + 0) ;; a1 <- rd wd (4 * i + 1) ;; a2 <- rd wd (4 * i + 2) ;; a3 <- rd wd (4 * i + 3) ;;
      Ok [sadd (smul a0 t0) (smul a2 t1); sadd (smul a1 t0) (smul a3 t1)]
  | 3, [t0; t1; t2] =>
      a0 <- rd wd (9 * i + 0) ;; a1 <- rd wd (9 * i + 1) ;; a2 <- rd wd (9 * i + 2) ;;
      a3 <- rd wd (9 * i + 3) ;; a4 <- rd wd (9 * i + 4) ;; a5 <- rd wd (9 * i + 5) ;;
      a6 <- rd wd (9 * i + 6) ;; a7 <- rd wd (9 * i + 7) ;; a8 <- rd wd (9 * i + 8) ;;
      Ok [sadd (sadd (smul a0 t0) (smul a3 t1)) (smul a6 t2);
          sadd (sadd (smul a1 t0) (smul a4 t1)) (smul a7 t2);
          sadd (sadd (smul a2 t0) (smul a5 t1)) (smul a8 t2)]
  | _, _ =>
      let bs := b * b in
      for_ 0 b (fun ii r =>
        t <- for_ 0 b (fun jj t => a <- rd wd (i * bs + jj * b + ii) ;; y <- rd w jj ;; Ok (sadd t (smul a y))) s0 ;;
        wr r ii t) (alloc b (fun _ => s0))
  end.
(** t0 = b[i*bnr], t1 = b[i*bnr+1], ... *)
Definition bload (b : Z) (v : list T) (i : Z) : res (list T) :=
  for_ 0 b (fun ii w => y <- rd v (i * b + ii) ;; wr w ii y) (alloc b (fun _ => s0)).
(** x[i*bnr+ii] = r[ii] and x[i*bnr+ii] -= r[ii].  The default case stores every element as soon
    as it is computed; WD and w are other arrays, so the result is the same. *)
Definition bstore (b : Z) (x : list T) (i : Z) (r : list T) : res (list T) :=
  for_ 0 b (fun ii x => t <- rd r ii ;; wr x (i * b + ii) t) x.
Definition bstore_sub (b : Z) (x : list T) (i : Z) (r : list T) : res (list T) :=
  for_ 0 b (fun ii x => t <- rd r ii ;; y <- rd x (i * b + ii) ;; wr x (i * b + ii) (ssub y t)) x.

Definition bstep (A : bsplit) (B : bsr T) (wd bv x : list T) (i : Z) : res (list T) :=
  w <- bload (bs_b A) bv i ;; w <- brow ssub (bs_b A) B x i w ;; r <- wdmul (bs_b A) wd i w ;; bstore (bs_b A) x i r.
(** LIS_MATRIX_LOWER, LIS_MATRIX_UPPER, LIS_MATRIX_SSOR *)
Definition solve_lower_bsr (A : bsplit) (wd bv x : list T) : res (list T) :=
  for_ 0 (bs_nr A) (fun i x => bstep A (bs_L A) wd bv x i) x.
Definition solve_upper_bsr (A : bsplit) (wd bv x : list T) : res (list T) :=
  for_down (bs_nr A - 1) 0 (fun i x => bstep A (bs_U A) wd bv x i) x.
Definition solve_ssor_bsr (A : bsplit) (wd bv x : list T) : res (list T) :=
  x <- solve_lower_bsr A wd bv x ;;
  for_down (bs_nr A - 1) 0 (fun i x =>
    w <- brow sadd (bs_b A) (bs_U A) x i (alloc (bs_b A) (fun _ => s0)) ;;
    r <- wdmul (bs_b A) wd i w ;; bstore_sub (bs_b A) x i r) x.
End S.
Arguments bsplit T : clear implicits.
