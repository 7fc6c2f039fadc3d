(** Model of the ILU(k) preconditioner for CSR matrices, src/precon/lis_precon_iluk.c:
    lis_symbolic_fact_csr, lis_numerical_fact_csr, lis_psolve_iluk_csr,
    lis_psolveh_iluk_csr and the CSR case of lis_precon_create_iluk.

    Simplifications: double precision only (no quad branches); malloc does not fail;
    L->nnz[i], U->nnz[i] are the lengths of the rows L->index[i], U->index[i].
    [is_, ie] is the row range of one thread: the serial branches are is_=0, ie=n
    (there the test  col>=is && col<ie  is the  col>=n  test of the MPI build, and is
    always true otherwise); an OpenMP thread runs the same loops on the range given by
    LIS_GET_ISIE, on its own section of jbuf/levls (offset my_rank*n) and on the part
    [is_, ie) of iw/jw, which no other thread touches. *)
Require Import ZArith List Bool.
From Verif Require Import Base Scalar Spec.
Import ListNotations.
Open Scope Z_scope.

(** memcpy(dst, a+lo, cnt) into a fresh array *)
Definition copy_out {A} (a : list A) (lo cnt : Z) : res (list A) :=
  if (lo <? 0) || (cnt <? 0) || (zlen a <? lo + cnt) then UB
  else Ok (firstn (Z.to_nat cnt) (skipn (Z.to_nat lo) a)).

(** ** lis_symbolic_fact_csr, lines 454-633 (#else), 265-453 (OpenMP) *)

(** working row: jbuf, levls, iw, incl, incu *)
Record srow := mkSrow { s_jbuf : list Z; s_levls : list Z; s_iw : list Z; s_incl : Z; s_incu : Z }.

(** lines 529-540: the branch  col<i / col>i  that records a column with its level (also 578-589) *)
Definition put (i c l : Z) (s : srow) : res srow :=
  if c <? i then
    jb <- wr (s_jbuf s) (s_incl s) c ;; lv <- wr (s_levls s) (s_incl s) l ;; iw <- wr (s_iw s) c (s_incl s) ;;
    Ok (mkSrow jb lv iw (s_incl s + 1) (s_incu s))
  else if i <? c then
    jb <- wr (s_jbuf s) (s_incu s) c ;; lv <- wr (s_levls s) (s_incu s) l ;; iw <- wr (s_iw s) c (s_incu s) ;;
    Ok (mkSrow jb lv iw (s_incl s) (s_incu s + 1))
  else Ok s.

(** lines 523-541: the entries of row i of A *)
Definition sym_row_init {T} (is_ ie : Z) (A : csr T) (i : Z) (s : srow) : res srow :=
  js <- rd (csr_ptr A) i ;; je <- rd (csr_ptr A) (i + 1) ;;
  for_ js je (fun j s =>
    c <- rd (csr_index A) j ;;
    if (is_ <=? c) && (c <? ie) then put i c 0 s else Ok s) s.

(** lines 546-568: bring the smallest column of jbuf[jpiv..incl-1] to position jpiv *)
Definition sym_select (jpiv : Z) (s : srow) : res (Z * srow) :=
  k <- rd (s_jbuf s) jpiv ;;
  ' (kmin, jmin) <- for_ (jpiv + 1) (s_incl s) (fun j m =>
      v <- rd (s_jbuf s) j ;; if v <? fst m then Ok (v, j) else Ok m) (k, jpiv) ;;
  if jmin =? jpiv then Ok (k, s)
  else
    jb <- wr (s_jbuf s) jpiv kmin ;; jb <- wr jb jmin k ;;
    iw <- wr (s_iw s) kmin jpiv ;; iw <- wr iw k jmin ;;
    lv <- swap (s_levls s) jpiv jmin ;;
    Ok (kmin, mkSrow jb lv iw (s_incl s) (s_incu s)).

(** lines 570-595: merge row k of U *)
Definition sym_merge (levfill i jpiv : Z) (urow ulev : list Z) (s : srow) : res srow :=
  for_ 0 (zlen urow) (fun j s =>
    c <- rd urow j ;; ul <- rd ulev j ;; pl <- rd (s_levls s) jpiv ;;
    let it := ul + pl + 1 in
    if levfill <? it then Ok s
    else
      ip <- rd (s_iw s) c ;;
      if ip =? -1 then put i c it s
      else l <- rd (s_levls s) ip ;; lv <- wr (s_levls s) ip (Z.min l it) ;;
           Ok (mkSrow (s_jbuf s) lv (s_iw s) (s_incl s) (s_incu s))) s.

(** lines 543-596:  jpiv=-1; while( ++jpiv < incl ) ...  (the fuel n+1 always suffices) *)
Definition sym_elim (n levfill i : Z) (U ulvl : list (list Z)) (s : srow) : res srow :=
  ' (_, s) <- while_ (Z.to_nat (n + 1)) (fun p => Ok (fst p <? s_incl (snd p)))
    (fun p => let '(jpiv, s) := p in
      ' (k, s) <- sym_select jpiv s ;;
      urow <- rd U k ;; ulev <- rd ulvl k ;;
      s <- sym_merge levfill i jpiv urow ulev s ;;
      Ok (jpiv + 1, s)) (0, s) ;;
  Ok s.

(** lines 597-598 *)
Definition sym_clear (i : Z) (s : srow) : res (list Z) :=
  iw <- for_ 0 (s_incl s) (fun j iw => c <- rd (s_jbuf s) j ;; wr iw c (-1)) (s_iw s) ;;
  for_ i (s_incu s) (fun j iw => c <- rd (s_jbuf s) j ;; wr iw c (-1)) iw.

(** L->index, U->index, ulvl, jbuf, levls, iw *)
Record sym := mkSym { y_L : list (list Z); y_U : list (list Z); y_lev : list (list Z);
                      y_jbuf : list Z; y_levls : list Z; y_iw : list Z }.

(** lines 518-618: one row *)
Definition sym_row {T} (n levfill is_ ie : Z) (A : csr T) (i : Z) (y : sym) : res sym :=
  s <- sym_row_init is_ ie A i (mkSrow (y_jbuf y) (y_levls y) (y_iw y) 0 i) ;;
  s <- sym_elim n levfill i (y_U y) (y_lev y) s ;;
  iw <- sym_clear i s ;;
  lrow <- copy_out (s_jbuf s) 0 (s_incl s) ;;
  urow <- copy_out (s_jbuf s) i (s_incu s - i) ;;
  ulev <- copy_out (s_levls s) i (s_incu s - i) ;;
  L <- wr (y_L y) i lrow ;; U <- wr (y_U y) i urow ;; lev <- wr (y_lev y) i ulev ;;
  Ok (mkSym L U lev (s_jbuf s) (s_levls s) iw).

(** lines 516-618 for the rows [is_, ie): the index rows of L and U.
    jj, jl, jw: contents of the malloc'ed jbuf, levls, iw. *)
Definition symbolic_fact {T} (jj jl jw : Z -> Z) (levfill is_ ie : Z) (A : csr T) : res (list (list Z) * list (list Z)) :=
  let n := csr_n A in
  iw <- for_ is_ ie (fun i iw => wr iw i (-1)) (alloc n jw) ;;
  let rows := alloc n (fun _ => []) in
  y <- for_ is_ ie (sym_row n levfill is_ ie A) (mkSym rows rows rows (alloc n jj) (alloc n jl) iw) ;;
  Ok (y_L y, y_U y).

Section S.
Context {T : Type} {S : Scalar T}.

(** ** lis_numerical_fact_csr, lines 763-875 (#else), 640-762 (OpenMP) *)

(** L->value[i], U->value[i], D->value of the row being factored.  The rows L->value[i]
    and U->value[i] are worked on as separate arrays: the code reads other rows of U
    (jrow<i) while it writes row i. *)
Record nrow := mkNrow { r_l : list T; r_u : list T; r_d : list T }.

(** the three-way branch on col<i, col==i, col>i with assignment f(old) *)
Definition num_upd (i c jpos : Z) (f : T -> T) (s : nrow) : res nrow :=
  if c <? i then v <- rd (r_l s) jpos ;; l <- wr (r_l s) jpos (f v) ;; Ok (mkNrow l (r_u s) (r_d s))
  else if c =? i then v <- rd (r_d s) i ;; d <- wr (r_d s) i (f v) ;; Ok (mkNrow (r_l s) (r_u s) d)
  else v <- rd (r_u s) jpos ;; u <- wr (r_u s) jpos (f v) ;; Ok (mkNrow (r_l s) u (r_d s)).

(** jw[index[j]] = f j over a row of indices *)
Definition mark (row : list Z) (f : Z -> Z) (jw : list Z) : res (list Z) :=
  for_ 0 (zlen row) (fun j jw => c <- rd row j ;; wr jw c (f j)) jw.
(** value[j] = 0 over a row *)
Definition zero_row (row : list Z) (v : list T) : res (list T) :=
  for_ 0 (zlen row) (fun j v => wr v j s0) v.

(** lines 812-831: the entries of row i of A *)
Definition num_load (is_ ie : Z) (A : csr T) (i : Z) (jw : list Z) (s : nrow) : res nrow :=
  js <- rd (csr_ptr A) i ;; je <- rd (csr_ptr A) (i + 1) ;;
  for_ js je (fun j s =>
    c <- rd (csr_index A) j ;;
    if (is_ <=? c) && (c <? ie) then
      jpos <- rd jw c ;; v <- rd (csr_value A) j ;; num_upd i c jpos (fun _ => v) s
    else Ok s) s.

(** lines 833-856: elimination with the rows jrow = L->index[i][j] *)
Definition num_elim (i : Z) (lrow : list Z) (U : list (list Z)) (Uv : list (list T)) (jw : list Z) (s : nrow) : res nrow :=
  for_ 0 (zlen lrow) (fun j s =>
    jrow <- rd lrow j ;;
    v <- rd (r_l s) j ;; d <- rd (r_d s) jrow ;; l <- wr (r_l s) j (smul v d) ;;
    urow <- rd U jrow ;; uval <- rd Uv jrow ;;
    for_ 0 (zlen urow) (fun k s =>
      c <- rd urow k ;; jpos <- rd jw c ;;
      if jpos =? -1 then Ok s
      else lij <- rd (r_l s) j ;; ujk <- rd uval k ;;
           num_upd i c jpos (fun v => ssub v (smul lij ujk)) s) (mkNrow l (r_u s) (r_d s))) s.

(** L->value, U->value, D->value, jw *)
Record num := mkNum { f_L : list (list T); f_U : list (list T); f_D : list T; f_jw : list Z }.

(** lines 793-870: one row *)
Definition num_row (is_ ie : Z) (A : csr T) (L U : list (list Z)) (i : Z) (f : num) : res num :=
  lrow <- rd L i ;; urow <- rd U i ;; lv <- rd (f_L f) i ;; uv <- rd (f_U f) i ;;
  jw <- mark lrow (fun j => j) (f_jw f) ;; lv <- zero_row lrow lv ;;
  jw <- wr jw i i ;; d <- wr (f_D f) i s0 ;;
  jw <- mark urow (fun j => j) jw ;; uv <- zero_row urow uv ;;
  s <- num_load is_ ie A i jw (mkNrow lv uv d) ;;
  s <- num_elim i lrow U (f_U f) jw s ;;
  jw <- mark lrow (fun _ => -1) jw ;; jw <- wr jw i (-1) ;; jw <- mark urow (fun _ => -1) jw ;;
  p <- rd (r_d s) i ;; d <- wr (r_d s) i (sdiv s1 p) ;;
  Lv <- wr (f_L f) i (r_l s) ;; Uv <- wr (f_U f) i (r_u s) ;;
  Ok (mkNum Lv Uv d jw).

(** the factors kept in precon: L and U by rows (indices and values), D *)
Record factors := mkFactors { fa_L : list (list Z); fa_Lv : list (list T);
                              fa_U : list (list Z); fa_Uv : list (list T); fa_D : list T }.

(** jlv, juv, jd: contents of the malloc'ed L->value[i], U->value[i], D->value *)
Definition numerical_fact (jlv juv : Z -> Z -> T) (jd : Z -> T) (jw : Z -> Z) (is_ ie : Z) (A : csr T) (L U : list (list Z)) : res factors :=
  let n := csr_n A in
  w <- for_ is_ ie (fun i w => wr w i (-1)) (alloc n jw) ;;
  f <- for_ is_ ie (num_row is_ ie A L U)
    (mkNum (alloc n (fun i => alloc (zlen (znth [] L i)) (jlv i))) (alloc n (fun i => alloc (zlen (znth [] U i)) (juv i))) (alloc n jd) w) ;;
  Ok (mkFactors L (f_L f) U (f_U f) (f_D f)).

(** lis_precon_create_iluk, lines 71-140, CSR case *)
Definition create_iluk (jj jl jw : Z -> Z) (jlv juv : Z -> Z -> T) (jd : Z -> T) (jw' : Z -> Z) (levfill is_ ie : Z) (A : csr T) : res factors :=
  ' (L, U) <- symbolic_fact jj jl jw levfill is_ ie A ;;
  numerical_fact jlv juv jd jw' is_ ie A L U.

(** ** lis_psolve_iluk_csr, lines 1021-1038 (#else), 911-934 (OpenMP); X starts as a copy of B *)
Definition row_elim (ix : list Z) (v : list T) (i : Z) (x : list T) : res (list T) :=
  for_ 0 (zlen ix) (fun j x => jj <- rd ix j ;; xi <- rd x i ;; l <- rd v j ;; xj <- rd x jj ;; wr x i (ssub xi (smul l xj))) x.
Definition psolve_iluk (is_ ie : Z) (P : factors) (b : list T) : res (list T) :=
  x <- for_ is_ ie (fun i x => lx <- rd (fa_L P) i ;; lv <- rd (fa_Lv P) i ;; row_elim lx lv i x) b ;;
  for_down (ie - 1) is_ (fun i x =>
    ux <- rd (fa_U P) i ;; uv <- rd (fa_Uv P) i ;; x <- row_elim ux uv i x ;;
    d <- rd (fa_D P) i ;; xi <- rd x i ;; wr x i (smul d xi)) x.

(** ** lis_psolveh_iluk_csr, lines 1223-1240 (#else); the OpenMP branch (1117-1140) has
    D->value[i] where this one has conj(D->value[i]): [dconj] is that function. *)
Definition col_elim (ix : list Z) (v : list T) (i : Z) (x : list T) : res (list T) :=
  for_ 0 (zlen ix) (fun j x => jj <- rd ix j ;; l <- rd v j ;; xi <- rd x i ;; xj <- rd x jj ;; wr x jj (ssub xj (smul (sconj l) xi))) x.
Definition psolveh_iluk_with (dconj : T -> T) (is_ ie : Z) (P : factors) (b : list T) : res (list T) :=
  x <- for_ is_ ie (fun i x =>
    d <- rd (fa_D P) i ;; xi <- rd x i ;; x <- wr x i (smul (dconj d) xi) ;;
    ux <- rd (fa_U P) i ;; uv <- rd (fa_Uv P) i ;; col_elim ux uv i x) b ;;
  for_down (ie - 1) is_ (fun i x => lx <- rd (fa_L P) i ;; lv <- rd (fa_Lv P) i ;; col_elim lx lv i x) x.
Definition psolveh_iluk := psolveh_iluk_with sconj.
Definition psolveh_iluk_omp := psolveh_iluk_with (fun d => d).
End S.
Arguments factors T : clear implicits.
