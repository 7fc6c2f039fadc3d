(** Model of the quad-precision vector and matrix-vector operations:
    src/precision/lis_precision_vec.c and lis_precision_matvec.c.

    A quad vector is the list of its elements (value[i], value_lo[i]).  The
    variant is chosen by [q_sse2 g]: the scalar macros, or USE_SSE2 together
    with USE_FMA2_SSE2 (configure defines both).  [threads]: None without
    OpenMP, [Some p] with p threads; the parts of the threads are run one
    after the other (they touch disjoint elements; the exception,
    lis_vector_reciprocalex_m, is modelled with interleavings below).
    Single process (no USE_MPI).  The scratch arrays work[] and lis_vec_tmp
    that hold copies of alpha and the accumulators are local values here,
    except where the code reads them without having set them. *)
From Coq Require Import ZArith List Bool.
From Verif Require Import Base Quad System Omp.
Import ListNotations.
Open Scope Z_scope.

Section V.
Context {F : Type} {O : FOps F}.
Variable g : qcfg.
Local Notation Q := (F * F)%type.

(** LIS_QUAD_FMA / LIS_QUAD_FMA_SSE2 and the like, lis_precision.h:260-282, 651-676 *)
Definition m_fma (a b c : Q) : Q :=
  if q_sse2 g then quad_fma_sse2 (q_fast_add g) a b c else quad_fma (q_fast_add g) (q_fma g) a b c.
Definition m_fmad (a b : Q) (c : F) : Q :=
  if q_sse2 g then quad_fmad_sse2 (q_fast_add g) a b c else quad_fmad (q_fast_add g) (q_fma g) a b c.
Definition m_fsa (a b : Q) : Q :=
  if q_sse2 g then quad_fsa_sse2 (q_fast_add g) a b else quad_fsa (q_fast_add g) (q_fma g) a b.
Definition m_add : Q -> Q -> Q := lis_quad_add g.
Definition m_mul : Q -> Q -> Q := lis_quad_mul g.
Definition m_muld : Q -> F -> Q := lis_quad_mul_dd_d g.
Definition m_div : Q -> Q -> Q := lis_quad_div g.

(** The two-at-a-time macros on elements: LIS_QUAD_FMA2_SSE2 (lis_precision.h:970-975),
    FMAD2_SSE2_LDSD / _STSD (993-1008), FSA2_SSE2 (1015-1020), MUL2_SSE2 and MULD2_SSE2
    (926-946). *)
Definition lanes (r : (F * F) * (F * F)) : Q * Q :=
  let '(hi, lo) := r in ((fst hi, fst lo), (snd hi, snd lo)).
Definition fma2 (a0 a1 b0 b1 c0 c1 : Q) : Q * Q :=
  lanes (quad_fma2_sse2 (q_fast_add g) (fst a0, fst a1) (snd a0, snd a1) (fst b0, fst b1) (snd b0, snd b1) (fst c0, fst c1) (snd c0, snd c1)).
Definition fmad2 (a0 a1 b0 b1 : Q) (c0 c1 : F) : Q * Q :=
  lanes (quad_fmad2_sse2 (q_fast_add g) (fst a0, fst a1) (snd a0, snd a1) (fst b0, fst b1) (snd b0, snd b1) (c0, c1)).
Definition fsa2 (a0 a1 b0 b1 : Q) : Q * Q :=
  lanes (quad_fsa2_sse2 (q_fast_add g) (fst a0, fst a1) (snd a0, snd a1) (fst b0, fst b1) (snd b0, snd b1)).
Definition mul2 (b0 b1 c0 c1 : Q) : Q * Q :=
  lanes (quad_mul2_sse2 (fst b0, fst b1) (snd b0, snd b1) (fst c0, fst c1) (snd c0, snd c1)).
Definition muld2 (b0 b1 : Q) (c0 c1 : F) : Q * Q :=
  lanes (quad_muld2_sse2 (fst b0, fst b1) (snd b0, snd b1) (c0, c1)).

(** for(i=is;i<ie-1;i+=2) two i, giving the i where it stops *)
Definition pairs_loop {St} (is ie : Z) (two : Z -> St -> res St) (s : St) : res (Z * St) :=
  while_ (Datatypes.S (Z.to_nat (ie - is))) (fun p => Ok (fst p <? ie - 1))
    (fun p => s <- two (fst p) (snd p) ;; Ok (fst p + 2, s)) (is, s).
(** ... followed by for(;i<ie;i++) one i *)
Definition two_then_one {St} (is ie : Z) (two one : Z -> St -> res St) (s : St) : res St :=
  p <- pairs_loop is ie two s ;; for_ (fst p) ie one (snd p).

Definition nthreads (threads : option Z) : Z := match threads with None => 1 | Some p => p end.

(** The elementwise operations: the scalar loop, or LIS_GET_ISIE parts with pairs. *)
Definition ew {St} (threads : option Z) (n : Z) (two one : Z -> St -> res St) (s : St) : res St :=
  if q_sse2 g
  then for_ 0 (nthreads threads) (fun r s =>
         p <- get_isie r (nthreads threads) n ;; two_then_one (fst p) (snd p) two one s) s
  else for_ 0 n one s.

Definition vec : Type := list Q.

(** lis_vector_axpyex_mmm, lis_precision_vec.c:82-136: y <- y + alpha x *)
Definition axpyex (threads : option Z) (n : Z) (alpha : Q) (x y : vec) : res vec :=
  ew threads n
    (fun i y => y0 <- rd y i ;; y1 <- rd y (i + 1) ;; x0 <- rd x i ;; x1 <- rd x (i + 1) ;;
       let r := fma2 y0 y1 alpha alpha x0 x1 in
       y <- wr y i (fst r) ;; wr y (i + 1) (snd r))
    (fun i y => yi <- rd y i ;; xi <- rd x i ;; wr y i (m_fma yi alpha xi)) y.

(** lis_vector_axpyzex_mmmm, lis_precision_vec.c:142-199: z <- y + alpha x, z another vector *)
Definition axpyzex (threads : option Z) (n : Z) (alpha : Q) (x y z : vec) : res vec :=
  ew threads n
    (fun i z => y0 <- rd y i ;; y1 <- rd y (i + 1) ;; x0 <- rd x i ;; x1 <- rd x (i + 1) ;;
       let r := fma2 y0 y1 alpha alpha x0 x1 in
       z <- wr z i (fst r) ;; wr z (i + 1) (snd r))
    (fun i z => yi <- rd y i ;; xi <- rd x i ;; wr z i (m_fma yi alpha xi)) z.

(** lis_vector_xpayex_mmm, lis_precision_vec.c:205-258: y <- x + alpha y *)
Definition xpayex (threads : option Z) (n : Z) (x : vec) (alpha : Q) (y : vec) : res vec :=
  ew threads n
    (fun i y => y0 <- rd y i ;; y1 <- rd y (i + 1) ;; x0 <- rd x i ;; x1 <- rd x (i + 1) ;;
       let r := fma2 x0 x1 alpha alpha y0 y1 in
       y <- wr y i (fst r) ;; wr y (i + 1) (snd r))
    (fun i y => yi <- rd y i ;; xi <- rd x i ;; wr y i (m_fma xi alpha yi)) y.

(** lis_vector_scaleex_mm, lis_precision_vec.c:653-705 *)
Definition scaleex_mm (threads : option Z) (n : Z) (alpha : Q) (x : vec) : res vec :=
  ew threads n
    (fun i x => x0 <- rd x i ;; x1 <- rd x (i + 1) ;;
       let r := mul2 x0 x1 alpha alpha in
       x <- wr x i (fst r) ;; wr x (i + 1) (snd r))
    (fun i x => xi <- rd x i ;; wr x i (m_mul xi alpha)) x.
(** lis_vector_scaleex_nm, lis_precision_vec.c:591-649 *)
Definition scaleex_nm (threads : option Z) (n : Z) (alpha : F) (x : vec) : res vec :=
  ew threads n
    (fun i x => x0 <- rd x i ;; x1 <- rd x (i + 1) ;;
       let r := muld2 x0 x1 alpha alpha in
       x <- wr x i (fst r) ;; wr x (i + 1) (snd r))
    (fun i x => xi <- rd x i ;; wr x i (m_muld xi alpha)) x.

(** lis_vector_copyex_mm / _nm, lis_precision_vec.c:505-562; _nm: x is an array of doubles *)
Definition copyex_mm (n : Z) (x y : vec) : res vec := for_ 0 n (fun i y => xi <- rd x i ;; wr y i xi) y.
Definition copyex_nm (n : Z) (x : list F) (y : vec) : res vec := for_ 0 n (fun i y => xi <- rd x i ;; wr y i (xi, f0)) y.
(** lis_vector_set_allex_nm, lis_precision_vec.c:709-736 *)
Definition set_allex_nm (n : Z) (alpha : F) (x : vec) : res vec := for_ 0 n (fun i x => wr x i (alpha, f0)) x.

Definition qzero : Q := (f0, f0).

(** One accumulator over is..ie-1: lis_vector_dotex_mmm, lis_precision_vec.c:316-323 and
    355-362 (scalar), 325-340 and 364-375 (SSE2, two accumulators added before the last
    odd element). *)
Definition dot_part (x y : vec) (is ie : Z) : res Q :=
  if q_sse2 g
  then p <- pairs_loop is ie (fun i a =>
              y0 <- rd y i ;; y1 <- rd y (i + 1) ;; x0 <- rd x i ;; x1 <- rd x (i + 1) ;;
              Ok (fma2 (fst a) (snd a) y0 y1 x0 x1)) (qzero, qzero) ;;
       for_ (fst p) ie (fun i a => yi <- rd y i ;; xi <- rd x i ;; Ok (m_fma a yi xi)) (m_add (fst (snd p)) (snd (snd p)))
  else for_ is ie (fun i a => yi <- rd y i ;; xi <- rd x i ;; Ok (m_fma a yi xi)) qzero.
Definition nrm_part (x : vec) (is ie : Z) : res Q :=
  if q_sse2 g
  then p <- pairs_loop is ie (fun i a =>
              x0 <- rd x i ;; x1 <- rd x (i + 1) ;; Ok (fsa2 (fst a) (snd a) x0 x1)) (qzero, qzero) ;;
       for_ (fst p) ie (fun i a => xi <- rd x i ;; Ok (m_fsa a xi)) (m_add (fst (snd p)) (snd (snd p)))
  else for_ is ie (fun i a => xi <- rd x i ;; Ok (m_fsa a xi)) qzero.
(** The sum of the threads' parts in order, lis_precision_vec.c:343-351, or the one part. *)
Definition reduce_parts (threads : option Z) (n : Z) (part : Z -> Z -> res Q) : res Q :=
  match threads with
  | None => part 0 n
  | Some p => for_ 0 p (fun r a => q <- get_isie r p n ;; t <- part (fst q) (snd q) ;; Ok (m_add a t)) qzero
  end.

(** lis_vector_dotex_mmm, lis_precision_vec.c:265-384 *)
Definition dotex (threads : option Z) (nx ny : Z) (x y : vec) : res Q :=
  if negb (nx =? ny) then Err LIS_ERR_ILL_ARG else reduce_parts threads nx (dot_part x y).
(** lis_vector_nrm2ex_mm, lis_precision_vec.c:387-502: return code and value *)
Definition nrm2ex (threads : option Z) (n : Z) (x : vec) : res (Z * Q) :=
  s <- reduce_parts threads n (nrm_part x) ;; Ok (lis_quad_sqrt g s).

(** lis_vector_reciprocalex_m, lis_precision_vec.c:738-790, one thread *)
Definition reciprocalex (n : Z) (x : vec) : res vec :=
  for_ 0 n (fun i x => xi <- rd x i ;; wr x i (m_div lis_quad_one xi)) x.

(** The same with OpenMP: cells (0,i) hold value[i], (1,i) value_lo[i].  Scalar: a
    parallel loop (line 766).  SSE2: [#pragma omp parallel] without [for] (line 768),
    every thread runs the whole loop. *)
Definition recip_elem (i : Z) (k : prog F) : prog F :=
  Read (0, i) (fun h => Read (1, i) (fun l =>
    let r := m_div lis_quad_one (h, l) in Write (0, i) (fst r) (Write (1, i) (snd r) k))).
Definition recip_all (n : Z) : prog F := fold_right recip_elem Done (zrange 0 n).
Definition omp_reciprocalex (p n : Z) : list (prog F) :=
  if q_sse2 g then par_for p (fun _ => recip_all n) else par_for n (fun i => recip_elem i Done).

(** * Matrix-vector products.  ptr, index, value: the CSR (or CSC) arrays; value: doubles. *)

(** One row: y_i <- y_i + sum value[j] x[index[j]], lis_matvec_csr_mp,
    lis_precision_matvec.c:82-103 *)
Definition row_mp (index : list Z) (value : list F) (x : vec) (is ie : Z) (yi : Q) : res Q :=
  for_ is ie (fun j yi => j0 <- rd index j ;; xj <- rd x j0 ;; v <- rd value j ;; Ok (m_fmad yi xj v)) yi.
(** The pairs of a row in two accumulators, lis_precision_matvec.c:175-183, 226-233 *)
Definition row_pairs (index : list Z) (value : list F) (x : vec) (is ie : Z) (a : Q * Q) : res (Z * (Q * Q)) :=
  pairs_loop is ie (fun j a =>
    j0 <- rd index j ;; j1 <- rd index (j + 1) ;; x0 <- rd x j0 ;; x1 <- rd x j1 ;;
    v0 <- rd value j ;; v1 <- rd value (j + 1) ;; Ok (fmad2 (fst a) (snd a) x0 x1 v0 v1)) a.

(** lis_matvec_csr_mp and _mp2 (USE_FMA2_SSE2), not split, lis_precision_matvec.c:105-137, 215-250;
    lis_matvech_csc_mp and _mp2 are the same loops over the columns, 1124-1156, 1231-1268. *)
Definition rows_mp (n : Z) (ptr index : list Z) (value : list F) (x y : vec) : res vec :=
  for_ 0 n (fun i y =>
    is <- rd ptr i ;; ie <- rd ptr (i + 1) ;;
    if q_sse2 g
    then p <- row_pairs index value x is ie (qzero, qzero) ;;
         let yi := m_add (fst (snd p)) (snd (snd p)) in
         yi <- row_mp index value x (fst p) ie yi ;; wr y i yi
    else yi <- row_mp index value x is ie qzero ;; wr y i yi) y.

(** The same for a split matrix L + D + U, lis_precision_matvec.c:73-103, 156-213. *)
Definition rows_split_mp (n : Z) (d : list F) (lp li : list Z) (lv : list F) (up ui : list Z) (uv : list F) (x y : vec) : res vec :=
  for_ 0 n (fun i y =>
    xi <- rd x i ;; di <- rd d i ;;
    let yi := m_muld xi di in
    ls <- rd lp i ;; le <- rd lp (i + 1) ;; us <- rd up i ;; ue <- rd up (i + 1) ;;
    if q_sse2 g
    then p <- row_pairs li lv x ls le (qzero, qzero) ;;
         yi <- row_mp li lv x (fst p) le yi ;;
         q <- row_pairs ui uv x us ue (snd p) ;;
         yi <- row_mp ui uv x (fst q) ue yi ;;
         wr y i (m_add (m_add yi (fst (snd q))) (snd (snd q)))
    else yi <- row_mp li lv x ls le yi ;;
         yi <- row_mp ui uv x us ue yi ;; wr y i yi) y.

(** Scattering: y[index[j]] += value[j] * xi for j in is..ie-1; lis_matvech_csr_mp,
    lis_precision_matvec.c:426-443 *)
Definition scat_mp (index : list Z) (value : list F) (xi : Q) (is ie : Z) (y : vec) : res vec :=
  for_ is ie (fun j y => jj <- rd index j ;; v <- rd value j ;; t <- rd y jj ;; wr y jj (m_fmad t xi v)) y.
(** LIS_QUAD_FMAD2_SSE2_STSD on pairs, lis_precision_matvec.c:649-656: both old elements are
    read, then both results are stored. *)
Definition scat_pairs (index : list Z) (value : list F) (xi : Q) (is ie : Z) (y : vec) : res (Z * vec) :=
  pairs_loop is ie (fun j y =>
    j0 <- rd index j ;; j1 <- rd index (j + 1) ;; y0 <- rd y j0 ;; y1 <- rd y j1 ;;
    v0 <- rd value j ;; v1 <- rd value (j + 1) ;;
    let r := fmad2 y0 y1 xi xi v0 v1 in
    y <- wr y j0 (fst r) ;; wr y j1 (snd r)) y.

(** lis_matvech_csr_mp and _mp2, not split, no OpenMP, lis_precision_matvec.c:419-445, 641-667;
    lis_matvec_csc_mp and _mp2 are the same with n and np exchanged, 841-866, 1040-1068.
    ny elements of y are cleared, then row (column) i = 0..n-1 is scattered. *)
Definition scatter_mp (n ny : Z) (ptr index : list Z) (value : list F) (x y : vec) : res vec :=
  y <- for_ 0 ny (fun i y => wr y i qzero) y ;;
  for_ 0 n (fun i y =>
    is <- rd ptr i ;; ie <- rd ptr (i + 1) ;; xi <- rd x i ;;
    if q_sse2 g
    then p <- scat_pairs index value xi is ie y ;; scat_mp index value xi (fst p) ie (snd p)
    else scat_mp index value xi is ie y) y.

(** Split, no OpenMP: lis_matvech_csr_mp, lis_precision_matvec.c:334-369, and _mp2, 541-585.
    In _mp2 the last element of a row with an odd number of elements uses tt0, i.e. what
    the array X->work happens to contain ([stale]), instead of x[i]. *)
Definition scatter_split_mp (stale : Q) (n ny : Z) (d : list F) (lp li : list Z) (lv : list F) (up ui : list Z) (uv : list F) (x y : vec) : res vec :=
  y <- for_ 0 ny (fun i y => xi <- rd x i ;; di <- rd d i ;; wr y i (m_muld xi di)) y ;;
  for_ 0 n (fun i y =>
    xi <- rd x i ;;
    ls <- rd lp i ;; le <- rd lp (i + 1) ;; us <- rd up i ;; ue <- rd up (i + 1) ;;
    if q_sse2 g
    then p <- scat_pairs li lv xi ls le y ;; y <- scat_mp li lv stale (fst p) le (snd p) ;;
         q <- scat_pairs ui uv xi us ue y ;; scat_mp ui uv stale (fst q) ue (snd q)
    else y <- scat_mp li lv xi ls le y ;; scat_mp ui uv xi us ue y) y.
End V.
