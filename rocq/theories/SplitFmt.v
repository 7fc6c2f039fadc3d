(** Model of lis_matrix_split_*, lis_matrix_solve_* and lis_matrix_solveh_* for the formats CSC,
    MSR, ELL, DIA and DNS (one thread, one process; CSR is in Split.v).  The oracles j.. are the
    contents of freshly allocated arrays.  WD, the inverse diagonal, is computed by
    [diag_inverse] of Split.v.  The scattering loops work in place on a copy of B in X
    (lis_vector_copy, lis_vector_opv.c:104-139; B->n = A->n). *)
Require Import ZArith List Bool.
From Verif Require Import Base Scalar Spec Split.
Import ListNotations.
Open Scope Z_scope.

Section S.
Context {T : Type} {S : Scalar T}.

(** *** the loop shapes shared by the formats.
    [sub i x t]: t -= value*x[index] over line i; [add]: t += ...;
    [scat i t x]: x[index] -= value*t over line i; [live i x]: the same with t = x[i] read again
    each time; [g]: conj in lis_matrix_solveh_*, nothing in lis_matrix_solve_*. *)
(** for(i=0;i<n;i++){ t=b[i]; t-=...; x[i]=t*WD[i]; } *)
Definition fwd_gather (n : Z) (g : T -> T) (sub : Z -> list T -> T -> res T) (wd b x : list T) : res (list T) :=
  for_ 0 n (fun i x => t <- rd b i ;; t <- sub i x t ;; w <- rd wd i ;; wr x i (smul t (g w))) x.
(** for(i=n-1;i>=0;i--){ t=b[i]; t-=...; x[i]=t*WD[i]; } *)
Definition bwd_gather (n : Z) (g : T -> T) (sub : Z -> list T -> T -> res T) (wd b x : list T) : res (list T) :=
  for_down (n - 1) 0 (fun i x => t <- rd b i ;; t <- sub i x t ;; w <- rd wd i ;; wr x i (smul t (g w))) x.
(** for(i=n-1;i>=0;i--){ t=0; t+=...; x[i]-=t*WD[i]; } *)
Definition bwd_correct (n : Z) (g : T -> T) (add : Z -> list T -> T -> res T) (wd x : list T) : res (list T) :=
  for_down (n - 1) 0 (fun i x => t <- add i x s0 ;; xi <- rd x i ;; w <- rd wd i ;; wr x i (ssub xi (smul t (g w)))) x.
(** for(i=0;i<n;i++){ x[i]=x[i]*WD[i]; x[index]-=value*x[i]; } *)
Definition fwd_scatter (n : Z) (g : T -> T) (live : Z -> list T -> res (list T)) (wd x : list T) : res (list T) :=
  for_ 0 n (fun i x => xi <- rd x i ;; w <- rd wd i ;; x <- wr x i (smul xi (g w)) ;; live i x) x.
Definition bwd_scatter (n : Z) (g : T -> T) (live : Z -> list T -> res (list T)) (wd x : list T) : res (list T) :=
  for_down (n - 1) 0 (fun i x => xi <- rd x i ;; w <- rd wd i ;; x <- wr x i (smul xi (g w)) ;; live i x) x.
(** for(i=0;i<n;i++){ t=x[i]*WD[i]; x[index]-=value*t; } *)
Definition fwd_scatter_t (n : Z) (g : T -> T) (scat : Z -> T -> list T -> res (list T)) (wd x : list T) : res (list T) :=
  for_ 0 n (fun i x => xi <- rd x i ;; w <- rd wd i ;; scat i (smul xi (g w)) x) x.
(** for(i=n-1;i>=0;i--){ t=x[i]*WD[i]; x[i]=t; x[index]-=value*t; } *)
Definition bwd_scatter_t (n : Z) (g : T -> T) (scat : Z -> T -> list T -> res (list T)) (wd x : list T) : res (list T) :=
  for_down (n - 1) 0 (fun i x => xi <- rd x i ;; w <- rd wd i ;; x <- wr x i (smul xi (g w)) ;; scat i (smul xi (g w)) x) x.

(** t -= (+=) g(value[k])*x[index[k]] and x[index[k]] -= g(value[k])*t for one position k *)
Definition item_sub (g : T -> T) (index : list Z) (value : list T) (x : list T) (k : Z) (t : T) : res T :=
  v <- rd value k ;; c <- rd index k ;; w <- rd x c ;; Ok (ssub t (smul (g v) w)).
Definition item_add (g : T -> T) (index : list Z) (value : list T) (x : list T) (k : Z) (t : T) : res T :=
  v <- rd value k ;; c <- rd index k ;; w <- rd x c ;; Ok (sadd t (smul (g v) w)).
Definition item_scat (g : T -> T) (index : list Z) (value : list T) (t : T) (k : Z) (x : list T) : res (list T) :=
  c <- rd index k ;; v <- rd value k ;; w <- rd x c ;; wr x c (ssub w (smul (g v) t)).
Definition item_live (g : T -> T) (index : list Z) (value : list T) (i k : Z) (x : list T) : res (list T) :=
  t <- rd x i ;; item_scat g index value t k x.

Definition ident (v : T) : T := v.
(** lis_vector_copy(B,X), lis_vector_opv.c:131-134 *)
Definition copy_to (n : Z) (b x : list T) : res (list T) := for_ 0 n (fun i x => v <- rd b i ;; wr x i v) x.

(** *** CSC.  A split CSC matrix: L, U compressed columns *)
Record csplit := mkCsplit { cs_n : Z; cs_np : Z; cs_L : csc T; cs_D : list T; cs_U : csc T }.
(** lis_matrix_csc.c:560-574, #else: nnzl counts index < i, nnzu counts index > i *)
Definition csc_count (A : csc T) : res (Z * Z) :=
  for_ 0 (csc_np A) (fun i s =>
    js <- rd (csc_ptr A) i ;; je <- rd (csc_ptr A) (i + 1) ;;
    for_ js je (fun j s =>
      c <- rd (csc_index A) j ;;
      let '(nl, nu) := s in
      if c <? i then Ok (nl + 1, nu) else if i <? c then Ok (nl, nu + 1) else Ok (nl, nu)) s) (0, 0).
(** lis_matrix_split_csc, lis_matrix_csc.c:493-675, #else branches: L receives index > i.
    D has A->np elements (lis_matrix_diag.c:421) *)
Definition split_csc (jlp jli : Z -> Z) (jlv : Z -> T) (jup jui : Z -> Z) (juv jd : Z -> T) (A : csc T) : res csplit :=
  let np := csc_np A in
  ' (nnzl, nnzu) <- csc_count A ;;
  lptr <- wr (alloc (np + 1) jlp) 0 0 ;;
  uptr <- wr (alloc (np + 1) jup) 0 0 ;;
  ' (l, u, d, lptr, uptr) <- for_ 0 np (fun i s =>
      let '(l, u, d, lptr, uptr) := s in
      js <- rd (csc_ptr A) i ;; je <- rd (csc_ptr A) (i + 1) ;;
      ' (l, u, d) <- for_ js je (fun j s =>
          let '(l, u, d) := s in
          c <- rd (csc_index A) j ;; v <- rd (csc_value A) j ;;
          if i <? c then l <- emit l c v ;; Ok (l, u, d)
          else if c <? i then u <- emit u c v ;; Ok (l, u, d)
          else d <- wr d i v ;; Ok (l, u, d)) (l, u, d) ;;
      lptr <- wr lptr (i + 1) (snd l) ;; uptr <- wr uptr (i + 1) (snd u) ;;
      Ok (l, u, d, lptr, uptr))
    ((alloc nnzl jli, alloc nnzl jlv, 0), (alloc nnzu jui, alloc nnzu juv, 0), alloc np jd, lptr, uptr) ;;
  let '(li, lv, nl) := l in let '(ui, uv, nu) := u in
  Ok (mkCsplit (csc_n A) np (mkCsc (csc_n A) np nl lptr li lv) d (mkCsc (csc_n A) np nu uptr ui uv)).
Definition csc_line {A} (B : csc T) (i : Z) (f : Z -> A -> res A) (s : A) : res A :=
  js <- rd (csc_ptr B) i ;; je <- rd (csc_ptr B) (i + 1) ;; for_ js je f s.
(** lis_matrix_solve_csc, lis_matrix_csc.c:778-837 *)
Definition solve_lower_csc (A : csplit) (wd b x : list T) : res (list T) :=
  x <- copy_to (cs_n A) b x ;;
  fwd_scatter (cs_np A) ident (fun i x => csc_line (cs_L A) i (item_live ident (csc_index (cs_L A)) (csc_value (cs_L A)) i) x) wd x.
Definition solve_upper_csc (A : csplit) (wd b x : list T) : res (list T) :=
  x <- copy_to (cs_n A) b x ;;
  bwd_scatter (cs_n A) ident (fun i x => csc_line (cs_U A) i (item_live ident (csc_index (cs_U A)) (csc_value (cs_U A)) i) x) wd x.
Definition solve_ssor_csc (A : csplit) (wd b x : list T) : res (list T) :=
  x <- copy_to (cs_n A) b x ;;
  x <- fwd_scatter_t (cs_np A) ident (fun i t x => csc_line (cs_L A) i (item_scat ident (csc_index (cs_L A)) (csc_value (cs_L A)) t) x) wd x ;;
  bwd_scatter_t (cs_np A) ident (fun i t x => csc_line (cs_U A) i (item_scat ident (csc_index (cs_U A)) (csc_value (cs_U A)) t) x) wd x.
(** lis_matrix_solveh_csc, lis_matrix_csc.c:840-899 *)
Definition solveh_lower_csc (A : csplit) (wd b x : list T) : res (list T) :=
  fwd_gather (cs_np A) sconj (fun i x t => csc_line (cs_U A) i (item_sub sconj (csc_index (cs_U A)) (csc_value (cs_U A)) x) t) wd b x.
Definition solveh_upper_csc (A : csplit) (wd b x : list T) : res (list T) :=
  bwd_gather (cs_np A) sconj (fun i x t => csc_line (cs_L A) i (item_sub sconj (csc_index (cs_L A)) (csc_value (cs_L A)) x) t) wd b x.
Definition solveh_ssor_csc (A : csplit) (wd b x : list T) : res (list T) :=
  x <- solveh_lower_csc A wd b x ;;
  bwd_correct (cs_np A) sconj (fun i x t => csc_line (cs_L A) i (item_add sconj (csc_index (cs_L A)) (csc_value (cs_L A)) x) t) wd x.

(** *** MSR: L and U are MSR structures whose diagonal part is not set *)
Record msplit := mkMsplit { ms_n : Z; ms_L : msr T; ms_D : list T; ms_U : msr T }.
Definition msr_line {A} (B : msr T) (i : Z) (f : Z -> A -> res A) (s : A) : res A :=
  js <- rd (msr_index B) i ;; je <- rd (msr_index B) (i + 1) ;; for_ js je f s.
(** lis_matrix_msr.c:617-632, #else *)
Definition msr_count (A : msr T) : res (Z * Z) :=
  for_ 0 (msr_n A) (fun i s =>
    msr_line A i (fun j s =>
      c <- rd (msr_index A) j ;;
      let '(nl, nu) := s in
      if c <? i then Ok (nl + 1, nu) else if i <? c then Ok (nl, nu + 1) else Ok (nl, nu)) s) (0, 0).
(** lis_matrix_split_msr, lis_matrix_msr.c:551-732, #else branches; the arrays of L have
    nnzl + n + 1 elements (lis_matrix_malloc_msr) *)
Definition split_msr (jli : Z -> Z) (jlv : Z -> T) (jui : Z -> Z) (juv jd : Z -> T) (A : msr T) : res msplit :=
  let n := msr_n A in
  ' (nnzl, nnzu) <- msr_count A ;;
  li <- wr (alloc (nnzl + n + 1) jli) 0 (n + 1) ;;
  ui <- wr (alloc (nnzu + n + 1) jui) 0 (n + 1) ;;
  ' (l, u, d) <- for_ 0 n (fun i s =>
      let '(l, u, d) := s in
      v <- rd (msr_value A) i ;; d <- wr d i v ;;
      ' (l, u) <- msr_line A i (fun j s =>
          let '(l, u) := s in
          c <- rd (msr_index A) j ;;
          if c <? i then v <- rd (msr_value A) j ;; l <- emit l c v ;; Ok (l, u)
          else if i <? c then v <- rd (msr_value A) j ;; u <- emit u c v ;; Ok (l, u)
          else Ok (l, u)) (l, u) ;;
      let '(li, lv, kl) := l in let '(ui, uv, ku) := u in
      li <- wr li (i + 1) kl ;; ui <- wr ui (i + 1) ku ;;
      Ok ((li, lv, kl), (ui, uv, ku), d))
    ((li, alloc (nnzl + n + 1) jlv, n + 1), (ui, alloc (nnzu + n + 1) juv, n + 1), alloc n jd) ;;
  let '(li, lv, kl) := l in let '(ui, uv, ku) := u in
  Ok (mkMsplit n (mkMsr n (msr_np A) (kl - (n + 1)) n li lv) d (mkMsr n (msr_np A) (ku - (n + 1)) n ui uv)).
(** lis_matrix_solve_msr, lis_matrix_msr.c:855-917 *)
Definition solve_lower_msr (A : msplit) (wd b x : list T) : res (list T) :=
  fwd_gather (ms_n A) ident (fun i x t => msr_line (ms_L A) i (item_sub ident (msr_index (ms_L A)) (msr_value (ms_L A)) x) t) wd b x.
Definition solve_upper_msr (A : msplit) (wd b x : list T) : res (list T) :=
  bwd_gather (ms_n A) ident (fun i x t => msr_line (ms_U A) i (item_sub ident (msr_index (ms_U A)) (msr_value (ms_U A)) x) t) wd b x.
Definition solve_ssor_msr (A : msplit) (wd b x : list T) : res (list T) :=
  x <- solve_lower_msr A wd b x ;;
  bwd_correct (ms_n A) ident (fun i x t => msr_line (ms_U A) i (fun k t =>
      c <- rd (msr_index (ms_U A)) k ;; if ms_n A <=? c then Ok t else item_add ident (msr_index (ms_U A)) (msr_value (ms_U A)) x k t) t) wd x.
(** lis_matrix_solveh_msr, lis_matrix_msr.c:921-980.  LOWER runs from n-1 down to 0, UPPER from 0 up *)
Definition solveh_lower_msr (A : msplit) (wd b x : list T) : res (list T) :=
  x <- copy_to (ms_n A) b x ;;
  bwd_scatter (ms_n A) sconj (fun i x => msr_line (ms_U A) i (item_live sconj (msr_index (ms_U A)) (msr_value (ms_U A)) i) x) wd x.
Definition solveh_upper_msr (A : msplit) (wd b x : list T) : res (list T) :=
  x <- copy_to (ms_n A) b x ;;
  fwd_scatter (ms_n A) sconj (fun i x => msr_line (ms_L A) i (item_live sconj (msr_index (ms_L A)) (msr_value (ms_L A)) i) x) wd x.
Definition solveh_ssor_msr (A : msplit) (wd b x : list T) : res (list T) :=
  x <- copy_to (ms_n A) b x ;;
  x <- fwd_scatter_t (ms_n A) sconj (fun i t x => msr_line (ms_U A) i (item_scat sconj (msr_index (ms_U A)) (msr_value (ms_U A)) t) x) wd x ;;
  bwd_scatter_t (ms_n A) sconj (fun i t x => msr_line (ms_L A) i (item_scat sconj (msr_index (ms_L A)) (msr_value (ms_L A)) t) x) wd x.

(** *** ELL *)
Record esplit := mkEsplit { es_n : Z; es_L : ell T; es_D : list T; es_U : ell T }.
Definition ell_line {A} (B : ell T) (i : Z) (f : Z -> A -> res A) (s : A) : res A :=
  for_ 0 (ell_maxnzr B) (fun j s => f (j * ell_n B + i) s) s.
(** lis_matrix_ell.c:392-411, #else *)
Definition ell_count (A : ell T) : res (Z * Z) :=
  for_ 0 (ell_n A) (fun i s =>
    let '(lm, um) := s in
    ' (lc, uc) <- ell_line A i (fun k s =>
      c <- rd (ell_index A) k ;;
      let '(lc, uc) := s in
      if c <? i then Ok (lc + 1, uc) else if i <? c then Ok (lc, uc + 1) else Ok (lc, uc)) (0, 0) ;;
    Ok (if lm <? lc then lc else lm, if um <? uc then uc else um)) (0, 0).
(** one matrix initialised with padding, lis_matrix_ell.c:447-463; D only in the L loop *)
Definition ell_pad (n m : Z) (ix : list Z) (vl : list T) : res (list Z * list T) :=
  for_ 0 m (fun j s => for_ 0 n (fun i s => let '(ix, vl) := s in
    vl <- wr vl (j * n + i) s0 ;; ix <- wr ix (j * n + i) i ;; Ok (ix, vl)) s) (ix, vl).
(** lis_matrix_split_ell, lis_matrix_ell.c:324-499, nprocs = 1.  In the C the padding loop of L also
    sets D->value[i] = 0 lmaxnzr times, i.e. once if lmaxnzr > 0 *)
Definition split_ell (jli : Z -> Z) (jlv : Z -> T) (jui : Z -> Z) (juv jd : Z -> T) (A : ell T) : res esplit :=
  let n := ell_n A in
  ' (lm, um) <- ell_count A ;;
  ' (li, lv) <- ell_pad n lm (alloc (n * lm) jli) (alloc (n * lm) jlv) ;;
  d <- (if 0 <? lm then for_ 0 n (fun i d => wr d i s0) (alloc n jd) else Ok (alloc n jd)) ;;
  ' (ui, uv) <- ell_pad n um (alloc (n * um) jui) (alloc (n * um) juv) ;;
  ' (l, u, d) <- for_ 0 n (fun i s =>
      let '((li, lv), (ui, uv), d) := s in
      ' (l, u, d) <- ell_line A i (fun k s =>
          let '((li, lv, lc), (ui, uv, uc), d) := s in
          c <- rd (ell_index A) k ;; v <- rd (ell_value A) k ;;
          if c <? i then li <- wr li (lc * n + i) c ;; lv <- wr lv (lc * n + i) v ;; Ok ((li, lv, lc + 1), (ui, uv, uc), d)
          else if i <? c then ui <- wr ui (uc * n + i) c ;; uv <- wr uv (uc * n + i) v ;; Ok ((li, lv, lc), (ui, uv, uc + 1), d)
          else if seqb v s0 then Ok ((li, lv, lc), (ui, uv, uc), d)
          else d <- wr d i v ;; Ok ((li, lv, lc), (ui, uv, uc), d)) ((li, lv, 0), (ui, uv, 0), d) ;;
      let '(li, lv, _) := l in let '(ui, uv, _) := u in Ok ((li, lv), (ui, uv), d))
    ((li, lv), (ui, uv), d) ;;
  let '(li, lv) := l in let '(ui, uv) := u in
  Ok (mkEsplit n (mkEll n (ell_np A) lm li lv) d (mkEll n (ell_np A) um ui uv)).
(** lis_matrix_solve_ell, lis_matrix_ell.c:832-894 *)
Definition solve_lower_ell (A : esplit) (wd b x : list T) : res (list T) :=
  fwd_gather (es_n A) ident (fun i x t => ell_line (es_L A) i (item_sub ident (ell_index (es_L A)) (ell_value (es_L A)) x) t) wd b x.
Definition solve_upper_ell (A : esplit) (wd b x : list T) : res (list T) :=
  bwd_gather (es_n A) ident (fun i x t => ell_line (es_U A) i (item_sub ident (ell_index (es_U A)) (ell_value (es_U A)) x) t) wd b x.
Definition solve_ssor_ell (A : esplit) (wd b x : list T) : res (list T) :=
  x <- solve_lower_ell A wd b x ;;
  bwd_correct (es_n A) ident (fun i x t => ell_line (es_U A) i (fun k t =>
      c <- rd (ell_index (es_U A)) k ;; if es_n A <=? c then Ok t else item_add ident (ell_index (es_U A)) (ell_value (es_U A)) x k t) t) wd x.
(** lis_matrix_solveh_ell, lis_matrix_ell.c:897-957 *)
Definition solveh_lower_ell (A : esplit) (wd b x : list T) : res (list T) :=
  x <- copy_to (es_n A) b x ;;
  fwd_scatter (es_n A) sconj (fun i x => ell_line (es_U A) i (item_live sconj (ell_index (es_U A)) (ell_value (es_U A)) i) x) wd x.
Definition solveh_upper_ell (A : esplit) (wd b x : list T) : res (list T) :=
  x <- copy_to (es_n A) b x ;;
  bwd_scatter (es_n A) sconj (fun i x => ell_line (es_L A) i (item_live sconj (ell_index (es_L A)) (ell_value (es_L A)) i) x) wd x.
Definition solveh_ssor_ell (A : esplit) (wd b x : list T) : res (list T) :=
  x <- copy_to (es_n A) b x ;;
  x <- fwd_scatter_t (es_n A) sconj (fun i t x => ell_line (es_U A) i (item_scat sconj (ell_index (es_U A)) (ell_value (es_U A)) t) x) wd x ;;
  bwd_scatter_t (es_n A) sconj (fun i t x => ell_line (es_L A) i (item_scat sconj (ell_index (es_L A)) (ell_value (es_L A)) t) x) wd x.

(** *** DIA *)
Record dsplit := mkDsplit { ds_n : Z; ds_L : dia T; ds_D : list T; ds_U : dia T }.
(** one diagonal copied to the end of a DIA structure, lis_matrix_dia.c:886-905 *)
Definition dia_emit (n j : Z) (A : dia T) (o : Z) (s : list Z * list T * Z) : res (list Z * list T * Z) :=
  let '(ix, vl, k) := s in
  ix <- wr ix k o ;;
  vl <- for_ 0 n (fun i vl => v <- rd (dia_value A) (j * n + i) ;; wr vl (k * n + i) v) vl ;;
  Ok (ix, vl, k + 1).
(** lis_matrix_split_dia, lis_matrix_dia.c:782-926, #else branches *)
Definition split_dia (jli : Z -> Z) (jlv : Z -> T) (jui : Z -> Z) (juv jd : Z -> T) (A : dia T) : res dsplit :=
  let n := dia_n A in
  ' (lm, um) <- for_ 0 (dia_nnd A) (fun j s => let '(lm, um) := s in
      o <- rd (dia_index A) j ;; if o <? 0 then Ok (lm + 1, um) else if 0 <? o then Ok (lm, um + 1) else Ok (lm, um)) (0, 0) ;;
  ' (l, u, d) <- for_ 0 (dia_nnd A) (fun j s =>
      let '(l, u, d) := s in
      o <- rd (dia_index A) j ;;
      if o <? 0 then l <- dia_emit n j A o l ;; Ok (l, u, d)
      else if 0 <? o then u <- dia_emit n j A o u ;; Ok (l, u, d)
      else d <- for_ 0 n (fun i d => v <- rd (dia_value A) (j * n + i) ;; wr d i v) d ;; Ok (l, u, d))
    ((alloc lm jli, alloc (lm * n) jlv, 0), (alloc um jui, alloc (um * n) juv, 0), alloc n jd) ;;
  let '(li, lv, kl) := l in let '(ui, uv, ku) := u in
  Ok (mkDsplit n (mkDia n (dia_np A) kl li lv) d (mkDia n (dia_np A) ku ui uv)).
(** the inner loops: [low] tests i+index[j] >= 0, [high] tests i+index[j] < n *)
Definition dia_line {A} (B : dia T) (low : bool) (i : Z) (f : Z -> Z -> A -> res A) (s : A) : res A :=
  for_ 0 (dia_nnd B) (fun j s => o <- rd (dia_index B) j ;;
    if (if low then 0 <=? i + o else i + o <? dia_n B) then f (i + o) (j * dia_n B + i) s else Ok s) s.
Definition dia_sub (g : T -> T) (B : dia T) (x : list T) (c k : Z) (t : T) : res T :=
  v <- rd (dia_value B) k ;; w <- rd x c ;; Ok (ssub t (smul (g v) w)).
Definition dia_add (g : T -> T) (B : dia T) (x : list T) (c k : Z) (t : T) : res T :=
  v <- rd (dia_value B) k ;; w <- rd x c ;; Ok (sadd t (smul (g v) w)).
Definition dia_scat (g : T -> T) (B : dia T) (t : T) (c k : Z) (x : list T) : res (list T) :=
  v <- rd (dia_value B) k ;; w <- rd x c ;; wr x c (ssub w (smul (g v) t)).
Definition dia_live (g : T -> T) (B : dia T) (i c k : Z) (x : list T) : res (list T) :=
  t <- rd x i ;; dia_scat g B t c k x.
(** lis_matrix_solve_dia, lis_matrix_dia.c:1066-1127 *)
Definition solve_lower_dia (A : dsplit) (wd b x : list T) : res (list T) :=
  fwd_gather (ds_n A) ident (fun i x t => dia_line (ds_L A) true i (dia_sub ident (ds_L A) x) t) wd b x.
Definition solve_upper_dia (A : dsplit) (wd b x : list T) : res (list T) :=
  bwd_gather (ds_n A) ident (fun i x t => dia_line (ds_U A) false i (dia_sub ident (ds_U A) x) t) wd b x.
Definition solve_ssor_dia (A : dsplit) (wd b x : list T) : res (list T) :=
  x <- solve_lower_dia A wd b x ;;
  bwd_correct (ds_n A) ident (fun i x t => dia_line (ds_U A) false i (dia_add ident (ds_U A) x) t) wd x.
(** lis_matrix_solveh_dia, lis_matrix_dia.c:1130-1187 *)
Definition solveh_lower_dia (A : dsplit) (wd b x : list T) : res (list T) :=
  x <- copy_to (ds_n A) b x ;;
  fwd_scatter (ds_n A) sconj (fun i x => dia_line (ds_U A) false i (dia_live sconj (ds_U A) i) x) wd x.
Definition solveh_upper_dia (A : dsplit) (wd b x : list T) : res (list T) :=
  x <- copy_to (ds_n A) b x ;;
  bwd_scatter (ds_n A) sconj (fun i x => dia_line (ds_L A) true i (dia_live sconj (ds_L A) i) x) wd x.
Definition solveh_ssor_dia (A : dsplit) (wd b x : list T) : res (list T) :=
  x <- copy_to (ds_n A) b x ;;
  x <- fwd_scatter_t (ds_n A) sconj (fun i t x => dia_line (ds_U A) false i (dia_scat sconj (ds_U A) t) x) wd x ;;
  bwd_scatter_t (ds_n A) sconj (fun i t x => dia_line (ds_L A) true i (dia_scat sconj (ds_L A) t) x) wd x.

(** *** DNS: only D is extracted, lis_matrix_split_dns, lis_matrix_dns.c:562-586 *)
Definition split_dns (jd : Z -> T) (A : dns T) : res (list T) :=
  for_ 0 (dns_n A) (fun i d => v <- rd (dns_value A) (i * dns_n A + i) ;; wr d i v) (alloc (dns_n A) jd).
(** columns lo <= j < hi of row i *)
Definition dns_line {X} (A : dns T) (lo hi i : Z) (f : Z -> Z -> X -> res X) (s : X) : res X :=
  for_ lo hi (fun j s => f j (j * dns_n A + i) s) s.
Definition dns_sub (g : T -> T) (A : dns T) (x : list T) (c k : Z) (t : T) : res T :=
  v <- rd (dns_value A) k ;; w <- rd x c ;; Ok (ssub t (smul (g v) w)).
Definition dns_add (g : T -> T) (A : dns T) (x : list T) (c k : Z) (t : T) : res T :=
  v <- rd (dns_value A) k ;; w <- rd x c ;; Ok (sadd t (smul (g v) w)).
Definition dns_scat (g : T -> T) (A : dns T) (t : T) (c k : Z) (x : list T) : res (list T) :=
  v <- rd (dns_value A) k ;; w <- rd x c ;; wr x c (ssub w (smul (g v) t)).
Definition dns_live (g : T -> T) (A : dns T) (i c k : Z) (x : list T) : res (list T) :=
  t <- rd x i ;; dns_scat g A t c k x.
(** lis_matrix_solve_dns, lis_matrix_dns.c:617-680 *)
Definition solve_lower_dns (A : dns T) (wd b x : list T) : res (list T) :=
  fwd_gather (dns_n A) ident (fun i x t => dns_line A 0 i i (dns_sub ident A x) t) wd b x.
Definition solve_upper_dns (A : dns T) (wd b x : list T) : res (list T) :=
  bwd_gather (dns_n A) ident (fun i x t => dns_line A (i + 1) (dns_np A) i (dns_sub ident A x) t) wd b x.
Definition solve_ssor_dns (A : dns T) (wd b x : list T) : res (list T) :=
  x <- solve_lower_dns A wd b x ;;
  bwd_correct (dns_n A) ident (fun i x t => dns_line A (i + 1) (dns_n A) i (dns_add ident A x) t) wd x.
(** lis_matrix_solveh_dns, lis_matrix_dns.c:683-740 *)
Definition solveh_lower_dns (A : dns T) (wd b x : list T) : res (list T) :=
  x <- copy_to (dns_n A) b x ;;
  fwd_scatter (dns_n A) sconj (fun i x => dns_line A (i + 1) (dns_np A) i (dns_live sconj A i) x) wd x.
Definition solveh_upper_dns (A : dns T) (wd b x : list T) : res (list T) :=
  x <- copy_to (dns_n A) b x ;;
  bwd_scatter (dns_n A) sconj (fun i x => dns_line A 0 i i (dns_live sconj A i) x) wd x.
Definition solveh_ssor_dns (A : dns T) (wd b x : list T) : res (list T) :=
  x <- copy_to (dns_n A) b x ;;
  x <- fwd_scatter_t (dns_n A) sconj (fun i t x => dns_line A (i + 1) (dns_np A) i (dns_scat sconj A t) x) wd x ;;
  bwd_scatter_t (dns_n A) sconj (fun i t x => dns_line A 0 i i (dns_scat sconj A t) x) wd x.
End S.
Arguments csplit T : clear implicits.
Arguments msplit T : clear implicits.
Arguments esplit T : clear implicits.
Arguments dsplit T : clear implicits.
