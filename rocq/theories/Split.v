(** Model of lis_matrix_split_csr, lis_matrix_merge_csr, the split branch of
    lis_matvec_csr / lis_matvech_csr and lis_matrix_solve_csr / lis_matrix_solveh_csr
    (one thread, double precision). *)
Require Import ZArith List Bool.
From Verif Require Import Base Scalar Spec.
Import ListNotations.
Open Scope Z_scope.

Section S.
Context {T : Type} {S : Scalar T}.

(** A->L, A->D, A->U of a split CSR matrix.  L and U are CSR structures with A's n and np. *)
Record split := mkSplit { sp_n : Z; sp_np : Z; sp_L : csr T; sp_D : list T; sp_U : csr T }.

(** growing index/value arrays with a fill counter *)
Definition emit (st : list Z * list T * Z) (c : Z) (v : T) : res (list Z * list T * Z) :=
  let '(ix, vl, k) := st in
  ix <- wr ix k c ;; vl <- wr vl k v ;; Ok (ix, vl, k + 1).

(** lis_matrix_split_csr, lis_matrix_csr.c:834-848: how many entries go to L and to U *)
Definition split_count (A : csr T) : res (Z * Z) :=
  for_ 0 (csr_n A) (fun i s =>
    js <- rd (csr_ptr A) i ;; je <- rd (csr_ptr A) (i + 1) ;;
    for_ js je (fun j s =>
      c <- rd (csr_index A) j ;;
      let '(nl, nu) := s in
      if c <? i then Ok (nl + 1, nu) else if i <? c then Ok (nl, nu + 1) else Ok (nl, nu)) s) (0, 0).

(** lis_matrix_csr.c:765-950, #else branches.  The seven oracles are the initial contents
    of the malloc'ed arrays: L ptr/index/value, U ptr/index/value, D value. *)
Definition split_csr (jlp jli : Z -> Z) (jlv : Z -> T) (jup jui : Z -> Z) (juv jd : Z -> T) (A : csr T) : res split :=
  let n := csr_n A in
  ' (nnzl, nnzu) <- split_count A ;;
  lptr <- wr (alloc (n + 1) jlp) 0 0 ;;
  uptr <- wr (alloc (n + 1) jup) 0 0 ;;
  ' (l, u, d, lptr, uptr) <- for_ 0 n (fun i s =>
      let '(l, u, d, lptr, uptr) := s in
      js <- rd (csr_ptr A) i ;; je <- rd (csr_ptr A) (i + 1) ;;
      ' (l, u, d) <- for_ js je (fun j s =>
          let '(l, u, d) := s in
          c <- rd (csr_index A) j ;; v <- rd (csr_value A) j ;;
          if c <? i then l <- emit l c v ;; Ok (l, u, d)
          else if i <? c then u <- emit u c v ;; Ok (l, u, d)
          else d <- wr d i v ;; Ok (l, u, d)) (l, u, d) ;;
      lptr <- wr lptr (i + 1) (snd l) ;; uptr <- wr uptr (i + 1) (snd u) ;;
      Ok (l, u, d, lptr, uptr))
    ((alloc nnzl jli, alloc nnzl jlv, 0), (alloc nnzu jui, alloc nnzu juv, 0), alloc n jd, lptr, uptr) ;;
  let '(li, lv, nl) := l in let '(ui, uv, nu) := u in
  Ok (mkSplit n (csr_np A) (mkCsr n (csr_np A) nl lptr li lv) d (mkCsr n (csr_np A) nu uptr ui uv)).

(** lis_matrix_merge_csr, lis_matrix_csr.c:1258-1312 *)
Definition merge_csr (jp ji : Z -> Z) (jv : Z -> T) (A : split) : res (csr T) :=
  let n := sp_n A in let L := sp_L A in let U := sp_U A in
  let nnz := csr_nnz L + csr_nnz U + n in
  ptr <- wr (alloc (n + 1) jp) 0 0 ;;
  ' (e, ptr) <- for_ 0 n (fun i s =>
      let '(e, ptr) := s in
      js <- rd (csr_ptr L) i ;; je <- rd (csr_ptr L) (i + 1) ;;
      e <- for_ js je (fun j e => c <- rd (csr_index L) j ;; v <- rd (csr_value L) j ;; emit e c v) e ;;
      dv <- rd (sp_D A) i ;;
      e <- emit e i dv ;;
      ks <- rd (csr_ptr U) i ;; ke <- rd (csr_ptr U) (i + 1) ;;
      e <- for_ ks ke (fun j e => c <- rd (csr_index U) j ;; v <- rd (csr_value U) j ;; emit e c v) e ;;
      ptr <- wr ptr (i + 1) (snd e) ;;
      Ok (e, ptr)) ((alloc nnz ji, alloc nnz jv, 0), ptr) ;;
  let '(ix, vl, k) := e in
  Ok (mkCsr n (sp_np A) k ptr ix vl).

(** t += (or -=) value[j]*x[index[j]] over row i of a CSR structure *)
Definition row_add (B : csr T) (x : list T) (i : Z) (t : T) : res T :=
  js <- rd (csr_ptr B) i ;; je <- rd (csr_ptr B) (i + 1) ;;
  for_ js je (fun j t => c <- rd (csr_index B) j ;; v <- rd (csr_value B) j ;; w <- rd x c ;; Ok (sadd t (smul v w))) t.
Definition row_sub (B : csr T) (x : list T) (i : Z) (t : T) : res T :=
  js <- rd (csr_ptr B) i ;; je <- rd (csr_ptr B) (i + 1) ;;
  for_ js je (fun j t => c <- rd (csr_index B) j ;; v <- rd (csr_value B) j ;; w <- rd x c ;; Ok (ssub t (smul v w))) t.
(** x[index[j]] += (or -=) conj(value[j])*t over row i *)
Definition col_add (B : csr T) (i : Z) (t : T) (x : list T) : res (list T) :=
  js <- rd (csr_ptr B) i ;; je <- rd (csr_ptr B) (i + 1) ;;
  for_ js je (fun j x => c <- rd (csr_index B) j ;; v <- rd (csr_value B) j ;; w <- rd x c ;; wr x c (sadd w (smul (sconj v) t))) x.
Definition col_sub (B : csr T) (i : Z) (t : T) (x : list T) : res (list T) :=
  js <- rd (csr_ptr B) i ;; je <- rd (csr_ptr B) (i + 1) ;;
  for_ js je (fun j x => c <- rd (csr_index B) j ;; v <- rd (csr_value B) j ;; w <- rd x c ;; wr x c (ssub w (smul (sconj v) t))) x.

(** the same with t = x[i] read again each time round *)
Definition col_sub_live (B : csr T) (i : Z) (x : list T) : res (list T) :=
  js <- rd (csr_ptr B) i ;; je <- rd (csr_ptr B) (i + 1) ;;
  for_ js je (fun j x => c <- rd (csr_index B) j ;; v <- rd (csr_value B) j ;; t <- rd x i ;; w <- rd x c ;; wr x c (ssub w (smul (sconj v) t))) x.

(** lis_matvec_csr, split branch, lis_matvec_csr.c:63-88 *)
Definition matvec_split (A : split) (x y : list T) : res (list T) :=
  for_ 0 (sp_n A) (fun i y =>
    d <- rd (sp_D A) i ;; xi <- rd x i ;;
    t <- row_add (sp_L A) x i (smul d xi) ;; t <- row_add (sp_U A) x i t ;; wr y i t) y.
(** lis_matvech_csr, split branch, #else, lis_matvec_csr.c:168-197 *)
Definition matvech_split (A : split) (x y : list T) : res (list T) :=
  y <- for_ 0 (sp_np A) (fun i y => d <- rd (sp_D A) i ;; xi <- rd x i ;; wr y i (smul (sconj d) xi)) y ;;
  y <- for_ 0 (sp_n A) (fun i y => t <- rd x i ;; col_add (sp_L A) i t y) y ;;
  for_ 0 (sp_n A) (fun i y => t <- rd x i ;; col_add (sp_U A) i t y) y.

(** lis_matrix_diag_inverse (bn==1), lis_matrix_diag.c:773-781: WD is a copy of D, inverted *)
Definition diag_inverse (n : Z) (d : list T) : res (list T) :=
  for_ 0 n (fun i d => v <- rd d i ;; wr d i (sdiv s1 v)) d.

(** lis_matrix_solve_csr, lis_matrix_csr.c:1525-1628; wd = A->WD->value *)
Definition solve_lower (A : split) (wd b x : list T) : res (list T) :=
  for_ 0 (sp_n A) (fun i x => t <- rd b i ;; t <- row_sub (sp_L A) x i t ;; w <- rd wd i ;; wr x i (smul t w)) x.
Definition solve_upper (A : split) (wd b x : list T) : res (list T) :=
  for_down (sp_n A - 1) 0 (fun i x => t <- rd b i ;; t <- row_sub (sp_U A) x i t ;; w <- rd wd i ;; wr x i (smul t w)) x.
Definition solve_ssor (A : split) (wd b x : list T) : res (list T) :=
  x <- solve_lower A wd b x ;;
  for_down (sp_n A - 1) 0 (fun i x =>
    js <- rd (csr_ptr (sp_U A)) i ;; je <- rd (csr_ptr (sp_U A)) (i + 1) ;;
    t <- for_ js je (fun j t =>
        c <- rd (csr_index (sp_U A)) j ;;
        if sp_n A <=? c then Ok t
        else v <- rd (csr_value (sp_U A)) j ;; w <- rd x c ;; Ok (sadd t (smul v w))) s0 ;;
    xi <- rd x i ;; w <- rd wd i ;; wr x i (ssub xi (smul t w))) x.

(** lis_matrix_solveh_csr, lis_matrix_csr.c:1748-1860: X starts as a copy of B *)
Definition solveh_lower (A : split) (wd b : list T) : res (list T) :=
  for_ 0 (sp_n A) (fun i x => xi <- rd x i ;; w <- rd wd i ;; x <- wr x i (smul xi (sconj w)) ;; col_sub_live (sp_U A) i x) b.
Definition solveh_upper (A : split) (wd b : list T) : res (list T) :=
  for_down (sp_n A - 1) 0 (fun i x => xi <- rd x i ;; w <- rd wd i ;; x <- wr x i (smul xi (sconj w)) ;; col_sub_live (sp_L A) i x) b.
Definition solveh_ssor (A : split) (wd b : list T) : res (list T) :=
  x <- for_ 0 (sp_n A) (fun i x => xi <- rd x i ;; w <- rd wd i ;; col_sub (sp_U A) i (smul xi (sconj w)) x) b ;;
  for_down (sp_n A - 1) 0 (fun i x => xi <- rd x i ;; w <- rd wd i ;; x <- wr x i (smul xi (sconj w)) ;; col_sub (sp_L A) i (smul xi (sconj w)) x) x.
End S.
Arguments split T : clear implicits.
