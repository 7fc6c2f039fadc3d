(** Model of lis_matrix_get_diagonal, lis_matrix_shift_diagonal and lis_matrix_scale
    (src/matrix/lis_matrix_ops.c:576-830 and lis_matrix_<format>.c), unsplit matrices,
    one thread, no MPI.  JAD get and shift, ELL shift, BSR, BSC and VBR are in Diag2.v. *)
Require Import ZArith List Bool.
From Verif Require Import Base Scalar Spec.
Import ListNotations.
Open Scope Z_scope.

Section S.
Context {T : Type} {S : Scalar T}.

(** for(j=lo;j<hi;j++) with break: the body says whether to break *)
Fixpoint brk_nat {A} (k : nat) (i : Z) (body : Z -> A -> res (bool * A)) (s : A) : res A :=
  match k with
  | O => Ok s
  | Datatypes.S k => ' (b, s) <- body i s ;; if (b : bool) then Ok s else brk_nat k (i + 1) body s
  end.
Definition for_brk {A} (lo hi : Z) (body : Z -> A -> res (bool * A)) (s : A) : res A := brk_nat (Z.to_nat (hi - lo)) lo body s.

(** v[k] = f(v[k]) *)
Definition upd (v : list T) (k : Z) (f : T -> T) : res (list T) := a <- rd v k ;; wr v k (f a).

(** ** lis_matrix_get_diagonal_<format>: fills d *)

(** lis_matrix_csr.c:541-558 *)
Definition get_diagonal_csr (A : csr T) (d : list T) : res (list T) :=
  for_ 0 (csr_n A) (fun i d =>
    d <- wr d i s0 ;;
    js <- rd (csr_ptr A) i ;; je <- rd (csr_ptr A) (i + 1) ;;
    for_brk js je (fun j d =>
      c <- rd (csr_index A) j ;;
      if i =? c then v <- rd (csr_value A) j ;; d <- wr d i v ;; Ok (true, d) else Ok (false, d)) d) d.
(** lis_matrix_csc.c, the same loop over the np columns *)
Definition get_diagonal_csc (A : csc T) (d : list T) : res (list T) :=
  for_ 0 (csc_np A) (fun i d =>
    d <- wr d i s0 ;;
    js <- rd (csc_ptr A) i ;; je <- rd (csc_ptr A) (i + 1) ;;
    for_brk js je (fun j d =>
      c <- rd (csc_index A) j ;;
      if i =? c then v <- rd (csc_value A) j ;; d <- wr d i v ;; Ok (true, d) else Ok (false, d)) d) d.
(** lis_matrix_msr.c *)
Definition get_diagonal_msr (A : msr T) (d : list T) : res (list T) :=
  for_ 0 (msr_n A) (fun i d => v <- rd (msr_value A) i ;; wr d i v) d.
(** lis_matrix_ell.c *)
Definition get_diagonal_ell (A : ell T) (d : list T) : res (list T) :=
  let n := ell_n A in
  for_ 0 n (fun i d =>
    d <- wr d i s0 ;;
    for_brk 0 (ell_maxnzr A) (fun j d =>
      c <- rd (ell_index A) (j * n + i) ;;
      if i =? c then v <- rd (ell_value A) (j * n + i) ;; d <- wr d i v ;; Ok (true, d) else Ok (false, d)) d) d.
(** lis_matrix_coo.c: d is not cleared first *)
Definition get_diagonal_coo (A : coo T) (d : list T) : res (list T) :=
  for_ 0 (coo_nnz A) (fun k d =>
    r <- rd (coo_row A) k ;; c <- rd (coo_col A) k ;;
    if r =? c then v <- rd (coo_value A) k ;; wr d r v else Ok d) d.
(** lis_matrix_dns.c *)
Definition get_diagonal_dns (A : dns T) (d : list T) : res (list T) :=
  for_ 0 (dns_n A) (fun i d => v <- rd (dns_value A) (i * dns_n A + i) ;; wr d i v) d.
(** lis_matrix_dia.c: j is the first diagonal with offset 0, nnd if there is none *)
Definition main_diagonal (A : dia T) : res Z :=
  for_brk 0 (dia_nnd A) (fun j r => o <- rd (dia_index A) j ;; if o =? 0 then Ok (true, j) else Ok (false, j + 1)) 0.
Definition get_diagonal_dia (A : dia T) (d : list T) : res (list T) :=
  j <- main_diagonal A ;;
  for_ 0 (dia_n A) (fun i d => v <- rd (dia_value A) (j * dia_n A + i) ;; wr d i v) d.

(** ** lis_matrix_shift_diagonal_<format>: the new value array *)
Definition shift_diagonal_csr (A : csr T) (sigma : T) : res (csr T) :=
  v <- for_ 0 (csr_n A) (fun i v =>
    js <- rd (csr_ptr A) i ;; je <- rd (csr_ptr A) (i + 1) ;;
    for_brk js je (fun j v =>
      c <- rd (csr_index A) j ;;
      if i =? c then v <- upd v j (fun a => ssub a sigma) ;; Ok (true, v) else Ok (false, v)) v) (csr_value A) ;;
  Ok (mkCsr (csr_n A) (csr_np A) (csr_nnz A) (csr_ptr A) (csr_index A) v).
(** lis_matrix_csc.c:299-337 *)
Definition shift_diagonal_csc (A : csc T) (sigma : T) : res (csc T) :=
  v <- for_ 0 (csc_np A) (fun i v =>
    js <- rd (csc_ptr A) i ;; je <- rd (csc_ptr A) (i + 1) ;;
    for_brk js je (fun j v =>
      c <- rd (csc_index A) j ;;
      if i =? c then v <- upd v j (fun a => ssub a sigma) ;; Ok (true, v) else Ok (false, v)) v) (csc_value A) ;;
  Ok (mkCsc (csc_n A) (csc_np A) (csc_nnz A) (csc_ptr A) (csc_index A) v).
Definition shift_diagonal_msr (A : msr T) (sigma : T) : res (msr T) :=
  v <- for_ 0 (msr_n A) (fun i v => upd v i (fun a => ssub a sigma)) (msr_value A) ;;
  Ok (mkMsr (msr_n A) (msr_np A) (msr_nnz A) (msr_ndz A) (msr_index A) v).
Definition shift_diagonal_coo (A : coo T) (sigma : T) : res (coo T) :=
  v <- for_ 0 (coo_nnz A) (fun k v =>
    r <- rd (coo_row A) k ;; c <- rd (coo_col A) k ;;
    if r =? c then upd v k (fun a => ssub a sigma) else Ok v) (coo_value A) ;;
  Ok (mkCoo (coo_n A) (coo_np A) (coo_nnz A) (coo_row A) (coo_col A) v).
Definition shift_diagonal_dns (A : dns T) (sigma : T) : res (dns T) :=
  v <- for_ 0 (dns_n A) (fun i v => upd v (i * dns_n A + i) (fun a => ssub a sigma)) (dns_value A) ;;
  Ok (mkDns (dns_n A) (dns_np A) v).
Definition shift_diagonal_dia (A : dia T) (sigma : T) : res (dia T) :=
  j <- main_diagonal A ;;
  v <- for_ 0 (dia_n A) (fun i v => upd v (j * dia_n A + i) (fun a => ssub a sigma)) (dia_value A) ;;
  Ok (mkDia (dia_n A) (dia_np A) (dia_nnd A) (dia_index A) v).

(** ** lis_matrix_scale_<format> (Jacobi) *)
Definition scale_csr (A : csr T) (d : list T) : res (csr T) :=
  v <- for_ 0 (csr_n A) (fun i v =>
    js <- rd (csr_ptr A) i ;; je <- rd (csr_ptr A) (i + 1) ;;
    for_ js je (fun j v => di <- rd d i ;; upd v j (fun a => smul a di)) v) (csr_value A) ;;
  Ok (mkCsr (csr_n A) (csr_np A) (csr_nnz A) (csr_ptr A) (csr_index A) v).
Definition scale_csc (A : csc T) (d : list T) : res (csc T) :=
  v <- for_ 0 (csc_np A) (fun i v =>
    js <- rd (csc_ptr A) i ;; je <- rd (csc_ptr A) (i + 1) ;;
    for_ js je (fun j v => c <- rd (csc_index A) j ;; dc <- rd d c ;; upd v j (fun a => smul a dc)) v) (csc_value A) ;;
  Ok (mkCsc (csc_n A) (csc_np A) (csc_nnz A) (csc_ptr A) (csc_index A) v).
Definition scale_msr (A : msr T) (d : list T) : res (msr T) :=
  v <- for_ 0 (msr_n A) (fun i v =>
    v <- wr v i s1 ;;
    js <- rd (msr_index A) i ;; je <- rd (msr_index A) (i + 1) ;;
    for_ js je (fun j v => di <- rd d i ;; upd v j (fun a => smul a di)) v) (msr_value A) ;;
  Ok (mkMsr (msr_n A) (msr_np A) (msr_nnz A) (msr_ndz A) (msr_index A) v).
Definition scale_ell (A : ell T) (d : list T) : res (ell T) :=
  let n := ell_n A in
  v <- for_ 0 (ell_maxnzr A) (fun j v => for_ 0 n (fun i v => di <- rd d i ;; upd v (j * n + i) (fun a => smul a di)) v) (ell_value A) ;;
  Ok (mkEll n (ell_np A) (ell_maxnzr A) (ell_index A) v).
Definition scale_coo (A : coo T) (d : list T) : res (coo T) :=
  v <- for_ 0 (coo_nnz A) (fun k v => i <- rd (coo_row A) k ;; di <- rd d i ;; upd v k (fun a => smul a di)) (coo_value A) ;;
  Ok (mkCoo (coo_n A) (coo_np A) (coo_nnz A) (coo_row A) (coo_col A) v).
Definition scale_dns (A : dns T) (d : list T) : res (dns T) :=
  let n := dns_n A in
  v <- for_ 0 (dns_np A) (fun j v => for_ 0 n (fun i v => di <- rd d i ;; upd v (j * n + i) (fun a => smul a di)) v) (dns_value A) ;;
  Ok (mkDns n (dns_np A) v).
Definition scale_dia (A : dia T) (d : list T) : res (dia T) :=
  let n := dia_n A in
  v <- for_ 0 (dia_nnd A) (fun j v =>
    jj <- rd (dia_index A) j ;;
    for_ (Z.max 0 (- jj)) (Z.min n (n - jj)) (fun i v => di <- rd d i ;; upd v (j * n + i) (fun a => smul a di)) v) (dia_value A) ;;
  Ok (mkDia n (dia_np A) (dia_nnd A) (dia_index A) v).
(** the row counter k starts at 0 on every jagged diagonal *)
Definition scale_jad (A : jad T) (d : list T) : res (jad T) :=
  v <- for_ 0 (jad_maxnzr A) (fun j v =>
    js <- rd (jad_ptr A) j ;; je <- rd (jad_ptr A) (j + 1) ;;
    for_ js je (fun i v => r <- rd (jad_perm A) (i - js) ;; dr <- rd d r ;; upd v i (fun a => smul a dr)) v) (jad_value A) ;;
  Ok (mkJad (jad_n A) (jad_np A) (jad_nnz A) (jad_maxnzr A) (jad_perm A) (jad_ptr A) (jad_index A) v).

(** ** lis_matrix_scale_symm_<format> *)
Definition scale_symm_csr (A : csr T) (d : list T) : res (csr T) :=
  v <- for_ 0 (csr_n A) (fun i v =>
    js <- rd (csr_ptr A) i ;; je <- rd (csr_ptr A) (i + 1) ;;
    for_ js je (fun j v => di <- rd d i ;; c <- rd (csr_index A) j ;; dc <- rd d c ;; upd v j (fun a => smul (smul a di) dc)) v) (csr_value A) ;;
  Ok (mkCsr (csr_n A) (csr_np A) (csr_nnz A) (csr_ptr A) (csr_index A) v).
Definition scale_symm_csc (A : csc T) (d : list T) : res (csc T) :=
  v <- for_ 0 (csc_np A) (fun i v =>
    js <- rd (csc_ptr A) i ;; je <- rd (csc_ptr A) (i + 1) ;;
    for_ js je (fun j v => di <- rd d i ;; c <- rd (csc_index A) j ;; dc <- rd d c ;; upd v j (fun a => smul (smul a di) dc)) v) (csc_value A) ;;
  Ok (mkCsc (csc_n A) (csc_np A) (csc_nnz A) (csc_ptr A) (csc_index A) v).
Definition scale_symm_msr (A : msr T) (d : list T) : res (msr T) :=
  v <- for_ 0 (msr_n A) (fun i v =>
    v <- wr v i s1 ;;
    js <- rd (msr_index A) i ;; je <- rd (msr_index A) (i + 1) ;;
    for_ js je (fun j v => di <- rd d i ;; c <- rd (msr_index A) j ;; dc <- rd d c ;; upd v j (fun a => smul (smul a di) dc)) v) (msr_value A) ;;
  Ok (mkMsr (msr_n A) (msr_np A) (msr_nnz A) (msr_ndz A) (msr_index A) v).
Definition scale_symm_ell (A : ell T) (d : list T) : res (ell T) :=
  let n := ell_n A in
  v <- for_ 0 (ell_maxnzr A) (fun j v => for_ 0 n (fun i v =>
    di <- rd d i ;; c <- rd (ell_index A) (j * n + i) ;; dc <- rd d c ;; upd v (j * n + i) (fun a => smul a (smul di dc))) v) (ell_value A) ;;
  Ok (mkEll n (ell_np A) (ell_maxnzr A) (ell_index A) v).
(** j = A->row[k], not A->col[k] *)
Definition scale_symm_coo (A : coo T) (d : list T) : res (coo T) :=
  v <- for_ 0 (coo_nnz A) (fun k v =>
    i <- rd (coo_row A) k ;; j <- rd (coo_row A) k ;; di <- rd d i ;; dj <- rd d j ;; upd v k (fun a => smul a (smul di dj))) (coo_value A) ;;
  Ok (mkCoo (coo_n A) (coo_np A) (coo_nnz A) (coo_row A) (coo_col A) v).
Definition scale_symm_dns (A : dns T) (d : list T) : res (dns T) :=
  let n := dns_n A in
  v <- for_ 0 (dns_np A) (fun j v => for_ 0 n (fun i v => di <- rd d i ;; dj <- rd d j ;; upd v (j * n + i) (fun a => smul a (smul di dj))) v) (dns_value A) ;;
  Ok (mkDns n (dns_np A) v).
Definition scale_symm_dia (A : dia T) (d : list T) : res (dia T) :=
  let n := dia_n A in
  v <- for_ 0 (dia_nnd A) (fun j v =>
    jj <- rd (dia_index A) j ;;
    for_ (Z.max 0 (- jj)) (Z.min n (n - jj)) (fun i v => di <- rd d i ;; dj <- rd d (i + jj) ;; upd v (j * n + i) (fun a => smul a (smul di dj))) v) (dia_value A) ;;
  Ok (mkDia n (dia_np A) (dia_nnd A) (dia_index A) v).
Definition scale_symm_jad (A : jad T) (d : list T) : res (jad T) :=
  v <- for_ 0 (jad_maxnzr A) (fun j v =>
    js <- rd (jad_ptr A) j ;; je <- rd (jad_ptr A) (j + 1) ;;
    for_ js je (fun i v => r <- rd (jad_perm A) (i - js) ;; dr <- rd d r ;; c <- rd (jad_index A) i ;; dc <- rd d c ;; upd v i (fun a => smul a (smul dr dc))) v) (jad_value A) ;;
  Ok (mkJad (jad_n A) (jad_np A) (jad_nnz A) (jad_maxnzr A) (jad_perm A) (jad_ptr A) (jad_index A) v).

(** ** lis_matrix_scale, lis_matrix_ops.c:579-715: get_diagonal, then d[i] = 1/d[i] (Jacobi)
    or 1/sqrt(fabs(d[i])) (symmetric), then scale A and b.  [get], [sc] and [scs] are the
    functions of A's format.  Result: A, b, d. *)
Definition matrix_scale {M} (get : M -> list T -> res (list T)) (sc scs : M -> list T -> res M) (n np : Z) (A : M) (b d : list T) (symm : bool)
  : res (M * list T * list T) :=
  d <- get A d ;;
  d <- (if symm then for_ 0 np (fun i d => upd d i (fun a => sdiv s1 (ssqrt (sabs a)))) d
        else for_ 0 n (fun i d => upd d i (fun a => sdiv s1 a)) d) ;;
  A <- (if symm then scs A d else sc A d) ;;
  b <- for_ 0 n (fun i b => di <- rd d i ;; upd b i (fun a => smul a di)) b ;;
  Ok (A, b, d).
End S.
