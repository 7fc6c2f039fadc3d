(** Model of lis_gmres and lis_fgmres (src/solver/lis_solver_gmres.c), double precision, one
    process, real scalars; conventions of Krylov.v.
    - solver->work is a list of NWORK+restart+1 (GMRES) or NWORK+2*restart+1 (FGMRES)
      vectors, every access is checked.  work[0] is the vector s of restart+1 elements: the
      list [g_s] here, checked as well.  h is the malloc'ed array of (m+2)(m+3) elements.
    - lis_vector_scale(1.0/t,v) with t = 0 fills v with NaN.  The code relies on not looking
      at that vector again after an exact breakdown, so here it is the vector [None], and
      using it ends the run with DIV_BY_ZERO.
    - left out: the quad precision variants, output and timing. *)
Require Import ZArith List Bool.
From Verif Require Import Base Scalar Spec Krylov.
Import ListNotations.
Open Scope Z_scope.

Section M.
Context {T : Type} {S : Scalar T}.
Notation env' := (env (T:=T)).
Notation vec := (vect (T:=T)).

(** 1.0e-17 *)
Fixpoint power (a : T) (k : nat) : T := match k with O => s1 | Datatypes.S k => smul a (power a k) end.
Definition ten : T := let two := sadd s1 s1 in let five := sadd (sadd two two) s1 in sadd five five.
Definition tiny : T := sdiv s1 (power ten 17).

(** solver->work, s, h, solver->x, the local nrm2, solver->rhistory *)
Record gst := mkG { g_W : list (option vec); g_s : list T; g_h : list T; g_x : vec; g_nrm : option T; g_rh : list T }.
Definition getv (W : list (option vec)) (k : Z) : res vec :=
  o <- rd W k ;; match o with Some v => Ok v | None => Err DIV_BY_ZERO end.

(** one pass of the do loop, lines 192-270 of lis_gmres and 1199-1270 of lis_fgmres.
    [vr k] and [zr k] are the numbers of the work vectors v[k] and z (z[k]); [nf] turns
    |s[i1]| into nrm2. *)
Definition gm_step (m : Z) (vr zr : Z -> Z) (nf : T -> T) (e : env') (i iter : Z) (g : gst) : res gst :=
  let n := e_n e in
  let hd := m + 1 in let cs := (m + 1) * hd in let sn := (m + 2) * hd in
  let ii := i - 1 in let iih := (i - 1) * hd in
  w <- getv (g_W g) (vr ii) ;;
  W <- wr (g_W g) (zr ii) (Some (e_psolve e iter w)) ;;
  z <- getv W (zr ii) ;;
  W <- wr W (vr i) (Some (matvec n (e_E e) z)) ;;
  ' (W, h) <- for_ 0 i (fun k '(W, h) =>
       w <- getv W (vr i) ;; vk <- getv W (vr k) ;;
       LET t := dot n w vk in
       h <- wr h (k + iih) t ;;
       W <- wr W (vr i) (Some (axpy n (sopp t) vk w)) ;;
       Ok (W, h)) (W, g_h g) ;;
  w <- getv W (vr i) ;;
  LET t := nrm2 n w in
  h <- wr h (i + iih) t ;;
  W <- wr W (vr i) (if seqb t s0 then None else Some (scale n (sdiv s1 t) w)) ;;
  h <- for_ 1 (ii + 1) (fun k h =>
       let jj := k - 1 in
       t <- rd h (jj + iih) ;; c <- rd h (jj + cs) ;; s <- rd h (jj + sn) ;; u <- rd h (k + iih) ;;
       LET aa := sadd (smul c t) (smul s u) in
       LET bb := sadd (smul (sopp s) t) (smul c u) in
       h <- wr h (jj + iih) aa ;; wr h (k + iih) bb) h ;;
  aa <- rd h (ii + iih) ;; bb <- rd h (i + iih) ;;
  LET rr := ssqrt (sadd (smul aa aa) (smul bb bb)) in
  LET rr := if seqb rr s0 then tiny else rr in
  c <- divz aa rr ;; h <- wr h (ii + cs) c ;;
  s <- divz bb rr ;; h <- wr h (ii + sn) s ;;
  s <- rd h (ii + sn) ;; u <- rd (g_s g) ii ;; sv <- wr (g_s g) i (smul (sopp s) u) ;;
  c <- rd h (ii + cs) ;; u <- rd sv ii ;; sv <- wr sv ii (smul c u) ;;
  a <- rd h (ii + iih) ;; b <- rd h (i + iih) ;;
  h <- wr h (ii + iih) (sadd (smul c a) (smul s b)) ;;
  u <- rd sv i ;;
  LET nr := nf (sabs u) in
  rh <- (if e_mem e then wr (g_rh g) iter nr else Ok (g_rh g)) ;;
  Ok (mkG W sv h (g_x g) (Some nr) rh).

(** do { ... if( tol>=nrm2 ) break; } while( i<m && iter<maxiter ); [i], [iter] before the pass *)
Fixpoint inner (fuel : nat) (m : Z) (vr zr : Z -> Z) (nf : T -> T) (tol : T) (e : env') (i iter : Z) (g : gst) : res (Z * Z * gst) :=
  match fuel with
  | O => Err OUT_OF_FUEL
  | Datatypes.S f =>
      g <- gm_step m vr zr nf e (i + 1) (iter + 1) g ;;
      if (match g_nrm g with Some nr => sleb nr tol | None => false end) || negb ((i + 1 <? m) && (iter + 1 <? e_maxiter e))
      then Ok (i + 1, iter + 1, g)
      else inner f m vr zr nf tol e (i + 1) (iter + 1) g
  end.

(** solve H y = s, lines 272-283 / 1272-1283 *)
Definition back (m ii : Z) (h s : list T) : res (list T) :=
  let hd := m + 1 in let iih := ii * hd in
  u <- rd s ii ;; d <- rd h (ii + iih) ;; y <- divz u d ;; s <- wr s ii y ;;
  for_ 1 (ii + 1) (fun k s =>
    let jj := ii - k in
    t <- rd s jj ;;
    t <- for_ (jj + 1) (ii + 1) (fun j t => a <- rd h (jj + j * hd) ;; u <- rd s j ;; Ok (ssub t (smul a u))) t ;;
    d <- rd h (jj + jj * hd) ;;
    y <- divz t d ;; wr s jj y) s.

(** one cycle of the outer loop of lis_gmres, lines 186-333; Stop: the return inside the loop *)
Definition gmres_cycle (m : Z) (tol bnrm : T) (e : env') (iter : Z) (g : gst) : res (Z * Z * gst) :=
  let n := e_n e in
  let hd := m + 1 in let cs := (m + 1) * hd in let sn := (m + 2) * hd in
  let vr := fun k => 3 + k in let zr := fun _ : Z => 2 in
  v0 <- getv (g_W g) (vr 0) ;;
  LET rnorm := nrm2 n v0 in
  q <- divz s1 rnorm ;;
  W <- wr (g_W g) (vr 0) (Some (scale n q v0)) ;;
  s <- wr (set_all (m + 1) s0) 0 rnorm ;;
  ' (i, iter, g) <- inner (Datatypes.S (Z.to_nat (e_maxiter e))) m vr zr (fun a => smul a bnrm) tol e 0 iter (mkG W s (g_h g) (g_x g) (g_nrm g) (g_rh g)) ;;
  let ii := i - 1 in let h := g_h g in
  s <- back m ii h (g_s g) ;;
  v0 <- getv (g_W g) (vr 0) ;; y0 <- rd s 0 ;;
  W <- wr (g_W g) 2 (Some (scale n y0 v0)) ;;
  W <- for_ 1 (ii + 1) (fun j W =>
       y <- rd s j ;; vj <- getv W (vr j) ;; z <- getv W 2 ;; wr W 2 (Some (axpy n y vj z))) W ;;
  z <- getv W 2 ;;
  W <- wr W 1 (Some (e_psolve e iter z)) ;;
  r <- getv W 1 ;;
  LET x := axpy n s1 r (g_x g) in
  if match g_nrm g with Some nr => sleb nr tol | None => false end then Ok (LIS_SUCCESS, iter, mkG W s h x (g_nrm g) (g_rh g)) else
  s <- for_ 1 (i + 1) (fun j s =>
       let jj := i - j + 1 in
       c <- rd h (jj - 1 + cs) ;; sg <- rd h (jj - 1 + sn) ;;
       u <- rd s jj ;; s <- wr s (jj - 1) (smul (sopp sg) u) ;;
       u <- rd s jj ;; wr s jj (smul c u)) s ;;
  W <- for_ 0 (i + 1) (fun j W =>
       t <- rd s j ;;
       LET t := if j =? 0 then ssub t s1 else t in
       vj <- getv W (vr j) ;; v0 <- getv W (vr 0) ;; wr W (vr 0) (Some (axpy n t vj v0))) W ;;
  Ok (LIS_MAXITER, iter, mkG W s h x (g_nrm g) (g_rh g)).

(** one cycle of the outer loop of lis_fgmres, lines 1187-1309.  The second component is the
    local variables rnorm and bnrm2. *)
Definition fgmres_cycle (m : Z) (tol : T) (e : env') (iter : Z) (g : gst) (loc : T * T) : res (Z * Z * gst * (T * T)) :=
  let n := e_n e in
  let vr := fun k => m + 2 + k in let zr := fun k => 2 + k in
  let '(rnorm, bnrm2) := loc in
  v0 <- getv (g_W g) (vr 0) ;;
  W <- wr (g_W g) (vr 0) (Some (scale n bnrm2 v0)) ;;
  s <- wr (set_all (m + 1) s0) 0 rnorm ;;
  ' (i, iter, g) <- inner (Datatypes.S (Z.to_nat (e_maxiter e))) m vr zr (fun a => a) tol e 0 iter (mkG W s (g_h g) (g_x g) (g_nrm g) (g_rh g)) ;;
  let ii := i - 1 in let h := g_h g in
  s <- back m ii h (g_s g) ;;
  x <- for_ 0 (ii + 1) (fun j x => y <- rd s j ;; z <- getv (g_W g) (zr j) ;; Ok (axpy n y z x)) (g_x g) ;;
  let W := g_W g in
  if match g_nrm g with Some nr => sleb nr tol | None => false end then Ok (LIS_SUCCESS, iter, mkG W s h x (g_nrm g) (g_rh g), loc) else
  W <- wr W (vr 0) (Some (xpay n (e_b e) (sopp s1) (matvec n (e_E e) x))) ;;
  v0 <- getv W (vr 0) ;;
  LET rnorm := nrm2 n v0 in
  (* 1.0/0 is used only if there is another cycle *)
  if (seqb rnorm s0 && (iter <? e_maxiter e))%bool then Err DIV_BY_ZERO else
  Ok (LIS_MAXITER, iter, mkG W s h x (g_nrm g) (g_rh g), (rnorm, sdiv s1 rnorm)).

(** while( iter<maxiter ) { cycle }; solver->iter = iter+1 *)
Fixpoint outer {L} (fuel : nat) (maxiter : Z) (cycle : Z -> gst -> L -> res (Z * Z * gst * L)) (iter : Z) (g : gst) (l : L) : res sol :=
  if maxiter <=? iter then Ok (mkSol LIS_MAXITER (iter + 1) (g_nrm g) (g_x g) (g_rh g)) else
  match fuel with
  | O => Err OUT_OF_FUEL
  | Datatypes.S f =>
      ' (ret, iter, g, l) <- cycle iter g l ;;
      if ret =? LIS_SUCCESS then Ok (mkSol LIS_SUCCESS iter (g_nrm g) (g_x g) (g_rh g))
      else outer f maxiter cycle iter g l
  end.

(** lis_solver_gmres.c:135-341; work vectors are zero initially; [hm] is the malloc'ed h *)
Definition lis_gmres (m : Z) (hm : Z -> T) (e : env') (x : vec) (rh : list T) : res sol :=
  let n := e_n e in
  let W := tab (m + 5) (fun _ => Some (set_all n s0)) in
  let h := tab ((m + 2) * (m + 3)) hm in
  (* z = b - A x, v[0] = M^-1 z; get_initial_residual then overwrites v[0] *)
  z <- Ok (xpay n (e_b e) (sopp s1) (matvec n (e_E e) x)) ;;
  W <- wr W 2 (Some z) ;;
  W <- wr W 3 (Some (e_psolve e 0 z)) ;;
  let '(p, bnrm, tol, nr, ok) := get_initial_residual e x in
  if ok then Ok (mkSol LIS_SUCCESS 1 (Some nr) x rh) else
  W <- wr W 3 (Some p) ;;
  outer (Z.to_nat (e_maxiter e)) (e_maxiter e)
    (fun iter g (_ : unit) => ' (ret, iter, g) <- gmres_cycle m tol bnrm e iter g ;; Ok (ret, iter, g, tt)) 0 (mkG W [] h x None rh) tt.

(** lis_solver_gmres.c:1128-1321 *)
Definition lis_fgmres (m : Z) (hm : Z -> T) (e : env') (x : vec) (rh : list T) : res sol :=
  let n := e_n e in
  let W := tab (2 * m + 5) (fun _ => Some (set_all n s0)) in
  let h := tab ((m + 2) * (m + 3)) hm in
  let '(p, bnrm, tol, nr, ok) := get_initial_residual e x in
  if ok then Ok (mkSol LIS_SUCCESS 1 (Some nr) x rh) else
  W <- wr W (m + 2) (Some p) ;;
  rnorm <- divz s1 bnrm ;;
  outer (Z.to_nat (e_maxiter e)) (e_maxiter e) (fgmres_cycle m tol e) 0 (mkG W [] h x None rh) (rnorm, bnrm).
End M.
