(** Model of the solvers TFQMR (lis_solver_qmr.c), MINRES (lis_solver_minres.c), BiCGSTAB(l)
    (lis_solver_bicgstabl.c), IDR(s) and IDR(1) (lis_solver_idrs.c); conventions and
    simplifications as in Krylov.v.  In addition
    - the vectors filled by genrand_real1 are arbitrary ([rand]);
    - arrays from lis_malloc have arbitrary contents ([junk]) and every access is checked;
    - lis_minres destroys its work vectors on the LIS_MAXITER exit; lis_solver_work_destroy
      then skips them (lis_vector_destroy tests lis_is_malloc, Memory.v), so this is left out. *)
Require Import ZArith List Bool.
From Verif Require Import Base Scalar Spec Krylov Array.
Import ListNotations.
Open Scope Z_scope.

Section M.
Context {T : Type} {S : Scalar T}.
Notation env' := (env (T:=T)).
Notation vec := (vect (T:=T)).
Notation kst' := (kst (T:=T)).

(** ** TFQMR: lis_solver_qmr.c:113-293.  [tf_half m]: one pass of for(m=0;m<2;m++); zz is u or q *)
Record tst := mkT { t_rhoold : T; t_tau : T; t_wold : T; t_theta : T; t_eta : T }.
Definition tfqmr_start (e : env') (bnrm tol : T) (W : Z -> vec) : res ((Z -> vec) * tst) :=
  let n := e_n e in
  let r := 0 in let rtld := 1 in let u := 2 in let p := 3 in let d := 4 in let t := 5 in let v := 8 in
  LET W := upd W rtld (set_shadowresidual e (W r)) in
  LET W := upd W p (copy n (W r)) in
  LET W := upd W u (copy n (W r)) in
  LET W := upd W d (set_all n s0) in
  LET W := upd W t (e_psolve e 0 (W p)) in
  LET W := upd W v (matvec n (e_E e) (W t)) in
  LET rhoold := dot n (W r) (W rtld) in
  LET tau := nrm2 n (W r) in
  Ok (W, mkT rhoold tau tau s0 s0).
Definition tf_half (e : env') (bnrm tol : T) (iter : Z) (m : bool) (zz : Z) (ww alpha : T) (k : kst') (l : tst) : res (bool * kst' * tst) :=
  let n := e_n e in let d := 4 in let t1 := 6 in
  let W := k_W k in
  q <- divz (smul (smul (t_theta l) (t_theta l)) (t_eta l)) alpha ;;
  LET W := upd W d (xpay n (W zz) q (W d)) in
  theta <- divz ww (t_tau l) ;;
  c <- divz s1 (ssqrt (sadd s1 (smul theta theta))) ;;
  LET eta := smul (smul c c) alpha in
  LET tau := smul (smul (t_tau l) theta) c in
  LET W := upd W t1 (e_psolve e iter (W d)) in
  LET W := upd W X (axpy n eta (W t1) (W X)) in
  LET nr := smul (smul tau (ssqrt (if m then sadd s1 s1 else s1))) bnrm in
  rh <- (if negb m && e_mem e then wr (k_rh k) iter nr else Ok (k_rh k)) ;;
  Ok (sleb nr tol, mkK W (Some nr) rh, mkT (t_rhoold l) tau (t_wold l) theta eta).
Definition tfqmr_body (e : env') (bnrm tol : T) (iter : Z) (s : kst' * tst) : res (ctl (kst' * tst)) :=
  let n := e_n e in
  let r := 0 in let rtld := 1 in let u := 2 in let p := 3 in let t := 5 in let t1 := 6 in let q := 7 in let v := 8 in
  let '(k, l) := s in
  let W := k_W k in
  LET sv := dot n (W v) (W rtld) in
  if seqb sv s0 then Ok (Stop LIS_BREAKDOWN (k, l)) else
  alpha <- divz (t_rhoold l) sv ;;
  LET W := upd W q (axpyz n (sopp alpha) (W v) (W u)) in
  LET W := upd W t (axpyz n s1 (W u) (W q)) in
  LET W := upd W t1 (e_psolve e iter (W t)) in
  LET W := upd W v (matvec n (e_E e) (W t1)) in
  LET W := upd W r (axpy n (sopp alpha) (W v) (W r)) in
  LET w := nrm2 n (W r) in
  ' (stop, k, l) <- tf_half e bnrm tol iter false u (ssqrt (smul w (t_wold l))) alpha (mkK W (k_nrm k) (k_rh k)) l ;;
  if (stop : bool) then Ok (Stop LIS_SUCCESS (k, l)) else
  ' (stop, k, l) <- tf_half e bnrm tol iter true q w alpha k l ;;
  if (stop : bool) then Ok (Stop LIS_SUCCESS (k, l)) else
  let W := k_W k in
  LET rho := dot n (W r) (W rtld) in
  if seqb rho s0 then Ok (Stop LIS_BREAKDOWN (k, l)) else
  beta <- divz rho (t_rhoold l) ;;
  LET W := upd W u (axpyz n beta (W q) (W r)) in
  LET W := upd W p (xpay n (W q) beta (W p)) in
  LET W := upd W p (xpay n (W u) beta (W p)) in
  LET W := upd W t1 (e_psolve e iter (W p)) in
  LET W := upd W v (matvec n (e_E e) (W t1)) in
  Ok (Next (mkK W (k_nrm k) (k_rh k), mkT rho (t_tau l) w (t_theta l) (t_eta l))).
Definition lis_tfqmr (e : env') := solver e 0 (tfqmr_start e) (tfqmr_body e).

(** ** MINRES: lis_solver_minres.c:121-265.  It computes its own initial residual and never
    tests it. *)
Record mst := mkM { m_beta2 : T; m_gamma1 : T; m_gamma2 : T; m_sigma1 : T; m_sigma2 : T; m_eta : T; m_reuc : T }.
Definition minres_body (e : env') (r0_euc : T) (iter : Z) (s : kst' * mst) : res (ctl (kst' * mst)) :=
  let n := e_n e in
  let v1 := 0 in let v2 := 1 in let v3 := 2 in let v4 := 3 in let w0 := 4 in let w1 := 5 in let w2 := 6 in
  let '(k, l) := s in
  let W := k_W k in
  q <- divz s1 (m_beta2 l) ;;
  LET W := upd W v2 (scale n q (W v2)) in
  LET W := upd W v3 (matvec n (e_E e) (W v2)) in
  LET W := upd W v4 (e_psolve e iter (W v3)) in
  LET alpha := dot n (W v2) (W v4) in
  LET W := upd W v4 (axpy n (sopp alpha) (W v2) (W v4)) in
  LET W := upd W v4 (axpy n (sopp (m_beta2 l)) (W v1) (W v4)) in
  LET beta3 := nrm2 n (W v4) in
  LET delta := ssub (smul (m_gamma2 l) alpha) (smul (smul (m_gamma1 l) (m_sigma2 l)) (m_beta2 l)) in
  LET rho1 := ssqrt (sadd (smul delta delta) (smul beta3 beta3)) in
  LET rho2 := sadd (smul (m_sigma2 l) alpha) (smul (smul (m_gamma1 l) (m_gamma2 l)) (m_beta2 l)) in
  LET rho3 := smul (m_sigma1 l) (m_beta2 l) in
  gamma3 <- divz delta rho1 ;;
  sigma3 <- divz beta3 rho1 ;;
  LET W := upd W w2 (axpyz n (sopp rho3) (W w0) (W v2)) in
  LET W := upd W w2 (axpy n (sopp rho2) (W w1) (W w2)) in
  q <- divz s1 rho1 ;;
  LET W := upd W w2 (scale n q (W w2)) in
  LET W := upd W X (axpy n (smul gamma3 (m_eta l)) (W w2) (W X)) in
  LET reuc := smul (m_reuc l) (sabs sigma3) in
  nr <- divz reuc r0_euc ;;
  rh <- (if e_mem e then wr (k_rh k) iter nr else Ok (k_rh k)) ;;
  if sleb nr (e_tol e) then Ok (Stop LIS_SUCCESS (mkK W (Some nr) rh, l)) else
  LET eta := smul (m_eta l) (sopp sigma3) in
  LET W := upd W v1 (copy n (W v2)) in
  LET W := upd W v2 (copy n (W v4)) in
  LET W := upd W w0 (copy n (W w1)) in
  LET W := upd W w1 (copy n (W w2)) in
  Ok (Next (mkK W (Some nr) rh, mkM beta3 (m_gamma2 l) gamma3 (m_sigma2 l) sigma3 eta reuc)).
Definition lis_minres (e : env') (x : vec) (rh : list T) : res sol :=
  let n := e_n e in
  let v1 := 0 in let v2 := 1 in let v3 := 2 in let w0 := 4 in let w1 := 5 in
  LET W := upd (fun _ => set_all n s0) X x in
  LET W := upd W v2 (matvec n (e_E e) (W X)) in
  LET W := upd W v2 (xpay n (e_b e) (sopp s1) (W v2)) in
  LET W := upd W v3 (e_psolve e 0 (W v2)) in
  LET W := upd W v2 (copy n (W v3)) in
  LET r_euc := nrm2 n (W v2) in
  LET W := upd W v1 (set_all n s0) in
  LET W := upd W w0 (set_all n s0) in
  LET W := upd W w1 (set_all n s0) in
  nr <- divz r_euc r_euc ;;
  ' (ret, iter, (k, _)) <- iterate (Z.to_nat (e_maxiter e)) 1 (minres_body e r_euc)
      (mkK W (Some nr) rh, mkM r_euc s1 s1 s0 s0 r_euc r_euc) ;;
  Ok (mkSol ret iter (k_nrm k) (k_W k X) (k_rh k)).

(** ** loops with a return inside.  [repeat_]: while( iter<=maxiter ), iter is part of the state *)
Fixpoint for_ctl {A} (fuel : nat) (j : Z) (body : Z -> A -> res (ctl A)) (s : A) : res (ctl A) :=
  match fuel with
  | O => Ok (Next s)
  | Datatypes.S f => c <- body j s ;; match c with Next s => for_ctl f (j + 1) body s | Stop ret s => Ok (Stop ret s) end
  end.
Fixpoint repeat_ {A} (fuel : nat) (maxiter : Z) (iter : A -> Z) (body : A -> res (ctl A)) (s : A) : res (Z * A) :=
  match fuel with
  | O => Err OUT_OF_FUEL
  | Datatypes.S f =>
      if iter s <=? maxiter then
        c <- body s ;; match c with Next s => repeat_ f maxiter iter body s | Stop ret s => Ok (ret, s) end
      else Ok (LIS_MAXITER, s)
  end.

(** ** BiCGSTAB(l): lis_solver_bicgstabl.c:123-399.  rtld, xp, bp, t are work[0..3], r[i] is
    work[4+i], u[i] is work[l+5+i], 0 <= i <= l. *)
Record bst := mkB { b_k : kst'; b_iter : Z; b_alpha : T; b_omega : T; b_rho0 : T;
  b_tau : list T; b_g : list T; b_g1 : list T; b_g2 : list T; b_sg : list T }.
Definition blr (i : Z) : Z := 4 + i.
Definition blu (l i : Z) : Z := l + 5 + i.
(** x = M^-1 x + xp, on every return inside the loops *)
Definition bl_exit (e : env') (iter : Z) (W : Z -> vec) : Z -> vec :=
  let n := e_n e in let xp := 1 in let t := 3 in
  LET W := upd W t (e_psolve e iter (W X)) in
  LET W := upd W X (copy n (W t)) in
  upd W X (axpy n s1 (W xp) (W X)).
Definition bl_ret (ret : Z) (e : env') (W : Z -> vec) (nrm : option T) (rh : list T) (s : bst) (iter : Z) : res (ctl bst) :=
  Ok (Stop ret (mkB (mkK (bl_exit e iter W) nrm rh) iter (b_alpha s) (b_omega s) (b_rho0 s) (b_tau s) (b_g s) (b_g1 s) (b_g2 s) (b_sg s))).
(** lines 195-292: step j of the BiCG part *)
Definition bl_step (l : Z) (e : env') (bnrm tol : T) (j : Z) (s : bst) : res (ctl bst) :=
  let n := e_n e in let rtld := 0 in let t := 3 in
  let k := b_k s in let W := k_W k in
  let iter := b_iter s + 1 in
  LET rho1 := dot n (W rtld) (W (blr j)) in
  if seqb rho1 s0 then bl_ret LIS_BREAKDOWN e W (k_nrm k) (k_rh k) s iter else
  q <- divz rho1 (b_rho0 s) ;;
  LET beta := smul (b_alpha s) q in
  W <- for_ 0 (j + 1) (fun i W => Ok (upd W (blu l i) (xpay n (W (blr i)) (sopp beta) (W (blu l i))))) W ;;
  LET W := upd W t (e_psolve e iter (W (blu l j))) in
  LET W := upd W (blu l (j + 1)) (matvec n (e_E e) (W t)) in
  LET nu := dot n (W rtld) (W (blu l (j + 1))) in
  if seqb nu s0 then bl_ret LIS_BREAKDOWN e W (k_nrm k) (k_rh k) s iter else
  alpha <- divz rho1 nu ;;
  LET W := upd W X (axpy n alpha (W (blu l 0)) (W X)) in
  W <- for_ 0 (j + 1) (fun i W => Ok (upd W (blr i) (axpy n (sopp alpha) (W (blu l (i + 1))) (W (blr i))))) W ;;
  LET nr := get_residual e bnrm (W (blr 0)) in
  rh <- (if e_mem e && (negb (iter mod l =? 0) || sleb nr tol) then wr (k_rh k) iter nr else Ok (k_rh k)) ;;
  if sleb nr tol then bl_ret LIS_SUCCESS e W (Some nr) rh s iter else
  LET W := upd W t (e_psolve e iter (W (blr j))) in
  LET W := upd W (blr (j + 1)) (matvec n (e_E e) (W t)) in
  Ok (Next (mkB (mkK W (Some nr) rh) iter alpha (b_omega s) rho1 (b_tau s) (b_g s) (b_g1 s) (b_g2 s) (b_sg s))).
(** lines 301-313 *)
Definition bl_orth (l : Z) (e : env') (s : bst) : res bst :=
  let n := e_n e in
  for_ 1 (l + 1) (fun j s =>
    s <- for_ 1 j (fun i s =>
      let k := b_k s in let W := k_W k in
      LET nu := dot n (W (blr j)) (W (blr i)) in
      sg <- rd (b_sg s) i ;;
      nu <- divz nu sg ;;
      tau <- wr (b_tau s) (i * (l + 1) + j) nu ;;
      LET W := upd W (blr j) (axpy n (sopp nu) (W (blr i)) (W (blr j))) in
      Ok (mkB (mkK W (k_nrm k) (k_rh k)) (b_iter s) (b_alpha s) (b_omega s) (b_rho0 s) tau (b_g s) (b_g1 s) (b_g2 s) (b_sg s))) s ;;
    let W := k_W (b_k s) in
    LET a := dot n (W (blr j)) (W (blr j)) in
    sg <- wr (b_sg s) j a ;;
    LET nu := dot n (W (blr 0)) (W (blr j)) in
    a <- rd sg j ;;
    nu <- divz nu a ;;
    g1 <- wr (b_g1 s) j nu ;;
    Ok (mkB (b_k s) (b_iter s) (b_alpha s) (b_omega s) (b_rho0 s) (b_tau s) (b_g s) g1 (b_g2 s) sg)) s.
(** lines 315-334: gamma, omega, gamma2 *)
Definition bl_gamma (l : Z) (tau g1 g g2 : list T) : res (list T * list T * T) :=
  let z := l + 1 in
  a <- rd g1 l ;; g <- wr g l a ;; omega <- rd g l ;;
  g <- for_down (l - 1) 1 (fun j g =>
    nu <- for_ (j + 1) (l + 1) (fun i nu => a <- rd tau (j * z + i) ;; b <- rd g i ;; Ok (sadd nu (smul a b))) s0 ;;
    a <- rd g1 j ;; wr g j (ssub a nu)) g ;;
  g2 <- for_ 1 l (fun j g2 =>
    nu <- for_ (j + 1) l (fun i nu => a <- rd tau (j * z + i) ;; b <- rd g (i + 1) ;; Ok (sadd nu (smul a b))) s0 ;;
    a <- rd g (j + 1) ;; wr g2 j (sadd a nu)) g2 ;;
  Ok (g, g2, omega).
(** one pass of the while loop, lines 187-369 *)
Definition bl_pass (l : Z) (e : env') (bnrm tol : T) (s : bst) : res (ctl bst) :=
  let n := e_n e in
  let s := mkB (b_k s) (b_iter s) (b_alpha s) (b_omega s) (smul (sopp (b_omega s)) (b_rho0 s)) (b_tau s) (b_g s) (b_g1 s) (b_g2 s) (b_sg s) in
  c <- for_ctl (Z.to_nat l) 0 (bl_step l e bnrm tol) s ;;
  match c with
  | Stop ret s => Ok (Stop ret s)
  | Next s =>
    s <- bl_orth l e s ;;
    ' (g, g2, omega) <- bl_gamma l (b_tau s) (b_g1 s) (b_g s) (b_g2 s) ;;
    let k := b_k s in let W := k_W k in let g1 := b_g1 s in
    a <- rd g 1 ;; LET W := upd W X (axpy n a (W (blr 0)) (W X)) in
    a <- rd g1 l ;; LET W := upd W (blr 0) (axpy n (sopp a) (W (blr l)) (W (blr 0))) in
    a <- rd g l ;; LET W := upd W (blu l 0) (axpy n (sopp a) (W (blu l l)) (W (blu l 0))) in
    W <- for_ 1 l (fun j W =>
      a <- rd g j ;; LET W := upd W (blu l 0) (axpy n (sopp a) (W (blu l j)) (W (blu l 0))) in
      a <- rd g2 j ;; LET W := upd W X (axpy n a (W (blr j)) (W X)) in
      a <- rd g1 j ;; LET W := upd W (blr 0) (axpy n (sopp a) (W (blr j)) (W (blr 0))) in
      Ok W) W ;;
    LET nr := get_residual e bnrm (W (blr 0)) in
    rh <- (if e_mem e then wr (k_rh k) (b_iter s) nr else Ok (k_rh k)) ;;
    let s' := fun W => mkB (mkK W (Some nr) rh) (b_iter s) (b_alpha s) omega (b_rho0 s) (b_tau s) g g1 g2 (b_sg s) in
    if sleb nr tol then Ok (Stop LIS_SUCCESS (s' (bl_exit e (b_iter s) W))) else Ok (Next (s' W))
  end.
Definition lis_bicgstabl (l : Z) (junk : Z -> T) (e : env') (x : vec) (rh : list T) : res sol :=
  let n := e_n e in let rtld := 0 in let xp := 1 in let bp := 2 in
  let '(p, bnrm, tol, nr, ok) := get_initial_residual e x in
  if ok then Ok (mkSol LIS_SUCCESS 1 (Some nr) x rh) else
  LET W := upd (upd (fun _ => set_all n s0) X x) (blr 0) p in
  LET W := upd W rtld (set_shadowresidual e (W (blr 0))) in
  LET W := upd W bp (copy n (W (blr 0))) in
  LET W := upd W xp (copy n (W X)) in
  LET W := upd W (blu l 0) (set_all n s0) in
  let z := l + 1 in
  ' (ret, s) <- repeat_ (Z.to_nat (e_maxiter e + 2)) (e_maxiter e) b_iter (bl_pass l e bnrm tol)
      (mkB (mkK W None rh) 0 s0 s1 s1 (tab (z * z) junk) (tab z junk) (tab z junk) (tab z junk) (tab z junk)) ;;
  Ok (mkSol ret (b_iter s) (k_nrm (b_k s)) (k_W (b_k s) X) (k_rh (b_k s))).

(** ** IDR(s): lis_solver_idrs.c:70-113, 205-222, 526-780.  Work vectors r,t,v,av, then
    dX[0..s-1], P[0..s-1], dR[0..s-1]; [need] is the access work[k]. *)
Definition need (len k : Z) : res unit := if (0 <=? k) && (k <? len) then Ok tt else UB.
(** lis_idrs_orth, 205-222; [P k] is the register of P[k] *)
Definition idrs_orth (n s : Z) (P : Z -> Z) (W : Z -> vec) : res (Z -> vec) :=
  for_ 0 s (fun j W =>
    q <- divz s1 (nrm2 n (W (P j))) ;;
    LET W := upd W (P j) (scale n q (W (P j))) in
    for_ (j + 1) s (fun i W =>
      LET d := dot n (W (P j)) (W (P i)) in
      Ok (upd W (P i) (axpy n (sopp d) (W (P j)) (W (P i))))) W) W.
(** om*av[i] - sum dX[j][i]*c[j], in the order of the loop *)
Definition combine (n s : Z) (om : T) (a : vec) (D : Z -> vec) (c : list T) : vec :=
  tab n (fun i => fold_left (fun h j => ssub h (smul (at_ (D j) i) (znth s0 c j))) (zrange 0 s) (smul om (at_ a i))).
Record ist := mkI { i_k : kst'; i_iter : Z; i_old : Z; i_om : T; i_M : list T; i_m : list T; i_c : list T; i_MM : list T }.
(** lines 591-645: the first s steps, k = 0 .. s-1.  om is not read before it is set. *)
Definition idrs_first (s : Z) (e : env') (bnrm tol : T) (kk : Z) (st : ist) : res (ctl ist) :=
  let n := e_n e in
  let r := 0 in let dX := fun j => 4 + j in let P := fun j => 4 + s + j in let dR := fun j => 4 + 2 * s + j in
  let k := i_k st in let W := k_W k in
  LET W := upd W (dX kk) (e_psolve e 0 (W r)) in
  LET W := upd W (dR kk) (matvec n (e_E e) (W (dX kk))) in
  LET h := dot n (W (dR kk)) (W (dR kk)) in
  LET om := dot n (W (dR kk)) (W r) in
  om <- divz om h ;;
  LET W := upd W (dX kk) (scale n om (W (dX kk))) in
  LET W := upd W (dR kk) (scale n (sopp om) (W (dR kk))) in
  LET W := upd W X (axpy n s1 (W (dX kk)) (W X)) in
  LET W := upd W r (axpy n s1 (W (dR kk)) (W r)) in
  LET nr := get_residual e bnrm (W r) in
  rh <- (if e_mem e then wr (k_rh k) (kk + 1) nr else Ok (k_rh k)) ;;
  if sleb nr tol then Ok (Stop LIS_SUCCESS (mkI (mkK W (Some nr) rh) (kk + 1) (i_old st) om (i_M st) (i_m st) (i_c st) (i_MM st))) else
  M <- for_ 0 s (fun i M => wr M (kk * s + i) (dot n (W (P i)) (W (dR kk)))) (i_M st) ;;
  Ok (Next (mkI (mkK W (Some nr) rh) (i_iter st) (i_old st) om M (i_m st) (i_c st) (i_MM st))).
(** lines 654-770: one pass of the while loop *)
Definition idrs_pass (len s : Z) (e : env') (bnrm tol : T) (st : ist) : res (ctl ist) :=
  let n := e_n e in
  let r := 0 in let t := 1 in let v := 2 in let av := 3 in
  let dX := fun j => 4 + j in let P := fun j => 4 + s + j in let dR := fun j => 4 + 2 * s + j in
  let k := i_k st in let W := k_W k in let old := i_old st in let iter := i_iter st in
  ' (c, MM) <- lis_array_solve s (i_M st) (i_m st) (i_c st) (i_MM st) ;;
  LET W := upd W v (copy n (W r)) in
  W <- for_ 0 s (fun j W => a <- rd c j ;; Ok (upd W v (axpy n (sopp a) (W (dR j)) (W v)))) W ;;
  ' (W, om) <- (if iter mod (s + 1) =? s then
      LET W := upd W av (e_psolve e iter (W v)) in
      LET W := upd W t (matvec n (e_E e) (W av)) in
      LET h := dot n (W t) (W t) in
      LET om := dot n (W t) (W v) in
      om <- divz om h ;;
      _ <- need len (dX old) ;;
      LET W := upd W (dX old) (combine n s om (W av) (fun j => W (dX j)) c) in
      _ <- need len (dR old) ;;
      LET W := upd W (dR old) (combine n s (sopp om) (W t) (fun j => W (dR j)) c) in
      Ok (W, om)
    else
      LET W := upd W av (e_psolve e iter (W v)) in
      _ <- need len (dX old) ;;
      LET W := upd W (dX old) (combine n s (i_om st) (W av) (fun j => W (dX j)) c) in
      _ <- need len (dR old) ;;
      LET W := upd W (dR old) (matvec n (e_E e) (W (dX old))) in
      LET W := upd W (dR old) (scale n (sopp s1) (W (dR old))) in
      Ok (W, i_om st)) ;;
  LET W := upd W r (axpy n s1 (W (dR old)) (W r)) in
  LET W := upd W X (axpy n s1 (W (dX old)) (W X)) in
  let iter := iter + 1 in
  LET nr := get_residual e bnrm (W r) in
  rh <- (if e_mem e then wr (k_rh k) iter nr else Ok (k_rh k)) ;;
  if sleb nr tol then Ok (Stop LIS_SUCCESS (mkI (mkK W (Some nr) rh) iter old om (i_M st) (i_m st) c MM)) else
  ' (M, m) <- for_ 0 s (fun i '(M, m) =>
      LET h := dot n (W (P i)) (W (dR old)) in
      a <- rd m i ;; m <- wr m i (sadd a h) ;; M <- wr M (old * s + i) h ;; Ok (M, m)) (i_M st, i_m st) ;;
  Ok (Next (mkI (mkK W (Some nr) rh) iter (if old + 1 =? s then 0 else old + 1) om M m c MM)).
Definition lis_idrs (s : Z) (rand junk : Z -> T) (e : env') (x : vec) (rh : list T) : res sol :=
  let n := e_n e in
  let r := 0 in let P := fun j => 4 + s + j in
  let len := 4 + 3 * s in
  if len <? 0 then Err LIS_ERR_OUT_OF_MEMORY else
  _ <- need len 3 ;;
  let '(p, bnrm, tol, nr, ok) := get_initial_residual e x in
  if ok then Ok (mkSol LIS_SUCCESS 1 (Some nr) x rh) else
  LET W := upd (upd (fun _ => set_all n s0) X x) r p in
  W <- for_ 0 s (fun k W => Ok (upd W (P k) (tab n (fun i => rand (k * n + i))))) W ;;
  W <- idrs_orth n s P W ;;
  c <- for_ctl (Z.to_nat s) 0 (idrs_first s e bnrm tol)
      (mkI (mkK W None rh) s 0 (junk 0) (tab (s * s) junk) (tab s junk) (tab s junk) (tab (s * s) junk)) ;;
  ' (ret, st) <- (match c with
    | Stop ret st => Ok (ret, st)
    | Next st =>
      let W := k_W (i_k st) in
      m <- for_ 0 s (fun i m => wr m i (dot n (W (P i)) (W r))) (i_m st) ;;
      repeat_ (Z.to_nat (e_maxiter e + 2)) (e_maxiter e) i_iter (idrs_pass len s e bnrm tol)
        (mkI (i_k st) (i_iter st) (i_old st) (i_om st) (i_M st) m (i_c st) (i_MM st))
    end) ;;
  Ok (mkSol ret (i_iter st) (k_nrm (i_k st)) (k_W (i_k st) X) (k_rh (i_k st))).

(** ** IDR(1): lis_solver_idrs.c:129-182, 226-520.  work[4] is P[0], work[5] dX[0], work[6] dR[0];
    the number of work vectors still comes from options[IDRS_RESTART]. *)
Record jst := mkJ { j_k : kst'; j_iter : Z; j_om : T; j_M : T; j_m : T }.
(** the common part of the two halves of a pass: r += dR, x += dX, iter++, convergence test,
    h = <P,dR>, m += h, M = h (392-433 and 467-505) *)
Definition idr1_check (e : env') (bnrm tol : T) (W : Z -> vec) (om : T) (st : jst) : res (ctl jst) :=
  let n := e_n e in
  let r := 0 in let P := 4 in let dX := 5 in let dR := 6 in
  let k := j_k st in
  LET W := upd W r (axpy n s1 (W dR) (W r)) in
  LET W := upd W X (axpy n s1 (W dX) (W X)) in
  let iter := j_iter st + 1 in
  LET nr := get_residual e bnrm (W r) in
  rh <- (if e_mem e then wr (k_rh k) iter nr else Ok (k_rh k)) ;;
  if sleb nr tol then Ok (Stop LIS_SUCCESS (mkJ (mkK W (Some nr) rh) iter om (j_M st) (j_m st))) else
  LET h := dot n (W P) (W dR) in
  Ok (Next (mkJ (mkK W (Some nr) rh) iter om h (sadd (j_m st) h))).
(** h = t[0]*v[0]; for(i=1;i<n;i++) h += t[i]*v[i];  *)
Definition plain_dot (n : Z) (a b : vec) : res T :=
  x <- rd a 0 ;; y <- rd b 0 ;;
  for_ 1 n (fun i h => x <- rd a i ;; y <- rd b i ;; Ok (sadd h (smul x y))) (smul x y).
Definition idr1_pass (e : env') (bnrm tol : T) (st : jst) : res (ctl jst) :=
  let n := e_n e in
  let r := 0 in let t := 1 in let v := 2 in let av := 3 in let dX := 5 in let dR := 6 in
  let W := k_W (j_k st) in let iter := j_iter st in
  c <- divz (j_m st) (j_M st) ;;
  LET W := upd W v (axpy n (sopp c) (W dR) (W r)) in
  LET W := upd W av (e_psolve e iter (W v)) in
  LET W := upd W t (matvec n (e_E e) (W av)) in
  h <- plain_dot n (W t) (W t) ;;
  om <- plain_dot n (W t) (W v) ;;
  om <- divz om h ;;
  LET W := upd W dX (tab n (fun i => ssub (smul om (at_ (W av) i)) (smul (at_ (W dX) i) c))) in
  LET W := upd W dR (tab n (fun i => ssub (smul (sopp om) (at_ (W t) i)) (smul (at_ (W dR) i) c))) in
  x <- idr1_check e bnrm tol W om st ;;
  match x with
  | Stop ret st => Ok (Stop ret st)
  | Next st =>
    let W := k_W (j_k st) in
    c <- divz (j_m st) (j_M st) ;;
    LET W := upd W v (axpy n (sopp c) (W dR) (W r)) in
    LET W := upd W av (e_psolve e (iter + 1) (W v)) in
    LET W := upd W dX (tab n (fun i => ssub (smul om (at_ (W av) i)) (smul (at_ (W dX) i) c))) in
    LET W := upd W dR (matvec n (e_E e) (W dX)) in
    LET W := upd W dR (scale n (sopp s1) (W dR)) in
    idr1_check e bnrm tol W om st
  end.
Definition lis_idr1 (s : Z) (rand : Z -> T) (e : env') (x : vec) (rh : list T) : res sol :=
  let n := e_n e in
  let r := 0 in let P := 4 in let dX := 5 in let dR := 6 in
  let len := 4 + 3 * s in
  if len <? 0 then Err LIS_ERR_OUT_OF_MEMORY else
  _ <- need len 3 ;;
  let '(p, bnrm, tol, nr, ok) := get_initial_residual e x in
  if ok then Ok (mkSol LIS_SUCCESS 1 (Some nr) x rh) else
  LET W := upd (upd (fun _ => set_all n s0) X x) r p in
  _ <- need len P ;;
  LET W := upd W P (tab n rand) in
  W <- idrs_orth n 1 (fun j => P + j) W ;;
  _ <- need len dR ;;
  LET W := upd W dX (e_psolve e 0 (W r)) in
  LET W := upd W dR (matvec n (e_E e) (W dX)) in
  LET h := dot n (W dR) (W dR) in
  LET om := dot n (W dR) (W r) in
  om <- divz om h ;;
  LET W := upd W dX (scale n om (W dX)) in
  LET W := upd W dR (scale n (sopp om) (W dR)) in
  LET W := upd W X (axpy n s1 (W dX) (W X)) in
  LET W := upd W r (axpy n s1 (W dR) (W r)) in
  LET nr := get_residual e bnrm (W r) in
  rh <- (if e_mem e then wr rh 1 nr else Ok rh) ;;
  if sleb nr tol then Ok (mkSol LIS_SUCCESS 1 (Some nr) (W X) rh) else
  ' (ret, st) <- repeat_ (Z.to_nat (e_maxiter e + 2)) (e_maxiter e) j_iter (idr1_pass e bnrm tol)
      (mkJ (mkK W (Some nr) rh) 1 om (dot n (W P) (W dR)) (dot n (W P) (W r))) ;;
  Ok (mkSol ret (j_iter st) (k_nrm (j_k st)) (k_W (j_k st) X) (k_rh (j_k st))).
End M.
