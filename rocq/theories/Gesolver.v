(** Model of the eigensolvers for the generalized problem A x = lambda B x on one process, real
    arithmetic: lis_egpi, lis_egii, lis_egrqi, lis_egcg, lis_egcr.  Conventions as in Esolver.v;
    moreover
    - lis_matrix_shift_matrix(A,B,sigma) replaces the coefficients of A by those of A - sigma B,
      which is what it does for a CSR matrix A (C63_shift_matrix_csr; for every other format it
      does nothing, C63_shift_matrix_refuted).
    - the square root of a negative number (NaN from there on) ends the run with [Err DIV_BY_ZERO].
    - simplification: screen output, timing and the creation of the preconditioner are left out. *)
Require Import ZArith List Bool.
From Verif Require Import Base Scalar Spec Krylov Esolver.
Import ListNotations.
Open Scope Z_scope.

Section M.
Context {T : Type} {S : Scalar T}.

(** lis_matrix_shift_matrix on a CSR matrix, lis_matrix_ops.c:833-858: A - sigma B *)
Definition gshift (n : Z) (sigma : T) (E F : list (entry T)) : list (entry T) :=
  flat_map (fun i => map (fun j => (i, j, ssub (coef E i j) (smul sigma (coef F i j)))) (zrange 0 n)) (zrange 0 n).
(** if ( oshift != 0.0 ) lis_matrix_shift_matrix(A, B, oshift) *)
Definition do_gshift (n : Z) (sigma : T) (E F : list (entry T)) : list (entry T) := if seqb sigma s0 then E else gshift n sigma E F.
Definition undo_gshift (n : Z) (sigma : T) (E F : list (entry T)) : list (entry T) := if seqb sigma s0 then E else gshift n (sopp sigma) E F.
(** eta = sqrt(eta) *)
Definition sqrtz (a : T) : res T := if sleb s0 a then Ok (ssqrt a) else Err DIV_BY_ZERO.

(** ** Generalized power iteration: lis_egpi, lis_esolver_pi.c:305-475.  E: A - sigma B *)
Definition egpi_body (e : eenv T) (E F : list (entry T)) (iter : Z) (s : pst (T:=T)) : res (ector (pst (T:=T))) :=
  let n := ee_n e in let '(v, theta, resid, rh) := s in
  v <- normalize n v ;;
  let w := matvec n E v in
  eta <- sqrtz (dot n v w) ;;
  c <- divz s1 eta ;;
  let v := scale n c v in
  let w := scale n c w in
  let '(err, y) := ee_solve e iter F w in
  if negb (err =? 0) then Ok (EFail err (v, theta, resid, rh))
  else
    let theta := dot n w y in
    let q := axpyz n (sopp theta) v y in
    resid <- divz (nrm2 n q) (sabs theta) ;;
    rh <- history e iter resid rh ;;
    let s := (copy n y, Some theta, Some resid, rh) in
    Ok (if sleb resid (ee_tol e) then EStop s else ENext s).
Definition egpi (e : eenv T) (E0 F : list (entry T)) (x : list T) (rh : list T) : res (eout T) :=
  let n := ee_n e in
  let v := if ee_ones e then set_all n s1 else x in
  let sigma := oshift e in
  let E := do_gshift n sigma E0 F in
  ' (fail, ret, iter, (v, theta, resid, rh)) <- eiterate (Z.to_nat (ee_maxiter e)) 0 (egpi_body e E F) (v, None, None, rh) ;;
  if (fail : bool) then Ok (mkEO ret None None None v rh E)    (* return err; *)
  else
    resid <- get resid ;; theta <- get theta ;;
    v <- normalize n v ;;
    Ok (mkEO ret (Some iter) (Some resid) (Some (sadd theta sigma)) v rh (undo_gshift n sigma E F)).

(** ** Generalized inverse iteration: lis_egii, lis_esolver_ii.c:357-525 *)
Definition egii_body (e : eenv T) (E F : list (entry T)) (iter : Z) (s : pst (T:=T)) : res (ector (pst (T:=T))) :=
  let n := ee_n e in let '(v, theta, resid, rh) := s in
  v <- normalize n v ;;
  let w := matvec n F v in
  eta <- sqrtz (dot n w v) ;;
  c <- divz s1 eta ;;
  let v := scale n c v in
  let w := scale n c w in
  let '(err, y) := ee_solve e iter E w in
  if negb (err =? 0) then Ok (EFail err (v, theta, resid, rh))
  else
    let theta := dot n w y in
    let q := axpyz n (sopp theta) v y in
    resid <- divz (nrm2 n q) (sabs theta) ;;
    rh <- history e iter resid rh ;;
    let s := (copy n y, Some theta, Some resid, rh) in
    Ok (if sleb resid (ee_tol e) then EStop s else ENext s).
Definition egii (e : eenv T) (E0 F : list (entry T)) (x : list T) (rh : list T) : res (eout T) :=
  let n := ee_n e in
  let v := if ee_ones e then set_all n s1 else x in
  let sigma := oshift e in
  let E := do_gshift n sigma E0 F in
  ' (fail, ret, iter, (v, theta, resid, rh)) <- eiterate (Z.to_nat (ee_maxiter e)) 0 (egii_body e E F) (v, None, None, rh) ;;
  if (fail : bool) then Ok (mkEO ret None None None v rh E)
  else
    resid <- get resid ;; theta <- get theta ;;
    ev <- divz s1 theta ;;
    v <- normalize n v ;;
    Ok (mkEO ret (Some iter) (Some resid) (Some (sadd ev sigma)) v rh (undo_gshift n sigma E F)).

(** ** Generalized Rayleigh quotient iteration: lis_egrqi, lis_esolver_rqi.c:350-505.
    v, w, A, rho, resid, rhistory *)
Record gst := mkG { g_v : list T; g_w : list T; g_E : list (entry T); g_rho : T; g_resid : option T; g_rh : list T }.
Definition egrqi_body (e : eenv T) (F : list (entry T)) (iter : Z) (s : gst) : res (ector gst) :=
  let n := ee_n e in let w := g_w s in let rho := g_rho s in
  let E1 := gshift n rho (g_E s) F in
  let '(err, y) := ee_solve e iter E1 w in
  if negb (err =? 0) then Ok (EFail err (mkG (g_v s) w E1 rho (g_resid s) (g_rh s)))
  else
    let E2 := gshift n (sopp rho) E1 F in
    let theta := dot n w y in
    let w := matvec n F y in
    eta <- sqrtz (dot n w y) ;;
    c <- divz s1 eta ;;
    let y := scale n c y in
    let v := copy n y in
    let w := scale n c w in
    dr <- divz theta (smul eta eta) ;;
    let rho := sadd rho dr in
    resid <- divz s1 (sabs theta) ;;
    rh <- history e iter resid (g_rh s) ;;
    let s := mkG v w E2 rho (Some resid) rh in
    Ok (if sleb resid (ee_tol e) then EStop s else ENext s).
Definition egrqi (e : eenv T) (E0 F : list (entry T)) (x : list T) (rh : list T) : res (eout T) :=
  let n := ee_n e in
  let v := if ee_ones e then set_all n s1 else x in
  v <- normalize n v ;;
  let w := matvec n F v in
  rho <- divz (dot n w (matvec n E0 v)) (dot n w w) ;;
  ' (fail, ret, iter, s) <- eiterate (Z.to_nat (ee_maxiter e)) 0 (egrqi_body e F) (mkG v w E0 rho None rh) ;;
  if (fail : bool) then Ok (mkEO ret None None None (g_v s) (g_rh s) (g_E s))
  else
    resid <- get (g_resid s) ;;
    v <- normalize n (g_v s) ;;
    Ok (mkEO ret (Some iter) (Some resid) (Some (g_rho s)) v (g_rh s) (g_E s)).

(** ** Generalized conjugate gradient: lis_egcg, lis_esolver_cg.c:442-697.  As in Esolver.ecg the
    eigenproblem of size 3 (lines 606-620) is an arbitrary function [small]. *)
Record gcst := mkGC { gc_x : list T; gc_p : list T; gc_Ax : list T; gc_Ap : list T; gc_Bx : list T; gc_Bp : list T; gc_lambda : option T; gc_resid : option T; gc_rh : list T }.
Definition egcg_body (small : list T -> list T -> T * T * T) (e : eenv T) (E F : list (entry T)) (iter : Z) (s : gcst) : res (ector gcst) :=
  let n := ee_n e in let x := gc_x s in let p := gc_p s in let Ax := gc_Ax s in let Ap := gc_Ap s in let Bx := gc_Bx s in let Bp := gc_Bp s in
  lambda <- divz (dot n Ax Bx) (dot n Bx Bx) ;;
  m <- divz (sopp s1) lambda ;;
  let r := axpyz n m Ax Bx in
  let resid := nrm2 n r in
  rh <- history e iter resid (gc_rh s) ;;
  if negb (sleb (ee_tol e) resid) then Ok (EStop (mkGC x p Ax Ap Bx Bp (Some lambda) (Some resid) rh))     (* resid<tol *)
  else
    w <- normalize n (ee_psolve e iter r) ;;
    let Aw := matvec n E w in
    let Bw := matvec n F w in
    let A3 := [dot n w Aw; dot n x Aw; dot n p Aw; dot n x Aw; dot n x Ax; dot n p Ax; dot n p Aw; dot n p Ax; dot n p Ap] in
    let B3 := [dot n w Bw; dot n x Bw; dot n p Bw; dot n x Bw; dot n x Bx; dot n p Bx; dot n p Bw; dot n p Bx; dot n p Bp] in
    let '(v0, v1, v2) := small A3 B3 in
    let Bw := scale n v0 Bw in let Bw := axpy n v2 Bp Bw in
    let Bx := xpay n Bw v1 Bx in let Bp := copy n Bw in
    let Aw := scale n v0 Aw in let Aw := axpy n v2 Ap Aw in
    let Ax := xpay n Aw v1 Ax in let Ap := copy n Aw in
    c <- divz s1 (nrm2 n x) ;;
    let x := scale n c x in let Ax := scale n c Ax in let Bx := scale n c Bx in
    c <- divz s1 (nrm2 n p) ;;
    let p := scale n c p in let Ap := scale n c Ap in let Bp := scale n c Bp in
    Ok (ENext (mkGC x p Ax Ap Bx Bp (Some lambda) (Some resid) rh)).
Definition egcg (small : list T -> list T -> T * T * T) (e : eenv T) (E0 F : list (entry T)) (x : list T) (rh : list T) : res (eout T) :=
  let n := ee_n e in
  let x := if ee_ones e then set_all n s1 else x in
  let sigma := oshift e in
  let E := do_gshift n sigma E0 F in
  x <- normalize n x ;;
  let Ax := matvec n E x in
  let Bx := matvec n F x in
  let '(err, p) := ee_solve e 0 E x in
  if negb (err =? 0) then Ok (mkEO err None None None x rh E)
  else
    let Ap := copy n x in
    let Bp := matvec n F p in
    ' (fail, ret, iter, s) <- eiterate (Z.to_nat (ee_maxiter e)) 0 (egcg_body small e E F) (mkGC x p Ax Ap Bx Bp None None rh) ;;
    resid <- get (gc_resid s) ;; lambda <- get (gc_lambda s) ;;
    Ok (mkEO ret (Some iter) (Some resid) (Some (sadd lambda sigma)) (gc_x s) (gc_rh s) (undo_gshift n sigma E F)).

(** ** Generalized conjugate residual: lis_egcr, lis_esolver_cg.c:1063-1273 *)
Record gdst := mkGD { gd_x : list T; gd_p : list T; gd_r : list T; gd_Ap : list T; gd_Bp : list T; gd_lambda : T; gd_resid : option T; gd_rh : list T }.
Definition egcr_body (e : eenv T) (E F : list (entry T)) (iter : Z) (s : gdst) : res (ector gdst) :=
  let n := ee_n e in let x := gd_x s in let p := gd_p s in let r := gd_r s in let Ap := gd_Ap s in let Bp := gd_Bp s in let lambda := gd_lambda s in
  let two := sadd s1 s1 in
  let ApAp := dot n Ap Ap in let ApBp := dot n Ap Bp in let BpBp := dot n Bp Bp in
  alpha <- divz (ssub (dot n r Ap) (smul lambda (dot n r Bp))) (sadd (ssub ApAp (smul (smul two lambda) ApBp)) (smul (smul lambda lambda) BpBp)) ;;
  let x := axpy n alpha p x in
  let Ax := matvec n E x in
  let Bx := matvec n F x in
  lambda <- divz (dot n Ax Bx) (dot n Bx Bx) ;;
  let r := scale n (sopp s1) (axpyz n (sopp lambda) Bx Ax) in
  let w := ee_psolve e iter r in
  let Aw := matvec n E w in
  let Bw := matvec n F w in
  beta <- divz (sopp (sadd (ssub (dot n Aw Ap) (smul lambda (sadd (dot n Aw Bp) (dot n Ap Bw)))) (smul (smul lambda lambda) (dot n Bw Bp))))
               (sadd (ssub ApAp (smul (smul two lambda) ApBp)) (smul (smul lambda lambda) BpBp)) ;;
  let p := xpay n w beta p in
  let Ap := xpay n Aw beta Ap in
  let Bp := xpay n Bw beta Bp in
  resid <- divz (nrm2 n r) (sabs lambda) ;;
  rh <- history e iter resid (gd_rh s) ;;
  let s := mkGD x p r Ap Bp lambda (Some resid) rh in
  Ok (if negb (sleb (ee_tol e) resid) then EStop s else ENext s).
Definition egcr (e : eenv T) (E0 F : list (entry T)) (x : list T) (rh : list T) : res (eout T) :=
  let n := ee_n e in
  let x := if ee_ones e then set_all n s1 else x in
  let sigma := oshift e in
  let E := do_gshift n sigma E0 F in
  x <- normalize n x ;;
  let Ax := matvec n E x in
  let Bx := matvec n F x in
  lambda <- divz (dot n Ax Bx) (dot n Bx Bx) ;;
  let r := scale n (sopp s1) (axpyz n (sopp lambda) Bx Ax) in
  let p := copy n r in
  let Ap := matvec n E p in
  let Bp := matvec n F p in
  ' (fail, ret, iter, s) <- eiterate (Z.to_nat (ee_maxiter e)) 0 (egcr_body e E F) (mkGD x p r Ap Bp lambda None rh) ;;
  resid <- get (gd_resid s) ;;
  x <- normalize n (gd_x s) ;;
  Ok (mkEO ret (Some iter) (Some resid) (Some (sadd (gd_lambda s) sigma)) x (gd_rh s) (undo_gshift n sigma E F)).
End M.
Arguments gst T : clear implicits.
Arguments gcst T : clear implicits.
Arguments gdst T : clear implicits.
