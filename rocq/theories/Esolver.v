(** Model of the eigensolvers for the standard problem A x = lambda x on one process, real
    arithmetic: lis_epi, lis_eii, lis_erqi, lis_ecg, lis_ecr and the part of lis_esolve around
    them.

    - A vector is the list of its n components; lis_matvec, lis_vector_* are as in Krylov.v.
    - A is the list of its entries; lis_matrix_shift_diagonal subtracts sigma from every stored
      diagonal entry (C32_shift_diagonal_csr and the other formats).
    - The inner linear solver (lis_solve_kernel, lis_solve) is an arbitrary function of the
      iteration, the matrix and the right-hand side: it returns an error code (nonzero only
      when the solver could not be set up: C40) and a vector.
    - a division by 0 (inf or NaN from there on) ends the run with [Err DIV_BY_ZERO].
    - reading an uninitialised local is [UB].
    - esolver->rhistory has emaxiter+2 elements, every access is checked.
    - simplification: screen output and timing are left out (so the reads of the freed
      solver in lis_ecg/lis_ecr, lis_esolver_cg.c:337,956, are not modelled). *)
Require Import ZArith List Bool.
From Verif Require Import Base Scalar Spec Krylov.
Import ListNotations.
Open Scope Z_scope.

Section M.
Context {T : Type} {S : Scalar T}.

(** lis_matrix_shift_diagonal, lis_matrix_ops.c:781-830: A - sigma I on the stored diagonal *)
Definition shift_entries (sigma : T) (E : list (entry T)) : list (entry T) :=
  map (fun e => (erow e, ecol e, if erow e =? ecol e then ssub (eval e) sigma else eval e)) E.

(** what an eigensolver reads from LIS_ESOLVER *)
Record eenv := mkEE {
  ee_n : Z;
  ee_maxiter : Z;      (* options[LIS_EOPTIONS_MAXITER] *)
  ee_tol : T;          (* params[LIS_EPARAMS_RESID] *)
  ee_shift : T;        (* params[LIS_EPARAMS_SHIFT] *)
  ee_ishift : T;       (* esolver->ishift, set by an outer solver *)
  ee_ones : bool;      (* options[LIS_EOPTIONS_INITGUESS_ONES] *)
  ee_mem : bool;       (* options[LIS_EOPTIONS_OUTPUT] & LIS_EPRINT_MEM *)
  ee_solve : Z -> list (entry T) -> list T -> Z * list T;   (* inner linear solver, iteration k *)
  ee_psolve : Z -> list T -> list T }.                      (* lis_psolve *)

(** esolver->retcode, iter[0], resid[0], evalue[0], x, rhistory, and A afterwards.
    None: the field is not written. *)
Record eout := mkEO { eo_ret : Z; eo_iter : option Z; eo_resid : option T; eo_evalue : option T; eo_x : list T; eo_rh : list T; eo_E : list (entry T) }.

Definition oshift (e : eenv) : T := if seqb (ee_ishift e) s0 then ee_shift e else ee_ishift e.
Definition do_shift (sigma : T) (E : list (entry T)) : list (entry T) := if seqb sigma s0 then E else shift_entries sigma E.
Definition undo_shift (sigma : T) (E : list (entry T)) : list (entry T) := if seqb sigma s0 then E else shift_entries (sopp sigma) E.

(** lis_vector_nrm2(v,&nrm2); lis_vector_scale(1.0/nrm2, v) *)
Definition normalize (n : Z) (v : list T) : res (list T) := c <- divz s1 (nrm2 n v) ;; Ok (scale n c v).
Definition history (e : eenv) (iter : Z) (r : T) (rh : list T) : res (list T) := if ee_mem e then wr rh iter r else Ok rh.

(** while( iter<emaxiter ) { iter = iter+1; body }; true: the body returned from the function with an error code *)
Inductive ector (A : Type) := ENext (a : A) | EStop (a : A) | EFail (err : Z) (a : A).
Arguments ENext {A} _.
Arguments EStop {A} _.
Arguments EFail {A} _ _.
Fixpoint eiterate {A} (fuel : nat) (iter : Z) (body : Z -> A -> res (ector A)) (s : A) : res (bool * Z * Z * A) :=
  match fuel with
  | O => Ok (false, LIS_MAXITER, iter, s)
  | Datatypes.S f =>
      c <- body (iter + 1) s ;;
      match c with ENext s => eiterate f (iter + 1) body s | EStop s => Ok (false, LIS_SUCCESS, iter + 1, s) | EFail err s => Ok (true, err, iter + 1, s) end
  end.
Definition get {A} (o : option A) : res A := match o with Some a => Ok a | None => UB end.

(** ** Power iteration: lis_epi, lis_esolver_pi.c:127-220 *)
(** v, theta, resid, rhistory *)
Definition pst := (list T * option T * option T * list T)%type.
Definition epi_body (e : eenv) (E : list (entry T)) (iter : Z) (s : pst) : res (ector pst) :=
  let n := ee_n e in let '(v, _, _, rh) := s in
  v <- normalize n v ;;
  let y := matvec n E v in
  let theta := dot n v y in
  let q := axpyz n (sopp theta) v y in
  resid <- divz (nrm2 n q) (sabs theta) ;;
  rh <- history e iter resid rh ;;
  let s := (copy n y, Some theta, Some resid, rh) in
  Ok (if sleb resid (ee_tol e) then EStop s else ENext s).
Definition epi (e : eenv) (E0 : list (entry T)) (x : list T) (rh : list T) : res eout :=
  let n := ee_n e in
  let v := if ee_ones e then set_all n s1 else x in
  let sigma := oshift e in
  let E := do_shift sigma E0 in
  ' (fail, ret, iter, (v, theta, resid, rh)) <- eiterate (Z.to_nat (ee_maxiter e)) 0 (epi_body e E) (v, None, None, rh) ;;
  resid <- get resid ;; theta <- get theta ;;
  v <- normalize n v ;;
  Ok (mkEO ret (Some iter) (Some resid) (Some (sadd theta sigma)) v rh (undo_shift sigma E)).

(** ** Inverse iteration: lis_eii, lis_esolver_ii.c:121-253 *)
Definition eii_body (e : eenv) (E : list (entry T)) (iter : Z) (s : pst) : res (ector pst) :=
  let n := ee_n e in let '(v, theta, resid, rh) := s in
  v <- normalize n v ;;
  let '(err, y) := ee_solve e iter E v in
  if negb (err =? 0) then Ok (EFail err (v, theta, resid, rh))
  else
    let theta := dot n v y in
    let q := axpyz n (sopp theta) v y in
    resid <- divz (nrm2 n q) (sabs theta) ;;
    rh <- history e iter resid rh ;;
    let s := (copy n y, Some theta, Some resid, rh) in
    Ok (if sleb resid (ee_tol e) then EStop s else ENext s).
Definition eii (e : eenv) (E0 : list (entry T)) (x : list T) (rh : list T) : res eout :=
  let n := ee_n e in
  let v := if ee_ones e then set_all n s1 else x in
  let sigma := oshift e in
  let E := do_shift sigma E0 in
  ' (fail, ret, iter, (v, theta, resid, rh)) <- eiterate (Z.to_nat (ee_maxiter e)) 0 (eii_body e E) (v, None, None, rh) ;;
  if (fail : bool) then Ok (mkEO ret None None None v rh E)    (* return err; *)
  else
    resid <- get resid ;; theta <- get theta ;;
    ev <- divz s1 theta ;;
    v <- normalize n v ;;
    Ok (mkEO ret (Some iter) (Some resid) (Some (sadd ev sigma)) v rh (undo_shift sigma E)).

(** ** Rayleigh quotient iteration: lis_erqi, lis_esolver_rqi.c:127-253.  The state also has
    the matrix, shifted and shifted back in every iteration, and rho *)
Definition rst := (list T * list (entry T) * T * option T * list T)%type.
Definition erqi_body (e : eenv) (iter : Z) (s : rst) : res (ector rst) :=
  let n := ee_n e in let '(v, E, rho, resid, rh) := s in
  let E1 := shift_entries rho E in
  let '(err, y) := ee_solve e iter E1 v in
  if negb (err =? 0) then Ok (EFail err (v, E1, rho, resid, rh))
  else
    let E2 := shift_entries (sopp rho) E1 in
    let theta := nrm2 n y in
    let dotvy := dot n v y in
    dr <- divz dotvy (smul theta theta) ;;
    let rho := sadd rho dr in
    let q := axpyz n (sopp dotvy) v y in
    resid <- divz (nrm2 n q) (sabs dotvy) ;;
    c <- divz s1 theta ;;
    let v := copy n (scale n c y) in
    rh <- history e iter resid rh ;;
    let s := (v, E2, rho, Some resid, rh) in
    Ok (if sleb resid (ee_tol e) then EStop s else ENext s).
Definition erqi (e : eenv) (E0 : list (entry T)) (x : list T) (rh : list T) : res eout :=
  let n := ee_n e in
  let v := if ee_ones e then set_all n s1 else x in
  v <- normalize n v ;;
  let rho := dot n v (matvec n E0 v) in
  ' (fail, ret, iter, (v, E, rho, resid, rh)) <- eiterate (Z.to_nat (ee_maxiter e)) 0 (erqi_body e) (v, E0, rho, None, rh) ;;
  if (fail : bool) then Ok (mkEO ret None None None v rh E)
  else
    resid <- get resid ;;
    v <- normalize n v ;;
    Ok (mkEO ret (Some iter) (Some resid) (Some rho) v rh E).

(** ** Conjugate gradient: lis_ecg, lis_esolver_cg.c:127-362.
    The eigenproblem of size 3, solved by the inner while loop (lines 279-292), is an
    arbitrary function [small] of the two 3x3 matrices (row major lists of 9). *)
Record cst := mkC { c_x : list T; c_p : list T; c_Ax : list T; c_Ap : list T; c_lambda : option T; c_resid : option T; c_rh : list T }.
Definition ecg_body (small : list T -> list T -> T * T * T) (e : eenv) (E : list (entry T)) (iter : Z) (s : cst) : res (ector cst) :=
  let n := ee_n e in let x := c_x s in let p := c_p s in let Ax := c_Ax s in let Ap := c_Ap s in
  let lambda := dot n x Ax in
  m <- divz (sopp s1) lambda ;;
  let r := axpyz n m Ax x in
  let resid := nrm2 n r in
  rh <- history e iter resid (c_rh s) ;;
  if negb (sleb (ee_tol e) resid) then Ok (EStop (mkC x p Ax Ap (Some lambda) (Some resid) rh))     (* resid<tol *)
  else
    w <- normalize n (ee_psolve e iter r) ;;
    let Aw := matvec n E w in
    let A3 := [dot n w Aw; dot n x Aw; dot n p Aw; dot n x Aw; dot n x Ax; dot n p Ax; dot n p Aw; dot n p Ax; dot n p Ap] in
    let B3 := [dot n w w; dot n x w; dot n p w; dot n x w; dot n x x; dot n p x; dot n p w; dot n p x; dot n p p] in
    let '(v0, v1, v2) := small A3 B3 in
    let w := scale n v0 w in let w := axpy n v2 p w in
    let x := xpay n w v1 x in let p := copy n w in
    let Aw := scale n v0 Aw in let Aw := axpy n v2 Ap Aw in
    let Ax := xpay n Aw v1 Ax in let Ap := copy n Aw in
    c <- divz s1 (nrm2 n x) ;;
    let x := scale n c x in let Ax := scale n c Ax in
    c <- divz s1 (nrm2 n p) ;;
    let p := scale n c p in let Ap := scale n c Ap in
    Ok (ENext (mkC x p Ax Ap (Some lambda) (Some resid) rh)).
Definition ecg (small : list T -> list T -> T * T * T) (e : eenv) (E0 : list (entry T)) (x : list T) (rh : list T) : res eout :=
  let n := ee_n e in
  let x := if ee_ones e then set_all n s1 else x in
  let sigma := oshift e in
  let E := do_shift sigma E0 in
  x <- normalize n x ;;
  let Ax := matvec n E x in
  let '(err, p) := ee_solve e 0 E x in
  if negb (err =? 0) then Ok (mkEO err None None None x rh E)
  else
    let Ap := copy n x in
    ' (fail, ret, iter, s) <- eiterate (Z.to_nat (ee_maxiter e)) 0 (ecg_body small e E) (mkC x p Ax Ap None None rh) ;;
    resid <- get (c_resid s) ;; lambda <- get (c_lambda s) ;;
    Ok (mkEO ret (Some iter) (Some resid) (Some (sadd lambda sigma)) (c_x s) (c_rh s) (undo_shift sigma E)).

(** ** Conjugate residual: lis_ecr, lis_esolver_cg.c:780-980 *)
Record dst := mkD { d_x : list T; d_p : list T; d_r : list T; d_Ap : list T; d_lambda : T; d_resid : option T; d_rh : list T }.
Definition ecr_body (e : eenv) (E : list (entry T)) (iter : Z) (s : dst) : res (ector dst) :=
  let n := ee_n e in let x := d_x s in let p := d_p s in let r := d_r s in let Ap := d_Ap s in let lambda := d_lambda s in
  let two := sadd s1 s1 in
  let ApAp := dot n Ap Ap in let pAp := dot n p Ap in let pp := dot n p p in
  alpha <- divz (ssub (dot n r Ap) (smul lambda (dot n r p))) (sadd (ssub ApAp (smul (smul two lambda) pAp)) (smul (smul lambda lambda) pp)) ;;
  let x := axpy n alpha p x in
  let Ax := matvec n E x in
  let nr := nrm2 n x in
  lambda <- divz (dot n x Ax) (smul nr nr) ;;
  let r := scale n (sopp s1) (axpyz n (sopp lambda) x Ax) in
  let w := ee_psolve e iter r in
  let Aw := matvec n E w in
  beta <- divz (sopp (sadd (ssub (dot n Aw Ap) (smul lambda (sadd (dot n p Aw) (dot n w Ap)))) (smul (smul lambda lambda) (dot n w p))))
               (sadd (ssub ApAp (smul (smul two lambda) pAp)) (smul (smul lambda lambda) pp)) ;;
  let p := xpay n w beta p in
  let Ap := xpay n Aw beta Ap in
  resid <- divz (nrm2 n r) (sabs lambda) ;;
  rh <- history e iter resid (d_rh s) ;;
  let s := mkD x p r Ap lambda (Some resid) rh in
  Ok (if negb (sleb (ee_tol e) resid) then EStop s else ENext s).
Definition ecr (e : eenv) (E0 : list (entry T)) (x : list T) (rh : list T) : res eout :=
  let n := ee_n e in
  let x := if ee_ones e then set_all n s1 else x in
  let sigma := oshift e in
  let E := do_shift sigma E0 in
  x <- normalize n x ;;
  let Ax := matvec n E x in
  let lambda := dot n x Ax in
  let r := scale n (sopp s1) (axpyz n (sopp lambda) x Ax) in
  let p := copy n r in
  let Ap := matvec n E p in
  ' (fail, ret, iter, s) <- eiterate (Z.to_nat (ee_maxiter e)) 0 (ecr_body e E) (mkD x p r Ap lambda None rh) ;;
  resid <- get (d_resid s) ;;
  x <- normalize n (d_x s) ;;
  Ok (mkEO ret (Some iter) (Some resid) (Some (sadd (d_lambda s) sigma)) x (d_rh s) (undo_shift sigma E)).

(** ** lis_esolve, lis_esolver.c:640-690: the eigenvalue and vector are copied out, the code of
    the solver goes to esolver->retcode and LIS_SUCCESS is returned.  evalue[0] is 1.0 before
    the solver runs (line 439).  Simplification: parameter checks, allocation and storage
    conversion are left out. *)
Definition esolve (run : eenv -> list (entry T) -> list T -> list T -> res eout) (e : eenv) (E : list (entry T)) (x : list T) (jrh : Z -> T) : res (Z * T * eout) :=
  let x0 := if ee_ones e then set_all (ee_n e) s1 else x in
  let rh := zupd (alloc (ee_maxiter e + 2) jrh) 0 s1 in
  o <- run e E x0 rh ;;
  Ok (LIS_SUCCESS, match eo_evalue o with Some v => v | None => s1 end, o).
End M.
Arguments ENext {A} _.
Arguments EStop {A} _.
Arguments EFail {A} _ _.
Arguments eenv T : clear implicits.
Arguments eout T : clear implicits.
