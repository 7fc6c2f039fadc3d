(** Model of the Krylov solvers of src/solver (double precision, one process) on top of
    the vector operations of C09/C10 and the matrix-vector products of C28/C29.

    - A work vector solver->work[k] is register k; x is register X.  Registers may be
      shared by several names exactly as in the code (z and q of lis_bicg are both
      work[2]).  A vector is the list of its n components.
    - lis_matvec / lis_matvech are their specifications mv_spec / mvh_spec for the
      entries E of the matrix (theorems C28, C29).
    - lis_psolve / lis_psolveh are arbitrary functions of the iteration number and the
      vector (any preconditioner, also a nested iterative solver).
    - a division whose divisor is 0 (inf or NaN in floating point) ends the run with
      the distinct outcome [Err DIV_BY_ZERO].
    - an uninitialised local nrm2 is [None].
    - solver->rhistory is an array of maxiter+2 elements, every access is checked.
    - simplification: output to the screen, timing and the quad precision variants are
      left out; scalars and real numbers share one type. *)
Require Import ZArith List Bool.
From Verif Require Import Base Scalar Spec.
Import ListNotations.
Open Scope Z_scope.

Definition DIV_BY_ZERO : Z := -100.
(** register of the solution vector *)
Definition X : Z := -1.

(** [LET x := a in b] is [let x := a in b]; the constant keeps reduction under control in proofs *)
Definition lt {A B} (a : A) (f : A -> B) : B := f a.
Notation "'LET' x ':=' a 'in' b" := (lt a (fun x => b)) (at level 200, x name, b at level 200).

Section M.
Context {T : Type} {S : Scalar T}.
Definition vect := list T.
Definition at_ (v : vect) (i : Z) : T := znth s0 v i.
Definition tab (n : Z) (f : Z -> T) : vect := map f (zrange 0 n).

(** lis_vector_ops.c / lis_vector_opv.c; component formulas proved in C09, C10 *)
Definition axpy n a x y := tab n (fun i => sadd (at_ y i) (smul a (at_ x i))).        (* y += a x *)
Definition xpay n x a y := tab n (fun i => sadd (at_ x i) (smul a (at_ y i))).        (* y = x + a y *)
Definition axpyz n a x y := tab n (fun i => sadd (smul a (at_ x i)) (at_ y i)).       (* z = a x + y *)
Definition scale n a x := tab n (fun i => smul a (at_ x i)).
Definition pmul n x y := tab n (fun i => smul (at_ x i) (at_ y i)).
Definition copy n x := tab n (at_ x).
Definition set_all n a := tab n (fun _ => a).
Definition conjugate n x := tab n (fun i => sconj (at_ x i)).
Definition dot n x y := ssum (map (fun i => smul (sconj (at_ x i)) (at_ y i)) (zrange 0 n)).
Definition nhdot n x y := ssum (map (fun i => smul (at_ x i) (at_ y i)) (zrange 0 n)).
Definition nrm2 n x := ssqrt (dot n x x).
Definition nrm1 n x := ssum (map (fun i => sabs (at_ x i)) (zrange 0 n)).
(** lis_matvec, lis_matvech: C28, C29 *)
Definition matvec n (E : list (entry T)) x := tab n (fun i => mv_spec E n (at_ x) i).
Definition matvech n (E : list (entry T)) x := tab n (fun i => mvh_spec E n (at_ x) i).

Definition divz (a b : T) : res T := if seqb b s0 then Err DIV_BY_ZERO else Ok (sdiv a b).

(** what a solver reads from LIS_SOLVER *)
Record env := mkEnv {
  e_n : Z; e_E : list (entry T); e_b : vect;
  e_psolve : Z -> vect -> vect;          (* lis_psolve in iteration k (0: before the loop) *)
  e_psolveh : Z -> vect -> vect;
  e_maxiter : Z;                         (* options[MAXITER] *)
  e_conv : Z;                            (* options[CONV_COND]: 0 nrm2_r, 1 nrm2_b, 2 nrm1_b *)
  e_tol : T; e_tolw : T;                 (* params[RESID], params[RESID_WEIGHT] *)
  e_zeros : bool;                        (* options[INITGUESS_ZEROS] *)
  e_mem : bool;                          (* options[OUTPUT] & LIS_PRINT_MEM *)
  e_shadow : option vect }.              (* None: LIS_RESID; Some v: LIS_RANDOM gave v *)

(** solver registers, the local nrm2, solver->rhistory *)
Record kst := mkK { k_W : Z -> vect; k_nrm : option T; k_rh : list T }.
Definition upd (W : Z -> vect) (k : Z) (v : vect) : Z -> vect := fun j => if j =? k then v else W j.

(** lis_solver.c:1792-1815, lis_solver_get_residual[conv] *)
Definition get_residual (e : env) (bnrm : T) (r : vect) : T :=
  if e_conv e =? 2 then nrm1 (e_n e) r else smul (nrm2 (e_n e) r) bnrm.

(** lis_solver.c:957-1077, with M==NULL.  Result: p = b - A x (or b), solver->bnrm,
    solver->tol, the scaled norm, and whether it is within the tolerance. *)
Definition get_initial_residual (e : env) (x : vect) : vect * T * T * T * bool :=
  let n := e_n e in
  let p := if e_zeros e then copy n (e_b e)
           else xpay n (e_b e) (sopp s1) (matvec n (e_E e) x) in
  let '(nr, bn, tol) :=
    if e_conv e =? 0 then (nrm2 n p, nrm2 n p, e_tol e)
    else if e_conv e =? 1 then (nrm2 n p, nrm2 n (e_b e), e_tol e)
    else (nrm1 n p, nrm1 n (e_b e), sadd (smul (nrm1 n (e_b e)) (e_tolw e)) (e_tol e)) in
  let bnrm := if seqb bn s0 then s1 else sdiv s1 bn in
  let nr := smul nr bnrm in
  (p, bnrm, tol, nr, sleb nr (sabs (e_tol e))).

(** lis_solver.c:1817-1873 *)
Definition set_shadowresidual (e : env) (r0 : vect) : vect :=
  match e_shadow e with Some v => v | None => conjugate (e_n e) (copy (e_n e) r0) end.

(** the convergence test at the end of an iteration, e.g. lis_solver_cg.c:208-225:
    nrm2 = residual, rhistory[iter] = nrm2 if asked for, tol >= nrm2 *)
Definition conv_check (e : env) (bnrm tol : T) (iter : Z) (r : vect) (W : Z -> vect) (k : kst) : res (bool * kst) :=
  let nr := get_residual e bnrm r in
  rh <- (if e_mem e then wr (k_rh k) iter nr else Ok (k_rh k)) ;;
  Ok (sleb nr tol, mkK W (Some nr) rh).
(** the early test, e.g. lis_solver_bicgstab.c:228-246: rhistory is written only when converged *)
Definition early_check (e : env) (bnrm tol : T) (iter : Z) (r : vect) (W : Z -> vect) (k : kst) : res (bool * kst) :=
  let nr := get_residual e bnrm r in
  rh <- (if sleb nr tol && e_mem e then wr (k_rh k) iter nr else Ok (k_rh k)) ;;
  Ok (sleb nr tol, mkK W (Some nr) rh).

(** for( iter=1; iter<=maxiter; iter++ ) body;  solver->retcode = LIS_MAXITER, iter = iter *)
Inductive ctl (A : Type) := Next (a : A) | Stop (ret : Z) (a : A).
Arguments Next {A} _.
Arguments Stop {A} _ _.
Fixpoint iterate {A} (fuel : nat) (iter : Z) (body : Z -> A -> res (ctl A)) (s : A) : res (Z * Z * A) :=
  match fuel with
  | O => Ok (LIS_MAXITER, iter, s)
  | Datatypes.S f =>
      c <- body iter s ;;
      match c with Next s => iterate f (iter + 1) body s | Stop ret s => Ok (ret, iter, s) end
  end.

(** solver->retcode, iter, resid (None: uninitialised), x, rhistory *)
Record sol := mkSol { o_ret : Z; o_iter : Z; o_resid : option T; o_x : vect; o_rh : list T }.

(** the frame common to the solvers: initial residual into register [rr]; if it is good
    enough return LIS_SUCCESS with iter = 1; otherwise [start] and the loop.
    Work vectors are zero initially (lis_vector_duplicate, lis_vector.c:438-441). *)
Definition solver {L} (e : env) (rr : Z) (start : T -> T -> (Z -> vect) -> res ((Z -> vect) * L))
    (body : T -> T -> Z -> kst * L -> res (ctl (kst * L))) (x : vect) (rh : list T) : res sol :=
  let n := e_n e in
  let '(p, bnrm, tol, nr, ok) := get_initial_residual e x in
  if ok then Ok (mkSol LIS_SUCCESS 1 (Some nr) x rh)
  else
    LET W := upd (upd (fun _ => set_all n s0) X x) rr p in
    ' (W, l) <- start bnrm tol W ;;
    ' (ret, iter, (k, _)) <- iterate (Z.to_nat (e_maxiter e)) 1 (body bnrm tol) (mkK W None rh, l) ;;
    Ok (mkSol ret iter (k_nrm k) (k_W k X) (k_rh k)).

(** ** CG and COCG: lis_solver_cg.c:129-236, 632-742 (COCG uses nhdot) *)
Definition cg_start (e : env) (bnrm tol : T) (W : Z -> vect) : res ((Z -> vect) * T) :=
  Ok (upd W 3 (set_all (e_n e) s0), s1).
Definition cg_body (ip : Z -> vect -> vect -> T) (e : env) (bnrm tol : T) (iter : Z) (s : kst * T) : res (ctl (kst * T)) :=
  let n := e_n e in
  let z := 0 in let q := 1 in let r := 2 in let p := 3 in
  let '(k, rho_old) := s in
  let W := k_W k in
  LET W := upd W z (e_psolve e iter (W r)) in
  LET rho := ip n (W r) (W z) in
  beta <- divz rho rho_old ;;
  LET W := upd W p (xpay n (W z) beta (W p)) in
  LET W := upd W q (matvec n (e_E e) (W p)) in
  LET dot_pq := ip n (W p) (W q) in
  if seqb dot_pq s0 then Ok (Stop LIS_BREAKDOWN (mkK W (k_nrm k) (k_rh k), rho_old)) else
  alpha <- divz rho dot_pq ;;
  LET W := upd W X (axpy n alpha (W p) (W X)) in
  LET W := upd W r (axpy n (sopp alpha) (W q) (W r)) in
  ' (stop, k) <- conv_check e bnrm tol iter (W r) W k ;;
  if (stop : bool) then Ok (Stop LIS_SUCCESS (k, rho)) else Ok (Next (k, rho)).
Definition lis_cg (e : env) := solver e 2 (cg_start e) (cg_body dot e).
Definition lis_cocg (e : env) := solver e 2 (cg_start e) (cg_body nhdot e).

(** ** CR and COCR: lis_solver_cg.c:821-941, 1155-1282 *)
Definition cr_start (e : env) (bnrm tol : T) (W : Z -> vect) : res ((Z -> vect) * unit) :=
  let n := e_n e in let z := 0 in let q := 1 in let r := 2 in let p := 3 in
  LET W := upd W p (e_psolve e 0 (W r)) in
  LET W := upd W q (matvec n (e_E e) (W p)) in
  LET W := upd W z (copy n (W p)) in
  Ok (W, tt).
Definition cr_body (ip : Z -> vect -> vect -> T) (e : env) (bnrm tol : T) (iter : Z) (s : kst * unit) : res (ctl (kst * unit)) :=
  let n := e_n e in
  let z := 0 in let q := 1 in let r := 2 in let p := 3 in let qtld := 4 in let az := 5 in
  let '(k, _) := s in
  let W := k_W k in
  LET W := upd W qtld (e_psolve e iter (W q)) in
  LET rho := ip n (W qtld) (W q) in
  if seqb rho s0 then Ok (Stop LIS_BREAKDOWN (mkK W (k_nrm k) (k_rh k), tt)) else
  LET dot_rq := ip n (W r) (W qtld) in
  alpha <- divz dot_rq rho ;;
  LET W := upd W X (axpy n alpha (W p) (W X)) in
  LET W := upd W r (axpy n (sopp alpha) (W q) (W r)) in
  ' (stop, k) <- conv_check e bnrm tol iter (W r) W k ;;
  if (stop : bool) then Ok (Stop LIS_SUCCESS (k, tt)) else
  LET W := upd W z (axpy n (sopp alpha) (W qtld) (W z)) in
  LET W := upd W az (matvec n (e_E e) (W z)) in
  LET dot_zq := ip n (W az) (W qtld) in
  beta <- divz (sopp dot_zq) rho ;;
  LET W := upd W p (xpay n (W z) beta (W p)) in
  LET W := upd W q (xpay n (W az) beta (W q)) in
  Ok (Next (mkK W (k_nrm k) (k_rh k), tt)).
Definition lis_cr (e : env) := solver e 2 (cr_start e) (cr_body dot e).
Definition lis_cocr (e : env) := solver e 2 (cr_start e) (cr_body nhdot e).

(** ** BiCG: lis_solver_bicg.c:138-276.  q shares work[2] with z, qtld work[3] with ztld. *)
Definition bicg_start (e : env) (bnrm tol : T) (W : Z -> vect) : res ((Z -> vect) * T) :=
  let n := e_n e in let r := 0 in let rtld := 1 in let p := 4 in let ptld := 5 in
  LET W := upd W rtld (set_shadowresidual e (W r)) in
  LET W := upd W p (set_all n s0) in
  LET W := upd W ptld (set_all n s0) in
  Ok (W, s1).
Definition bicg_body (e : env) (bnrm tol : T) (iter : Z) (s : kst * T) : res (ctl (kst * T)) :=
  let n := e_n e in
  let r := 0 in let rtld := 1 in let z := 2 in let ztld := 3 in let p := 4 in let ptld := 5 in let q := 2 in let qtld := 3 in
  let '(k, rho_old) := s in
  let W := k_W k in
  LET W := upd W z (e_psolve e iter (W r)) in
  LET W := upd W ztld (e_psolveh e iter (W rtld)) in
  LET rho := dot n (W rtld) (W z) in
  if seqb rho s0 then Ok (Stop LIS_BREAKDOWN (mkK W (k_nrm k) (k_rh k), rho_old)) else
  beta <- divz rho rho_old ;;
  LET W := upd W p (xpay n (W z) beta (W p)) in
  LET W := upd W q (matvec n (e_E e) (W p)) in
  LET W := upd W ptld (xpay n (W ztld) (sconj beta) (W ptld)) in
  LET W := upd W qtld (matvech n (e_E e) (W ptld)) in
  LET tmpdot1 := dot n (W ptld) (W q) in
  if seqb tmpdot1 s0 then Ok (Stop LIS_BREAKDOWN (mkK W (k_nrm k) (k_rh k), rho_old)) else
  alpha <- divz rho tmpdot1 ;;
  LET W := upd W X (axpy n alpha (W p) (W X)) in
  LET W := upd W r (axpy n (sopp alpha) (W q) (W r)) in
  ' (stop, k) <- conv_check e bnrm tol iter (W r) W k ;;
  if (stop : bool) then Ok (Stop LIS_SUCCESS (k, rho)) else
  LET W := upd W rtld (axpy n (sopp (sconj alpha)) (W qtld) (W rtld)) in
  Ok (Next (mkK W (k_nrm k) (k_rh k), rho)).
Definition lis_bicg (e : env) := solver e 0 (bicg_start e) (bicg_body e).

(** ** BiCR: lis_solver_bicg.c:788-926 *)
Definition bicr_start (e : env) (bnrm tol : T) (W : Z -> vect) : res ((Z -> vect) * T) :=
  let n := e_n e in
  let r := 0 in let rtld := 1 in let z := 2 in let ztld := 3 in let p := 4 in let ptld := 5 in let ap := 6 in
  LET W := upd W rtld (set_shadowresidual e (W r)) in
  LET W := upd W z (e_psolve e 0 (W r)) in
  LET W := upd W ztld (e_psolveh e 0 (W rtld)) in
  LET W := upd W p (copy n (W z)) in
  LET W := upd W ptld (copy n (W ztld)) in
  LET W := upd W ap (matvec n (e_E e) (W z)) in
  Ok (W, dot n (W ztld) (W ap)).
Definition bicr_body (e : env) (bnrm tol : T) (iter : Z) (s : kst * T) : res (ctl (kst * T)) :=
  let n := e_n e in
  let r := 0 in let rtld := 1 in let z := 2 in let ztld := 3 in let p := 4 in let ptld := 5 in
  let ap := 6 in let az := 7 in let map_ := 8 in let aptld := 9 in
  let '(k, rho_old) := s in
  let W := k_W k in
  LET W := upd W aptld (matvech n (e_E e) (W ptld)) in
  LET W := upd W map_ (e_psolve e iter (W ap)) in
  LET tmpdot1 := dot n (W aptld) (W map_) in
  if seqb tmpdot1 s0 then Ok (Stop LIS_BREAKDOWN (mkK W (k_nrm k) (k_rh k), rho_old)) else
  alpha <- divz rho_old tmpdot1 ;;
  LET W := upd W X (axpy n alpha (W p) (W X)) in
  LET W := upd W r (axpy n (sopp alpha) (W ap) (W r)) in
  ' (stop, k) <- conv_check e bnrm tol iter (W r) W k ;;
  if (stop : bool) then Ok (Stop LIS_SUCCESS (k, rho_old)) else
  LET W := upd W rtld (axpy n (sopp (sconj alpha)) (W aptld) (W rtld)) in
  LET W := upd W z (axpy n (sopp alpha) (W map_) (W z)) in
  LET W := upd W ztld (e_psolveh e iter (W rtld)) in
  LET W := upd W az (matvec n (e_E e) (W z)) in
  LET rho := dot n (W ztld) (W az) in
  if seqb rho s0 then Ok (Stop LIS_BREAKDOWN (mkK W (k_nrm k) (k_rh k), rho_old)) else
  beta <- divz rho rho_old ;;
  LET W := upd W p (xpay n (W z) beta (W p)) in
  LET W := upd W ptld (xpay n (W ztld) (sconj beta) (W ptld)) in
  LET W := upd W ap (xpay n (W az) beta (W ap)) in
  Ok (Next (mkK W (k_nrm k) (k_rh k), rho)).
Definition lis_bicr (e : env) := solver e 0 (bicr_start e) (bicr_body e).

(** ** CGS: lis_solver_cgs.c:134-277.  u and qhat share work[5], uhat and vhat work[6]. *)
Definition cgs_start (e : env) (bnrm tol : T) (W : Z -> vect) : res ((Z -> vect) * T) :=
  let n := e_n e in let r := 0 in let rtld := 1 in let p := 2 in let q := 4 in
  LET W := upd W rtld (set_shadowresidual e (W r)) in
  LET W := upd W q (set_all n s0) in
  LET W := upd W p (set_all n s0) in
  Ok (W, s1).
Definition cgs_body (e : env) (bnrm tol : T) (iter : Z) (s : kst * T) : res (ctl (kst * T)) :=
  let n := e_n e in
  let r := 0 in let rtld := 1 in let p := 2 in let phat := 3 in let q := 4 in let qhat := 5 in let u := 5 in
  let uhat := 6 in let vhat := 6 in
  let '(k, rho_old) := s in
  let W := k_W k in
  LET rho := dot n (W rtld) (W r) in
  if seqb rho s0 then Ok (Stop LIS_BREAKDOWN (mkK W (k_nrm k) (k_rh k), rho_old)) else
  beta <- divz rho rho_old ;;
  LET W := upd W u (axpyz n beta (W q) (W r)) in
  LET W := upd W p (xpay n (W q) beta (W p)) in
  LET W := upd W p (xpay n (W u) beta (W p)) in
  LET W := upd W phat (e_psolve e iter (W p)) in
  LET W := upd W vhat (matvec n (e_E e) (W phat)) in
  LET tmpdot1 := dot n (W rtld) (W vhat) in
  if seqb tmpdot1 s0 then Ok (Stop LIS_BREAKDOWN (mkK W (k_nrm k) (k_rh k), rho_old)) else
  alpha <- divz rho tmpdot1 ;;
  LET W := upd W q (axpyz n (sopp alpha) (W vhat) (W u)) in
  LET W := upd W phat (axpyz n s1 (W u) (W q)) in
  LET W := upd W uhat (e_psolve e iter (W phat)) in
  LET W := upd W X (axpy n alpha (W uhat) (W X)) in
  LET W := upd W qhat (matvec n (e_E e) (W uhat)) in
  LET W := upd W r (axpy n (sopp alpha) (W qhat) (W r)) in
  ' (stop, k) <- conv_check e bnrm tol iter (W r) W k ;;
  if (stop : bool) then Ok (Stop LIS_SUCCESS (k, rho)) else Ok (Next (k, rho)).
Definition lis_cgs (e : env) := solver e 0 (cgs_start e) (cgs_body e).

(** ** CRS: lis_solver_cgs.c:805-938.  z, u, uq share work[3]; q, ap work[4]; map, auq work[5]. *)
Definition crs_start (e : env) (bnrm tol : T) (W : Z -> vect) : res ((Z -> vect) * T) :=
  let n := e_n e in let r := 0 in let rtld := 1 in let p := 2 in let q := 4 in
  LET W := upd W p (set_shadowresidual e (W r)) in
  LET W := upd W rtld (matvech n (e_E e) (W p)) in
  LET W := upd W q (set_all n s0) in
  LET W := upd W p (set_all n s0) in
  Ok (W, s1).
Definition crs_body (e : env) (bnrm tol : T) (iter : Z) (s : kst * T) : res (ctl (kst * T)) :=
  let n := e_n e in
  let r := 0 in let rtld := 1 in let p := 2 in let z := 3 in let u := 3 in let uq := 3 in
  let q := 4 in let ap := 4 in let map_ := 5 in let auq := 5 in
  let '(k, rho_old) := s in
  let W := k_W k in
  LET W := upd W z (e_psolve e iter (W r)) in
  LET rho := dot n (W rtld) (W z) in
  if seqb rho s0 then Ok (Stop LIS_BREAKDOWN (mkK W (k_nrm k) (k_rh k), rho_old)) else
  beta <- divz rho rho_old ;;
  LET W := upd W u (axpyz n beta (W q) (W z)) in
  LET W := upd W p (xpay n (W q) beta (W p)) in
  LET W := upd W p (xpay n (W u) beta (W p)) in
  LET W := upd W ap (matvec n (e_E e) (W p)) in
  LET W := upd W map_ (e_psolve e iter (W ap)) in
  LET tmpdot1 := dot n (W rtld) (W map_) in
  if seqb tmpdot1 s0 then Ok (Stop LIS_BREAKDOWN (mkK W (k_nrm k) (k_rh k), rho_old)) else
  alpha <- divz rho tmpdot1 ;;
  LET W := upd W q (axpyz n (sopp alpha) (W map_) (W u)) in
  LET W := upd W uq (axpyz n s1 (W u) (W q)) in
  LET W := upd W auq (matvec n (e_E e) (W uq)) in
  LET W := upd W X (axpy n alpha (W uq) (W X)) in
  LET W := upd W r (axpy n (sopp alpha) (W auq) (W r)) in
  ' (stop, k) <- conv_check e bnrm tol iter (W r) W k ;;
  if (stop : bool) then Ok (Stop LIS_SUCCESS (k, rho)) else Ok (Next (k, rho)).
Definition lis_crs (e : env) := solver e 0 (crs_start e) (crs_body e).

(** ** BiCGSTAB: lis_solver_bicgstab.c:137-315.  s and r share work[1].
    locals alpha, omega, rho_old *)
Definition bicgstab_start (e : env) (bnrm tol : T) (W : Z -> vect) : res ((Z -> vect) * (T * T * T)) :=
  Ok (upd W 0 (set_shadowresidual e (W 1)), (s1, s1, s1)).
Definition bicgstab_body (e : env) (bnrm tol : T) (iter : Z) (s : kst * (T * T * T)) : res (ctl (kst * (T * T * T))) :=
  let n := e_n e in
  let rtld := 0 in let r := 1 in let s_ := 1 in let t := 2 in let p := 3 in let v := 4 in let phat := 5 in let shat := 6 in
  let '(k, l) := s in let '(alpha, omega, rho_old) := l in
  let W := k_W k in
  LET rho := dot n (W rtld) (W r) in
  if seqb rho s0 then Ok (Stop LIS_BREAKDOWN (mkK W (k_nrm k) (k_rh k), l)) else
  W <- (if iter =? 1 then Ok (upd W p (copy n (W r)))
        else
          d1 <- divz rho rho_old ;;
          d2 <- divz alpha omega ;;
          LET beta := smul d1 d2 in
          LET W := upd W p (axpy n (sopp omega) (W v) (W p)) in
          Ok (upd W p (xpay n (W r) beta (W p)))) ;;
  LET W := upd W phat (e_psolve e iter (W p)) in
  LET W := upd W v (matvec n (e_E e) (W phat)) in
  LET tmpdot1 := dot n (W rtld) (W v) in
  alpha <- divz rho tmpdot1 ;;
  LET W := upd W r (axpy n (sopp alpha) (W v) (W r)) in
  ' (early, k) <- early_check e bnrm tol iter (W s_) W k ;;
  if (early : bool) then
    LET W := upd W X (axpy n alpha (W phat) (W X)) in
    Ok (Stop LIS_SUCCESS (mkK W (k_nrm k) (k_rh k), l))
  else
  LET W := upd W shat (e_psolve e iter (W s_)) in
  LET W := upd W t (matvec n (e_E e) (W shat)) in
  LET tmpdot1 := dot n (W t) (W s_) in
  LET tmpdot2 := dot n (W t) (W t) in
  omega <- divz tmpdot1 tmpdot2 ;;
  LET W := upd W X (axpy n alpha (W phat) (W X)) in
  LET W := upd W X (axpy n omega (W shat) (W X)) in
  LET W := upd W r (axpy n (sopp omega) (W t) (W r)) in
  ' (stop, k) <- conv_check e bnrm tol iter (W r) W k ;;
  if (stop : bool) then Ok (Stop LIS_SUCCESS (k, l)) else
  if seqb omega s0 then Ok (Stop LIS_BREAKDOWN (k, l)) else
  Ok (Next (k, (alpha, omega, rho))).
Definition lis_bicgstab (e : env) := solver e 1 (bicgstab_start e) (bicgstab_body e).

(** ** BiCRSTAB: lis_solver_bicgstab.c:951-1098 *)
Definition bicrstab_start (e : env) (bnrm tol : T) (W : Z -> vect) : res ((Z -> vect) * T) :=
  let n := e_n e in let rtld := 0 in let r := 1 in let p := 5 in let z := 8 in
  LET W := upd W p (set_shadowresidual e (W r)) in
  LET W := upd W rtld (matvech n (e_E e) (W p)) in
  LET W := upd W z (e_psolve e 0 (W r)) in
  LET W := upd W p (copy n (W z)) in
  Ok (W, dot n (W rtld) (W z)).
Definition bicrstab_body (e : env) (bnrm tol : T) (iter : Z) (s : kst * T) : res (ctl (kst * T)) :=
  let n := e_n e in
  let rtld := 0 in let r := 1 in let s_ := 2 in let ms := 3 in let ams := 4 in let p := 5 in let ap := 6 in
  let map_ := 7 in let z := 8 in
  let '(k, rho_old) := s in
  let W := k_W k in
  LET W := upd W ap (matvec n (e_E e) (W p)) in
  LET W := upd W map_ (e_psolve e iter (W ap)) in
  LET tmpdot1 := dot n (W rtld) (W map_) in
  alpha <- divz rho_old tmpdot1 ;;
  LET W := upd W s_ (axpyz n (sopp alpha) (W ap) (W r)) in
  ' (early, k) <- early_check e bnrm tol iter (W s_) W k ;;
  if (early : bool) then
    LET W := upd W X (axpy n alpha (W p) (W X)) in
    Ok (Stop LIS_SUCCESS (mkK W (k_nrm k) (k_rh k), rho_old))
  else
  LET W := upd W ms (axpyz n (sopp alpha) (W map_) (W z)) in
  LET W := upd W ams (matvec n (e_E e) (W ms)) in
  LET tmpdot1 := dot n (W ams) (W s_) in
  LET tmpdot2 := dot n (W ams) (W ams) in
  omega <- divz tmpdot1 tmpdot2 ;;
  LET W := upd W X (axpy n alpha (W p) (W X)) in
  LET W := upd W X (axpy n omega (W ms) (W X)) in
  LET W := upd W r (axpyz n (sopp omega) (W ams) (W s_)) in
  ' (stop, k) <- conv_check e bnrm tol iter (W r) W k ;;
  if (stop : bool) then Ok (Stop LIS_SUCCESS (k, rho_old)) else
  LET W := upd W z (e_psolve e iter (W r)) in
  LET rho := dot n (W rtld) (W z) in
  if seqb rho s0 then Ok (Stop LIS_BREAKDOWN (mkK W (k_nrm k) (k_rh k), rho_old)) else
  d1 <- divz rho rho_old ;;
  d2 <- divz alpha omega ;;
  LET beta := smul d1 d2 in
  LET W := upd W p (axpy n (sopp omega) (W map_) (W p)) in
  LET W := upd W p (xpay n (W z) beta (W p)) in
  Ok (Next (mkK W (k_nrm k) (k_rh k), rho)).
Definition lis_bicrstab (e : env) := solver e 1 (bicrstab_start e) (bicrstab_body e).

(** qsi and eta from the five inner products, e.g. lis_solver_gpbicg.c:262-278 *)
Definition qsi_eta (iter : Z) (t0 t1 t2 t3 t4 : T) : res (T * T) :=
  if iter =? 1 then q <- divz t1 t4 ;; Ok (q, s0)
  else
    let tmp := ssub (smul t4 t0) (smul t3 t3) in
    q <- divz (ssub (smul t0 t1) (smul t2 t3)) tmp ;;
    h <- divz (ssub (smul t4 t2) (smul t3 t1)) tmp ;;
    Ok (q, h).

(** ** GPBiCG and GPBiCR: lis_solver_gpbicg.c:145-351, 1349-1555.  They differ in the
    vector used for the inner products with rtld (ap, r against map, mr) and in rtld.
    locals beta, rho_old *)
Definition gpbicg_start (cr : bool) (e : env) (bnrm tol : T) (W : Z -> vect) : res ((Z -> vect) * (T * T)) :=
  let n := e_n e in let rtld := 0 in let r := 1 in let p := 3 in let t := 6 in let w := 11 in
  LET W := if cr then LET W := upd W p (set_shadowresidual e (W r)) in upd W rtld (matvech n (e_E e) (W p))
           else upd W rtld (set_shadowresidual e (W r)) in
  LET W := upd W p (e_psolve e 0 (W r)) in
  LET rho_old := if cr then dot n (W rtld) (W p) else dot n (W rtld) (W r) in
  LET W := upd W t (set_all n s0) in
  LET W := upd W w (set_all n s0) in
  Ok (W, (s0, rho_old)).
Definition gpbicg_body (cr : bool) (e : env) (bnrm tol : T) (iter : Z) (s : kst * (T * T)) : res (ctl (kst * (T * T))) :=
  let n := e_n e in
  let rtld := 0 in let r := 1 in let mr := 2 in let p := 3 in let ap := 4 in let map_ := 5 in let t := 6 in let mt := 7 in
  let amt := 8 in let u := 9 in let y := 10 in let w := 11 in let z := 12 in let mt_old := 13 in
  let '(k, l) := s in let '(beta, rho_old) := l in
  let W := k_W k in
  LET W := upd W ap (matvec n (e_E e) (W p)) in
  LET W := upd W map_ (e_psolve e iter (W ap)) in
  LET tmpdot0 := dot n (W rtld) (if cr then W map_ else W ap) in
  if seqb tmpdot0 s0 then Ok (Stop LIS_BREAKDOWN (mkK W (k_nrm k) (k_rh k), l)) else
  alpha <- divz rho_old tmpdot0 ;;
  LET W := upd W y (axpyz n (sopp s1) (W w) (W ap)) in
  LET W := upd W y (xpay n (W t) alpha (W y)) in
  LET W := upd W y (axpy n (sopp s1) (W r) (W y)) in
  LET W := upd W t (axpyz n (sopp alpha) (W ap) (W r)) in
  ' (early, k) <- early_check e bnrm tol iter (W t) W k ;;
  if (early : bool) then
    LET W := upd W X (axpy n alpha (W p) (W X)) in
    Ok (Stop LIS_SUCCESS (mkK W (k_nrm k) (k_rh k), l))
  else
  LET W := upd W mt (axpyz n (sopp alpha) (W map_) (W mr)) in
  LET W := upd W amt (matvec n (e_E e) (W mt)) in
  ' (qsi, eta) <- qsi_eta iter (dot n (W y) (W y)) (dot n (W amt) (W t)) (dot n (W y) (W t)) (dot n (W amt) (W y)) (dot n (W amt) (W amt)) ;;
  LET W := upd W u (xpay n (W mt_old) beta (W u)) in
  LET W := upd W u (axpy n (sopp s1) (W mr) (W u)) in
  LET W := upd W u (scale n eta (W u)) in
  LET W := upd W u (axpy n qsi (W map_) (W u)) in
  LET W := upd W z (scale n eta (W z)) in
  LET W := upd W z (axpy n qsi (W mr) (W z)) in
  LET W := upd W z (axpy n (sopp alpha) (W u) (W z)) in
  LET W := upd W X (axpy n alpha (W p) (W X)) in
  LET W := upd W X (axpy n s1 (W z) (W X)) in
  LET W := upd W r (axpyz n (sopp qsi) (W amt) (W t)) in
  LET W := upd W r (axpy n (sopp eta) (W y) (W r)) in
  ' (stop, k) <- conv_check e bnrm tol iter (W r) W k ;;
  if (stop : bool) then Ok (Stop LIS_SUCCESS (k, l)) else
  LET W := upd W mr (e_psolve e iter (W r)) in
  LET rho := dot n (W rtld) (if cr then W mr else W r) in
  if seqb rho s0 then Ok (Stop LIS_BREAKDOWN (mkK W (k_nrm k) (k_rh k), l)) else
  d1 <- divz rho rho_old ;;
  d2 <- divz alpha qsi ;;
  LET beta := smul d1 d2 in
  LET W := upd W w (axpyz n beta (W ap) (W amt)) in
  LET W := upd W p (axpy n (sopp s1) (W u) (W p)) in
  LET W := upd W p (xpay n (W mr) beta (W p)) in
  LET W := upd W mt_old (copy n (W mt)) in
  Ok (Next (mkK W (k_nrm k) (k_rh k), (beta, rho))).
Definition lis_gpbicg (e : env) := solver e 1 (gpbicg_start false e) (gpbicg_body false e).
Definition lis_gpbicr (e : env) := solver e 1 (gpbicg_start true e) (gpbicg_body true e).

(** ** BiCGSafe: lis_solver_bicgsafe.c:145-323.  locals beta, rho_old *)
Definition bicgsafe_start (e : env) (bnrm tol : T) (W : Z -> vect) : res ((Z -> vect) * (T * T)) :=
  let n := e_n e in
  let rtld := 0 in let r := 1 in let mr := 2 in let amr := 3 in let p := 4 in let ap := 5 in
  LET W := upd W rtld (set_shadowresidual e (W r)) in
  LET W := upd W mr (e_psolve e 0 (W r)) in
  LET W := upd W amr (matvec n (e_E e) (W mr)) in
  LET rho_old := dot n (W rtld) (W r) in
  LET W := upd W ap (copy n (W amr)) in
  LET W := upd W p (copy n (W mr)) in
  Ok (W, (s0, rho_old)).
Definition bicgsafe_body (e : env) (bnrm tol : T) (iter : Z) (s : kst * (T * T)) : res (ctl (kst * (T * T))) :=
  let n := e_n e in
  let rtld := 0 in let r := 1 in let mr := 2 in let amr := 3 in let p := 4 in let ap := 5 in let t := 6 in let mt := 7 in
  let y := 8 in let u := 9 in let z := 10 in let au := 11 in
  let '(k, l) := s in let '(beta, rho_old) := l in
  let W := k_W k in
  LET tmpdot0 := dot n (W rtld) (W ap) in
  alpha <- divz rho_old tmpdot0 ;;
  ' (qsi, eta) <- qsi_eta iter (dot n (W y) (W y)) (dot n (W amr) (W r)) (dot n (W y) (W r)) (dot n (W amr) (W y)) (dot n (W amr) (W amr)) ;;
  LET W := upd W t (copy n (W y)) in
  LET W := upd W t (scale n eta (W t)) in
  LET W := upd W t (axpy n qsi (W ap) (W t)) in
  LET W := upd W mt (e_psolve e iter (W t)) in
  LET W := upd W u (xpay n (W mt) (smul eta beta) (W u)) in
  LET W := upd W au (matvec n (e_E e) (W u)) in
  LET W := upd W z (scale n eta (W z)) in
  LET W := upd W z (axpy n qsi (W mr) (W z)) in
  LET W := upd W z (axpy n (sopp alpha) (W u) (W z)) in
  LET W := upd W y (scale n eta (W y)) in
  LET W := upd W y (axpy n qsi (W amr) (W y)) in
  LET W := upd W y (axpy n (sopp alpha) (W au) (W y)) in
  LET W := upd W X (axpy n alpha (W p) (W X)) in
  LET W := upd W X (axpy n s1 (W z) (W X)) in
  LET W := upd W r (axpy n (sopp alpha) (W ap) (W r)) in
  LET W := upd W r (axpy n (sopp s1) (W y) (W r)) in
  ' (stop, k) <- conv_check e bnrm tol iter (W r) W k ;;
  if (stop : bool) then Ok (Stop LIS_SUCCESS (k, l)) else
  LET rho := dot n (W rtld) (W r) in
  if seqb rho s0 then Ok (Stop LIS_BREAKDOWN (k, l)) else
  d1 <- divz rho rho_old ;;
  d2 <- divz alpha qsi ;;
  LET beta := smul d1 d2 in
  LET W := upd W mr (e_psolve e iter (W r)) in
  LET W := upd W amr (matvec n (e_E e) (W mr)) in
  LET W := upd W p (axpy n (sopp s1) (W u) (W p)) in
  LET W := upd W p (xpay n (W mr) beta (W p)) in
  LET W := upd W ap (axpy n (sopp s1) (W au) (W ap)) in
  LET W := upd W ap (xpay n (W amr) beta (W ap)) in
  Ok (Next (mkK W (k_nrm k) (k_rh k), (beta, rho))).
Definition lis_bicgsafe (e : env) := solver e 1 (bicgsafe_start e) (bicgsafe_body e).

(** ** BiCRSafe: lis_solver_bicgsafe.c:1048-1226 *)
Definition bicrsafe_start (e : env) (bnrm tol : T) (W : Z -> vect) : res ((Z -> vect) * (T * T)) :=
  let n := e_n e in
  let rtld := 0 in let r := 1 in let mr := 2 in let amr := 3 in let p := 4 in let ap := 5 in let artld := 12 in
  LET W := upd W rtld (set_shadowresidual e (W r)) in
  LET W := upd W artld (matvech n (e_E e) (W rtld)) in
  LET W := upd W mr (e_psolve e 0 (W r)) in
  LET W := upd W amr (matvec n (e_E e) (W mr)) in
  LET rho_old := dot n (W rtld) (W amr) in
  LET W := upd W ap (copy n (W amr)) in
  LET W := upd W p (copy n (W mr)) in
  Ok (W, (s0, rho_old)).
Definition bicrsafe_body (e : env) (bnrm tol : T) (iter : Z) (s : kst * (T * T)) : res (ctl (kst * (T * T))) :=
  let n := e_n e in
  let rtld := 0 in let r := 1 in let mr := 2 in let amr := 3 in let p := 4 in let ap := 5 in let map_ := 6 in let my := 7 in
  let y := 8 in let u := 9 in let z := 10 in let au := 11 in let artld := 12 in
  let '(k, l) := s in let '(beta, rho_old) := l in
  let W := k_W k in
  LET W := upd W map_ (e_psolve e iter (W ap)) in
  LET tmpdot0 := dot n (W artld) (W map_) in
  alpha <- divz rho_old tmpdot0 ;;
  ' (qsi, eta) <- qsi_eta iter (dot n (W y) (W y)) (dot n (W amr) (W r)) (dot n (W y) (W r)) (dot n (W amr) (W y)) (dot n (W amr) (W amr)) ;;
  LET W := upd W u (scale n (smul eta beta) (W u)) in
  LET W := upd W u (axpy n qsi (W map_) (W u)) in
  LET W := upd W u (axpy n eta (W my) (W u)) in
  LET W := upd W au (matvec n (e_E e) (W u)) in
  LET W := upd W z (scale n eta (W z)) in
  LET W := upd W z (axpy n qsi (W mr) (W z)) in
  LET W := upd W z (axpy n (sopp alpha) (W u) (W z)) in
  LET W := upd W y (scale n eta (W y)) in
  LET W := upd W y (axpy n qsi (W amr) (W y)) in
  LET W := upd W y (axpy n (sopp alpha) (W au) (W y)) in
  LET W := upd W my (e_psolve e iter (W y)) in
  LET W := upd W X (axpy n alpha (W p) (W X)) in
  LET W := upd W X (axpy n s1 (W z) (W X)) in
  LET W := upd W r (axpy n (sopp alpha) (W ap) (W r)) in
  LET W := upd W r (axpy n (sopp s1) (W y) (W r)) in
  ' (stop, k) <- conv_check e bnrm tol iter (W r) W k ;;
  if (stop : bool) then Ok (Stop LIS_SUCCESS (k, l)) else
  LET W := upd W mr (axpy n (sopp alpha) (W map_) (W mr)) in
  LET W := upd W mr (axpy n (sopp s1) (W my) (W mr)) in
  LET W := upd W amr (matvec n (e_E e) (W mr)) in
  LET rho := dot n (W rtld) (W amr) in
  if seqb rho s0 then Ok (Stop LIS_BREAKDOWN (mkK W (k_nrm k) (k_rh k), l)) else
  d1 <- divz rho rho_old ;;
  d2 <- divz alpha qsi ;;
  LET beta := smul d1 d2 in
  LET W := upd W p (axpy n (sopp s1) (W u) (W p)) in
  LET W := upd W p (xpay n (W mr) beta (W p)) in
  LET W := upd W ap (axpy n (sopp s1) (W au) (W ap)) in
  LET W := upd W ap (xpay n (W amr) beta (W ap)) in
  Ok (Next (mkK W (k_nrm k) (k_rh k), (beta, rho))).
Definition lis_bicrsafe (e : env) := solver e 1 (bicrsafe_start e) (bicrsafe_body e).
End M.
Arguments Next {A} _.
Arguments Stop {A} _ _.
