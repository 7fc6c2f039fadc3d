(** Model of Orthomin and of the stationary solvers; conventions of Krylov.v. *)
Require Import ZArith List Bool.
From Verif Require Import Base Scalar Spec Krylov.
Import ListNotations.
Open Scope Z_scope.

Section M.
Context {T : Type} {S : Scalar T}.
Notation env' := (env (T:=T)).
Notation vec := (vect (T:=T)).

(** ** Orthomin: lis_solver_orthomin.c:124-250.  m = options[RESTART]; r = work[0],
    rtld = work[1], p[j] = work[2+j], ap[j] = work[m+3+j], aptld[j] = work[2m+4+j].
    The array dotsave (m+1 elements of malloc'ed memory [ds]) is the local state. *)
Definition orthomin_start (e : env') (ds : list T) (bnrm tol : T) (W : Z -> vec) : res ((Z -> vec) * list T) :=
  (* get_initial_residual, lis_solver.c:1082-1100: rtld = M^-1 r *)
  Ok (upd W 1 (e_psolve e 0 (W 0)), ds).
Definition orthomin_body (m : Z) (e : env') (bnrm tol : T) (iter : Z) (s : kst * list T) : res (ctl (kst * list T)) :=
  let n := e_n e in
  let p := fun j => 2 + j in let ap := fun j => m + 3 + j in let aptld := fun j => 2 * m + 4 + j in
  let '(k, ds) := s in
  let W := k_W k in
  let ip := Z.rem (iter - 1) (m + 1) in
  LET W := upd W (p ip) (copy n (W 1)) in
  LET W := upd W (ap ip) (matvec n (e_E e) (W (p ip))) in
  LET W := upd W (aptld ip) (e_psolve e iter (W (ap ip))) in
  let lmax := Z.min m (iter - 1) in
  W <- for_ 1 (lmax + 1) (fun l W =>
         let ip0 := Z.rem (ip + m + 1 - l) (m + 1) in
         d <- rd ds (l - 1) ;;
         LET beta := smul (sopp (dot n (W (aptld ip)) (W (aptld ip0)))) d in
         LET W := upd W (p ip) (axpy n beta (W (p ip0)) (W (p ip))) in
         LET W := upd W (ap ip) (axpy n beta (W (ap ip0)) (W (ap ip))) in
         LET W := upd W (aptld ip) (axpy n beta (W (aptld ip0)) (W (aptld ip))) in
         Ok W) W ;;
  ds <- for_down (m - 1) 1 (fun l ds => d <- rd ds (l - 1) ;; wr ds l d) ds ;;
  LET d0 := dot n (W (aptld ip)) (W (aptld ip)) in
  ds <- wr ds 0 d0 ;;
  if seqb d0 s0 then Ok (Stop LIS_BREAKDOWN (mkK W (k_nrm k) (k_rh k), ds)) else
  d1 <- divz s1 d0 ;;
  ds <- wr ds 0 d1 ;;
  LET alpha := smul (dot n (W 1) (W (aptld ip))) d1 in
  LET W := upd W X (axpy n alpha (W (p ip)) (W X)) in
  LET W := upd W 0 (axpy n (sopp alpha) (W (ap ip)) (W 0)) in
  LET W := upd W 1 (axpy n (sopp alpha) (W (aptld ip)) (W 1)) in
  ' (stop, k) <- conv_check e bnrm tol iter (W 0) W k ;;
  if (stop : bool) then Ok (Stop LIS_SUCCESS (k, ds)) else Ok (Next (k, ds)).
Definition lis_orthomin (m : Z) (ds : list T) (e : env') := solver e 0 (orthomin_start e ds) (orthomin_body m e).

(** ** the stationary solvers
    lis_solver_jacobi.c:113-188, lis_solver_gs.c:113-205, lis_solver_sor.c:123-219.
    [step r] is the update: D^-1 r, or the solution t of the triangular system. *)
Definition stationary_iter (e : env') (bnrm : T) (step : vec -> vec) (iter : Z) (s : vec * option T * list T)
    : res (ctl (vec * option T * list T)) :=
  let n := e_n e in
  let '(x, _, rh) := s in
  LET s := e_psolve e iter x in
  LET t := matvec n (e_E e) s in
  LET r := axpyz n (sopp s1) t (e_b e) in
  LET nrm := nrm2 n r in
  LET x := axpy n s1 (step r) x in
  LET nrm := smul nrm bnrm in
  rh <- (if e_mem e then wr rh iter nrm else Ok rh) ;;
  if sleb nrm (e_tol e) then Ok (Stop LIS_SUCCESS (copy n (e_psolve e iter x), Some nrm, rh))
  else Ok (Next (x, Some nrm, rh)).
Definition stationary (e : env') (step : vec -> vec) (x : vec) (rh : list T) : res sol :=
  let n := e_n e in
  bnrm <- divz s1 (nrm2 n (e_b e)) ;;
  ' (ret, iter, (x, nrm, rh)) <- iterate (Z.to_nat (e_maxiter e)) 1 (stationary_iter e bnrm step) (x, None, rh) ;;
  let x := if ret =? LIS_MAXITER then copy n (e_psolve e iter x) else x in
  Ok (mkSol ret iter nrm x rh).

(** lis_matrix_get_diagonal (C32); lis_vector_reciprocal, lis_matrix_diag_inverse *)
Definition diagonal (e : env') : vec := tab (e_n e) (fun i => coef (e_E e) i i).
Definition reciprocal (n : Z) (d : vec) : res vec :=
  for_ 0 n (fun i r => q <- divz s1 (at_ r i) ;; wr r i q) d.
Definition lis_jacobi (e : env') (x : vec) (rh : list T) : res sol :=
  d <- reciprocal (e_n e) (diagonal e) ;;
  stationary e (fun r => pmul (e_n e) r d) x rh.

(** lis_matrix_solve(A,r,t,LIS_MATRIX_LOWER) with the inverted diagonal wd (C34) *)
Fixpoint forward (k : nat) (E : list (entry T)) (wd r : vec) : list T :=
  match k with
  | O => []
  | Datatypes.S k' =>
      let t := forward k' E wd r in
      let i := Z.of_nat k' in
      t ++ [smul (ssub (at_ r i) (ssum (map (fun j => smul (coef E i j) (at_ t j)) (zrange 0 i)))) (at_ wd i)]
  end.
(** [wd]: A->WD when A->use_wd already names this solver, from an earlier call; the
    result includes the A->WD left behind. *)
Definition lis_gs (e : env') (wd : option vec) (x : vec) (rh : list T) : res (sol * vec) :=
  wd <- (match wd with Some d => Ok d | None => reciprocal (e_n e) (diagonal e) end) ;;
  o <- stationary e (forward (Z.to_nat (e_n e)) (e_E e) wd) x rh ;;
  Ok (o, wd).
Definition lis_sor (e : env') (omega : T) (wd : option vec) (x : vec) (rh : list T) : res (sol * vec) :=
  w <- divz s1 omega ;;
  wd <- (match wd with Some d => Ok d | None => reciprocal (e_n e) (scale (e_n e) w (diagonal e)) end) ;;
  o <- stationary e (forward (Z.to_nat (e_n e)) (e_E e) wd) x rh ;;
  Ok (o, wd).
End M.
