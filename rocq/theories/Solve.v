(** Model of lis_solve and lis_solve_kernel (lis_solver.c:367-935), double precision, one
    process, matrix given by its entries (any storage format, by C17-C23, C28, C29).
    - lis_precon_create is its error code; the preconditioner it builds is arbitrary.
    - left out ([Err NOT_MODELLED]): preconditioner I+S (precon_type 5); block scaling of BSR,
      conversion by -storage (C27), timing and output.
    - A and b are not scaled before the call (is_scaled false).
    - the state kept inside A between calls (A->WD) is absent. *)
Require Import ZArith List Bool.
From Verif Require Import Base Scalar Spec Krylov Krylov2 Krylov3 Gmres.
Import ListNotations.
Open Scope Z_scope.

Definition NOT_MODELLED : Z := -101.
Section M.
Context {T : Type} {S : Scalar T}.
Notation vec := (vect (T:=T)).

(** solver->options and solver->params *)
Record opts := mkOpts {
  s_solver : Z; s_precon : Z; s_maxiter : Z; s_conv : Z; s_tol : T; s_tolw : T;
  s_zeros : bool; s_mem : bool; s_scale : Z; s_restart : Z; s_omega : T;
  s_pcreate : Z;                        (* what lis_precon_create returns *)
  s_psolve : Z -> vec -> vec; s_psolveh : Z -> vec -> vec;
  s_shadow : option vec;
  s_junk : Z -> T;                      (* contents of freshly allocated memory *)
  s_ell : Z; s_idrs : Z;                (* options[LIS_OPTIONS_ELL], options[LIS_OPTIONS_IDRS_RESTART] *)
  s_rand : Z -> T }.                    (* the numbers genrand_real1 returns *)

(** what the caller sees afterwards: return value, lis_solver_get_status, _get_iter,
    _get_residualnorm, x, rhistory, and A and b, which scaling overwrites *)
Record solved := mkSolved { v_ret : Z; v_status : Z; v_iter : Z; v_resid : option T; v_x : vec;
  v_rh : list T; v_E : list (entry T); v_b : vec }.

(** lis_solver_execute[], lis_solver.c:93-104 *)
Definition execute (o : opts) (e : env) (x : vec) (rh : list T) : res sol :=
  match s_solver o with
  | 1 => lis_cg e x rh | 2 => lis_bicg e x rh | 3 => lis_cgs e x rh | 4 => lis_bicgstab e x rh
  | 5 => lis_bicgstabl (s_ell o) (s_junk o) e x rh
  | 6 => lis_gpbicg e x rh
  | 7 => lis_tfqmr e x rh
  | 8 => lis_orthomin (s_restart o) (tab (s_restart o + 1) (s_junk o)) e x rh
  | 9 => lis_gmres (s_restart o) (s_junk o) e x rh
  | 10 => lis_jacobi e x rh
  | 11 => ' (r, _) <- lis_gs e None x rh ;; Ok r
  | 12 => ' (r, _) <- lis_sor e (s_omega o) None x rh ;; Ok r
  | 13 => lis_bicgsafe e x rh | 14 => lis_cr e x rh | 15 => lis_bicr e x rh | 16 => lis_crs e x rh
  | 17 => lis_bicrstab e x rh | 18 => lis_gpbicr e x rh | 19 => lis_bicrsafe e x rh
  | 20 => lis_fgmres (s_restart o) (s_junk o) e x rh
  | 21 => lis_idrs (s_idrs o) (s_rand o) (s_junk o) e x rh
  | 22 => lis_idr1 (s_idrs o) (s_rand o) e x rh
  | 23 => lis_minres e x rh
  | 24 => lis_cocg e x rh | 25 => lis_cocr e x rh
  | _ => Err NOT_MODELLED               (* excluded by lis_solve_kernel *)
  end.
(** lis_solver_execute_conv_cond[nsolver]==NULL, lis_solver.c:106-117 *)
Definition conv_null (nsolver : Z) : bool :=
  (nsolver =? 7) || ((9 <=? nsolver) && (nsolver <=? 12)) || (nsolver =? 20) || (nsolver =? 23).
(** lis_solver_check_params[]; Orthomin (lis_solver_orthomin.c:58-73), GMRES and FGMRES
    (lis_solver_gmres.c:59-74, 1052-1067), BiCGSTAB(l) (lis_solver_bicgstabl.c:58-73); the other modelled solvers accept everything, SOR requires 0 < |omega| < 2 (lis_solver_sor.c:59-74) *)
Definition check_params (o : opts) : Z :=
  if ((s_solver o =? 8) || (s_solver o =? 9) || (s_solver o =? 20)) && (s_restart o <? 0) then LIS_ERR_ILL_ARG
  else if (s_solver o =? 5) && (s_ell o <? 1) then LIS_ERR_ILL_ARG
  else if (s_solver o =? 12) && (sleb (sabs (s_omega o)) s0 || sleb (sadd s1 s1) (sabs (s_omega o))) then LIS_ERR_ILL_ARG
  else LIS_SUCCESS.

(** lis_matrix_scale, lis_matrix_ops.c:579-715 (C33) on entries *)
Definition scale_diag (sym : bool) (n : Z) (E : list (entry T)) : res vec :=
  for_ 0 n (fun i d =>
    let a := coef E i i in
    q <- divz s1 (if sym then ssqrt (sabs a) else a) ;; wr d i q) (set_all n s0).
Definition scale_entries (sym : bool) (d : vec) (E : list (entry T)) : list (entry T) :=
  map (fun e => let '(i, j, a) := e in
       (i, j, if sym then smul (smul a (at_ d i)) (at_ d j) else smul a (at_ d i))) E.

Definition lis_solve (o : opts) (n : Z) (E : list (entry T)) (b x : vec) : res solved :=
  let fail c := Ok (mkSolved c c 0 None x [] E b) in
  (* 379-383: returns without touching retcode; the status query gives the old value *)
  if (s_precon o <? 0) || (s_precon o >? 10) then fail LIS_ERR_ILL_ARG else
  if negb (s_pcreate o =? 0) then fail (s_pcreate o) else
  (* lis_solve_kernel: parameter checks, 484-545 *)
  if (s_solver o <? 1) || (s_solver o >? 25) then fail LIS_ERR_ILL_ARG else
  if s_maxiter o <? 0 then fail LIS_ERR_ILL_ARG else
  if (s_conv o >? 0) && conv_null (s_solver o) then fail LIS_ERR_ILL_ARG else
  if negb (check_params o =? 0) then fail (check_params o) else
  if s_precon o =? 5 then Err NOT_MODELLED else
  (* 551-594: initial vector *)
  let xx := if s_zeros o then set_all n s0 else copy n x in
  (* 596-606: rhistory *)
  rh <- wr (tab (s_maxiter o + 2) (s_junk o)) 0 s1 ;;
  (* 612-720: scaling *)
  let stat := (10 <=? s_solver o) && (s_solver o <=? 12) in
  let scale := if stat && negb (s_precon o =? 0) then s_scale o
               else if (s_scale o =? 1) && (s_solver o =? 1) then 2 else s_scale o in
  let todo := (stat && negb (s_precon o =? 0)) || negb (scale =? 0) in
  let sym := negb (stat && negb (s_precon o =? 0)) && (scale =? 2) in
  ' (E', b', d) <- (if todo then
       d <- scale_diag sym n E ;; Ok (scale_entries sym d E, pmul n b d, d)
     else Ok (E, b, set_all n s0)) ;;
  let e := mkEnv n E' b' (s_psolve o) (s_psolveh o) (s_maxiter o) (s_conv o) (s_tol o) (s_tolw o)
                 (s_zeros o) (s_mem o) (s_shadow o) in
  (* 847-865 *)
  r <- execute o e xx rh ;;
  (* 868-893: x = xx, or d xx for symmetric scaling *)
  let x' := if scale =? 2 then pmul n (o_x r) d else copy n (o_x r) in
  Ok (mkSolved LIS_SUCCESS (o_ret r) (o_iter r) (o_resid r) x' (o_rh r) E' b').
End M.
