(** Model of the hybrid preconditioner (lis_precon_hybrid.c:60-330), double precision, one
    process: an inner solver of Krylov.v, Krylov2.v, Krylov3.v, Gmres.v applied to the vector
    the outer solver hands over.
    - the inner preconditioner is arbitrary (any function of the inner iteration and the
      vector); lis_precon_create for it is its return code.
    - a call through a NULL or out-of-table function pointer and the use of an object that
      was never created are [UB].
    - malloc of a negative size (converted to size_t) fails, every other allocation succeeds. *)
Require Import ZArith List Bool.
From Verif Require Import Base Scalar Spec Krylov Krylov2 Krylov3 Gmres Solve.
Import ListNotations.
Open Scope Z_scope.

Section M.
Context {T : Type} {S : Scalar T}.
Notation vec := (vect (T:=T)).

(** the outer solver's options read by lis_precon_create_hybrid: -hybrid_i _maxiter _tol _omega
    _ell _restart _p, -initx_zeros *)
Record hopts := mkHopts {
  h_solver : Z; h_maxiter : Z; h_tol : T; h_w : T; h_ell : Z; h_restart : Z; h_precon : Z; h_zeros : bool;
  h_registered : Z;                     (* user-defined preconditioners registered so far *)
  h_pcreate : Z;                        (* what creating the inner preconditioner returns *)
  h_psolve : Z -> vec -> vec; h_psolveh : Z -> vec -> vec;   (* inner lis_psolve, lis_psolveh *)
  h_junk : Z -> T; h_rand : Z -> T }.

(** precon->solver: the options of the inner solver, of which SSOR_OMEGA is read only by an
    inner SSOR preconditioner *)
Record inner := mkInner { i_opts : opts (T:=T); i_ssor_w : T }.

(** lis_precon_create, lis_precon.c:126-166: tables of 11 built-in types, then the registered ones *)
Definition inner_precon_create (h : hopts) : res Z :=
  if (h_precon h <? 0) || (h_precon h >=? 11 + h_registered h) then UB else Ok (h_pcreate h).

(** lis_precon_create_hybrid, 60-158.  [omega0], [idrs0]: the defaults lis_solver_create puts
    into params[OMEGA] and options[IDRS_RESTART] (lis_solver.c:240-290).
    Result: return code and precon->solver (None: never set). *)
Definition create_hybrid (omega0 : T) (idrs0 : Z) (h : hopts) : res (Z * option inner) :=
  let o := mkOpts (h_solver h) (h_precon h) (h_maxiter h) 0 (h_tol h) s0 (h_zeros h) false 0
             (h_restart h) omega0 0 (h_psolve h) (h_psolveh h) None (h_junk h) (h_ell h) idrs0 (h_rand h) in
  (* 120-127: rhistory; LIS_SETERR_MEM does not set err, which is still 0 *)
  if h_maxiter h + 2 <? 0 then Ok (LIS_SUCCESS, None) else
  c <- inner_precon_create h ;;
  if negb (c =? 0) then Ok (c, None) else
  (* 141: lis_solver_malloc_work[nsolver], no range check; entry 0 is NULL *)
  if (h_solver h <? 1) || (h_solver h >? 25) then UB else
  Ok (LIS_SUCCESS, Some (mkInner o (h_w h))).

(** what an application returns; [y_inner] is the retcode of the inner solver, which the code drops *)
Record applied := mkApplied { y_ret : Z; y_X : vec; y_inner : Z; y_resid : option T }.

(** the inner solver on the system E x = B, lis_psolve_hybrid, 162-237 *)
Definition run_inner (o : opts) (n : Z) (E : list (entry T)) (B : vec) : res applied :=
  let xx := if s_zeros o then set_all n s0 else copy n B in
  let e := mkEnv n E B (s_psolve o) (s_psolveh o) (s_maxiter o) (s_conv o) (s_tol o) (s_tolw o)
                 (s_zeros o) (s_mem o) (s_shadow o) in
  r <- execute o e xx (tab (s_maxiter o + 2) (s_junk o)) ;;
  Ok (mkApplied LIS_SUCCESS (copy n (o_x r)) (o_ret r) (o_resid r)).
Definition psolve_hybrid (p : option inner) (n : Z) (E : list (entry T)) (B : vec) : res applied :=
  match p with None => UB | Some i => run_inner (i_opts i) n E B end.

(** lis_psolveh_hybrid, 239-322.  Around the inner solver it assigns lis_matvech and lis_matvec to
    the function pointers LIS_MATVEC and LIS_MATVECH, but no function of the library calls through
    these pointers: every solver calls lis_matvec and lis_matvech by name. *)
Definition psolveh_hybrid (p : option inner) (n : Z) (E : list (entry T)) (B : vec) : res applied :=
  psolve_hybrid p n E B.
End M.
