(** Model of lis_solver_get_rhistory (src/solver/lis_solver.c:1739-1754) and lis_solver_output_rhistory
    (src/system/lis_output.c:585-655, #else branch; the file can be opened). *)
Require Import ZArith List Bool.
From Verif Require Import Base Scalar Spec Krylov Solve.
Import ListNotations.
Open Scope Z_scope.

Section S.
Context {T : Type} {S : Scalar T}.
(** the fields of LIS_SOLVER the two functions read: retcode, iter, rhistory (None: NULL) *)
Record hfields := mkH { h_ret : Z; h_iter : Z; h_rh : option (list T) }.
(** lis_solver_init (lis_solver.c:218-287) sets rhistory and iter, but not retcode, which keeps the content
    [r] of the freshly allocated memory (lis_solver_create, lis_solver.c:296-318) *)
Definition fresh_solver (r : Z) : hfields := mkH r 0 None.
(** after lis_solve on a new solver (Solve.v); a call that fails before 848 leaves rhistory as it was *)
Definition after (v : solved (T:=T)) : hfields := mkH (v_status v) (v_iter v) (if v_ret v =? 0 then Some (v_rh v) else None).
(** maxiter = solver->iter+1; if( retcode!=LIS_SUCCESS ) maxiter--  (1743-1747, 595-599) *)
Definition hcount (h : hfields) : Z := if h_ret h =? LIS_SUCCESS then h_iter h + 1 else h_iter h + 1 - 1.
(** lis_solver_get_rhistory: n = min(v->n,maxiter); v->value[i] = rhistory[i]; [vn] = v->n, [w] = v->value.  No test for NULL *)
Definition get_rhistory (h : hfields) (vn : Z) (w : list T) : res (list T) :=
  for_ 0 (Z.min vn (hcount h)) (fun i w =>
    a <- (match h_rh h with Some rh => rd rh i | None => UB end) ;; wr w i a) w.
(** lis_solver_output_rhistory: the numbers printed, one a line *)
Definition output_rhistory (h : hfields) : res (list T) :=
  match h_rh h with
  | None => Err (-1)  (* LIS_FAILS *)
  | Some rh => for_ 0 (hcount h) (fun i out => a <- rd rh i ;; Ok (out ++ [a])) []
  end.
End S.
Arguments hfields T : clear implicits.
