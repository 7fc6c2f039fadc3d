(** The options of lis_solve covered by the theorems of Properties_Solver.v. *)
Require Import ZArith List Bool.
From Verif Require Import Base Scalar Spec SpecSolver Solve.
Import ListNotations.
Open Scope Z_scope.

(** CG BiCG CGS BiCGSTAB GPBiCG Orthomin BiCGSafe CR BiCR CRS BiCRSTAB GPBiCR BiCRSafe COCG COCR *)
Definition krylov_list : list Z := [1;2;3;4;6;8;13;14;15;16;17;18;19;24;25].
Section S.
Context {T : Type} {S : Scalar T}.
(** options lis_solve accepts (and the model covers) for a Krylov solver *)
Definition valid (o : opts (T:=T)) : Prop :=
  In (s_solver o) krylov_list /\ 0 <= s_precon o <= 10 /\ s_precon o <> 5 /\ s_pcreate o = 0 /\ 0 <= s_maxiter o /\
  (s_solver o = 8 -> 0 <= s_restart o) /\ (s_conv o = 0 \/ s_conv o = 1 \/ s_conv o = 2) /\ (s_scale o = 0 \/ s_scale o = 1 \/ s_scale o = 2).
(** the scaling that is applied: 0 none, 1 Jacobi, 2 symmetric *)
Definition eff_scale (o : opts (T:=T)) : Z := if (s_scale o =? 1) && (s_solver o =? 1) then 2 else s_scale o.
(** d inverts the diagonal (1) or its square root (2) *)
Definition is_scaling (sc n : Z) (E : list (entry T)) (d : list T) : Prop :=
  sc <> 0 -> forall i, 0 <= i < n -> let a := coef E i i in
    let q := if sc =? 2 then ssqrt (sabs a) else a in q <> s0 /\ vcomp d i = sdiv s1 q.
(** Jacobi and symmetric scaling multiply row i of the system by d_i *)
Definition weight (sc n : Z) (d v : list T) : list T := if sc =? 0 then v else dmul n d v.
(** the vector the iteration starts from.  Symmetric scaling solves for y with x = d y, and the
    code starts from y = the caller's vector *)
Definition start_x (sc : Z) (zs : bool) (n : Z) (d x : list T) : list T :=
  let g := if zs then zeros n else x in if sc =? 2 then dmul n d g else g.
End S.
