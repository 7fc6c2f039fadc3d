(** What the User's Guide promises about the hybrid preconditioner: applying it to B runs the
    solver chosen by -hybrid_i on the system A X = B (for the conjugate transpose: A^H X = B) with the tolerance,
    iteration limit and relaxation coefficient given by the -hybrid_* options. *)
Require Import ZArith List Bool.
From Verif Require Import Base Scalar Spec SpecSolver SpecSolve Hybrid.
Import ListNotations.
Open Scope Z_scope.
Section S.
Context {T : Type} {S : Scalar T}.
(** options for which the guide gives a meaning *)
Definition hybrid_ok (h : hopts (T:=T)) : Prop :=
  1 <= h_solver h <= 25 /\ 0 <= h_precon h < 11 + h_registered h /\ h_pcreate h = 0 /\ 0 <= h_maxiter h /\ 0 <= h_restart h.
(** the starting vector: zero, or B itself when the outer solver was told not to start from zero *)
Definition start_vector (zs : bool) (n : Z) (B : list T) : list T := if zs then zeros n else B.
(** X solves A X = B up to the relative tolerance tol *)
Definition solved_to (n : Z) (E : list (entry T)) (tol : T) (x0 B X : list T) : Prop :=
  sleb (rel (norm2 n (residual n E B X)) (norm2 n (residual n E B x0))) tol = true.
(** the entries of A^H *)
Definition conj_transposed (E : list (entry T)) : list (entry T) :=
  map (fun e => let '(i, j, a) := e in (j, i, sconj a)) E.
End S.
