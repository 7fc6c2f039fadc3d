(** What the residual history of a solve is.  No code of the library. *)
Require Import ZArith List Bool.
From Verif Require Import Base Scalar Spec SpecSolver Solve.
Import ListNotations.
Open Scope Z_scope.

Section S.
Context {T : Type} {S : Scalar T}.
(** L lists the residuals of a run which made the iterations 1 .. k, the first entry being 1: all before the last one are
    above the bound; after convergence the last one is the reported residual and meets it *)
Definition is_residual_history (B : T) (v : solved (T:=T)) (L : list T) : Prop :=
  let k := if v_status v =? LIS_SUCCESS then v_iter v else v_iter v - 1 in
  zlen L = k + 1 /\ znth s0 L 0 = s1 /\
  (forall j, 1 <= j < v_iter v -> sleb (znth s0 L j) B = false) /\
  (v_status v = LIS_SUCCESS -> v_resid v = Some (znth s0 L k) /\ sleb (znth s0 L k) B = true).
(** w' is w with the first values of L written over it, as many as there are or as fit *)
Definition overwritten (vn : Z) (w L w' : list T) : Prop :=
  zlen w' = zlen w /\ forall i, 0 <= i < zlen w -> znth s0 w' i = if (i <? vn) && (i <? zlen L) then znth s0 L i else znth s0 w i.
End S.
