(** What the matrix-matrix operations promise, coefficient by coefficient. *)
Require Import ZArith List Bool.
From Verif Require Import Base Scalar Spec.
Import ListNotations.
Open Scope Z_scope.

Section S.
Context {T : Type} {S : Scalar T}.
(** E' = E + alpha F *)
Definition plus_multiple (alpha : T) (E F E' : list (entry T)) : Prop := forall i j, coef E' i j = sadd (coef E i j) (smul alpha (coef F i j)).
(** E' = E - sigma F *)
Definition minus_multiple (sigma : T) (E F E' : list (entry T)) : Prop := forall i j, coef E' i j = ssub (coef E i j) (smul sigma (coef F i j)).
End S.
