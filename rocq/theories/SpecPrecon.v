(** The preconditioning matrices. *)
Require Import ZArith List Bool.
From Verif Require Import Base Scalar Spec SpecIlu.
Import ListNotations.
Open Scope Z_scope.

Section S.
Context {T : Type} {S : Scalar T}.

(** the diagonal part of a *)
Definition diag_part (a : Z -> Z -> T) (i j : Z) : T := if i =? j then a i i else s0.

(** SSOR with relaxation coefficient w, as stated in lis_precon_ssor.c:
    M = (D/w + L) (I + w D^-1 U) *)
Definition ssor_left (w : T) (a : Z -> Z -> T) (i j : Z) : T :=
  if i =? j then sdiv (a i i) w else if j <? i then a i j else s0.
Definition ssor_right (w : T) (a : Z -> Z -> T) (i j : Z) : T :=
  if i =? j then s1 else if i <? j then smul (smul w (sdiv s1 (a i i))) (a i j) else s0.
Definition ssor_matrix (n : Z) (w : T) (a : Z -> Z -> T) : Z -> Z -> T := mat_mul 0 n (ssor_left w a) (ssor_right w a).
End S.
