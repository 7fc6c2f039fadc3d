(** What a linear solver promises.  No code of the library. *)
Require Import ZArith List Bool.
From Verif Require Import Base Scalar Spec.
Import ListNotations.
Open Scope Z_scope.

Section S.
Context {T : Type} {S : Scalar T}.
Definition vcomp (v : list T) (i : Z) : T := znth s0 v i.
(** b - A x, for the matrix with entries E *)
Definition residual (n : Z) (E : list (entry T)) (b x : list T) : list T :=
  map (fun i => ssub (vcomp b i) (mv_spec E n (vcomp x) i)) (zrange 0 n).
(** ||v||_2 and ||v||_1 *)
Definition norm2 (n : Z) (v : list T) : T := ssqrt (ssum (map (fun i => smul (sconj (vcomp v i)) (vcomp v i)) (zrange 0 n))).
Definition norm1 (n : Z) (v : list T) : T := ssum (map (fun i => sabs (vcomp v i)) (zrange 0 n)).
(** a relative to b; a itself when b is zero *)
Definition rel (a b : T) : T := if seqb b s0 then a else sdiv a b.

(** User's Guide, option -conv_cond: the measured quantity and its bound, for the
    residual r, the initial residual r0 and the right-hand side b.
    0: ||r||_2 / ||r0||_2 <= tol   1: ||r||_2 / ||b||_2 <= tol   2: ||r||_1 <= tol_w ||b||_1 + tol *)
Definition measured (conv n : Z) (b r0 r : list T) : T :=
  if conv =? 0 then rel (norm2 n r) (norm2 n r0)
  else if conv =? 1 then rel (norm2 n r) (norm2 n b)
  else norm1 n r.
Definition bound (conv n : Z) (tol tolw : T) (b : list T) : T :=
  if (conv =? 0) || (conv =? 1) then tol else sadd (smul (norm1 n b) tolw) tol.
(** the initial residual is measured like this before any iteration (lis.h names the same
    quantities; for condition 2 it is the relative 1-norm) *)
Definition initial_measure (conv n : Z) (b r0 : list T) : T :=
  if (conv =? 0) || (conv =? 1) then measured conv n b r0 r0 else rel (norm1 n r0) (norm1 n b).
(** component-wise product with d *)
Definition dmul (n : Z) (d v : list T) : list T := map (fun i => smul (vcomp d i) (vcomp v i)) (zrange 0 n).
Definition zeros (n : Z) : list T := map (fun _ => s0) (zrange 0 n).
(** the update of one iteration from xp to x, in terms of the matrix: 10 Jacobi, 11
    Gauss-Seidel, 12 SOR with factor w *)
Definition is_update (k : Z) (w : T) (n : Z) (E : list (entry T)) (b xp x : list T) : Prop :=
  let dx := fun j => ssub (vcomp x j) (vcomp xp j) in
  forall i, 0 <= i < n ->
    sadd (smul (if k =? 12 then sdiv (coef E i i) w else coef E i i) (dx i))
         (if k =? 10 then s0 else ssum (map (fun j => smul (coef E i j) (dx j)) (zrange 0 i)))
    = vcomp (residual n E b xp) i.

End S.
