(** What an eigensolver promises.  No code of the library. *)
Require Import ZArith List Bool.
From Verif Require Import Base Scalar Spec SpecSolver.
Import ListNotations.
Open Scope Z_scope.

Section S.
Context {T : Type} {S : Scalar T}.
(** A x *)
Definition image (n : Z) (E : list (entry T)) (x : list T) : list T := map (fun i => mv_spec E n (vcomp x) i) (zrange 0 n).
(** A x - lambda x *)
Definition eig_residual (n : Z) (E : list (entry T)) (lambda : T) (x : list T) : list T :=
  map (fun i => ssub (mv_spec E n (vcomp x) i) (smul lambda (vcomp x i))) (zrange 0 n).
(** <u,v> = sum conj(u_i) v_i *)
Definition inner (n : Z) (u v : list T) : T := ssum (map (fun i => smul (sconj (vcomp u i)) (vcomp v i)) (zrange 0 n)).
(** <x, A x>: the Rayleigh quotient of a vector of norm 1 *)
Definition rayleigh (n : Z) (E : list (entry T)) (x : list T) : T := inner n x (image n E x).
(** x = z / ||z|| *)
Definition direction (n : Z) (x z : list T) : Prop :=
  norm2 n z <> s0 /\ forall i, 0 <= i < n -> vcomp x i = smul (sdiv s1 (norm2 n z)) (vcomp z i).
(** every row stores its diagonal entry *)
Definition full_diagonal (n : Z) (E : list (entry T)) : Prop := forall i, 0 <= i < n -> has_diag E i = true.
End S.
