(** What a Krylov subspace method promises about its projected matrix.  No code of the library. *)
Require Import ZArith List Bool Reals.
From Verif Require Import Base Scalar ScalarReal Spec SpecSolver SpecEsolver.
Import ListNotations.
Open Scope Z_scope.

(** <f,g> and ||f|| for vectors given by their components *)
Definition ipR (n : Z) (f g : Z -> R) : R := ssum (map (fun i => (f i * g i)%R) (zrange 0 n)).
Definition nmR (n : Z) (f : Z -> R) : R := sqrt (ipR n f f).
(** A f *)
Definition imageR (n : Z) (E : list (entry R)) (f : Z -> R) (i : Z) : R := mv_spec E n f i.
(** V_lo, ..., V_hi-1 orthonormal *)
Definition orthonormal (n lo hi : Z) (V : Z -> Z -> R) : Prop :=
  forall a b, lo <= a < hi -> lo <= b < hi -> ipR n (V a) (V b) = if a =? b then 1%R else 0%R.
(** the part of A V_k orthogonal to V_lo, ..., V_hi-1 *)
Definition remainder (n lo hi : Z) (E : list (entry R)) (V : Z -> Z -> R) (k : Z) (i : Z) : R :=
  (imageR n E (V k) i - ssum (map (fun l => ipR n (V l) (imageR n E (V k)) * V l i) (zrange lo hi)))%R.
Definition symmetric (n : Z) (E : list (entry R)) : Prop := forall i j, 0 <= i < n -> 0 <= j < n -> coef E i j = coef E j i.
Definition positive_definite (n : Z) (E : list (entry R)) : Prop := forall f : Z -> R, (exists i, 0 <= i < n /\ f i <> 0%R) -> (0 < ipR n f (imageR n E f))%R.
