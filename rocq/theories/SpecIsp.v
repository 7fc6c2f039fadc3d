(** What the I+S preconditioner and the additive Schwarz wrapper are. *)
Require Import ZArith List Bool.
From Verif Require Import Base Scalar Spec SpecIlu.
Import ListNotations.
Open Scope Z_scope.

Section S.
Context {T : Type} {S : Scalar T}.

(** the first m stored entries of row i *)
Definition lead (m : Z) (E : list (entry T)) (i : Z) : list (entry T) := firstn (Z.to_nat m) (filter (fun e => erow e =? i) E).
(** the matrix I - alpha S, where row i of S consists of the first m entries of row i of E *)
Definition one_minus_s (alpha : T) (m : Z) (E : list (entry T)) (i c : Z) : T :=
  ssub (if i =? c then s1 else s0) (smul alpha (coef (lead m E i) i c)).

(** Refinement with an approximate inverse M: G_0 = M, G_(k+1) = G_k + M (I - A G_k) *)
Fixpoint refined (n : Z) (M a : Z -> Z -> T) (k : nat) (r c : Z) : T :=
  match k with
  | O => M r c
  | Datatypes.S k => sadd (refined n M a k r c) (ssub (M r c) (mat_mul 0 n M (mat_mul 0 n a (refined n M a k)) r c))
  end.
(** v - A M v *)
Definition defect (n : Z) (M a : Z -> Z -> T) (v : Z -> T) (r : Z) : T := ssub (v r) (mat_vec 0 n a (mat_vec 0 n M v) r).

(** [op] applied to r (old contents w of the result) is the multiplication by the n x n matrix M *)
Definition multiplies (n : Z) (op : list T -> list T -> res (list T)) (M : Z -> Z -> T) : Prop :=
  forall r w, zlen r = n -> zlen w = n -> exists w', op r w = Ok w' /\ zlen w' = n /\ forall i, 0 <= i < n -> znth s0 w' i = mat_vec 0 n M (znth s0 r) i.
(** conjugate transpose *)
Definition adjoint (M : Z -> Z -> T) (r c : Z) : T := sconj (M c r).
End S.
