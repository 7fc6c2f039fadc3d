(** What splitting A = L + D + U and the triangular systems mean. *)
Require Import ZArith List Bool.
From Verif Require Import Base Scalar Spec Split.
Import ListNotations.
Open Scope Z_scope.

Section S.
Context {T : Type} {S : Scalar T}.

Definition lower (e : entry T) : bool := ecol e <? erow e.
Definition upper (e : entry T) : bool := erow e <? ecol e.
(** D as entries *)
Definition diag_entries (n : Z) (d : list T) : list (entry T) := map (fun i => (i, i, znth s0 d i)) (zrange 0 n).

Definition strictly_lower (E : list (entry T)) : Prop := forall e, In e E -> ecol e < erow e.
Definition strictly_upper (E : list (entry T)) : Prop := forall e, In e E -> erow e < ecol e.

(** well-formed L, D, U with L strictly lower and U strictly upper *)
Definition split_ok (A : split T) : Prop :=
  csr_ok (sp_L A) /\ csr_n (sp_L A) = sp_n A /\ csr_np (sp_L A) = sp_np A /\ strictly_lower (csr_entries (sp_L A)) /\
  csr_ok (sp_U A) /\ csr_n (sp_U A) = sp_n A /\ csr_np (sp_U A) = sp_np A /\ strictly_upper (csr_entries (sp_U A)) /\
  sp_n A <= zlen (sp_D A).

(** the entries of D+L, D+U and of the whole matrix *)
Definition DL (A : split T) : list (entry T) := csr_entries (sp_L A) ++ diag_entries (sp_n A) (sp_D A).
Definition DU (A : split T) : list (entry T) := diag_entries (sp_n A) (sp_D A) ++ csr_entries (sp_U A).
Definition split_entries (A : split T) : list (entry T) := csr_entries (sp_L A) ++ diag_entries (sp_n A) (sp_D A) ++ csr_entries (sp_U A).

(** wd holds the inverse diagonal *)
Definition inverse_diag (A : split T) (wd : list T) : Prop :=
  sp_n A <= zlen wd /\ forall i, 0 <= i < sp_n A -> smul (znth s0 (sp_D A) i) (znth s0 wd i) = s1.
End S.
