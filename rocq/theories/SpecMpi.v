(** Specification vocabulary for distributed matrices (C41, C42). *)
Require Import ZArith List.
From Verif Require Import Base Scalar Spec.
Import ListNotations.
Open Scope Z_scope.

(** The column that local number [l] stands for on a process that owns the global rows
    lo .. lo+n-1: the first n numbers are the own rows, the others are looked up. *)
Definition to_global (lo n : Z) (l2g : list Z) (l : Z) : Z :=
  if l <? n then lo + l else znth 0 l2g (l - n).

Definition increasing (l : list Z) : Prop :=
  forall i j, 0 <= i < j -> j < zlen l -> znth 0 l i < znth 0 l j.

(** A matrix of order gn spread over P processes by blocks of rows. *)
Section Distributed.
Context {T : Type} {S : Scalar T}.
Definition row_blocks (P gn : Z) (ranges : list Z) : Prop :=
  0 < P /\ zlen ranges = P + 1 /\ znth 0 ranges 0 = 0 /\ znth 0 ranges P = gn /\
  (forall p, 0 <= p < P -> znth 0 ranges p <= znth 0 ranges (p + 1)).
Definition distributed (P gn : Z) (ranges : list Z) (A : Z -> csr T) : Prop :=
  row_blocks P gn ranges /\
  forall p, 0 <= p < P ->
    csr_ok (A p) /\ csr_np (A p) = gn /\ csr_n (A p) = znth 0 ranges (p + 1) - znth 0 ranges p.
(** its entries, rows counted globally *)
Definition global_entries (P : Z) (ranges : list Z) (A : Z -> csr T) : list (entry T) :=
  flat_map (fun p => map (fun e => (znth 0 ranges p + erow e, ecol e, eval e)) (csr_entries (A p))) (zrange 0 P).
(** [x] is the process's part of the global vector [g] (positions after the n own ones are free) *)
Definition part_of (lo n : Z) (g : Z -> T) (x : list T) : Prop :=
  n <= zlen x /\ forall i, 0 <= i < n -> znth s0 x i = g (lo + i).
End Distributed.
