(** What the user of the allocator expects: the set of blocks handed out and not yet
    returned.  No code of the library, except the type of calls and the state. *)
Require Import ZArith List Bool.
From Verif Require Import Base Memory.
Import ListNotations.
Open Scope Z_scope.

(** the address handed to the user: the first multiple of 16 not below the system's *)
Definition handed_out (base : Z) : Z := (base + 15) / 16 * 16.

(** the live blocks (address, size) of the user, after one call *)
Definition user_step (live : list (Z * Z)) (o : mem_op) : list (Z * Z) :=
  match o with
  | MAlloc base size => (handed_out base, size) :: live
  | MFree p => filter (fun b => negb (fst b =? p)) live
  | MRealloc base p size => (handed_out base, size) :: filter (fun b => negb (fst b =? p)) live
  end.
Definition user_blocks (ops : list mem_op) : list (Z * Z) := fold_left user_step ops [].

(** the system allocator returns a block [base, base+size) of positive addresses that
    meets no live block *)
Definition fresh_block (base size : Z) (sys : list (Z * Z)) : Prop :=
  0 < base /\ 0 <= size /\ forall b, In b sys -> base + size <= fst b \/ fst b + snd b <= base.

(** the user frees and reallocates only blocks that are live, and never shrinks one;
    [sys] is the system's view before each call *)
Fixpoint good_history (ops : list mem_op) (live : list (Z * Z)) (s : mem) : Prop :=
  match ops with
  | [] => True
  | o :: ops =>
      match o with
      | MAlloc base size => 0 <= size /\ fresh_block base (size + 16) (m_sys s)
      | MFree p => exists z, In (p, z) live
      | MRealloc base p size => (exists z, In (p, z) live /\ z <= size) /\ fresh_block base (size + 16) (m_sys s)
      end /\
      forall s', mem_step o s = Ok s' -> good_history ops (user_step live o) s'
  end.
