(** Specification of the hash table: a finite map.  No code of the library except the
    type of calls. *)
Require Import ZArith List Bool.
From Verif Require Import System.
Import ListNotations.
Open Scope Z_scope.

(** what key k is bound to after a history: the last value stored since the last clear *)
Definition hash_spec_step (k : Z) (acc : option Z) (o : hash_op) : option Z :=
  match o with HSet k' v => if k' =? k then Some v else acc | HClear => None end.
Definition hash_spec (ops : list hash_op) (k : Z) : option Z := fold_left (hash_spec_step k) ops None.
Definition key_ok (o : hash_op) : Prop := match o with HSet k _ => 0 <= k | HClear => True end.

