(** What a history of lis_matrix_set_value calls means.  No code of the library. *)
Require Import ZArith List Bool.
From Verif Require Import Base Scalar Spec Assemble.
Import ListNotations.
Open Scope Z_scope.

Section SpecAssemble.
Context {T : Type} {S : Scalar T}.

(** A call is (flag, i, j, value) with i, j in the user's numbering (from 1 if origin).
    The value at (i,j) (counted from 0) after a call: INS overwrites, another flag
    adds to what is there; a first write stores the value. *)
Definition hist_step (origin : bool) (i j : Z) (acc : option T) (op : Z * Z * Z * T) : option T :=
  let '(flag, oi, oj, v) := op in
  let o := if origin then 1 else 0 in
  if (oi - o =? i) && (oj - o =? j) then
    Some (if flag =? INS_VALUE then v else match acc with Some w => sadd w v | None => v end)
  else acc.
Definition hist (origin : bool) (ops : list (Z * Z * Z * T)) (i j : Z) : option T :=
  fold_left (hist_step origin i j) ops None.

(** a call whose position lies in the n x n matrix *)
Definition op_in_range (o : bool) (n : Z) (op : Z * Z * Z * T) : bool :=
  let '(flag, i, j, v) := op in
  let b := if o then 1 else 0 in (0 <=? i - b) && (i - b <? n) && (0 <=? j - b) && (j - b <? n).

Definition op_code (o : bool) (n : Z) (op : Z * Z * Z * T) : Z := if op_in_range o n op then SUCCESS else ILL_ARG.

(** the entries E are what the calls leave: one entry for each position written *)
Definition is_history (o : bool) (n : Z) (ops : list (Z * Z * Z * T)) (E : list (entry T)) : Prop :=
  no_dup_pos E /\ forall i j v, In (i, j, v) E <-> 0 <= i < n /\ 0 <= j < n /\ hist o ops i j = Some v.

(** a matrix whose size is set and which has no entries yet; the row buffers may
    have been announced by lis_matrix_malloc *)
Definition ready (n : Z) (A : mat T) : Prop :=
  m_status A = MATRIX_NULL /\ m_n A = n /\ m_gn A = n /\ m_is A = 0 /\ 0 < n /\ 0 < m_annz A /\
  match m_nnz A with None => True | Some w => zlen w = n /\ forall r, 0 <= r < n -> 0 <= znth 0 w r end.

End SpecAssemble.
