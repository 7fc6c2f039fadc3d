(** C14, C15, C16: building a matrix element by element; the life cycle of a matrix.
    SpecAssemble.v defines hist (the value a history of calls leaves at (i,j)),
    is_history (the entries are exactly what the history leaves), ready (size set,
    no entries yet) and op_code (the error code each call must return).
    ji, jv, jp, jw are the arbitrary contents of memory allocated on the way. *)
Require Import ZArith List Bool Lia Permutation.
From Verif Require Import Base Scalar Spec Assemble SpecAssemble AssembleProof.
Import ListNotations.
Open Scope Z_scope.

(** Any list of set_value calls, some of them out of range, then assemble to CSR or CSC *)
Theorem C14_set_value_history : forall (T : Type) (S : Scalar T) ji jv jp ji' jw jv' n (A : mat T) ops c,
  ready n A ->
  exists A1, set_values ji jv ops c A = Ok (map (op_code (m_origin A) n) ops, A1) /\
   (existsb (op_in_range (m_origin A) n) ops = false -> assemble jp ji' jw jv' A1 = Ok (ILL_ARG, A1)) /\
   (existsb (op_in_range (m_origin A) n) ops = true ->
     (m_type A = MATRIX_CSR -> exists B A', assemble jp ji' jw jv' A1 = Ok (SUCCESS, A') /\ m_csr A' = Some B /\ m_status A' = MATRIX_CSR /\
       csr_ok B /\ csr_exact B /\ csr_n B = n /\ csr_np B = n /\ is_history (m_origin A) n ops (csr_entries B)) /\
     (m_type A = MATRIX_CSC -> exists B A', assemble jp ji' jw jv' A1 = Ok (SUCCESS, A') /\ m_csc A' = Some B /\ m_status A' = MATRIX_CSC /\
       csc_ok B /\ csc_n B = n /\ csc_np B = n /\ is_history (m_origin A) n ops (csc_entries B))).
Proof. exact @history_wp. Qed.
Print Assumptions C14_set_value_history.

(** The states the theorem starts from are those the API produces *)
Theorem C14_ready_states : forall (T : Type) n (A : mat T),
  (0 < n -> ready n (snd (set_size (matrix_create (T:=T)) 0 n))) /\
  (forall k, ready n A -> 0 < k -> ready n (snd (matrix_malloc A k))) /\
  (forall t, ready n A -> 1 <= t <= 11 -> ready n (snd (set_type A t)) /\ m_type (snd (set_type A t)) = t /\ fst (set_type A t) = SUCCESS).
Proof. exact (fun T n A => conj (ready_create n) (conj (fun k => ready_malloc n k A) (fun t => ready_set_type n t A))). Qed.
Print Assumptions C14_ready_states.

(** a 3 x 3 matrix numbered from 0: (2,0) inserted, added to, overwritten; (0,1) added twice;
    one call out of range *)
Definition ops1 : list (Z * Z * Z * Z) :=
  [(INS_VALUE, 2, 0, 5); (ADD_VALUE, 0, 1, 3); (INS_VALUE, 3, 0, 9); (ADD_VALUE, 2, 0, 6); (ADD_VALUE, 0, 1, 4); (INS_VALUE, 2, 2, 1)].
Definition A1 : mat Z := snd (set_size (matrix_create (T:=Z)) 0 3).
Definition jk2 (a b : Z) : Z := 77.
Definition jk3 (a b c : Z) : Z := 77.
Definition jk1 (a : Z) : Z := 77.
Example C14_ex :
  ready 3 A1 /\
  (' (codes, B) <- set_values jk3 jk3 ops1 0 A1 ;; ' (c, C) <- assemble jk1 jk1 jk1 jk1 B ;; Ok (codes, c, option_map (fun B => csr_entries B) (m_csr C)))
    = Ok ([0; 0; 1; 0; 0; 0], 0, Some [(0, 1, 7); (2, 0, 11); (2, 2, 1)]) /\
  hist false ops1 2 0 = Some 11 /\ hist false ops1 0 1 = Some 7 /\ hist false ops1 1 1 = None.
Proof. split; [apply ready_create; lia|]. vm_compute. repeat split. Qed.

(** ** Histories outside C14: the library overruns its buffers.
    lis_matrix_malloc with row size 0 is accepted, and the second element of a row is
    then written behind the buffer (w_annz = 0 makes the "growth" zero). *)
Theorem C14_malloc_zero_refuted : exists (A : mat Z),
  A = snd (matrix_malloc A1 0) /\ fst (matrix_malloc A1 0) = SUCCESS /\
  forall ji jv c, set_values ji jv [(INS_VALUE, 0, 0, 5)] c A = UB.
Proof. eexists. split; [reflexivity|]. split; [reflexivity|]. intros. vm_compute. reflexivity. Qed.
Print Assumptions C14_malloc_zero_refuted.

(** lis_matrix_malloc after the first element changes the recorded buffer sizes, not the
    buffers: later elements are written out of bounds. *)
Theorem C14_late_malloc_refuted : exists (A : mat Z),
  fst (matrix_malloc A1 1) = SUCCESS /\ A = snd (matrix_malloc A1 1) /\
  forall ji jv, exists B, set_value ji jv INS_VALUE 0 0 5 A = Ok (SUCCESS, B) /\ fst (matrix_malloc B 4) = SUCCESS /\
    forall ji' jv', set_value ji' jv' INS_VALUE 0 1 6 (snd (matrix_malloc B 4)) = UB.
Proof.
  eexists. split; [reflexivity|]. split; [reflexivity|]. intros. eexists. split; [vm_compute; reflexivity|].
  split; [reflexivity|]. intros. vm_compute. reflexivity.
Qed.
Print Assumptions C14_late_malloc_refuted.

(** ** C15: refused calls return LIS_ERR_ILL_ARG and change nothing *)
Theorem C15_assembled_refuses_changes : forall (T : Type) (S : Scalar T) (A : mat T), not_assembled A = false ->
  (forall ji jv flag i j v, set_value ji jv flag i j v A = Ok (ILL_ARG, A)) /\
  (forall t, set_type A t = (ILL_ARG, A)) /\ (forall k, matrix_malloc A k = (ILL_ARG, A)) /\
  (forall w, matrix_malloc_rows A w = Ok (ILL_ARG, A)).
Proof. exact @assembled_refuses. Qed.
Print Assumptions C15_assembled_refuses_changes.

Theorem C15_index_out_of_range : forall (T : Type) (S : Scalar T) ji jv flag i j v (A : mat T),
  not_assembled A = true -> op_in_range (m_origin A) (m_gn A) (flag, i, j, v) = false -> set_value ji jv flag i j v A = Ok (ILL_ARG, A).
Proof. exact @index_refused. Qed.
Print Assumptions C15_index_out_of_range.

(** before set_size the matrix has no rows, so every call is out of range *)
Theorem C15_set_value_before_size : forall (T : Type) (S : Scalar T) ji jv flag i j v,
  set_value ji jv flag i j v (matrix_create (T:=T)) = Ok (ILL_ARG, matrix_create) /\
  (forall jp ji jw jv, assemble jp ji jw jv (matrix_create (T:=T)) = Ok (ILL_ARG, matrix_create)) /\
  check_all (matrix_create (T:=T)) = ILL_ARG.
Proof.
  intros. split; [|split; reflexivity]. apply index_refused; [reflexivity|]. cbn.
  destruct (Z.leb_spec 0 (i - 0)); [|reflexivity]. destruct (Z.ltb_spec (i - 0) 0); [lia|reflexivity].
Qed.
Print Assumptions C15_set_value_before_size.

Theorem C15_bad_sizes_refused : forall (T : Type) (A : mat T) l g,
  ~ (0 <= l /\ 0 <= g /\ (0 < l \/ 0 < g) /\ (g = 0 \/ l <= g)) -> set_size A l g = (ILL_ARG, A).
Proof. exact @set_size_refused. Qed.
Print Assumptions C15_bad_sizes_refused.

(** the test made first by lis_matrix_convert, copy, scale, ... *)
Theorem C15_unassembled_refused : forall (T : Type) (A : mat T), 0 < m_n A -> m_status A <= 0 -> check_all A = ILL_ARG.
Proof.
  intros T A Hn Hs. unfold check_all. destruct (_ =? _); [reflexivity|]. destruct (Z.ltb_spec 0 (m_n A)); [|lia].
  destruct (_ =? _); [reflexivity|]. change MATRIX_ASSEMBLING with 0. destruct (Z.leb_spec (m_status A) 0); [reflexivity|lia].
Qed.
Print Assumptions C15_unassembled_refused.

(** C15 fails for set_size: it is accepted on an assembled matrix, and makes it a matrix
    without entries (lis_matrix_set_size tests only that A exists). *)
Theorem C15_set_size_twice_refuted : exists (A : mat Z) jp ji jw jv B C,
  set_values jk3 jk3 ops1 0 A1 = Ok ([0; 0; 1; 0; 0; 0], A) /\ assemble jp ji jw jv A = Ok (SUCCESS, B) /\
  not_assembled B = false /\ set_size B 0 7 = (SUCCESS, C) /\ m_n C = 7 /\ m_status C = MATRIX_NULL /\ check_all C = ILL_ARG.
Proof. do 7 eexists. split; [vm_compute; reflexivity|]. split; [vm_compute; reflexivity|]. vm_compute. repeat split; reflexivity.
  Unshelve. all: exact (fun _ => 0). Qed.
Print Assumptions C15_set_size_twice_refuted.

Example C15_ex : exists B, (' (_, B) <- set_values jk3 jk3 ops1 0 A1 ;; ' (_, C) <- assemble jk1 jk1 jk1 jk1 B ;; Ok C) = Ok B /\ not_assembled B = false.
Proof. eexists. split; vm_compute; reflexivity. Qed.

(** ** C16: lis_matrix_set_csr takes the arrays exactly when the matrix has no entries
    and its size is set *)
Theorem C16_set_csr_partial : forall (T : Type) (A : mat T) nnz ptr index value, m_status A = MATRIX_NULL ->
  exists B, set_csr nnz ptr index value A = (SUCCESS, B) /\ m_csr B = Some (mkCsr (m_n A) (m_n A) nnz ptr index value) /\
    (0 < m_n A -> forall jp ji jw jv, exists C, assemble jp ji jw jv B = Ok (SUCCESS, C) /\ m_status C = MATRIX_CSR /\ m_csr C = m_csr B).
Proof.
  intros T A nnz ptr index value H. unfold set_csr, is_assembled. rewrite H. eexists. split; [reflexivity|]. split; [reflexivity|].
  intros Hn jp ji jw jv. unfold assemble. cbn [m_status m_n m_csr]. destruct (Z.ltb_spec 0 (m_n A)); [|lia]. vm_compute. eexists. split; [reflexivity|]. auto.
Qed.
Print Assumptions C16_set_csr_partial.

(** otherwise it returns LIS_SUCCESS and ignores them *)
Theorem C16_set_csr_ignored_refuted : exists (A : mat Z) nnz ptr index value,
  ready 3 A1 /\ (exists B, set_value jk2 jk2 INS_VALUE 0 0 5 A1 = Ok (SUCCESS, B) /\ A = B) /\
  set_csr nnz ptr index value A = (SUCCESS, A) /\ m_csr A = None /\
  set_csr nnz ptr index value (matrix_create (T:=Z)) = (SUCCESS, matrix_create).
Proof.
  eexists. exists 1, [0; 1; 1; 1], [0], [5]. split; [apply ready_create; lia|]. split; [eexists; split; [vm_compute; reflexivity|reflexivity]|].
  vm_compute. repeat split.
Qed.
Print Assumptions C16_set_csr_ignored_refuted.
