(** Proofs about Transpose.v *)
Require Import ZArith List Bool Lia Permutation Ring.
From Verif Require Import Base Scalar Spec Items Csc CscProof Fmt ConvFinal Transpose.
Import ListNotations.
Open Scope Z_scope.
Section P.
Context {T : Type} {S : Scalar T}.
Definition swap_e (e : entry T) : entry T := (ecol e, erow e, eval e).
Lemma swap_swap (E : list (entry T)) : map swap_e (map swap_e E) = E.
Proof. rewrite map_map. rewrite <- (map_id E) at 2. apply map_ext. intros [[a b] v]. reflexivity. Qed.
Lemma coef_swap (E : list (entry T)) i j : coef (map swap_e E) i j = coef E j i.
Proof.
  unfold coef. rewrite filter_map, map_map. f_equal. rewrite (filter_ext_in (fun e => at_ij i j (swap_e e)) (at_ij j i)); [reflexivity|].
  intros e _. unfold at_ij, swap_e, erow, ecol. cbn [fst snd]. apply andb_comm.
Qed.
Definition as_csr (B : csc T) : csr T := mkCsr (csc_n B) (csc_np B) (csc_nnz B) (csc_ptr B) (csc_index B) (csc_value B).
Lemma as_csr_ok (B : csc T) : csc_ok B -> csc_np B = csc_n B -> csr_ok (as_csr B) /\ csr_entries (as_csr B) = map swap_e (csc_entries B).
Proof.
  intros (Hp & Hn & Hz & Hi & Hv & Hx) Hs. split.
  - unfold csr_ok, as_csr; cbn [csr_n csr_np csr_nnz csr_ptr csr_index csr_value]. rewrite <- Hs. split; [auto|]. split; [lia|]. split; [auto|]. split; [auto|]. split; [auto|]. rewrite Hs. exact Hx.
  - unfold csr_entries, csc_entries, as_csr; cbn [csr_n csr_np csr_nnz csr_ptr csr_index csr_value]. rewrite map_flat_map. rewrite Hs. apply flat_map_ext. intros j. rewrite map_map. reflexivity.
Qed.
Lemma transpose_csr_final jp ji jw jv (A : csr T) : csr_ok A -> csr_np A = csr_n A ->
  exists B, transpose_csr jp ji jw jv A = Ok B /\ csr_ok B /\ csr_n B = csr_n A /\ csr_np B = csr_np A /\
    Permutation (csr_entries B) (map (fun e => (ecol e, erow e, eval e)) (csr_entries A)).
Proof.
  intros HA Hs. destruct (csr2csc_final jp ji jw jv A HA) as (B & E & HB & H1 & H2 & H3 & H4 & _). destruct (as_csr_ok B HB ltac:(congruence)) as (O & EE).
  exists (as_csr B). unfold transpose_csr. rewrite E. split; [reflexivity|]. split; [auto|]. split; [auto|]. split; [auto|]. rewrite EE. apply Permutation_map. auto.
Qed.
Lemma transpose_twice_final jp ji jw jv jp' ji' jw' jv' (A : csr T) : csr_ok A -> csr_np A = csr_n A ->
  exists B C, transpose_csr jp ji jw jv A = Ok B /\ transpose_csr jp' ji' jw' jv' B = Ok C /\ csr_n C = csr_n A /\ csr_np C = csr_np A /\ Permutation (csr_entries C) (csr_entries A).
Proof.
  intros HA Hs. destruct (transpose_csr_final jp ji jw jv A HA Hs) as (B & E & HB & H1 & H2 & H3).
  destruct (transpose_csr_final jp' ji' jw' jv' B HB ltac:(congruence)) as (C & E' & HC & H1' & H2' & H3'). exists B, C. split; [auto|]. split; [auto|]. split; [congruence|]. split; [congruence|].
  rewrite H3'. rewrite (Permutation_map _ H3). fold swap_e. change (fun e : Z * Z * T => (ecol e, erow e, eval e)) with swap_e. rewrite swap_swap. reflexivity.
Qed.
Lemma transpose_coef (RT : is_ring S) jp ji jw jv (A : csr T) : csr_ok A -> csr_np A = csr_n A ->
  exists B, transpose_csr jp ji jw jv A = Ok B /\ forall i j, coef (csr_entries B) i j = coef (csr_entries A) j i.
Proof.
  intros HA Hs. destruct (transpose_csr_final jp ji jw jv A HA Hs) as (B & E & HB & H1 & H2 & H3). exists B. split; [auto|]. intros i j. rewrite (coef_perm RT _ _ i j H3). apply coef_swap.
Qed.
Lemma transpose_csc_final (RT : is_ring S) jp ji jw jv (A : csc T) : csc_ok A -> csc_np A = csc_n A ->
  exists B, transpose_csc jp ji jw jv A = Ok B /\ csc_ok B /\ csc_n B = csc_n A /\ csc_np B = csc_np A /\
    Permutation (csc_entries B) (map (fun e => (ecol e, erow e, eval e)) (csc_entries A)) /\
    forall i j, coef (csc_entries B) i j = coef (csc_entries A) j i.
Proof.
  intros HA Hs. destruct (as_csr_ok A HA Hs) as (O & EE). destruct (csr2csc_final jp ji jw jv (as_csr A) O) as (B & E & HB & H1 & H2 & H3 & H4 & _). exists B. split; [exact E|]. split; [auto|]. split; [auto|]. split; [auto|].
  rewrite EE in H4. split; [exact H4|]. intros i j. rewrite (coef_perm RT _ _ i j H4). apply coef_swap.
Qed.
End P.
