(** C31 and C56 for JAD: lis_matrix_split, lis_matrix_merge, lis_matrix_solve and lis_matrix_solveh.
    The solves read the array ptr of a triangle one word past its end, whatever the matrix, so none of
    them has a defined result; C56_jad_partial says what they compute in a memory in which the word
    behind the array can be read. *)
Require Import ZArith List Bool Lia QArith Qcanon Permutation.
From Verif Require Import Base Scalar Spec SpecSplit Split SplitFmt SpecSplitFmt JadSolve SpecJadSolve JadWalk JadEnd.
Import ListNotations.
Open Scope Z_scope.

(** the two triangles, and merging them, when no jagged diagonal is empty (maxnzr is the length of the longest row) and
    every diagonal entry is stored *)
Theorem C31_jad_partial : forall (T : Type) (S : Scalar T) (A : jad T) jlq jlp jlc jli jlv juq jup juc jui juv jd jw jw2 jq jp ji jv,
  jad_ok A -> jad_np A = jad_n A -> no_dup_pos (jad_entries A) -> (forall i, 0 <= i < jad_n A -> has_diag (jad_entries A) i = true) ->
  longest_row (jad_n A) (jad_entries A) (jad_maxnzr A) ->
  exists P B, split_jad jlq jlp jlc jli jlv juq jup juc jui juv jd A = Ok P /\
    Permutation (jad_entries (jd_A (js_L P))) (filter lower (jad_entries A)) /\ Permutation (jad_entries (jd_A (js_U P))) (filter upper (jad_entries A)) /\
    merge_jad jw jw2 jq jp ji jv (jad_np A) (jad_maxnzr A) P = Ok B /\ jad_ok B /\
    jad_n B = jad_n A /\ jad_np B = jad_np A /\ jad_maxnzr B = jad_maxnzr A /\ Permutation (jad_entries B) (jad_entries A).
Proof. intros T S A jlq jlp jlc jli jlv juq jup juc jui juv jd jw jw2 jq jp ji jv HA Hsq. exact (jad_merge_final A HA Hsq jlq jlp jlc jli jlv juq jup juc jui juv jd jw jw2 jq jp ji jv). Qed.
Print Assumptions C31_jad_partial.

Theorem C56_jad_partial : forall (T : Type) (S : Scalar T), is_ring S -> is_field S -> forall (A : jad T) jlq jlp jlc jli jlv juq jup juc jui juv jd,
  jad_ok A -> jad_np A = jad_n A -> no_dup_pos (jad_entries A) -> (forall i, 0 <= i < jad_n A -> coef (jad_entries A) i i <> s0) ->
  exists P wd, split_jad jlq jlp jlc jli jlv juq jup juc jui juv jd A = Ok P /\ diag_inverse (jad_n A) (js_D P) = Ok wd /\
    forall wl wu, let P' := words_behind wl wu P in
      solves_lower (jad_n A) (jad_entries A) (solve_lower_jad P' wd) /\ solves_upper (jad_n A) (jad_entries A) (solve_upper_jad P' wd) /\
      solves_ssor (jad_n A) (jad_entries A) (solve_ssor_jad P' wd) /\
      (conj_ok S -> solvesh_lower (jad_n A) (jad_entries A) (solveh_lower_jad P' wd) /\ solvesh_upper (jad_n A) (jad_entries A) (solveh_upper_jad P' wd) /\
         solvesh_ssor (jad_n A) (jad_entries A) (solveh_ssor_jad P' wd)).
Proof. intros T S RT FT A jlq jlp jlc jli jlv juq jup juc jui juv jd HA Hsq. exact (jad_solve_final RT A HA Hsq FT jlq jlp jlc jli jlv juq jup juc jui juv jd). Qed.
Print Assumptions C56_jad_partial.

(** without that word: every solve of every nonempty matrix leaves the array *)
Theorem C56_jad_refuted : forall (T : Type) (S : Scalar T) (A : jad T) jlq jlp jlc jli jlv juq jup juc jui juv jd,
  jad_ok A -> jad_np A = jad_n A -> 0 < jad_n A ->
  exists P, split_jad jlq jlp jlc jli jlv juq jup juc jui juv jd A = Ok P /\ forall wd, jad_n A <= zlen wd ->
    out_of_bounds (jad_n A) (solve_lower_jad P wd) /\ out_of_bounds (jad_n A) (solve_upper_jad P wd) /\ out_of_bounds (jad_n A) (solve_ssor_jad P wd) /\
    out_of_bounds (jad_n A) (solveh_lower_jad P wd) /\ out_of_bounds (jad_n A) (solveh_upper_jad P wd) /\ out_of_bounds (jad_n A) (solveh_ssor_jad P wd).
Proof. intros T S A jlq jlp jlc jli jlv juq jup juc jui juv jd HA Hsq. exact (jad_never_final A HA Hsq jlq jlp jlc jli jlv juq jup juc jui juv jd). Qed.
Print Assumptions C56_jad_refuted.

(** *** the 3 x 3 matrix  2 1 0 / 1 4 3 / 0 5 1  *)
Definition qc (z : Z) : Qc := Q2Qc (inject_Z z).
Definition exJ : jad Qc := mkJad 3 3 7 3 [1; 0; 2] [0; 3; 6; 7] [0; 0; 1; 1; 1; 2; 2] [qc 1; qc 2; qc 5; qc 4; qc 1; qc 1; qc 3].
Ltac nodup := unfold no_dup_pos; vm_compute; repeat constructor; cbn; intuition congruence.
Ltac upto k Hk := let K := fresh in assert (K : (k = 0 \/ k = 1 \/ k = 2 \/ k = 3 \/ k = 4 \/ k = 5 \/ k = 6)%Z) by (cbn in Hk; lia);
  repeat (destruct K as [->|K]; [try (vm_compute in Hk; intuition discriminate); try (vm_compute; intuition congruence)|]); try (subst k; try (vm_compute in Hk; intuition discriminate); vm_compute; intuition congruence).
Ltac upto3 i Hi := let K := fresh in assert (K : (i = 0 \/ i = 1 \/ i = 2)%Z) by (cbn in Hi; lia); destruct K as [->|[->| ->]].
Lemma exJ_ok : jad_ok exJ.
Proof.
  unfold jad_ok, ptr_ok; cbn -[Z.le Z.lt]. repeat match goal with |- _ /\ _ => split end; try (vm_compute; intuition congruence); try (intros k Hk; upto k Hk).
  change (Permutation [1; 0; 2] [0; 1; 2]). apply perm_swap.
Qed.
Example exJ_meets : jad_ok exJ /\ jad_np exJ = jad_n exJ /\ no_dup_pos (jad_entries exJ) /\ (forall i, 0 <= i < jad_n exJ -> coef (jad_entries exJ) i i <> s0) /\
  (forall i, 0 <= i < jad_n exJ -> has_diag (jad_entries exJ) i = true) /\ longest_row (jad_n exJ) (jad_entries exJ) (jad_maxnzr exJ).
Proof.
  split; [apply exJ_ok|]. split; [reflexivity|]. split; [nodup|]. split; [|split].
  - intros i Hi. upto3 i Hi; intros X; apply (f_equal this) in X; vm_compute in X; discriminate.
  - intros i Hi. upto3 i Hi; vm_compute; reflexivity.
  - split; [intros r Hr; upto3 r Hr; vm_compute; congruence|]. exists 1. split; [vm_compute; intuition congruence|vm_compute; reflexivity].
Qed.
Definition jz : Z -> Z := fun _ => 77.
Definition jx : Z -> Qc := fun _ => qc 77.
(** its SSOR solve, with junk behind the arrays, and without *)
Example exJ_ssor : exists P wd x, split_jad jz jz jz jz jx jz jz jz jz jx jx exJ = Ok P /\ diag_inverse 3 (js_D P) = Ok wd /\
  solve_ssor_jad (words_behind 77 (-5) P) wd [qc 2; qc 9; qc 6] [qc 55; qc 55; qc 55] = Ok x /\ map this x = [(-3 # 2); (5 # 1); (-4 # 1)]%Q /\
  solve_ssor_jad P wd [qc 2; qc 9; qc 6] [qc 55; qc 55; qc 55] = UB.
Proof. eexists. eexists. eexists. split; [reflexivity|]. split; [reflexivity|]. split; [reflexivity|]. split; vm_compute; reflexivity. Qed.
(** split and merge *)
Example exJ_merge : exists P B, split_jad jz jz jz jz jx jz jz jz jz jx jx exJ = Ok P /\ merge_jad jz jz jz jz jz jx 3 3 P = Ok B /\
  jad_perm B = [1; 2; 0] /\ jad_ptr B = [0; 3; 6; 7] /\ jad_index B = [0; 1; 0; 1; 2; 1; 2] /\ map this (jad_value B) = [1 # 1; 5 # 1; 2 # 1; 4 # 1; 1 # 1; 1 # 1; 3 # 1]%Q /\
  zlen (jad_index (jd_A (js_L P))) = 2 /\ zlen (jad_index (jd_A (js_U P))) = 2.
Proof. eexists. eexists. split; [reflexivity|]. split; [reflexivity|]. repeat (split; [vm_compute; reflexivity|]). vm_compute; reflexivity. Qed.

(** merging does not set maxnzr: of the matrix 0 1 / 0 1, whose first row has no stored diagonal entry, the merged
    matrix has a row of two entries and is used with maxnzr = 1, so that the entry (0,1) is gone *)
Theorem C31_jad_refuted : exists A : jad Z, jad_ok A /\ jad_np A = jad_n A /\ no_dup_pos (jad_entries A) /\ longest_row (jad_n A) (jad_entries A) (jad_maxnzr A) /\
  forall jd, jd 0 = 0 -> exists P B, split_jad jz jz jz jz jz jz jz jz jz jz jd A = Ok P /\ merge_jad jz jz jz jz jz jz (jad_np A) (jad_maxnzr A) P = Ok B /\
    coef (jad_entries A) 0 1 = 5 /\ coef (jad_entries B) 0 1 = 0 /\ zlen (jad_entries B) < jad_nnz B.
Proof.
  exists (mkJad 2 2 2 1 [0; 1] [0; 2] [1; 1] [5; 7]). split; [|split; [reflexivity|split; [nodup|split]]].
  - unfold jad_ok, ptr_ok; cbn -[Z.le Z.lt]. repeat match goal with |- _ /\ _ => split end; try (vm_compute; intuition congruence); try (intros k Hk; upto k Hk).
    apply Permutation_refl.
  - split; [intros r Hr; cbn in Hr; assert (K : (r = 0 \/ r = 1)%Z) by lia; destruct K as [-> | ->]; vm_compute; congruence|]. exists 0. split; [vm_compute; intuition congruence|vm_compute; reflexivity].
  - intros jd Hjd. eexists. eexists. split; [reflexivity|]. split; [reflexivity|]. split; [vm_compute; reflexivity|]. split; vm_compute; reflexivity.
Qed.
Print Assumptions C31_jad_refuted.
