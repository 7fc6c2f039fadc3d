(** C57: the ILUT preconditioner.  [ilut_row_spec], [dropped], [below_tol], [row_mean], [kept_row],
    [keeps_smallest] are in SpecIlut.v; [mat_mul], [mat_vec], [unit_lower], [upper_with] in SpecIlu.v. *)
Require Import ZArith List Bool Lia QArith Qcanon Reals Lra.
From Verif Require Import Base Scalar ScalarCQ ScalarReal Spec SpecIlu Ilu SpecIlut Ilut IlutEnd.
Import ListNotations.
Open Scope Z_scope.

(** For every matrix without duplicates, tolerance, number of kept entries and row range of a
    thread (serial: is_=0, ie=n) the factorisation runs without an out-of-range access; every
    row of L and U consists of (at most lfil, and the smallest in magnitude) entries of the row
    of the elimination; if lfil allows whole rows, M=(I+L)(d+U) equals A up to a sum of at most
    i dropped updates, each below tol * mean|a_i.|; psolve solves M x = b and, for real
    scalars, psolveh solves M^H x = b.
    What the claim also says, and fails: the kept entries are the largest ones
    (C57_keeps_largest_refuted) and psolveh for complex scalars (C57_psolveh_refuted). *)
Theorem C57_ilut_partial : forall (T : Type) (S : Scalar T), is_ring S -> is_field S ->
  forall (A : csr T) tol lfil is_ ie jb ji jw jn jd, total_order S ->
  csr_ok A -> no_dup_pos (csr_entries A) -> 0 <= lfil -> 0 <= is_ <= ie -> ie <= csr_n A ->
  exists F, create_ilut jb ji jw jn jd tol lfil is_ ie A = Ok F /\
    exists d, (forall i, is_ <= i < ie -> znth s0 (fa_D F) i = sdiv s1 (d i)) /\
      (forall i, is_ <= i < ie -> ilut_row_spec (below_tol tol is_ ie (csr_entries A) i) lfil is_ ie (coef (csr_entries A) i) d (fa_L F) (fa_Lv F) (fa_U F) (fa_Uv F) i) /\
      let M := mat_mul is_ ie (unit_lower (fa_L F) (fa_Lv F)) (upper_with d (fa_U F) (fa_Uv F)) in
      (ie - is_ <= lfil -> forall i c, is_ <= i < ie -> is_ <= c < ie -> (forall k, is_ <= k < i -> d k <> s0) ->
         exists e, dropped (below_tol tol is_ ie (csr_entries A) i) (i - is_) e /\ coef (csr_entries A) i c = sadd (M i c) e) /\
      ((forall i, is_ <= i < ie -> d i <> s0) -> forall b, ie <= zlen b ->
        (exists x, psolve_ilut is_ ie F b = Ok x /\ zlen x = zlen b /\ (forall c, ~ (is_ <= c < ie) -> znth s0 x c = znth s0 b c) /\
           forall i, is_ <= i < ie -> mat_vec is_ ie M (znth s0 x) i = znth s0 b i) /\
        ((forall x : T, sconj x = x) -> exists x, psolveh_ilut is_ ie F b = Ok x /\ psolveh_ilut_omp is_ ie F b = Ok x /\ zlen x = zlen b /\ (forall c, ~ (is_ <= c < ie) -> znth s0 x c = znth s0 b c) /\
           forall i, is_ <= i < ie -> mat_vech is_ ie M (znth s0 x) i = znth s0 b i)).
Proof. exact @ilut_final. Qed.
Print Assumptions C57_ilut_partial.

(** Real numbers, lfil at least the number of rows: |A-M| is bounded by the drop tolerance,
    and with tol=0 applying the preconditioner solves A x = b. *)
Theorem C57_ilut_accuracy : forall (A : csr R) tol lfil is_ ie jb ji jw jn jd,
  csr_ok A -> no_dup_pos (csr_entries A) -> (0 <= is_ <= ie)%Z -> (ie <= csr_n A)%Z -> (ie - is_ <= lfil)%Z -> (0 <= tol)%R ->
  exists F, create_ilut jb ji jw jn jd tol lfil is_ ie A = Ok F /\
    exists d : Z -> R, (forall i, (is_ <= i < ie)%Z -> znth 0%R (fa_D F) i = (1 / d i)%R) /\
      ((forall i, (is_ <= i < ie)%Z -> d i <> 0%R) ->
        let M := mat_mul is_ ie (unit_lower (fa_L F) (fa_Lv F)) (upper_with d (fa_U F) (fa_Uv F)) in
        (forall i c, (is_ <= i < ie)%Z -> (is_ <= c < ie)%Z -> (Rabs (coef (csr_entries A) i c - M i c) <= IZR (i - is_) * (tol * row_mean is_ ie (csr_entries A) i))%R) /\
        forall b, (ie <= zlen b)%Z -> exists x, psolve_ilut is_ ie F b = Ok x /\ zlen x = zlen b /\ (forall c, ~ (is_ <= c < ie)%Z -> znth 0%R x c = znth 0%R b c) /\
           (forall i, (is_ <= i < ie)%Z -> mat_vec is_ ie M (znth 0%R x) i = znth 0%R b i) /\
           (tol = 0%R -> forall i, (is_ <= i < ie)%Z -> mat_vec is_ ie (coef (csr_entries A)) (znth 0%R x) i = znth 0%R b i)).
Proof. exact @ilut_real. Qed.
Print Assumptions C57_ilut_accuracy.

(** ** Examples and refutations *)
Local Notation q k := (Q2Qc (inject_Z k)).
Definition exT : csr Qc := mkCsr 3 3 7 [0; 2; 5; 7] [1; 0; 2; 0; 1; 2; 0] [q 1; q 4; q 1; q 1; q 3; q 5; q 2].
Ltac smallT := intros ?k Hk; let K := fresh in assert (K : (k = 0 \/ k = 1 \/ k = 2 \/ k = 3 \/ k = 4 \/ k = 5 \/ k = 6)%Z) by (cbn in Hk; lia);
  repeat (destruct K as [->|K]; [try (vm_compute in Hk; intuition discriminate); try (vm_compute; intuition congruence)|]); try (subst k; try (vm_compute in Hk; intuition discriminate); vm_compute; intuition congruence).
Ltac csr_tacT := unfold csr_ok, ptr_ok; repeat match goal with |- _ /\ _ => split end; try (vm_compute; intuition congruence); smallT.
Lemma Q_total_order : total_order ScalarQ.
Proof.
  split; cbn [sleb ScalarQ].
  - intros x y. destruct (Qclt_le_dec y x) as [H|H]; [right|left; reflexivity].
    destruct (Qclt_le_dec x y) as [H'|H']; [|reflexivity].
    exfalso. apply (Qclt_not_le _ _ H). apply Qclt_le_weak. exact H'.
  - intros x y z. destruct (Qclt_le_dec y x) as [H|H]; [discriminate|]. destruct (Qclt_le_dec z y) as [H'|H']; [discriminate|]. intros _ _.
    destruct (Qclt_le_dec z x) as [H2|H2]; [|reflexivity].
    exfalso. apply (Qclt_not_le _ _ H2). apply Qcle_trans with y; assumption.
Qed.
Definition jzT := fun _ : Z => 77%Z.
Definition jqT := fun _ : Z => q 9.
(** the hypotheses are met; with tol=0 the fill at (2,1) is kept, with tol=1 it is dropped *)
Example C57_ex : csr_ok exT /\ no_dup_pos (csr_entries exT) /\ total_order ScalarQ /\
  exists F0 F1, create_ilut jzT jzT jqT jqT jqT (q 0) 3 0 3 exT = Ok F0 /\ create_ilut jzT jzT jqT jqT jqT (q 1) 3 0 3 exT = Ok F1 /\
    fa_L F0 = [[]; [0]; [0; 1]] /\ fa_U F0 = [[1]; [2]; []] /\ fa_L F1 = [[]; [0]; [0]] /\ fa_U F1 = [[1]; [2]; []] /\
    (forall i, 0 <= i < 3 -> znth s0 (fa_D F0) i <> s0).
Proof.
  split; [csr_tacT|]. split; [unfold no_dup_pos; vm_compute; repeat constructor; simpl; intuition congruence|]. split; [exact Q_total_order|].
  eexists. eexists. split; [vm_compute; reflexivity|]. split; [vm_compute; reflexivity|]. do 4 (split; [reflexivity|]). smallT.
Qed.

(** With room for one entry per row (lfil=1) the row (10, 1, 5) keeps the multiplier 1 and
    discards 10: the entries kept are the smallest, not the largest. *)
Theorem C57_keeps_largest_refuted : exists (A : csr Qc) F, csr_ok A /\ no_dup_pos (csr_entries A) /\
  create_ilut jzT jzT jqT jqT jqT (q 0) 1 0 (csr_n A) A = Ok F /\
  coef (csr_entries A) 2 0 = q 10 /\ coef (csr_entries A) 2 1 = q 1 /\
  znth [] (fa_L F) 2 = [1] /\ row_at (znth [] (fa_L F) 2) (znth [] (fa_Lv F) 2) 1 = q 1 /\ row_at (znth [] (fa_L F) 2) (znth [] (fa_Lv F) 2) 0 = q 0.
Proof.
  exists (mkCsr 3 3 5 [0; 1; 2; 5] [0; 1; 0; 1; 2] [q 1; q 1; q 10; q 1; q 5]). eexists. split; [csr_tacT|]. split; [unfold no_dup_pos; vm_compute; repeat constructor; simpl; intuition congruence|].
  split; [vm_compute; reflexivity|]. split; [apply Qc_is_canon; vm_compute; reflexivity|]. split; [apply Qc_is_canon; vm_compute; reflexivity|]. split; [vm_compute; reflexivity|]. split; apply Qc_is_canon; vm_compute; reflexivity.
Qed.
Print Assumptions C57_keeps_largest_refuted.

(** complex scalars: neither the serial nor the OpenMP lis_psolveh solves M^H x = b *)
Theorem C57_psolveh_refuted : exists (A : csr CQ) F d b x x', csr_ok A /\ no_dup_pos (csr_entries A) /\
  create_ilut jzT jzT (fun _ => s0) (fun _ => s0) (fun _ => s0) s0 1 0 (csr_n A) A = Ok F /\
  (forall i, 0 <= i < csr_n A -> znth s0 (fa_D F) i = sdiv s1 (d i) /\ d i <> s0) /\
  psolveh_ilut 0 (csr_n A) F b = Ok x /\ psolveh_ilut_omp 0 (csr_n A) F b = Ok x' /\
  let M := mat_mul 0 (csr_n A) (unit_lower (fa_L F) (fa_Lv F)) (upper_with d (fa_U F) (fa_Uv F)) in
  exists i, 0 <= i < csr_n A /\ mat_vech 0 (csr_n A) M (znth s0 x) i <> znth s0 b i /\ mat_vech 0 (csr_n A) M (znth s0 x') i <> znth s0 b i.
Proof.
  exists (mkCsr 1 1 1 [0; 1] [0] [(q 0, q 1)]). eexists. exists (fun _ => (q 0, q 1)), [(q 1, q 1)]. do 2 eexists. split; [csr_tacT|]. split; [unfold no_dup_pos; vm_compute; repeat constructor; simpl; intuition congruence|].
  split; [vm_compute; reflexivity|]. split; [intros i Hi; assert (i = 0) by (cbn in Hi; lia); subst i; split; [apply (f_equal2 pair); apply Qc_is_canon; vm_compute; reflexivity|vm_compute; congruence]|]. split; [vm_compute; reflexivity|]. split; [vm_compute; reflexivity|].
  cbv zeta. exists 0. split; [vm_compute; intuition congruence|]. split; vm_compute; congruence.
Qed.
Print Assumptions C57_psolveh_refuted.

(** a row that stores a column twice makes the factorisation write past jbuf *)
Theorem C57_duplicates_refuted : exists (A : csr Qc), csr_ok A /\ csr_np A = csr_n A /\
  create_ilut jzT jzT jqT jqT jqT (q 0) 5 0 (csr_n A) A = UB.
Proof. exists (mkCsr 2 2 4 [0; 3; 4] [0; 1; 1; 1] [q 1; q 1; q 1; q 1]). split; [csr_tacT|]. split; [reflexivity|vm_compute; reflexivity]. Qed.
Print Assumptions C57_duplicates_refuted.

(** a real matrix meeting the hypotheses of C57_ilut_accuracy *)
Definition exR : csr R := mkCsr 2 2 4 [0; 2; 4] [0; 1; 0; 1] [2%R; 1%R; 1%R; 2%R].
Example C57_exR : csr_ok exR /\ no_dup_pos (csr_entries exR).
Proof. split; [csr_tacT|]. change (csr_entries exR) with [(0, 0, 2%R); (0, 1, 1%R); (1, 0, 1%R); (1, 1, 2%R)]. unfold no_dup_pos. cbn [map fst]. repeat constructor; simpl; intuition congruence. Qed.
