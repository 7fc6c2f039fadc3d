(** C31 (split and merge), C34 (triangular solves), C43 (transposition).
    [split_ok], [lower], [upper], [DL], [DU], [inverse_diag] are defined in SpecSplit.v. *)
Require Import ZArith List Bool Lia Permutation QArith Qcanon.
From Verif Require Import Base Scalar Spec Csc Split SpecSplit SplitProof SplitProof2 Transpose TransposeProof.
Import ListNotations.
Open Scope Z_scope.

(** ** C31 *)
Theorem C31_split : forall (T : Type) (S : Scalar T), is_ring S -> forall jlp jli jlv jup jui juv jd (A : csr T), csr_ok A -> no_dup_pos (csr_entries A) ->
  exists P, split_csr jlp jli jlv jup jui juv jd A = Ok P /\ split_ok P /\ sp_n P = csr_n A /\ sp_np P = csr_np A /\
    csr_entries (sp_L P) = filter lower (csr_entries A) /\ csr_entries (sp_U P) = filter upper (csr_entries A) /\
    (forall i, 0 <= i < csr_n A -> has_diag (csr_entries A) i = true -> znth s0 (sp_D P) i = coef (csr_entries A) i i).
Proof. exact @split_final. Qed.
Print Assumptions C31_split.

Theorem C31_split_then_merge : forall (T : Type) (S : Scalar T), is_ring S -> forall jlp jli jlv jup jui juv jd jp ji jv (A : csr T), csr_ok A -> no_dup_pos (csr_entries A) ->
  (forall i, 0 <= i < csr_n A -> has_diag (csr_entries A) i = true) ->
  exists P B, split_csr jlp jli jlv jup jui juv jd A = Ok P /\ merge_csr jp ji jv P = Ok B /\ csr_ok B /\ csr_n B = csr_n A /\ csr_np B = csr_np A /\
    Permutation (csr_entries B) (csr_entries A).
Proof. exact @roundtrip_final. Qed.
Print Assumptions C31_split_then_merge.

(** merging any well-formed L, D, U, whether or not it came from a split *)
Theorem C31_merge : forall (T : Type) (S : Scalar T) jp ji jv (P : split T), split_ok P ->
  wp (merge_csr jp ji jv P) (fun B => csr_ok B /\ csr_n B = sp_n P /\ csr_np B = sp_np P /\ Permutation (csr_entries B) (split_entries P)).
Proof. exact @merge_wp. Qed.
Print Assumptions C31_merge.

Theorem C31_split_matvec : forall (T : Type) (S : Scalar T), is_ring S -> forall jlp jli jlv jup jui juv jd (A : csr T) x y, csr_ok A -> no_dup_pos (csr_entries A) ->
  (forall i, 0 <= i < csr_n A -> has_diag (csr_entries A) i = true) -> csr_np A <= zlen x -> csr_n A <= zlen y ->
  exists P y', split_csr jlp jli jlv jup jui juv jd A = Ok P /\ matvec_split P x y = Ok y' /\ zlen y' = zlen y /\
    forall i, 0 <= i < csr_n A -> znth s0 y' i = mv_spec (csr_entries A) (csr_np A) (znth s0 x) i.
Proof. exact @split_matvec_final. Qed.
Print Assumptions C31_split_matvec.

Theorem C31_split_matvech : forall (T : Type) (S : Scalar T), is_ring S -> conj_ok S -> forall jlp jli jlv jup jui juv jd (A : csr T) x y, csr_ok A -> no_dup_pos (csr_entries A) ->
  (forall i, 0 <= i < csr_n A -> has_diag (csr_entries A) i = true) -> csr_np A = csr_n A -> csr_n A <= zlen x -> csr_n A <= zlen y ->
  exists P y', split_csr jlp jli jlv jup jui juv jd A = Ok P /\ matvech_split P x y = Ok y' /\ zlen y' = zlen y /\
    forall j, 0 <= j < csr_np A -> znth s0 y' j = mvh_spec (csr_entries A) (csr_n A) (znth s0 x) j.
Proof. exact @split_matvech_final. Qed.
Print Assumptions C31_split_matvech.

(** example: 3 x 3 with unsorted rows *)
Definition exS : csr Z := mkCsr 3 3 7 [0; 2; 5; 7] [1; 0; 2; 0; 1; 2; 0] [4; 2; 5; 3; 6; 9; 8].
Ltac small := intros ?k Hk; let K := fresh in assert (K : (k = 0 \/ k = 1 \/ k = 2 \/ k = 3 \/ k = 4 \/ k = 5 \/ k = 6)%Z) by (cbn in Hk; lia);
  repeat (destruct K as [->|K]; [try (vm_compute in Hk; intuition discriminate); try (vm_compute; intuition congruence)|]); try (subst k; try (vm_compute in Hk; intuition discriminate); vm_compute; intuition congruence).
Ltac csr_tac := unfold csr_ok, ptr_ok; repeat match goal with |- _ /\ _ => split end; try (vm_compute; intuition congruence); small.
Example exS_meets : csr_ok exS /\ no_dup_pos (csr_entries exS) /\ (forall i, 0 <= i < csr_n exS -> has_diag (csr_entries exS) i = true) /\ csr_np exS = csr_n exS.
Proof.
  split; [csr_tac|]. split; [unfold no_dup_pos; vm_compute; repeat constructor; simpl; intuition congruence|]. split; [|reflexivity]. small.
Qed.
Example exS_split : exists P, split_csr (fun _ => 99) (fun _ => 99) (fun _ => 99) (fun _ => 99) (fun _ => 99) (fun _ => 99) (fun _ => 99) exS = Ok P /\
  csr_entries (sp_L P) = [(1, 0, 3); (2, 0, 8)] /\ sp_D P = [2; 6; 9] /\ csr_entries (sp_U P) = [(0, 1, 4); (1, 2, 5)].
Proof. eexists. split; [reflexivity|]. vm_compute. auto. Qed.

(** A row without a stored diagonal entry: D keeps whatever malloc returned, and the
    merged matrix has a coefficient that A does not have. *)
Theorem C31_missing_diagonal_refuted : exists (A : csr Z) jd P B, csr_ok A /\ no_dup_pos (csr_entries A) /\
  split_csr (fun _ => 0) (fun _ => 0) (fun _ => 0) (fun _ => 0) (fun _ => 0) (fun _ => 0) jd A = Ok P /\
  merge_csr (fun _ => 0) (fun _ => 0) (fun _ => 0) P = Ok B /\ coef (csr_entries B) 0 0 <> coef (csr_entries A) 0 0.
Proof.
  exists (mkCsr 2 2 2 [0; 1; 2] [1; 1] [5; 6]), (fun _ => 77). eexists. eexists.
  split; [csr_tac|]. split; [unfold no_dup_pos; vm_compute; repeat constructor; simpl; intuition congruence|].
  split; [reflexivity|]. split; [reflexivity|]. vm_compute. discriminate.
Qed.
Print Assumptions C31_missing_diagonal_refuted.

(** Two stored diagonal entries in one row: the split keeps only the last. *)
Theorem C31_repeated_diagonal_refuted : exists (A : csr Z) P y, csr_ok A /\
  split_csr (fun _ => 0) (fun _ => 0) (fun _ => 0) (fun _ => 0) (fun _ => 0) (fun _ => 0) (fun _ => 0) A = Ok P /\
  matvec_split P [1] [0] = Ok y /\ znth 0 y 0 <> mv_spec (csr_entries A) 1 (znth 0 [1]) 0.
Proof.
  exists (mkCsr 1 1 2 [0; 2] [0; 0] [5; 6]). eexists. eexists. split; [csr_tac|]. split; [reflexivity|]. split; [reflexivity|]. vm_compute. discriminate.
Qed.
Print Assumptions C31_repeated_diagonal_refuted.

(** More columns than rows (ghost columns): the conjugate-transposed product reads D past its end. *)
Theorem C31_split_matvech_ghost_refuted : exists (A : csr Z) P, csr_ok A /\ no_dup_pos (csr_entries A) /\ has_diag (csr_entries A) 0 = true /\
  split_csr (fun _ => 0) (fun _ => 0) (fun _ => 0) (fun _ => 0) (fun _ => 0) (fun _ => 0) (fun _ => 0) A = Ok P /\ matvech_split P [1; 0] [0; 0] = UB.
Proof.
  exists (mkCsr 1 2 2 [0; 2] [0; 1] [5; 6]). eexists. split; [csr_tac|]. split; [unfold no_dup_pos; vm_compute; repeat constructor; simpl; intuition congruence|]. split; [reflexivity|]. split; reflexivity.
Qed.
Print Assumptions C31_split_matvech_ghost_refuted.

(** ** C34 *)
(** WD as the library computes it: a copy of D inverted in place *)
Theorem C34_diag_inverse : forall (T : Type) (S : Scalar T), is_ring S -> is_field S -> forall n (d : list T), 0 <= n <= zlen d -> (forall i, 0 <= i < n -> znth s0 d i <> s0) ->
  exists d', diag_inverse n d = Ok d' /\ zlen d' = zlen d /\ forall i, 0 <= i < n -> smul (znth s0 d i) (znth s0 d' i) = s1.
Proof. exact @diag_inverse_wp. Qed.
Print Assumptions C34_diag_inverse.

Theorem C34_solve_lower : forall (T : Type) (S : Scalar T), is_ring S -> forall (A : split T) wd b x, split_ok A -> inverse_diag A wd -> sp_n A <= zlen b -> sp_np A <= zlen x ->
  exists x', solve_lower A wd b x = Ok x' /\ zlen x' = zlen x /\ (forall k, sp_n A <= k -> znth s0 x' k = znth s0 x k) /\
    forall i, 0 <= i < sp_n A -> mv_spec (DL A) (sp_np A) (znth s0 x') i = znth s0 b i.
Proof. exact @solve_lower_final. Qed.
Print Assumptions C34_solve_lower.

Theorem C34_solve_upper : forall (T : Type) (S : Scalar T), is_ring S -> forall (A : split T) wd b x, split_ok A -> inverse_diag A wd -> sp_n A <= zlen b -> sp_np A <= zlen x ->
  exists x', solve_upper A wd b x = Ok x' /\ zlen x' = zlen x /\ (forall k, sp_n A <= k -> znth s0 x' k = znth s0 x k) /\
    forall i, 0 <= i < sp_n A -> mv_spec (DU A) (sp_np A) (znth s0 x') i = znth s0 b i.
Proof. exact @solve_upper_final. Qed.
Print Assumptions C34_solve_upper.

(** (D+L) z = b, (D+U) x = D z *)
Theorem C34_solve_ssor : forall (T : Type) (S : Scalar T), is_ring S -> forall (A : split T) wd b x, split_ok A -> inverse_diag A wd -> sp_np A = sp_n A -> sp_n A <= zlen b -> sp_n A <= zlen x ->
  exists x' z, solve_ssor A wd b x = Ok x' /\ zlen x' = zlen x /\
    (forall i, 0 <= i < sp_n A -> mv_spec (DL A) (sp_n A) z i = znth s0 b i) /\
    (forall i, 0 <= i < sp_n A -> mv_spec (DU A) (sp_n A) (znth s0 x') i = smul (znth s0 (sp_D A) i) (z i)).
Proof. exact @solve_ssor_final. Qed.
Print Assumptions C34_solve_ssor.

(** (D+U)^H x = b *)
Theorem C34_solveh_lower : forall (T : Type) (S : Scalar T), is_ring S -> conj_ok S -> forall (A : split T) wd b, split_ok A -> inverse_diag A wd -> sp_np A <= zlen b ->
  exists x', solveh_lower A wd b = Ok x' /\ zlen x' = zlen b /\ forall i, 0 <= i < sp_n A -> mvh_spec (DU A) (sp_n A) (znth s0 x') i = znth s0 b i.
Proof. exact @solveh_lower_final. Qed.
Print Assumptions C34_solveh_lower.

(** (D+L)^H x = b *)
Theorem C34_solveh_upper : forall (T : Type) (S : Scalar T), is_ring S -> conj_ok S -> forall (A : split T) wd b, split_ok A -> inverse_diag A wd -> sp_np A <= zlen b ->
  exists x', solveh_upper A wd b = Ok x' /\ zlen x' = zlen b /\ forall i, 0 <= i < sp_n A -> mvh_spec (DL A) (sp_n A) (znth s0 x') i = znth s0 b i.
Proof. exact @solveh_upper_final. Qed.
Print Assumptions C34_solveh_upper.

(** (D+U)^H w = b, (D+L)^H x = D^H w *)
Theorem C34_solveh_ssor : forall (T : Type) (S : Scalar T), is_ring S -> conj_ok S -> forall (A : split T) wd b, split_ok A -> inverse_diag A wd -> sp_np A <= zlen b ->
  exists x' w, solveh_ssor A wd b = Ok x' /\ zlen x' = zlen b /\
    (forall i, 0 <= i < sp_n A -> mvh_spec (DU A) (sp_n A) w i = znth s0 b i) /\
    (forall i, 0 <= i < sp_n A -> mvh_spec (DL A) (sp_n A) (znth s0 x') i = smul (sconj (znth s0 (sp_D A) i)) (w i)).
Proof. exact @solveh_ssor_final. Qed.
Print Assumptions C34_solveh_ssor.

(** example over Z: D = (1,-1,1) is its own inverse *)
Definition exT : csr Z := mkCsr 3 3 7 [0; 2; 5; 7] [1; 0; 2; 0; 1; 2; 0] [4; 1; 5; 3; -1; 1; 8].
Definition exP : split Z := mkSplit 3 3 (mkCsr 3 3 2 [0; 0; 1; 2] [0; 0] [3; 8]) [1; -1; 1] (mkCsr 3 3 2 [0; 1; 2; 2] [1; 2] [4; 5]).
Example exP_from_split : exists P, split_csr (fun _ => 9) (fun _ => 9) (fun _ => 9) (fun _ => 9) (fun _ => 9) (fun _ => 9) (fun _ => 9) exT = Ok P /\ P = exP.
Proof. eexists. split; reflexivity. Qed.
Example exP_meets : split_ok exP /\ inverse_diag exP [1; -1; 1] /\ sp_np exP = sp_n exP.
Proof.
  split.
  - unfold split_ok. split; [csr_tac|]. split; [reflexivity|]. split; [reflexivity|]. split; [intros e He; vm_compute in He; intuition (subst; vm_compute; auto)|].
    split; [csr_tac|]. split; [reflexivity|]. split; [reflexivity|]. split; [intros e He; vm_compute in He; intuition (subst; vm_compute; auto)|]. vm_compute. congruence.
  - split; [|reflexivity]. split; [vm_compute; congruence|]. small.
Qed.
Example exP_solves : solve_lower exP [1; -1; 1] [1; 2; 3] [0; 0; 0] = Ok [1; 1; -5] /\ solve_upper exP [1; -1; 1] [1; 2; 3] [0; 0; 0] = Ok [-51; 13; 3].
Proof. split; reflexivity. Qed.

(** ** C43 *)
Theorem C43_transpose_csr : forall (T : Type) (S : Scalar T), is_ring S -> forall jp ji jw jv (A : csr T), csr_ok A -> csr_np A = csr_n A ->
  exists B, transpose_csr jp ji jw jv A = Ok B /\ forall i j, coef (csr_entries B) i j = coef (csr_entries A) j i.
Proof. exact @transpose_coef. Qed.
Print Assumptions C43_transpose_csr.

Theorem C43_transpose_entries : forall (T : Type) (S : Scalar T) jp ji jw jv (A : csr T), csr_ok A -> csr_np A = csr_n A ->
  exists B, transpose_csr jp ji jw jv A = Ok B /\ csr_ok B /\ csr_n B = csr_n A /\ csr_np B = csr_np A /\
    Permutation (csr_entries B) (map (fun e => (ecol e, erow e, eval e)) (csr_entries A)).
Proof. exact @transpose_csr_final. Qed.
Print Assumptions C43_transpose_entries.

Theorem C43_transpose_twice : forall (T : Type) (S : Scalar T) jp ji jw jv jp' ji' jw' jv' (A : csr T), csr_ok A -> csr_np A = csr_n A ->
  exists B C, transpose_csr jp ji jw jv A = Ok B /\ transpose_csr jp' ji' jw' jv' B = Ok C /\ csr_n C = csr_n A /\ csr_np C = csr_np A /\
    Permutation (csr_entries C) (csr_entries A).
Proof. exact @transpose_twice_final. Qed.
Print Assumptions C43_transpose_twice.

Theorem C43_transpose_csc : forall (T : Type) (S : Scalar T), is_ring S -> forall jp ji jw jv (A : csc T), csc_ok A -> csc_np A = csc_n A ->
  exists B, transpose_csc jp ji jw jv A = Ok B /\ csc_ok B /\ csc_n B = csc_n A /\ csc_np B = csc_np A /\
    Permutation (csc_entries B) (map (fun e => (ecol e, erow e, eval e)) (csc_entries A)) /\
    forall i j, coef (csc_entries B) i j = coef (csc_entries A) j i.
Proof. exact @transpose_csc_final. Qed.
Print Assumptions C43_transpose_csc.

Example exS_transposed : transpose_csr (fun _ => 99) (fun _ => 99) (fun _ => 99) (fun _ => 99) exS =
  Ok (mkCsr 3 3 7 [0; 3; 5; 7] [0; 1; 2; 0; 1; 1; 2] [2; 3; 8; 4; 6; 5; 9]).
Proof. reflexivity. Qed.

(** the COO version writes only the type tag of its output *)
Theorem C43_transpose_coo_refuted : exists (A Aout B : coo Z), coo_ok A /\ transpose_coo A Aout = Ok B /\ coef (coo_entries B) 1 0 <> coef (coo_entries A) 0 1.
Proof.
  exists (mkCoo 2 2 1 [0] [1] [5]), (mkCoo 2 2 0 [] [] []), (mkCoo 2 2 0 [] [] []). split.
  { unfold coo_ok; repeat match goal with |- _ /\ _ => split end; try (vm_compute; intuition congruence). small. }
  split; [reflexivity|]. vm_compute. discriminate.
Qed.
Print Assumptions C43_transpose_coo_refuted.
