(** C32, C33 for the formats Properties_Diag.v leaves out: JAD, the ELL shift, BSR, BSC and VBR.
    [is_diagonal], [shifted], [jacobi_scaled] and [symm_scaled] are in SpecDiag.v, [shifted_n],
    [rows_scaled], [both_scaled] and [vbr_packed] in SpecDiag2.v. *)
Require Import ZArith List Bool Lia Permutation QArith Qcanon.
From Verif Require Import Base Scalar Spec Diag Diag2 SpecDiag SpecDiag2 DiagProof DiagProof2 DiagProof3 DiagProof4 DiagProof5 DiagProof6 Properties_Diag.
Import ListNotations.
Open Scope Z_scope.

(** ** C32 get_diagonal *)

(** rows without a stored diagonal entry keep what d held before *)
Theorem C32_get_diagonal_jad_partial : forall (T : Type) (S : Scalar T), is_ring S -> forall (A : jad T) d, jad_ok A -> jad_n A <= zlen d -> no_dup_pos (jad_entries A) ->
  exists d', get_diagonal_jad A d = Ok d' /\ zlen d' = zlen d /\
    forall i, 0 <= i < jad_n A -> znth s0 d' i = if has_diag (jad_entries A) i then coef (jad_entries A) i i else znth s0 d i.
Proof. exact @get_diagonal_jad_wp. Qed.
Print Assumptions C32_get_diagonal_jad_partial.
(** square blocks; rows whose diagonal block is not stored keep what d held before *)
Theorem C32_get_diagonal_bsr_partial : forall (T : Type) (S : Scalar T), is_ring S -> forall (A : bsr T) d, bsr_ok A -> bsr_bnc A = bsr_bnr A -> bsr_n A <= zlen d -> no_dup_pos (bsr_entries A) ->
  exists d', get_diagonal_bsr A d = Ok d' /\ zlen d' = zlen d /\
    forall i, 0 <= i < bsr_n A -> znth s0 d' i = if has_diag (bsr_entries A) i then coef (bsr_entries A) i i else znth s0 d i.
Proof. exact @get_diagonal_bsr_wp. Qed.
Print Assumptions C32_get_diagonal_bsr_partial.
Theorem C32_get_diagonal_bsc_partial : forall (T : Type) (S : Scalar T), is_ring S -> forall (A : bsc T) d, bsc_ok A -> bsc_bnc A = bsc_bnr A -> bsc_n A <= zlen d -> no_dup_pos (bsc_entries A) ->
  exists d', get_diagonal_bsc A d = Ok d' /\ zlen d' = zlen d /\
    forall i, 0 <= i < bsc_n A -> znth s0 d' i = if has_diag (bsc_entries A) i then coef (bsc_entries A) i i else znth s0 d i.
Proof. exact @get_diagonal_bsc_wp. Qed.
Print Assumptions C32_get_diagonal_bsc_partial.

Ltac okfmt := cbn -[Z.le Z.lt]; repeat match goal with |- _ /\ _ => split end; try (vm_compute; intuition congruence); try small.
Ltac nodup := unfold no_dup_pos; vm_compute; repeat constructor; cbn; intuition congruence.
Ltac shape := intros e He; vm_compute in He; repeat (destruct He as [<-|He]; [vm_compute; intuition congruence|]); destruct He.

(** 3 x 3, rows (5 . 7), (. 3 .), (9 . .): row order by decreasing length is 0, 1, 2 *)
Definition exJ : jad Z := mkJad 3 3 4 2 [0; 1; 2] [0; 3; 4] [2; 1; 0; 0] [7; 3; 9; 5].
Lemma exJ_ok : jad_ok exJ.
Proof. unfold jad_ok, ptr_ok. okfmt; vm_compute; repeat constructor. Qed.
Lemma exJ_nodup : no_dup_pos (jad_entries exJ).
Proof. nodup. Qed.
(** row 2 has no diagonal entry; d = (99,99,99) becomes (5,3,99) *)
Theorem C32_get_diagonal_jad_refuted : exists (A : jad Z) d d', jad_ok A /\ no_dup_pos (jad_entries A) /\ jad_n A <= zlen d /\
  get_diagonal_jad A d = Ok d' /\ ~ is_diagonal (jad_n A) (jad_entries A) d'.
Proof.
  exists exJ, [99; 99; 99], [5; 3; 99]. split; [exact exJ_ok|]. split; [exact exJ_nodup|]. split; [vm_compute; congruence|]. split; [reflexivity|].
  intro H. specialize (H 2 ltac:(cbn; lia)). vm_compute in H. discriminate.
Qed.
Print Assumptions C32_get_diagonal_jad_refuted.
(** every row has its diagonal entry, so the early return is taken before the last entry *)
Example C32_jad_ex : jad_ok (mkJad 2 2 3 2 [0; 1] [0; 2; 3] [0; 1; 1] [4; 6; 8]) /\ no_dup_pos (jad_entries (mkJad 2 2 3 2 [0; 1] [0; 2; 3] [0; 1; 1] [4; 6; 8])) /\
  get_diagonal_jad (mkJad 2 2 3 2 [0; 1] [0; 2; 3] [0; 1; 1] [4; 6; 8]) [99; 99] = Ok [4; 6] /\
  shift_diagonal_jad exJ 2 = Ok (mkJad 3 3 4 2 [0; 1; 2] [0; 3; 4] [2; 1; 0; 0] [7; 1; 9; 3]).
Proof. split; [unfold jad_ok, ptr_ok; okfmt; vm_compute; repeat constructor|]. split; [nodup|]. split; reflexivity. Qed.

(** 3 x 3 in 2 x 2 blocks: diagonal blocks (1 2; 3 4) and (5), nothing else *)
Definition exB : bsr Z := mkBsr 3 3 2 2 2 2 [0; 1; 2] [0; 1] [1; 3; 2; 4; 5; 0; 0; 0].
Lemma exB_ok : bsr_ok exB.
Proof. unfold bsr_ok, ptr_ok. cbn -[Z.le Z.lt in_shape]. repeat match goal with |- _ /\ _ => split end; try (vm_compute; intuition congruence); try small. shape. Qed.
Lemma exB_nodup : no_dup_pos (bsr_entries exB).
Proof. nodup. Qed.
Example C32_bsr_ex : bsr_ok exB /\ no_dup_pos (bsr_entries exB) /\ get_diagonal_bsr exB [9; 9; 9] = Ok [1; 4; 5] /\
  shift_diagonal_bsr exB 1 = Ok (mkBsr 3 3 2 2 2 2 [0; 1; 2] [0; 1] [0; 3; 2; 3; 4; 0; 0; 0]).
Proof. split; [exact exB_ok|]. split; [exact exB_nodup|]. split; reflexivity. Qed.
Definition exC : bsc Z := mkBsc 3 3 2 2 2 2 [0; 1; 2] [0; 1] [1; 3; 2; 4; 5; 0; 0; 0].
Example C32_bsc_ex : bsc_ok exC /\ no_dup_pos (bsc_entries exC) /\ get_diagonal_bsc exC [9; 9; 9] = Ok [1; 4; 5] /\
  shift_diagonal_bsc exC 1 = Ok (mkBsc 3 3 2 2 2 2 [0; 1; 2] [0; 1] [0; 3; 2; 3; 4; 0; 0; 0]).
Proof.
  split; [unfold bsc_ok, ptr_ok; cbn -[Z.le Z.lt in_shape]; repeat match goal with |- _ /\ _ => split end; try (vm_compute; intuition congruence); try small; shape|].
  split; [nodup|]. split; reflexivity.
Qed.
(** one block row of 2 x 1 blocks, block column 1 stored before block column 0: d[1] is never set *)
Theorem C32_get_diagonal_bsr_rectangular_refuted : exists (A : bsr Z) d d', bsr_ok A /\ no_dup_pos (bsr_entries A) /\ bsr_n A <= zlen d /\
  (forall i, 0 <= i < bsr_n A -> has_diag (bsr_entries A) i = true) /\ get_diagonal_bsr A d = Ok d' /\ ~ is_diagonal (bsr_n A) (bsr_entries A) d'.
Proof.
  exists (mkBsr 2 2 2 1 1 2 [0; 2] [1; 0] [3; 4; 1; 2]), [9; 9], [1; 9].
  split; [unfold bsr_ok, ptr_ok; cbn -[Z.le Z.lt in_shape]; repeat match goal with |- _ /\ _ => split end; try (vm_compute; intuition congruence); try small; shape|].
  split; [nodup|]. split; [vm_compute; congruence|].
  split; [intros i Hi; cbn in Hi; assert (K : i = 0 \/ i = 1) by lia; destruct K as [-> | ->]; reflexivity|].
  split; [reflexivity|]. intro H. specialize (H 1 ltac:(cbn; lia)). vm_compute in H. discriminate.
Qed.
Print Assumptions C32_get_diagonal_bsr_rectangular_refuted.
(** 3 x 3 in blocks of rows {0}, {1,2}: the diagonal block (1,1) is looked for at columns 2, 3 *)
Definition exV : vbr Z := mkVbr 3 3 2 2 2 5 [0; 1; 3] [0; 1; 3] [0; 1; 5] [0; 1; 2] [0; 1] [2; 4; 0; 0; 5].
Lemma exV_ok : vbr_ok exV.
Proof.
  unfold vbr_ok, ptr_ok. cbn -[Z.le Z.lt]. repeat match goal with |- _ /\ _ => split end; try (vm_compute; intuition congruence); try small.
  intros bi bj Hbi Hbj. assert (K : bi = 0 \/ bi = 1) by lia. destruct K as [-> | ->]; cbv -[Z.le Z.lt] in Hbj; [assert (bj = 0) by lia|assert (bj = 1) by lia]; subst bj; vm_compute; intuition congruence.
Qed.
Theorem C32_get_diagonal_vbr_refuted : exists (A : vbr Z) d d', vbr_ok A /\ no_dup_pos (vbr_entries A) /\ vbr_n A <= zlen d /\
  (forall i, 0 <= i < vbr_n A -> has_diag (vbr_entries A) i = true) /\ get_diagonal_vbr A d = Ok d' /\ ~ is_diagonal (vbr_n A) (vbr_entries A) d'.
Proof.
  exists exV, [9; 9; 9], [2; 9; 9]. split; [exact exV_ok|]. split; [nodup|]. split; [vm_compute; congruence|].
  split; [intros i Hi; cbn in Hi; assert (K : i = 0 \/ i = 1 \/ i = 2) by lia; destruct K as [-> | [-> | ->]]; reflexivity|].
  split; [reflexivity|]. intro H. specialize (H 1 ltac:(cbn; lia)). vm_compute in H. discriminate.
Qed.
Print Assumptions C32_get_diagonal_vbr_refuted.

(** ** C32 shift_diagonal *)

Theorem C32_shift_diagonal_jad : forall (T : Type) (S : Scalar T), is_ring S -> forall (A : jad T) sigma, jad_ok A -> no_dup_pos (jad_entries A) ->
  exists A', shift_diagonal_jad A sigma = Ok A' /\ jad_ok A' /\ shifted (jad_entries A) (jad_entries A') sigma.
Proof. intros T S RT A sigma HA Hu. destruct (shift_diagonal_jad_wp A sigma HA Hu) as (A1 & E1 & H1 & H2). exists A1. split; auto. split; auto. rewrite H2. apply coef_shift; auto. Qed.
Print Assumptions C32_shift_diagonal_jad.
(** padding slots name their own row, so they count as stored diagonal entries *)
Theorem C32_shift_diagonal_ell : forall (T : Type) (S : Scalar T), is_ring S -> forall (A : ell T) sigma, ell_ok A ->
  exists A', shift_diagonal_ell A sigma = Ok A' /\ ell_ok A' /\ shifted (ell_entries A) (ell_entries A') sigma.
Proof. exact @shift_diagonal_ell_wp. Qed.
Print Assumptions C32_shift_diagonal_ell.
Example C32_ell_shift_ex : shift_diagonal_ell (mkEll 2 2 2 [0;0;1;1] [3;4;5;0]) 1 = Ok (mkEll 2 2 2 [0;0;1;1] [2;4;5;-1]).
Proof. reflexivity. Qed.
Theorem C32_shift_diagonal_bsr : forall (T : Type) (S : Scalar T), is_ring S -> eqb_ok S -> forall (A : bsr T) sigma, bsr_ok A -> bsr_bnc A = bsr_bnr A -> no_dup_pos (bsr_entries A) ->
  exists A', shift_diagonal_bsr A sigma = Ok A' /\ bsr_ok A' /\ shifted_n (bsr_n A) (bsr_entries A) (bsr_entries A') sigma.
Proof. intros T S RT EO A sigma HA Eb Hu. destruct (shift_diagonal_bsr_wp A sigma EO HA Eb Hu) as (A1 & E1 & H1 & H2). exists A1. split; auto. split; auto. rewrite H2. apply coef_shift_n; auto. Qed.
Print Assumptions C32_shift_diagonal_bsr.
Theorem C32_shift_diagonal_bsc : forall (T : Type) (S : Scalar T), is_ring S -> eqb_ok S -> forall (A : bsc T) sigma, bsc_ok A -> bsc_bnc A = bsc_bnr A -> no_dup_pos (bsc_entries A) ->
  exists A', shift_diagonal_bsc A sigma = Ok A' /\ bsc_ok A' /\ shifted_n (bsc_n A) (bsc_entries A) (bsc_entries A') sigma.
Proof. intros T S RT EO A sigma HA Eb Hu. destruct (shift_diagonal_bsc_wp A sigma EO HA Eb Hu) as (A1 & E1 & H1 & H2). exists A1. split; auto. split; auto. rewrite H2. apply coef_shift_n; auto. Qed.
Print Assumptions C32_shift_diagonal_bsc.
(** A - sigma I, as documented, where every diagonal block is stored *)
Theorem C32_shift_identity_bsr : forall (T : Type) (S : Scalar T), is_ring S -> eqb_ok S -> forall (A : bsr T) sigma, bsr_ok A -> bsr_bnc A = bsr_bnr A -> no_dup_pos (bsr_entries A) ->
  (forall i, 0 <= i < bsr_n A -> has_diag (bsr_entries A) i = true) ->
  exists A', shift_diagonal_bsr A sigma = Ok A' /\ bsr_ok A' /\ shifted_identity (bsr_n A) (bsr_entries A) (bsr_entries A') sigma.
Proof.
  intros T S RT EO A sigma HA Eb Hu Hd. destruct (C32_shift_diagonal_bsr T S RT EO A sigma HA Eb Hu) as (A1 & E1 & H1 & H2). exists A1. split; auto. split; auto.
  intros i j Hi. rewrite H2 by auto. rewrite Hd by auto. rewrite andb_true_r. auto.
Qed.
Print Assumptions C32_shift_identity_bsr.
Theorem C32_shift_diagonal_vbr_refuted : exists (A A' : vbr Z) sigma, vbr_ok A /\ no_dup_pos (vbr_entries A) /\
  (forall i, 0 <= i < vbr_n A -> has_diag (vbr_entries A) i = true) /\ shift_diagonal_vbr A sigma = Ok A' /\ ~ shifted_n (vbr_n A) (vbr_entries A) (vbr_entries A') sigma.
Proof.
  exists exV, (mkVbr 3 3 2 2 2 5 [0; 1; 3] [0; 1; 3] [0; 1; 5] [0; 1; 2] [0; 1] [1; 4; 0; 0; 5]), 1. split; [exact exV_ok|]. split; [nodup|].
  split; [intros i Hi; cbn in Hi; assert (K : i = 0 \/ i = 1 \/ i = 2) by lia; destruct K as [-> | [-> | ->]]; reflexivity|].
  split; [reflexivity|]. intro H. specialize (H 1 1 ltac:(cbn; lia)). vm_compute in H. discriminate.
Qed.
Print Assumptions C32_shift_diagonal_vbr_refuted.

(** ** C33 lis_matrix_scale *)

Theorem C33_jacobi_jad : forall (T : Type) (S : Scalar T), is_field S -> forall (A : jad T) b d, jad_ok A -> jad_np A = jad_n A -> jad_n A <= zlen b -> jad_n A <= zlen d ->
  no_dup_pos (jad_entries A) -> (forall i, 0 <= i < jad_n A -> has_diag (jad_entries A) i = true) -> (forall i, 0 <= i < jad_n A -> coef (jad_entries A) i i <> s0) ->
  exists A' b' d', matrix_scale get_diagonal_jad scale_jad scale_symm_jad (jad_n A) (jad_n A) A b d false = Ok (A', b', d') /\ (jad_ok A' /\ jad_n A' = jad_n A /\ jad_np A' = jad_n A) /\
    jacobi_scaled (jad_n A) (jad_entries A) (jad_entries A') (znth s0 b) (znth s0 b') (znth s0 d').
Proof.
  intros T S FT A b d HA Hnp Hb Hd Hu Hdg Hnz. pose proof (F_R FT) as RT.
  apply (scale_jacobi RT FT jad_entries (fun A' => jad_ok A' /\ jad_n A' = jad_n A /\ jad_np A' = jad_n A)); auto.
  - destruct HA as (?&_); lia.
  - destruct (get_diagonal_jad_wp RT A d HA Hd Hu) as (d1 & E1 & L1 & H1); exists d1; split; auto; split; auto; intros i Hi; rewrite H1 by auto; rewrite Hdg by auto; auto.
  - intros d1 L1 H1; destruct (scale_jad_core A d1 HA) as (A1 & E1 & E2 & E3 & E4 & E5); [lia|]; exists A1; split; [auto|split; [auto|split; [auto|split; congruence]]].
Qed.
Print Assumptions C33_jacobi_jad.
Theorem C33_symmetric_jad : forall (T : Type) (S : Scalar T), is_field S -> forall (A : jad T) b d, jad_ok A -> jad_np A = jad_n A -> jad_n A <= zlen b -> jad_n A <= zlen d ->
  no_dup_pos (jad_entries A) -> (forall i, 0 <= i < jad_n A -> has_diag (jad_entries A) i = true) -> (forall i, 0 <= i < jad_n A -> ssqrt (sabs (coef (jad_entries A) i i)) <> s0) ->
  exists A' b' d', matrix_scale get_diagonal_jad scale_jad scale_symm_jad (jad_n A) (jad_n A) A b d true = Ok (A', b', d') /\ (jad_ok A' /\ jad_n A' = jad_n A /\ jad_np A' = jad_n A) /\
    symm_scaled (jad_n A) (jad_entries A) (jad_entries A') (znth s0 b) (znth s0 b') (znth s0 d').
Proof.
  intros T S FT A b d HA Hnp Hb Hd Hu Hdg Hnz. pose proof (F_R FT) as RT.
  apply (scale_symm RT FT jad_entries (fun A' => jad_ok A' /\ jad_n A' = jad_n A /\ jad_np A' = jad_n A)); auto.
  - destruct HA as (?&_); lia.
  - destruct (get_diagonal_jad_wp RT A d HA Hd Hu) as (d1 & E1 & L1 & H1); exists d1; split; auto; split; auto; intros i Hi; rewrite H1 by auto; rewrite Hdg by auto; auto.
  - intros d1 L1 H1; destruct (scale_symm_jad_core A d1 HA) as (A1 & E1 & E2 & E3 & E4 & E5); [lia|]; exists A1; split; [auto|split; [auto|split; [auto|split; congruence]]].
Qed.
Print Assumptions C33_symmetric_jad.

(** square blocks; d must reach to the end of the last block row, nr * bnr elements *)
Theorem C33_jacobi_bsr : forall (T : Type) (S : Scalar T), is_field S -> eqb_ok S -> forall (A : bsr T) b d, bsr_ok A -> bsr_bnc A = bsr_bnr A -> bsr_n A <= zlen b -> bsr_nr A * bsr_bnr A <= zlen d ->
  no_dup_pos (bsr_entries A) -> (forall i, 0 <= i < bsr_n A -> has_diag (bsr_entries A) i = true) -> (forall i, 0 <= i < bsr_n A -> coef (bsr_entries A) i i <> s0) ->
  exists A' b' d', matrix_scale get_diagonal_bsr scale_bsr scale_symm_bsr (bsr_n A) (bsr_n A) A b d false = Ok (A', b', d') /\ (bsr_ok A' /\ bsr_n A' = bsr_n A) /\
    jacobi_scaled (bsr_n A) (bsr_entries A) (bsr_entries A') (znth s0 b) (znth s0 b') (znth s0 d').
Proof.
  intros T S FT EO A b d HA Eb Hb Hd Hu Hdg Hnz. pose proof (F_R FT) as RT. pose proof HA as (Hn & _ & _ & _ & Hnr & _).
  apply (scale_jacobi_len RT FT bsr_entries (fun A' => bsr_ok A' /\ bsr_n A' = bsr_n A)); auto; try lia.
  - destruct (get_diagonal_bsr_wp RT A d HA Eb ltac:(lia) Hu) as (d1 & E1 & L1 & H1); exists d1; split; auto; split; auto; intros i Hi; rewrite H1 by auto; rewrite Hdg by auto; auto.
  - intros d1 L1 H1. apply (scale_bsr_core RT A d1 EO HA). lia.
Qed.
Print Assumptions C33_jacobi_bsr.
Theorem C33_symmetric_bsr : forall (T : Type) (S : Scalar T), is_field S -> eqb_ok S -> forall (A : bsr T) b d, bsr_ok A -> bsr_bnc A = bsr_bnr A -> bsr_n A <= zlen b -> bsr_nr A * bsr_bnr A <= zlen d ->
  no_dup_pos (bsr_entries A) -> (forall i, 0 <= i < bsr_n A -> has_diag (bsr_entries A) i = true) -> (forall i, 0 <= i < bsr_n A -> ssqrt (sabs (coef (bsr_entries A) i i)) <> s0) ->
  exists A' b' d', matrix_scale get_diagonal_bsr scale_bsr scale_symm_bsr (bsr_n A) (bsr_n A) A b d true = Ok (A', b', d') /\ (bsr_ok A' /\ bsr_n A' = bsr_n A) /\
    symm_scaled (bsr_n A) (bsr_entries A) (bsr_entries A') (znth s0 b) (znth s0 b') (znth s0 d').
Proof.
  intros T S FT EO A b d HA Eb Hb Hd Hu Hdg Hnz. pose proof (F_R FT) as RT. pose proof HA as (Hn & Hnp & Hr & _ & Hnr & _ & _ & _ & _ & Hx & _).
  apply (scale_symm_len RT FT bsr_entries (fun A' => bsr_ok A' /\ bsr_n A' = bsr_n A)); auto; try lia.
  - destruct (get_diagonal_bsr_wp RT A d HA Eb ltac:(lia) Hu) as (d1 & E1 & L1 & H1); exists d1; split; auto; split; auto; intros i Hi; rewrite H1 by auto; rewrite Hdg by auto; auto.
  - intros d1 L1 H1. apply (scale_symm_bsr_core RT A d1 EO HA); [lia|]. intros k Hk. destruct (Hx k Hk) as [X1 X2]. rewrite Eb in *.
    assert (znth 0 (bsr_bindex A) k < bsr_nr A) by (apply (Z.mul_lt_mono_pos_r (bsr_bnr A)); lia). nia.
Qed.
Print Assumptions C33_symmetric_bsr.
(** lis_matrix_scale_bsr itself, blocks of any shape *)
Theorem C33_scale_bsr : forall (T : Type) (S : Scalar T), is_ring S -> eqb_ok S -> forall (A : bsr T) d, bsr_ok A -> bsr_nr A * bsr_bnr A <= zlen d ->
  exists A', scale_bsr A d = Ok A' /\ bsr_ok A' /\ bsr_n A' = bsr_n A /\ rows_scaled (bsr_entries A) (bsr_entries A') d.
Proof. intros T S RT EO A d HA Hd. destruct (scale_bsr_core RT A d EO HA Hd) as (A1 & E1 & E2 & H1 & H2). exists A1. split; auto. split; auto. split; auto. intros i j. rewrite E2. apply coef_row_scaled; auto. Qed.
Print Assumptions C33_scale_bsr.
(** a vector of n elements is read past its end when n is no multiple of the block height
    (vectors duplicated from the block matrix itself are longer: lis_vector.c:413-438 adds A->pad) *)
Theorem C33_scale_bsr_length_refuted : exists (A : bsr Z) d, bsr_ok A /\ zlen d = bsr_n A /\ scale_bsr A d = UB.
Proof. exists exB, [1; 1; 1]. split; [exact exB_ok|]. split; reflexivity. Qed.
Print Assumptions C33_scale_bsr_length_refuted.

(** BSC: the code of BSR is used although bptr runs over block columns.
    A = (2 1; 0 4) in 1 x 1 blocks: D A = (1 1/2; 0 1), the result is (1 1/4; 0 1) *)
Definition qz (z : Z) : Qc := Q2Qc (z # 1).
Definition exQ : bsc Qc := mkBsc 2 2 1 1 2 3 [0; 1; 3] [0; 0; 1] [qz 2; qz 1; qz 4].
Theorem C33_jacobi_bsc_refuted : exists (A : bsc Qc) b d A' b' d', bsc_ok A /\ no_dup_pos (bsc_entries A) /\ bsc_n A <= zlen b /\ bsc_n A <= zlen d /\
  (forall i, 0 <= i < bsc_n A -> has_diag (bsc_entries A) i = true) /\
  matrix_scale get_diagonal_bsc scale_bsc scale_symm_bsc (bsc_n A) (bsc_n A) A b d false = Ok (A', b', d') /\
  ~ jacobi_scaled (bsc_n A) (bsc_entries A) (bsc_entries A') (znth s0 b) (znth s0 b') (znth s0 d').
Proof.
  exists exQ, [qz 1; qz 1], [qz 0; qz 0].
  destruct (matrix_scale get_diagonal_bsc scale_bsc scale_symm_bsc (bsc_n exQ) (bsc_n exQ) exQ [qz 1; qz 1] [qz 0; qz 0] false) as [[[A' b'] d']|z|] eqn:E.
  2,3: exfalso; vm_compute in E; discriminate.
  exists A', b', d'. split.
  { unfold bsc_ok, ptr_ok; cbn -[Z.le Z.lt in_shape nz bsc_entries qz]; repeat match goal with |- _ /\ _ => split end; try (vm_compute; intuition congruence); try small. intros e He. apply filter_In in He. destruct He as [He _].
    apply In_bsc_entries in He. destruct He as (bi & bj & j & i & H1 & H2 & H3 & H4 & ->). cbn [bsc_n bsc_np bsc_nc bsc_bptr bsc_bindex bsc_bnr bsc_bnc exQ] in *. unfold erow, ecol; cbn [fst snd].
    assert (K : bi = 0 \/ bi = 1) by lia. destruct K as [-> | ->]; cbv -[Z.le Z.lt] in H2.
    - assert (bj = 0) by lia. subst bj. change (znth 0 [0; 0; 1] 0) with 0. lia.
    - assert (K : bj = 1 \/ bj = 2) by lia. destruct K as [-> | ->]; [change (znth 0 [0; 0; 1] 1) with 0|change (znth 0 [0; 0; 1] 2) with 1]; lia. }
  split; [nodup|]. split; [vm_compute; congruence|]. split; [vm_compute; congruence|].
  split; [intros i Hi; cbn in Hi; assert (K : i = 0 \/ i = 1) by lia; destruct K as [-> | ->]; reflexivity|].
  split; [reflexivity|]. intros (_ & H & _). specialize (H 0 1 ltac:(cbn; lia)). vm_compute in E. injection E as <- <- <-. vm_compute in H. discriminate.
Qed.
Print Assumptions C33_jacobi_bsc_refuted.

(** ** C33 VBR: the scaling loops are right, but lis_matrix_scale feeds them a wrong diagonal *)
Theorem C33_scale_vbr : forall (T : Type) (S : Scalar T), is_ring S -> forall (A : vbr T) d, vbr_ok A -> vbr_packed A -> vbr_n A <= zlen d ->
  exists A', scale_vbr A d = Ok A' /\ vbr_ok A' /\ rows_scaled (vbr_entries A) (vbr_entries A') d.
Proof.
  intros T S RT A d HA HK Hd. destruct (scale_vbr_core RT false A d HA HK Hd) as (A1 & E1 & H1 & _ & H2); [discriminate|]. exists A1. split; auto. split; auto. intros i j. rewrite H2. apply coef_row_scaled; auto.
Qed.
Print Assumptions C33_scale_vbr.
Theorem C33_scale_symm_vbr : forall (T : Type) (S : Scalar T), is_ring S -> forall (A : vbr T) d, vbr_ok A -> vbr_packed A -> vbr_np A <= zlen d ->
  exists A', scale_symm_vbr A d = Ok A' /\ vbr_ok A' /\ both_scaled (vbr_entries A) (vbr_entries A') d.
Proof.
  intros T S RT A d HA HK Hd. pose proof HA as (Hn & _). destruct (scale_vbr_core RT true A d HA HK ltac:(lia)) as (A1 & E1 & H1 & _ & H2); [auto|]. exists A1. split; auto. split; auto. intros i j. rewrite H2. apply coef_sym_scaled; auto.
Qed.
Print Assumptions C33_scale_symm_vbr.
Example C33_vbr_ex : vbr_ok exV /\ vbr_packed exV /\
  scale_vbr exV [2; 3; 10] = Ok (mkVbr 3 3 2 2 2 5 [0; 1; 3] [0; 1; 3] [0; 1; 5] [0; 1; 2] [0; 1] [4; 12; 0; 0; 50]) /\
  scale_symm_vbr exV [2; 3; 10] = Ok (mkVbr 3 3 2 2 2 5 [0; 1; 3] [0; 1; 3] [0; 1; 5] [0; 1; 2] [0; 1] [8; 36; 0; 0; 500]).
Proof.
  split; [exact exV_ok|]. split; [|split; reflexivity]. split; [vm_compute; congruence|].
  intros bi bj Hbi Hbj. cbn [vbr_nr exV] in Hbi. assert (K : bi = 0 \/ bi = 1) by lia. destruct K as [-> | ->]; cbv -[Z.le Z.lt] in Hbj; [assert (bj = 0) by lia|assert (bj = 1) by lia]; subst bj; reflexivity.
Qed.
(** the VBR diagonal (2,4,5) is read as (2,d1,d2): rows 1 and 2 are scaled by 1 / (what d held before) *)
Definition exVQ : vbr Qc := mkVbr 3 3 2 2 2 5 [0; 1; 3] [0; 1; 3] [0; 1; 5] [0; 1; 2] [0; 1] [qz 2; qz 4; qz 0; qz 0; qz 5].
Theorem C33_jacobi_vbr_refuted : exists (A : vbr Qc) b d A' b' d', vbr_ok A /\ vbr_packed A /\ no_dup_pos (vbr_entries A) /\ vbr_n A <= zlen b /\ vbr_n A <= zlen d /\
  (forall i, 0 <= i < vbr_n A -> has_diag (vbr_entries A) i = true) /\
  matrix_scale get_diagonal_vbr scale_vbr scale_symm_vbr (vbr_n A) (vbr_n A) A b d false = Ok (A', b', d') /\
  ~ jacobi_scaled (vbr_n A) (vbr_entries A) (vbr_entries A') (znth s0 b) (znth s0 b') (znth s0 d').
Proof.
  exists exVQ, [qz 1; qz 1; qz 1], [qz 1; qz 1; qz 1].
  destruct (matrix_scale get_diagonal_vbr scale_vbr scale_symm_vbr (vbr_n exVQ) (vbr_n exVQ) exVQ [qz 1; qz 1; qz 1] [qz 1; qz 1; qz 1] false) as [[[A' b'] d']|z|] eqn:E.
  2,3: exfalso; vm_compute in E; discriminate.
  exists A', b', d'. split.
  { unfold vbr_ok, ptr_ok. cbn -[Z.le Z.lt qz]. repeat match goal with |- _ /\ _ => split end; try (vm_compute; intuition congruence); try small.
    intros bi bj Hbi Hbj. assert (K : bi = 0 \/ bi = 1) by lia. destruct K as [-> | ->]; cbv -[Z.le Z.lt] in Hbj; [assert (bj = 0) by lia|assert (bj = 1) by lia]; subst bj; vm_compute; intuition congruence. }
  split.
  { split; [vm_compute; congruence|]. intros bi bj Hbi Hbj. cbn [vbr_nr exVQ] in Hbi. assert (K : bi = 0 \/ bi = 1) by lia. destruct K as [-> | ->]; cbv -[Z.le Z.lt] in Hbj; [assert (bj = 0) by lia|assert (bj = 1) by lia]; subst bj; reflexivity. }
  split; [nodup|]. split; [vm_compute; congruence|]. split; [vm_compute; congruence|].
  split; [intros i Hi; cbn in Hi; assert (K : i = 0 \/ i = 1 \/ i = 2) by lia; destruct K as [-> | [-> | ->]]; reflexivity|].
  split; [reflexivity|]. intros (H & _). specialize (H 1 ltac:(cbn; lia)). vm_compute in E. injection E as <- <- <-. vm_compute in H. discriminate.
Qed.
Print Assumptions C33_jacobi_vbr_refuted.

(** non-vacuity of C33_jacobi_bsr and C33_symmetric_bsr: 3 x 3 rationals in 2 x 2 blocks *)
Definition exBQ : bsr Qc := mkBsr 3 3 2 2 2 2 [0; 1; 2] [0; 1] [qz 1; qz 3; qz 2; qz 4; qz 5; qz 0; qz 0; qz 0].
Example C33_bsr_ex : no_dup_pos (bsr_entries exBQ) /\ (forall i, 0 <= i < 3 -> has_diag (bsr_entries exBQ) i = true /\ coef (bsr_entries exBQ) i i <> s0) /\
  exists A' b' d', matrix_scale get_diagonal_bsr scale_bsr scale_symm_bsr 3 3 exBQ [qz 1; qz 4; qz 10] [qz 0; qz 0; qz 0; qz 0] false = Ok (A', b', d') /\ map this b' = [1 # 1; 1 # 1; 2 # 1]%Q.
Proof.
  split; [nodup|]. split; [intros i Hi; assert (K : i = 0 \/ i = 1 \/ i = 2) by lia; destruct K as [-> | [-> | ->]]; (split; [reflexivity|vm_compute; congruence])|].
  eexists _, _, _. split; [vm_compute; reflexivity|]. reflexivity.
Qed.
