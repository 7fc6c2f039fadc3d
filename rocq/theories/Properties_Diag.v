(** C32, C33: lis_matrix_get_diagonal, lis_matrix_shift_diagonal and lis_matrix_scale, one
    theorem per storage format.  [solves], [is_diagonal], [shifted], [jacobi_scaled] and
    [symm_scaled] are defined in SpecDiag.v; [coef] is the coefficient of the stored
    entries (Spec.v).  Scalars form a ring (C32) or a field (C33): rounding is not modelled. *)
Require Import ZArith List Bool Lia Permutation QArith Qcanon Reals Lra.
From Verif Require Import Base Scalar ScalarReal Spec Diag SpecDiag DiagProof DiagProof2.
Import ListNotations.
Open Scope Z_scope.

(** ** C32 get_diagonal *)

Theorem C32_get_diagonal_csr : forall (T : Type) (S : Scalar T), is_ring S -> forall (A : csr T) d, csr_ok A -> csr_n A <= zlen d -> no_dup_pos (csr_entries A) ->
  exists d', get_diagonal_csr A d = Ok d' /\ zlen d' = zlen d /\ is_diagonal (csr_n A) (csr_entries A) d'.
Proof. exact @get_diagonal_csr_wp. Qed.
Print Assumptions C32_get_diagonal_csr.

Theorem C32_get_diagonal_csc : forall (T : Type) (S : Scalar T), is_ring S -> forall (A : csc T) d, csc_ok A -> csc_np A <= zlen d -> no_dup_pos (csc_entries A) ->
  exists d', get_diagonal_csc A d = Ok d' /\ zlen d' = zlen d /\ is_diagonal (csc_np A) (csc_entries A) d'.
Proof. exact @get_diagonal_csc_wp. Qed.
Print Assumptions C32_get_diagonal_csc.

Theorem C32_get_diagonal_msr : forall (T : Type) (S : Scalar T), is_ring S -> forall (A : msr T) d, msr_ok A -> msr_n A <= zlen d -> no_dup_pos (msr_entries A) ->
  exists d', get_diagonal_msr A d = Ok d' /\ zlen d' = zlen d /\ is_diagonal (msr_n A) (msr_entries A) d'.
Proof. exact @get_diagonal_msr_wp. Qed.
Print Assumptions C32_get_diagonal_msr.

Theorem C32_get_diagonal_ell : forall (T : Type) (S : Scalar T), is_ring S -> forall (A : ell T) d, ell_ok A -> ell_n A <= zlen d -> ell_diag_first A ->
  exists d', get_diagonal_ell A d = Ok d' /\ zlen d' = zlen d /\ is_diagonal (ell_n A) (ell_entries A) d'.
Proof. exact @get_diagonal_ell_wp. Qed.
Print Assumptions C32_get_diagonal_ell.

Theorem C32_get_diagonal_dns : forall (T : Type) (S : Scalar T), is_ring S -> forall (A : dns T) d, dns_ok A -> dns_n A <= zlen d -> 
  exists d', get_diagonal_dns A d = Ok d' /\ zlen d' = zlen d /\ is_diagonal (dns_n A) (dns_entries A) d'.
Proof. exact @get_diagonal_dns_wp. Qed.
Print Assumptions C32_get_diagonal_dns.

Theorem C32_get_diagonal_dia : forall (T : Type) (S : Scalar T), is_ring S -> forall (A : dia T) d, dia_ok A -> dia_n A <= zlen d -> dia_has_main A -> no_dup_pos (dia_entries A) ->
  exists d', get_diagonal_dia A d = Ok d' /\ zlen d' = zlen d /\ is_diagonal (dia_n A) (dia_entries A) d'.
Proof. exact @get_diagonal_dia_wp. Qed.
Print Assumptions C32_get_diagonal_dia.

(** COO: rows without a stored diagonal entry keep what d held before *)
Theorem C32_get_diagonal_coo_partial : forall (T : Type) (S : Scalar T), is_ring S -> forall (A : coo T) d, coo_ok A -> coo_n A <= zlen d -> no_dup_pos (coo_entries A) ->
  exists d', get_diagonal_coo A d = Ok d' /\ zlen d' = zlen d /\
    forall i, 0 <= i < coo_n A -> znth s0 d' i = if has_diag (coo_entries A) i then coef (coo_entries A) i i else znth s0 d i.
Proof. exact @get_diagonal_coo_wp. Qed.
Print Assumptions C32_get_diagonal_coo_partial.

Ltac small := intros ?k Hk; let K := fresh in assert (K : (k = 0 \/ k = 1 \/ k = 2 \/ k = 3 \/ k = 4)%Z) by (cbn in Hk; lia);
  repeat (destruct K as [->|K]; [try (vm_compute in Hk; intuition discriminate); try (vm_compute; intuition congruence)|]); try (subst k; try (vm_compute in Hk; intuition discriminate); vm_compute; intuition congruence).

(** 2 x 2, only (0,1) stored; d = (7,7) is returned as the diagonal *)
Theorem C32_get_diagonal_coo_refuted : exists (A : coo Z) d d', coo_ok A /\ no_dup_pos (coo_entries A) /\ coo_n A <= zlen d /\
  get_diagonal_coo A d = Ok d' /\ ~ is_diagonal (coo_n A) (coo_entries A) d'.
Proof.
  exists (mkCoo 2 2 1 [0] [1] [5]), [7; 7], [7; 7]. split.
  { unfold coo_ok; cbn -[Z.le Z.lt]. repeat match goal with |- _ /\ _ => split end; try (vm_compute; intuition congruence). small. }
  split; [repeat constructor; cbn; auto|]. split; [vm_compute; congruence|]. split; [reflexivity|].
  intro H. specialize (H 0 ltac:(cbn; lia)). vm_compute in H. discriminate.
Qed.
Print Assumptions C32_get_diagonal_coo_refuted.

(** DIA without a stored main diagonal: the value array is read out of bounds *)
Theorem C32_get_diagonal_dia_refuted : forall (T : Type) (S : Scalar T) (A : dia T) d, dia_ok A -> 0 < dia_n A ->
  zlen (dia_value A) = dia_nnd A * dia_n A -> ~ dia_has_main A -> get_diagonal_dia A d = UB.
Proof.
  intros T S A d (Hn & Hnp & Hm & Hi & Hv) Hpos HL Hno. unfold get_diagonal_dia.
  assert (G : wp (main_diagonal A) (fun j => j = dia_nnd A)).
  { unfold main_diagonal. apply (for_brk_wp (fun j r => r = j)); auto.
    intros j r Hj ->. wrd 0; [lia|]. destruct (Z.eqb_spec (znth 0 (dia_index A) j) 0) as [E|E]; apply wp_ok; cbn [fst snd]; auto.
    exfalso; apply Hno; exists j; auto. }
  apply wp_inv in G. destruct G as (j & -> & ->). cbn [bind]. rewrite for_step by lia. rewrite rd_ub by lia. reflexivity.
Qed.
Print Assumptions C32_get_diagonal_dia_refuted.
Example C32_dia_ex : dia_ok (mkDia 2 2 1 [1] [5; 0]) /\ ~ dia_has_main (mkDia 2 2 1 [1] [5; 0]) /\ get_diagonal_dia (mkDia 2 2 1 [1] [5; 0]) [0; 0] = UB.
Proof.
  split; [vm_compute; intuition congruence|]. split; [|reflexivity]. intros (j & Hj & E). cbn in Hj. replace j with 0 in E by lia. discriminate.
Qed.

(** the diagonal entry stored twice: only the first copy is returned, although lis_matvec adds both *)
Theorem C32_get_diagonal_duplicates_refuted : exists (A : csr Z) d d', csr_ok A /\ csr_n A <= zlen d /\
  get_diagonal_csr A d = Ok d' /\ ~ is_diagonal (csr_n A) (csr_entries A) d'.
Proof.
  exists (mkCsr 1 1 2 [0; 2] [0; 0] [3; 4]), [0], [3]. split.
  { unfold csr_ok, ptr_ok; cbn -[Z.le Z.lt]. repeat match goal with |- _ /\ _ => split end; try (vm_compute; intuition congruence); small. }
  split; [vm_compute; congruence|]. split; [reflexivity|].
  intro H. specialize (H 0 ltac:(cbn; lia)). vm_compute in H. discriminate.
Qed.
Print Assumptions C32_get_diagonal_duplicates_refuted.

Definition exD : csr Z := mkCsr 3 3 4 [0;2;3;4] [2;0;1;0] [7;5;3;9].
Lemma exD_ok : csr_ok exD.
Proof. unfold csr_ok, ptr_ok; cbn -[Z.le Z.lt]. repeat match goal with |- _ /\ _ => split end; try (vm_compute; intuition congruence); small. Qed.
Lemma exD_nodup : no_dup_pos (csr_entries exD).
Proof. unfold no_dup_pos. vm_compute. repeat constructor; cbn; intuition congruence. Qed.
Example C32_ex : csr_ok exD /\ no_dup_pos (csr_entries exD) /\ get_diagonal_csr exD [99;99;99] = Ok [5;3;0] /\
  shift_diagonal_csr exD 2 = Ok (mkCsr 3 3 4 [0;2;3;4] [2;0;1;0] [7;3;1;9]).
Proof. split; [exact exD_ok|]. split; [exact exD_nodup|]. split; vm_compute; reflexivity. Qed.
Example C32_ell_ex : ell_ok (mkEll 2 2 2 [0;0;1;1] [3;4;5;0]) /\ ell_diag_first (mkEll 2 2 2 [0;0;1;1] [3;4;5;0]) /\ get_diagonal_ell (mkEll 2 2 2 [0;0;1;1] [3;4;5;0]) [9;9] = Ok [3;0].
Proof.
  split; [|split; [|reflexivity]].
  - unfold ell_ok; cbn -[Z.le Z.lt]. repeat match goal with |- _ /\ _ => split end; try (vm_compute; intuition congruence); small.
  - intros i j j' Hi Hj Hj'. cbn [ell_n ell_maxnzr ell_index ell_value] in *. assert (j = 0) by lia. assert (j' = 1) by lia. subst. assert (K : i = 0 \/ i = 1) by lia. destruct K as [->| ->]; vm_compute; intros; congruence.
Qed.

(** ** C32 shift_diagonal: sigma leaves each stored diagonal entry, nothing else changes *)

Theorem C32_shift_diagonal_csr : forall (T : Type) (S : Scalar T), is_ring S -> forall (A : csr T) sigma, csr_ok A -> no_dup_pos (csr_entries A) ->
  exists A', shift_diagonal_csr A sigma = Ok A' /\ csr_ok A' /\ shifted (csr_entries A) (csr_entries A') sigma.
Proof. intros T S RT A sigma HA Hu. destruct (shift_diagonal_csr_wp A sigma HA Hu) as (A1 & E1 & H1 & H2). exists A1. split; auto. split; auto. rewrite H2. apply coef_shift; auto. Qed.
Print Assumptions C32_shift_diagonal_csr.

Theorem C32_shift_diagonal_csc : forall (T : Type) (S : Scalar T), is_ring S -> forall (A : csc T) sigma, csc_ok A -> no_dup_pos (csc_entries A) ->
  exists A', shift_diagonal_csc A sigma = Ok A' /\ csc_ok A' /\ shifted (csc_entries A) (csc_entries A') sigma.
Proof. intros T S RT A sigma HA Hu. destruct (shift_diagonal_csc_wp A sigma HA Hu) as (A1 & E1 & H1 & H2). exists A1. split; auto. split; auto. rewrite H2. apply coef_shift; auto. Qed.
Print Assumptions C32_shift_diagonal_csc.

Theorem C32_shift_diagonal_msr : forall (T : Type) (S : Scalar T), is_ring S -> forall (A : msr T) sigma, msr_ok A -> no_dup_pos (msr_entries A) ->
  exists A', shift_diagonal_msr A sigma = Ok A' /\ msr_ok A' /\ shifted (msr_entries A) (msr_entries A') sigma.
Proof. intros T S RT A sigma HA Hu. destruct (shift_diagonal_msr_wp A sigma HA Hu) as (A1 & E1 & H1 & H2). exists A1. split; auto. split; auto. rewrite H2. apply coef_shift; auto. Qed.
Print Assumptions C32_shift_diagonal_msr.

Theorem C32_shift_diagonal_coo : forall (T : Type) (S : Scalar T), is_ring S -> forall (A : coo T) sigma, coo_ok A -> no_dup_pos (coo_entries A) ->
  exists A', shift_diagonal_coo A sigma = Ok A' /\ coo_ok A' /\ shifted (coo_entries A) (coo_entries A') sigma.
Proof. intros T S RT A sigma HA Hu. destruct (shift_diagonal_coo_wp A sigma HA) as (A1 & E1 & H1 & H2). exists A1. split; auto. split; auto. rewrite H2. apply coef_shift; auto. Qed.
Print Assumptions C32_shift_diagonal_coo.

Theorem C32_shift_diagonal_dns : forall (T : Type) (S : Scalar T), is_ring S -> forall (A : dns T) sigma, dns_ok A -> 
  exists A', shift_diagonal_dns A sigma = Ok A' /\ dns_ok A' /\ shifted (dns_entries A) (dns_entries A') sigma.
Proof. intros T S RT A sigma HA. pose proof (dns_no_dup A) as Hu. destruct (shift_diagonal_dns_wp A sigma HA) as (A1 & E1 & H1 & H2). exists A1. split; auto. split; auto. rewrite H2. apply coef_shift; auto. Qed.
Print Assumptions C32_shift_diagonal_dns.

Theorem C32_shift_diagonal_dia : forall (T : Type) (S : Scalar T), is_ring S -> forall (A : dia T) sigma, dia_ok A -> dia_has_main A -> no_dup_pos (dia_entries A) ->
  exists A', shift_diagonal_dia A sigma = Ok A' /\ dia_ok A' /\ shifted (dia_entries A) (dia_entries A') sigma.
Proof. intros T S RT A sigma HA Hm Hu. destruct (shift_diagonal_dia_wp A sigma HA Hm Hu) as (A1 & E1 & H1 & H2). exists A1. split; auto. split; auto. rewrite H2. apply coef_shift; auto. Qed.
Print Assumptions C32_shift_diagonal_dia.

(** MSR and DNS store every diagonal entry, so they get the documented A - sigma I *)
Theorem C32_shift_identity_msr : forall (T : Type) (S : Scalar T), is_ring S -> forall (A : msr T) sigma, msr_ok A -> no_dup_pos (msr_entries A) ->
  exists A', shift_diagonal_msr A sigma = Ok A' /\ msr_ok A' /\ shifted_identity (msr_n A) (msr_entries A) (msr_entries A') sigma.
Proof.
  intros T S RT A sigma HA Hu. destruct (C32_shift_diagonal_msr T S RT A sigma HA Hu) as (A1 & E1 & H1 & H2). exists A1. split; auto. split; auto.
  intros i j Hi. rewrite H2. replace (has_diag (msr_entries A) i) with true; [rewrite andb_true_r; auto|]. symmetry. apply has_diag_In, in_map_iff.
  exists (i, i, znth s0 (msr_value A) i). split; auto. apply In_msr_entries. exists i. auto.
Qed.
Print Assumptions C32_shift_identity_msr.
Theorem C32_shift_identity_dns : forall (T : Type) (S : Scalar T), is_ring S -> forall (A : dns T) sigma, dns_ok A ->
  exists A', shift_diagonal_dns A sigma = Ok A' /\ dns_ok A' /\ shifted_identity (dns_n A) (dns_entries A) (dns_entries A') sigma.
Proof.
  intros T S RT A sigma HA. destruct (C32_shift_diagonal_dns T S RT A sigma HA) as (A1 & E1 & H1 & H2). exists A1. split; auto. split; auto.
  intros i j Hi. rewrite H2. replace (has_diag (dns_entries A) i) with true; [rewrite andb_true_r; auto|]. symmetry. apply has_diag_In, in_map_iff.
  exists (i, i, znth s0 (dns_value A) (i * dns_n A + i)). split; auto. apply In_dns_entries. exists i, i. destruct HA as (? & _). split; [lia|]. split; [lia|auto].
Qed.
Print Assumptions C32_shift_identity_dns.

(** the User's Guide documents A - sigma E; CSR leaves rows without a stored diagonal entry unchanged *)
Theorem C32_shift_identity_csr_refuted : exists (A : csr Z) sigma A', csr_ok A /\ no_dup_pos (csr_entries A) /\
  shift_diagonal_csr A sigma = Ok A' /\ ~ shifted_identity (csr_n A) (csr_entries A) (csr_entries A') sigma.
Proof.
  exists exD, 2, (mkCsr 3 3 4 [0;2;3;4] [2;0;1;0] [7;3;1;9]). split; [exact exD_ok|]. split; [exact exD_nodup|]. split; [vm_compute; reflexivity|].
  intro H. specialize (H 2 2 ltac:(cbn; lia)). vm_compute in H. discriminate.
Qed.
Print Assumptions C32_shift_identity_csr_refuted.

(** DIA without a main diagonal is shifted out of bounds *)
Theorem C32_shift_diagonal_dia_refuted : exists (A : dia Z) sigma, dia_ok A /\ shift_diagonal_dia A sigma = UB.
Proof. exists (mkDia 2 2 1 [1] [5; 0]), 1. split; [vm_compute; intuition congruence|reflexivity]. Qed.
Print Assumptions C32_shift_diagonal_dia_refuted.

(** ** C33 lis_matrix_scale.  The process has the whole matrix: np = n. *)

Theorem C33_jacobi_csr : forall (T : Type) (S : Scalar T), is_field S -> forall (A : csr T) b d, csr_ok A -> csr_np A = csr_n A -> csr_n A <= zlen b -> csr_n A <= zlen d ->
  no_dup_pos (csr_entries A) -> (forall i, 0 <= i < csr_n A -> coef (csr_entries A) i i <> s0) ->
  exists A' b' d', matrix_scale get_diagonal_csr scale_csr scale_symm_csr (csr_n A) (csr_n A) A b d false = Ok (A', b', d') /\ (csr_ok A' /\ csr_n A' = csr_n A /\ csr_np A' = csr_n A) /\
    jacobi_scaled (csr_n A) (csr_entries A) (csr_entries A') (znth s0 b) (znth s0 b') (znth s0 d').
Proof.
  intros T S FT A b d HA Hnp Hb Hd Hu Hnz. pose proof (F_R FT) as RT.
  apply (scale_jacobi RT FT csr_entries (fun A' => csr_ok A' /\ csr_n A' = csr_n A /\ csr_np A' = csr_n A)); auto.
  - destruct HA as ((?&_)&_); lia.
  - apply get_diagonal_csr_wp; auto.
  - intros d1 L1 H1; destruct (scale_csr_core A d1 HA) as (A1 & E1 & E2 & E3 & E4 & E5); [lia|]; exists A1; split; [auto|split; [auto|split; [auto|split; congruence]]].
Qed.
Print Assumptions C33_jacobi_csr.

Theorem C33_jacobi_csc : forall (T : Type) (S : Scalar T), is_field S -> forall (A : csc T) b d, csc_ok A -> csc_np A = csc_n A -> csc_n A <= zlen b -> csc_n A <= zlen d ->
  no_dup_pos (csc_entries A) -> (forall i, 0 <= i < csc_n A -> coef (csc_entries A) i i <> s0) ->
  exists A' b' d', matrix_scale get_diagonal_csc scale_csc scale_symm_csc (csc_n A) (csc_n A) A b d false = Ok (A', b', d') /\ (csc_ok A' /\ csc_n A' = csc_n A /\ csc_np A' = csc_n A) /\
    jacobi_scaled (csc_n A) (csc_entries A) (csc_entries A') (znth s0 b) (znth s0 b') (znth s0 d').
Proof.
  intros T S FT A b d HA Hnp Hb Hd Hu Hnz. pose proof (F_R FT) as RT.
  apply (scale_jacobi RT FT csc_entries (fun A' => csc_ok A' /\ csc_n A' = csc_n A /\ csc_np A' = csc_n A)); auto.
  - destruct HA as (_&?&_); lia.
  - rewrite <- Hnp; apply get_diagonal_csc_wp; auto; lia.
  - intros d1 L1 H1; destruct (scale_csc_core A d1 HA) as (A1 & E1 & E2 & E3 & E4 & E5); [lia|]; exists A1; split; [auto|split; [auto|split; [auto|split; congruence]]].
Qed.
Print Assumptions C33_jacobi_csc.

Theorem C33_jacobi_msr : forall (T : Type) (S : Scalar T), is_field S -> forall (A : msr T) b d, msr_ok A -> msr_np A = msr_n A -> msr_n A <= zlen b -> msr_n A <= zlen d ->
  no_dup_pos (msr_entries A) -> (forall i, 0 <= i < msr_n A -> coef (msr_entries A) i i <> s0) ->
  exists A' b' d', matrix_scale get_diagonal_msr scale_msr scale_symm_msr (msr_n A) (msr_n A) A b d false = Ok (A', b', d') /\ (msr_ok A' /\ msr_n A' = msr_n A /\ msr_np A' = msr_n A) /\
    jacobi_scaled (msr_n A) (msr_entries A) (msr_entries A') (znth s0 b) (znth s0 b') (znth s0 d').
Proof.
  intros T S FT A b d HA Hnp Hb Hd Hu Hnz. pose proof (F_R FT) as RT.
  apply (scale_jacobi RT FT msr_entries (fun A' => msr_ok A' /\ msr_n A' = msr_n A /\ msr_np A' = msr_n A)); auto.
  - destruct HA as (?&_); lia.
  - apply get_diagonal_msr_wp; auto.
  - intros d1 L1 H1; destruct (scale_msr_core A d1 HA) as (A1 & E1 & E2 & E3 & E4 & E5); [lia| |exists A1; split; [auto|split; [auto|split; [auto|split; congruence]]]].
    intros i Hi. rewrite H1 by auto. rewrite (coef_eq RT _ i i (znth s0 (msr_value A) i)); auto; [|apply In_msr_entries; exists i; auto].
    rewrite (Fdiv_def FT). rewrite (Rmul_1_l RT). rewrite (Rmul_comm RT). apply (Finv_l FT).
    rewrite <- (coef_eq RT (msr_entries A) i i (znth s0 (msr_value A) i)); auto. apply In_msr_entries; exists i; auto.
Qed.
Print Assumptions C33_jacobi_msr.

Theorem C33_jacobi_ell : forall (T : Type) (S : Scalar T), is_field S -> forall (A : ell T) b d, ell_ok A -> ell_np A = ell_n A -> ell_n A <= zlen b -> ell_n A <= zlen d ->
  ell_diag_first A -> (forall i, 0 <= i < ell_n A -> coef (ell_entries A) i i <> s0) ->
  exists A' b' d', matrix_scale get_diagonal_ell scale_ell scale_symm_ell (ell_n A) (ell_n A) A b d false = Ok (A', b', d') /\ (ell_ok A' /\ ell_n A' = ell_n A /\ ell_np A' = ell_n A) /\
    jacobi_scaled (ell_n A) (ell_entries A) (ell_entries A') (znth s0 b) (znth s0 b') (znth s0 d').
Proof.
  intros T S FT A b d HA Hnp Hb Hd Hu Hnz. pose proof (F_R FT) as RT.
  apply (scale_jacobi RT FT ell_entries (fun A' => ell_ok A' /\ ell_n A' = ell_n A /\ ell_np A' = ell_n A)); auto.
  - destruct HA as (?&_); lia.
  - apply get_diagonal_ell_wp; auto.
  - intros d1 L1 H1; destruct (scale_ell_core A d1 HA) as (A1 & E1 & E2 & E3 & E4 & E5); [lia|]; exists A1; split; [auto|split; [auto|split; [auto|split; congruence]]].
Qed.
Print Assumptions C33_jacobi_ell.

Theorem C33_jacobi_coo : forall (T : Type) (S : Scalar T), is_field S -> forall (A : coo T) b d, coo_ok A -> coo_np A = coo_n A -> coo_n A <= zlen b -> coo_n A <= zlen d ->
  no_dup_pos (coo_entries A) -> (forall i, 0 <= i < coo_n A -> has_diag (coo_entries A) i = true) -> (forall i, 0 <= i < coo_n A -> coef (coo_entries A) i i <> s0) ->
  exists A' b' d', matrix_scale get_diagonal_coo scale_coo scale_symm_coo (coo_n A) (coo_n A) A b d false = Ok (A', b', d') /\ (coo_ok A' /\ coo_n A' = coo_n A /\ coo_np A' = coo_n A) /\
    jacobi_scaled (coo_n A) (coo_entries A) (coo_entries A') (znth s0 b) (znth s0 b') (znth s0 d').
Proof.
  intros T S FT A b d HA Hnp Hb Hd Hu Hdg Hnz. pose proof (F_R FT) as RT.
  apply (scale_jacobi RT FT coo_entries (fun A' => coo_ok A' /\ coo_n A' = coo_n A /\ coo_np A' = coo_n A)); auto.
  - destruct HA as (?&_); lia.
  - destruct (get_diagonal_coo_wp RT A d HA Hd Hu) as (d1 & E1 & L1 & H1); exists d1; split; auto; split; auto; intros i Hi; rewrite H1 by auto; rewrite Hdg by auto; auto.
  - intros d1 L1 H1; destruct (scale_coo_core A d1 HA) as (A1 & E1 & E2 & E3 & E4 & E5); [lia|]; exists A1; split; [auto|split; [auto|split; [auto|split; congruence]]].
Qed.
Print Assumptions C33_jacobi_coo.

Theorem C33_jacobi_dns : forall (T : Type) (S : Scalar T), is_field S -> forall (A : dns T) b d, dns_ok A -> dns_np A = dns_n A -> dns_n A <= zlen b -> dns_n A <= zlen d ->
   (forall i, 0 <= i < dns_n A -> coef (dns_entries A) i i <> s0) ->
  exists A' b' d', matrix_scale get_diagonal_dns scale_dns scale_symm_dns (dns_n A) (dns_n A) A b d false = Ok (A', b', d') /\ (dns_ok A' /\ dns_n A' = dns_n A /\ dns_np A' = dns_n A) /\
    jacobi_scaled (dns_n A) (dns_entries A) (dns_entries A') (znth s0 b) (znth s0 b') (znth s0 d').
Proof.
  intros T S FT A b d HA Hnp Hb Hd  Hnz. pose proof (F_R FT) as RT.
  apply (scale_jacobi RT FT dns_entries (fun A' => dns_ok A' /\ dns_n A' = dns_n A /\ dns_np A' = dns_n A)); auto.
  - destruct HA as (?&_); lia.
  - apply get_diagonal_dns_wp; auto.
  - intros d1 L1 H1; destruct (scale_dns_core A d1 HA) as (A1 & E1 & E2 & E3 & E4 & E5); [lia|]; exists A1; split; [auto|split; [auto|split; [auto|split; congruence]]].
Qed.
Print Assumptions C33_jacobi_dns.

Theorem C33_jacobi_dia : forall (T : Type) (S : Scalar T), is_field S -> forall (A : dia T) b d, dia_ok A -> dia_np A = dia_n A -> dia_n A <= zlen b -> dia_n A <= zlen d ->
  dia_has_main A -> no_dup_pos (dia_entries A) -> (forall i, 0 <= i < dia_n A -> coef (dia_entries A) i i <> s0) ->
  exists A' b' d', matrix_scale get_diagonal_dia scale_dia scale_symm_dia (dia_n A) (dia_n A) A b d false = Ok (A', b', d') /\ (dia_ok A' /\ dia_n A' = dia_n A /\ dia_np A' = dia_n A) /\
    jacobi_scaled (dia_n A) (dia_entries A) (dia_entries A') (znth s0 b) (znth s0 b') (znth s0 d').
Proof.
  intros T S FT A b d HA Hnp Hb Hd Hmn Hu Hnz. pose proof (F_R FT) as RT.
  apply (scale_jacobi RT FT dia_entries (fun A' => dia_ok A' /\ dia_n A' = dia_n A /\ dia_np A' = dia_n A)); auto.
  - destruct HA as (?&_); lia.
  - apply get_diagonal_dia_wp; auto.
  - intros d1 L1 H1; destruct (scale_dia_core A d1 HA) as (A1 & E1 & E2 & E3 & E4 & E5); [lia|]; exists A1; split; [auto|split; [auto|split; [auto|split; congruence]]].
Qed.
Print Assumptions C33_jacobi_dia.

Theorem C33_symmetric_csr : forall (T : Type) (S : Scalar T), is_field S -> forall (A : csr T) b d, csr_ok A -> csr_np A = csr_n A -> csr_n A <= zlen b -> csr_n A <= zlen d ->
  no_dup_pos (csr_entries A) -> (forall i, 0 <= i < csr_n A -> ssqrt (sabs (coef (csr_entries A) i i)) <> s0) ->
  exists A' b' d', matrix_scale get_diagonal_csr scale_csr scale_symm_csr (csr_n A) (csr_n A) A b d true = Ok (A', b', d') /\ (csr_ok A' /\ csr_n A' = csr_n A /\ csr_np A' = csr_n A) /\
    symm_scaled (csr_n A) (csr_entries A) (csr_entries A') (znth s0 b) (znth s0 b') (znth s0 d').
Proof.
  intros T S FT A b d HA Hnp Hb Hd Hu Hnz. pose proof (F_R FT) as RT.
  apply (scale_symm RT FT csr_entries (fun A' => csr_ok A' /\ csr_n A' = csr_n A /\ csr_np A' = csr_n A)); auto.
  - destruct HA as ((?&_)&_); lia.
  - apply get_diagonal_csr_wp; auto.
  - intros d1 L1 H1; destruct (scale_symm_csr_core RT A d1 HA) as (A1 & E1 & E2 & E3 & E4 & E5); [lia|]; exists A1; split; [auto|split; [auto|split; [auto|split; congruence]]].
Qed.
Print Assumptions C33_symmetric_csr.

Theorem C33_symmetric_csc : forall (T : Type) (S : Scalar T), is_field S -> forall (A : csc T) b d, csc_ok A -> csc_np A = csc_n A -> csc_n A <= zlen b -> csc_n A <= zlen d ->
  no_dup_pos (csc_entries A) -> (forall i, 0 <= i < csc_n A -> ssqrt (sabs (coef (csc_entries A) i i)) <> s0) ->
  exists A' b' d', matrix_scale get_diagonal_csc scale_csc scale_symm_csc (csc_n A) (csc_n A) A b d true = Ok (A', b', d') /\ (csc_ok A' /\ csc_n A' = csc_n A /\ csc_np A' = csc_n A) /\
    symm_scaled (csc_n A) (csc_entries A) (csc_entries A') (znth s0 b) (znth s0 b') (znth s0 d').
Proof.
  intros T S FT A b d HA Hnp Hb Hd Hu Hnz. pose proof (F_R FT) as RT.
  apply (scale_symm RT FT csc_entries (fun A' => csc_ok A' /\ csc_n A' = csc_n A /\ csc_np A' = csc_n A)); auto.
  - destruct HA as (_&?&_); lia.
  - rewrite <- Hnp; apply get_diagonal_csc_wp; auto; lia.
  - intros d1 L1 H1; destruct (scale_symm_csc_core RT A d1 HA) as (A1 & E1 & E2 & E3 & E4 & E5); [lia|]; exists A1; split; [auto|split; [auto|split; [auto|split; congruence]]].
Qed.
Print Assumptions C33_symmetric_csc.

(** MSR sets every diagonal entry to 1, so this holds only where A_ii / |A_ii| = 1: see C33_symmetric_msr_refuted *)
Theorem C33_symmetric_msr_partial : forall (T : Type) (S : Scalar T), is_field S -> forall (A : msr T) b d, msr_ok A -> msr_np A = msr_n A -> msr_n A <= zlen b -> msr_n A <= zlen d ->
  no_dup_pos (msr_entries A) -> (forall i, 0 <= i < msr_n A -> ssqrt (sabs (coef (msr_entries A) i i)) <> s0) ->
  (forall i, 0 <= i < msr_n A -> let r := sdiv s1 (ssqrt (sabs (coef (msr_entries A) i i))) in smul (coef (msr_entries A) i i) (smul r r) = s1) ->
  exists A' b' d', matrix_scale get_diagonal_msr scale_msr scale_symm_msr (msr_n A) (msr_n A) A b d true = Ok (A', b', d') /\ (msr_ok A' /\ msr_n A' = msr_n A /\ msr_np A' = msr_n A) /\
    symm_scaled (msr_n A) (msr_entries A) (msr_entries A') (znth s0 b) (znth s0 b') (znth s0 d').
Proof.
  intros T S FT A b d HA Hnp Hb Hd Hu Hnz H2. pose proof (F_R FT) as RT.
  apply (scale_symm RT FT msr_entries (fun A' => msr_ok A' /\ msr_n A' = msr_n A /\ msr_np A' = msr_n A)); auto.
  - destruct HA as (?&_); lia.
  - apply get_diagonal_msr_wp; auto.
  - intros d1 L1 H1; destruct (scale_symm_msr_core RT A d1 HA) as (A1 & E1 & E2 & E3 & E4 & E5); [lia| |exists A1; split; [auto|split; [auto|split; [auto|split; congruence]]]].
    intros i Hi. rewrite H1 by auto. rewrite <- (coef_eq RT (msr_entries A) i i (znth s0 (msr_value A) i)) at 1; [apply H2; auto|auto|]. apply In_msr_entries; exists i; auto.
Qed.
Print Assumptions C33_symmetric_msr_partial.

Theorem C33_symmetric_ell : forall (T : Type) (S : Scalar T), is_field S -> forall (A : ell T) b d, ell_ok A -> ell_np A = ell_n A -> ell_n A <= zlen b -> ell_n A <= zlen d ->
  ell_diag_first A -> (forall i, 0 <= i < ell_n A -> ssqrt (sabs (coef (ell_entries A) i i)) <> s0) ->
  exists A' b' d', matrix_scale get_diagonal_ell scale_ell scale_symm_ell (ell_n A) (ell_n A) A b d true = Ok (A', b', d') /\ (ell_ok A' /\ ell_n A' = ell_n A /\ ell_np A' = ell_n A) /\
    symm_scaled (ell_n A) (ell_entries A) (ell_entries A') (znth s0 b) (znth s0 b') (znth s0 d').
Proof.
  intros T S FT A b d HA Hnp Hb Hd Hu Hnz. pose proof (F_R FT) as RT.
  apply (scale_symm RT FT ell_entries (fun A' => ell_ok A' /\ ell_n A' = ell_n A /\ ell_np A' = ell_n A)); auto.
  - destruct HA as (?&_); lia.
  - apply get_diagonal_ell_wp; auto.
  - intros d1 L1 H1; destruct (scale_symm_ell_core A d1 HA) as (A1 & E1 & E2 & E3 & E4 & E5); [lia|]; exists A1; split; [auto|split; [auto|split; [auto|split; congruence]]].
Qed.
Print Assumptions C33_symmetric_ell.

Theorem C33_symmetric_dns : forall (T : Type) (S : Scalar T), is_field S -> forall (A : dns T) b d, dns_ok A -> dns_np A = dns_n A -> dns_n A <= zlen b -> dns_n A <= zlen d ->
   (forall i, 0 <= i < dns_n A -> ssqrt (sabs (coef (dns_entries A) i i)) <> s0) ->
  exists A' b' d', matrix_scale get_diagonal_dns scale_dns scale_symm_dns (dns_n A) (dns_n A) A b d true = Ok (A', b', d') /\ (dns_ok A' /\ dns_n A' = dns_n A /\ dns_np A' = dns_n A) /\
    symm_scaled (dns_n A) (dns_entries A) (dns_entries A') (znth s0 b) (znth s0 b') (znth s0 d').
Proof.
  intros T S FT A b d HA Hnp Hb Hd  Hnz. pose proof (F_R FT) as RT.
  apply (scale_symm RT FT dns_entries (fun A' => dns_ok A' /\ dns_n A' = dns_n A /\ dns_np A' = dns_n A)); auto.
  - destruct HA as (?&_); lia.
  - apply get_diagonal_dns_wp; auto.
  - intros d1 L1 H1; destruct (scale_symm_dns_core A d1 HA) as (A1 & E1 & E2 & E3 & E4 & E5); [lia|]; exists A1; split; [auto|split; [auto|split; [auto|split; congruence]]].
Qed.
Print Assumptions C33_symmetric_dns.

Theorem C33_symmetric_dia : forall (T : Type) (S : Scalar T), is_field S -> forall (A : dia T) b d, dia_ok A -> dia_np A = dia_n A -> dia_n A <= zlen b -> dia_n A <= zlen d ->
  dia_has_main A -> no_dup_pos (dia_entries A) -> (forall i, 0 <= i < dia_n A -> ssqrt (sabs (coef (dia_entries A) i i)) <> s0) ->
  exists A' b' d', matrix_scale get_diagonal_dia scale_dia scale_symm_dia (dia_n A) (dia_n A) A b d true = Ok (A', b', d') /\ (dia_ok A' /\ dia_n A' = dia_n A /\ dia_np A' = dia_n A) /\
    symm_scaled (dia_n A) (dia_entries A) (dia_entries A') (znth s0 b) (znth s0 b') (znth s0 d').
Proof.
  intros T S FT A b d HA Hnp Hb Hd Hmn Hu Hnz. pose proof (F_R FT) as RT.
  apply (scale_symm RT FT dia_entries (fun A' => dia_ok A' /\ dia_n A' = dia_n A /\ dia_np A' = dia_n A)); auto.
  - destruct HA as (?&_); lia.
  - apply get_diagonal_dia_wp; auto.
  - intros d1 L1 H1; destruct (scale_symm_dia_core A d1 HA) as (A1 & E1 & E2 & E3 & E4 & E5); [lia|]; exists A1; split; [auto|split; [auto|split; [auto|split; congruence]]].
Qed.
Print Assumptions C33_symmetric_dia.

(** JAD: the scaling functions alone (its get_diagonal is not modelled), for any d *)
Theorem C33_scale_jad_partial : forall (T : Type) (S : Scalar T), is_ring S -> forall (A : jad T) d, jad_ok A -> jad_np A <= zlen d ->
  (exists A', scale_jad A d = Ok A' /\ jad_ok A' /\ forall i j, coef (jad_entries A') i j = smul (coef (jad_entries A) i j) (znth s0 d i)) /\
  (exists A', scale_symm_jad A d = Ok A' /\ jad_ok A' /\ forall i j, coef (jad_entries A') i j = smul (smul (znth s0 d i) (coef (jad_entries A) i j)) (znth s0 d j)).
Proof.
  intros T S RT A d HA Hd. split.
  - destruct (scale_jad_core A d HA) as (A1 & E1 & E2 & E3 & _); [destruct HA as (?&_); lia|]. exists A1. split; [auto|]. split; [auto|]. intros; rewrite E2; apply coef_row_scaled; auto.
  - destruct (scale_symm_jad_core A d HA Hd) as (A1 & E1 & E2 & E3 & _). exists A1. split; [auto|]. split; [auto|]. intros; rewrite E2; apply coef_sym_scaled; auto.
Qed.
Print Assumptions C33_scale_jad_partial.

(** COO: symmetric scaling multiplies by d[row] twice *)
Theorem C33_symmetric_coo_refuted : exists (A A' : coo Qc) b b' d d', coo_ok A /\ no_dup_pos (coo_entries A) /\
  (forall i, 0 <= i < coo_n A -> has_diag (coo_entries A) i = true /\ ssqrt (sabs (coef (coo_entries A) i i)) <> s0) /\
  matrix_scale get_diagonal_coo scale_coo scale_symm_coo (coo_n A) (coo_n A) A b d true = Ok (A', b', d') /\
  ~ symm_scaled (coo_n A) (coo_entries A) (coo_entries A') (znth s0 b) (znth s0 b') (znth s0 d').
Proof.
  set (A := mkCoo 2 2 3 [0;0;1] [0;1;1] [1%Qc; 1%Qc; Q2Qc (4 # 1)]).
  destruct (matrix_scale get_diagonal_coo scale_coo scale_symm_coo 2 2 A [1%Qc; 1%Qc] [0%Qc; 0%Qc] true) as [[[A' b'] d']| |] eqn:E; [|vm_compute in E; discriminate|vm_compute in E; discriminate].
  exists A, A', [1%Qc; 1%Qc], b', [0%Qc; 0%Qc], d'. split.
  { unfold coo_ok, A; cbn -[Z.le Z.lt]. repeat match goal with |- _ /\ _ => split end; try (vm_compute; intuition congruence). small. }
  split; [unfold no_dup_pos; vm_compute; repeat constructor; cbn; intuition congruence|]. split.
  { intros i Hi. assert (K : i = 0 \/ i = 1) by (cbn in Hi; lia). destruct K as [->| ->]; split; try reflexivity; intro H; vm_compute in H; discriminate. }
  split; [exact E|]. intros (_ & H & _). specialize (H 0 1 ltac:(cbn; lia) ltac:(cbn; lia)). vm_compute in E. injection E as <- <- <-. vm_compute in H. discriminate.
Qed.
Print Assumptions C33_symmetric_coo_refuted.

(** MSR with A_00 = -1: D A D has -1 at (0,0), lis_matrix_scale_symm_msr stores 1 *)
Theorem C33_symmetric_msr_refuted : exists (A A' : msr Qc) b b' d d', msr_ok A /\ no_dup_pos (msr_entries A) /\
  (forall i, 0 <= i < msr_n A -> ssqrt (sabs (coef (msr_entries A) i i)) <> s0) /\
  matrix_scale get_diagonal_msr scale_msr scale_symm_msr (msr_n A) (msr_n A) A b d true = Ok (A', b', d') /\
  ~ symm_scaled (msr_n A) (msr_entries A) (msr_entries A') (znth s0 b) (znth s0 b') (znth s0 d').
Proof.
  set (A := mkMsr 1 1 1 0 [2;2] [(-(1))%Qc; 0%Qc]).
  destruct (matrix_scale get_diagonal_msr scale_msr scale_symm_msr 1 1 A [1%Qc] [0%Qc] true) as [[[A' b'] d']| |] eqn:E; [|vm_compute in E; discriminate|vm_compute in E; discriminate].
  exists A, A', [1%Qc], b', [0%Qc], d'. split.
  { unfold msr_ok, A; cbn -[Z.le Z.lt]. repeat match goal with |- _ /\ _ => split end; try (vm_compute; intuition congruence); try small. intros k Hk. change (1 < k < 2) in Hk. lia. }
  split; [unfold no_dup_pos; vm_compute; repeat constructor; cbn; intuition congruence|]. split.
  { intros i Hi. replace i with 0 by (cbn in Hi; lia). intro H; vm_compute in H; discriminate. }
  split; [exact E|]. intros (_ & H & _). specialize (H 0 0 ltac:(cbn; lia) ltac:(cbn; lia)). vm_compute in E. injection E as <- <- <-. vm_compute in H. discriminate.
Qed.
Print Assumptions C33_symmetric_msr_refuted.

(** a case with the real square root: A = (4 1; 1 9) *)
Example C33_ex : let A := mkCsr 2 2 4 [0;2;4] [0;1;0;1] [4%R; 1%R; 1%R; 9%R] in is_field ScalarR /\ csr_ok A /\ no_dup_pos (csr_entries A) /\ csr_np A = csr_n A /\
  (forall i, 0 <= i < csr_n A -> coef (csr_entries A) i i <> s0 /\ ssqrt (sabs (coef (csr_entries A) i i)) <> s0).
Proof.
  intros A. split; [exact ScalarR_field|]. split.
  { unfold csr_ok, ptr_ok, A; cbn -[Z.le Z.lt]. repeat match goal with |- _ /\ _ => split end; try (vm_compute; intuition congruence);
      intros k Hk; [assert (K : k = 0 \/ k = 1) by lia|assert (K : k = 0 \/ k = 1 \/ k = 2 \/ k = 3) by lia]; repeat (destruct K as [->|K]; [vm_compute; intuition congruence|]); subst k; vm_compute; intuition congruence. }
  split; [change (NoDup [(0,0);(0,1);(1,0);(1,1)]); repeat (constructor; [cbn; intuition congruence|]); constructor|]. split; [reflexivity|].
  intros i Hi. assert (K : i = 0 \/ i = 1) by (cbn in Hi; lia). destruct K as [->| ->].
  - assert (E : coef (csr_entries A) 0 0 = 4%R) by (change (4 + 0 = 4)%R; ring). rewrite E. change (4 <> 0 /\ sqrt (Rabs 4) <> 0)%R. split; [lra|]. rewrite Rabs_right by lra. intro H. apply sqrt_eq_0 in H; lra.
  - assert (E : coef (csr_entries A) 1 1 = 9%R) by (change (9 + 0 = 9)%R; ring). rewrite E. change (9 <> 0 /\ sqrt (Rabs 9) <> 0)%R. split; [lra|]. rewrite Rabs_right by lra. intro H. apply sqrt_eq_0 in H; lra.
Qed.
