(** C56: lis_matrix_split followed by lis_matrix_solve / lis_matrix_solveh (flags LOWER, UPPER,
    SSOR) for matrices in CSC, MSR, ELL, DIA and DNS format.
    [solves_lower n E f] etc. are defined in SpecSplitFmt.v from the coefficients of the matrix
    that was split; WD is the vector of reciprocals of the diagonal, as set up by the SSOR
    preconditioner and the Gauss-Seidel and SOR solvers. *)
Require Import ZArith List Bool Lia QArith Qcanon.
From Verif Require Import Base Scalar Spec SpecSplit Split SplitFmt SpecSplitFmt SplitMsr SplitCsc SplitEll SplitDia.
Import ListNotations.
Open Scope Z_scope.

(** MSR: the conjugate transposed solve is correct with SSOR only *)
Theorem C56_msr_partial : forall (T : Type) (S : Scalar T), is_ring S -> is_field S -> forall (A : msr T) jli jlv jui juv jd,
  msr_ok A -> msr_np A = msr_n A -> no_dup_pos (msr_entries A) -> (forall i, 0 <= i < msr_n A -> coef (msr_entries A) i i <> s0) ->
  exists P wd, split_msr jli jlv jui juv jd A = Ok P /\ diag_inverse (msr_n A) (ms_D P) = Ok wd /\
    solves_lower (msr_n A) (msr_entries A) (solve_lower_msr P wd) /\ solves_upper (msr_n A) (msr_entries A) (solve_upper_msr P wd) /\
    solves_ssor (msr_n A) (msr_entries A) (solve_ssor_msr P wd) /\ (conj_ok S -> solvesh_ssor (msr_n A) (msr_entries A) (solveh_ssor_msr P wd)).
Proof. intros T S RT FT A jli jlv jui juv jd HA Hsq HND Hd. exact (msr_solve_final RT A HA Hsq HND FT jli jlv jui juv jd Hd). Qed.
Print Assumptions C56_msr_partial.

(** CSC: only for matrices with as many strictly lower as strictly upper entries *)
Theorem C56_csc_partial : forall (T : Type) (S : Scalar T), is_ring S -> is_field S -> forall (A : csc T) jlp jli jlv jup jui juv jd,
  csc_ok A -> csc_np A = csc_n A -> no_dup_pos (csc_entries A) ->
  zlen (filter lower (csc_entries A)) = zlen (filter upper (csc_entries A)) -> (forall i, 0 <= i < csc_n A -> coef (csc_entries A) i i <> s0) ->
  exists P wd, split_csc jlp jli jlv jup jui juv jd A = Ok P /\ diag_inverse (csc_n A) (cs_D P) = Ok wd /\
    solves_lower (csc_n A) (csc_entries A) (solve_lower_csc P wd) /\ solves_upper (csc_n A) (csc_entries A) (solve_upper_csc P wd) /\
    solves_ssor (csc_n A) (csc_entries A) (solve_ssor_csc P wd) /\
    (conj_ok S -> solvesh_lower (csc_n A) (csc_entries A) (solveh_lower_csc P wd) /\ solvesh_upper (csc_n A) (csc_entries A) (solveh_upper_csc P wd) /\ solvesh_ssor (csc_n A) (csc_entries A) (solveh_ssor_csc P wd)).
Proof. intros T S RT FT A jlp jli jlv jup jui juv jd. exact (csc_solve_final RT FT jlp jli jlv jup jui juv jd A). Qed.
Print Assumptions C56_csc_partial.

(** ELL: the padding entries are explicit zeros, so duplicates are excluded among the nonzero entries *)
Theorem C56_ell : forall (T : Type) (S : Scalar T), is_ring S -> is_field S -> eqb_ok S -> forall (A : ell T) jli jlv jui juv jd,
  ell_ok A -> ell_np A = ell_n A -> no_dup_pos (nz (ell_entries A)) -> (forall i, 0 <= i < ell_n A -> coef (ell_entries A) i i <> s0) ->
  exists P wd, split_ell jli jlv jui juv jd A = Ok P /\ diag_inverse (ell_n A) (es_D P) = Ok wd /\
    solves_lower (ell_n A) (ell_entries A) (solve_lower_ell P wd) /\ solves_upper (ell_n A) (ell_entries A) (solve_upper_ell P wd) /\
    solves_ssor (ell_n A) (ell_entries A) (solve_ssor_ell P wd) /\
    (conj_ok S -> solvesh_lower (ell_n A) (ell_entries A) (solveh_lower_ell P wd) /\ solvesh_upper (ell_n A) (ell_entries A) (solveh_upper_ell P wd) /\ solvesh_ssor (ell_n A) (ell_entries A) (solveh_ssor_ell P wd)).
Proof. intros T S RT FT HE A jli jlv jui juv jd HA Hsq HND Hd. exact (ell_solve_final RT A HA Hsq HE HND FT jli jlv jui juv jd Hd). Qed.
Print Assumptions C56_ell.

Theorem C56_dia : forall (T : Type) (S : Scalar T), is_ring S -> is_field S -> forall (A : dia T) jli jlv jui juv jd,
  dia_ok A -> no_dup_pos (dia_entries A) -> (forall i, 0 <= i < dia_n A -> coef (dia_entries A) i i <> s0) ->
  exists P wd, split_dia jli jlv jui juv jd A = Ok P /\ diag_inverse (dia_n A) (ds_D P) = Ok wd /\
    solves_lower (dia_n A) (dia_entries A) (solve_lower_dia P wd) /\ solves_upper (dia_n A) (dia_entries A) (solve_upper_dia P wd) /\
    solves_ssor (dia_n A) (dia_entries A) (solve_ssor_dia P wd) /\
    (conj_ok S -> solvesh_lower (dia_n A) (dia_entries A) (solveh_lower_dia P wd) /\ solvesh_upper (dia_n A) (dia_entries A) (solveh_upper_dia P wd) /\ solvesh_ssor (dia_n A) (dia_entries A) (solveh_ssor_dia P wd)).
Proof. intros T S RT FT A jli jlv jui juv jd HA HND Hd. exact (dia_solve_final RT A HA HND FT jli jlv jui juv jd Hd). Qed.
Print Assumptions C56_dia.

Theorem C56_dns : forall (T : Type) (S : Scalar T), is_ring S -> is_field S -> forall (A : dns T) jd,
  dns_ok A -> dns_np A = dns_n A -> (forall i, 0 <= i < dns_n A -> coef (dns_entries A) i i <> s0) ->
  exists d wd, split_dns jd A = Ok d /\ diag_inverse (dns_n A) d = Ok wd /\
    solves_lower (dns_n A) (dns_entries A) (solve_lower_dns A wd) /\ solves_upper (dns_n A) (dns_entries A) (solve_upper_dns A wd) /\
    solves_ssor (dns_n A) (dns_entries A) (solve_ssor_dns A wd) /\
    (conj_ok S -> solvesh_lower (dns_n A) (dns_entries A) (solveh_lower_dns A wd) /\ solvesh_upper (dns_n A) (dns_entries A) (solveh_upper_dns A wd) /\ solvesh_ssor (dns_n A) (dns_entries A) (solveh_ssor_dns A wd)).
Proof. intros T S RT FT A jd HA Hsq Hd. exact (dns_solve_final RT A HA Hsq FT jd Hd). Qed.
Print Assumptions C56_dns.

(** *** concrete matrices which meet the hypotheses: the 3 x 3 matrix
        2 1 0 / 1 4 3 / 0 5 1  in every format *)
Definition qc (z : Z) : Qc := Q2Qc (inject_Z z).
Definition exM : msr Qc := mkMsr 3 3 4 3 [4; 5; 7; 8; 1; 0; 2; 1] [qc 2; qc 4; qc 1; qc 0; qc 1; qc 1; qc 3; qc 5].
Definition exC : csc Qc := mkCsc 3 3 7 [0; 2; 5; 7] [0; 1; 0; 1; 2; 1; 2] [qc 2; qc 1; qc 1; qc 4; qc 5; qc 3; qc 1].
Definition exE : ell Qc := mkEll 3 3 3 [0; 0; 1; 1; 1; 2; 0; 2; 2] [qc 2; qc 1; qc 5; qc 1; qc 4; qc 1; qc 0; qc 3; qc 0].
Definition exD : dia Qc := mkDia 3 3 3 [-1; 0; 1] [qc 9; qc 1; qc 5; qc 2; qc 4; qc 1; qc 1; qc 3; qc 9].
Definition exF : dns Qc := mkDns 3 3 [qc 2; qc 1; qc 0; qc 1; qc 4; qc 5; qc 0; qc 3; qc 1].
Ltac upto k Hk := let K := fresh in assert (K : (k = 0 \/ k = 1 \/ k = 2 \/ k = 3 \/ k = 4 \/ k = 5 \/ k = 6 \/ k = 7 \/ k = 8)%Z) by (cbn in Hk; unfold znth in Hk; simpl in Hk; lia);
  repeat (destruct K as [K|K]; [subst k; try (vm_compute in Hk; intuition discriminate); vm_compute; intuition congruence|]); subst k; try (vm_compute in Hk; intuition discriminate); vm_compute; intuition congruence.
Ltac nodup := unfold no_dup_pos; vm_compute; repeat constructor; simpl; intuition congruence.
Ltac diag := intros i Hi E; let K := fresh in let K0 := fresh in assert (K : (i = 0 \/ i = 1 \/ i = 2)%Z) by (cbn in Hi; lia); destruct K as [K0 | [K0 | K0]]; rewrite K0 in *; apply (f_equal this) in E; vm_compute in E; discriminate.
Example exM_meets : msr_ok exM /\ msr_np exM = msr_n exM /\ no_dup_pos (msr_entries exM) /\ forall i, 0 <= i < msr_n exM -> coef (msr_entries exM) i i <> s0.
Proof.
  split; [|split; [reflexivity|split; [nodup|diag]]].
  unfold msr_ok. repeat match goal with |- _ /\ _ => split end; try (vm_compute; congruence); intros k Hk; upto k Hk.
Qed.
Example exC_meets : csc_ok exC /\ csc_np exC = csc_n exC /\ no_dup_pos (csc_entries exC) /\ zlen (filter lower (csc_entries exC)) = zlen (filter upper (csc_entries exC)) /\ forall i, 0 <= i < csc_n exC -> coef (csc_entries exC) i i <> s0.
Proof.
  split; [|split; [reflexivity|split; [nodup|split; [reflexivity|diag]]]].
  unfold csc_ok, ptr_ok. repeat match goal with |- _ /\ _ => split end; try (vm_compute; congruence); intros k Hk; upto k Hk.
Qed.
Example exE_meets : ell_ok exE /\ ell_np exE = ell_n exE /\ no_dup_pos (nz (ell_entries exE)) /\ forall i, 0 <= i < ell_n exE -> coef (ell_entries exE) i i <> s0.
Proof.
  split; [|split; [reflexivity|split; [nodup|diag]]].
  unfold ell_ok. repeat match goal with |- _ /\ _ => split end; try (vm_compute; congruence); intros k Hk; upto k Hk.
Qed.
Example exD_meets : dia_ok exD /\ no_dup_pos (dia_entries exD) /\ forall i, 0 <= i < dia_n exD -> coef (dia_entries exD) i i <> s0.
Proof.
  split; [|split; [nodup|diag]]. unfold dia_ok. repeat match goal with |- _ /\ _ => split end; vm_compute; congruence.
Qed.
Example exF_meets : dns_ok exF /\ dns_np exF = dns_n exF /\ forall i, 0 <= i < dns_n exF -> coef (dns_entries exF) i i <> s0.
Proof.
  split; [|split; [reflexivity|diag]]. unfold dns_ok. repeat match goal with |- _ /\ _ => split end; vm_compute; congruence.
Qed.
(** all five are the same matrix *)
Example ex_same i j : 0 <= i < 3 -> 0 <= j < 3 -> coef (csc_entries exC) i j = coef (msr_entries exM) i j /\ coef (ell_entries exE) i j = coef (msr_entries exM) i j /\
  coef (dia_entries exD) i j = coef (msr_entries exM) i j /\ coef (dns_entries exF) i j = coef (msr_entries exM) i j.
Proof.
  intros Hi Hj. assert (Ki : (i = 0 \/ i = 1 \/ i = 2)%Z) by lia. assert (Kj : (j = 0 \/ j = 1 \/ j = 2)%Z) by lia.
  destruct Ki as [K0 | [K0 | K0]]; rewrite K0 in *; destruct Kj as [K1 | [K1 | K1]]; rewrite K1 in *; repeat split; apply Qc_is_canon; vm_compute; reflexivity.
Qed.
(** and its SSOR solve: x with (D+L) D^-1 (D+U) x = b *)
Example exD_ssor : exists P wd x, split_dia (fun _ => 77) (fun _ => qc 77) (fun _ => 77) (fun _ => qc 77) (fun _ => qc 77) exD = Ok P /\ diag_inverse 3 (ds_D P) = Ok wd /\
  solve_ssor_dia P wd [qc 2; qc 9; qc 6] [qc 55; qc 55; qc 55] = Ok x /\ map this x = [(-3 # 2); (5 # 1); (-4 # 1)]%Q.
Proof. eexists. eexists. eexists. split; [reflexivity|]. split; [reflexivity|]. split; [reflexivity|]. vm_compute. reflexivity. Qed.

(** *** what fails *)
(** lis_matrix_split of a CSC matrix with more strictly lower than strictly upper entries writes past the end of an allocation *)
Theorem C56_split_csc_overflow_refuted : exists A : csc Z, csc_ok A /\ csc_np A = csc_n A /\ no_dup_pos (csc_entries A) /\ (forall i, 0 <= i < csc_n A -> coef (csc_entries A) i i <> 0) /\
  forall jlp jli jlv jup jui juv jd, split_csc jlp jli jlv jup jui juv jd A = UB.
Proof.
  exists (mkCsc 2 2 3 [0; 2; 3] [0; 1; 1] [1; 1; 1]). split; [|split; [reflexivity|split; [nodup|split; [|reflexivity]]]].
  - unfold csc_ok, ptr_ok. repeat match goal with |- _ /\ _ => split end; try (vm_compute; congruence); intros k Hk; upto k Hk.
  - cbn. intros i Hi. assert (K : (i = 0 \/ i = 1)%Z) by lia. destruct K as [K0 | K0]; rewrite K0 in *; vm_compute; discriminate.
Qed.
Print Assumptions C56_split_csc_overflow_refuted.

(** lis_matrix_solveh with LOWER or UPPER on an MSR matrix runs its loop in the wrong direction *)
Definition exB : msr Qc := mkMsr 2 2 2 2 [3; 4; 5; 1; 0] [qc 2; qc 2; qc 0; qc 1; qc 1].
Theorem C56_solveh_msr_refuted : exists A : msr Qc, msr_ok A /\ msr_np A = msr_n A /\ no_dup_pos (msr_entries A) /\ (forall i, 0 <= i < msr_n A -> coef (msr_entries A) i i <> s0) /\
  forall jli jlv jui juv jd P wd, split_msr jli jlv jui juv jd A = Ok P -> diag_inverse (msr_n A) (ms_D P) = Ok wd ->
    ~ solvesh_lower (msr_n A) (msr_entries A) (solveh_lower_msr P wd) /\ ~ solvesh_upper (msr_n A) (msr_entries A) (solveh_upper_msr P wd).
Proof.
  exists exB. split; [|split; [reflexivity|split; [nodup|split]]].
  - unfold msr_ok. repeat match goal with |- _ /\ _ => split end; try (vm_compute; congruence); intros k Hk; upto k Hk.
  - intros i Hi E; assert (K : (i = 0 \/ i = 1)%Z) by (cbn in Hi; lia); destruct K as [K0 | K0]; rewrite K0 in *; apply (f_equal this) in E; vm_compute in E; discriminate.
  - intros jli jlv jui juv jd P wd EP EW. cbv in EP. injection EP as <-. cbv in EW. injection EW as <-. split; intros H; destruct (H [qc 2; qc 2] [qc 0; qc 0] ltac:(cbn; lia) ltac:(cbn; lia)) as (x' & E & _ & Hr); cbv in E; injection E as <-.
    + specialize (Hr 1 ltac:(cbn; lia)). apply (f_equal this) in Hr. vm_compute in Hr. discriminate.
    + specialize (Hr 0 ltac:(cbn; lia)). apply (f_equal this) in Hr. vm_compute in Hr. discriminate.
Qed.
Print Assumptions C56_solveh_msr_refuted.

(** lis_matrix_split of an ELL matrix without strictly lower entries leaves the diagonal of a row
    without a diagonal entry as malloc returned it *)
Theorem C56_split_ell_junk_refuted : exists A : ell Z, ell_ok A /\ ell_np A = ell_n A /\ no_dup_pos (nz (ell_entries A)) /\
  forall v, exists P, split_ell (fun _ => 0) (fun _ => 0) (fun _ => 0) (fun _ => 0) (fun _ => v) A = Ok P /\ znth 0 (es_D P) 0 = v /\ coef (ell_entries A) 0 0 = 0.
Proof.
  exists (mkEll 2 2 1 [1; 1] [5; 7]). split; [|split; [reflexivity|split; [nodup|]]].
  - unfold ell_ok. repeat match goal with |- _ /\ _ => split end; try (vm_compute; congruence); intros k Hk; upto k Hk.
  - intros v. eexists. split; [reflexivity|]. split; reflexivity.
Qed.
Print Assumptions C56_split_ell_junk_refuted.
