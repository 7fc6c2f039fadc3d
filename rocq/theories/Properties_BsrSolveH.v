(** C56 for BSR, lis_matrix_solveh: the solves with the conjugate transpose of the block triangles.
    The meaning is in SpecBsrSolveH.v.  Over the complex scalars LOWER is wrong for blocks of order
    2 and 3 and UPPER for blocks of order 1 and 2, where conj() is missing in the C code; the
    theorem covers the other orders, and all orders over real scalars; the refutations show each
    of the exclusions is needed. *)
Require Import ZArith List Bool Lia QArith Qcanon Permutation.
From Verif Require Import Base Scalar ScalarCQ Spec SpecArray BsrSolve BsrSolveH SpecBsrSolve SpecBsrSolveH BsrEndH.
Import ListNotations.
Open Scope Z_scope.

Theorem C56_bsr_solveh_partial : forall (T : Type) (S : Scalar T), is_ring S -> conj_ok S -> is_field S -> eqb_ok S -> forall (A : bsr T) jlp jli jlv jup jui juv jd,
  bsr_ok A -> bsr_bnc A = bsr_bnr A -> no_dup_pos (bsr_entries A) -> diagonal_blocks_lu (bsr_n A) (bsr_bnr A) (bsr_nr A) (bsr_entries A) ->
  exists P wd, split_bsr jlp jli jlv jup jui juv jd A = Ok P /\ diag_inverse_blk (bsr_n A) (bsr_nr A) (bsr_bnr A) (bs_D P) = Ok wd /\
    ((bsr_bnr A <> 2 /\ bsr_bnr A <> 3 \/ real_scalars) -> solvesh_block_lower (bsr_n A) (bsr_nr A * bsr_bnr A) (bsr_bnr A) (bsr_entries A) (solveh_lower_bsr P wd)) /\
    ((bsr_bnr A <> 1 /\ bsr_bnr A <> 2 \/ real_scalars) -> solvesh_block_upper (bsr_n A) (bsr_nr A * bsr_bnr A) (bsr_bnr A) (bsr_entries A) (solveh_upper_bsr P wd)) /\
    solvesh_block_ssor (bsr_n A) (bsr_nr A * bsr_bnr A) (bsr_bnr A) (bsr_entries A) (solveh_ssor_bsr P wd).
Proof. intros T S RT HC FT EO A jlp jli jlv jup jui juv jd HB Hsq Hu HLU. exact (bsr_solveh_final jlp jli jlv jup jui juv jd RT HC FT EO A HB Hsq Hu HLU). Qed.
Print Assumptions C56_bsr_solveh_partial.

(** *** what fails *)
Ltac small := intros ?k Hk; let K := fresh in assert (K : (k = 0 \/ k = 1 \/ k = 2 \/ k = 3 \/ k = 4)%Z) by (cbn in Hk; lia);
  repeat (destruct K as [->|K]; [try (vm_compute in Hk; intuition discriminate); try (vm_compute; intuition congruence)|]); try (subst k; try (vm_compute in Hk; intuition discriminate); vm_compute; intuition congruence).
Ltac shape := intros e He; vm_compute in He; repeat (destruct He as [<-|He]; [vm_compute; intuition congruence|]); destruct He.
Ltac nodup := unfold no_dup_pos; vm_compute; repeat constructor; cbn; intuition congruence.
Ltac okb := unfold bsr_ok, ptr_ok; cbn -[Z.le Z.lt in_shape Z.mul]; repeat match goal with |- _ /\ _ => split end; try (vm_compute; intuition congruence); match goal with |- in_shape _ _ _ => shape | |- forall _ : Z, _ => small end.
Definition qc (z : Z) : Qc := Q2Qc (inject_Z z).
Definition cq (x y : Z) : CQ := (qc x, qc y).
Ltac cqc := apply injective_projections; apply Qc_is_canon; vm_compute; reflexivity.
Ltac cqne := let X := fresh in intro X; first [apply (f_equal fst) in X; apply (f_equal this) in X; vm_compute in X; discriminate | apply (f_equal snd) in X; apply (f_equal this) in X; vm_compute in X; discriminate].
Definition idm (d : CQ) (i j : Z) : CQ := if i =? j then if i =? 0 then d else cq 1 0 else cq 0 0.
Ltac lunn := split; [|split; [|split; [|split]]]; intros; repeat match goal with H : 0 <= ?i < ?b |- _ => is_var i; let K := fresh in assert (K : i = 0 \/ i = 1 \/ i = 2) by lia; destruct K as [-> | [-> | ->]]; try lia end;
  try lia; try cqc; try cqne.

(** a 4 x 4 matrix in blocks of order 2: identity diagonal blocks, 1 and i in the first column of the block on the right *)
Definition exL2 : bsr CQ := mkBsr 4 4 2 2 2 3 [0; 2; 3] [0; 1; 1]
  [cq 1 0; cq 0 0; cq 0 0; cq 1 0;  cq 1 0; cq 0 1; cq 0 0; cq 2 0;  cq 1 0; cq 0 0; cq 0 0; cq 1 0].
Definition ups : Z -> CQ := fun _ => cq 7 0.
Definition upz : Z -> Z := fun _ => 7.
Ltac refute H bv x i := let x' := fresh in let E := fresh in let L := fresh in let Hx := fresh in
  specialize (H bv x ltac:(vm_compute; congruence) ltac:(vm_compute; congruence)); destruct H as (x' & E & L & Hx);
  specialize (Hx i ltac:(vm_compute; intuition congruence)); 
  match type of E with ?f = _ => let v := eval vm_compute in f in change (v = Ok x') in E end; injection E as <-;
  first [apply (f_equal fst) in Hx; apply (f_equal this) in Hx; vm_compute in Hx; discriminate | apply (f_equal snd) in Hx; apply (f_equal this) in Hx; vm_compute in Hx; discriminate].
Theorem C56_bsr_solveh_lower2_refuted : exists (A : bsr CQ), bsr_ok A /\ bsr_bnc A = bsr_bnr A /\ bsr_bnr A = 2 /\ no_dup_pos (bsr_entries A) /\ diagonal_blocks_lu (bsr_n A) (bsr_bnr A) (bsr_nr A) (bsr_entries A) /\
  exists P wd, split_bsr upz upz ups upz upz ups ups A = Ok P /\ diag_inverse_blk (bsr_n A) (bsr_nr A) (bsr_bnr A) (bs_D P) = Ok wd /\
    ~ solvesh_block_lower (bsr_n A) (bsr_nr A * bsr_bnr A) (bsr_bnr A) (bsr_entries A) (solveh_lower_bsr P wd).
Proof.
  exists exL2. split; [okb|]. split; [reflexivity|]. split; [reflexivity|]. split; [nodup|]. split.
  - intros i Hi. exists (idm (cq 1 0)), (idm (cq 1 0)). assert (K : i = 0 \/ i = 1) by (cbn in Hi; lia). cbn [bsr_bnr exL2]. destruct K as [-> | ->]; lunn.
  - eexists _, _. split; [vm_compute; reflexivity|]. split; [vm_compute; reflexivity|]. intros H.
    refute H [cq 1 0; cq 1 0; cq 1 0; cq 1 0] [cq 0 0; cq 0 0; cq 0 0; cq 0 0] 2.
Qed.
Print Assumptions C56_bsr_solveh_lower2_refuted.

(** the same with blocks of order 3 *)
Definition exL3 : bsr CQ := mkBsr 6 6 3 3 2 3 [0; 2; 3] [0; 1; 1]
  [cq 1 0; cq 0 0; cq 0 0; cq 0 0; cq 1 0; cq 0 0; cq 0 0; cq 0 0; cq 1 0;  cq 1 0; cq 2 0; cq 0 1; cq 0 0; cq 0 0; cq 0 0; cq 0 0; cq 0 0; cq 0 0;
   cq 1 0; cq 0 0; cq 0 0; cq 0 0; cq 1 0; cq 0 0; cq 0 0; cq 0 0; cq 1 0].
Theorem C56_bsr_solveh_lower3_refuted : exists (A : bsr CQ), bsr_ok A /\ bsr_bnc A = bsr_bnr A /\ bsr_bnr A = 3 /\ no_dup_pos (bsr_entries A) /\ diagonal_blocks_lu (bsr_n A) (bsr_bnr A) (bsr_nr A) (bsr_entries A) /\
  exists P wd, split_bsr upz upz ups upz upz ups ups A = Ok P /\ diag_inverse_blk (bsr_n A) (bsr_nr A) (bsr_bnr A) (bs_D P) = Ok wd /\
    ~ solvesh_block_lower (bsr_n A) (bsr_nr A * bsr_bnr A) (bsr_bnr A) (bsr_entries A) (solveh_lower_bsr P wd).
Proof.
  exists exL3. split; [okb|]. split; [reflexivity|]. split; [reflexivity|]. split; [nodup|]. split.
  - intros i Hi. exists (idm (cq 1 0)), (idm (cq 1 0)). assert (K : i = 0 \/ i = 1) by (cbn in Hi; lia). cbn [bsr_bnr exL3]. destruct K as [-> | ->]; lunn.
  - eexists _, _. split; [vm_compute; reflexivity|]. split; [vm_compute; reflexivity|]. intros H.
    refute H [cq 1 0; cq 1 0; cq 1 0; cq 1 0; cq 1 0; cq 1 0] [cq 0 0; cq 0 0; cq 0 0; cq 0 0; cq 0 0; cq 0 0] 3.
Qed.
Print Assumptions C56_bsr_solveh_lower3_refuted.
(** the 1 x 1 matrix i: with right-hand side 1 the solution of conj(i) x = 1 is i, the code returns -i *)
Definition exU1 : bsr CQ := mkBsr 1 1 1 1 1 1 [0; 1] [0] [cq 0 1].
Theorem C56_bsr_solveh_upper1_refuted : exists (A : bsr CQ), bsr_ok A /\ bsr_bnc A = bsr_bnr A /\ bsr_bnr A = 1 /\ no_dup_pos (bsr_entries A) /\ diagonal_blocks_lu (bsr_n A) (bsr_bnr A) (bsr_nr A) (bsr_entries A) /\
  exists P wd, split_bsr upz upz ups upz upz ups ups A = Ok P /\ diag_inverse_blk (bsr_n A) (bsr_nr A) (bsr_bnr A) (bs_D P) = Ok wd /\
    ~ solvesh_block_upper (bsr_n A) (bsr_nr A * bsr_bnr A) (bsr_bnr A) (bsr_entries A) (solveh_upper_bsr P wd).
Proof.
  exists exU1. split; [okb|]. split; [reflexivity|]. split; [reflexivity|]. split; [nodup|]. split.
  - intros i Hi. exists (idm (cq 1 0)), (idm (cq 0 1)). assert (K : i = 0) by (cbn in Hi; lia). cbn [bsr_bnr exU1]. subst i; lunn.
  - eexists _, _. split; [vm_compute; reflexivity|]. split; [vm_compute; reflexivity|]. intros H.
    refute H [cq 1 0] [cq 0 0] 0.
Qed.
Print Assumptions C56_bsr_solveh_upper1_refuted.
(** the transposed pattern of exL2: i in the block on the left *)
Definition exU2 : bsr CQ := mkBsr 4 4 2 2 2 3 [0; 1; 3] [0; 0; 1]
  [cq 1 0; cq 0 0; cq 0 0; cq 1 0;  cq 1 0; cq 0 1; cq 0 0; cq 2 0;  cq 1 0; cq 0 0; cq 0 0; cq 1 0].
Theorem C56_bsr_solveh_upper2_refuted : exists (A : bsr CQ), bsr_ok A /\ bsr_bnc A = bsr_bnr A /\ bsr_bnr A = 2 /\ no_dup_pos (bsr_entries A) /\ diagonal_blocks_lu (bsr_n A) (bsr_bnr A) (bsr_nr A) (bsr_entries A) /\
  exists P wd, split_bsr upz upz ups upz upz ups ups A = Ok P /\ diag_inverse_blk (bsr_n A) (bsr_nr A) (bsr_bnr A) (bs_D P) = Ok wd /\
    ~ solvesh_block_upper (bsr_n A) (bsr_nr A * bsr_bnr A) (bsr_bnr A) (bsr_entries A) (solveh_upper_bsr P wd).
Proof.
  exists exU2. split; [okb|]. split; [reflexivity|]. split; [reflexivity|]. split; [nodup|]. split.
  - intros i Hi. exists (idm (cq 1 0)), (idm (cq 1 0)). assert (K : i = 0 \/ i = 1) by (cbn in Hi; lia). cbn [bsr_bnr exU2]. destruct K as [-> | ->]; lunn.
  - eexists _, _. split; [vm_compute; reflexivity|]. split; [vm_compute; reflexivity|]. intros H.
    refute H [cq 1 0; cq 1 0; cq 1 0; cq 1 0] [cq 0 0; cq 0 0; cq 0 0; cq 0 0] 0.
Qed.
Print Assumptions C56_bsr_solveh_upper2_refuted.

(** *** the hypotheses of the partial theorem are met: complex, blocks of order 2 (so SSOR), order 3 (so UPPER), order 1 (so LOWER) *)
Example exH_meets : bsr_ok exL2 /\ bsr_bnc exL2 = bsr_bnr exL2 /\ no_dup_pos (bsr_entries exL2) /\ diagonal_blocks_lu (bsr_n exL2) (bsr_bnr exL2) (bsr_nr exL2) (bsr_entries exL2).
Proof.
  split; [okb|]. split; [reflexivity|]. split; [nodup|].
  intros i Hi. exists (idm (cq 1 0)), (idm (cq 1 0)). assert (K : i = 0 \/ i = 1) by (cbn in Hi; lia). cbn [bsr_bnr exL2]. destruct K as [-> | ->]; lunn.
Qed.
(** the SSOR solve of exL2 with right-hand side (1,1,1,1): only the third component changes *)
Example exH_ssor : exists P wd x, split_bsr upz upz ups upz upz ups ups exL2 = Ok P /\ diag_inverse_blk 4 2 2 (bs_D P) = Ok wd /\
  solveh_ssor_bsr P wd [cq 1 0; cq 1 0; cq 1 0; cq 1 0] [cq 0 0; cq 0 0; cq 0 0; cq 0 0] = Ok x /\
  map (fun a => (this (fst a), this (snd a))) x = [(1 # 1, 0 # 1); (1 # 1, 0 # 1); (0 # 1, 1 # 1); (-1 # 1, 0 # 1)]%Q.
Proof. eexists _, _, _. split; [vm_compute; reflexivity|]. split; [vm_compute; reflexivity|]. split; [vm_compute; reflexivity|]. vm_compute; reflexivity. Qed.
