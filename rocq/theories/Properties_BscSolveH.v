(** C56 for BSC, lis_matrix_solveh.  As for the solves without the transpose (Properties_BscSolve.v) the
    result belongs to the matrix with exchanged blocks, which is the matrix itself when it is block
    symmetric.  Over the complex scalars conj() is missing in the C code: LOWER for blocks of order
    1 to 3, UPPER for order 1, SSOR for orders 1 and 2 (SSOR of BSR is right for all orders); the
    theorems cover the other orders, and all orders over real scalars; the refutations show the
    exclusions are needed. *)
Require Import ZArith List Bool Lia QArith Qcanon Permutation.
From Verif Require Import Base Scalar ScalarCQ Spec SpecArray BsrSolve BsrSolveH BscSolve BscSolveH SpecBsrSolve SpecBsrSolveH SpecBscSolve BscEndH DiagProof2 BscProofS.
Import ListNotations.
Open Scope Z_scope.

Theorem C56_bsc_solveh_partial : forall (T : Type) (S : Scalar T), is_ring S -> conj_ok S -> is_field S -> eqb_ok S -> forall (A : bsc T) jlp jli jlv jup jui juv jd,
  bsc_ok A -> bsc_bnc A = bsc_bnr A -> no_dup_pos (bsc_entries A) -> block_symmetric (bsc_bnr A) (bsc_entries A) ->
  diagonal_blocks_lu (bsc_n A) (bsc_bnr A) (bsc_nc A) (bsc_entries A) ->
  exists P wd, split_bsc jlp jli jlv jup jui juv jd A = Ok P /\ diag_inverse_blk (bsc_n A) (bsc_nc A) (bsc_bnr A) (bs_D P) = Ok wd /\
    (3 < bsc_bnr A \/ real_scalars -> solvesh_block_lower (bsc_n A) (bsc_nc A * bsc_bnr A) (bsc_bnr A) (bsc_entries A) (solveh_lower_bsc P wd)) /\
    (bsc_bnr A <> 1 \/ real_scalars -> solvesh_block_upper (bsc_n A) (bsc_nc A * bsc_bnr A) (bsc_bnr A) (bsc_entries A) (solveh_upper_bsc P wd)) /\
    (2 < bsc_bnr A \/ real_scalars -> solvesh_block_ssor (bsc_n A) (bsc_nc A * bsc_bnr A) (bsc_bnr A) (bsc_entries A) (solveh_ssor_bsc P wd)).
Proof. intros T S RT HC FT EO A jlp jli jlv jup jui juv jd HB Hsq Hu Hs HLU. exact (bsc_symh_final RT HC A HB Hsq Hu jlp jli jlv jup jui juv jd FT EO Hs HLU). Qed.
Print Assumptions C56_bsc_solveh_partial.

Theorem C56_bsc_solveh_exchanged_partial : forall (T : Type) (S : Scalar T), is_ring S -> conj_ok S -> is_field S -> eqb_ok S -> forall (A : bsc T) jlp jli jlv jup jui juv jd,
  bsc_ok A -> bsc_bnc A = bsc_bnr A -> no_dup_pos (bsc_entries A) ->
  let E := map (swap_blocks (bsc_bnr A)) (bsc_entries A) in
  in_shape (bsc_n A) (bsc_n A) (nz E) -> diagonal_blocks_lu (bsc_n A) (bsc_bnr A) (bsc_nc A) E ->
  exists P wd, split_bsc jlp jli jlv jup jui juv jd A = Ok P /\ diag_inverse_blk (bsc_n A) (bsc_nc A) (bsc_bnr A) (bs_D P) = Ok wd /\
    (3 < bsc_bnr A \/ real_scalars -> solvesh_block_lower (bsc_n A) (bsc_nc A * bsc_bnr A) (bsc_bnr A) E (solveh_lower_bsc P wd)) /\
    (bsc_bnr A <> 1 \/ real_scalars -> solvesh_block_upper (bsc_n A) (bsc_nc A * bsc_bnr A) (bsc_bnr A) E (solveh_upper_bsc P wd)) /\
    (2 < bsc_bnr A \/ real_scalars -> solvesh_block_ssor (bsc_n A) (bsc_nc A * bsc_bnr A) (bsc_bnr A) E (solveh_ssor_bsc P wd)).
Proof. intros T S RT HC FT EO A jlp jli jlv jup jui juv jd HB Hsq Hu E Hs HLU. exact (bsc_solveh_final RT HC A HB Hsq Hu jlp jli jlv jup jui juv jd FT EO Hs HLU). Qed.
Print Assumptions C56_bsc_solveh_exchanged_partial.

(** *** what fails *)
Ltac small := intros ?k Hk; let K := fresh in assert (K : (k = 0 \/ k = 1 \/ k = 2 \/ k = 3 \/ k = 4)%Z) by (cbn in Hk; lia);
  repeat (destruct K as [->|K]; [try (vm_compute in Hk; intuition discriminate); try (vm_compute; intuition congruence)|]); try (subst k; try (vm_compute in Hk; intuition discriminate); vm_compute; intuition congruence).
Ltac shape := intros e He; vm_compute in He; repeat (destruct He as [<-|He]; [vm_compute; intuition congruence|]); destruct He.
Ltac nodup := unfold no_dup_pos; vm_compute; repeat constructor; cbn; intuition congruence.
Ltac okb := unfold bsc_ok, ptr_ok; cbn -[Z.le Z.lt in_shape Z.mul]; repeat match goal with |- _ /\ _ => split end; try (vm_compute; intuition congruence); match goal with |- in_shape _ _ _ => shape | |- forall _ : Z, _ => small end.
Definition qc (z : Z) : Qc := Q2Qc (inject_Z z).
Definition cq (x y : Z) : CQ := (qc x, qc y).
Ltac cqc := apply injective_projections; apply Qc_is_canon; vm_compute; reflexivity.
Ltac cqne := let X := fresh in intro X; first [apply (f_equal fst) in X; apply (f_equal this) in X; vm_compute in X; discriminate | apply (f_equal snd) in X; apply (f_equal this) in X; vm_compute in X; discriminate].
Definition idm (d : CQ) (i j : Z) : CQ := if i =? j then if i =? 0 then d else cq 1 0 else cq 0 0.
Ltac lunn := split; [|split; [|split; [|split]]]; intros; repeat match goal with H : 0 <= ?i < ?b |- _ => is_var i; let K := fresh in assert (K : i = 0 \/ i = 1 \/ i = 2) by lia; destruct K as [-> | [-> | ->]]; try lia end;
  try lia; try cqc; try cqne.

Definition ups : Z -> CQ := fun _ => cq 7 0.
Definition upz : Z -> Z := fun _ => 7.
Ltac refute H bv x i := let x' := fresh in let E := fresh in let L := fresh in let Hx := fresh in
  specialize (H bv x ltac:(vm_compute; congruence) ltac:(vm_compute; congruence)); destruct H as (x' & E & L & Hx);
  specialize (Hx i ltac:(vm_compute; intuition congruence)); 
  match type of E with ?f = _ => let v := eval vm_compute in f in change (v = Ok x') in E end; injection E as <-;
  first [apply (f_equal fst) in Hx; apply (f_equal this) in Hx; vm_compute in Hx; discriminate | apply (f_equal snd) in Hx; apply (f_equal this) in Hx; vm_compute in Hx; discriminate].
(** a block of order 1, the number i: with right-hand side 1 the solution of conj(i) x = 1 is i, the
    code returns -i; for SSOR, i again solves both equations, the code returns -i *)
Definition exC1 : bsc CQ := mkBsc 1 1 1 1 1 1 [0; 1] [0] [cq 0 1].
(** order 2 and 3: the identity in the diagonal blocks; blocks (0,1) and (1,0) equal *)
Definition exC2 : bsc CQ := mkBsc 4 4 2 2 2 4 [0; 2; 4] [0; 1; 0; 1]
  [cq 1 0; cq 0 0; cq 0 0; cq 1 0;  cq 1 0; cq 0 1; cq 0 0; cq 2 0;  cq 1 0; cq 0 1; cq 0 0; cq 2 0;  cq 1 0; cq 0 0; cq 0 0; cq 1 0].
Definition exC3 : bsc CQ := mkBsc 6 6 3 3 2 4 [0; 2; 4] [0; 1; 0; 1]
  [cq 1 0; cq 0 0; cq 0 0; cq 0 0; cq 1 0; cq 0 0; cq 0 0; cq 0 0; cq 1 0;  cq 1 0; cq 2 0; cq 0 1; cq 0 0; cq 0 0; cq 0 0; cq 0 0; cq 0 0; cq 0 0;
   cq 1 0; cq 2 0; cq 0 1; cq 0 0; cq 0 0; cq 0 0; cq 0 0; cq 0 0; cq 0 0;  cq 1 0; cq 0 0; cq 0 0; cq 0 0; cq 1 0; cq 0 0; cq 0 0; cq 0 0; cq 1 0].
Definition meets (A : bsc CQ) : Prop := bsc_ok A /\ bsc_bnc A = bsc_bnr A /\ no_dup_pos (bsc_entries A) /\ block_symmetric (bsc_bnr A) (bsc_entries A) /\ diagonal_blocks_lu (bsc_n A) (bsc_bnr A) (bsc_nc A) (bsc_entries A).
Ltac bsym A B M := intros r c i j Hi Hj; change (bsc_bnr _) with B in *;
  let Out := fresh "Out" in assert (Out : forall p q, (p < 0 \/ M <= p \/ q < 0 \/ M <= q) -> coef (bsc_entries A) p q = s0);
  [ let p := fresh in let q := fresh in let Hpq := fresh in let Hin := fresh in intros p q Hpq; apply coef_absent; intros Hin; 
    match type of Hin with In _ ?l => let l' := eval vm_compute in l in change l with l' in Hin end;
    repeat (destruct Hin as [Hin|Hin]; [injection Hin as <- <-; lia|]); destruct Hin
  | let Kr := fresh in let Kc := fresh in assert (Kr : r < 0 \/ 2 <= r \/ r = 0 \/ r = 1) by lia; assert (Kc : c < 0 \/ 2 <= c \/ c = 0 \/ c = 1) by lia;
    destruct Kr as [?|[?|Kr]]; [rewrite !Out by lia; reflexivity|rewrite !Out by lia; reflexivity|]; destruct Kc as [?|[?|Kc]]; [rewrite !Out by lia; reflexivity|rewrite !Out by lia; reflexivity|];
    clear Out; let Ki := fresh in let Kj := fresh in assert (Ki : i = 0 \/ i = 1 \/ i = 2) by lia; assert (Kj : j = 0 \/ j = 1 \/ j = 2) by lia;
    destruct Kr as [-> | ->], Kc as [-> | ->], Ki as [-> | [-> | ->]], Kj as [-> | [-> | ->]]; try lia; cqc ].
Ltac lub A := intros i Hi; exists (idm (cq 1 0)), (idm (cq 1 0)); assert (K : i = 0 \/ i = 1) by (cbn in Hi; lia); cbn [bsc_bnr A]; destruct K as [-> | ->]; lunn.
Lemma exC2_meets : meets exC2.
Proof. unfold meets. split; [okb|]. split; [reflexivity|]. split; [nodup|]. split; [bsym exC2 2 4|lub exC2]. Qed.
Lemma exC3_meets : meets exC3.
Proof. unfold meets. split; [okb|]. split; [reflexivity|]. split; [nodup|]. split; [bsym exC3 3 6|lub exC3]. Qed.
Lemma exC1_meets : meets exC1.
Proof.
  unfold meets. split; [okb|]. split; [reflexivity|]. split; [nodup|]. split.
  - intros r c i j Hi Hj. change (bsc_bnr exC1) with 1 in *. assert (i = 0) by lia. assert (j = 0) by lia. subst i j. unfold coef. match goal with |- ssum (map eval (filter _ ?l)) = _ => let l' := eval cbv -[cq] in l in change l with l' end. cbn [filter]. unfold at_ij, erow, ecol. cbn [fst snd].
    rewrite (andb_comm (0 =? r * 1 + 0)). auto.
  - intros i Hi. exists (idm (cq 1 0)), (idm (cq 0 1)). assert (K : i = 0) by (cbn in Hi; lia). cbn [bsc_bnr exC1]. subst i; lunn.
Qed.
Theorem C56_bsc_solveh_lower1_refuted : exists A : bsc CQ, bsc_bnr A = 1 /\ meets A /\
  exists P wd, split_bsc upz upz ups upz upz ups ups A = Ok P /\ diag_inverse_blk (bsc_n A) (bsc_nc A) (bsc_bnr A) (bs_D P) = Ok wd /\
    ~ solvesh_block_lower (bsc_n A) (bsc_nc A * bsc_bnr A) (bsc_bnr A) (bsc_entries A) (solveh_lower_bsc P wd).
Proof.
  exists exC1. split; [reflexivity|]. split; [apply exC1_meets|]. eexists _, _. split; [vm_compute; reflexivity|]. split; [vm_compute; reflexivity|]. intros H.
  refute H [cq 1 0] [cq 0 0] 0.
Qed.
Print Assumptions C56_bsc_solveh_lower1_refuted.
Theorem C56_bsc_solveh_lower2_refuted : exists A : bsc CQ, bsc_bnr A = 2 /\ meets A /\
  exists P wd, split_bsc upz upz ups upz upz ups ups A = Ok P /\ diag_inverse_blk (bsc_n A) (bsc_nc A) (bsc_bnr A) (bs_D P) = Ok wd /\
    ~ solvesh_block_lower (bsc_n A) (bsc_nc A * bsc_bnr A) (bsc_bnr A) (bsc_entries A) (solveh_lower_bsc P wd).
Proof.
  exists exC2. split; [reflexivity|]. split; [apply exC2_meets|]. eexists _, _. split; [vm_compute; reflexivity|]. split; [vm_compute; reflexivity|]. intros H.
  refute H [cq 1 0; cq 1 0; cq 1 0; cq 1 0] [cq 0 0; cq 0 0; cq 0 0; cq 0 0] 2.
Qed.
Print Assumptions C56_bsc_solveh_lower2_refuted.
Theorem C56_bsc_solveh_lower3_refuted : exists A : bsc CQ, bsc_bnr A = 3 /\ meets A /\
  exists P wd, split_bsc upz upz ups upz upz ups ups A = Ok P /\ diag_inverse_blk (bsc_n A) (bsc_nc A) (bsc_bnr A) (bs_D P) = Ok wd /\
    ~ solvesh_block_lower (bsc_n A) (bsc_nc A * bsc_bnr A) (bsc_bnr A) (bsc_entries A) (solveh_lower_bsc P wd).
Proof.
  exists exC3. split; [reflexivity|]. split; [apply exC3_meets|]. eexists _, _. split; [vm_compute; reflexivity|]. split; [vm_compute; reflexivity|]. intros H.
  refute H [cq 1 0; cq 1 0; cq 1 0; cq 1 0; cq 1 0; cq 1 0] [cq 0 0; cq 0 0; cq 0 0; cq 0 0; cq 0 0; cq 0 0] 3.
Qed.
Print Assumptions C56_bsc_solveh_lower3_refuted.
Theorem C56_bsc_solveh_upper1_refuted : exists A : bsc CQ, bsc_bnr A = 1 /\ meets A /\
  exists P wd, split_bsc upz upz ups upz upz ups ups A = Ok P /\ diag_inverse_blk (bsc_n A) (bsc_nc A) (bsc_bnr A) (bs_D P) = Ok wd /\
    ~ solvesh_block_upper (bsc_n A) (bsc_nc A * bsc_bnr A) (bsc_bnr A) (bsc_entries A) (solveh_upper_bsc P wd).
Proof.
  exists exC1. split; [reflexivity|]. split; [apply exC1_meets|]. eexists _, _. split; [vm_compute; reflexivity|]. split; [vm_compute; reflexivity|]. intros H.
  refute H [cq 1 0] [cq 0 0] 0.
Qed.
Print Assumptions C56_bsc_solveh_upper1_refuted.
(** SSOR, order 1 *)
Theorem C56_bsc_solveh_ssor1_refuted : exists A : bsc CQ, bsc_bnr A = 1 /\ meets A /\
  exists P wd, split_bsc upz upz ups upz upz ups ups A = Ok P /\ diag_inverse_blk (bsc_n A) (bsc_nc A) (bsc_bnr A) (bs_D P) = Ok wd /\
    ~ solvesh_block_ssor (bsc_n A) (bsc_nc A * bsc_bnr A) (bsc_bnr A) (bsc_entries A) (solveh_ssor_bsc P wd).
Proof.
  exists exC1. split; [reflexivity|]. split; [apply exC1_meets|]. eexists _, _. split; [vm_compute; reflexivity|]. split; [vm_compute; reflexivity|]. intros H.
  specialize (H [cq 1 0] [cq 0 0] ltac:(vm_compute; congruence) ltac:(vm_compute; congruence)). destruct H as (x' & z & Ex & Lx & H1 & H2).
  specialize (H1 0 ltac:(vm_compute; intuition congruence)). specialize (H2 0 ltac:(vm_compute; intuition congruence)).
  match type of H2 with _ = ?r => match type of H1 with ?l = _ => change r with l in H2 end end. rewrite H1 in H2.
  match type of Ex with ?f = _ => let v := eval vm_compute in f in change (v = Ok x') in Ex end. injection Ex as <-.
  apply (f_equal fst) in H2; apply (f_equal this) in H2; vm_compute in H2; discriminate.
Qed.
Print Assumptions C56_bsc_solveh_ssor1_refuted.
(** SSOR, order 2: the third component of z is i, that of the result -i *)
Let RT' : @ring_theory CQ s0 s1 sadd smul ssub sopp (@eq CQ) := ScalarCQ_ring.
Add Ring cq_ring : RT'.
Theorem C56_bsc_solveh_ssor2_refuted : exists A : bsc CQ, bsc_bnr A = 2 /\ meets A /\
  exists P wd, split_bsc upz upz ups upz upz ups ups A = Ok P /\ diag_inverse_blk (bsc_n A) (bsc_nc A) (bsc_bnr A) (bs_D P) = Ok wd /\
    ~ solvesh_block_ssor (bsc_n A) (bsc_nc A * bsc_bnr A) (bsc_bnr A) (bsc_entries A) (solveh_ssor_bsc P wd).
Proof.
  exists exC2. split; [reflexivity|]. split; [apply exC2_meets|]. eexists _, _. split; [vm_compute; reflexivity|]. split; [vm_compute; reflexivity|]. intros H.
  specialize (H [cq 1 0; cq 1 0; cq 1 0; cq 1 0] [cq 0 0; cq 0 0; cq 0 0; cq 0 0] ltac:(vm_compute; congruence) ltac:(vm_compute; congruence)). destruct H as (x' & z & Ex & Lx & H1 & H2).
  change (bsc_n exC2) with 4 in *. change (bsc_bnr exC2) with 2 in *.
  assert (MU : forall p j c0 c1 c2 c3, sconj (coef (filter p (bsc_entries exC2)) 0 j) = c0 -> sconj (coef (filter p (bsc_entries exC2)) 1 j) = c1 -> sconj (coef (filter p (bsc_entries exC2)) 2 j) = c2 -> sconj (coef (filter p (bsc_entries exC2)) 3 j) = c3 ->
    forall y, mvh_spec (filter p (bsc_entries exC2)) 4 y j = sadd (smul c0 (y 0)) (sadd (smul c1 (y 1)) (sadd (smul c2 (y 2)) (sadd (smul c3 (y 3)) s0)))).
  { intros p j c0 c1 c2 c3 <- <- <- <- y. reflexivity. }
  pose proof (H1 0 ltac:(lia)) as A0. pose proof (H1 1 ltac:(lia)) as A1. pose proof (H1 2 ltac:(lia)) as A2. specialize (H2 2 ltac:(lia)).
  rewrite (MU _ 0 s1 s0 s0 s0) in A0 by cqc. rewrite (MU _ 1 s0 s1 s0 s0) in A1 by cqc. rewrite (MU _ 2 s1 (cq 0 (-1)) s1 s0) in A2 by cqc.
  rewrite (MU (in_block_diag 2) 2 s0 s0 s1 s0) in H2 by cqc. rewrite (MU (in_block_lower 2) 2 s0 s0 s1 s0) in H2 by cqc.
  match type of Ex with ?f = _ => let v := eval vm_compute in f in change (v = Ok x') in Ex end. injection Ex as <-.
  assert (Z0 : z 0 = cq 1 0) by (rewrite <- A0 at 1; ring). assert (Z1 : z 1 = cq 1 0) by (transitivity (sadd (smul s0 (z 0)) (sadd (smul s1 (z 1)) (sadd (smul s0 (z 2)) (sadd (smul s0 (z 3)) s0)))); [ring|exact A1]).
  rewrite Z0, Z1 in A2. assert (Z2 : z 2 = ssub (cq 1 0) (sadd (cq 1 0) (smul (cq 0 (-1)) (cq 1 0)))) by (change (cq 1 0) with (znth s0 [cq 1 0; cq 1 0; cq 1 0; cq 1 0] 2) at 1; rewrite <- A2; ring).
  match type of H2 with _ = ?r => assert (E2 : r = z 2) by ring; rewrite E2, Z2 in H2 end.
  apply (f_equal snd) in H2; apply (f_equal this) in H2; vm_compute in H2; discriminate.
Qed.
Print Assumptions C56_bsc_solveh_ssor2_refuted.
(** the theorems on what they do cover: UPPER of exC2 with right-hand side 1, 1, 1, 1 *)
Example exC2_upper : exists P wd x, split_bsc upz upz ups upz upz ups ups exC2 = Ok P /\ diag_inverse_blk 4 2 2 (bs_D P) = Ok wd /\
  solveh_upper_bsc P wd [cq 1 0; cq 1 0; cq 1 0; cq 1 0] [cq 0 0; cq 0 0; cq 0 0; cq 0 0] = Ok x /\
  map (fun a => (this (fst a), this (snd a))) x = [(0 # 1, 1 # 1); (-1 # 1, 0 # 1); (1 # 1, 0 # 1); (1 # 1, 0 # 1)]%Q.
Proof. eexists _, _, _. split; [vm_compute; reflexivity|]. split; [vm_compute; reflexivity|]. split; [vm_compute; reflexivity|]. vm_compute; reflexivity. Qed.
