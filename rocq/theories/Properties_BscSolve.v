(** C31 and C56 for BSC: lis_matrix_split, lis_matrix_merge and lis_matrix_solve.  The code is that of
    BSR applied to the arrays of a matrix stored by block columns, so that A->L holds the blocks above
    the diagonal and the solves belong to the matrix whose blocks (r,c) and (c,r) are exchanged
    (SpecBscSolve.v); they agree with the matrix when it is block symmetric. *)
Require Import ZArith List Bool Lia QArith Qcanon Permutation.
From Verif Require Import Base Scalar Spec SpecArray BsrSolve SpecBsrSolve BscSolve SpecBscSolve BscProofS.
Import ListNotations.
Open Scope Z_scope.

(** merging gives the matrix back; the parts: L holds what is above the block diagonal, U what is below
    (missing for the whole claim: they should be exchanged) *)
Theorem C31_bsc_partial : forall (T : Type) (S : Scalar T), is_ring S -> forall (A : bsc T) jlp jli jlv jup jui juv jd jp ji jv,
  bsc_ok A -> bsc_bnc A = bsc_bnr A -> no_dup_pos (bsc_entries A) -> diagonal_blocks_stored (bsc_bnr A) (bsc_nc A) (bsc_entries A) ->
  exists P B, split_bsc jlp jli jlv jup jui juv jd A = Ok P /\
    Permutation (bsc_entries (bsc_L P)) (filter (fun e => erow e / bsc_bnr A <? ecol e / bsc_bnr A) (bsc_entries A)) /\
    Permutation (bsc_entries (bsc_U P)) (filter (fun e => ecol e / bsc_bnr A <? erow e / bsc_bnr A) (bsc_entries A)) /\
    merge_bsc jp ji jv P = Ok B /\ bsc_n B = bsc_n A /\ bsc_np B = bsc_np A /\ bsc_bnr B = bsc_bnr A /\ bsc_bnc B = bsc_bnr A /\
    Permutation (bsc_entries B) (bsc_entries A).
Proof. intros T S RT A jlp jli jlv jup jui juv jd jp ji jv HB Hsq Hu Hst. exact (bsc_merge_final RT A HB Hsq Hu jlp jli jlv jup jui juv jd jp ji jv Hst). Qed.
Print Assumptions C31_bsc_partial.

(** the solves, for a block symmetric matrix *)
Theorem C56_bsc_partial : forall (T : Type) (S : Scalar T), is_ring S -> is_field S -> eqb_ok S -> forall (A : bsc T) jlp jli jlv jup jui juv jd,
  bsc_ok A -> bsc_bnc A = bsc_bnr A -> no_dup_pos (bsc_entries A) -> block_symmetric (bsc_bnr A) (bsc_entries A) ->
  diagonal_blocks_lu (bsc_n A) (bsc_bnr A) (bsc_nc A) (bsc_entries A) ->
  exists P wd, split_bsc jlp jli jlv jup jui juv jd A = Ok P /\ diag_inverse_blk (bsc_n A) (bsc_nc A) (bsc_bnr A) (bs_D P) = Ok wd /\
    solves_block_lower (bsc_n A) (bsc_nc A * bsc_bnr A) (bsc_bnr A) (bsc_entries A) (solve_lower_bsc P wd) /\
    solves_block_upper (bsc_n A) (bsc_nc A * bsc_bnr A) (bsc_bnr A) (bsc_entries A) (solve_upper_bsc P wd) /\
    solves_block_ssor (bsc_n A) (bsc_nc A * bsc_bnr A) (bsc_bnr A) (bsc_entries A) (solve_ssor_bsc P wd).
Proof. intros T S RT FT EO A jlp jli jlv jup jui juv jd HB Hsq Hu Hs HLU. exact (bsc_sym_final RT A HB Hsq Hu jlp jli jlv jup jui juv jd FT EO Hs HLU). Qed.
Print Assumptions C56_bsc_partial.

(** the solves, for any matrix whose exchanged blocks stay inside the matrix (always when the block order divides n) *)
Theorem C56_bsc_exchanged_partial : forall (T : Type) (S : Scalar T), is_ring S -> is_field S -> eqb_ok S -> forall (A : bsc T) jlp jli jlv jup jui juv jd,
  bsc_ok A -> bsc_bnc A = bsc_bnr A -> no_dup_pos (bsc_entries A) ->
  let E := map (swap_blocks (bsc_bnr A)) (bsc_entries A) in
  in_shape (bsc_n A) (bsc_n A) (nz E) -> diagonal_blocks_lu (bsc_n A) (bsc_bnr A) (bsc_nc A) E ->
  exists P wd, split_bsc jlp jli jlv jup jui juv jd A = Ok P /\ diag_inverse_blk (bsc_n A) (bsc_nc A) (bsc_bnr A) (bs_D P) = Ok wd /\
    solves_block_lower (bsc_n A) (bsc_nc A * bsc_bnr A) (bsc_bnr A) E (solve_lower_bsc P wd) /\
    solves_block_upper (bsc_n A) (bsc_nc A * bsc_bnr A) (bsc_bnr A) E (solve_upper_bsc P wd) /\
    solves_block_ssor (bsc_n A) (bsc_nc A * bsc_bnr A) (bsc_bnr A) E (solve_ssor_bsc P wd).
Proof. intros T S RT FT EO A jlp jli jlv jup jui juv jd HB Hsq Hu E Hs HLU. exact (bsc_solve_final RT A HB Hsq Hu jlp jli jlv jup jui juv jd FT EO Hs HLU). Qed.
Print Assumptions C56_bsc_exchanged_partial.

Ltac small := intros ?k Hk; let K := fresh in assert (K : (k = 0 \/ k = 1 \/ k = 2 \/ k = 3 \/ k = 4)%Z) by (cbn in Hk; lia);
  repeat (destruct K as [->|K]; [try (vm_compute in Hk; intuition discriminate); try (vm_compute; intuition congruence)|]); try (subst k; try (vm_compute in Hk; intuition discriminate); vm_compute; intuition congruence).
Ltac shape := intros e He; vm_compute in He; repeat (destruct He as [<-|He]; [vm_compute; intuition congruence|]); destruct He.
Ltac nodup := unfold no_dup_pos; vm_compute; repeat constructor; cbn; intuition congruence.
Ltac okb := unfold bsc_ok, ptr_ok; cbn -[Z.le Z.lt in_shape Z.mul]; repeat match goal with |- _ /\ _ => split end; try (vm_compute; intuition congruence); match goal with |- in_shape _ _ _ => shape | |- forall _ : Z, _ => small end.
Definition qc (z : Z) : Qc := Q2Qc (inject_Z z).
Definition mat2 (a b c d : Qc) (i j : Z) : Qc := if i =? 0 then if j =? 0 then a else b else if j =? 0 then c else d.
Ltac lunn := split; [|split; [|split; [|split]]]; intros; repeat match goal with H : 0 <= ?i < ?b |- _ => is_var i; let K := fresh in assert (K : i = 0 \/ i = 1) by lia; destruct K as [-> | ->]; try lia end;
  try lia; try (apply Qc_is_canon; vm_compute; reflexivity); try (let X := fresh in intro X; apply (f_equal this) in X; vm_compute in X; discriminate).

(** *** what fails: the matrix 1 0 / 1 1 in blocks of order 1 *)
Definition exR : bsc Qc := mkBsc 2 2 1 1 2 3 [0; 2; 3] [0; 1; 1] [qc 1; qc 1; qc 1].
Definition ujz : Z -> Z := fun _ => 7.
Definition ujq : Z -> Qc := fun _ => qc 7.
Theorem C56_bsc_refuted : exists A : bsc Qc, bsc_ok A /\ bsc_bnc A = bsc_bnr A /\ no_dup_pos (bsc_entries A) /\ diagonal_blocks_lu (bsc_n A) (bsc_bnr A) (bsc_nc A) (bsc_entries A) /\
  exists P wd, split_bsc ujz ujz ujq ujz ujz ujq ujq A = Ok P /\ diag_inverse_blk (bsc_n A) (bsc_nc A) (bsc_bnr A) (bs_D P) = Ok wd /\
    ~ solves_block_lower (bsc_n A) (bsc_nc A * bsc_bnr A) (bsc_bnr A) (bsc_entries A) (solve_lower_bsc P wd) /\
    ~ solves_block_upper (bsc_n A) (bsc_nc A * bsc_bnr A) (bsc_bnr A) (bsc_entries A) (solve_upper_bsc P wd).
Proof.
  exists exR. split; [okb|]. split; [reflexivity|]. split; [nodup|]. split.
  - intros i Hi. exists (mat2 (qc 1) (qc 0) (qc 0) (qc 1)), (mat2 (qc 1) (qc 0) (qc 0) (qc 1)). assert (K : i = 0 \/ i = 1) by (cbn in Hi; lia). cbn [bsc_bnr exR]. destruct K as [-> | ->]; lunn.
  - eexists _, _. split; [vm_compute; reflexivity|]. split; [vm_compute; reflexivity|]. split; intros H.
    + specialize (H [qc 1; qc 2] [qc 0; qc 0] ltac:(vm_compute; congruence) ltac:(vm_compute; congruence)). destruct H as (x' & E & L & Hx). specialize (Hx 1 ltac:(vm_compute; intuition congruence)).
      match type of E with ?f = _ => let v := eval vm_compute in f in change (v = Ok x') in E end. injection E as <-. apply (f_equal this) in Hx. vm_compute in Hx. discriminate.
    + specialize (H [qc 1; qc 2] [qc 0; qc 0] ltac:(vm_compute; congruence) ltac:(vm_compute; congruence)). destruct H as (x' & E & L & Hx). specialize (Hx 0 ltac:(vm_compute; intuition congruence)).
      match type of E with ?f = _ => let v := eval vm_compute in f in change (v = Ok x') in E end. injection E as <-. apply (f_equal this) in Hx. vm_compute in Hx. discriminate.
Qed.
Print Assumptions C56_bsc_refuted.
(** with the same matrix: nothing of the lower triangle is in A->L *)
Theorem C31_bsc_parts_refuted : exists A : bsc Qc, bsc_ok A /\ bsc_bnc A = bsc_bnr A /\ no_dup_pos (bsc_entries A) /\ diagonal_blocks_stored (bsc_bnr A) (bsc_nc A) (bsc_entries A) /\
  exists P, split_bsc ujz ujz ujq ujz ujz ujq ujq A = Ok P /\ coef (bsc_entries (bsc_L P)) 1 0 <> coef (bsc_entries A) 1 0 /\ coef (bsc_entries (bsc_U P)) 1 0 = coef (bsc_entries A) 1 0.
Proof.
  exists exR. split; [okb|]. split; [reflexivity|]. split; [nodup|]. split.
  - intros i Hi. assert (K : i = 0 \/ i = 1) by (cbn in Hi; lia). destruct K as [-> | ->].
    + exists (0, 0, qc 1). split; [vm_compute; tauto|]. split; reflexivity.
    + exists (1, 1, qc 1). split; [vm_compute; tauto|]. split; reflexivity.
  - eexists. split; [vm_compute; reflexivity|]. split; [|vm_compute; reflexivity]. intros X. apply (f_equal this) in X. vm_compute in X. discriminate.
Qed.
Print Assumptions C31_bsc_parts_refuted.

(** *** a matrix of order 4 which meets the hypotheses (block symmetric, not symmetric):
        2 1 1 2 / 1 4 0 1 / 1 2 1 0 / 0 1 3 1 *)
Definition exS : bsc Qc := mkBsc 4 4 2 2 2 4 [0; 2; 4] [0; 1; 0; 1]
  [qc 2; qc 1; qc 1; qc 4;  qc 1; qc 0; qc 2; qc 1;  qc 1; qc 0; qc 2; qc 1;  qc 1; qc 3; qc 0; qc 1].
Example exS_meets : bsc_ok exS /\ bsc_bnc exS = bsc_bnr exS /\ no_dup_pos (bsc_entries exS) /\ block_symmetric (bsc_bnr exS) (bsc_entries exS) /\
  diagonal_blocks_lu (bsc_n exS) (bsc_bnr exS) (bsc_nc exS) (bsc_entries exS) /\ diagonal_blocks_stored (bsc_bnr exS) (bsc_nc exS) (bsc_entries exS).
Proof.
  split; [okb|]. split; [reflexivity|]. split; [nodup|]. split; [|split].
  - intros r c i j Hi Hj. change (bsc_bnr exS) with 2 in *.
    assert (Out : forall p q, (p < 0 \/ 4 <= p \/ q < 0 \/ 4 <= q) -> coef (bsc_entries exS) p q = qc 0).
    { intros p q Hpq. unfold coef. match goal with |- ssum (map eval (filter _ ?l)) = _ => let l' := eval cbv -[qc] in l in change l with l' end. cbn [filter]. unfold at_ij, erow, ecol. cbn [fst snd].
      repeat match goal with |- context [(?a =? p) && (?d =? q)] => replace ((a =? p) && (d =? q)) with false by (symmetry; apply andb_false_iff; rewrite !Z.eqb_neq; lia) end. reflexivity. }
    assert (Kr : r < 0 \/ 2 <= r \/ r = 0 \/ r = 1) by lia. assert (Kc : c < 0 \/ 2 <= c \/ c = 0 \/ c = 1) by lia.
    destruct Kr as [Hr|[Hr|Hr]]; [rewrite !Out by lia; auto|rewrite !Out by lia; auto|]. destruct Kc as [Hc|[Hc|Hc]]; [rewrite !Out by lia; auto|rewrite !Out by lia; auto|].
    clear Out. assert (Ki : i = 0 \/ i = 1) by lia. assert (Kj : j = 0 \/ j = 1) by lia.
    destruct Hr as [-> | ->], Hc as [-> | ->], Ki as [-> | ->], Kj as [-> | ->]; apply Qc_is_canon; vm_compute; reflexivity.
  - intros i Hi. assert (K : (i = 0 \/ i = 1)%Z) by (cbn in Hi; lia). destruct K as [-> | ->].
    + exists (mat2 (qc 1) (qc 0) (Q2Qc (1 # 2)) (qc 1)), (mat2 (qc 2) (qc 1) (qc 0) (Q2Qc (7 # 2))). cbn [bsc_bnr exS]. lunn.
    + exists (mat2 (qc 1) (qc 0) (qc 3) (qc 1)), (mat2 (qc 1) (qc 0) (qc 0) (qc 1)). cbn [bsc_bnr exS]. lunn.
  - intros i Hi. assert (K : (i = 0 \/ i = 1)%Z) by (cbn in Hi; lia). destruct K as [-> | ->].
    + exists (0, 0, qc 2). split; [vm_compute; tauto|]. split; reflexivity.
    + exists (2, 2, qc 1). split; [vm_compute; tauto|]. split; reflexivity.
Qed.
(** its lower solve with right-hand side (3, 5, 4, 5) *)
Example exS_solves : exists P wd x, split_bsc ujz ujz ujq ujz ujz ujq ujq exS = Ok P /\ diag_inverse_blk 4 2 2 (bs_D P) = Ok wd /\
  solve_lower_bsc P wd [qc 3; qc 5; qc 4; qc 5] [qc 8; qc 8; qc 8; qc 8] = Ok x /\ map this x = [1 # 1; 1 # 1; 1 # 1; 1 # 1]%Q.
Proof. eexists _, _, _. split; [vm_compute; reflexivity|]. split; [vm_compute; reflexivity|]. split; [vm_compute; reflexivity|]. vm_compute; reflexivity. Qed.
