(** C56 for VBR: the block triangular solves of lis_matrix_solve on a split VBR matrix, with the
    diagonal blocks inverted by the library.  (lis_matrix_split itself fails for most VBR matrices: Properties_VbrSplit.v.) *)
Require Import ZArith List Bool Lia QArith Qcanon.
From Verif Require Import Base Scalar Spec SpecArray VbrSplit VbrSolve SpecVbrSolve VbrEnd VbrOut.
Import ListNotations.
Open Scope Z_scope.

(** LOWER, UPPER and SSOR are right for every split VBR matrix whose blocks have at most 1024 rows, whatever the
    uninitialised work array w[1024] holds.  Missing: wider blocks (refuted below) and lis_matrix_solveh (refuted below). *)
Theorem C56_vbr_partial : forall (T : Type) (S : Scalar T), is_ring S -> is_field S -> eqb_ok S -> forall (jw : Z -> T) (P : vsplit T),
  split_form P -> blocks_have_lu P -> (forall i, 0 <= i < vs_nr P -> border P i <= 1024) ->
  exists wd, diag_inverse_vbr (vs_nr P) (vs_bns P) (vs_D P) = Ok wd /\
    vsolves (vs_n P) (vbr_entries (vs_L P) ++ vdiag_entries P) (solve_lower_vbr jw P wd) /\
    vsolves (vs_n P) (vdiag_entries P ++ vbr_entries (vs_U P)) (solve_upper_vbr jw P wd) /\
    vsolves_ssor (vs_n P) (vbr_entries (vs_L P)) (vdiag_entries P) (vbr_entries (vs_U P)) (solve_ssor_vbr jw P wd).
Proof. intros T S RT FT EQ jw P H1 H2 H3. exact (vbr_solve_final RT FT EQ jw P H1 H2 H3). Qed.
Print Assumptions C56_vbr_partial.

(** a block row of more than 1024 rows overflows the stack array w, whatever the matrix and the right-hand side *)
Theorem C56_vbr_wide_refuted : forall (T : Type) (S : Scalar T) (jw : Z -> T) (P : vsplit T) wd b x i,
  0 <= i < vs_nr P -> 1024 < border P i -> solve_lower_vbr jw P wd b x = UB /\ solve_ssor_vbr jw P wd b x = UB.
Proof. intros T S jw P wd b x i Hi Hb. exact (conj (vbr_wide_lower P jw wd b x i Hi Hb) (vbr_wide_ssor P jw wd b x i Hi Hb)). Qed.
Print Assumptions C56_vbr_wide_refuted.

(** *** a matrix which meets the hypotheses: blocks of order 2 and 1,
        2 1 5 / 1 4 6 / 1 2 3 *)
Definition qc (z : Z) : Qc := Q2Qc (inject_Z z).
Definition exL : vbr Qc := mkVbr 3 3 2 2 1 2 [0; 2; 3] [0; 2; 3] [0; 2] [0; 0; 1] [0] [qc 1; qc 2].
Definition exU : vbr Qc := mkVbr 3 3 2 2 1 2 [0; 2; 3] [0; 2; 3] [0; 2] [0; 1; 1] [1] [qc 5; qc 6].
Definition exP : vsplit Qc := mkVsplit 3 3 2 2 exL [2; 1] [[qc 2; qc 1; qc 1; qc 4]; [qc 3]] exU.
Definition mat2 (a b c d : Qc) (i j : Z) : Qc := if i =? 0 then if j =? 0 then a else b else if j =? 0 then c else d.
Ltac lunn := split; [|split; [|split; [|split]]]; intros; repeat match goal with H : 0 <= ?i < ?b |- _ => is_var i; let K := fresh in assert (K : i = 0 \/ i = 1) by lia; destruct K as [-> | ->]; try lia; clear H end;
  try lia; try (apply Qc_is_canon; vm_compute; reflexivity); try (let X := fresh in intro X; apply (f_equal this) in X; vm_compute in X; discriminate).
Ltac two H := let K := fresh in match type of H with 0 <= ?i < _ => assert (K : i = 0 \/ i = 1) by (vm_compute in H; lia); destruct K as [-> | ->] end.
Ltac upto k Hk := let K := fresh in assert (K : (k = 0 \/ k = 1 \/ k = 2 \/ k = 3)%Z) by (cbn in Hk; lia);
  repeat (destruct K as [->|K]; [try (vm_compute in Hk; intuition discriminate); try (vm_compute; intuition congruence)|]); try (subst k; try (vm_compute in Hk; intuition discriminate); vm_compute; intuition congruence).
Lemma exL_ok : vbr_ok exL.
Proof.
  unfold vbr_ok, ptr_ok. repeat match goal with |- _ /\ _ => split end; try (vm_compute; intuition congruence); try (intros k Hk; upto k Hk).
  intros i j Hi Hj. assert (K : i = 0 \/ i = 1) by (cbn in Hi; lia). destruct K as [-> | ->]; [change (0 <= j < 0) in Hj; lia|change (0 <= j < 1) in Hj]. assert (j = 0) by lia. subst j. vm_compute. intuition congruence.
Qed.
Lemma exU_ok : vbr_ok exU.
Proof.
  unfold vbr_ok, ptr_ok. repeat match goal with |- _ /\ _ => split end; try (vm_compute; intuition congruence); try (intros k Hk; upto k Hk).
  intros i j Hi Hj. assert (K : i = 0 \/ i = 1) by (cbn in Hi; lia). destruct K as [-> | ->]; [change (0 <= j < 1) in Hj|change (1 <= j < 1) in Hj; lia]. assert (j = 0) by lia. subst j. vm_compute. intuition congruence.
Qed.
Lemma exP_form : split_form exP.
Proof.
  split; [|split; [|split; [|split; [|split; [|split]]]]].
  - split; [exact exL_ok|]. do 4 (split; [reflexivity|]). intros i Hi. split; reflexivity.
  - split; [exact exU_ok|]. do 4 (split; [reflexivity|]). intros i Hi. split; reflexivity.
  - intros i k Hi Hk. assert (K : i = 0 \/ i = 1) by (cbn in Hi; lia). destruct K as [-> | ->]; [change (0 <= k < 0) in Hk; lia|change (0 <= k < 1) in Hk]. assert (k = 0) by lia. subst k. reflexivity.
  - intros i k Hi Hk. assert (K : i = 0 \/ i = 1) by (cbn in Hi; lia). destruct K as [-> | ->]; [change (0 <= k < 1) in Hk|change (1 <= k < 1) in Hk; lia]. assert (k = 0) by lia. subst k. reflexivity.
  - vm_compute; discriminate.
  - vm_compute; discriminate.
  - intros i Hi. assert (K : i = 0 \/ i = 1) by (cbn in Hi; lia). destruct K as [-> | ->]; vm_compute; intuition congruence.
Qed.
Example exP_meets : split_form exP /\ blocks_have_lu exP /\ forall i, 0 <= i < vs_nr exP -> border exP i <= 1024.
Proof.
  split; [exact exP_form|]. split.
  - intros i Hi. assert (K : i = 0 \/ i = 1) by (cbn in Hi; lia). destruct K as [-> | ->].
    + change (border exP 0) with 2. exists (mat2 (qc 1) (qc 0) (Q2Qc (1 # 2)) (qc 1)), (mat2 (qc 2) (qc 1) (qc 0) (Q2Qc (7 # 2))). lunn.
    + change (border exP 1) with 1. exists (mat2 (qc 1) (qc 0) (qc 0) (qc 1)), (mat2 (qc 3) (qc 0) (qc 0) (qc 0)). lunn.
  - intros i Hi. assert (K : i = 0 \/ i = 1) by (cbn in Hi; lia). destruct K as [-> | ->]; vm_compute; discriminate.
Qed.
Definition exW : list (list Qc) := match diag_inverse_vbr 2 [2; 1] (vs_D exP) with Ok w => w | _ => [] end.
Example exP_solves : exists x y z,
  diag_inverse_vbr 2 [2; 1] (vs_D exP) = Ok exW /\
  solve_lower_vbr (fun _ => qc 77) exP exW [qc 7; qc 14; qc 11] [qc 8; qc 8; qc 8] = Ok x /\ map this x = [2 # 1; 3 # 1; 1 # 1]%Q /\
  solve_upper_vbr (fun _ => qc 77) exP exW [qc 12; qc 20; qc 3] [qc 8; qc 8; qc 8] = Ok y /\ map this y = [2 # 1; 3 # 1; 1 # 1]%Q /\
  solve_ssor_vbr (fun _ => qc 77) exP exW [qc 7; qc 14; qc 11] [qc 8; qc 8; qc 8] = Ok z /\ map this z = [0 # 1; 2 # 1; 1 # 1]%Q.
Proof.
  eexists _, _, _. split; [vm_compute; reflexivity|]. split; [vm_compute; reflexivity|]. split; [vm_compute; reflexivity|].
  split; [vm_compute; reflexivity|]. split; [vm_compute; reflexivity|]. split; [vm_compute; reflexivity|]. vm_compute; reflexivity.
Qed.

(** *** lis_matrix_solveh: LOWER and UPPER go through the rows of U and L without transposing them, so that the result is not the solution
    of the transposed triangular system *)
Theorem C56_vbr_solveh_refuted : exists (P : vsplit Qc) wd b x y z, split_form P /\ blocks_have_lu P /\
  diag_inverse_vbr (vs_nr P) (vs_bns P) (vs_D P) = Ok wd /\ zlen b = vs_n P /\ zlen x = vs_n P /\
  solveh_lower_vbr (fun _ => qc 77) P wd b x = Ok y /\ mvh_spec (vdiag_entries P ++ vbr_entries (vs_U P)) (vs_n P) (znth s0 y) 2 <> znth s0 b 2 /\
  solveh_upper_vbr (fun _ => qc 77) P wd b x = Ok z /\ mvh_spec (vbr_entries (vs_L P) ++ vdiag_entries P) (vs_n P) (znth s0 z) 0 <> znth s0 b 0.
Proof.
  exists exP, exW, [qc 7; qc 14; qc 11], [qc 8; qc 8; qc 8]. eexists _, _. split; [exact exP_form|]. split; [exact (proj1 (proj2 exP_meets))|].
  split; [vm_compute; reflexivity|]. split; [reflexivity|]. split; [reflexivity|].
  split; [vm_compute; reflexivity|]. split; [intro X; apply (f_equal this) in X; vm_compute in X; discriminate|].
  split; [vm_compute; reflexivity|]. intro X; apply (f_equal this) in X; vm_compute in X; discriminate.
Qed.
Print Assumptions C56_vbr_solveh_refuted.

(** SSOR takes the block of U for one of the transposed matrix, so that its number of rows is used for the number of
    elements of x: with blocks of different orders it writes behind x *)
Theorem C56_vbr_solveh_ssor_refuted : exists (P : vsplit Qc) wd b x, split_form P /\ blocks_have_lu P /\ (forall i, 0 <= i < vs_nr P -> border P i <= 1024) /\
  diag_inverse_vbr (vs_nr P) (vs_bns P) (vs_D P) = Ok wd /\ zlen b = vs_n P /\ zlen x = vs_n P /\
  solveh_ssor_vbr (fun _ => qc 77) P wd b x = UB.
Proof.
  exists exP, exW, [qc 7; qc 14; qc 11], [qc 8; qc 8; qc 8]. split; [exact exP_form|]. split; [exact (proj1 (proj2 exP_meets))|]. split; [exact (proj2 (proj2 exP_meets))|].
  split; [vm_compute; reflexivity|]. split; [reflexivity|]. split; [reflexivity|]. vm_compute; reflexivity.
Qed.
Print Assumptions C56_vbr_solveh_ssor_refuted.
