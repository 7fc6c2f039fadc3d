(** The end results on splitting and merging a JAD matrix; proofs about JadSolve.v *)
Require Import ZArith List Bool Lia Permutation.
From Verif Require Import Base Scalar Spec Items Fmt SpecSplit SplitProof SplitProof2 JadProof JadSolve SpecJadSolve JadLay JadSplitP JadMerge JadOut.
Import ListNotations.
Open Scope Z_scope.

Section E.
Context {T : Type} {S : Scalar T}.
Variable A : jad T.
Hypothesis HA : jad_ok A.
Hypothesis Hsq : jad_np A = jad_n A.
Notation n := (jad_n A).
Notation E := (jad_entries A).
Lemma longest_perm m F : Permutation F E -> longest_row n E m -> longest_row n F m.
Proof using.
  intros HP [H1 H2]. assert (G : forall r, zlen (filter (fun e => erow e =? r) F) = zlen (filter (fun e => erow e =? r) E)).
  { intros r. unfold zlen. f_equal. apply Permutation_length. apply Permutation_filter. exact HP. }
  split. { intros r Hr. rewrite G. auto. } destruct H2 as (r & Hr & H2). exists r. rewrite G. auto.
Qed.
Lemma jad_merge_final jlq jlp jlc jli jlv juq jup juc jui juv jd jw jw2 jq jp ji jv : no_dup_pos E -> (forall i, 0 <= i < n -> has_diag E i = true) ->
  longest_row n E (jad_maxnzr A) ->
  exists P B, split_jad jlq jlp jlc jli jlv juq jup juc jui juv jd A = Ok P /\
    Permutation (jad_entries (jd_A (js_L P))) (filter lower E) /\ Permutation (jad_entries (jd_A (js_U P))) (filter upper E) /\
    merge_jad jw jw2 jq jp ji jv (jad_np A) (jad_maxnzr A) P = Ok B /\ jad_ok B /\ jad_n B = n /\ jad_np B = jad_np A /\ jad_maxnzr B = jad_maxnzr A /\ Permutation (jad_entries B) E.
Proof using HA Hsq.
  intros HND Hdg Hlong. destruct (wp_ex _ _ (split_jad_wp A HA Hsq jlq jlp jlc jli jlv juq jup juc jui juv jd)) as (P & EP & P1 & P2 & P3 & P4 & P5). specialize (P5 HND).
  destruct (side_jad A lower (js_L P) HA Hsq P2) as (L1 & L2 & L3 & L4). destruct (side_jad A upper (js_U P) HA Hsq P3) as (U1 & U2 & U3 & U4).
  destruct P as [n' [L lc] D [U uc]]. cbn [js_n js_L js_U js_D jd_A] in *. subst n'.
  destruct (wp_ex _ _ (jad_merge_wp L U n D lc uc L1 U1 L2 U2 L3 U3 ltac:(lia) jw jw2 jq jp ji jv (jad_maxnzr A))) as (B & EB & B1 & B2 & B3 & B4).
  assert (HF : Permutation (jad_entries L ++ diag_entries n D ++ jad_entries U) E).
  { rewrite L4, U4. symmetry. etransitivity; [apply split_perm|]. apply Permutation_app_head. apply Permutation_app_tail. apply (diag_perm n (jad_np A)); auto. apply jad_in_shape; auto. }
  destruct (B4 (longest_perm _ _ HF Hlong)) as [B5 B6].
  exists (mkJsplit n (mkJside L lc) D (mkJside U uc)), B. rewrite <- Hsq in EB. rewrite Hsq in EB at 1.
  cbn [js_L js_U jd_A]. split; auto. split; auto. split; auto. split. { rewrite Hsq in *. exact EB. } split; auto. split; auto. split; [lia|]. split; auto. etransitivity; eauto.
Qed.
Lemma jad_never_final jlq jlp jlc jli jlv juq jup juc jui juv jd : 0 < n -> exists P, split_jad jlq jlp jlc jli jlv juq jup juc jui juv jd A = Ok P /\ forall wd, n <= zlen wd ->
  out_of_bounds n (solve_lower_jad P wd) /\ out_of_bounds n (solve_upper_jad P wd) /\ out_of_bounds n (solve_ssor_jad P wd) /\
  out_of_bounds n (solveh_lower_jad P wd) /\ out_of_bounds n (solveh_upper_jad P wd) /\ out_of_bounds n (solveh_ssor_jad P wd).
Proof using HA Hsq.
  intros Hn. destruct (wp_ex _ _ (split_jad_wp A HA Hsq jlq jlp jlc jli jlv juq jup juc jui juv jd)) as (P & EP & P1 & P2 & P3 & _). exists P. split; auto. intros wd Hw. apply jad_out_final; auto.
Qed.
End E.
