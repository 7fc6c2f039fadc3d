(** C31/C56 for BSR: statements in terms of the model functions only *)
Require Import ZArith List Bool Lia Permutation Ring.
From Verif Require Import Base Scalar Spec SpecArray Items CscProof Fmt Split SpecSplit DiagProof2 SplitProof
  BsrSolve SpecBsrSolve BsrTri BsrSplit BsrSplit2 BsrMerge BsrEnd BsrEnd2 BsrEnd3.
Import ListNotations.
Open Scope Z_scope.

Section P.
Context {T : Type} {S : Scalar T}.
Hypothesis RT : is_ring S.
Variables (jlp jli : Z -> Z) (jlv : Z -> T) (jup jui : Z -> Z) (juv jd : Z -> T) (jp ji : Z -> Z) (jv : Z -> T).
Variable A : bsr T.
Hypothesis HB : bsr_ok A.
Hypothesis Hsq : bsr_bnc A = bsr_bnr A.
Hypothesis Hu : no_dup_pos (bsr_entries A).
Notation b := (bsr_bnr A). Notation nr := (bsr_nr A). Notation n := (bsr_n A).
Notation E := (bsr_entries A).
Local Existing Instance SB.

Lemma bsr_solve_final : is_field S -> eqb_ok S -> diagonal_blocks_lu n b nr E ->
  exists P wd, split_bsr jlp jli jlv jup jui juv jd A = Ok P /\ diag_inverse_blk n nr b (bs_D P) = Ok wd /\
    solves_block_lower n (nr * b) b E (solve_lower_bsr P wd) /\ solves_block_upper n (nr * b) b E (solve_upper_bsr P wd) /\ solves_block_ssor n (nr * b) b E (solve_ssor_bsr P wd).
Proof using RT HB Hsq Hu.
  intros FT HZ HLU. pose proof (HuF A HB Hsq Hu) as HuF.
  pose proof (split_bsr_wp jlp jli jlv jup jui juv jd A HB Hsq HuF) as W. apply wp_inv in W. destruct W as (P & EP & P1 & P2 & P3 & P4 & P5 & P6 & _ & _ & _ & _ & P7 & P8).
  pose proof (inverse_part RT A HB Hsq Hu P P1 P2 P3 P4 P5 P6 P7 P8 (stored_has_diag A HB Hsq (lu_stored RT A HB Hsq HLU)) HZ FT HLU) as I. apply wp_inv in I. destruct I as (wd & Ew & I). exists P, wd. auto.
Qed.
Lemma bsr_merge_final : diagonal_blocks_stored b nr E ->
  exists P B, split_bsr jlp jli jlv jup jui juv jd A = Ok P /\
    bsr_entries (bs_L P) = filter (fun e => ecol e / b <? erow e / b) E /\ bsr_entries (bs_U P) = filter (fun e => erow e / b <? ecol e / b) E /\
    merge_bsr jp ji jv P = Ok B /\ bsr_ok B /\ bsr_n B = n /\ bsr_np B = bsr_np A /\ bsr_bnr B = b /\ bsr_bnc B = b /\ Permutation (bsr_entries B) E.
Proof using RT HB Hsq Hu.
  intros Hst. pose proof (HuF A HB Hsq Hu) as HuF. pose proof (Hb0 A HB) as Hb. pose proof (Hnr0 A HB) as Hnr. pose proof (Hn0 A HB) as Hn. pose proof (EF A HB Hsq) as HEF.
  pose proof (split_bsr_wp jlp jli jlv jup jui juv jd A HB Hsq HuF) as W. apply wp_inv in W. destruct W as (P & EP & P1 & P2 & P3 & P4 & P5 & P6 & _ & _ & _ & _ & P7 & P8).
  pose proof (stored_has_diag A HB Hsq Hst) as Hd.
  pose proof (merge_bsr_wp jp ji jv P (filter lower (csr_entries (vview A))) (filter upper (csr_entries (vview A)))) as M. rewrite P1, P2, P3, P4 in M.
  specialize (M Hn Hb Hnr P5 P6 ltac:(lia)). apply wp_inv in M. destruct M as (B & EB & B1 & B2 & G & HG & PG).
  assert (PE : Permutation (bsr_entries B) E).
  { rewrite (tri_entries b nr B G Hb HG), HEF. apply perm_flat_map. rewrite PG. rewrite (split_perm (csr_entries (vview A))) at 3. apply Permutation_app_head, Permutation_app_tail. symmetry. apply diag_F; auto. }
  exists P, B. split; auto. split; [|split].
  - rewrite (tri_entries b nr _ _ Hb P5), HEF. symmetry. apply filter_expand; auto. intros e f Hf. apply In_expand in Hf; auto. destruct Hf as (i & j & Hi & Hj & ->). change (((ecol e * b + j) / b <? (erow e * b + i) / b) = lower e). rewrite !div_blk by auto. reflexivity.
  - rewrite (tri_entries b nr _ _ Hb P6), HEF. symmetry. apply filter_expand; auto. intros e f Hf. apply In_expand in Hf; auto. destruct Hf as (i & j & Hi & Hj & ->). change (((erow e * b + i) / b <? (ecol e * b + j) / b) = upper e). rewrite !div_blk by auto. reflexivity.
  - split; auto. destruct HG as (G1 & G2 & G3 & GC & GF & Gv). pose proof GC as (Hp & Hnn & Hz & Hi & Hvl & Hx). pose proof HB as (_ & Hnp & _ & _ & _ & _ & _ & _ & _ & _ & Hs).
    change (csr_n (vview B)) with (bsr_nr B) in *. change (csr_np (vview B)) with (bsr_nr B) in *. change (csr_ptr (vview B)) with (bsr_bptr B) in *. change (csr_nnz (vview B)) with (bsr_bnnz B) in *. change (csr_index (vview B)) with (bsr_bindex B) in *.
    split; [|repeat (split; [auto; congruence|]); exact PE].
    unfold bsr_ok. rewrite B1, B2, G2, G3. split; [lia|]. split; [congruence|]. split; [auto|]. split; [auto|]. rewrite G1 in *. split; [lia|]. split; [exact Hp|]. split; [exact Hz|]. split; [exact Hi|]. split; [exact Gv|].
    split.
    + intros k Hk. specialize (Hx k Hk). split; [lia|]. nia.
    + intros e He. apply Hs. unfold nz in *. apply filter_In in He. apply filter_In. destruct He as (He & Hne). split; auto. eapply Permutation_in; eauto.
Qed.
Lemma bsr_rect_final (A' : bsr T) : bsr_bnc A' <> bsr_bnr A' -> split_bsr jlp jli jlv jup jui juv jd A' = Err LIS_ERR_NOT_IMPLEMENTED.
Proof using. intros H. unfold split_bsr. cbv zeta. destruct (Z.eqb_spec (bsr_bnr A') (bsr_bnc A')); [congruence|reflexivity]. Qed.
End P.
