(** The solves of BSC with the conjugate transpose *)
Require Import ZArith List Bool Lia Permutation Ring.
From Verif Require Import Base Scalar Spec SpecArray Items CscProof Fmt Split SpecSplit DiagProof2 SplitProof PreconProof IlutFinal Array LuProof LuFinal
  BsrSolve SpecBsrSolve BsrEnd BsrEnd2 BscSolve SpecBscSolve BscProofS BsrSolveH BscSolveH SpecBsrSolveH BsrEndH.
Import ListNotations.
Open Scope Z_scope.

Section P.
Context {T : Type} {S : Scalar T}.
Hypothesis RT : is_ring S.
Hypothesis HC : conj_ok S.
Variable A : bsc T.
Hypothesis HB : bsc_ok A.
Hypothesis Hsq : bsc_bnc A = bsc_bnr A.
Hypothesis Hu : no_dup_pos (bsc_entries A).
Notation b := (bsc_bnr A). Notation nc := (bsc_nc A). Notation n := (bsc_n A).
Notation E := (bsc_entries A).
Variables (jlp jli : Z -> Z) (jlv : Z -> T) (jup jui : Z -> Z) (juv jd : Z -> T).

Lemma bsc_solveh_final : is_field S -> eqb_ok S -> in_shape n n (nz (map (swap_blocks b) E)) -> diagonal_blocks_lu n b nc (map (swap_blocks b) E) ->
  exists P wd, split_bsc jlp jli jlv jup jui juv jd A = Ok P /\ diag_inverse_blk n nc b (bs_D P) = Ok wd /\
    (3 < b \/ real_scalars -> solvesh_block_lower n (nc * b) b (map (swap_blocks b) E) (solveh_lower_bsc P wd)) /\
    (b <> 1 \/ real_scalars -> solvesh_block_upper n (nc * b) b (map (swap_blocks b) E) (solveh_upper_bsc P wd)) /\
    (2 < b \/ real_scalars -> solvesh_block_ssor n (nc * b) b (map (swap_blocks b) E) (solveh_ssor_bsc P wd)).
Proof using RT HC HB Hsq Hu.
  intros FT HZ Hs HLU. pose proof HB as (Hn & Hnp & Hb & _). pose proof (arrays_ok A HB Hsq n (or_introl eq_refl) Hs) as HR.
  assert (EA : bsc_arrays A = reorder n n (bsc_arrays A)) by (unfold bsc_arrays, reorder; cbn [bsr_n bsr_np bsr_bnr bsr_bnc bsr_nr bsr_bnnz bsr_bptr bsr_bindex bsr_value]; rewrite Hnp; auto).
  rewrite <- EA in HR. assert (ER : bsr_entries (bsc_arrays A) = map (swap_blocks b) E) by (exact (entries_arrays A Hb Hsq)).
  assert (HuR : no_dup_pos (bsr_entries (bsc_arrays A))) by (rewrite ER; apply swap_no_dup; auto).
  pose proof (bsc_solveh_arrays jlp jli jlv jup jui juv jd RT HC FT HZ (bsc_arrays A) HR Hsq HuR) as W. rewrite ER in W. exact (W HLU).
Qed.
Lemma mvh_same (p : entry T -> bool) (q : Z -> Z -> bool) F G x i : (forall e, p e = q (erow e) (ecol e)) -> (forall i j, coef F i j = coef G i j) -> mvh_spec (filter p F) n x i = mvh_spec (filter p G) n x i.
Proof using.
  intros Hp H. unfold mvh_spec. apply ssum_map_ext. intros j _. rewrite !(coef_filter p _ j i (q j i)) by (intros e <- <-; apply Hp). rewrite H. auto.
Qed.
Lemma bsc_symh_final : is_field S -> eqb_ok S -> block_symmetric b E -> diagonal_blocks_lu n b nc E ->
  exists P wd, split_bsc jlp jli jlv jup jui juv jd A = Ok P /\ diag_inverse_blk n nc b (bs_D P) = Ok wd /\
    (3 < b \/ real_scalars -> solvesh_block_lower n (nc * b) b (E) (solveh_lower_bsc P wd)) /\
    (b <> 1 \/ real_scalars -> solvesh_block_upper n (nc * b) b (E) (solveh_upper_bsc P wd)) /\
    (2 < b \/ real_scalars -> solvesh_block_ssor n (nc * b) b (E) (solveh_ssor_bsc P wd)).
Proof using RT HC HB Hsq Hu.
  intros FT HZ Hs HLU. pose proof HB as (Hn & Hnp & Hb & _ & _ & _ & _ & _ & _ & _ & Hsh). pose proof (sym_coef A HB Hs) as HC'.
  assert (Sh : in_shape n n (nz (map (swap_blocks b) E))).
  { intros e He. apply filter_In in He. destruct He as [He Hz]. 
    assert (HuS : no_dup_pos (map (swap_blocks b) E)) by (apply swap_no_dup; auto).
    destruct e as [[i j] v]. pose proof (DiagProof2.coef_eq RT _ i j v HuS He) as Ce. rewrite HC' in Ce.
    destruct (in_dec (fun p q : Z * Z => ltac:(decide equality; apply Z.eq_dec)) (i, j) (map fst E)) as [Hin|Hno].
    - apply in_map_iff in Hin. destruct Hin as ([[i' j'] v'] & Eq & Hin). cbn [fst] in Eq. injection Eq as -> ->. pose proof (DiagProof2.coef_eq RT E i j v' Hu Hin) as Ce'.
      rewrite Hnp in Hsh. apply Hsh. apply filter_In. split; [|exact Hz]. assert (v' = v) as H by congruence. rewrite <- H. exact Hin.
    - exfalso. rewrite coef_absent in Ce by auto. unfold eval in Hz. cbn [snd] in Hz. subst v. unfold nonzero in Hz. rewrite (proj2 (HZ s0 s0) eq_refl) in Hz. discriminate. }
  assert (HLU' : diagonal_blocks_lu n b nc (map (swap_blocks b) E)).
  { intros i Hi. destruct (HLU i Hi) as (L & U & HL). exists L, U. eapply lu_ext; [|exact HL]. intros ii jj Hii Hjj. unfold diagonal_block. rewrite HC'. auto. }

  destruct (bsc_solveh_final FT HZ Sh HLU') as (P & wd & EP & Ew & SL & SU & SS). exists P, wd. split; auto. split; auto.
  assert (QL : forall x i, mvh_spec (filter (in_block_lower b) (map (swap_blocks b) E)) n x i = mvh_spec (filter (in_block_lower b) E) n x i) by (intros; apply (mvh_same _ (fun i j => j / b <=? i / b)); auto).
  assert (QU : forall x i, mvh_spec (filter (in_block_upper b) (map (swap_blocks b) E)) n x i = mvh_spec (filter (in_block_upper b) E) n x i) by (intros; apply (mvh_same _ (fun i j => i / b <=? j / b)); auto).
  assert (QD : forall x i, mvh_spec (filter (in_block_diag b) (map (swap_blocks b) E)) n x i = mvh_spec (filter (in_block_diag b) E) n x i) by (intros; apply (mvh_same _ (fun i j => i / b =? j / b)); auto).
  split; [|split]; intros HR bv x Hbv Hx.
  - destruct (SL HR bv x Hbv Hx) as (x' & E1 & L1 & H1). exists x'. split; auto. split; auto. intros i Hi. rewrite <- QU. auto.
  - destruct (SU HR bv x Hbv Hx) as (x' & E1 & L1 & H1). exists x'. split; auto. split; auto. intros i Hi. rewrite <- QL. auto.
  - destruct (SS HR bv x Hbv Hx) as (x' & z & E1 & L1 & H1 & H2). exists x', z. split; auto. split; auto. split; intros i Hi; [rewrite <- QU|rewrite <- QL, <- QD]; auto.
Qed.
End P.
