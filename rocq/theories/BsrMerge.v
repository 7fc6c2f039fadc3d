(** lis_matrix_merge_bsr *)
Require Import ZArith List Bool Lia Permutation Ring.
From Verif Require Import Base Scalar Spec Items CscProof Fmt AssembleProof MatvecProof Split SpecSplit DiagProof DiagProof2 SplitProof BsrSolve BsrTri BsrSplit BsrSplit2.
Import ListNotations.
Open Scope Z_scope.

Section P.
Context {T : Type} {S : Scalar T}.
Local Existing Instance SB.
Notation bent := (entry (list T)).

Definition dblocks (bs nr : Z) (d : list T) : list (list T) := map (blkof bs d) (zrange 0 nr).
Lemma znth_dblocks bs nr d i : 0 <= i < nr -> znth s0 (dblocks bs nr d) i = blkof bs d i.
Proof. intros H. unfold dblocks. rewrite (znth_map _ 0) by (rewrite zlen_zrange; lia). rewrite znth_zrange by lia. f_equal. Qed.
Lemma vview_value (A : bsr T) b k : bsr_bnr A = b -> 0 <= k < bsr_bnnz A -> znth s0 (csr_value (vview A)) k = blkof (b * b) (bsr_value A) k.
Proof. intros <- H. unfold vview. cbn [csr_value]. rewrite (znth_map _ 0) by (rewrite zlen_zrange; lia). rewrite znth_zrange by lia. f_equal. Qed.

Lemma merge_bsr_wp jp ji jv (A : bsplit T) FL FU : 0 < bs_n A -> 0 < bs_b A -> (bs_nr A - 1) * bs_b A < bs_n A <= bs_nr A * bs_b A ->
  tri_ok (bs_b A) (bs_nr A) (bs_L A) FL -> tri_ok (bs_b A) (bs_nr A) (bs_U A) FU -> bs_nr A * (bs_b A * bs_b A) <= zlen (bs_D A) ->
  wp (merge_bsr jp ji jv A) (fun B => bsr_n B = bs_n A /\ bsr_np B = bs_np A /\ exists G, tri_ok (bs_b A) (bs_nr A) B G /\
    Permutation G (FL ++ diag_entries (bs_nr A) (dblocks (bs_b A * bs_b A) (bs_nr A) (bs_D A)) ++ FU)).
Proof.
  intros Hn0 Hb0 Hnr (L1 & L2 & L3 & HL & FLe & LV) (U1 & U2 & U3 & HU & FUe & UV) HD.
  pose proof HL as (HpL & HnpL & HzL & HiL & HvL & HxL). pose proof HU as (HpU & HnpU & HzU & HiU & HvU & HxU).
  pose proof HpL as (Hn & HlpL & _ & HmL). pose proof HpU as (_ & HlpU & _ & HmU). unfold merge_bsr. cbv zeta. rewrite (nr_quot (bs_n A) (bs_b A) (bs_nr A)) by auto.
  pose proof (vview_sized (bs_L A) HL) as SzL. pose proof (vview_sized (bs_U A) HU) as SzU. rewrite L2 in SzL. rewrite U2 in SzU.
  assert (VL : forall k, 0 <= k < csr_nnz (vview (bs_L A)) -> znth s0 (csr_value (vview (bs_L A))) k = blkof (bs_b A * bs_b A) (bsr_value (bs_L A)) k) by (intros; apply vview_value; auto).
  assert (VU : forall k, 0 <= k < csr_nnz (vview (bs_U A)) -> znth s0 (csr_value (vview (bs_U A))) k = blkof (bs_b A * bs_b A) (bsr_value (bs_U A)) k) by (intros; apply vview_value; auto).
  set (CL := vview (bs_L A)) in *. set (CU := vview (bs_U A)) in *.
  assert (NL : csr_n CL = bs_nr A) by exact L1. assert (NU : csr_n CU = bs_nr A) by exact U1. assert (NpL : csr_np CL = bs_nr A) by exact L1. assert (NpU : csr_np CU = bs_nr A) by exact U1.
  change (bsr_bptr (bs_L A)) with (csr_ptr CL) in *. change (bsr_bindex (bs_L A)) with (csr_index CL) in *. change (bsr_bnnz (bs_L A)) with (csr_nnz CL) in *.
  change (bsr_bptr (bs_U A)) with (csr_ptr CU) in *. change (bsr_bindex (bs_U A)) with (csr_index CU) in *. change (bsr_bnnz (bs_U A)) with (csr_nnz CU) in *.
  set (n := bs_nr A) in *. set (b := bs_b A) in *. set (bs := b * b) in *. assert (Hbs : 0 < bs) by (unfold bs; nia).
  set (N := csr_nnz CL + csr_nnz CU + n). replace (N * b * b) with (N * bs) by (unfold bs; ring).
  set (dv := dblocks bs n (bs_D A)). set (g := fun i => rowE CL i ++ (i, i, znth s0 dv i) :: rowE CU i).
  rewrite NL in *. rewrite NU in *.
  assert (HzL0 : 0 <= csr_nnz CL) by (pose proof (ptr_pos n (csr_ptr CL) n HpL ltac:(lia)); lia). assert (HzU0 : 0 <= csr_nnz CU) by (pose proof (ptr_pos n (csr_ptr CU) n HpU ltac:(lia)); lia).
  assert (GP : Permutation (flat_map g (zrange 0 n)) (FL ++ diag_entries n dv ++ FU)).
  { rewrite <- FLe, <- FUe. rewrite !csr_entries_rows, NL, NU. unfold g. rewrite flat_map_add. apply Permutation_app_head. apply flat_map_cons_perm. }
  assert (GL : zlen (flat_map g (zrange 0 n)) = N).
  { unfold zlen. rewrite (Permutation_length GP). rewrite !app_length, !Nat2Z.inj_add. fold (zlen FL). fold (zlen FU). fold (zlen (diag_entries n dv)). rewrite <- FLe, <- FUe.
    change (csr_entries CL) with (ptr_items (csr_n CL) (csr_ptr CL) (fun i k => (i, znth 0 (csr_index CL) k, znth s0 (csr_value CL) k) : bent)).
    change (csr_entries CU) with (ptr_items (csr_n CU) (csr_ptr CU) (fun i k => (i, znth 0 (csr_index CU) k, znth s0 (csr_value CU) k) : bent)).
    rewrite !zlen_ptr_items by (rewrite ?NL, ?NU; auto). rewrite NL, NU. unfold diag_entries. rewrite zlen_map, zlen_zrange. unfold N. lia. }
  wwr; [rewrite zlen_alloc; lia|]. wbind.
  apply (for_wp' (fun i (s : (list Z * list T * Z) * list Z) => let '(e, ptr) := s in brep bs N (flat_map g (zrange 0 i)) e /\ zlen ptr = n + 1 /\ forall r, 0 <= r <= i -> znth 0 ptr r = zlen (flat_map g (zrange 0 r)))); auto.
  - change (flat_map g (zrange 0 0)) with (@nil bent). split; [apply brep_nil; lia|]. split; [rewrite zlen_zupd, zlen_alloc; lia|].
    intros r Hr. replace r with 0 by lia. rewrite znth_zupd_eq by (rewrite zlen_alloc; lia). reflexivity.
  - intros i [e ptr] Hi (HR & Lp & HP). wrd 0; [lia|]. wrd 0; [lia|]. wbind.
    assert (Ps : flat_map g (zrange 0 (i + 1)) = flat_map g (zrange 0 i) ++ g i) by (rewrite zrange_snoc by lia; rewrite flat_map_app; cbn [flat_map]; rewrite app_nil_r; auto).
    assert (Room : forall d, prefix d (flat_map g (zrange 0 (i + 1))) -> zlen d <= N).
    { intros d Hd. apply prefix_len in Hd. pose proof (flat_map_le g (i + 1) n ltac:(lia)). lia. }
    apply (for_items0 (fun d e => brep bs N d e) (flat_map g (zrange 0 (i + 1))) (fun k => [(i, znth 0 (csr_index CL) k, znth s0 (csr_value CL) k) : bent]) _ _ _ (flat_map g (zrange 0 i))).
    + rewrite flat_map_single. rewrite Ps. exists ((i, i, znth s0 dv i) :: rowE CU i). unfold g at 2, rowE. rewrite app_assoc. auto.
    + auto.
    + intros k e' d Hk _ Hpf Hr. pose proof (csr_pos CL i k HL ltac:(lia) Hk) as Hkn. wrd 0; [lia|]. rewrite VL in * by auto. apply (emitb_wp bs Hbs N d e' i); auto; try lia; try nia.
      apply Room in Hpf. rewrite zlen_app in Hpf. change (zlen [_]) with 1 in Hpf. lia.
    + intros e1 R1. rewrite flat_map_single in R1. wbind.
      assert (Edv : blkof bs (bs_D A) i = znth s0 dv i) by (symmetry; apply znth_dblocks; auto).
      apply (emitb_wp bs Hbs N _ e1 i i _ _ _ R1); try lia; try nia.
      { assert (Hpf : prefix ((flat_map g (zrange 0 i) ++ rowE CL i) ++ [(i, i, znth s0 dv i) : bent]) (flat_map g (zrange 0 (i + 1)))).
        { rewrite Ps. exists (rowE CU i). unfold g at 2. rewrite <- !app_assoc. auto. }
        apply Room in Hpf. rewrite zlen_app in Hpf. change (zlen [_]) with 1 in Hpf. unfold rowE in Hpf. lia. }
      rewrite Edv. intros e2 R2. wrd 0; [lia|]. wrd 0; [lia|]. wbind.
      apply (for_items0 (fun d e => brep bs N d e) (flat_map g (zrange 0 (i + 1))) (fun k => [(i, znth 0 (csr_index CU) k, znth s0 (csr_value CU) k) : bent]) _ _ _ ((flat_map g (zrange 0 i) ++ rowE CL i) ++ [(i, i, znth s0 dv i) : bent])).
      * rewrite flat_map_single. rewrite Ps. exists []. unfold g at 2. rewrite app_nil_r, <- !app_assoc. auto.
      * exact R2.
      * intros k e' d Hk _ Hpf Hr. pose proof (csr_pos CU i k HU ltac:(lia) Hk) as Hkn. wrd 0; [lia|]. rewrite VU in * by auto. apply (emitb_wp bs Hbs N d e' i); auto; try lia; try nia.
        apply Room in Hpf. rewrite zlen_app in Hpf. change (zlen [_]) with 1 in Hpf. lia.
      * intros e3 R3. rewrite flat_map_single in R3. replace ((((flat_map g (zrange 0 i) ++ rowE CL i) ++ [(i, i, znth s0 dv i) : bent]) ++ _)) with (flat_map g (zrange 0 (i + 1))) in R3 by (rewrite Ps; unfold g at 2; rewrite <- !app_assoc; auto).
        destruct e3 as [[ix vl] k]. cbn [snd]. wwr; [lia|]. apply wp_ok. split; [exact R3|]. split; [len|]. destruct R3 as (_ & _ & K & _).
        intros r Hr. rewrite znth_zupd by lia. destruct (Z.eqb_spec r (i + 1)) as [->|]; [auto|apply HP; lia].
  - intros [e ptr] (HR & Lp & HP). destruct e as [[ix vl] k]. pose proof (brep_emit bs N _ _ _ _ HR) as HE. pose proof HR as (R1 & R2 & R3 & R4). apply wp_ok. cbn [bsr_n bsr_np]. do 2 (split; [auto|]).
    assert (Sz : sized bs (flat_map g (zrange 0 n))).
    { intros e He. apply (Permutation_in _ GP) in He. rewrite !in_app_iff in He. rewrite <- FLe, <- FUe in He. destruct He as [He|[He|He]]; [apply SzL; auto| |apply SzU; auto].
      apply in_map_iff in He. destruct He as (i & <- & Hi). apply In_zrange in Hi. unfold eval. cbn [snd]. unfold dv. rewrite znth_dblocks by auto. apply zlen_blkof. lia. }
    assert (Sh : in_shape n n (flat_map g (zrange 0 n))).
    { intros e He. apply (Permutation_in _ GP) in He. rewrite !in_app_iff in He. rewrite <- FLe, <- FUe in He. destruct He as [He|[He|He]]; [apply (csr_in_shape _ HL) in He; rewrite NL, NpL in He; auto| |apply (csr_in_shape _ HU) in He; rewrite NU, NpU in He; auto].
      apply in_map_iff in He. destruct He as (i & <- & Hi). apply In_zrange in Hi. unfold erow, ecol; cbn [fst snd]. lia. }
    assert (G : let B := mkCsr n n k ptr ix (map eval (flat_map g (zrange 0 n))) in csr_entries B = flat_map g (zrange 0 n) /\ (zlen (flat_map g (zrange 0 n)) = k -> csr_ok B)).
    { apply csr_of_emit; auto; try lia; [|rewrite zlen_map; lia]. intros i e Hi He. unfold g in He. apply in_app_or in He. destruct He as [He|[<-|He]]; [apply (rowE_row _ _ _ He)|reflexivity|apply (rowE_row _ _ _ He)]. }
    destruct G as (G1 & G2). exists (flat_map g (zrange 0 n)). split; [|exact GP]. unfold tri_ok. rewrite (vview_emit bs N (flat_map g (zrange 0 n))) by auto.
    cbn [bsr_nr bsr_bnr bsr_bnc bsr_bnnz bsr_value]. do 3 (split; [auto|]). split; [apply G2; lia|]. split; [exact G1|]. fold bs. nia.
Qed.
End P.
