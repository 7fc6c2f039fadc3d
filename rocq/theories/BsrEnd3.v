(** BSR split, inversion of the diagonal blocks and the three solves: the whole property *)
Require Import ZArith List Bool Lia Permutation Ring.
From Verif Require Import Base Scalar Spec SpecArray Items CscProof Fmt AssembleProof MatvecProof MatvecFinal Split SpecSplit DiagProof DiagProof2 SplitProof Array LuProof LuFinal TriLines DiagProof5
  BsrSolve SpecBsrSolve BsrTri BsrSplit BsrSplit2 BsrMerge BsrEnd BsrEnd2.
Import ListNotations.
Open Scope Z_scope.

Section P.
Context {T : Type} {S : Scalar T}.
Hypothesis RT : is_ring S.
Let RT' : @ring_theory T s0 s1 sadd smul ssub sopp (@eq T) := RT.
Add Ring scalar_ring_be3 : RT'.
Local Existing Instance SB.
Notation bent := (entry (list T)).
Notation z0 := (@s0 T S).

Lemma tri_entries b nr (B : bsr T) F : 0 < b -> tri_ok b nr B F -> bsr_entries B = flat_map (expand b) F.
Proof using.
  intros Hb (H1 & H2 & H3 & HC & <- & Hv). pose proof HC as (Hp & Hn & Hz & Hi & Hvl & Hx).
  change (csr_n (vview B)) with (bsr_nr B) in *. change (csr_ptr (vview B)) with (bsr_bptr B) in *. change (csr_nnz (vview B)) with (bsr_bnnz B) in *.
  unfold vview. apply bsr_expand; auto. intros k q Hk Hq. change (@nil T) with (@s0 (list T) SB). rewrite (znth_map _ 0) by (rewrite zlen_zrange; lia). rewrite znth_zrange by lia. rewrite H2. rewrite znth_blkof by lia. f_equal; lia.
Qed.
Lemma tri_lt b nr (B : bsr T) F i k (P : bent -> Prop) : tri_ok b nr B F -> (forall e, In e F -> P e) -> 0 <= i < nr -> znth 0 (bsr_bptr B) i <= k < znth 0 (bsr_bptr B) (i + 1) ->
  exists e, P e /\ erow e = i /\ ecol e = znth 0 (bsr_bindex B) k.
Proof using.
  intros (H1 & H2 & H3 & HC & <- & Hv) HP Hi Hk. exists (i, znth 0 (bsr_bindex B) k, znth s0 (csr_value (vview B)) k). split; [|split; reflexivity].
  apply HP. unfold csr_entries. apply in_flat_map. exists i. split; [apply In_zrange; change (csr_n (vview B)) with (bsr_nr B); lia|].
  apply in_map_iff. exists k. split; [reflexivity|]. apply In_zrange. exact Hk.
Qed.
Lemma expand_In b (e : bent) i j : 0 <= i < b -> 0 <= j < b -> In (erow e * b + i, ecol e * b + j, znth z0 (eval e) (j * b + i)) (expand b e).
Proof using. intros Hi Hj. unfold expand. apply in_flat_map. exists j. split; [apply In_zrange; auto|]. apply in_map_iff. exists i. split; auto. apply In_zrange; auto. Qed.

(** ** the matrix *)
Variable A : bsr T.
Hypothesis HB : bsr_ok A.
Hypothesis Hsq : bsr_bnc A = bsr_bnr A.
Notation b := (bsr_bnr A). Notation nr := (bsr_nr A). Notation n := (bsr_n A).
Let E := bsr_entries A.
Let F := csr_entries (vview A).
Hypothesis Hu : no_dup_pos E.

Lemma Hb0 : 0 < b. Proof using HB. destruct HB; tauto. Qed.
Lemma Hn0 : 0 < n. Proof using HB. destruct HB; tauto. Qed.
Lemma Hnr0 : (nr - 1) * b < n <= nr * b. Proof using HB. destruct HB; tauto. Qed.
Lemma EF : E = flat_map (expand b) F. Proof using HB Hsq. apply bsr_view; auto. Qed.
Lemma HuF : no_dup_pos F. Proof using HB Hsq Hu. apply (no_dup_blocks b); [apply Hb0|]. rewrite <- EF. exact Hu. Qed.
Lemma HVok : csr_ok (vview A). Proof using HB Hsq. apply vview_ok; auto. Qed.
Lemma Fshape : in_shape nr nr F. Proof using HB Hsq. exact (csr_in_shape (vview A) HVok). Qed.
Lemma Fsized : sized (b * b) F. Proof using HB Hsq. apply vview_sized, HVok. Qed.

Lemma stored_has_diag : diagonal_blocks_stored b nr E -> forall i, 0 <= i < nr -> has_diag F i = true.
Proof using HB Hsq.
  intros H i Hi. destruct (H i Hi) as (f & Hf & E1 & E2). rewrite EF in Hf. apply in_flat_map in Hf. destruct Hf as (e & He & Hf). apply In_expand in Hf; [|apply Hb0].
  destruct Hf as (p & q & Hp & Hq & ->). change ((erow e * b + p) / b = i) in E1. change ((ecol e * b + q) / b = i) in E2. rewrite div_blk in E1, E2 by (auto; apply Hb0).
  apply has_diag_In. apply in_map_iff. exists e. split; auto. destruct e as [[r c] v]. unfold erow, ecol in *. cbn [fst snd] in *. congruence.
Qed.
Lemma lu_stored : diagonal_blocks_lu n b nr E -> diagonal_blocks_stored b nr E.
Proof using RT HB Hsq.
  intros H i Hi. destruct (H i Hi) as (L & U & HL). pose proof Hb0. pose proof Hnr0. pose proof Hn0. apply (lu_first RT) in HL; [|auto]. unfold diagonal_block in HL.
  destruct (Z.leb_spec n (i * b + 0)); [nia|]. cbn [andb] in HL.
  destruct (in_dec (fun p q : Z * Z => ltac:(decide equality; apply Z.eq_dec)) (i * b + 0, i * b + 0) (map fst E)) as [Hin|Hn]; [|exfalso; apply HL, coef_absent; auto].
  apply in_map_iff in Hin. destruct Hin as (e & Ee & He). exists e. split; auto. unfold erow, ecol. rewrite Ee. cbn [fst snd]. split; apply div_blk; lia.
Qed.

(** ** the parts *)
Variable sp : bsplit T.
Hypothesis S1 : bs_n sp = n.
Hypothesis S2 : bs_np sp = bsr_np A.
Hypothesis S3 : bs_b sp = b.
Hypothesis S4 : bs_nr sp = nr.
Hypothesis S5 : tri_ok b nr (bs_L sp) (filter lower F).
Hypothesis S6 : tri_ok b nr (bs_U sp) (filter upper F).
Hypothesis S7 : zlen (bs_D sp) = nr * (b * b).
Hypothesis S8 : forall e, In e F -> erow e = ecol e -> forall q, 0 <= q < b * b -> znth z0 (bs_D sp) (b * b * erow e + q) = znth z0 (eval e) q.
Hypothesis Hd : forall i, 0 <= i < nr -> has_diag F i = true.
Notation DV := (dblocks (b * b) nr (bs_D sp)).

Lemma diag_of i : 0 <= i < nr -> exists e, In e F /\ erow e = i /\ ecol e = i.
Proof using Hd. intros Hi. apply Hd in Hi. apply has_diag_In in Hi. apply in_map_iff in Hi. destruct Hi as (e & Ee & He). exists e. split; auto. unfold erow, ecol. rewrite Ee. auto. Qed.
Lemma dpad_block i ii jj : 0 <= i < nr -> 0 <= ii < b -> 0 <= jj < b -> dpad n b (bs_D sp) i ii jj = diagonal_block n b E i ii jj.
Proof using RT HB Hsq Hu Hd S8.
  intros Hi Hii Hjj. unfold dpad, diagonal_block. destruct (_ && _); auto. destruct (diag_of i Hi) as (e & He & E1 & E2).
  assert (0 <= jj * b + ii < b * b) by nia. replace (i * (b * b) + jj * b + ii) with (b * b * erow e + (jj * b + ii)) by (rewrite E1; ring).
  rewrite S8 by (auto; congruence). symmetry. apply coef_eq; auto. rewrite EF. apply in_flat_map. exists e. split; auto.
  pose proof (expand_In b e ii jj Hii Hjj) as H'. rewrite E1, E2 in H'. exact H'.
Qed.
Lemma diag_F : Permutation (filter on_diag F) (diag_entries nr DV).
Proof using RT HB Hsq Hu Hd S8.
  apply (diag_perm nr nr F DV Fshape HuF Hd). intros e He Ed. pose proof (Fshape e He) as (Hr & _).
  rewrite znth_dblocks by auto. pose proof Hb0. assert (0 < b * b) by nia. apply (list_ext z0).
  - rewrite (Fsized e He). apply zlen_blkof. lia.
  - intros q Hq. rewrite zlen_blkof in Hq by lia. rewrite znth_blkof by auto. apply S8; auto.
Qed.
Definition D' (i ii jj : Z) : T := dpad n b (bs_D sp) i ii jj.
Lemma mv_diag x i ii : 0 <= i < nr -> 0 <= ii < b -> i * b + ii < n -> mvE (flat_map (expand b) (diag_entries nr DV)) x (i * b + ii) = sum_to b (fun jj => smul (D' i ii jj) (x (i * b + jj))).
Proof using RT HB.
  intros Hi Hii Hlt. rewrite (mvE_blocks RT) by (auto; apply Hb0). unfold diag_entries. rewrite map_map.
  rewrite (ssum_map_ext _ (fun q => if i =? q then eprod b ((i, i, znth s0 DV i) : bent) ii x else s0)).
  - rewrite (single RT nr i (fun q => eprod b ((i, i, znth s0 DV i) : bent) ii x)) by auto. unfold eprod. apply sum_to_ext. intros jj Hjj. unfold ecol, eval. cbn [fst snd]. rewrite znth_dblocks by auto.
    rewrite znth_blkof by nia. unfold D', dpad. destruct (Z.leb_spec n (i * b + ii)); [lia|]. cbn [andb]. do 2 f_equal. ring.
  - intros q _. unfold erow. cbn [fst]. destruct (Z.eqb_spec i q) as [->|]; auto.
Qed.
Lemma nz_sub (p : entry T -> bool) : in_shape n n (nz (filter p E)).
Proof using HB.
  intros e He. destruct HB as (_ & Hnp & _ & _ & _ & _ & _ & _ & _ & _ & Hs). rewrite Hnp in Hs. apply Hs. unfold nz in *. apply filter_In in He. destruct He as (He & Hz). apply filter_In in He. apply filter_In. tauto.
Qed.
Hypothesis HZ : eqb_ok S.
Lemma mv_part p G x i : (filter p E) = flat_map (expand b) G -> mv_spec (filter p E) n x i = mvE (flat_map (expand b) G) x i.
Proof using RT HB HZ.
  intros EG. rewrite <- (mv_nz RT HZ). rewrite (mv_spec_mvE RT).
  - rewrite (mvE_nz RT HZ). rewrite EG. auto.
  - intros e He _. apply (nz_sub p) in He. apply He.
Qed.
Lemma mv_lower x i ii : 0 <= i < nr -> 0 <= ii < b -> i * b + ii < n -> mv_spec (filter (in_block_lower b) E) n x (i * b + ii) = sadd (bsum b (bs_L sp) i ii x) (drow sp D' i ii x).
Proof using RT HB Hsq Hu Hd S3 S5 S8 HZ.
  intros Hi Hii Hlt. rewrite (mv_part _ (filter bl_le F)) by (rewrite EF; apply filter_lower_blk, Hb0).
  rewrite (mvE_perm RT _ _ _ _ (perm_flat_map (expand b) _ _ (perm_le F))). rewrite flat_map_app, (mvE_app RT). f_equal.
  - apply (tri_bsum RT b nr); auto. apply Hb0.
  - rewrite (mvE_perm RT _ _ _ _ (perm_flat_map (expand b) _ _ diag_F)). rewrite mv_diag by auto. unfold drow. rewrite S3. reflexivity.
Qed.
Lemma mv_upper x i ii : 0 <= i < nr -> 0 <= ii < b -> i * b + ii < n -> mv_spec (filter (in_block_upper b) E) n x (i * b + ii) = sadd (bsum b (bs_U sp) i ii x) (drow sp D' i ii x).
Proof using RT HB Hsq Hu Hd S3 S6 S8 HZ.
  intros Hi Hii Hlt. rewrite (mv_part _ (filter bl_ge F)) by (rewrite EF; apply filter_upper_blk, Hb0).
  rewrite (mvE_perm RT _ _ _ _ (perm_flat_map (expand b) _ _ (perm_ge F))). rewrite flat_map_app, (mvE_app RT). f_equal.
  - apply (tri_bsum RT b nr); auto. apply Hb0.
  - rewrite (mvE_perm RT _ _ _ _ (perm_flat_map (expand b) _ _ diag_F)). rewrite mv_diag by auto. unfold drow. rewrite S3. reflexivity.
Qed.
Lemma mv_dblk x i ii : 0 <= i < nr -> 0 <= ii < b -> i * b + ii < n -> mv_spec (filter (in_block_diag b) E) n x (i * b + ii) = drow sp D' i ii x.
Proof using RT HB Hsq Hu Hd S3 S8 HZ.
  intros Hi Hii Hlt. rewrite (mv_part _ (filter on_diag F)) by (rewrite EF; apply filter_diag_blk, Hb0).
  rewrite (mvE_perm RT _ _ _ _ (perm_flat_map (expand b) _ _ diag_F)). rewrite mv_diag by auto. unfold drow. rewrite S3. reflexivity.
Qed.

(** ** the solves *)
Hypothesis FT : is_field S.
Hypothesis HLU : diagonal_blocks_lu n b nr E.
Lemma inverse_part : wp (diag_inverse_blk n nr b (bs_D sp)) (fun wd => solves_block_lower n (nr * b) b E (solve_lower_bsr sp wd) /\
  solves_block_upper n (nr * b) b E (solve_upper_bsr sp wd) /\ solves_block_ssor n (nr * b) b E (solve_ssor_bsr sp wd)).
Proof using All.
  pose proof Hb0 as Hb. pose proof Hnr0 as Hnr. pose proof Hn0 as Hn. assert (Hnrp : 0 < nr) by nia.
  eapply wp_mono; [apply (inverse_blk_wp RT FT HZ n nr b (bs_D sp)); auto|].
  { intros i Hi. destruct (HLU i Hi) as (L & U & HL). exists L, U. eapply lu_ext; [|exact HL]. intros ii jj Hii Hjj. symmetry. apply dpad_block; auto. }
  cbv beta. intros wd (Lw & Hinv).
  pose proof (tri_fit _ _ _ _ S5) as FL. pose proof (tri_fit _ _ _ _ S6) as FU.
  assert (SL : forall i k, 0 <= i < nr -> znth 0 (bsr_bptr (bs_L sp)) i <= k < znth 0 (bsr_bptr (bs_L sp)) (i + 1) -> znth 0 (bsr_bindex (bs_L sp)) k < i).
  { intros i k Hi Hk. destruct (tri_lt b nr _ _ i k (fun e => ecol e < erow e) S5) as (e & He & E1 & E2); auto; [|lia]. intros e He. apply filter_In in He. destruct He as [_ He]. unfold lower in He. apply Z.ltb_lt in He. auto. }
  assert (SU : forall i k, 0 <= i < nr -> znth 0 (bsr_bptr (bs_U sp)) i <= k < znth 0 (bsr_bptr (bs_U sp)) (i + 1) -> i < znth 0 (bsr_bindex (bs_U sp)) k).
  { intros i k Hi Hk. destruct (tri_lt b nr _ _ i k (fun e => erow e < ecol e) S6) as (e & He & E1 & E2); auto; [|lia]. intros e He. apply filter_In in He. destruct He as [_ He]. unfold upper in He. apply Z.ltb_lt in He. auto. }
  assert (Split : forall i, 0 <= i < n -> exists r ii, i = r * b + ii /\ 0 <= r < nr /\ 0 <= ii < b).
  { intros i Hi. exists (i / b), (i mod b). pose proof (Z.mod_pos_bound i b Hb). pose proof (Z.div_mod i b ltac:(lia)). split; [lia|]. split; [|lia]. split; [apply Z.div_pos; lia|]. apply Z.div_lt_upper_bound; lia. }
  split; [|split].
  - intros bv x Hbv Hx. pose proof (lower_wp RT sp wd D') as W. rewrite S3, S4 in W. specialize (W Hb ltac:(lia) FL SL ltac:(lia) Hinv bv x Hbv Hx). apply wp_inv in W. destruct W as (x' & Ex & Lx & Hs).
    exists x'. split; auto. split; auto. intros i Hi. destruct (Split i Hi) as (r & ii & -> & Hr & Hii). rewrite mv_lower by (auto; lia). apply Hs; auto.
  - intros bv x Hbv Hx. pose proof (upper_wp RT sp wd D') as W. rewrite S3, S4 in W. specialize (W Hb ltac:(lia) FU SU ltac:(lia) Hinv bv x Hbv Hx). apply wp_inv in W. destruct W as (x' & Ex & Lx & Hs).
    exists x'. split; auto. split; auto. intros i Hi. destruct (Split i Hi) as (r & ii & -> & Hr & Hii). rewrite mv_upper by (auto; lia). apply Hs; auto.
  - intros bv x Hbv Hx. pose proof (ssor_wp RT sp wd D') as W. rewrite S3, S4 in W. specialize (W Hb ltac:(lia) FL FU SL SU ltac:(lia) Hinv bv x Hbv Hx). apply wp_inv in W. destruct W as (x' & Ex & Lx & z & Hz & Hs).
    exists x', z. split; auto. split; auto. split; intros i Hi; destruct (Split i Hi) as (r & ii & -> & Hr & Hii).
    + rewrite mv_lower by (auto; lia). apply Hz; auto.
    + rewrite mv_upper, mv_dblk by (auto; lia). apply Hs; auto.
Qed.
End P.
