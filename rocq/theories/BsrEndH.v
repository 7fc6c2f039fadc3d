(** The solves with the conjugate transpose: linking the passes to the matrix *)
Require Import ZArith List Bool Lia Permutation Ring.
From Verif Require Import Base Scalar Spec SpecArray Items CscProof Fmt AssembleProof MatvecProof MatvecProof2 MatvecFinal Split SpecSplit DiagProof DiagProof2 SplitProof SplitProof2 Array LuProof LuFinal TriLines DiagProof5
  BsrSolve SpecBsrSolve BsrTri BsrSplit BsrSplit2 BsrMerge BsrEnd BsrEnd2 BsrEnd3 BsrSolveH BscSolveH SpecBsrSolveH BsrTriH.
Import ListNotations.
Open Scope Z_scope.

Section P.
Context {T : Type} {S : Scalar T}.
Hypothesis RT : is_ring S.
Let RT' : @ring_theory T s0 s1 sadd smul ssub sopp (@eq T) := RT.
Add Ring scalar_ring_beh : RT'.
Hypothesis HC : conj_ok S.
Local Existing Instance SB.
Notation bent := (entry (list T)).
Notation z0 := (@s0 T S).

Definition hprod (b : Z) (e : bent) (jj : Z) (x : Z -> T) : T := sum_to b (fun ii => smul (sconj (znth z0 (eval e) (jj * b + ii))) (x (erow e * b + ii))).
Lemma map_flat_map {A B C} (g : B -> C) (f : A -> list B) l : map g (flat_map f l) = flat_map (fun a => map g (f a)) l.
Proof using. induction l as [|a l IH]; cbn [flat_map map]; auto. rewrite map_app, IH. auto. Qed.
Lemma mvE_expandh b e x c jj : 0 < b -> 0 <= jj < b -> mvE (map (@trc T S) (expand b e)) x (c * b + jj) = if c =? ecol e then hprod b e jj x else s0.
Proof using RT.
  intros Hb Hjj. unfold expand. rewrite map_flat_map. rewrite (mvE_flat_map RT).
  rewrite (ssum_map_ext _ (fun k => if jj =? k then (if c =? ecol e then hprod b e k x else s0) else s0)).
  - rewrite (single RT b jj (fun k => if c =? ecol e then hprod b e k x else s0)) by auto. auto.
  - intros k Hk. apply In_zrange in Hk. rewrite map_map, (mvE_map RT). unfold trc, erow at 1 3, ecol at 1 3, eval at 1. cbn [fst snd].
    change (@eval (list T) e) with (@eval (list T) e).
    destruct (Z.eqb_spec jj k) as [->|Ne].
    + destruct (Z.eqb_spec c (ecol e)) as [->|Nc].
      * unfold hprod, sum_to. apply ssum_map_ext. intros ii _. unfold ecol, erow, eval. cbn [fst snd]. rewrite Z.eqb_refl. auto.
      * rewrite (ssum_map_ext _ (fun _ => s0)); [apply (ssum_map_zero RT)|]. intros ii _. unfold ecol, erow in *. cbn [fst snd]. match goal with |- (if ?p =? ?q then _ else _) = _ => destruct (Z.eqb_spec p q) as [Eq|]; auto end. exfalso. apply Nc. nia.
    + rewrite (ssum_map_ext _ (fun _ => s0)); [apply (ssum_map_zero RT)|]. intros ii _. unfold ecol, erow in *. cbn [fst snd]. match goal with |- (if ?p =? ?q then _ else _) = _ => destruct (Z.eqb_spec p q) as [Eq|]; auto end. exfalso. apply Ne. assert (snd (fst e) = c) by nia. subst c. lia.
Qed.
Lemma mvE_blocksh b F x c jj : 0 < b -> 0 <= jj < b -> mvE (map (@trc T S) (flat_map (expand b) F)) x (c * b + jj) = ssum (map (fun e => if c =? ecol e then hprod b e jj x else s0) F).
Proof using RT. intros Hb Hjj. rewrite map_flat_map. rewrite (mvE_flat_map RT). apply ssum_map_ext. intros e _. apply mvE_expandh; auto. Qed.
Lemma tri_hsum b nr (B : bsr T) F x c jj : 0 < b -> 0 <= c < nr -> 0 <= jj < b -> tri_ok b nr B F -> mvE (map (@trc T S) (flat_map (expand b) F)) x (c * b + jj) = Hs b B 0 nr x c jj.
Proof using RT.
  intros Hb Hi Hii (H1 & H2 & H3 & HCv & <- & Hv). rewrite mvE_blocksh by auto. unfold csr_entries. rewrite (ssum_flat_map RT). replace (csr_n (vview B)) with nr by (exact (eq_sym H1)).
  unfold Hs. apply ssum_map_ext. intros q Hq. apply In_zrange in Hq. rewrite map_map. change (csr_ptr (vview B)) with (bsr_bptr B). change (csr_index (vview B)) with (bsr_bindex B).
  unfold hcol. apply ssum_map_ext. intros k Hk. apply In_zrange in Hk. unfold ecol at 1. cbn [fst snd]. rewrite (Z.eqb_sym c). destruct (_ =? c); auto.
  assert (Hk' : 0 <= k < bsr_bnnz B). { apply (csr_pos (vview B) q k HCv); [change (csr_n (vview B)) with (bsr_nr B); lia|exact Hk]. }
  unfold hprod, hdot, erow, eval. cbn [fst snd]. rewrite (vview_value B b k H2 Hk'). apply sum_to_ext. intros ii Hii'. rewrite znth_blkof by nia. do 3 f_equal. ring.
Qed.
Lemma mvE_trc_perm E F x i : Permutation E F -> mvE (map (@trc T S) E) x i = mvE (map (@trc T S) F) x i.
Proof using RT. intros H. apply (mvE_perm RT). apply Permutation_map. auto. Qed.

Variable A : bsr T.
Hypothesis HB : bsr_ok A.
Hypothesis Hsq : bsr_bnc A = bsr_bnr A.
Notation b := (bsr_bnr A). Notation nr := (bsr_nr A). Notation n := (bsr_n A).
Let E := bsr_entries A.
Let F := csr_entries (vview A).
Hypothesis Hu : no_dup_pos E.
Variable sp : bsplit T.
Hypothesis S1 : bs_n sp = n.
Hypothesis S2 : bs_np sp = bsr_np A.
Hypothesis S3 : bs_b sp = b.
Hypothesis S4 : bs_nr sp = nr.
Hypothesis S5 : tri_ok b nr (bs_L sp) (filter lower F).
Hypothesis S6 : tri_ok b nr (bs_U sp) (filter upper F).
Hypothesis S7 : zlen (bs_D sp) = nr * (b * b).
Hypothesis S8 : forall e, In e F -> erow e = ecol e -> forall q, 0 <= q < b * b -> znth z0 (bs_D sp) (b * b * erow e + q) = znth z0 (eval e) q.
Hypothesis Hd : forall i, 0 <= i < nr -> has_diag F i = true.
Notation DV := (dblocks (b * b) nr (bs_D sp)).
Notation Dp := (dpad n b (bs_D sp)).

Lemma mvh_diag x c jj : 0 <= c < nr -> 0 <= jj < b -> c * b + jj < n -> mvE (map (@trc T S) (flat_map (expand b) (diag_entries nr DV))) x (c * b + jj) = drowh b Dp c jj x.
Proof using RT HB.
  intros Hi Hjj Hlt. rewrite mvE_blocksh by (auto; apply (Hb0 A HB)). unfold diag_entries. rewrite map_map.
  rewrite (ssum_map_ext _ (fun q => if c =? q then hprod b ((c, c, znth s0 DV c) : bent) jj x else s0)).
  - rewrite (single RT nr c (fun q => hprod b ((c, c, znth s0 DV c) : bent) jj x)) by auto. unfold hprod, drowh. apply sum_to_ext. intros ii Hii. unfold erow, eval. cbn [fst snd]. rewrite znth_dblocks by auto.
    rewrite znth_blkof by nia. unfold dpad. assert (Eb : (n <=? c * b + ii) && (ii =? jj) = false) by (destruct (Z.leb_spec n (c * b + ii)); cbn [andb]; auto; apply Z.eqb_neq; lia).
    rewrite Eb. do 3 f_equal. ring.
  - intros q _. unfold ecol. cbn [fst snd]. destruct (Z.eqb_spec c q) as [->|]; auto.
Qed.
Hypothesis HZ : eqb_ok S.
Lemma mvh_part p G x i : (filter p E) = flat_map (expand b) G -> mvh_spec (filter p E) n x i = mvE (map (@trc T S) (flat_map (expand b) G)) x i.
Proof using RT HB HZ HC.
  intros EG. rewrite <- (mvh_nz RT HZ). rewrite (mvh_mvE RT HC _ n n).
  - rewrite (mvE_trc_nz RT HZ _ _ _ HC). rewrite EG. auto.
  - apply (nz_sub A HB p).
Qed.
Lemma mvh_upper x c jj : 0 <= c < nr -> 0 <= jj < b -> c * b + jj < n -> mvh_spec (filter (in_block_upper b) E) n x (c * b + jj) = sadd (Hs b (bs_U sp) 0 nr x c jj) (drowh b Dp c jj x).
Proof using RT HC HB Hsq Hu Hd S6 S8 HZ.
  intros Hi Hii Hlt. rewrite (mvh_part _ (filter bl_ge F)) by (unfold E; rewrite (EF A HB Hsq); apply filter_upper_blk, (Hb0 A HB)).
  rewrite (mvE_trc_perm _ _ _ _ (perm_flat_map (expand b) _ _ (perm_ge F))). rewrite flat_map_app, map_app, (mvE_app RT). f_equal.
  - apply (tri_hsum b nr); auto. apply (Hb0 A HB).
  - rewrite (mvE_trc_perm _ _ _ _ (perm_flat_map (expand b) _ _ (diag_F RT A HB Hsq Hu sp S8 Hd))). apply mvh_diag; auto.
Qed.
Lemma mvh_lower x c jj : 0 <= c < nr -> 0 <= jj < b -> c * b + jj < n -> mvh_spec (filter (in_block_lower b) E) n x (c * b + jj) = sadd (Hs b (bs_L sp) 0 nr x c jj) (drowh b Dp c jj x).
Proof using RT HC HB Hsq Hu Hd S5 S8 HZ.
  intros Hi Hii Hlt. rewrite (mvh_part _ (filter bl_le F)) by (unfold E; rewrite (EF A HB Hsq); apply filter_lower_blk, (Hb0 A HB)).
  rewrite (mvE_trc_perm _ _ _ _ (perm_flat_map (expand b) _ _ (perm_le F))). rewrite flat_map_app, map_app, (mvE_app RT). f_equal.
  - apply (tri_hsum b nr); auto. apply (Hb0 A HB).
  - rewrite (mvE_trc_perm _ _ _ _ (perm_flat_map (expand b) _ _ (diag_F RT A HB Hsq Hu sp S8 Hd))). apply mvh_diag; auto.
Qed.
Lemma mvh_dblk x c jj : 0 <= c < nr -> 0 <= jj < b -> c * b + jj < n -> mvh_spec (filter (in_block_diag b) E) n x (c * b + jj) = drowh b Dp c jj x.
Proof using RT HC HB Hsq Hu Hd S8 HZ.
  intros Hi Hii Hlt. rewrite (mvh_part _ (filter on_diag F)) by (unfold E; rewrite (EF A HB Hsq); apply filter_diag_blk, (Hb0 A HB)).
  rewrite (mvE_trc_perm _ _ _ _ (perm_flat_map (expand b) _ _ (diag_F RT A HB Hsq Hu sp S8 Hd))). apply mvh_diag; auto.
Qed.

Hypothesis FT : is_field S.
Hypothesis HLU : diagonal_blocks_lu n b nr E.
Notation REAL := (@real_scalars T S).
Notation CJ cw := (forall a, cw a = sconj a).
Notation CJ23 c2 := (b = 2 \/ b = 3 -> forall a, c2 a = sconj a).
(** the passes with any functions that agree with the conjugation *)
Definition glow cw c2 wd bv x := x <- copyx (bs_n sp) bv x ;; for_ 0 (bs_nr sp) (fun i x => hstep cw sconj c2 true (bs_b sp) (bs_U sp) wd x i) x.
Definition gup cw c2 wd bv x := x <- copyx (bs_n sp) bv x ;; for_down (bs_nr sp - 1) 0 (fun i x => hstep cw sconj c2 true (bs_b sp) (bs_L sp) wd x i) x.
Definition gssor cw c2 wd bv x := x <- copyx (bs_n sp) bv x ;;
  x <- for_ 0 (bs_nr sp) (fun i x => hstep cw sconj c2 false (bs_b sp) (bs_U sp) wd x i) x ;;
  for_down (bs_nr sp - 1) 0 (fun i x => hstep cw sconj c2 true (bs_b sp) (bs_L sp) wd x i) x.
Lemma inverse_partg : wp (diag_inverse_blk n nr b (bs_D sp)) (fun wd =>
  (forall cw c2, CJ cw -> CJ23 c2 -> solvesh_block_lower n (nr * b) b E (glow cw c2 wd)) /\
  (forall cw c2, CJ cw -> CJ23 c2 -> solvesh_block_upper n (nr * b) b E (gup cw c2 wd)) /\
  (forall cw c2, CJ cw -> CJ23 c2 -> solvesh_block_ssor n (nr * b) b E (gssor cw c2 wd))).
Proof using All.
  pose proof (Hb0 A HB) as Hb. pose proof (Hnr0 A HB) as Hnr. pose proof (Hn0 A HB) as Hn. assert (Hnrp : 0 < nr) by nia.
  eapply wp_mono; [apply (inverse_blk_wp RT FT HZ n nr b (bs_D sp)); auto|].
  { intros i Hi. destruct (HLU i Hi) as (L & U & HL). exists L, U. eapply lu_ext; [|exact HL]. intros ii jj Hii Hjj. symmetry. apply (dpad_block RT A HB Hsq Hu sp S8 Hd); auto. }
  cbv beta. intros wd (Lw & Hinv).
  pose proof (tri_fit _ _ _ _ S5) as FL. pose proof (tri_fit _ _ _ _ S6) as FU.
  assert (SL : forall i k, 0 <= i < nr -> znth 0 (bsr_bptr (bs_L sp)) i <= k < znth 0 (bsr_bptr (bs_L sp)) (i + 1) -> znth 0 (bsr_bindex (bs_L sp)) k < i).
  { intros i k Hi Hk. destruct (tri_lt b nr _ _ i k (fun e => ecol e < erow e) S5) as (e & He & E1 & E2); auto; [|lia]. intros e He. apply filter_In in He. destruct He as [_ He]. unfold lower in He. apply Z.ltb_lt in He. auto. }
  assert (SU : forall i k, 0 <= i < nr -> znth 0 (bsr_bptr (bs_U sp)) i <= k < znth 0 (bsr_bptr (bs_U sp)) (i + 1) -> i < znth 0 (bsr_bindex (bs_U sp)) k).
  { intros i k Hi Hk. destruct (tri_lt b nr _ _ i k (fun e => erow e < ecol e) S6) as (e & He & E1 & E2); auto; [|lia]. intros e He. apply filter_In in He. destruct He as [_ He]. unfold upper in He. apply Z.ltb_lt in He. auto. }
  assert (Split : forall i, 0 <= i < n -> exists r ii, i = r * b + ii /\ 0 <= r < nr /\ 0 <= ii < b).
  { intros i Hi. exists (i / b), (i mod b). pose proof (Z.mod_pos_bound i b Hb). pose proof (Z.div_mod i b ltac:(lia)). split; [lia|]. split; [|lia]. split; [apply Z.div_pos; lia|]. apply Z.div_lt_upper_bound; lia. }
  assert (Hwd : nr * (b * b) <= zlen wd) by lia.
  split; [|split].
  - intros cw c2 Hcw Hc2 bv x Hbv Hx. cut (wp (glow cw c2 wd bv x) (fun x' => zlen x' = zlen x /\ forall i, 0 <= i < n -> mvh_spec (filter (in_block_upper b) E) n (znth s0 x') i = znth s0 bv i)).
    { intros W. apply wp_inv in W. destruct W as (x' & Ex & L & H). exists x'. auto. }
    unfold glow. rewrite S1, S3, S4. wbind. eapply wp_mono; [apply copyx_wp; lia|]. cbv beta. intros x1 (L1 & C1).
    eapply wp_mono; [apply (pass_up RT HC b nr wd Dp Hb ltac:(lia) Hwd Hinv (bs_U sp) FU SU cw c2 true x1); auto; lia|].
    cbv beta iota. intros x' (L' & z & Z1 & Z2). split; [lia|]. intros i Hi. destruct (Split i Hi) as (r & ii & -> & Hr & Hii). rewrite mvh_upper by (auto; lia). rewrite <- C1 by lia. rewrite <- Z2 by auto.
      f_equal; [apply Hs_ext|apply drowh_ext]; intros; apply Z1; auto; lia.
  - intros cw c2 Hcw Hc2 bv x Hbv Hx. cut (wp (gup cw c2 wd bv x) (fun x' => zlen x' = zlen x /\ forall i, 0 <= i < n -> mvh_spec (filter (in_block_lower b) E) n (znth s0 x') i = znth s0 bv i)).
    { intros W. apply wp_inv in W. destruct W as (x' & Ex & L & H). exists x'. auto. }
    unfold gup. rewrite S1, S3, S4. wbind. eapply wp_mono; [apply copyx_wp; lia|]. cbv beta. intros x1 (L1 & C1).
    eapply wp_mono; [apply (pass_down RT HC b nr wd Dp Hb ltac:(lia) Hwd Hinv (bs_L sp) FL SL cw c2 x1); auto; lia|].
    cbv beta iota. intros x' (L' & Z2). split; [lia|]. intros i Hi. destruct (Split i Hi) as (r & ii & -> & Hr & Hii). rewrite mvh_lower by (auto; lia). rewrite <- C1 by lia. apply Z2; auto.
  - intros cw c2 Hcw Hc2 bv x Hbv Hx. cut (wp (gssor cw c2 wd bv x) (fun x' => zlen x' = zlen x /\ exists z, (forall i, 0 <= i < n -> mvh_spec (filter (in_block_upper b) E) n z i = znth s0 bv i) /\
      forall i, 0 <= i < n -> mvh_spec (filter (in_block_lower b) E) n (znth s0 x') i = mvh_spec (filter (in_block_diag b) E) n z i)).
    { intros W. apply wp_inv in W. destruct W as (x' & Ex & L & z & H1 & H2). exists x', z. auto. }
    unfold gssor. rewrite S1, S3, S4. wbind. eapply wp_mono; [apply copyx_wp; lia|]. cbv beta. intros x1 (L1 & C1). wbind.
    eapply wp_mono; [apply (pass_up RT HC b nr wd Dp Hb ltac:(lia) Hwd Hinv (bs_U sp) FU SU cw c2 false x1); auto; lia|].
    cbv beta iota. intros x2 (L2 & z & Z1 & Z2).
    eapply wp_mono; [apply (pass_down RT HC b nr wd Dp Hb ltac:(lia) Hwd Hinv (bs_L sp) FL SL cw c2 x2); auto; lia|].
    cbv beta. intros x' (L' & Z3). split; [lia|]. exists z. split; intros i Hi; destruct (Split i Hi) as (r & ii & -> & Hr & Hii).
    + rewrite mvh_upper by (auto; lia). rewrite Z2 by auto. apply C1. lia.
    + rewrite mvh_lower, mvh_dblk by (auto; lia). rewrite Z3 by auto. apply Z1; auto.
Qed.
Lemma inverse_parth : wp (diag_inverse_blk n nr b (bs_D sp)) (fun wd =>
  ((b <> 2 /\ b <> 3 \/ REAL) -> solvesh_block_lower n (nr * b) b E (solveh_lower_bsr sp wd)) /\
  ((b <> 1 /\ b <> 2 \/ REAL) -> solvesh_block_upper n (nr * b) b E (solveh_upper_bsr sp wd)) /\
  solvesh_block_ssor n (nr * b) b E (solveh_ssor_bsr sp wd)).
Proof using All.
  eapply wp_mono; [apply inverse_partg|]. cbv beta. intros wd (GL & GU & GS). split; [|split].
  - intros HR. apply (GL sconj noconj); auto. intros Hb23 a. destruct HR as [HR|HR]; [exfalso; lia|]. unfold noconj. rewrite HR. auto.
  - intros HR. apply (GU (if bs_b sp =? 1 then noconj else sconj) (if bs_b sp =? 2 then noconj else sconj)).
    + rewrite S3. intros a. destruct (Z.eqb_spec b 1); auto. destruct HR as [HR|HR]; [exfalso; lia|]. unfold noconj. rewrite HR. auto.
    + rewrite S3. intros Hb23 a. destruct (Z.eqb_spec b 2); auto. destruct HR as [HR|HR]; [exfalso; lia|]. unfold noconj. rewrite HR. auto.
  - apply (GS sconj sconj); auto.
Qed.
(** lis_matrix_solveh_bsc *)
Lemma inverse_parthc : wp (diag_inverse_blk n nr b (bs_D sp)) (fun wd =>
  (3 < b \/ REAL -> solvesh_block_lower n (nr * b) b E (solveh_lower_bsc sp wd)) /\
  (b <> 1 \/ REAL -> solvesh_block_upper n (nr * b) b E (solveh_upper_bsc sp wd)) /\
  (2 < b \/ REAL -> solvesh_block_ssor n (nr * b) b E (solveh_ssor_bsc sp wd))).
Proof using All.
  eapply wp_mono; [apply inverse_partg|]. cbv beta. intros wd (GL & GU & GS). split; [|split].
  - intros HR. apply (GL (if bs_b sp =? 1 then noconj else sconj) noconj).
    + rewrite S3. intros a. destruct (Z.eqb_spec b 1); auto. destruct HR as [HR|HR]; [exfalso; lia|]. unfold noconj. rewrite HR. auto.
    + intros Hb23 a. destruct HR as [HR|HR]; [exfalso; lia|]. unfold noconj. rewrite HR. auto.
  - intros HR. apply (GU (if bs_b sp =? 1 then noconj else sconj) sconj); auto.
    rewrite S3. intros a. destruct (Z.eqb_spec b 1); auto. destruct HR as [HR|HR]; [exfalso; lia|]. unfold noconj. rewrite HR. auto.
  - intros HR. apply (GS (if bs_b sp =? 1 then noconj else sconj) (if bs_b sp =? 2 then noconj else sconj)).
    + rewrite S3. intros a. destruct (Z.eqb_spec b 1); auto. destruct HR as [HR|HR]; [exfalso; lia|]. unfold noconj. rewrite HR. auto.
    + rewrite S3. intros Hb23 a. destruct (Z.eqb_spec b 2); auto. destruct HR as [HR|HR]; [exfalso; lia|]. unfold noconj. rewrite HR. auto.
Qed.
End P.

Section Q.
Context {T : Type} {S : Scalar T}.
Variables (jlp jli : Z -> Z) (jlv : Z -> T) (jup jui : Z -> Z) (juv jd : Z -> T).
Lemma bsr_solveh_final (RT : is_ring S) (HC : conj_ok S) (FT : is_field S) (HZ : eqb_ok S) (A : bsr T) : bsr_ok A -> bsr_bnc A = bsr_bnr A -> no_dup_pos (bsr_entries A) ->
  diagonal_blocks_lu (bsr_n A) (bsr_bnr A) (bsr_nr A) (bsr_entries A) ->
  exists P wd, split_bsr jlp jli jlv jup jui juv jd A = Ok P /\ diag_inverse_blk (bsr_n A) (bsr_nr A) (bsr_bnr A) (bs_D P) = Ok wd /\
    ((bsr_bnr A <> 2 /\ bsr_bnr A <> 3 \/ real_scalars) -> solvesh_block_lower (bsr_n A) (bsr_nr A * bsr_bnr A) (bsr_bnr A) (bsr_entries A) (solveh_lower_bsr P wd)) /\
    ((bsr_bnr A <> 1 /\ bsr_bnr A <> 2 \/ real_scalars) -> solvesh_block_upper (bsr_n A) (bsr_nr A * bsr_bnr A) (bsr_bnr A) (bsr_entries A) (solveh_upper_bsr P wd)) /\
    solvesh_block_ssor (bsr_n A) (bsr_nr A * bsr_bnr A) (bsr_bnr A) (bsr_entries A) (solveh_ssor_bsr P wd).
Proof using.
  intros HB Hsq Hu HLU. pose proof (HuF A HB Hsq Hu) as HuF.
  pose proof (split_bsr_wp jlp jli jlv jup jui juv jd A HB Hsq HuF) as W. apply wp_inv in W. destruct W as (P & EP & P1 & P2 & P3 & P4 & P5 & P6 & _ & _ & _ & _ & P7 & P8).
  pose proof (inverse_parth RT HC A HB Hsq Hu P P1 P2 P3 P4 P5 P6 P7 P8 (stored_has_diag A HB Hsq (lu_stored RT A HB Hsq HLU)) HZ FT HLU) as I. apply wp_inv in I. destruct I as (wd & Ew & I). exists P, wd. auto.
Qed.
Lemma bsc_solveh_arrays (RT : is_ring S) (HC : conj_ok S) (FT : is_field S) (HZ : eqb_ok S) (A : bsr T) : bsr_ok A -> bsr_bnc A = bsr_bnr A -> no_dup_pos (bsr_entries A) ->
  diagonal_blocks_lu (bsr_n A) (bsr_bnr A) (bsr_nr A) (bsr_entries A) ->
  exists P wd, split_bsr jlp jli jlv jup jui juv jd A = Ok P /\ diag_inverse_blk (bsr_n A) (bsr_nr A) (bsr_bnr A) (bs_D P) = Ok wd /\
    (3 < bsr_bnr A \/ real_scalars -> solvesh_block_lower (bsr_n A) (bsr_nr A * bsr_bnr A) (bsr_bnr A) (bsr_entries A) (solveh_lower_bsc P wd)) /\
    (bsr_bnr A <> 1 \/ real_scalars -> solvesh_block_upper (bsr_n A) (bsr_nr A * bsr_bnr A) (bsr_bnr A) (bsr_entries A) (solveh_upper_bsc P wd)) /\
    (2 < bsr_bnr A \/ real_scalars -> solvesh_block_ssor (bsr_n A) (bsr_nr A * bsr_bnr A) (bsr_bnr A) (bsr_entries A) (solveh_ssor_bsc P wd)).
Proof using.
  intros HB Hsq Hu HLU. pose proof (HuF A HB Hsq Hu) as HuF.
  pose proof (split_bsr_wp jlp jli jlv jup jui juv jd A HB Hsq HuF) as W. apply wp_inv in W. destruct W as (P & EP & P1 & P2 & P3 & P4 & P5 & P6 & _ & _ & _ & _ & P7 & P8).
  pose proof (inverse_parthc RT HC A HB Hsq Hu P P1 P2 P3 P4 P5 P6 P7 P8 (stored_has_diag A HB Hsq (lu_stored RT A HB Hsq HLU)) HZ FT HLU) as I. apply wp_inv in I. destruct I as (wd & Ew & I). exists P, wd. auto.
Qed.
End Q.
