(** BSC: what follows from the BSR results by exchanging the block indices *)
Require Import ZArith List Bool Lia Permutation Ring.
From Verif Require Import Base Scalar Spec SpecArray Items CscProof Fmt Split SpecSplit DiagProof2 SplitProof PreconProof IlutFinal
  BsrSolve SpecBsrSolve BsrTri BsrSplit BsrSplit2 BsrMerge BsrEnd BsrEnd2 BsrEnd3 BsrEnd4 BscSolve SpecBscSolve.
Import ListNotations.
Open Scope Z_scope.

Section P.
Context {T : Type} {S : Scalar T}.
Hypothesis RT : is_ring S.

Lemma divmod_blk b q i : 0 < b -> 0 <= i < b -> (q * b + i) / b = q /\ (q * b + i) mod b = i.
Proof using. intros Hb Hi. split; [symmetry; apply (Z.div_unique (q * b + i) b q i); [left; lia|lia]|symmetry; apply (Z.mod_unique (q * b + i) b q i); [left; lia|lia]]. Qed.
Lemma swap_val b r c i j (v : T) : 0 < b -> 0 <= i < b -> 0 <= j < b -> swap_blocks b (r * b + i, c * b + j, v) = (c * b + i, r * b + j, v).
Proof using. intros Hb Hi Hj. unfold swap_blocks, erow, ecol, eval. cbn [fst snd]. destruct (divmod_blk b r i Hb Hi) as [-> ->]. destruct (divmod_blk b c j Hb Hj) as [-> ->]. auto. Qed.
Lemma swap_invol b (e : entry T) : 0 < b -> swap_blocks b (swap_blocks b e) = e.
Proof using.
  intros Hb. destruct e as [[i j] v]. pose proof (Z.mod_pos_bound i b Hb). pose proof (Z.mod_pos_bound j b Hb). pose proof (Z.div_mod i b ltac:(lia)). pose proof (Z.div_mod j b ltac:(lia)).
  unfold swap_blocks at 2. unfold erow, ecol, eval. cbn [fst snd]. rewrite swap_val by auto. f_equal. f_equal; lia.
Qed.
Lemma map_flat_map' {A B C} (g : B -> C) (f : A -> list B) l : map g (flat_map f l) = flat_map (fun a => map g (f a)) l.
Proof using. induction l as [|a l IH]; cbn [flat_map map]; auto. rewrite map_app, IH. auto. Qed.
Lemma flat_map_ext_in {A B} (f g : A -> list B) l : (forall a, In a l -> f a = g a) -> flat_map f l = flat_map g l.
Proof using. induction l as [|a l IH]; intros H; cbn [flat_map]; auto. rewrite (H a), IH; auto; [intros; apply H; right; auto|left; auto]. Qed.
Lemma arrays_entries (B : bsr T) : 0 < bsr_bnr B -> bsr_bnc B = bsr_bnr B -> map (swap_blocks (bsr_bnr B)) (bsr_entries B) = bsc_entries (arrays_bsc B).
Proof using.
  intros Hb Hq. unfold bsr_entries, bsc_entries. cbn [arrays_bsc bsc_n bsc_np bsc_bnr bsc_bnc bsc_nc bsc_bnnz bsc_bptr bsc_bindex bsc_value].
  rewrite map_flat_map'. apply flat_map_ext. intros bi. rewrite map_flat_map'. apply flat_map_ext. intros bj. rewrite map_flat_map'. apply flat_map_ext_in. intros j Hj. apply In_zrange in Hj.
  rewrite map_map. apply map_ext_in. intros i Hi. apply In_zrange in Hi. rewrite Hq in *. apply swap_val; auto.
Qed.
Lemma entries_arrays (A : bsc T) : 0 < bsc_bnr A -> bsc_bnc A = bsc_bnr A -> bsr_entries (bsc_arrays A) = map (swap_blocks (bsc_bnr A)) (bsc_entries A).
Proof using.
  intros Hb Hq. replace (bsc_entries A) with (bsc_entries (arrays_bsc (bsc_arrays A))) by (destruct A; reflexivity).
  rewrite <- (arrays_entries (bsc_arrays A)) by auto. rewrite map_map. change (bsr_bnr (bsc_arrays A)) with (bsc_bnr A). symmetry. transitivity (map (fun e => e) (bsr_entries (bsc_arrays A))); [|apply map_id]. apply map_ext. intros e. apply swap_invol. auto.
Qed.
Lemma NoDup_map_imp {A B C} (f : A -> B) (g : B -> C) l : NoDup (map (fun a => g (f a)) l) -> NoDup (map f l).
Proof using. rewrite <- map_map. apply NoDup_map_inv. Qed.
Lemma swap_no_dup b (E : list (entry T)) : 0 < b -> no_dup_pos E -> no_dup_pos (map (swap_blocks b) E).
Proof using.
  intros Hb H. unfold no_dup_pos in *. rewrite map_map. set (h := fun p : Z * Z => (snd p / b * b + fst p mod b, fst p / b * b + snd p mod b)).
  apply (NoDup_map_imp _ h). erewrite map_ext; [exact H|]. intros e. cbv beta. transitivity (fst (swap_blocks b (swap_blocks b e))); [reflexivity|]. rewrite swap_invol; auto.
Qed.
(** *** the order n only matters through the number of block rows *)
Definition renum (n np : Z) (P : bsplit T) : bsplit T :=
  mkBsplit n np (bs_b P) (bs_nr P) (mkBsr n np (bsr_bnr (bs_L P)) (bsr_bnc (bs_L P)) (bsr_nr (bs_L P)) (bsr_bnnz (bs_L P)) (bsr_bptr (bs_L P)) (bsr_bindex (bs_L P)) (bsr_value (bs_L P))) (bs_D P)
    (mkBsr n np (bsr_bnr (bs_U P)) (bsr_bnc (bs_U P)) (bsr_nr (bs_U P)) (bsr_bnnz (bs_U P)) (bsr_bptr (bs_U P)) (bsr_bindex (bs_U P)) (bsr_value (bs_U P))).
Definition reorder (n np : Z) (A : bsr T) : bsr T := mkBsr n np (bsr_bnr A) (bsr_bnc A) (bsr_nr A) (bsr_bnnz A) (bsr_bptr A) (bsr_bindex A) (bsr_value A).
Lemma split_renum jlp jli jlv jup jui juv jd (A : bsr T) n np P : Z.quot (n - 1) (bsr_bnr A) = Z.quot (bsr_n A - 1) (bsr_bnr A) ->
  split_bsr jlp jli jlv jup jui juv jd A = Ok P -> split_bsr jlp jli jlv jup jui juv jd (reorder n np A) = Ok (renum n np P).
Proof using.
  intros Hq. unfold split_bsr. cbv zeta. cbn [reorder bsr_n bsr_np bsr_bnr bsr_bnc bsr_nr bsr_bnnz bsr_bptr bsr_bindex bsr_value]. rewrite Hq.
  destruct (negb _); [discriminate|]. change (split_count_bsr (reorder n np A)) with (split_count_bsr A).
  destruct (split_count_bsr A) as [[nl nu]| |]; cbn [bind]; try discriminate. repeat (match goal with |- bind ?m _ = _ -> _ => destruct m as [?a| |]; cbn [bind]; try discriminate end).
  match goal with |- context [let '(_, _) := ?p in _] => destruct p as [[[[l u] d] lp] up] end. destruct l as [[li lv] nl']. destruct u as [[ui uv] nu']. intros H. injection H as <-. reflexivity.
Qed.
Lemma merge_renum jp ji jv (P : bsplit T) n np B : Z.quot (n - 1) (bs_b P) = Z.quot (bs_n P - 1) (bs_b P) ->
  merge_bsr jp ji jv P = Ok B -> merge_bsr jp ji jv (renum n np P) = Ok (reorder n np B).
Proof using.
  intros Hq. unfold merge_bsr. cbv zeta. cbn [renum bs_n bs_np bs_b bs_nr bs_L bs_D bs_U bsr_n bsr_np bsr_bnr bsr_bnc bsr_nr bsr_bnnz bsr_bptr bsr_bindex bsr_value]. rewrite Hq.
  repeat (match goal with |- bind ?m _ = _ -> _ => destruct m as [?a| |]; cbn [bind]; try discriminate end).
  match goal with |- context [let '(_, _) := ?p in _] => destruct p as [[[ix vl] k] pt] end. intros H. injection H as <-. reflexivity.
Qed.

Variable A : bsc T.
Hypothesis HB : bsc_ok A.
Hypothesis Hsq : bsc_bnc A = bsc_bnr A.
Hypothesis Hu : no_dup_pos (bsc_entries A).
Notation b := (bsc_bnr A). Notation nc := (bsc_nc A). Notation n := (bsc_n A).
Notation E := (bsc_entries A).
Variables (jlp jli : Z -> Z) (jlv : Z -> T) (jup jui : Z -> Z) (juv jd : Z -> T) (jp ji : Z -> Z) (jv : Z -> T).

Lemma arrays_ok m : m = n \/ m = nc * b -> in_shape m m (nz (map (swap_blocks b) E)) -> bsr_ok (reorder m m (bsc_arrays A)).
Proof using HB Hsq.
  intros Hm Hs. destruct HB as (H1 & H2 & H3 & H4 & H5 & H6 & H7 & H8 & H9 & H10 & _). rewrite Hsq in *.
  unfold bsr_ok. cbn [reorder bsc_arrays bsr_n bsr_np bsr_bnr bsr_bnc bsr_nr bsr_bnnz bsr_bptr bsr_bindex bsr_value]. rewrite Hsq.
  split; [nia|]. split; [auto|]. split; [auto|]. split; [auto|]. split; [destruct Hm; subst m; nia|]. split; auto. split; auto. split; auto. split; auto. split.
  - intros k Hk. specialize (H10 k Hk). destruct Hm; subst m; nia.
  - change (bsr_entries (reorder m m (bsc_arrays A))) with (bsr_entries (bsc_arrays A)). rewrite entries_arrays by auto. exact Hs.
Qed.
Lemma full_shape : in_shape (nc * b) (nc * b) (nz (map (swap_blocks b) E)).
Proof using HB Hsq.
  destruct HB as (H1 & H2 & H3 & H4 & H5 & H6 & H7 & H8 & H9 & H10 & _). rewrite Hsq in *. rewrite <- entries_arrays by auto.
  intros e He. apply filter_In in He. destruct He as [He _]. unfold bsr_entries in He. cbn [bsc_arrays bsr_n bsr_np bsr_bnr bsr_bnc bsr_nr bsr_bnnz bsr_bptr bsr_bindex bsr_value] in He.
  apply in_flat_map in He. destruct He as (bi & Hbi & He). apply In_zrange in Hbi. apply in_flat_map in He. destruct He as (bj & Hbj & He). apply In_zrange in Hbj.
  apply in_flat_map in He. destruct He as (j & Hj & He). apply In_zrange in Hj. apply in_map_iff in He. destruct He as (i & <- & Hi). apply In_zrange in Hi. rewrite Hsq in *.
  pose proof (ptr_ok_bounds _ _ bi bj H6 Hbi Hbj) as K. assert (Hk : 0 <= bj < bsc_bnnz A) by lia. specialize (H10 bj Hk). unfold erow, ecol. cbn [fst snd]. assert (znth 0 (bsc_bindex A) bj + 1 <= nc) by nia. nia.
Qed.
Lemma quot_pad : Z.quot (n - 1) b = Z.quot (nc * b - 1) b.
Proof using HB Hsq.
  destruct HB as (H1 & H2 & H3 & H4 & H5 & _). rewrite Hsq in *. assert (0 < nc) by nia. rewrite !Z.quot_div_nonneg by nia.
  transitivity (nc - 1); [symmetry; apply (Z.div_unique (n - 1) b (nc - 1) (n - 1 - b * (nc - 1))); [left; nia|ring]|].
  apply (Z.div_unique (nc * b - 1) b (nc - 1) (b - 1)); [left; lia|ring].
Qed.

Lemma bsc_merge_final : diagonal_blocks_stored b nc E ->
  exists P B, split_bsc jlp jli jlv jup jui juv jd A = Ok P /\
    Permutation (bsc_entries (bsc_L P)) (filter (fun e => erow e / b <? ecol e / b) E) /\ Permutation (bsc_entries (bsc_U P)) (filter (fun e => ecol e / b <? erow e / b) E) /\
    merge_bsc jp ji jv P = Ok B /\ bsc_n B = n /\ bsc_np B = bsc_np A /\ bsc_bnr B = b /\ bsc_bnc B = b /\ Permutation (bsc_entries B) E.
Proof using RT HB Hsq Hu.
  intros Hst. pose proof HB as (Hn & Hnp & Hb & _ & Hnc & _). rewrite Hsq in Hnc. set (m := nc * b). set (R := reorder m m (bsc_arrays A)).
  pose proof (arrays_ok m (or_intror eq_refl) full_shape) as HR. fold R in HR.
  assert (ER : bsr_entries R = map (swap_blocks b) E) by (exact (entries_arrays A Hb Hsq)).
  assert (HuR : no_dup_pos (bsr_entries R)) by (rewrite ER; apply swap_no_dup; auto).
  assert (HsR : diagonal_blocks_stored (bsr_bnr R) (bsr_nr R) (bsr_entries R)).
  { intros i Hi. destruct (Hst i Hi) as (e & He & E1 & E2). rewrite ER. exists (swap_blocks b e). split; [apply in_map; auto|].
    change (bsr_bnr R) with b. unfold swap_blocks, erow, ecol. cbn [fst snd]. unfold erow, ecol in E1, E2. split; [rewrite (proj1 (divmod_blk b _ _ Hb (Z.mod_pos_bound _ b Hb))); auto|rewrite (proj1 (divmod_blk b _ _ Hb (Z.mod_pos_bound _ b Hb))); auto]. }
  destruct (bsr_merge_final RT jlp jli jlv jup jui juv jd jp ji jv R HR Hsq HuR HsR) as (P & B & EP & EL & EU & EM & HBo & B1 & B2 & B3 & B4 & PB).
  assert (Hq : Z.quot (n - 1) b = Z.quot (m - 1) b) by apply quot_pad.
  assert (ES : split_bsc jlp jli jlv jup jui juv jd A = Ok (renum n (bsc_np A) P)).
  { unfold split_bsc. change (bsc_arrays A) with (reorder n (bsc_np A) R). apply split_renum; auto. }
  assert (F1 : bs_n P = m /\ bs_b P = b /\ bsr_bnr (bs_L P) = b /\ bsr_bnc (bs_L P) = b /\ bsr_bnr (bs_U P) = b /\ bsr_bnc (bs_U P) = b).
  { pose proof (split_bsr_wp jlp jli jlv jup jui juv jd R HR Hsq (HuF R HR Hsq HuR)) as W. apply wp_inv in W. destruct W as (P' & EP' & P1 & P2 & P3 & P4 & (_ & P5 & P5' & _) & (_ & P6 & P6' & _) & _). rewrite EP in EP'. injection EP' as <-. split; [exact P1|]. split; [exact P3|]. split; [exact P5|]. split; [exact P5'|]. split; [exact P6|exact P6']. }
  destruct F1 as (F1 & F2 & FL1 & FL2 & FU1 & FU2).
  assert (SW : forall (p q : entry T -> bool) X, bsr_bnr X = b -> bsr_bnc X = b -> (forall e, q (swap_blocks b e) = p e) -> bsr_entries X = filter q (bsr_entries R) -> bsc_entries (arrays_bsc X) = filter p E).
  { intros p q X X1 X2 Hpq EX. rewrite <- (arrays_entries X) by congruence. rewrite X1, EX, ER. clear - Hpq Hb. induction E as [|e l IH]; cbn [map filter]; auto. rewrite Hpq. destruct (p e); cbn [map]; rewrite IH; auto. rewrite swap_invol; auto. }
  assert (DV : forall e : entry T, erow (swap_blocks b e) / b = ecol e / b /\ ecol (swap_blocks b e) / b = erow e / b).
  { intros e. unfold swap_blocks. unfold erow at 1, ecol at 2. cbn [fst snd]. split; apply (proj1 (divmod_blk b _ _ Hb (Z.mod_pos_bound _ b Hb))). }
  exists (renum n (bsc_np A) P), (arrays_bsc (reorder n (bsc_np A) B)). split; [exact ES|]. split; [|split; [|split]].
  - change (bsc_entries (bsc_L (renum n (bsc_np A) P))) with (bsc_entries (arrays_bsc (bs_L P))). erewrite SW; [reflexivity|auto|auto| |exact EL]. intros e. cbv beta. change (bsr_bnr R) with b. destruct (DV e) as [-> ->]. auto.
  - change (bsc_entries (bsc_U (renum n (bsc_np A) P))) with (bsc_entries (arrays_bsc (bs_U P))). erewrite SW; [reflexivity|auto|auto| |exact EU]. intros e. cbv beta. change (bsr_bnr R) with b. destruct (DV e) as [-> ->]. auto.
  - unfold merge_bsc. rewrite (merge_renum jp ji jv P n (bsc_np A) B); [reflexivity|rewrite F1, F2; auto|exact EM].
  - split; [reflexivity|]. split; [reflexivity|]. split; [exact B3|]. split; [exact B4|].
    change (bsc_entries (arrays_bsc (reorder n (bsc_np A) B))) with (bsc_entries (arrays_bsc B)). change (bsr_bnr R) with b in *. rewrite <- (arrays_entries B) by congruence. rewrite B3, PB, ER, map_map.
    rewrite (map_ext _ (fun e => e)); [rewrite map_id; reflexivity|]. intros e. apply swap_invol; auto.
Qed.

(** *** the solves *)
Lemma bsc_solve_final : is_field S -> eqb_ok S -> in_shape n n (nz (map (swap_blocks b) E)) -> diagonal_blocks_lu n b nc (map (swap_blocks b) E) ->
  exists P wd, split_bsc jlp jli jlv jup jui juv jd A = Ok P /\ diag_inverse_blk n nc b (bs_D P) = Ok wd /\
    solves_block_lower n (nc * b) b (map (swap_blocks b) E) (solve_lower_bsc P wd) /\
    solves_block_upper n (nc * b) b (map (swap_blocks b) E) (solve_upper_bsc P wd) /\
    solves_block_ssor n (nc * b) b (map (swap_blocks b) E) (solve_ssor_bsc P wd).
Proof using RT HB Hsq Hu.
  intros FT HZ Hs HLU. pose proof HB as (Hn & Hnp & Hb & _). pose proof (arrays_ok n (or_introl eq_refl) Hs) as HR.
  assert (EA : bsc_arrays A = reorder n n (bsc_arrays A)) by (unfold bsc_arrays, reorder; cbn [bsr_n bsr_np bsr_bnr bsr_bnc bsr_nr bsr_bnnz bsr_bptr bsr_bindex bsr_value]; rewrite Hnp; auto).
  rewrite <- EA in HR. assert (ER : bsr_entries (bsc_arrays A) = map (swap_blocks b) E) by (exact (entries_arrays A Hb Hsq)).
  assert (HuR : no_dup_pos (bsr_entries (bsc_arrays A))) by (rewrite ER; apply swap_no_dup; auto).
  pose proof (bsr_solve_final RT jlp jli jlv jup jui juv jd (bsc_arrays A) HR Hsq HuR FT HZ) as W. rewrite ER in W. exact (W HLU).
Qed.
Lemma swap_coef : forall i j, coef (map (swap_blocks b) E) i j = coef E (j / b * b + i mod b) (i / b * b + j mod b).
Proof using HB.
  pose proof HB as (_ & _ & Hb & _). intros i j. unfold coef. f_equal. clear Hu. induction E as [|e l IH]; cbn [map filter]; auto.
  assert (Ea : at_ij i j (swap_blocks b e) = at_ij (j / b * b + i mod b) (i / b * b + j mod b) e).
  { apply eq_true_iff_eq. unfold at_ij. rewrite !andb_true_iff, !Z.eqb_eq. 
    assert (G : forall (x y : Z) (f : entry T), erow f = x -> ecol f = y -> erow (swap_blocks b f) = y / b * b + x mod b /\ ecol (swap_blocks b f) = x / b * b + y mod b) by (intros x y f <- <-; split; reflexivity).
    split; intros [H1 H2].
    - destruct (G i j (swap_blocks b e) H1 H2) as [G1 G2]. rewrite swap_invol in G1, G2 by auto. auto.
    - destruct (G _ _ e H1 H2) as [-> ->]. destruct (divmod_blk b (i / b) (j mod b) Hb (Z.mod_pos_bound _ b Hb)) as [-> ->]. destruct (divmod_blk b (j / b) (i mod b) Hb (Z.mod_pos_bound _ b Hb)) as [-> ->].
      pose proof (Z.div_mod i b ltac:(lia)). pose proof (Z.div_mod j b ltac:(lia)). lia. }
  rewrite Ea. destruct (at_ij _ _ e); cbn [map]; rewrite IH; auto.
Qed.
Lemma sym_coef : block_symmetric b E -> forall i j, coef (map (swap_blocks b) E) i j = coef E i j.
Proof using HB.
  intros Hs i j. pose proof HB as (_ & _ & Hb & _). rewrite swap_coef. rewrite Hs by (apply Z.mod_pos_bound; auto). f_equal.
  - pose proof (Z.div_mod i b ltac:(lia)). lia.
  - pose proof (Z.div_mod j b ltac:(lia)). lia.
Qed.
Lemma mv_same (p : entry T -> bool) (q : Z -> Z -> bool) F G x i : (forall e, p e = q (erow e) (ecol e)) -> (forall i j, coef F i j = coef G i j) -> mv_spec (filter p F) n x i = mv_spec (filter p G) n x i.
Proof using.
  intros Hp H. unfold mv_spec. apply ssum_map_ext. intros j _. rewrite !(coef_filter p _ i j (q i j)) by (intros e <- <-; apply Hp). rewrite H. auto.
Qed.
Lemma bsc_sym_final : is_field S -> eqb_ok S -> block_symmetric b E -> diagonal_blocks_lu n b nc E ->
  exists P wd, split_bsc jlp jli jlv jup jui juv jd A = Ok P /\ diag_inverse_blk n nc b (bs_D P) = Ok wd /\
    solves_block_lower n (nc * b) b E (solve_lower_bsc P wd) /\ solves_block_upper n (nc * b) b E (solve_upper_bsc P wd) /\ solves_block_ssor n (nc * b) b E (solve_ssor_bsc P wd).
Proof using RT HB Hsq Hu.
  intros FT HZ Hs HLU. pose proof HB as (Hn & Hnp & Hb & _ & _ & _ & _ & _ & _ & _ & Hsh). pose proof (sym_coef Hs) as HC. 
  assert (Sh : in_shape n n (nz (map (swap_blocks b) E))).
  { intros e He. apply filter_In in He. destruct He as [He Hz]. 
    assert (HuS : no_dup_pos (map (swap_blocks b) E)) by (apply swap_no_dup; auto).
    destruct e as [[i j] v]. pose proof (DiagProof2.coef_eq RT _ i j v HuS He) as Ce. rewrite HC in Ce.
    destruct (in_dec (fun p q : Z * Z => ltac:(decide equality; apply Z.eq_dec)) (i, j) (map fst E)) as [Hin|Hno].
    - apply in_map_iff in Hin. destruct Hin as ([[i' j'] v'] & Eq & Hin). cbn [fst] in Eq. injection Eq as -> ->. pose proof (DiagProof2.coef_eq RT E i j v' Hu Hin) as Ce'.
      rewrite Hnp in Hsh. apply Hsh. apply filter_In. split; [|exact Hz]. assert (v' = v) as H by congruence. rewrite <- H. exact Hin.
    - exfalso. rewrite coef_absent in Ce by auto. unfold eval in Hz. cbn [snd] in Hz. subst v. unfold nonzero in Hz. rewrite (proj2 (HZ s0 s0) eq_refl) in Hz. discriminate. }
  assert (HLU' : diagonal_blocks_lu n b nc (map (swap_blocks b) E)).
  { intros i Hi. destruct (HLU i Hi) as (L & U & HL). exists L, U. eapply lu_ext; [|exact HL]. intros ii jj Hii Hjj. unfold diagonal_block. rewrite HC. auto. }
  destruct (bsc_solve_final FT HZ Sh HLU') as (P & wd & EP & Ew & SL & SU & SS). exists P, wd. split; auto. split; auto.
  assert (QL : forall x i, mv_spec (filter (in_block_lower b) (map (swap_blocks b) E)) n x i = mv_spec (filter (in_block_lower b) E) n x i) by (intros; apply (mv_same _ (fun i j => j / b <=? i / b)); auto).
  assert (QU : forall x i, mv_spec (filter (in_block_upper b) (map (swap_blocks b) E)) n x i = mv_spec (filter (in_block_upper b) E) n x i) by (intros; apply (mv_same _ (fun i j => i / b <=? j / b)); auto).
  assert (QD : forall x i, mv_spec (filter (in_block_diag b) (map (swap_blocks b) E)) n x i = mv_spec (filter (in_block_diag b) E) n x i) by (intros; apply (mv_same _ (fun i j => i / b =? j / b)); auto).
  split; [|split].
  - intros bv x Hbv Hx. destruct (SL bv x Hbv Hx) as (x' & E1 & L1 & H1). exists x'. split; auto. split; auto. intros i Hi. rewrite <- QL. auto.
  - intros bv x Hbv Hx. destruct (SU bv x Hbv Hx) as (x' & E1 & L1 & H1). exists x'. split; auto. split; auto. intros i Hi. rewrite <- QU. auto.
  - intros bv x Hbv Hx. destruct (SS bv x Hbv Hx) as (x' & z & E1 & L1 & H1 & H2). exists x', z. split; auto. split; auto. split; intros i Hi; [rewrite <- QL|rewrite <- QU, <- QD]; auto.
Qed.
End P.
