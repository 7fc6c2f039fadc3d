Require Import ZArith List Bool Lia Permutation.
From Verif Require Import Base Items Scalar Spec Split SpecSplit Copy SpecCopy CopyProof.
Import ListNotations.
Open Scope Z_scope.

Section P.
Context {T : Type} {S : Scalar T}.
Variable ji : Z -> Z.
Variable jv : Z -> T.

Lemma elements_copy_blk_wp nr bs bnnz ptr index (value : list T) (Q : list Z * list Z * list T -> Prop) : 0 <= bs -> ptr_ok nr ptr -> znth 0 ptr nr = bnnz -> bnnz <= zlen index -> bnnz * bs <= zlen value ->
  (forall p ix vl, zlen p = nr + 1 -> zlen ix = bnnz -> zlen vl = bnnz * bs -> agree 0 0 (nr + 1) ptr p -> agree 0 0 bnnz index ix -> agree s0 0 (bnnz * bs) value vl -> Q (p, ix, vl)) ->
  wp (elements_copy_blk ji jv nr bs bnnz ptr index value) Q.
Proof.
  intros Hbs Hp Hnnz Hi Hv H. pose proof Hp as (Hn & Hl & H0 & Hm). assert (Hz : 0 <= bnnz) by (rewrite <- Hnnz; apply (ptr_all nr); auto; lia).
  unfold elements_copy_blk. apply wp_bind. apply (cp_loop_wp 0 _ 0); [lia|lia|rewrite zlen_alloc; lia|intros k Hk; lia|]. intros p Lp Gp. rewrite zlen_alloc in Lp by lia.
  set (I := fun b (s : list Z * list T) => zlen (fst s) = bnnz /\ zlen (snd s) = bnnz * bs /\ agree 0 0 b index (fst s) /\ agree s0 0 (b * bs) value (snd s)).
  apply wp_bind. apply (for_wp' (fun i s => I (znth 0 ptr i) s)); [lia| | |].
  - rewrite H0. unfold I. cbn [fst snd]. rewrite !zlen_alloc by nia. do 2 (split; [lia|]). split; intros k Hk; lia.
  - intros i s Hi' HI. wrd 0; [lia|]. wrd 0; [lia|]. pose proof (ptr_all nr ptr i Hp ltac:(lia)). pose proof (ptr_all nr ptr (i + 1) Hp ltac:(lia)). pose proof (Hm i Hi').
    apply (for_wp' I); [lia|auto| |auto].
    intros j [ix vl] Hj (L1 & L2 & G1 & G2). cbn [fst snd] in *. apply wp_bind. assert (HJ : 0 <= j * bs /\ j * bs + bs <= bnnz * bs) by nia.
    apply (for_wp' (fun k v => zlen v = bnnz * bs /\ agree s0 0 (j * bs + k) value v)); [lia|rewrite Z.add_0_r; auto| |].
    + intros k v Hk (L & G). apply (cp_wp s0 _ _ _ 0); [lia|lia|auto|]. intros v' L' G'. replace (j * bs + (k + 1)) with (j * bs + k + 1) by lia. split; [lia|auto].
    + intros v (L & G). apply wp_bind. apply (cp_wp 0 _ _ _ 0); [lia|lia|auto|]. intros ix' L' G'. unfold I. cbn [fst snd wp]. split; [lia|]. split; [auto|]. split; [auto|]. replace ((j + 1) * bs) with (j * bs + bs) by lia. auto.
  - intros [ix vl] HI. unfold I in HI. rewrite Hnnz in HI. destruct HI as (L1 & L2 & G1 & G2). cbn [fst snd] in *. cbn. apply H; auto.
Qed.

Lemma quot_blocks n b r : 0 < n -> 0 < b -> (r - 1) * b < n <= r * b -> 1 + (n - 1) ÷ b = r.
Proof. intros Hn Hb Hr. rewrite Z.quot_div_nonneg by lia. assert ((n - 1) / b = r - 1); [|lia]. symmetry. apply (Z.div_unique _ _ _ (n - 1 - (r - 1) * b)); lia. Qed.

Lemma bsr_entries_ext (A : bsr T) p ix vl nr : ptr_ok (bsr_nr A) (bsr_bptr A) -> nr = bsr_nr A -> 0 < bsr_bnr A -> 0 < bsr_bnc A ->
  agree 0 0 (bsr_nr A + 1) (bsr_bptr A) p -> agree 0 0 (znth 0 (bsr_bptr A) (bsr_nr A)) (bsr_bindex A) ix -> agree s0 0 (znth 0 (bsr_bptr A) (bsr_nr A) * (bsr_bnr A * bsr_bnc A)) (bsr_value A) vl ->
  bsr_entries (mkBsr (bsr_n A) (bsr_np A) (bsr_bnr A) (bsr_bnc A) nr (bsr_bnnz A) p ix vl) = bsr_entries A.
Proof.
  intros Hp -> Hr Hc Gp Gi Gv. unfold bsr_entries. cbn [bsr_n bsr_np bsr_bnr bsr_bnc bsr_nr bsr_bnnz bsr_bptr bsr_bindex bsr_value].
  apply flat_map_ext_in. intros bi Hbi. apply In_zrange in Hbi. rewrite !Gp by lia. apply flat_map_ext_in. intros bj Hbj. apply In_zrange in Hbj.
  pose proof (ptr_all _ _ bi Hp ltac:(lia)). pose proof (ptr_all _ _ (bi + 1) Hp ltac:(lia)).
  apply flat_map_ext_in. intros j Hj. apply In_zrange in Hj. apply map_ext_in. intros i Hi. apply In_zrange in Hi. rewrite Gi by lia. rewrite Gv; [auto|].
  assert (0 <= j * bsr_bnr A + i < bsr_bnr A * bsr_bnc A) by nia. nia.
Qed.
Lemma bsc_entries_ext (A : bsc T) p ix vl nc : ptr_ok (bsc_nc A) (bsc_bptr A) -> nc = bsc_nc A -> 0 < bsc_bnr A -> 0 < bsc_bnc A ->
  agree 0 0 (bsc_nc A + 1) (bsc_bptr A) p -> agree 0 0 (znth 0 (bsc_bptr A) (bsc_nc A)) (bsc_bindex A) ix -> agree s0 0 (znth 0 (bsc_bptr A) (bsc_nc A) * (bsc_bnr A * bsc_bnc A)) (bsc_value A) vl ->
  bsc_entries (mkBsc (bsc_n A) (bsc_np A) (bsc_bnr A) (bsc_bnc A) nc (bsc_bnnz A) p ix vl) = bsc_entries A.
Proof.
  intros Hp -> Hr Hc Gp Gi Gv. unfold bsc_entries. cbn [bsc_n bsc_np bsc_bnr bsc_bnc bsc_nc bsc_bnnz bsc_bptr bsc_bindex bsc_value].
  apply flat_map_ext_in. intros bi Hbi. apply In_zrange in Hbi. rewrite !Gp by lia. apply flat_map_ext_in. intros bj Hbj. apply In_zrange in Hbj.
  pose proof (ptr_all _ _ bi Hp ltac:(lia)). pose proof (ptr_all _ _ (bi + 1) Hp ltac:(lia)).
  apply flat_map_ext_in. intros j Hj. apply In_zrange in Hj. apply map_ext_in. intros i Hi. apply In_zrange in Hi. rewrite Gi by lia. rewrite Gv; [auto|].
  assert (0 <= j * bsc_bnr A + i < bsc_bnr A * bsc_bnc A) by nia. nia.
Qed.

Lemma copy_bsr_wp (A : bsr T) : bsr_ok A -> wp (copy_elements_bsr ji jv A) (fun B => bsr_nr B = bsr_nr A /\ bsr_bnr B = bsr_bnr A /\ copied bsr_ok bsr_entries bsr_n bsr_np A B).
Proof.
  intros (Hn & Hnp & Hr & Hc & Hnr & Hp & Hz & Hi & Hv & Hx & Hs). unfold copy_elements_bsr. cbv zeta. pose proof (quot_blocks _ _ _ Hn Hr Hnr) as Eq. rewrite Eq.
  apply wp_bind. apply elements_copy_blk_wp; auto; [nia|]. intros p ix vl L1 L2 L3 G1 G2 G3. cbn [wp bsr_nr bsr_bnr]. split; [auto|]. split; [auto|].
  assert (EE : bsr_entries (mkBsr (bsr_n A) (bsr_np A) (bsr_bnr A) (bsr_bnc A) (bsr_nr A) (bsr_bnnz A) p ix vl) = bsr_entries A) by (apply bsr_entries_ext; auto; rewrite Hz; auto).
  split; [|split; [auto|auto]]. unfold bsr_ok. rewrite EE. cbn [bsr_n bsr_np bsr_bnr bsr_bnc bsr_nr bsr_bnnz bsr_bptr bsr_bindex bsr_value]. pose proof Hp as (Hn' & _).
  do 5 (split; [auto|]). split; [apply (ptr_ok_ext _ (bsr_bptr A)); auto|]. split; [rewrite G1 by lia; auto|]. split; [lia|]. split; [lia|]. split; [intros k Hk; rewrite G2 by lia; auto|auto].
Qed.
Lemma copy_bsc_wp (A : bsc T) : bsc_ok A -> wp (copy_elements_bsc ji jv A) (fun B => bsc_nc B = bsc_nc A /\ bsc_bnc B = bsc_bnc A /\ copied bsc_ok bsc_entries bsc_n bsc_np A B).
Proof.
  intros (Hn & Hnp & Hr & Hc & Hnr & Hp & Hz & Hi & Hv & Hx & Hs). unfold copy_elements_bsc. cbv zeta. assert (Eq : 1 + (bsc_np A - 1) ÷ bsc_bnc A = bsc_nc A) by (rewrite Hnp; apply quot_blocks; auto). rewrite Eq.
  apply wp_bind. apply elements_copy_blk_wp; auto; [nia|]. intros p ix vl L1 L2 L3 G1 G2 G3. cbn [wp bsc_nc bsc_bnc]. split; [auto|]. split; [auto|].
  assert (EE : bsc_entries (mkBsc (bsc_n A) (bsc_np A) (bsc_bnr A) (bsc_bnc A) (bsc_nc A) (bsc_bnnz A) p ix vl) = bsc_entries A) by (apply bsc_entries_ext; auto; rewrite Hz; auto).
  split; [|split; [auto|auto]]. unfold bsc_ok. rewrite EE. cbn [bsc_n bsc_np bsc_bnr bsc_bnc bsc_nc bsc_bnnz bsc_bptr bsc_bindex bsc_value]. pose proof Hp as (Hn' & _).
  do 5 (split; [auto|]). split; [apply (ptr_ok_ext _ (bsc_bptr A)); auto|]. split; [rewrite G1 by lia; auto|]. split; [lia|]. split; [lia|]. split; [intros k Hk; rewrite G2 by lia; auto|auto].
Qed.

(** VBR: the set of copied value positions *)
Definition vpos (A : vbr T) (b k : Z) : Prop := exists bi bj, 0 <= bi < vbr_nr A /\ znth 0 (vbr_bptr A) bi <= bj < znth 0 (vbr_bptr A) (bi + 1) /\ bj < b /\
  znth 0 (vbr_ptr A) bj <= k < znth 0 (vbr_ptr A) bj + (znth 0 (vbr_row A) (bi + 1) - znth 0 (vbr_row A) bi) * (znth 0 (vbr_col A) (znth 0 (vbr_bindex A) bj + 1) - znth 0 (vbr_col A) (znth 0 (vbr_bindex A) bj)).

Lemma copy_vbr_wp (A : vbr T) : vbr_full A -> wp (copy_elements_vbr ji jv A) (copied vbr_full vbr_entries vbr_n vbr_np A).
Proof.
  intros (Hok & Hb0 & Hpl & Hvl & Hin). pose proof Hok as (Hn & Hrow & Er & Hcol & Ec & Hbp & Eb & Hbx & Hptr & Hbc & Hblk).
  unfold copy_elements_vbr. cbv zeta. pose proof Hrow as (Hnr & Lrow & R0 & Rm). pose proof Hcol as (Hnc & Lcol & C0 & Cm). pose proof Hbp as (_ & Lbp & B0 & Bm).
  apply wp_bind. apply (for_wp' (fun i (s : list Z * list Z) => zlen (fst s) = vbr_nr A + 1 /\ zlen (snd s) = vbr_nr A + 1 /\ agree 0 0 i (vbr_row A) (fst s) /\ agree 0 0 i (vbr_bptr A) (snd s))); [lia| | |].
  { cbn [fst snd]. rewrite zlen_alloc by lia. do 2 (split; [lia|]). split; intros k Hk; lia. }
  { intros i [r b] Hi (L1 & L2 & G1 & G2). cbn [fst snd] in *. apply wp_bind. apply (cp_wp 0 _ _ _ 0); [lia|lia|auto|]. intros r' L1' G1'. apply wp_bind. apply (cp_wp 0 _ _ _ 0); [lia|lia|auto|]. intros b' L2' G2'. cbn. do 2 (split; [lia|]). auto. }
  intros [row bp] (Lr & Lb & Gr & Gb). cbn [fst snd] in *.
  apply wp_bind. apply (cp_loop_wp 0 _ 0); [lia|lia|rewrite zlen_alloc; lia|intros k Hk; lia|]. intros col Lc Gc. rewrite zlen_alloc in Lc by lia.
  set (I := fun b (s : list Z * list Z * list T) => let '(p, bx, vl) := s in zlen p = vbr_bnnz A + 1 /\ zlen bx = vbr_bnnz A /\ zlen vl = vbr_nnz A /\
    agree 0 1 (b + 1) (vbr_ptr A) p /\ agree 0 0 b (vbr_bindex A) bx /\ forall k, vpos A b k -> znth s0 vl k = znth s0 (vbr_value A) k).
  apply wp_bind. apply (for_wp' (fun bi s => I (znth 0 (vbr_bptr A) bi) s)); [lia| | |].
  - rewrite B0. unfold I. rewrite !zlen_alloc by lia. do 3 (split; [lia|]). split; [intros k Hk; lia|]. split; [intros k Hk; lia|]. intros k (bi & bj & H1 & H2 & H3 & _). pose proof (ptr_all _ _ bi Hbp ltac:(lia)). lia.
  - intros bi s Hbi HI. wrd 0; [lia|]. wrd 0; [lia|]. pose proof (ptr_all _ _ bi Hbp ltac:(lia)) as P1. pose proof (ptr_all _ _ (bi + 1) Hbp ltac:(lia)) as P2. pose proof (Bm bi Hbi) as P3.
    apply (for_wp' I); [lia|auto| |auto]. intros bj [[p bx] vl] Hbj (L1 & L2 & L3 & G1 & G2 & G3).
    pose proof (Hbc bj ltac:(lia)) as Hc. set (b := znth 0 (vbr_bindex A) bj) in *.
    wrd 0; [lia|]. wrd 0; [lia|]. wrd 0; [fold b; lia|]. wrd 0; [fold b; lia|]. wrd 0; [lia|]. wrd 0; [lia|]. fold b.
    set (c0 := znth 0 (vbr_col A) b). set (c1 := znth 0 (vbr_col A) (b + 1)). set (r0 := znth 0 (vbr_row A) bi). set (r1 := znth 0 (vbr_row A) (bi + 1)). set (k0 := znth 0 (vbr_ptr A) bj).
    pose proof (Rm bi Hbi) as Hr. fold r0 r1 in Hr. pose proof (Cm b ltac:(lia)) as Hcc. fold c0 c1 in Hcc.
    pose proof (Hin bi bj Hbi ltac:(lia)) as Hk. fold b c0 c1 r0 r1 k0 in Hk. destruct (Hblk bi bj Hbi ltac:(lia)) as [Hk0 _]. fold k0 in Hk0.
    apply wp_bind. apply (for_wp' (fun j (s : list T * Z) => zlen (fst s) = vbr_nnz A /\ snd s = k0 + (j - c0) * (r1 - r0) /\ forall k, vpos A bj k \/ k0 <= k < snd s -> znth s0 (fst s) k = znth s0 (vbr_value A) k)); [lia| | |].
    + cbn [fst snd]. split; [auto|]. split; [lia|]. intros k [H|H]; [auto|lia].
    + intros j [v k] Hj (Lv & Ek & Gv). cbn [fst snd] in *.
      apply (for_wp' (fun i (s : list T * Z) => zlen (fst s) = vbr_nnz A /\ snd s = k0 + (j - c0) * (r1 - r0) + (i - r0) /\ forall k, vpos A bj k \/ k0 <= k < snd s -> znth s0 (fst s) k = znth s0 (vbr_value A) k)); [lia| | |].
      * cbn [fst snd]. split; [auto|]. split; [lia|auto].
      * intros i [v' k'] Hi (Lv' & Ek' & Gv'). cbn [fst snd] in *. assert (Hb : 0 <= k' < vbr_nnz A) by nia.
        unfold cp. rewrite bind_assoc. wrd s0; [lia|]. apply wp_bind. apply wp_wr; [lia|]. cbn [wp fst snd]. split; [len|]. split; [lia|]. intros q Hq. rewrite znth_zupd by lia. destruct (Z.eqb_spec q k') as [->|]; [auto|]. apply Gv'. destruct Hq; [auto|right; lia].
      * intros [v' k'] (Lv' & Ek' & Gv'). cbn [fst snd] in *. split; [auto|]. split; [lia|auto].
    + intros [v k] (Lv & Ek & Gv). cbn [fst snd] in *. apply wp_bind. apply (cp_wp 0 _ _ _ 0); [lia|lia|auto|]. intros bx' L2' G2'.
      apply wp_bind. apply (cp_wp 0 _ _ _ 1); [lia|lia|auto|]. intros p' L1' G1'. cbn [wp]. unfold I. do 3 (split; [lia|]). split; [auto|]. split; [auto|].
      intros q (bi' & bj' & H1 & H2 & H3 & H4). destruct (Z.eq_dec bj' bj) as [->|].
      * assert (bi' = bi). { destruct (Z_lt_dec bi' bi) as [Hlt|]; [pose proof (ptr_ok_mono _ _ (bi' + 1) bi Hbp ltac:(lia) ltac:(lia)); lia|]. destruct (Z_lt_dec bi bi') as [Hlt|]; [pose proof (ptr_ok_mono _ _ (bi + 1) bi' Hbp ltac:(lia) ltac:(lia)); lia|]. lia. }
        subst bi'. apply Gv. right. fold b c0 c1 r0 r1 k0 in H4. nia.
      * apply Gv. left. exists bi', bj'. repeat split; try lia; auto.
  - intros [[p bx] vl] HI. unfold I in HI. rewrite Eb in HI. destruct HI as (L1 & L2 & L3 & G1 & G2 & G3).
    unfold cp. rewrite bind_assoc. wrd 0; [lia|]. apply wp_bind. apply wp_wr; [lia|]. cbn [wp]. set (p' := zupd p 0 (znth 0 (vbr_ptr A) 0)).
    assert (Gp : agree 0 0 (vbr_bnnz A + 1) (vbr_ptr A) p') by (intros k Hk; unfold p'; rewrite znth_zupd by lia; destruct (Z.eqb_spec k 0) as [->|]; [auto|apply G1; lia]).
    assert (Lp : zlen p' = vbr_bnnz A + 1) by (unfold p'; len).
    set (B := mkVbr (vbr_n A) (vbr_np A) (vbr_nr A) (vbr_nc A) (vbr_bnnz A) (vbr_nnz A) row col p' bp bx vl).
    assert (Q1 : forall bi, 0 <= bi < vbr_nr A + 1 -> znth 0 (vbr_row B) bi = znth 0 (vbr_row A) bi) by (intros; apply Gr; lia).
    assert (Q2 : forall bi, 0 <= bi < vbr_nr A + 1 -> znth 0 (vbr_bptr B) bi = znth 0 (vbr_bptr A) bi) by (intros; apply Gb; lia).
    assert (Q3 : forall b, 0 <= b < vbr_nc A + 1 -> znth 0 (vbr_col B) b = znth 0 (vbr_col A) b) by (intros; apply Gc; lia).
    assert (Q4 : forall b, 0 <= b < vbr_bnnz A -> znth 0 (vbr_bindex B) b = znth 0 (vbr_bindex A) b) by (intros; apply G2; lia).
    assert (Q5 : forall b, 0 <= b < vbr_bnnz A -> znth 0 (vbr_ptr B) b = znth 0 (vbr_ptr A) b) by (intros; apply Gp; lia).
    assert (Qr : forall bi bj, 0 <= bi < vbr_nr A -> znth 0 (vbr_bptr A) bi <= bj < znth 0 (vbr_bptr A) (bi + 1) -> 0 <= bj < vbr_bnnz A).
    { intros bi bj H1 H2. pose proof (ptr_all _ _ bi Hbp ltac:(lia)). pose proof (ptr_all _ _ (bi + 1) Hbp ltac:(lia)). lia. }
    split; [|split; [|auto]].
    + assert (HokB : forall bi bj, 0 <= bi < vbr_nr B -> znth 0 (vbr_bptr B) bi <= bj < znth 0 (vbr_bptr B) (bi + 1) -> 0 <= znth 0 (vbr_ptr B) bj /\
         znth 0 (vbr_ptr B) bj + (znth 0 (vbr_row B) (bi + 1) - znth 0 (vbr_row B) bi) * (znth 0 (vbr_col B) (znth 0 (vbr_bindex B) bj + 1) - znth 0 (vbr_col B) (znth 0 (vbr_bindex B) bj)) <= vbr_nnz A).
      { intros bi bj H1 H2. change (vbr_nr B) with (vbr_nr A) in H1. rewrite !Q2 in H2 by lia. pose proof (Qr bi bj H1 H2). pose proof (Hbc bj ltac:(lia)). rewrite Q5, Q4 by lia. rewrite !Q1, !Q3 by lia. split; [apply (Hblk bi bj); auto|apply (Hin bi bj); auto]. }
      unfold vbr_full. split; [|split; [auto|split; [change (vbr_ptr B) with p'; change (vbr_bnnz B) with (vbr_bnnz A); lia|split; [change (vbr_nnz B) with (vbr_nnz A); change (vbr_value B) with vl; lia|]]]].
      * unfold vbr_ok. change (vbr_n B) with (vbr_n A). change (vbr_np B) with (vbr_np A). change (vbr_bnnz B) with (vbr_bnnz A). split; [auto|].
        split; [apply (ptr_ok_ext _ (vbr_row A)); auto|]. split; [change (vbr_nr B) with (vbr_nr A); rewrite Q1 by lia; auto|].
        split; [apply (ptr_ok_ext _ (vbr_col A)); auto|]. split; [change (vbr_nc B) with (vbr_nc A); rewrite Q3 by lia; auto|].
        split; [apply (ptr_ok_ext _ (vbr_bptr A)); auto|]. split; [change (vbr_nr B) with (vbr_nr A); rewrite Q2 by lia; auto|].
        split; [change (vbr_bindex B) with bx; lia|]. split; [change (vbr_ptr B) with p'; lia|]. split; [intros bj Hbj; rewrite Q4 by lia; apply Hbc; lia|].
        intros bi bj H1 H2. destruct (HokB bi bj H1 H2). split; [auto|]. change (vbr_value B) with vl. lia.
      * intros bi bj H1 H2. apply (HokB bi bj); auto.
    + unfold vbr_entries. change (vbr_nr B) with (vbr_nr A). apply flat_map_ext_in. intros bi Hbi. apply In_zrange in Hbi. rewrite !Q2, !Q1 by lia. apply flat_map_ext_in. intros bj Hbj. apply In_zrange in Hbj.
      pose proof (Qr bi bj Hbi Hbj). pose proof (Hbc bj ltac:(lia)). rewrite Q4, Q5 by lia. rewrite !Q3 by lia. apply flat_map_ext_in. intros j Hj. apply In_zrange in Hj. apply map_ext_in. intros i Hi. apply In_zrange in Hi.
      f_equal. change (vbr_value B) with vl. apply G3. exists bi, bj. do 3 (split; [auto; lia|]). pose proof (Rm bi Hbi). pose proof (Cm (znth 0 (vbr_bindex A) bj) ltac:(lia)). nia.
Qed.

Ltac cpt L := intros H; cbn [copy_elements amat_ok] in *; apply wp_bind; eapply wp_mono; [apply L; auto|];
  let B := fresh "B" in let HB := fresh "HB" in intros B HB; cbn [wp]; cbn [amat_ok amat_entries amat_n amat_np amat_type with_size].
Lemma copy_elements_wp (m : amat T) : amat_ok m -> wp (copy_elements ji jv m)
  (fun m' => amat_ok m' /\ amat_entries m' = amat_entries m /\ amat_type m' = amat_type m /\ amat_n m' = amat_n m /\ amat_np m' = amat_np m /\ with_size (amat_n m) (amat_np m) m' = m').
Proof.
  destruct m as [A|A|A|A|A|A|A|A|A|A|A].
  - cpt (copy_csr_wp ji jv A). destruct HB as (_ & H1 & H2 & H3 & H4). rewrite <- H3, <- H4. destruct B; auto 10.
  - cpt (copy_csc_wp ji jv A). destruct HB as (H1 & H2 & H3 & H4). rewrite <- H3, <- H4. destruct B; auto 10.
  - cpt (copy_msr_wp ji jv A). destruct HB as (H1 & H2 & H3 & H4). rewrite <- H3, <- H4. destruct B; auto 10.
  - intros [H H']; cbn [copy_elements]. apply wp_bind; eapply wp_mono; [apply (copy_dia_wp ji jv A); auto|]. intros B HB; cbn [wp]; cbn [amat_ok amat_entries amat_n amat_np amat_type with_size].
    destruct HB as (H1 & H2 & H3 & H4). rewrite <- H3, <- H4. split; [split; [auto|lia]|]. destruct B; auto 10.
  - cpt (copy_ell_wp ji jv A). destruct HB as (H1 & H2 & H3 & H4). rewrite <- H3, <- H4. destruct B; auto 10.
  - cpt (copy_jad_wp ji jv A). destruct HB as (H1 & H2 & H3 & H4). rewrite <- H3, <- H4. destruct B; auto 10.
  - cpt (copy_bsr_wp A). destruct HB as (_ & _ & H1 & H2 & H3 & H4). rewrite <- H3, <- H4. pose proof H1 as (Hn & Hnp & Hr & Hc & Hnr & _).
    rewrite (quot_blocks _ _ _ Hn Hr Hnr). destruct B; auto 10.
  - cpt (copy_bsc_wp A). destruct HB as (_ & _ & H1 & H2 & H3 & H4). rewrite <- H3, <- H4. pose proof H1 as (Hn & Hnp & Hr & Hc & Hnr & _).
    rewrite (quot_blocks _ _ _ Hn Hc Hnr). destruct B; auto 10.
  - cpt (copy_vbr_wp A). destruct HB as (H1 & H2 & H3 & H4). rewrite <- H3, <- H4. destruct B; auto 10.
  - cpt (copy_coo_wp ji jv A). destruct HB as (H1 & H2 & H3 & H4). rewrite <- H3, <- H4. destruct B; auto 10.
  - cpt (copy_dns_wp jv A). destruct HB as (H1 & H2 & H3 & H4). rewrite <- H3, <- H4. destruct B; auto 10.
Qed.

Lemma type_pos (m : amat T) : 0 < amat_type m <= 11.
Proof. destruct m; cbn; lia. Qed.

Theorem copy_final (Ain Aout : mobj T) (m : amat T) : holds Ain m -> amat_ok m -> 0 < amat_n m ->
  ob_status Aout = MNULL -> ob_split Aout = None -> ob_n Aout = ob_n Ain -> ob_np Aout = ob_np Ain ->
  exists Aout' m', copy ji jv Ain Aout = Ok (LIS_SUCCESS, Aout') /\ holds Aout' m' /\ amat_ok m' /\ amat_type m' = amat_type m /\
    amat_n m' = amat_n m /\ amat_np m' = amat_np m /\ amat_entries m' = amat_entries m.
Proof.
  intros (Hm & Hsp & Ht & Hst & Hn & Hnp) Hok Hpos Hs Hos Hon Honp.
  destruct (wp_inv _ _ (copy_elements_wp m Hok)) as (m' & E & Hok' & He & Hty & Hn' & Hnp' & Hw). exists (mkObj (amat_type m) (amat_type m) (ob_n Aout) (ob_np Aout) (Some m') None), m'.
  assert (Hc : copy ji jv Ain Aout = Ok (LIS_SUCCESS, mkObj (amat_type m) (amat_type m) (ob_n Aout) (ob_np Aout) (Some m') None)).
  { pose proof (type_pos m) as Hp. unfold copy. rewrite Hst, Hsp, Hm. replace (amat_type m <=? 0) with false by (symmetry; apply Z.leb_gt; lia). cbn [andb].
    assert (Hf : finish (set_mat m' Aout) = mkObj (amat_type m) (amat_type m) (ob_n Aout) (ob_np Aout) (Some m') None).
    { unfold set_mat. rewrite Hs, Z.eqb_refl, Hon, Honp, Hn, Hnp, Hw, Hos. unfold finish, assemble. cbn [ob_status ob_n ob_type ob_np ob_mat ob_split]. rewrite Hty.
      replace (- amat_type m =? DECIDING_SIZE) with false by (symmetry; apply Z.eqb_neq; unfold DECIDING_SIZE; lia). replace (- amat_type m =? MNULL) with false by (symmetry; apply Z.eqb_neq; unfold MNULL; lia). cbn [andb].
      replace (- amat_type m <? 0) with true by (symmetry; apply Z.ltb_lt; lia). replace (0 <? amat_n m) with true by (symmetry; apply Z.ltb_lt; lia). cbn [andb]. replace (LIS_SUCCESS =? LIS_SUCCESS) with true by reflexivity. rewrite Z.opp_involutive. reflexivity. }
    destruct m; try (rewrite E; cbn [bind]; rewrite Hf; reflexivity).
    rewrite E. cbn [bind]. f_equal. f_equal. rewrite <- Hf. f_equal. destruct m' as [| | | | | | | | | |]; cbn in Hty; try discriminate. unfold set_mat. rewrite Hs, Z.eqb_refl. reflexivity. }
  split; [exact Hc|]. split; [unfold holds; cbn; rewrite Hty, Hon, Honp, Hn, Hnp, Hn', Hnp'; auto 10|]. auto 10.
Qed.

Theorem copy_split_final (Ain Aout : mobj T) (P : split T) : holds_split Ain P -> split_ok P -> 0 < sp_n P ->
  ob_status Aout = MNULL -> ob_n Aout = ob_n Ain -> ob_np Aout = ob_np Ain ->
  exists Aout' P', copy ji jv Ain Aout = Ok (LIS_SUCCESS, Aout') /\ holds_split Aout' P' /\ split_ok P' /\ sp_n P' = sp_n P /\ sp_np P' = sp_np P /\
    csr_entries (sp_L P') = csr_entries (sp_L P) /\ csr_entries (sp_U P') = csr_entries (sp_U P) /\ (forall i, 0 <= i < sp_n P -> znth s0 (sp_D P') i = znth s0 (sp_D P) i) /\
    split_entries P' = split_entries P.
Proof.
  intros (Hsp & Ht & Hst & Hn & Hnp) (HL & HLn & HLp & HLl & HU & HUn & HUp & HUu & HD) Hpos Hs Hon Honp.
  unfold copy. rewrite Hst, Hsp. cbn [Z.leb Z.compare andb]. 
  assert (W : wp (copy_split ji jv P) (fun P' => sp_n P' = sp_n P /\ sp_np P' = sp_np P /\ copied csr_ok csr_entries csr_n csr_np (sp_L P) (sp_L P') /\ copied csr_ok csr_entries csr_n csr_np (sp_U P) (sp_U P') /\
     zlen (sp_D P') = sp_n P /\ forall i, 0 <= i < sp_n P -> znth s0 (sp_D P') i = znth s0 (sp_D P) i)).
  { unfold copy_split. apply wp_bind. apply (cp_loop_wp s0 _ 0); [lia|lia|rewrite zlen_alloc; lia|intros k Hk; lia|]. intros d Ld Gd. rewrite zlen_alloc in Ld by lia.
    apply wp_bind. eapply wp_mono; [apply (copy_csr_wp ji jv); auto|]. intros L [_ HL']. apply wp_bind. eapply wp_mono; [apply (copy_csr_wp ji jv); auto|]. intros U [_ HU']. cbn. do 5 (split; [auto|]). apply Gd. }
  destruct (wp_inv _ _ W) as (P' & E & Hn1 & Hnp1 & (L1 & L2 & L3 & L4) & (U1 & U2 & U3 & U4) & Ld & Gd). rewrite E. cbn [bind].
  exists (mkObj 1 1 (ob_n Aout) (ob_np Aout) (ob_mat Aout) (Some P')), P'.
  split.
  { f_equal. f_equal. unfold set_dlu. rewrite Hs, Z.eqb_refl. unfold finish, assemble. cbn [ob_status ob_n ob_type ob_np ob_mat ob_split].
    replace (0 <? ob_n Aout) with true by (symmetry; apply Z.ltb_lt; lia). change (-1 =? DECIDING_SIZE) with false. change (-1 =? MNULL) with false. cbn [andb]. change (-1 <? 0) with true. cbn [andb]. change (LIS_SUCCESS =? LIS_SUCCESS) with true. cbn [Z.opp].
    f_equal. f_equal. rewrite Hon, Honp, Hn, Hnp. destruct P' as [n' np' L' D' U'], L', U'. cbn in *. subst. f_equal; f_equal; congruence. }
  split; [unfold holds_split; cbn; rewrite Hn1, Hnp1; repeat split; auto; congruence|].
  split; [unfold split_ok; rewrite L2, U2; repeat (split; [auto; congruence|]); lia|]. do 4 (split; [auto|]). split; [auto|].
  unfold split_entries. rewrite L2, U2, Hn1. f_equal. f_equal. unfold diag_entries. apply map_ext_in. intros i Hi. apply In_zrange in Hi. rewrite Gd by lia. auto.
Qed.
End P.
