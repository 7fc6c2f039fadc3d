(** lis_matrix_solve_jad and lis_matrix_solveh_jad read behind the array ptr; proofs about JadSolve.v *)
Require Import ZArith List Bool Lia.
From Verif Require Import Base Scalar Spec Items Fmt SplitFmt SpecSplit SplitProof2 SplitMsr SplitCsc JadSolve SpecJadSolve JadLay JadSplitP JadWalk.
Import ListNotations.
Open Scope Z_scope.

Section O.
Context {T : Type} {S : Scalar T}.
Variable A : jad T.
Hypothesis HA : jad_ok A.
Hypothesis Hsq : jad_np A = jad_n A.
Notation n := (jad_n A).
Notation E := (jad_entries A).

Lemma sub_out P B (g : T -> T) i x t : side_ok A P B -> 0 <= i < n -> n <= zlen x ->
  (zlen (jln P E i) = jad_maxnzr (jd_A B) -> jad_walk B i (item_sub g (jix B) (jvl B) x) t = UB) /\
  (jad_walk B i (item_sub g (jix B) (jvl B) x) t = UB \/ exists t', jad_walk B i (item_sub g (jix B) (jvl B) x) t = Ok t').
Proof using HA Hsq.
  intros HB Hi Hx. destruct (side_out A P B HB i (item_sub g (jix B) (jvl B) x) t (fun _ => True) Hi Logic.I) as [H1 H2].
  - intros q s Hq _. destruct (side_pok A HA Hsq P B HB i Hi q Hq) as (K1 & K2 & K3). unfold item_sub. rewrite (rd_ok s0) by auto || lia. cbn [bind]. rewrite (rd_ok 0) by lia. cbn [bind]. rewrite (rd_ok s0) by lia. cbn [bind]. eauto.
  - split; auto. destruct H2 as [H2|(s' & H2 & _)]; eauto.
Qed.
Lemma scat_ok (g : T -> T) ix (vl : list T) t k x : 0 <= k < zlen ix -> k < zlen vl -> 0 <= znth 0 ix k < zlen x -> exists x', item_scat g ix vl t k x = Ok x' /\ zlen x' = zlen x.
Proof using. intros K1 K2 K3. unfold item_scat. rewrite (rd_ok 0) by lia. cbn [bind]. rewrite (rd_ok s0) by lia. cbn [bind]. rewrite (rd_ok s0) by lia. cbn [bind]. rewrite wr_ok by lia. eexists. split; [reflexivity|]. apply zlen_zupd. Qed.
Lemma live_out P B (g : T -> T) i (x : list T) : side_ok A P B -> 0 <= i < n -> n <= zlen x ->
  (zlen (jln P E i) = jad_maxnzr (jd_A B) -> jad_walk B i (item_live g (jix B) (jvl B) i) x = UB) /\
  (jad_walk B i (item_live g (jix B) (jvl B) i) x = UB \/ exists x', jad_walk B i (item_live g (jix B) (jvl B) i) x = Ok x' /\ zlen x' = zlen x).
Proof using HA Hsq.
  intros HB Hi Hx. apply (side_out A P B HB i (item_live g (jix B) (jvl B) i) x (fun y => zlen y = zlen x) Hi eq_refl).
  intros q s Hq Hs. destruct (side_pok A HA Hsq P B HB i Hi q Hq) as (K1 & K2 & K3). unfold item_live. rewrite (rd_ok s0) by lia. cbn [bind]. rewrite <- Hs. apply scat_ok; lia.
Qed.
Lemma scat_out P B (g : T -> T) i t (x : list T) : side_ok A P B -> 0 <= i < n -> n <= zlen x ->
  (zlen (jln P E i) = jad_maxnzr (jd_A B) -> jad_walk B i (item_scat g (jix B) (jvl B) t) x = UB) /\
  (jad_walk B i (item_scat g (jix B) (jvl B) t) x = UB \/ exists x', jad_walk B i (item_scat g (jix B) (jvl B) t) x = Ok x' /\ zlen x' = zlen x).
Proof using HA Hsq.
  intros HB Hi Hx. apply (side_out A P B HB i (item_scat g (jix B) (jvl B) t) x (fun y => zlen y = zlen x) Hi eq_refl).
  intros q s Hq Hs. destruct (side_pok A HA Hsq P B HB i Hi q Hq) as (K1 & K2 & K3). rewrite <- Hs. apply scat_ok; lia.
Qed.
Lemma longest P B : side_ok A P B -> 0 < n -> exists r, 0 <= r < n /\ zlen (jln P E r) = jad_maxnzr (jd_A B).
Proof using. intros (_ & _ & _ & _ & _ & H & _) H0. auto. Qed.
Lemma copy_some (b x : list T) : n <= zlen b -> n <= zlen x -> exists y, copy_to n b x = Ok y /\ zlen y = zlen x.
Proof using HA S.
  intros Hb Hx. pose proof HA as (Hn & _). apply (wp_ex _ (fun y => zlen y = zlen x)). unfold copy_to. apply (for_wp' (fun _ y => zlen y = zlen x)); [lia|auto| |auto]. intros i y Hi Hy. wrd s0; [lia|]. apply wp_wr; [lia|]. len.
Qed.
Variable wd : list T.
Hypothesis Hw : n <= zlen wd.
Hypothesis Hn0 : 0 < n.

Lemma gather_out P B g : side_ok A P B ->
  out_of_bounds n (fun b x => fwd_gather n g (fun i x t => jad_walk B i (item_sub g (jix B) (jvl B) x) t) wd b x) /\
  out_of_bounds n (fun b x => bwd_gather n g (fun i x t => jad_walk B i (item_sub g (jix B) (jvl B) x) t) wd b x).
Proof using HA Hsq Hw Hn0.
  intros HB. destruct (longest P B HB Hn0) as (r & Hr & Em).
  assert (G : forall b x i, n <= zlen b -> n <= zlen x -> 0 <= i < n ->
     let m := (t <- rd b i ;; t <- jad_walk B i (item_sub g (jix B) (jvl B) x) t ;; w <- rd wd i ;; wr x i (smul t (g w))) in
     (i = r -> m = UB) /\ (m = UB \/ exists x', m = Ok x' /\ zlen x' = zlen x)).
  { intros b x i Hb Hx Hi. cbv zeta. rewrite (rd_ok s0) by lia. cbn [bind]. destruct (sub_out P B g i x (znth s0 b i) HB Hi Hx) as [H1 H2]. split.
    - intros ->. rewrite H1 by auto. reflexivity.
    - destruct H2 as [->|(t' & ->)]; [left; reflexivity|right]. cbn [bind]. rewrite (rd_ok s0) by lia. cbn [bind]. rewrite wr_ok by lia. eexists. split; [reflexivity|]. apply zlen_zupd. }
  split; intros b x Hb Hx.
  - unfold fwd_gather. apply (for_ub (fun y => zlen y = zlen x) 0 n r); auto.
    + intros i y Hy Hi. destruct (G b y i Hb ltac:(lia) Hi) as [_ [H|(x' & H & Hl)]]; [left; exact H|right]. exists x'. split; [exact H|lia].
    + intros y Hy. destruct (G b y r Hb ltac:(lia) Hr) as [H _]. apply H. reflexivity.
  - unfold bwd_gather. apply (ford_ub (fun y => zlen y = zlen x) 0 (n - 1) r); auto; [lia| |].
    + intros i y Hy Hi. destruct (G b y i Hb ltac:(lia) ltac:(lia)) as [_ [H|(x' & H & Hl)]]; [left; exact H|right]. exists x'. split; [exact H|lia].
    + intros y Hy. destruct (G b y r Hb ltac:(lia) Hr) as [H _]. apply H. reflexivity.
Qed.
Lemma scatter_out P B g : side_ok A P B -> forall x, n <= zlen x ->
  fwd_scatter n g (fun i x => jad_walk B i (item_live g (jix B) (jvl B) i) x) wd x = UB /\
  bwd_scatter n g (fun i x => jad_walk B i (item_live g (jix B) (jvl B) i) x) wd x = UB /\
  fwd_scatter_t n g (fun i t x => jad_walk B i (item_scat g (jix B) (jvl B) t) x) wd x = UB.
Proof using HA Hsq Hw Hn0.
  intros HB x Hx. destruct (longest P B HB Hn0) as (r & Hr & Em).
  assert (G : forall y i, zlen y = zlen x -> 0 <= i < n ->
     let m := (xi <- rd y i ;; w <- rd wd i ;; y <- wr y i (smul xi (g w)) ;; jad_walk B i (item_live g (jix B) (jvl B) i) y) in
     (i = r -> m = UB) /\ (m = UB \/ exists x', m = Ok x' /\ zlen x' = zlen x)).
  { intros y i Hy Hi. cbv zeta. rewrite (rd_ok s0) by lia. cbn [bind]. rewrite (rd_ok s0) by lia. cbn [bind]. rewrite wr_ok by lia. cbn [bind].
    destruct (live_out P B g i (zupd y i (smul (znth s0 y i) (g (znth s0 wd i)))) HB Hi ltac:(rewrite zlen_zupd; lia)) as [H1 H2]. rewrite zlen_zupd, Hy in H2. split; auto. intros ->. auto. }
  assert (G' : forall y i, zlen y = zlen x -> 0 <= i < n ->
     let m := (xi <- rd y i ;; w <- rd wd i ;; jad_walk B i (item_scat g (jix B) (jvl B) (smul xi (g w))) y) in
     (i = r -> m = UB) /\ (m = UB \/ exists x', m = Ok x' /\ zlen x' = zlen x)).
  { intros y i Hy Hi. cbv zeta. rewrite (rd_ok s0) by lia. cbn [bind]. rewrite (rd_ok s0) by lia. cbn [bind].
    destruct (scat_out P B g i (smul (znth s0 y i) (g (znth s0 wd i))) y HB Hi ltac:(lia)) as [H1 H2]. rewrite Hy in H2. split; auto. intros ->. auto. }
  split; [|split].
  - unfold fwd_scatter. apply (for_ub (fun y => zlen y = zlen x) 0 n r); auto.
    + intros i y Hy Hi. destruct (G y i Hy Hi) as [_ H]. exact H.
    + intros y Hy. destruct (G y r Hy Hr) as [H _]. apply H. reflexivity.
  - unfold bwd_scatter. apply (ford_ub (fun y => zlen y = zlen x) 0 (n - 1) r); auto; [lia| |].
    + intros i y Hy Hi. destruct (G y i Hy ltac:(lia)) as [_ H]. exact H.
    + intros y Hy. destruct (G y r Hy Hr) as [H _]. apply H. reflexivity.
  - unfold fwd_scatter_t. apply (for_ub (fun y => zlen y = zlen x) 0 n r); auto.
    + intros i y Hy Hi. destruct (G' y i Hy Hi) as [_ H]. exact H.
    + intros y Hy. destruct (G' y r Hy Hr) as [H _]. apply H. reflexivity.
Qed.
Lemma jad_out_final P : js_n P = n -> side_ok A lower (js_L P) -> side_ok A upper (js_U P) ->
  out_of_bounds n (solve_lower_jad P wd) /\ out_of_bounds n (solve_upper_jad P wd) /\ out_of_bounds n (solve_ssor_jad P wd) /\
  out_of_bounds n (solveh_lower_jad P wd) /\ out_of_bounds n (solveh_upper_jad P wd) /\ out_of_bounds n (solveh_ssor_jad P wd).
Proof using HA Hsq Hw Hn0.
  intros P1 HL HU. unfold solve_ssor_jad, solve_lower_jad, solve_upper_jad, solveh_lower_jad, solveh_upper_jad, solveh_ssor_jad. rewrite P1.
  destruct (gather_out lower (js_L P) ident HL) as [L1 _]. destruct (gather_out upper (js_U P) ident HU) as [_ U1].
  split; [exact L1|]. split; [exact U1|]. split. { intros b x Hb Hx. rewrite (L1 b x Hb Hx). reflexivity. }
  repeat split; intros b x Hb Hx; destruct (copy_some b x Hb Hx) as (y & -> & Hy); cbn [bind].
  - apply (scatter_out upper (js_U P) sconj HU); lia.
  - apply (scatter_out lower (js_L P) sconj HL); lia.
  - destruct (scatter_out upper (js_U P) sconj HU y ltac:(lia)) as (_ & _ & ->). reflexivity.
Qed.
End O.
