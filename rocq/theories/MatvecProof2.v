(** lis_matvec / lis_matvech for JAD, BSR, BSC and VBR *)
Require Import ZArith List Bool Lia Permutation Ring.
From Verif Require Import Base Scalar Spec Items Csc CscProof Coo CooProof Fmt EllProof JadProof Matvec MatvecProof.
Import ListNotations.
Open Scope Z_scope.

Section MV2.
Context {T : Type} {S : Scalar T}.
Hypothesis RT : is_ring S.
Hypothesis HE0 : eqb_ok S.
Let RT' : @ring_theory T s0 s1 sadd smul ssub sopp (@eq T) := RT.
Add Ring scalar_ring_mv2 : RT'.

Lemma mv_done_nz E n np x L y : in_shape n np (nz E) -> acc_rep (znth s0 x) (fun r => r) 0 n L E y ->
  zlen y = L /\ forall i, 0 <= i < n -> znth s0 y i = mv_spec (nz E) np (znth s0 x) i.
Proof.
  intros Hs [HL H]. apply (mv_done RT _ _ _ _ L); auto. split; auto. intros r Hr. rewrite (mvE_nz RT HE0). auto.
Qed.

(** nz commutes with conjugate transposition *)
Lemma mvE_trc_nz E x i : conj_ok S -> mvE (map trc (nz E)) x i = mvE (map trc E) x i.
Proof.
  intros HC. destruct HC as (_ & _ & _ & HC0 & _). 
  assert (CO : forall e F, mvE (e :: F) x i = sadd (mvE [e] x i) (mvE F x i)) by (intros e F; apply (mvE_app RT [e] F)).
  induction E as [|e E IH]; [reflexivity|]. unfold nz in *. cbn [filter map].
  destruct (nonzero (eval e)) eqn:En; cbn [map].
  - rewrite CO, IH. symmetry. apply CO.
  - rewrite CO, IH, (mvE_one RT).
    apply negb_false_iff in En. apply HE0 in En. assert (E1 : eval (trc e) = s0) by (unfold trc, eval in *; cbn [snd]; rewrite En; exact HC0).
    rewrite E1. destruct (_ =? i); ring.
Qed.
Lemma mvh_done_nz (HC : conj_ok S) E n np x L y : in_shape n np (nz E) -> acc_rep (znth s0 x) (fun r => r) 0 np L (map trc E) y ->
  zlen y = L /\ forall j, 0 <= j < np -> znth s0 y j = mvh_spec (nz E) n (znth s0 x) j.
Proof.
  intros Hs [HL H]. apply (mvh_done RT HC _ _ _ _ L); auto. split; auto. intros r Hr. rewrite mvE_trc_nz by auto. auto.
Qed.

(** ** JAD *)
Lemma perm_inj_of n (f : Z -> Z) : Permutation (map f (zrange 0 n)) (zrange 0 n) ->
  (forall i, 0 <= i < n -> 0 <= f i < n) /\ (forall i j, 0 <= i < n -> 0 <= j < n -> f i = f j -> i = j) /\
  (forall r, 0 <= r < n -> exists i, 0 <= i < n /\ f i = r).
Proof.
  intros HP. split; [|split].
  - intros i Hi. apply In_zrange. eapply Permutation_in; [exact HP|]. apply in_map. apply In_zrange; auto.
  - assert (ND : NoDup (map f (zrange 0 n))). { eapply Permutation_NoDup; [symmetry; exact HP|]. apply NoDup_zrange. }
    intros i j Hi Hj Hf.
    destruct (Z.eq_dec i j) as [|Hne]; auto. exfalso.
    assert (G : forall l, In i l -> In j l -> NoDup (map f l) -> False).
    { induction l as [|a l IH]; simpl; [tauto|]. intros [A|A] [B|B] N; inversion N; subst; auto.
      - apply H1. rewrite Hf. apply in_map; auto.
      - apply H1. rewrite <- Hf. apply in_map; auto. }
    apply (G (zrange 0 n)); auto; apply In_zrange; auto.
  - intros r Hr. assert (Hin : In r (map f (zrange 0 n))). { eapply Permutation_in; [symmetry; exact HP|]. apply In_zrange; auto. }
    apply in_map_iff in Hin. destruct Hin as (i & Hi & Hin). apply In_zrange in Hin. eauto.
Qed.

Theorem matvec_jad_wp jw (A : jad T) x y : jad_ok A -> jad_np A <= zlen x -> jad_n A <= zlen y ->
  computes_mv (matvec_jad jw A x y) (jad_entries A) (jad_n A) (jad_np A) x y.
Proof.
  intros Hok Hx Hy. pose proof Hok as (Hn & Hp & Hnnz & Lp & HP & Li & Lv & Hix & Hw).
  pose proof (perm_inj_of _ _ HP) as (PB & PI & PS).
  unfold computes_mv, matvec_jad. cbv zeta.
  apply wp_bind, (zero_to_wp _ _ _ (znth s0 x) (znth 0 (jad_perm A))); [rewrite zlen_alloc; lia|]. rewrite zlen_alloc by lia. intros w0 H0.
  apply wp_bind.
  set (R := acc_rep (znth s0 x) (znth 0 (jad_perm A)) 0 (jad_n A) (jad_n A)).
  apply (for_seg_items R (jad_entries A)
    (fun j k => (znth 0 (jad_perm A) (k - znth 0 (jad_ptr A) j), znth 0 (jad_index A) k, znth s0 (jad_value A) k)) (jad_maxnzr A) (jad_ptr A)
    (fun lo j i w => v <- rd (jad_value A) i ;; c <- rd (jad_index A) i ;; xv <- rd x c ;; acc w (i - lo) (smul v xv)) []); auto.
  - apply prefix_refl.
  - intros j k s d Hj Hk Hk0 _ HR. specialize (Hw j Hj). rewrite Hnnz in Hk0. specialize (Hix k Hk0).
    wrd s0; [lia|]. wrd 0; [lia|]. wrd s0; [lia|].
    apply (acc_step RT (znth s0 x) (znth 0 (jad_perm A)) 0 (jad_n A) (jad_n A) d s (k - znth 0 (jad_ptr A) j)
      (znth 0 (jad_perm A) (k - znth 0 (jad_ptr A) j), znth 0 (jad_index A) k, znth s0 (jad_value A) k)); auto.
    + lia.
    + unfold erow; cbn [fst]. intros r Hr Hf. apply PI; auto. lia.
  - cbn [app]. intros w [HL HR].
    apply (for_wp' (fun i y' => zlen y' = zlen y /\ forall q, 0 <= q < i -> znth s0 y' (znth 0 (jad_perm A) q) = znth s0 w q)); [lia| | |].
    + split; auto. intros; lia.
    + intros i y' Hi [L H]. wrd 0; [lia|]. wrd s0; [lia|]. pose proof (PB i Hi). apply wp_wr; [lia|]. rewrite zlen_zupd. split; auto.
      intros q Hq. rewrite znth_zupd by lia. destruct (Z.eqb_spec (znth 0 (jad_perm A) q) (znth 0 (jad_perm A) i)) as [E|E].
      * apply PI in E; [subst; auto|lia|lia].
      * apply H. assert (q <> i) by congruence. lia.
    + intros y' [L H]. split; auto. intros r Hr. destruct (PS r Hr) as (q & Hq & <-). rewrite H by auto. rewrite HR by auto.
      symmetry. apply (mv_spec_mvE RT). intros e He _. apply (jad_in_shape A Hok); auto.
Qed.

Theorem matvech_jad_wp (HC : conj_ok S) (A : jad T) x y : jad_ok A -> jad_n A <= zlen x -> jad_np A <= zlen y ->
  computes_mvh (matvech_jad A x y) (jad_entries A) (jad_n A) (jad_np A) x y.
Proof.
  intros Hok Hx Hy. pose proof Hok as (Hn & Hp & Hnnz & Lp & HP & Li & Lv & Hix & Hw).
  pose proof (perm_inj_of _ _ HP) as (PB & PI & PS).
  unfold computes_mvh, matvech_jad. apply wp_bind, (zero_to_wp _ _ _ (znth s0 x) (fun r => r)); [lia|]. intros y0 H0.
  set (R := acc_rep (znth s0 x) (fun r => r) 0 (jad_np A) (zlen y)).
  set (f := fun j k => (znth 0 (jad_index A) k, znth 0 (jad_perm A) (k - znth 0 (jad_ptr A) j), sconj (znth s0 (jad_value A) k)) : entry T).
  assert (HE : map trc (jad_entries A) = ptr_items (jad_maxnzr A) (jad_ptr A) f).
  { unfold jad_entries, ptr_items. rewrite map_flat_map. apply flat_map_ext. intros. rewrite map_map. reflexivity. }
  apply (for_seg_items R (map trc (jad_entries A)) f (jad_maxnzr A) (jad_ptr A)
    (fun js i j y => jj <- rd (jad_index A) j ;; v <- rd (jad_value A) j ;;
      r <- rd (jad_perm A) (j - js) ;; xv <- rd x r ;; acc y jj (smul (sconj v) xv)) []); auto.
  - rewrite HE. apply prefix_refl.
  - intros j k s d Hj Hk Hk0 _ HR. specialize (Hw j Hj). rewrite Hnnz in Hk0. specialize (Hix k Hk0).
    specialize (PB (k - znth 0 (jad_ptr A) j) ltac:(lia)).
    wrd 0; [lia|]. wrd s0; [lia|]. wrd 0; [lia|]. wrd s0; [lia|].
    apply (acc_step_id RT (znth s0 x) 0 (jad_np A) (zlen y) d s (f j k) HR). unfold f, erow. cbn [fst]. lia.
  - cbn [app]. intros s HR. rewrite <- HE in HR. eapply (mvh_done RT HC); eauto. apply jad_in_shape; auto.
Qed.

(** ** BSR *)
Lemma bsr_blk (A : bsr T) bi bc i j : bsr_ok A -> 0 <= bi < bsr_nr A ->
  znth 0 (bsr_bptr A) bi <= bc < znth 0 (bsr_bptr A) (bi + 1) -> 0 <= j < bsr_bnc A -> 0 <= i < bsr_bnr A ->
  0 <= bc < bsr_bnnz A /\ 0 <= bc * (bsr_bnr A * bsr_bnc A) + j * bsr_bnr A + i < zlen (bsr_value A) /\
  0 <= znth 0 (bsr_bindex A) bc * bsr_bnc A + j /\ 0 <= bi * bsr_bnr A + i.
Proof.
  intros Hok Hbi Hbc Hj Hi. pose proof Hok as (Hn & Hsq & Hr & Hc & Hnr & Hp & Hbn & Li & Lv & Hix & Hsh).
  assert (Hb : 0 <= bc < bsr_bnnz A) by (rewrite <- Hbn; eapply ptr_ok_bounds; eauto). specialize (Hix bc Hb).
  split; auto. set (r := bsr_bnr A) in *. set (c := bsr_bnc A) in *.
  pose proof (mul_range r c j i Hi Hj). pose proof (mul_range (r * c) (bsr_bnnz A) bc (j * r + i) ltac:(nia) Hb).
  split; [lia|]. split; nia.
Qed.

(** the number of columns covered by the blocks *)
Definition cover (n b : Z) : Z := (n + b - 1) / b * b.
Lemma cover_ub n b k j : 0 < b -> 0 <= j < b -> k * b < n -> k * b + j < cover n b.
Proof.
  intros Hb Hj Hk. unfold cover. assert (k < (n + b - 1) / b); [|nia].
  enough (k + 1 <= (n + b - 1) / b) by lia. apply Z.div_le_lower_bound; nia.
Qed.

Definition bsr_items (A : bsr T) (f : Z -> Z -> Z -> Z -> entry T) : list (entry T) :=
  flat_map (fun bi => flat_map (fun bc => flat_map (fun j => flat_map (fun i => [f bi bc j i]) (zrange 0 (bsr_bnr A))) (zrange 0 (bsr_bnc A)))
     (zrange (znth 0 (bsr_bptr A) bi) (znth 0 (bsr_bptr A) (bi + 1)))) (zrange 0 (bsr_nr A)).
Lemma map_bsr_items A f (g : entry T -> entry T) : map g (bsr_items A f) = bsr_items A (fun bi bc j i => g (f bi bc j i)).
Proof.
  unfold bsr_items. rewrite map_flat_map. apply flat_map_ext. intros bi. rewrite map_flat_map. apply flat_map_ext. intros bc.
  rewrite map_flat_map. apply flat_map_ext. intros j. rewrite map_flat_map. apply flat_map_ext. reflexivity.
Qed.
Definition bsr_e (A : bsr T) bi bc j i : entry T :=
  (bi * bsr_bnr A + i, znth 0 (bsr_bindex A) bc * bsr_bnc A + j, znth s0 (bsr_value A) (bc * (bsr_bnr A * bsr_bnc A) + j * bsr_bnr A + i)).
Lemma bsr_entries_items A : bsr_entries A = bsr_items A (bsr_e A).
Proof.
  unfold bsr_entries, bsr_items. apply flat_map_ext. intros bi. apply flat_map_ext. intros bc. apply flat_map_ext. intros j.
  rewrite flat_map_single. reflexivity.
Qed.

Theorem matvec_bsr_gen_wp (A : bsr T) x y : bsr_ok A -> cover (bsr_np A) (bsr_bnc A) <= zlen x -> bsr_nr A * bsr_bnr A <= zlen y ->
  computes_mv (matvec_bsr_gen A x y) (nz (bsr_entries A)) (bsr_n A) (bsr_np A) x y.
Proof.
  intros Hok Hx Hy. pose proof Hok as (Hn & Hsq & Hr & Hc & Hnr & Hp & Hbn & Li & Lv & Hix & Hsh). pose proof Hp as (Hn0 & Hlp & Hp0 & Hpm).
  unfold computes_mv, matvec_bsr_gen. cbv zeta. apply wp_bind, (zero_to_wp _ _ _ (znth s0 x) (fun r => r)); [lia|]. intros y0 H0.
  set (R := acc_rep (znth s0 x) (fun r => r) 0 (bsr_n A) (zlen y)).
  eapply (for_app R); [exact H0| |].
  { intros bi s d Hbi HR. wrd 0; [lia|]. wrd 0; [lia|]. eapply (for_app R); [exact HR| |intros s1 Hs1; exact Hs1].
    intros bc s1 d1 Hbc HR1.
    pose proof (bsr_blk A bi bc 0 0 Hok Hbi Hbc ltac:(lia) ltac:(lia)) as (Hb & _). wrd 0; [lia|].
    eapply (for_app R); [exact HR1| |intros s2 Hs2; exact Hs2].
    intros j s2 d2 Hj HR2. eapply (for_app R); [exact HR2| |intros s3 Hs3; exact Hs3].
    intros i s3 d3 Hi HR3. pose proof (bsr_blk A bi bc i j Hok Hbi Hbc Hj Hi) as (_ & Hv & H1 & H2).
    wrd s0; [lia|].
    pose proof (cover_ub (bsr_np A) (bsr_bnc A) (znth 0 (bsr_bindex A) bc) j Hc Hj (proj2 (Hix bc Hb))).
    wrd s0; [lia|]. pose proof (mul_range (bsr_bnr A) (bsr_nr A) bi i Hi Hbi).
    apply (acc_step_id RT (znth s0 x) 0 (bsr_n A) (zlen y) d3 s3 (bsr_e A bi bc j i) HR3). unfold bsr_e, erow. cbn [fst]. lia. }
  cbn [app]. intros s HR. apply mv_done_nz; [auto|]. rewrite bsr_entries_items. exact HR.
Qed.

Theorem matvech_bsr_wp (HC : conj_ok S) (A : bsr T) x y : bsr_ok A -> bsr_nr A * bsr_bnr A <= zlen x -> cover (bsr_np A) (bsr_bnc A) <= zlen y -> bsr_n A <= zlen y ->
  computes_mvh (matvech_bsr A x y) (nz (bsr_entries A)) (bsr_n A) (bsr_np A) x y.
Proof.
  intros Hok Hx Hy Hy1. pose proof Hok as (Hn & Hsq & Hr & Hc & Hnr & Hp & Hbn & Li & Lv & Hix & Hsh). pose proof Hp as (Hn0 & Hlp & Hp0 & Hpm).
  unfold computes_mvh, matvech_bsr. cbv zeta. apply wp_bind, (zero_to_wp _ _ _ (znth s0 x) (fun r => r)); [lia|]. intros y0 H0.
  set (R := acc_rep (znth s0 x) (fun r => r) 0 (bsr_n A) (zlen y)).
  eapply (for_app R); [exact H0| |].
  { intros bi s d Hbi HR. wrd 0; [lia|]. wrd 0; [lia|]. eapply (for_app R); [exact HR| |intros s1 Hs1; exact Hs1].
    intros bc s1 d1 Hbc HR1.
    pose proof (bsr_blk A bi bc 0 0 Hok Hbi Hbc ltac:(lia) ltac:(lia)) as (Hb & _). wrd 0; [lia|].
    eapply (for_app R); [exact HR1| |intros s2 Hs2; exact Hs2].
    intros j s2 d2 Hj HR2. eapply (for_app R); [exact HR2| |intros s3 Hs3; exact Hs3].
    intros i s3 d3 Hi HR3. pose proof (bsr_blk A bi bc i j Hok Hbi Hbc Hj Hi) as (_ & Hv & H1 & H2).
    wrd s0; [lia|]. pose proof (mul_range (bsr_bnr A) (bsr_nr A) bi i Hi Hbi).
    pose proof (cover_ub (bsr_np A) (bsr_bnc A) (znth 0 (bsr_bindex A) bc) j Hc Hj (proj2 (Hix bc Hb))).
    wrd s0; [lia|]. 
    apply (acc_step_id RT (znth s0 x) 0 (bsr_n A) (zlen y) d3 s3 (trc (bsr_e A bi bc j i)) HR3). unfold bsr_e, trc, ecol, erow. cbn [fst snd]. lia. }
  cbn [app]. intros s HR. apply (mvh_done_nz HC); [auto|]. rewrite bsr_entries_items, map_bsr_items. rewrite Hsq. exact HR.
Qed.

(** the accumulators of one block row *)
Theorem matvec_bsr_unrolled_wp (A : bsr T) x y : bsr_ok A -> cover (bsr_np A) (bsr_bnc A) <= zlen x -> bsr_nr A * bsr_bnr A <= zlen y ->
  computes_mv (matvec_bsr_unrolled A x y) (nz (bsr_entries A)) (bsr_n A) (bsr_np A) x y.
Proof.
  intros Hok Hx Hy. pose proof Hok as (Hn & Hsq & Hr & Hc & Hnr & Hp & Hbn & Li & Lv & Hix & Hsh). pose proof Hp as (Hn0 & Hlp & Hp0 & Hpm).
  unfold computes_mv, matvec_bsr_unrolled. cbv zeta.
  set (g := fun bi => flat_map (fun bc => flat_map (fun j => flat_map (fun i => [bsr_e A bi bc j i]) (zrange 0 (bsr_bnr A))) (zrange 0 (bsr_bnc A)))
     (zrange (znth 0 (bsr_bptr A) bi) (znth 0 (bsr_bptr A) (bi + 1)))).
  assert (Hg : forall q e, In e (g q) -> q * bsr_bnr A <= erow e < (q + 1) * bsr_bnr A).
  { intros q e He. apply in_flat_map in He. destruct He as (bc & _ & He). apply in_flat_map in He. destruct He as (j & _ & He).
    apply in_flat_map in He. destruct He as (i & Hi & [<-|[]]). apply In_zrange in Hi. unfold bsr_e, erow. cbn [fst]. nia. }
  (* rows of the block rows done so far are final *)
  apply (for_wp' (fun bi y' => zlen y' = zlen y /\ forall r, 0 <= r < bi * bsr_bnr A -> znth s0 y' r = mvE (bsr_entries A) (znth s0 x) r)); [lia| | |].
  - split; auto. intros; lia.
  - intros bi y' Hbi [L H]. wrd 0; [lia|]. wrd 0; [lia|]. apply wp_bind.
    set (R := acc_rep (znth s0 x) (fun r => bi * bsr_bnr A + r) 0 (bsr_bnr A) (bsr_bnr A)).
    eapply (for_app R _ _ _ _ []).
    { split; [rewrite zlen_alloc; lia|]. intros r Hr0. rewrite znth_alloc by lia. reflexivity. }
    { intros bc s1 d1 Hbc HR1.
      pose proof (bsr_blk A bi bc 0 0 Hok Hbi Hbc ltac:(lia) ltac:(lia)) as (Hb & _). wrd 0; [lia|].
      eapply (for_app R); [exact HR1| |intros s2 Hs2; exact Hs2].
      intros j s2 d2 Hj HR2. eapply (for_app R); [exact HR2| |intros s3 Hs3; exact Hs3].
      intros i s3 d3 Hi HR3. pose proof (bsr_blk A bi bc i j Hok Hbi Hbc Hj Hi) as (_ & Hv & H1 & H2).
      wrd s0; [lia|].
      pose proof (cover_ub (bsr_np A) (bsr_bnc A) (znth 0 (bsr_bindex A) bc) j Hc Hj (proj2 (Hix bc Hb))).
      wrd s0; [lia|].
      apply (acc_step RT (znth s0 x) (fun r => bi * bsr_bnr A + r) 0 (bsr_bnr A) (bsr_bnr A) d3 s3 i (bsr_e A bi bc j i) HR3); auto.
      unfold bsr_e, erow. cbn [fst]. intros; lia. }
    cbn [app]. intros t [HL HR].
    apply (for_wp' (fun q z => zlen z = zlen y /\ forall r, 0 <= r < bi * bsr_bnr A + q -> znth s0 z r = mvE (bsr_entries A) (znth s0 x) r)); [lia| | |].
    + split; auto. intros r Hr0. apply H. lia.
    + intros q z Hq [Lz Hz]. wrd s0; [lia|]. pose proof (mul_range (bsr_bnr A) (bsr_nr A) bi q Hq Hbi).
      apply wp_wr; [lia|]. rewrite zlen_zupd. split; auto. intros r Hr0. rewrite znth_zupd by lia.
      destruct (Z.eqb_spec r (bsr_bnr A * bi + q)) as [->|E]; [|apply Hz; lia].
      rewrite HR by auto. rewrite bsr_entries_items. change (bsr_items A (bsr_e A)) with (flat_map g (zrange 0 (bsr_nr A))).
      rewrite (flat_map_split g 0 bi (bsr_nr A)) by lia. rewrite !(mvE_app RT).
      rewrite (mvE_disj (flat_map g (zrange 0 bi))), (mvE_disj (flat_map g (zrange (bi + 1) (bsr_nr A)))).
      * rewrite (Z.mul_comm (bsr_bnr A) bi). unfold g. ring.
      * intros e He. apply in_flat_map in He. destruct He as (q' & Hq' & He). apply In_zrange in Hq'. apply Hg in He. nia.
      * intros e He. apply in_flat_map in He. destruct He as (q' & Hq' & He). apply In_zrange in Hq'. apply Hg in He. nia.
    + intros z [Lz Hz]. split; auto. intros r Hr0. apply Hz. lia.
  - intros y' [L H]. apply mv_done_nz; auto. split; auto. intros r Hr0. apply H. lia.
Qed.

Theorem matvec_bsr_wp (A : bsr T) x y : bsr_ok A -> cover (bsr_np A) (bsr_bnc A) <= zlen x -> bsr_nr A * bsr_bnr A <= zlen y ->
  computes_mv (matvec_bsr A x y) (nz (bsr_entries A)) (bsr_n A) (bsr_np A) x y.
Proof.
  intros. unfold matvec_bsr. destruct (_ && _); [apply matvec_bsr_unrolled_wp|apply matvec_bsr_gen_wp]; auto.
Qed.

(** ** BSC *)
Lemma bsc_blk (A : bsc T) bi bc i j : bsc_ok A -> 0 <= bi < bsc_nc A ->
  znth 0 (bsc_bptr A) bi <= bc < znth 0 (bsc_bptr A) (bi + 1) -> 0 <= j < bsc_bnc A -> 0 <= i < bsc_bnr A ->
  0 <= bc < bsc_bnnz A /\ 0 <= bc * (bsc_bnr A * bsc_bnc A) + j * bsc_bnr A + i < zlen (bsc_value A) /\
  0 <= znth 0 (bsc_bindex A) bc * bsc_bnr A + i /\ 0 <= bi * bsc_bnc A + j.
Proof.
  intros Hok Hbi Hbc Hj Hi. pose proof Hok as (Hn & Hsq & Hr & Hc & Hnr & Hp & Hbn & Li & Lv & Hix & Hsh).
  assert (Hb : 0 <= bc < bsc_bnnz A) by (rewrite <- Hbn; eapply ptr_ok_bounds; eauto). specialize (Hix bc Hb).
  split; auto. set (r := bsc_bnr A) in *. set (c := bsc_bnc A) in *.
  pose proof (mul_range r c j i Hi Hj). pose proof (mul_range (r * c) (bsc_bnnz A) bc (j * r + i) ltac:(nia) Hb).
  split; [lia|]. split; nia.
Qed.
Definition bsc_items (A : bsc T) (f : Z -> Z -> Z -> Z -> entry T) : list (entry T) :=
  flat_map (fun bi => flat_map (fun bc => flat_map (fun j => flat_map (fun i => [f bi bc j i]) (zrange 0 (bsc_bnr A))) (zrange 0 (bsc_bnc A)))
     (zrange (znth 0 (bsc_bptr A) bi) (znth 0 (bsc_bptr A) (bi + 1)))) (zrange 0 (bsc_nc A)).
Lemma map_bsc_items A f (g : entry T -> entry T) : map g (bsc_items A f) = bsc_items A (fun bi bc j i => g (f bi bc j i)).
Proof.
  unfold bsc_items. rewrite map_flat_map. apply flat_map_ext. intros bi. rewrite map_flat_map. apply flat_map_ext. intros bc.
  rewrite map_flat_map. apply flat_map_ext. intros j. rewrite map_flat_map. apply flat_map_ext. reflexivity.
Qed.
Definition bsc_e (A : bsc T) bi bc j i : entry T :=
  (znth 0 (bsc_bindex A) bc * bsc_bnr A + i, bi * bsc_bnc A + j, znth s0 (bsc_value A) (bc * (bsc_bnr A * bsc_bnc A) + j * bsc_bnr A + i)).
Lemma bsc_entries_items A : bsc_entries A = bsc_items A (bsc_e A).
Proof.
  unfold bsc_entries, bsc_items. apply flat_map_ext. intros bi. apply flat_map_ext. intros bc. apply flat_map_ext. intros j.
  rewrite flat_map_single. reflexivity.
Qed.

Theorem matvec_bsc_wp (A : bsc T) x y : bsc_ok A -> bsc_nc A * bsc_bnc A <= zlen x -> cover (bsc_n A) (bsc_bnr A) <= zlen y -> bsc_n A <= zlen y ->
  computes_mv (matvec_bsc A x y) (nz (bsc_entries A)) (bsc_n A) (bsc_np A) x y.
Proof.
  intros Hok Hx Hy Hy1. pose proof Hok as (Hn & Hsq & Hr & Hc & Hnr & Hp & Hbn & Li & Lv & Hix & Hsh). pose proof Hp as (Hn0 & Hlp & Hp0 & Hpm).
  unfold computes_mv, matvec_bsc. cbv zeta. apply wp_bind, (zero_to_wp _ _ _ (znth s0 x) (fun r => r)); [lia|]. intros y0 H0.
  set (R := acc_rep (znth s0 x) (fun r => r) 0 (bsc_n A) (zlen y)).
  eapply (for_app R); [exact H0| |].
  { intros bi s d Hbi HR. wrd 0; [lia|]. wrd 0; [lia|]. eapply (for_app R); [exact HR| |intros s1 Hs1; exact Hs1].
    intros bc s1 d1 Hbc HR1.
    pose proof (bsc_blk A bi bc 0 0 Hok Hbi Hbc ltac:(lia) ltac:(lia)) as (Hb & _). wrd 0; [lia|].
    eapply (for_app R); [exact HR1| |intros s2 Hs2; exact Hs2].
    intros j s2 d2 Hj HR2. eapply (for_app R); [exact HR2| |intros s3 Hs3; exact Hs3].
    intros i s3 d3 Hi HR3. pose proof (bsc_blk A bi bc i j Hok Hbi Hbc Hj Hi) as (_ & Hv & H1 & H2).
    wrd s0; [lia|]. pose proof (mul_range (bsc_bnc A) (bsc_nc A) bi j Hj Hbi).
    pose proof (cover_ub (bsc_n A) (bsc_bnr A) (znth 0 (bsc_bindex A) bc) i Hr Hi (proj2 (Hix bc Hb))).
    wrd s0; [lia|].
    apply (acc_step_id RT (znth s0 x) 0 (bsc_n A) (zlen y) d3 s3 (bsc_e A bi bc j i) HR3). unfold bsc_e, erow. cbn [fst]. lia. }
  cbn [app]. intros s HR. apply mv_done_nz; [auto|]. rewrite bsc_entries_items. exact HR.
Qed.

Theorem matvech_bsc_wp (HC : conj_ok S) (A : bsc T) x y : bsc_ok A -> cover (bsc_n A) (bsc_bnr A) <= zlen x -> bsc_nc A * bsc_bnc A <= zlen y ->
  computes_mvh (matvech_bsc A x y) (nz (bsc_entries A)) (bsc_n A) (bsc_np A) x y.
Proof.
  intros Hok Hx Hy. pose proof Hok as (Hn & Hsq & Hr & Hc & Hnr & Hp & Hbn & Li & Lv & Hix & Hsh). pose proof Hp as (Hn0 & Hlp & Hp0 & Hpm).
  unfold computes_mvh, matvech_bsc. cbv zeta. apply wp_bind, (zero_to_wp _ _ _ (znth s0 x) (fun r => r)); [lia|]. intros y0 H0.
  set (R := acc_rep (znth s0 x) (fun r => r) 0 (bsc_n A) (zlen y)).
  eapply (for_app R); [exact H0| |].
  { intros bi s d Hbi HR. wrd 0; [lia|]. wrd 0; [lia|]. eapply (for_app R); [exact HR| |intros s1 Hs1; exact Hs1].
    intros bc s1 d1 Hbc HR1.
    pose proof (bsc_blk A bi bc 0 0 Hok Hbi Hbc ltac:(lia) ltac:(lia)) as (Hb & _). wrd 0; [lia|].
    eapply (for_app R); [exact HR1| |intros s2 Hs2; exact Hs2].
    intros j s2 d2 Hj HR2. eapply (for_app R); [exact HR2| |intros s3 Hs3; exact Hs3].
    intros i s3 d3 Hi HR3. pose proof (bsc_blk A bi bc i j Hok Hbi Hbc Hj Hi) as (_ & Hv & H1 & H2).
    wrd s0; [lia|]. pose proof (mul_range (bsc_bnc A) (bsc_nc A) bi j Hj Hbi).
    pose proof (cover_ub (bsc_n A) (bsc_bnr A) (znth 0 (bsc_bindex A) bc) i Hr Hi (proj2 (Hix bc Hb))).
    wrd s0; [lia|].
    apply (acc_step_id RT (znth s0 x) 0 (bsc_n A) (zlen y) d3 s3 (trc (bsc_e A bi bc j i)) HR3). unfold bsc_e, trc, ecol, erow. cbn [fst snd]. lia. }
  cbn [app]. intros s HR. apply (mvh_done_nz HC); [auto|]. rewrite bsc_entries_items, map_bsc_items. rewrite Hsq. exact HR.
Qed.

(** ** VBR *)
Definition vbr_items (A : vbr T) (f : Z -> Z -> Z -> Z -> entry T) : list (entry T) :=
  flat_map (fun bi => flat_map (fun bc => flat_map (fun j => flat_map (fun i => [f bi bc j i])
      (zrange (znth 0 (vbr_row A) bi) (znth 0 (vbr_row A) (bi + 1))))
      (zrange (znth 0 (vbr_col A) (znth 0 (vbr_bindex A) bc)) (znth 0 (vbr_col A) (znth 0 (vbr_bindex A) bc + 1))))
     (zrange (znth 0 (vbr_bptr A) bi) (znth 0 (vbr_bptr A) (bi + 1)))) (zrange 0 (vbr_nr A)).
Definition vbr_e (A : vbr T) bi bc j i : entry T :=
  (i, j, znth s0 (vbr_value A) (znth 0 (vbr_ptr A) bc + (j - znth 0 (vbr_col A) (znth 0 (vbr_bindex A) bc)) * (znth 0 (vbr_row A) (bi + 1) - znth 0 (vbr_row A) bi) + (i - znth 0 (vbr_row A) bi))).
Lemma zrange_from a b : zrange a b = map (fun t => a + t) (zrange 0 (b - a)).
Proof.
  replace a with (0 + a) at 1 by lia. replace b with ((b - a) + a) at 1 by lia. rewrite zrange_shift. apply map_ext. intros; lia.
Qed.
Lemma vbr_entries_items A : vbr_entries A = vbr_items A (vbr_e A).
Proof.
  unfold vbr_entries, vbr_items. apply flat_map_ext. intros bi. apply flat_map_ext. intros bc.
  rewrite (zrange_from (znth 0 (vbr_col A) _)). rewrite flat_map_map. apply flat_map_ext. intros j.
  rewrite (zrange_from (znth 0 (vbr_row A) bi)). rewrite flat_map_map, flat_map_single. apply map_ext. intros i.
  unfold vbr_e. f_equal. f_equal. ring.
Qed.
Lemma map_vbr_items A f (g : entry T -> entry T) : map g (vbr_items A f) = vbr_items A (fun bi bc j i => g (f bi bc j i)).
Proof.
  unfold vbr_items. rewrite map_flat_map. apply flat_map_ext. intros bi. rewrite map_flat_map. apply flat_map_ext. intros bc.
  rewrite map_flat_map. apply flat_map_ext. intros j. rewrite map_flat_map. apply flat_map_ext. reflexivity.
Qed.
Lemma vbr_blk (A : vbr T) bi bc : vbr_ok A -> 0 <= bi < vbr_nr A ->
  znth 0 (vbr_bptr A) bi <= bc < znth 0 (vbr_bptr A) (bi + 1) ->
  0 <= bc < vbr_bnnz A /\ 0 <= znth 0 (vbr_bindex A) bc < vbr_nc A /\
  (forall i, znth 0 (vbr_row A) bi <= i < znth 0 (vbr_row A) (bi + 1) -> 0 <= i < vbr_n A) /\
  (forall j, znth 0 (vbr_col A) (znth 0 (vbr_bindex A) bc) <= j < znth 0 (vbr_col A) (znth 0 (vbr_bindex A) bc + 1) -> 0 <= j < vbr_np A).
Proof.
  intros Hok Hbi Hbc. pose proof Hok as (Hn & Hr & Hrn & Hc & Hcn & Hp & Hbn & Li & Lp & Hix & Hv).
  assert (Hb : 0 <= bc < vbr_bnnz A) by (rewrite <- Hbn; eapply ptr_ok_bounds; eauto). specialize (Hix bc Hb).
  split; auto. split; auto. split; intros k Hk; [rewrite <- Hrn|rewrite <- Hcn]; eapply ptr_ok_bounds; eauto.
Qed.
Lemma vbr_in_shape (A : vbr T) : vbr_ok A -> in_shape (vbr_n A) (vbr_np A) (vbr_entries A).
Proof.
  intros Hok e He. rewrite vbr_entries_items in He. unfold vbr_items in He. apply in_flat_map in He. destruct He as (bi & Hbi & He).
  apply In_zrange in Hbi. apply in_flat_map in He. destruct He as (bc & Hbc & He). apply In_zrange in Hbc.
  pose proof (vbr_blk A bi bc Hok Hbi Hbc) as (_ & _ & HI & HJ).
  apply in_flat_map in He. destruct He as (j & Hj & He). apply In_zrange in Hj.
  apply in_flat_map in He. destruct He as (i & Hi & [<-|[]]). apply In_zrange in Hi. unfold vbr_e, erow, ecol. cbn [fst snd]. auto.
Qed.

Lemma zlen_flat_map_const {B} (g : Z -> list B) c lo hi : lo <= hi -> (forall i, zlen (g i) = c) -> zlen (flat_map g (zrange lo hi)) = (hi - lo) * c.
Proof.
  intros H Hg. assert (G : forall l, zlen (flat_map g l) = zlen l * c).
  { induction l; [reflexivity|]. cbn [flat_map]. rewrite zlen_app, zlen_cons, IHl, Hg. lia. }
  rewrite G, zlen_zrange. f_equal. lia.
Qed.

(** one block: a running index into value *)
Lemma vbr_block (val : list T) (L n : Z) x r0 r1 c0 c1 k0 (at_ : Z -> Z -> Z) (fe : Z -> Z -> T -> entry T)
    (body : Z -> Z -> Z * list T -> res (Z * list T)) d y :
  0 <= k0 -> r0 <= r1 -> c0 <= c1 -> k0 + (r1 - r0) * (c1 - c0) <= zlen val ->
  acc_rep x (fun r => r) 0 n L d y ->
  (forall j i k d y, c0 <= j < c1 -> r0 <= i < r1 -> 0 <= k < zlen val -> acc_rep x (fun r => r) 0 n L d y ->
     wp (body j i (k, y)) (fun s => fst s = k + 1 /\ acc_rep x (fun r => r) 0 n L (d ++ [fe j i (znth s0 val k)]) (snd s))) ->
  wp (for_ c0 c1 (fun j s => for_ r0 r1 (body j) s) (k0, y))
     (fun s => acc_rep x (fun r => r) 0 n L (d ++ flat_map (fun j => flat_map (fun i => [fe j i (znth s0 val (k0 + (j - c0) * (r1 - r0) + (i - r0)))]) (zrange r0 r1)) (zrange c0 c1)) (snd s)).
Proof.
  intros Hk Hr Hc Hlen H0 Hb.
  set (g := fun j => flat_map (fun i => [fe j i (znth s0 val (k0 + (j - c0) * (r1 - r0) + (i - r0)))]) (zrange r0 r1)).
  apply (for_wp' (fun j s => fst s = k0 + (j - c0) * (r1 - r0) /\ acc_rep x (fun r => r) 0 n L (d ++ flat_map g (zrange c0 j)) (snd s))); [lia| | |].
  - split; [cbn [fst]; lia|]. rewrite zrange_empty by lia. cbn. rewrite app_nil_r. auto.
  - intros j s Hj [Hs HR]. rewrite zrange_snoc, flat_map_app by lia. cbn [flat_map]. rewrite app_nil_r.
    apply (for_wp' (fun i s => fst s = k0 + (j - c0) * (r1 - r0) + (i - r0) /\ acc_rep x (fun r => r) 0 n L ((d ++ flat_map g (zrange c0 j)) ++ flat_map (fun i => [fe j i (znth s0 val (k0 + (j - c0) * (r1 - r0) + (i - r0)))]) (zrange r0 i)) (snd s))); [lia| | |].
    + split; [lia|]. rewrite (zrange_empty r0 r0) by lia. cbn [flat_map]. rewrite app_nil_r. auto.
    + intros i [k y'] Hi [Hs' HR']. cbn [fst snd] in Hs', HR'. rewrite Hs'. eapply wp_mono; [eapply (Hb j i _ _ y' Hj Hi); [|exact HR']|].
      * pose proof (mul_range (r1 - r0) (c1 - c0) (j - c0) (i - r0)). lia.
      * intros s' [E1 E2]. split; [lia|]. rewrite zrange_snoc, flat_map_app by lia. cbn [flat_map]. rewrite app_nil_r, app_assoc. exact E2.
    + intros s' [E1 E2]. split; [lia|]. rewrite app_assoc. exact E2.
  - intros s [_ HR]. exact HR.
Qed.

Theorem matvec_vbr_wp (A : vbr T) x y : vbr_ok A -> vbr_np A <= zlen x -> vbr_n A <= zlen y ->
  computes_mv (matvec_vbr A x y) (vbr_entries A) (vbr_n A) (vbr_np A) x y.
Proof.
  intros Hok Hx Hy. pose proof Hok as (Hn & Hr & Hrn & Hc & Hcn & Hp & Hbn & Li & Lp & Hix & Hv).
  pose proof Hp as (Hn0 & Hlp & Hp0 & Hpm). pose proof Hr as (_ & Hlr & _ & Hrm). pose proof Hc as (_ & Hlc & _ & Hcm).
  unfold computes_mv, matvec_vbr. apply wp_bind, (zero_to_wp _ _ _ (znth s0 x) (fun r => r)); [lia|]. intros y0 H0.
  set (R := acc_rep (znth s0 x) (fun r => r) 0 (vbr_n A) (zlen y)).
  eapply (for_app R); [exact H0| |].
  { intros bi s d Hbi HR. wrd 0; [lia|]. wrd 0; [lia|]. eapply (for_app R); [exact HR| |intros s1 Hs1; exact Hs1].
    intros bc s1 d1 Hbc HR1. pose proof (vbr_blk A bi bc Hok Hbi Hbc) as (Hb & Hbj & HI & HJ). specialize (Hv bi bc Hbi Hbc).
    wrd 0; [lia|]. wrd 0; [lia|]. wrd 0; [lia|]. wrd 0; [lia|]. wrd 0; [lia|]. wrd 0; [lia|].
    apply wp_bind. eapply wp_mono; [apply (vbr_block (vbr_value A) (zlen y) (vbr_n A) (znth s0 x) _ _ _ _ _ (fun _ i => i) (fun j i v => (i, j, v)) _ d1 s1)|].
    - lia.
    - apply Hrm; auto.
    - apply Hcm; auto.
    - lia.
    - exact HR1.
    - intros j i k d2 y2 Hj Hi Hk HR2. specialize (HI i Hi). specialize (HJ j Hj).
      wrd s0; [lia|]. wrd s0; [lia|]. apply wp_bind. eapply wp_mono.
      { apply (acc_step_id RT (znth s0 x) 0 (vbr_n A) (zlen y) d2 y2 (i, j, znth s0 (vbr_value A) k) HR2). unfold erow. cbn [fst]. lia. }
      intros y3 HR3. apply wp_ok. split; [reflexivity|]. exact HR3.
    - intros [k y2] HR2. apply wp_ok. exact HR2. }
  cbn [app]. intros s HR. apply (mv_done RT). { apply vbr_in_shape; auto. } rewrite vbr_entries_items. exact HR.
Qed.

Theorem matvech_vbr_wp (HC : conj_ok S) (A : vbr T) x y : vbr_ok A -> vbr_np A = vbr_n A -> vbr_n A <= zlen x -> vbr_np A <= zlen y ->
  computes_mvh (matvech_vbr A x y) (vbr_entries A) (vbr_n A) (vbr_np A) x y.
Proof.
  intros Hok Hsq Hx Hy. pose proof Hok as (Hn & Hr & Hrn & Hc & Hcn & Hp & Hbn & Li & Lp & Hix & Hv).
  pose proof Hp as (Hn0 & Hlp & Hp0 & Hpm). pose proof Hr as (_ & Hlr & _ & Hrm). pose proof Hc as (_ & Hlc & _ & Hcm).
  unfold computes_mvh, matvech_vbr. apply wp_bind, (zero_to_wp _ _ _ (znth s0 x) (fun r => r)); [lia|]. intros y0 H0.
  set (R := acc_rep (znth s0 x) (fun r => r) 0 (vbr_n A) (zlen y)).
  eapply (for_app R); [exact H0| |].
  { intros bi s d Hbi HR. wrd 0; [lia|]. wrd 0; [lia|]. eapply (for_app R); [exact HR| |intros s1 Hs1; exact Hs1].
    intros bc s1 d1 Hbc HR1. pose proof (vbr_blk A bi bc Hok Hbi Hbc) as (Hb & Hbj & HI & HJ). specialize (Hv bi bc Hbi Hbc).
    wrd 0; [lia|]. wrd 0; [lia|]. wrd 0; [lia|]. wrd 0; [lia|]. wrd 0; [lia|]. wrd 0; [lia|].
    apply wp_bind. eapply wp_mono; [apply (vbr_block (vbr_value A) (zlen y) (vbr_n A) (znth s0 x) _ _ _ _ _ (fun _ i => i) (fun j i v => (j, i, sconj v)) _ d1 s1)|].
    - lia.
    - apply Hrm; auto.
    - apply Hcm; auto.
    - lia.
    - exact HR1.
    - intros j i k d2 y2 Hj Hi Hk HR2. specialize (HI i Hi). specialize (HJ j Hj).
      wrd s0; [lia|]. wrd s0; [lia|]. apply wp_bind. eapply wp_mono.
      { apply (acc_step_id RT (znth s0 x) 0 (vbr_n A) (zlen y) d2 y2 (j, i, sconj (znth s0 (vbr_value A) k)) HR2). unfold erow. cbn [fst]. lia. }
      intros y3 HR3. apply wp_ok. split; [reflexivity|]. exact HR3.
    - intros [k y2] HR2. apply wp_ok. exact HR2. }
  cbn [app]. intros s HR. apply (mvh_done RT HC). { apply vbr_in_shape; auto. } rewrite vbr_entries_items, map_vbr_items, Hsq. exact HR.
Qed.

End MV2.
