(** Proof library for the blocked formats (BSR, BSC, VBR) *)
Require Import ZArith List Bool Lia Permutation.
From Verif Require Import Base Scalar Spec Items Csc CscProof Coo CooProof Fmt EllProof DiaProof JadProof.
Import ListNotations.
Open Scope Z_scope.

(** ** different elements in order of first occurrence *)
Definition mem (x : Z) (l : list Z) : bool := existsb (Z.eqb x) l.
Lemma mem_In x l : mem x l = true <-> In x l.
Proof.
  unfold mem. rewrite existsb_exists. split.
  - intros (y & H & E). apply Z.eqb_eq in E. subst; auto.
  - intros H. exists x. split; auto. apply Z.eqb_refl.
Qed.
Lemma mem_not x l : mem x l = false <-> ~ In x l.
Proof. rewrite <- mem_In. destruct (mem x l); split; congruence. Qed.

Definition fstep (acc : list Z) (x : Z) : list Z := if mem x acc then acc else acc ++ [x].
Definition firsts (l : list Z) : list Z := fold_left fstep l [].

Lemma firsts_snoc l x : firsts (l ++ [x]) = fstep (firsts l) x.
Proof. unfold firsts. rewrite fold_left_app. reflexivity. Qed.

Lemma firsts_In l : forall x, In x (firsts l) <-> In x l.
Proof.
  induction l as [|y l IH] using rev_ind; [tauto|]. intros x. rewrite firsts_snoc. unfold fstep. rewrite in_app_iff. simpl.
  destruct (mem y (firsts l)) eqn:E.
  - apply mem_In in E. apply IH in E. rewrite (IH x). split; [tauto|]. intros [H|[H|H]]; [auto|subst y; auto|destruct H].
  - rewrite in_app_iff. simpl. rewrite IH. tauto.
Qed.

Lemma NoDup_snoc {A} (l : list A) x : NoDup l -> ~ In x l -> NoDup (l ++ [x]).
Proof. intros H1 H2. apply (Permutation_NoDup (Permutation_cons_append l x)). constructor; auto. Qed.

Lemma firsts_NoDup l : NoDup (firsts l).
Proof.
  induction l as [|y l IH] using rev_ind; [constructor|]. rewrite firsts_snoc. unfold fstep.
  destruct (mem y (firsts l)) eqn:E; auto. apply NoDup_snoc; auto. apply mem_not; auto.
Qed.

Lemma firsts_prefix l m : prefix l m -> prefix (firsts l) (firsts m).
Proof.
  intros [r ->]. induction r as [|y r IH] using rev_ind; [rewrite app_nil_r; apply prefix_refl|].
  rewrite app_assoc, firsts_snoc. unfold fstep. destruct (mem y (firsts (l ++ r))); auto.
  destruct IH as [q ->]. exists (q ++ [y]). rewrite app_assoc. auto.
Qed.

Lemma NoDup_bound (l : list Z) c : 0 <= c -> NoDup l -> (forall x, In x l -> 0 <= x < c) -> zlen l <= c.
Proof.
  intros Hc HN Hb. assert (HL : (length l <= length (zrange 0 c))%nat).
  { apply NoDup_incl_length; auto. intros x Hx. apply In_zrange. auto. }
  pose proof (zlen_zrange 0 c) as E. unfold zlen in *. lia.
Qed.

Lemma znth_NoDup_inj (D : list Z) p q : NoDup D -> 0 <= p < zlen D -> 0 <= q < zlen D -> znth 0 D p = znth 0 D q -> p = q.
Proof.
  intros HN Hp Hq E. rewrite NoDup_nth with (d := 0) in HN. unfold znth, zlen in *.
  destruct (Z.ltb_spec p 0); [lia|]. destruct (Z.ltb_spec q 0); [lia|].
  specialize (HN (Z.to_nat p) (Z.to_nat q) ltac:(lia) ltac:(lia) E). lia.
Qed.
Lemma fpos_nth' D k : NoDup D -> 0 <= k < zlen D -> fpos D (znth 0 D k) = k.
Proof.
  intros HD Hk. destruct (fpos_range D (znth 0 D k)) as [H1 H2]; [apply znth_In; auto|]. eapply znth_NoDup_inj; eauto.
Qed.
Lemma fpos_app F r x : In x F -> fpos (F ++ r) x = fpos F x.
Proof.
  induction F as [|y F IH]; [intros []|]. simpl. intros H. destruct (y =? x) eqn:E; auto.
  apply Z.eqb_neq in E. destruct H; [congruence|]. rewrite IH; auto.
Qed.
Lemma fpos_prefix F D x : prefix F D -> In x F -> fpos D x = fpos F x.
Proof. intros [r ->] H. apply fpos_app; auto. Qed.
Lemma fpos_new F D x : prefix (F ++ [x]) D -> ~ In x F -> fpos D x = zlen F.
Proof.
  intros HP HN. rewrite (fpos_prefix (F ++ [x]) D x HP) by (apply in_app_iff; right; left; auto).
  clear HP. induction F as [|y F IH]; simpl.
  - rewrite Z.eqb_refl. reflexivity.
  - destruct (Z.eqb_spec y x); [subst; exfalso; apply HN; left; auto|]. rewrite IH; [rewrite zlen_cons; auto|]. intros H; apply HN; right; auto.
Qed.

Lemma NoDup_app_intro {A} (X Y : list A) : NoDup X -> NoDup Y -> (forall x, In x X -> ~ In x Y) -> NoDup (X ++ Y).
Proof.
  induction X; simpl; intros; auto. inversion H; subst. constructor.
  - rewrite in_app_iff. intros [?|?]; [auto|]. eapply H1; eauto.
  - apply IHX; auto.
Qed.
Lemma NoDup_flat_map_key {A B K} (f : A -> list B) (key : B -> K) (kx : A -> K) (l : list A) :
  NoDup (map kx l) -> (forall x, In x l -> NoDup (f x)) -> (forall x y, In x l -> In y (f x) -> key y = kx x) -> NoDup (flat_map f l).
Proof.
  induction l as [|a l IH]; simpl; intros HN Hf Hk; [constructor|]. inversion HN; subst.
  apply NoDup_app_intro; [auto| |].
  - apply IH; auto.
  - intros x Hx Hin. apply in_flat_map in Hin. destruct Hin as (a' & Ha' & Hx').
    apply H1. rewrite <- (Hk a x); auto. rewrite (Hk a' x); auto. apply in_map; auto.
Qed.

(** walking a list through its positions *)
Lemma flat_map_positions {B} (f : Z -> Z -> list B) s D : NoDup D ->
  flat_map (fun k => f k (znth 0 D (k - s))) (zrange s (s + zlen D)) = flat_map (fun x => f (s + fpos D x) x) D.
Proof.
  intros HN. pose proof (zrange_shift 0 (zlen D) s) as ZS. rewrite Z.add_0_l, (Z.add_comm (zlen D)) in ZS. rewrite ZS, flat_map_map.
  transitivity (flat_map (fun x => f (s + fpos D x) x) (map (znth 0 D) (zrange 0 (zlen D)))); [|rewrite <- (list_table 0 D); reflexivity].
  rewrite flat_map_map. apply flat_map_ext_in. intros k Hk. apply In_zrange in Hk.
  rewrite fpos_nth' by auto. replace (k + s - s) with k by lia. f_equal. lia.
Qed.

Section Blk.
Context {T : Type} {S : Scalar T}.

(** ** first pass: flags and list of block columns *)
Definition flag_rep (nc : Z) (F : list Z) (iw : list Z) : Prop :=
  forall x, 0 <= x < nc -> znth 0 iw x = if mem x F then 1 else 0.
Definition list_rep (F : list Z) (a : list Z) : Prop := forall t, 0 <= t < zlen F -> znth 0 a t = znth 0 F t.

Lemma list_rep_snoc F a x : list_rep F a -> zlen F < zlen a -> list_rep (F ++ [x]) (zupd a (zlen F) x).
Proof.
  intros H Hl t Ht. rewrite zlen_app in Ht. change (zlen [x]) with 1 in Ht. pose proof (zlen_nonneg F).
  rewrite znth_zupd by lia. destruct (Z.eqb_spec t (zlen F)); [subst; rewrite znth_snoc_last; auto|].
  rewrite znth_snoc_lt by lia. apply H; lia.
Qed.

(** columns stored in lines lo .. hi-1 *)
Definition line_cols (ptr index : list Z) (lo hi : Z) : list Z :=
  flat_map (fun r => map (fun k => znth 0 index k) (zrange (znth 0 ptr r) (znth 0 ptr (r + 1)))) (zrange lo hi).

Lemma line_cols_shift ptr index kk m : 0 <= m ->
  line_cols ptr index kk (kk + m) = flat_map (fun ii => map (fun k => znth 0 index k) (zrange (znth 0 ptr (kk + ii)) (znth 0 ptr (kk + ii + 1)))) (zrange 0 m).
Proof.
  intros Hm. unfold line_cols. pose proof (zrange_shift 0 m kk) as ZS. rewrite Z.add_0_l, (Z.add_comm m) in ZS. rewrite ZS, flat_map_map.
  apply flat_map_ext_in. intros x _. rewrite (Z.add_comm x kk). reflexivity.
Qed.

Lemma In_line_cols nl ptr index lo hi x : ptr_ok nl ptr -> 0 <= lo -> hi <= nl -> In x (line_cols ptr index lo hi) ->
  exists k, 0 <= k < znth 0 ptr nl /\ x = znth 0 index k.
Proof.
  intros Hp Hlo Hhi H. apply in_flat_map in H. destruct H as (r & Hr & H). apply In_zrange in Hr.
  apply in_map_iff in H. destruct H as (k & <- & Hk). apply In_zrange in Hk. exists k. split; auto.
  eapply ptr_ok_bounds; eauto. lia.
Qed.

Lemma count_lines (blk : Z -> res Z) (cb : Z -> Z) nl nc ptr index kk m iw iw2 (Q : list Z * list Z * Z -> Prop) :
  ptr_ok nl ptr -> znth 0 ptr nl <= zlen index -> 0 <= nc ->
  (forall k, 0 <= k < znth 0 ptr nl -> blk (znth 0 index k) = Ok (cb (znth 0 index k)) /\ 0 <= cb (znth 0 index k) < nc) ->
  0 <= kk -> kk + m <= nl -> 0 <= m -> zlen iw = nc -> zlen iw2 = nc -> flag_rep nc [] iw ->
  (forall iw' iw2', zlen iw' = nc -> zlen iw2' = nc ->
     let F := firsts (map cb (line_cols ptr index kk (kk + m))) in
     flag_rep nc F iw' -> list_rep F iw2' -> Q (iw', iw2', zlen F)) ->
  wp (for_ 0 m (fun ii s =>
        lo <- rd ptr (kk + ii) ;; hi <- rd ptr (kk + ii + 1) ;;
        for_ lo hi (fun j s =>
          let '(iw, iw2, jj) := s in
          x <- rd index j ;;
          bj <- blk x ;;
          jpos <- rd iw bj ;;
          if jpos =? 0 then
            (iw <- wr iw bj 1 ;; iw2 <- wr iw2 jj bj ;; Ok (iw, iw2, jj + 1))
          else Ok (iw, iw2, jj)) s) (iw, iw2, 0)) Q.
Proof.
  intros Hp Hli Hnc Hblk Hkk Hm Hm0 Liw Liw2 Hfl HQ. pose proof Hp as (Hn & Hlp & Hz & Hmono).
  set (R := fun (d : list Z) (s : list Z * list Z * Z) => let '(iw, iw2, jj) := s in
     zlen iw = nc /\ zlen iw2 = nc /\ flag_rep nc (firsts (map cb d)) iw /\ list_rep (firsts (map cb d)) iw2 /\ jj = zlen (firsts (map cb d))).
  set (total := line_cols ptr index kk (kk + m)).
  assert (Hin : forall x, In x total -> 0 <= cb x < nc).
  { intros x Hx. destruct (In_line_cols nl ptr index kk (kk + m) x Hp Hkk Hm Hx) as (k & Hk & ->). apply Hblk; auto. }
  apply (for_items R total (fun ii => map (fun k => znth 0 index k) (zrange (znth 0 ptr (kk + ii)) (znth 0 ptr (kk + ii + 1)))) 0 m _ []); auto.
  - cbn [app]. rewrite <- line_cols_shift by auto. apply prefix_refl.
  - cbn. repeat split; auto. intros t Ht. change (zlen (@nil Z)) with 0 in Ht. lia.
  - intros ii s d Hii _ Hpre HR. wrd 0; [lia|]. wrd 0; [lia|].
    apply (for_list R total (fun k => znth 0 index k) _ _ _ d); auto; [apply Hmono; lia|].
    intros k [[w w2] jj] d' Hk _ Hpre' (Lw & Lw2 & Hf & Hl & ->).
    pose proof (ptr_ok_bounds nl ptr (kk + ii) k Hp ltac:(lia) Hk) as Hkb.
    destruct (Hblk k Hkb) as [Eb Hb]. wrd 0; [lia|]. rewrite Eb. cbn [bind]. wrd 0; [lia|]. rewrite Hf by auto.
    set (bj := cb (znth 0 index k)) in *. set (F := firsts (map cb d')) in *.
    assert (EF : firsts (map cb (d' ++ [znth 0 index k])) = fstep F bj) by (rewrite map_app; cbn [map]; apply firsts_snoc).
    assert (HFin : forall x, In x (fstep F bj) -> 0 <= x < nc).
    { intros x Hx. rewrite <- EF in Hx. apply (proj1 (firsts_In _ _)) in Hx. apply in_map_iff in Hx. destruct Hx as (y & <- & Hy). apply Hin.
      destruct Hpre' as [r ->]. apply in_app_iff; auto. }
    assert (HFN : zlen (fstep F bj) <= nc) by (apply NoDup_bound; auto; rewrite <- EF; apply firsts_NoDup).
    unfold fstep in EF, HFN. destruct (mem bj F) eqn:Em.
    + cbn. unfold R. rewrite EF. auto.
    + cbn [Z.eqb]. rewrite zlen_app in HFN. change (zlen [bj]) with 1 in HFN. pose proof (zlen_nonneg F).
      wwr; [lia|]. wwr; [lia|]. apply wp_ok. unfold R. rewrite EF, !zlen_zupd.
      split; [auto|]. split; [auto|]. split; [|split].
      * intros x Hx. rewrite znth_zupd by lia. unfold mem. rewrite existsb_app. cbn [existsb]. rewrite orb_false_r.
        destruct (x =? bj) eqn:E2; [rewrite orb_true_r; auto|rewrite orb_false_r; apply Hf; auto].
      * apply list_rep_snoc; auto. lia.
      * rewrite zlen_app. reflexivity.
  - intros [[w w2] jj]. cbn [app]. rewrite <- line_cols_shift by auto. intros (Lw & Lw2 & Hf & Hl & ->). apply HQ; auto.
Qed.

(** ** second pass *)
Variables (nr nc : Z) (rb cb : Z -> Z) (D : Z -> list Z) (vo : Z -> Z) (sz : Z -> Z -> Z) (ll : Z * Z -> Z) (P : list (Z * Z)).
Definition bp (bi : Z) : Z := zlen (flat_map D (zrange 0 bi)).
Definition kkof (bi bj : Z) : Z := bp bi + fpos (D bi) bj.
Definition loc (p : Z * Z) : Z := vo (kkof (rb (fst p)) (cb (snd p))) + ll p.
Definition valid (bi bj : Z) : Prop := 0 <= bi < nr /\ In bj (D bi).

Record layout : Prop := {
  lay_valid : forall p, In p P -> valid (rb (fst p)) (cb (snd p));
  lay_ll : forall p, In p P -> 0 <= ll p < sz (rb (fst p)) (cb (snd p));
  lay_inj : forall p q, In p P -> In q P -> rb (fst p) = rb (fst q) -> cb (snd p) = cb (snd q) -> ll p = ll q -> p = q;
  lay_nodup : forall bi, 0 <= bi < nr -> NoDup (D bi);
  lay_vo : forall bi bj bi' bj', valid bi bj -> valid bi' bj' -> kkof bi bj < kkof bi' bj' -> vo (kkof bi bj) + sz bi bj <= vo (kkof bi' bj');
  lay_vo0 : forall bi bj, valid bi bj -> 0 <= vo (kkof bi bj)
}.
Hypothesis LAY : layout.

Lemma bp_succ bi : 0 <= bi -> bp (bi + 1) = bp bi + zlen (D bi).
Proof. intros. unfold bp. rewrite flat_map_snoc, zlen_app by lia. auto. Qed.
Lemma bp_mono a b : 0 <= a <= b -> bp a <= bp b.
Proof.
  intros H. unfold bp. rewrite (zrange_app 0 a b) by lia. rewrite flat_map_app, zlen_app.
  pose proof (zlen_nonneg (flat_map D (zrange a b))). lia.
Qed.

Lemma kkof_range bi bj : valid bi bj -> bp bi <= kkof bi bj < bp (bi + 1) /\ bp (bi + 1) <= bp nr /\ 0 <= bp bi.
Proof.
  intros [H1 H2]. destruct (fpos_range (D bi) bj H2) as [H3 _]. rewrite bp_succ by lia. unfold kkof.
  split; [lia|]. split; [rewrite <- bp_succ by lia; apply bp_mono; lia|]. apply zlen_nonneg.
Qed.

Lemma kkof_inj bi bj bi' bj' : valid bi bj -> valid bi' bj' -> kkof bi bj = kkof bi' bj' -> bi = bi' /\ bj = bj'.
Proof.
  intros V V' E. pose proof (kkof_range _ _ V) as [H1 _]. pose proof (kkof_range _ _ V') as [H2 _].
  assert (bi = bi').
  { destruct V as [V1 _], V' as [V1' _]. destruct (Z.lt_trichotomy bi bi') as [H|[H|H]]; auto.
    - pose proof (bp_mono (bi + 1) bi' ltac:(lia)). lia.
    - pose proof (bp_mono (bi' + 1) bi ltac:(lia)). lia. }
  subst bi'. split; auto. destruct V as [_ V], V' as [_ V']. destruct (fpos_range _ _ V) as [_ F1]. destruct (fpos_range _ _ V') as [_ F2].
  unfold kkof in E. replace (fpos (D bi) bj') with (fpos (D bi) bj) in F2 by lia. congruence.
Qed.

(** different blocks do not overlap *)
Lemma block_disjoint bi bj bi' bj' t t' : valid bi bj -> valid bi' bj' -> 0 <= t < sz bi bj -> 0 <= t' < sz bi' bj' ->
  vo (kkof bi bj) + t = vo (kkof bi' bj') + t' -> bi = bi' /\ bj = bj'.
Proof.
  intros V V' Ht Ht' E. apply kkof_inj; auto. destruct (Z.lt_trichotomy (kkof bi bj) (kkof bi' bj')) as [H|[H|H]]; auto.
  - pose proof (lay_vo LAY _ _ _ _ V V' H). lia.
  - pose proof (lay_vo LAY _ _ _ _ V' V H). lia.
Qed.

Lemma loc_inj p q : In p P -> In q P -> loc p = loc q -> p = q.
Proof.
  intros Hp Hq E. pose proof (lay_valid LAY _ Hp) as V. pose proof (lay_valid LAY _ Hq) as V'.
  pose proof (lay_ll LAY _ Hp) as L. pose proof (lay_ll LAY _ Hq) as L'.
  destruct (block_disjoint _ _ _ _ _ _ V V' L L' E) as [E1 E2]. apply (lay_inj LAY); auto.
  unfold loc in E. rewrite E1, E2 in E. lia.
Qed.

Definition blkof (e : entry T) : Z * Z := (rb (erow e), cb (ecol e)).
Definition val_rep (d : list (entry T)) (value : list T) : Prop :=
  forall p, In p P -> In (rb (fst p), cb (snd p)) (map blkof d) -> znth s0 value (loc p) = lastval d p.

Lemma lastval_snoc_eq d (e : entry T) : lastval (d ++ [e]) (fst e) = eval e.
Proof.
  rewrite lastval_snoc. assert (F : (erow e =? fst (fst e)) && (ecol e =? snd (fst e)) = true) by (apply pos_eqb; auto).
  rewrite F. auto.
Qed.
Lemma lastval_snoc_neq d (e : entry T) p : p <> fst e -> lastval (d ++ [e]) p = lastval d p.
Proof.
  intros N. rewrite lastval_snoc. destruct ((erow e =? fst p) && (ecol e =? snd p)) eqn:F; auto. apply pos_eqb in F. congruence.
Qed.

Lemma val_old d value e :
  val_rep d value -> In (fst e) P -> In (blkof e) (map blkof d) -> 0 <= loc (fst e) < zlen value ->
  val_rep (d ++ [e]) (zupd value (loc (fst e)) (eval e)).
Proof.
  intros HR He Hb Hl p Hp Hc. rewrite znth_zupd by auto.
  destruct (Z.eqb_spec (loc p) (loc (fst e))) as [E|N].
  - apply loc_inj in E; auto. subst p. symmetry. apply lastval_snoc_eq.
  - rewrite lastval_snoc_neq by congruence. apply HR; auto.
    rewrite map_app in Hc. apply in_app_iff in Hc. destruct Hc as [Hc|[Hc|[]]]; auto. rewrite <- Hc. auto.
Qed.

Lemma val_new d value value0 e :
  val_rep d value -> In (fst e) P -> ~ In (blkof e) (map blkof d) -> zlen value0 = zlen value ->
  (let kv := vo (kkof (rb (erow e)) (cb (ecol e))) in
   (forall t, 0 <= t < sz (rb (erow e)) (cb (ecol e)) -> znth s0 value0 (kv + t) = s0) /\
   (forall k, 0 <= k < zlen value -> ~ (kv <= k < kv + sz (rb (erow e)) (cb (ecol e))) -> znth s0 value0 k = znth s0 value k)) ->
  (forall p, In p P -> 0 <= loc p < zlen value) ->
  val_rep (d ++ [e]) (zupd value0 (loc (fst e)) (eval e)).
Proof.
  intros HR He Hb Hlen [HZ HK] Hl p Hp Hc. pose proof (Hl _ He) as Hle. rewrite znth_zupd by lia.
  destruct (Z.eqb_spec (loc p) (loc (fst e))) as [E|N].
  - apply loc_inj in E; auto. subst p. symmetry. apply lastval_snoc_eq.
  - rewrite lastval_snoc_neq by congruence.
    rewrite map_app in Hc. apply in_app_iff in Hc. destruct Hc as [Hc|[Hc|[]]].
    + rewrite HK; [apply HR; auto|apply Hl; auto|]. intros Hin.
      pose proof (lay_valid LAY _ Hp) as V. pose proof (lay_valid LAY _ He) as V'. pose proof (lay_ll LAY _ Hp) as L.
      set (kv := vo (kkof (rb (erow e)) (cb (ecol e)))) in *.
      destruct (block_disjoint _ _ (rb (erow e)) (cb (ecol e)) (ll p) (loc p - kv) V V' L ltac:(lia)) as [E1 E2].
      { fold kv. unfold loc. lia. }
      apply Hb. unfold blkof. rewrite <- E1, <- E2. exact Hc.
    + unfold blkof in Hc. inversion Hc as [[E1 E2]].
      rewrite lastval_absent.
      * unfold loc. rewrite <- E1, <- E2. apply HZ. rewrite E1, E2. apply (lay_ll LAY); auto.
      * intros Hin. apply in_map_iff in Hin. destruct Hin as (e' & E & Hin). apply Hb. apply in_map_iff. exists e'. split; auto.
        unfold blkof, erow, ecol. unfold erow, ecol in E1, E2. rewrite E. congruence.
Qed.

(** flags of the second pass: offset + 1 of the block in the current block row *)
Definition off_rep (bi : Z) (F : list Z) (iw : list Z) : Prop :=
  forall x, 0 <= x < nc -> znth 0 iw x = if mem x F then vo (kkof bi x) + 1 else 0.

Lemma off_rep_snoc bi F iw x : off_rep bi F iw -> zlen iw = nc -> 0 <= x < nc ->
  off_rep bi (F ++ [x]) (zupd iw x (vo (kkof bi x) + 1)).
Proof.
  intros H L Hx y Hy. rewrite znth_zupd by lia. unfold mem. rewrite existsb_app. cbn [existsb]. rewrite orb_false_r.
  destruct (y =? x) eqn:E; [apply Z.eqb_eq in E; subst; rewrite orb_true_r; auto|rewrite orb_false_r; apply H; auto].
Qed.

(** resetting the flags of the listed block columns *)
Lemma reset_flags F (src : list Z) lo hi iw (Q : list Z -> Prop) :
  0 <= lo <= hi -> hi <= zlen src -> zlen F = hi - lo -> (forall t, 0 <= t < zlen F -> znth 0 src (lo + t) = znth 0 F t) ->
  zlen iw = nc -> (forall x, In x F -> 0 <= x < nc) -> (forall x, 0 <= x < nc -> ~ In x F -> znth 0 iw x = 0) ->
  (forall iw', zlen iw' = nc -> (forall x, 0 <= x < nc -> znth 0 iw' x = 0) -> Q iw') ->
  wp (for_ lo hi (fun j iw => bj <- rd src j ;; wr iw bj 0) iw) Q.
Proof.
  intros Hlo Hhi HF Hsrc Liw HFb H0 HQ.
  apply (for_wp' (fun j w => zlen w = nc /\ forall x, 0 <= x < nc -> znth 0 w x <> 0 -> exists t, j - lo <= t < zlen F /\ znth 0 F t = x)); try lia.
  - split; auto. intros x Hx Hne. destruct (in_dec Z.eq_dec x F) as [Hi|Hn]; [|rewrite H0 in Hne by auto; lia].
    destruct (In_znth 0 F x Hi) as (t & Ht & E). exists t. split; [lia|auto].
  - intros j w Hj (Lw & Hw). wrd 0; [lia|]. assert (Es : znth 0 src j = znth 0 F (j - lo)) by (rewrite <- Hsrc by lia; f_equal; lia). rewrite Es.
    assert (Hb : 0 <= znth 0 F (j - lo) < nc) by (apply HFb; apply znth_In; lia).
    apply wp_wr; [lia|]. rewrite zlen_zupd. split; auto. intros x Hx. rewrite znth_zupd by lia.
    destruct (Z.eqb_spec x (znth 0 F (j - lo))); [lia|]. intros Hne. destruct (Hw x Hx Hne) as (t & Ht & E).
    exists t. split; auto. assert (t <> j - lo) by congruence. lia.
  - intros w (Lw & Hw). apply HQ; auto. intros x Hx. destruct (Z.eq_dec (znth 0 w x) 0); auto.
    destruct (Hw x Hx n) as (t & Ht & _). lia.
Qed.

(** zeroing a block *)
Lemma zero_block kv m value (Q : list T -> Prop) :
  0 <= kv -> 0 <= m -> kv + m <= zlen value ->
  (forall value', zlen value' = zlen value -> (forall t, 0 <= t < m -> znth s0 value' (kv + t) = s0) ->
     (forall k, 0 <= k < zlen value -> ~ (kv <= k < kv + m) -> znth s0 value' k = znth s0 value k) -> Q value') ->
  wp (for_ 0 m (fun t value => wr value (kv + t) s0) value) Q.
Proof.
  intros Hk Hm Hl HQ.
  apply (for_wp' (fun i v => zlen v = zlen value /\ (forall t, 0 <= t < i -> znth s0 v (kv + t) = s0) /\
     (forall k, 0 <= k < zlen value -> ~ (kv <= k < kv + i) -> znth s0 v k = znth s0 value k))); auto.
  - split; auto. split; intros; auto; lia.
  - intros i v Hi (Lv & H1 & H2). apply wp_wr; [lia|]. rewrite zlen_zupd. split; auto. split.
    + intros t Ht. rewrite znth_zupd by lia. destruct (Z.eqb_spec (kv + t) (kv + i)); auto. apply H1; lia.
    + intros k Hkk Hn. rewrite znth_zupd_neq by lia. apply H2; lia.
  - intros v (Lv & H1 & H2). apply HQ; auto.
Qed.

End Blk.
