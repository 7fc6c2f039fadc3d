(** Proof of the two passes that build a blocked structure *)
Require Import ZArith List Bool Lia Permutation.
From Verif Require Import Base Scalar Spec Items Csc CscProof Coo CooProof Fmt EllProof DiaProof JadProof Bsr.
From Verif Require Import BlkProof.
Import ListNotations.
Open Scope Z_scope.

Section Fill.
Context {T : Type} {S : Scalar T}.
(** compressed lines: n lines, minor indices *)
Variables (n : Z) (ptr index : list Z) (vals : list T).
Hypothesis (Hp : ptr_ok n ptr) (Hli : znth 0 ptr n <= zlen index) (Hlv : znth 0 ptr n <= zlen vals).
(** grouping: group bi is lines g bi .. g (bi+1)-1 *)
Variables (nr nc : Z) (g rb cb : Z -> Z) (vo : Z -> Z) (sz : Z -> Z -> Z) (ll : Z * Z -> Z) (P : list (Z * Z)).
Hypothesis (Hnr : 0 <= nr) (Hnc : 0 <= nc) (Hg0 : g 0 = 0) (Hgn : g nr = n) (Hgm : forall bi, 0 <= bi < nr -> g bi <= g (bi + 1)).
Hypothesis (Hrb : forall bi r, 0 <= bi < nr -> g bi <= r < g (bi + 1) -> rb r = bi).
Hypothesis (Hcb : forall k, 0 <= k < znth 0 ptr n -> 0 <= cb (znth 0 index k) < nc).

Definition lents (lo hi : Z) : list (entry T) :=
  flat_map (fun r => map (fun k => (r, znth 0 index k, znth s0 vals k) : entry T) (zrange (znth 0 ptr r) (znth 0 ptr (r + 1)))) (zrange lo hi).
Definition Dof (bi : Z) : list Z := firsts (map cb (line_cols ptr index (g bi) (g (bi + 1)))).
Notation bp' := (bp Dof).
Notation kk' := (kkof Dof).
Notation loc' := (loc rb cb Dof vo ll).

Hypothesis LAY : layout nr rb cb Dof vo sz ll P.
Hypothesis HP : forall e, In e (lents 0 n) -> In (fst e) P.

Lemma g_mono a b : 0 <= a <= b -> b <= nr -> g a <= g b.
Proof.
  intros H Hb. replace b with (a + (b - a)) by lia.
  assert (H2 : a + (b - a) <= nr) by lia. revert H2. pattern (b - a). apply natlike_ind; [|intros x Hx IH|lia].
  - rewrite Z.add_0_r. lia.
  - intros H2. specialize (IH ltac:(lia)). pose proof (Hgm (a + x) ltac:(lia)). replace (a + Z.succ x) with (a + x + 1) by lia. lia.
Qed.
Lemma g_range bi : 0 <= bi <= nr -> 0 <= g bi <= n.
Proof. intros. rewrite <- Hg0 at 1. rewrite <- Hgn. split; apply g_mono; lia. Qed.

Lemma lents_cols lo hi : map (fun e => cb (ecol e)) (lents lo hi) = map cb (line_cols ptr index lo hi).
Proof.
  unfold lents, line_cols. rewrite !map_flat_map. apply flat_map_ext_in. intros r _. rewrite !map_map. reflexivity.
Qed.
Lemma lents_app lo mid hi : lo <= mid <= hi -> lents lo hi = lents lo mid ++ lents mid hi.
Proof. intros. unfold lents. rewrite (zrange_app lo mid hi) by lia. rewrite flat_map_app. auto. Qed.
Lemma In_lents lo hi e : In e (lents lo hi) -> lo <= erow e < hi /\ exists k, znth 0 ptr (erow e) <= k < znth 0 ptr (erow e + 1) /\ ecol e = znth 0 index k.
Proof.
  intros H. apply in_flat_map in H. destruct H as (r & Hr & H). apply In_zrange in Hr. apply in_map_iff in H.
  destruct H as (k & <- & Hk). apply In_zrange in Hk. unfold erow, ecol; cbn. split; auto. exists k; auto.
Qed.
Lemma cb_lents lo hi e : 0 <= lo -> hi <= n -> In e (lents lo hi) -> 0 <= cb (ecol e) < nc.
Proof.
  intros Hl Hh H. destruct (In_lents _ _ _ H) as (Hr & k & Hk & ->). apply Hcb. eapply ptr_ok_bounds; eauto. lia.
Qed.

Lemma Dof_range bi x : 0 <= bi < nr -> In x (Dof bi) -> 0 <= x < nc.
Proof.
  intros Hb Hx. unfold Dof in Hx. apply (proj1 (firsts_In _ _)) in Hx. rewrite <- lents_cols in Hx. apply in_map_iff in Hx.
  destruct Hx as (e & <- & He). pose proof (g_range bi ltac:(lia)). pose proof (g_range (bi + 1) ltac:(lia)).
  eapply cb_lents; [| |eauto]; lia.
Qed.

Definition NB : Z := bp' nr.
Variable NV : Z.
Hypothesis HNV : forall bi bj, valid nr Dof bi bj -> vo (kk' bi bj) + sz bi bj <= NV.

Definition Fd (d : list (entry T)) : list Z := firsts (map (fun e => cb (ecol e)) d).
Definition RR (bi : Z) (d : list (entry T)) (s : list Z * list Z * list T * Z) : Prop :=
  let '(iw, bindex, value, kk) := s in
  zlen iw = nc /\ zlen bindex = NB /\ zlen value = NV /\
  off_rep nc Dof vo bi (Fd d) iw /\ list_rep (flat_map Dof (zrange 0 bi) ++ Fd d) bindex /\
  kk = bp' bi + zlen (Fd d) /\ val_rep rb cb Dof vo ll P (lents 0 (g bi) ++ d) value.

Section Step.
Variables (bi : Z) (d : list (entry T)) (e : entry T) (iw bindex : list Z) (value : list T) (kk : Z).
Hypothesis (Hbi : 0 <= bi < nr) (Hpre : prefix (d ++ [e]) (lents (g bi) (g (bi + 1)))) (HR : RR bi d (iw, bindex, value, kk)).

Lemma e_in : In e (lents (g bi) (g (bi + 1))).
Proof. destruct Hpre as [r ->]. apply in_app_iff. left. apply in_app_iff. right. left; auto. Qed.
Lemma e_P : In (fst e) P.
Proof.
  pose proof (g_range bi ltac:(lia)). pose proof (g_range (bi + 1) ltac:(lia)). pose proof (Hgm bi Hbi).
  apply HP. rewrite (lents_app 0 (g bi) n) by lia. apply in_app_iff. right.
  rewrite (lents_app (g bi) (g (bi + 1)) n) by lia. apply in_app_iff. left. apply e_in.
Qed.
Lemma e_rb : rb (erow e) = bi.
Proof. apply Hrb; auto. apply (In_lents _ _ _ e_in). Qed.
Lemma e_cb : 0 <= cb (ecol e) < nc.
Proof. pose proof (g_range bi ltac:(lia)). pose proof (g_range (bi + 1) ltac:(lia)). eapply cb_lents; [| |apply e_in]; lia. Qed.
Lemma e_valid : valid nr Dof bi (cb (ecol e)).
Proof. pose proof (lay_valid _ _ _ _ _ _ _ _ LAY _ e_P) as V. fold (erow e) in V. fold (ecol e) in V. rewrite e_rb in V. exact V. Qed.
Lemma e_loc p : In p P -> 0 <= loc' p < NV.
Proof.
  intros Hp'. pose proof (lay_valid _ _ _ _ _ _ _ _ LAY _ Hp') as V. pose proof (lay_ll _ _ _ _ _ _ _ _ LAY _ Hp') as L.
  pose proof (HNV _ _ V). pose proof (lay_vo0 _ _ _ _ _ _ _ _ LAY _ _ V). unfold loc. lia.
Qed.
Lemma e_flag : znth 0 iw (cb (ecol e)) = if mem (cb (ecol e)) (Fd d) then vo (kk' bi (cb (ecol e))) + 1 else 0.
Proof. destruct HR as (_ & _ & _ & H & _). apply H. apply e_cb. Qed.
Lemma Fd_snoc : Fd (d ++ [e]) = fstep (Fd d) (cb (ecol e)).
Proof. unfold Fd. rewrite map_app. cbn [map]. apply firsts_snoc. Qed.
Lemma Fd_prefix : prefix (Fd (d ++ [e])) (Dof bi).
Proof.
  unfold Fd, Dof. rewrite <- lents_cols. apply firsts_prefix. destruct Hpre as [r ->]. exists (map (fun e => cb (ecol e)) r).
  rewrite map_app. auto.
Qed.

Lemma step_old : mem (cb (ecol e)) (Fd d) = true ->
  0 <= loc' (fst e) < zlen value /\ RR bi (d ++ [e]) (iw, bindex, zupd value (loc' (fst e)) (eval e), kk).
Proof.
  intros Hm. destruct HR as (H1 & H2 & H3 & H4 & H5 & H6 & H7). pose proof (e_loc _ e_P) as HL.
  split; [lia|]. unfold RR. rewrite Fd_snoc. unfold fstep. rewrite Hm, zlen_zupd.
  split; [auto|]. split; [auto|]. split; [auto|]. split; [auto|]. split; [auto|]. split; [auto|].
  rewrite app_assoc. eapply val_old; eauto; [apply e_P| |lia].
  apply mem_In in Hm. unfold Fd in Hm. apply (proj1 (firsts_In _ _)) in Hm. apply in_map_iff in Hm. destruct Hm as (e' & E & He').
  apply in_map_iff. exists e'. split; [|apply in_app_iff; auto]. unfold blkof. rewrite E, e_rb. f_equal.
  apply Hrb; auto. assert (In e' (lents (g bi) (g (bi + 1)))) by (destruct Hpre as [r ->]; apply in_app_iff; left; apply in_app_iff; auto).
  apply (In_lents _ _ _ H).
Qed.

Lemma step_new : mem (cb (ecol e)) (Fd d) = false ->
  kk = kk' bi (cb (ecol e)) /\ 0 <= kk < zlen bindex /\ 0 <= vo kk /\ vo kk + sz bi (cb (ecol e)) <= zlen value /\ kk < bp' (bi + 1) /\
  0 <= loc' (fst e) < zlen value /\ loc' (fst e) = vo kk + ll (fst e) /\
  forall value0, zlen value0 = zlen value ->
   (forall t, 0 <= t < sz bi (cb (ecol e)) -> znth s0 value0 (vo kk + t) = s0) ->
   (forall k, 0 <= k < zlen value -> ~ (vo kk <= k < vo kk + sz bi (cb (ecol e))) -> znth s0 value0 k = znth s0 value k) ->
   RR bi (d ++ [e]) (zupd iw (cb (ecol e)) (vo kk + 1), zupd bindex kk (cb (ecol e)), zupd value0 (loc' (fst e)) (eval e), kk + 1).
Proof.
  intros Hm. destruct HR as (H1 & H2 & H3 & H4 & H5 & H6 & H7). pose proof (e_loc _ e_P) as HL.
  pose proof Fd_prefix as HPre. rewrite Fd_snoc in HPre. unfold fstep in HPre. rewrite Hm in HPre.
  assert (Ek : kk = kk' bi (cb (ecol e))).
  { unfold kkof. rewrite (fpos_new (Fd d)); auto. apply mem_not; auto. }
  pose proof e_valid as V. pose proof (kkof_range _ _ _ _ V) as KR. unfold NB in *.
  pose proof (lay_vo0 _ _ _ _ _ _ _ _ LAY _ _ V) as V0. pose proof (HNV _ _ V) as VN. rewrite <- Ek in KR, V0, VN.
  pose proof (zlen_nonneg (flat_map Dof (zrange 0 bi))) as NN.
  split; [auto|]. split; [lia|]. split; [auto|]. split; [lia|]. split; [lia|]. split; [lia|]. split.
  { unfold loc. fold (erow e). fold (ecol e). rewrite e_rb, <- Ek. auto. }
  intros value0 L0 HZ HK. unfold RR. rewrite Fd_snoc. unfold fstep. rewrite Hm, !zlen_zupd. unfold NB.
  split; [auto|]. split; [auto|]. split; [lia|]. split; [|split; [|split]].
  - rewrite Ek. apply off_rep_snoc; auto. apply e_cb.
  - rewrite app_assoc. replace kk with (zlen (flat_map Dof (zrange 0 bi) ++ Fd d)).
    + apply list_rep_snoc; auto. rewrite zlen_app. unfold bp in *. lia.
    + rewrite zlen_app. unfold bp in *. lia.
  - rewrite zlen_app. change (zlen [cb (ecol e)]) with 1. lia.
  - rewrite app_assoc. eapply (val_new _ _ _ _ _ _ _ _ LAY _ value value0 e); eauto.
    + apply e_P.
    + intros Hin. apply in_map_iff in Hin. destruct Hin as (e' & E & He'). unfold blkof in E. inversion E as [[E1 E2]]. rewrite e_rb in E1.
      apply in_app_iff in He'. destruct He' as [He'|He'].
      * apply In_lents in He'. destruct He' as [Hr _].
        assert (exists b', 0 <= b' < bi /\ g b' <= erow e' < g (b' + 1)) as (b' & Hb' & Hg').
        { clear - Hr Hbi Hg0. revert Hr. generalize (erow e') as r. intros r Hr.
          assert (HH : forall m, 0 <= m -> m <= bi -> r < g m -> exists b', 0 <= b' < m /\ g b' <= r < g (b' + 1)).
          { intros m Hm0. pattern m. apply natlike_ind; auto.
            - intros _ Hx. rewrite Hg0 in Hx. lia.
            - intros x Hx IH Hx2 Hlt. destruct (Z_lt_le_dec r (g x)).
              + destruct (IH ltac:(lia) l) as (b' & Hb1 & Hb2). exists b'. split; [lia|auto].
              + exists x. split; [lia|]. replace (x + 1) with (Z.succ x) by lia. lia. }
          destruct (HH bi ltac:(lia) ltac:(lia) ltac:(lia)) as (b' & ? & ?). exists b'; auto. }
        rewrite (Hrb b' (erow e') ltac:(lia) Hg') in E1. lia.
      * apply mem_not in Hm. apply Hm. unfold Fd. apply firsts_In. apply in_map_iff. exists e'. auto.
    + rewrite e_rb, <- Ek. auto.
    + intros p Hp'. rewrite H3. apply e_loc; auto.
Qed.

Lemma flag_nonzero : mem (cb (ecol e)) (Fd d) = true -> (znth 0 iw (cb (ecol e)) =? 0) = false /\ znth 0 iw (cb (ecol e)) + ll (fst e) - 1 = loc' (fst e).
Proof.
  intros Hm. rewrite e_flag, Hm. pose proof (lay_vo0 _ _ _ _ _ _ _ _ LAY _ _ e_valid). split; [apply Z.eqb_neq; lia|].
  unfold loc. fold (erow e). fold (ecol e). rewrite e_rb. lia.
Qed.
End Step.

(** end of a group *)
Lemma RR_end bi iw bindex value kk : 0 <= bi < nr -> RR bi (lents (g bi) (g (bi + 1))) (iw, bindex, value, kk) ->
  Fd (lents (g bi) (g (bi + 1))) = Dof bi /\ kk = bp' (bi + 1) /\
  list_rep (flat_map Dof (zrange 0 (bi + 1))) bindex /\ val_rep rb cb Dof vo ll P (lents 0 (g (bi + 1))) value /\
  zlen iw = nc /\ zlen bindex = NB /\ zlen value = NV /\
  (forall x, 0 <= x < nc -> ~ In x (Dof bi) -> znth 0 iw x = 0).
Proof.
  intros Hbi (H1 & H2 & H3 & H4 & H5 & H6 & H7).
  assert (EF : Fd (lents (g bi) (g (bi + 1))) = Dof bi) by (unfold Fd, Dof; rewrite lents_cols; auto).
  rewrite EF in *. split; [auto|]. split; [rewrite bp_succ by lia; auto|]. split; [rewrite flat_map_snoc by lia; auto|].
  split; [|split; [auto|split; [auto|split; [auto|]]]].
  - pose proof (g_range bi ltac:(lia)). pose proof (Hgm bi Hbi). rewrite (lents_app 0 (g bi)) by lia. auto.
  - intros x Hx Hn. rewrite H4 by auto. apply mem_not in Hn. rewrite Hn. auto.
Qed.
Lemma RR_start bi iw bindex value : 0 <= bi < nr -> zlen iw = nc -> zlen bindex = NB -> zlen value = NV ->
  (forall x, 0 <= x < nc -> znth 0 iw x = 0) -> list_rep (flat_map Dof (zrange 0 bi)) bindex ->
  val_rep rb cb Dof vo ll P (lents 0 (g bi)) value -> RR bi [] (iw, bindex, value, bp' bi).
Proof.
  intros Hbi L1 L2 L3 Hz Hlr Hv. unfold RR. rewrite !app_nil_r. change (Fd []) with (@nil Z). change (zlen (@nil Z)) with 0.
  rewrite ?app_nil_r. split; [auto|]. split; [auto|]. split; [auto|]. split; [intros x Hx; cbn; auto|]. split; [auto|]. split; [lia|auto].
Qed.
Lemma lents_shift bi m : 0 <= bi < nr -> g bi + m = g (bi + 1) ->
  lents (g bi) (g (bi + 1)) = flat_map (fun ii => map (fun k => (g bi + ii, znth 0 index k, znth s0 vals k) : entry T) (zrange (znth 0 ptr (g bi + ii)) (znth 0 ptr (g bi + ii + 1)))) (zrange 0 m).
Proof.
  intros Hb Hm. unfold lents. rewrite <- Hm. pose proof (zrange_shift 0 m (g bi)) as ZS. rewrite Z.add_0_l, (Z.add_comm m) in ZS. rewrite ZS, flat_map_map.
  apply flat_map_ext_in. intros x _. rewrite (Z.add_comm x). reflexivity.
Qed.
(** reset after a group *)
Lemma reset_group bi (src : list Z) iw (Q : list Z -> Prop) : 0 <= bi < nr -> zlen src = NB ->
  list_rep (flat_map Dof (zrange 0 (bi + 1))) src -> zlen iw = nc -> (forall x, 0 <= x < nc -> ~ In x (Dof bi) -> znth 0 iw x = 0) ->
  (forall iw', zlen iw' = nc -> (forall x, 0 <= x < nc -> znth 0 iw' x = 0) -> Q iw') ->
  wp (for_ (bp' bi) (bp' (bi + 1)) (fun j iw => bj <- rd src j ;; wr iw bj 0) iw) Q.
Proof.
  intros Hb Ls Hl Lw Hz HQ. pose proof (bp_mono Dof (bi + 1) nr ltac:(lia)) as HM. pose proof (bp_succ Dof bi ltac:(lia)) as HS.
  assert (0 <= bp' bi) by apply zlen_nonneg. pose proof (zlen_nonneg (Dof bi)).
  apply (reset_flags nc (Dof bi) src (bp' bi) (bp' (bi + 1)) iw Q); auto; unfold NB in *; try lia.
  - intros t Ht. rewrite (Hl (bp' bi + t)) by (fold (bp Dof (bi + 1)); lia).
    rewrite flat_map_snoc by lia. rewrite znth_app by lia. unfold bp. destruct (Z.ltb_spec (zlen (flat_map Dof (zrange 0 bi)) + t) (zlen (flat_map Dof (zrange 0 bi)))); [lia|].
    f_equal. lia.
  - intros x Hx. eapply Dof_range; eauto.
Qed.
End Fill.
