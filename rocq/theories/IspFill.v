(** I+S: the filling pass of lis_precon_create_is_csr. *)
Require Import ZArith List Bool Lia Permutation Ring.
From Verif Require Import Base Items Scalar Spec SpecSplit Split SainvMath SainvStep IlutFinal Isp IspCount.
Import ListNotations.
Open Scope Z_scope.

Section P.
Context {T : Type} {S : Scalar T}.
Hypothesis RT : is_ring S.
Let RT' : @ring_theory T s0 s1 sadd smul ssub sopp (@eq T) := RT.
Add Ring TrIsF : RT'.
Variables (A : split T) (m : Z).
Hypothesis HA : split_ok A.
Hypothesis Hsq : sp_np A = sp_n A.
Hypothesis Hm : 0 <= m.
Hypothesis HL : no_dup_pos (csr_entries (sp_L A)).
Hypothesis HU : no_dup_pos (csr_entries (sp_U A)).
Notation n := (sp_n A).

(** ** one triangle *)
(** k0: first position of the row; ix0, v0: arrays before the row; C: columns so far; f: values *)
Definition TR (side : Z -> Prop) (k0 : Z) (ix0 : list Z) (v0 : list T) (C : list Z) (f : Z -> T) (iw : list Z) (t : tri T) : Prop :=
  zlen (t_ix t) = zlen ix0 /\ zlen (t_v t) = zlen v0 /\ k0 <= t_k t /\
  (forall p, 0 <= p < k0 -> znth 0 (t_ix t) p = znth 0 ix0 p /\ znth s0 (t_v t) p = znth s0 v0 p) /\
  (forall p, k0 <= p < t_k t -> 0 <= znth 0 (t_ix t) p < n /\ side (znth 0 (t_ix t) p) /\ znth 0 iw (znth 0 (t_ix t) p) = p + 1) /\
  (forall c, 0 <= c < n -> side c -> (In c C /\ k0 < znth 0 iw c <= t_k t /\ znth 0 (t_ix t) (znth 0 iw c - 1) = c /\ znth s0 (t_v t) (znth 0 iw c - 1) = f c) \/ (~ In c C /\ znth 0 iw c = 0 /\ f c = s0)).

Lemma TR_other side k0 ix0 v0 C f iw t c f' iw' : TR side k0 ix0 v0 C f iw t -> ~ side c -> (forall q, 0 <= q < n -> q <> c -> znth 0 iw' q = znth 0 iw q) -> (forall q, q <> c -> f' q = f q) -> TR side k0 ix0 v0 (C ++ [c]) f' iw' t.
Proof using.
  intros (H1 & H2 & H3 & H4 & H5 & H6) Hs Hw Hf. unfold TR. repeat match goal with |- _ /\ _ => split end; auto.
  - intros p Hp. destruct (H5 p Hp) as (K1 & K2 & K3). repeat match goal with |- _ /\ _ => split end; auto; try lia. rewrite Hw; auto. congruence || (intros E; rewrite E in K2; auto).
  - intros q Hq Hsq'. assert (Hne : q <> c) by (intros E; subst; auto). rewrite Hw, Hf by auto. rewrite in_app_iff. destruct (H6 q Hq Hsq') as [(K1 & K2)|(K1 & K2)]; [left; tauto|right]. split; [|auto]. intros [HH|[HH|[]]]; [auto|congruence].
Qed.

(** all columns that will be visited: X; room for them *)
Definition room (side : Z -> Prop) (k0 k1 : Z) (ix0 : list Z) (v0 : list T) (X : list Z) : Prop :=
  0 <= k0 /\ k1 <= zlen ix0 /\ k1 <= zlen v0 /\ exists V, NoDup V /\ (forall c, In c V <-> 0 <= c < n /\ side c /\ In c X) /\ k1 = k0 + zlen V.
Lemma TR_nodup side k0 ix0 v0 C f iw t : 0 <= k0 -> TR side k0 ix0 v0 C f iw t -> NoDup (map (znth 0 (t_ix t)) (zrange k0 (t_k t))).
Proof using.
  intros H0 (_ & _ & _ & _ & H5 & _). apply NoDup_map_on; [|apply NoDup_zrange]. intros a b Ha Hb E. apply In_zrange in Ha. apply In_zrange in Hb. destruct (H5 a Ha) as (_ & _ & K1). destruct (H5 b Hb) as (_ & _ & K2). rewrite E in K1. lia.
Qed.
Lemma TR_col_in side k0 ix0 v0 C f iw t c : 0 <= k0 -> TR side k0 ix0 v0 C f iw t -> In c (map (znth 0 (t_ix t)) (zrange k0 (t_k t))) -> 0 <= c < n /\ side c /\ In c C.
Proof using.
  intros H0 (_ & _ & _ & _ & H5 & H6) Hc. apply in_map_iff in Hc. destruct Hc as (p & E & Hp). apply In_zrange in Hp. destruct (H5 p Hp) as (K1 & K2 & K3). rewrite E in *. split; [auto|]. split; [auto|]. destruct (H6 c K1 K2) as [(J & _)|(_ & J & _)]; [auto|lia].
Qed.
Lemma room_lt side k0 k1 ix0 v0 X C f iw t c : room side k0 k1 ix0 v0 X -> TR side k0 ix0 v0 C f iw t -> (forall q, In q C -> In q X) -> 0 <= c < n -> side c -> In c X -> ~ In c C -> t_k t < k1.
Proof using.
  intros (R0 & R1 & R2 & V & RV & RV2 & Rk) HT HC Hc Hs HX Hn.
  assert (Hd : NoDup (c :: map (znth 0 (t_ix t)) (zrange k0 (t_k t)))).
  { constructor; [|exact (TR_nodup _ _ _ _ _ _ _ _ R0 HT)]. intros H. apply (TR_col_in _ _ _ _ _ _ _ _ _ R0 HT) in H. tauto. }
  pose proof (NoDup_incl_length Hd (l' := V)) as HH. cbn [length] in HH. rewrite map_length in HH.
  assert (Hincl : incl (c :: map (znth 0 (t_ix t)) (zrange k0 (t_k t))) V).
  { intros q [Hq|Hq]; apply RV2; [subst; auto|]. apply (TR_col_in _ _ _ _ _ _ _ _ _ R0 HT) in Hq. destruct Hq as (Q1 & Q2 & Q3). auto. }
  specialize (HH Hincl). destruct HT as (_ & _ & H3 & _). pose proof (zlen_zrange k0 (t_k t)) as E. unfold zlen in *. lia.
Qed.
Lemma room_end side k0 k1 ix0 v0 X f iw t : room side k0 k1 ix0 v0 X -> TR side k0 ix0 v0 X f iw t -> t_k t = k1.
Proof using.
  intros (R0 & R1 & R2 & V & RV & RV2 & Rk) HT. pose proof (TR_nodup _ _ _ _ _ _ _ _ R0 HT) as Hd.
  assert (E : length V = length (map (znth 0 (t_ix t)) (zrange k0 (t_k t)))).
  { apply Permutation_length, NoDup_Permutation; auto. intros c. rewrite RV2. split.
    - intros (Hc & Hs & HX). pose proof HT as (_ & _ & _ & _ & _ & H6). destruct (H6 c Hc Hs) as [(_ & J1 & J2 & _)|(J & _)]; [|contradiction]. apply in_map_iff. exists (znth 0 iw c - 1). split; [auto|]. apply In_zrange. lia.
    - intros H. exact (TR_col_in _ _ _ _ _ _ _ _ _ R0 HT H). }
  rewrite map_length in E. destruct HT as (_ & _ & H3 & _). pose proof (zlen_zrange k0 (t_k t)) as E'. unfold zlen in *. lia.
Qed.

Definition upto (f f' : Z -> T) (c : Z) (v : T) : Prop := forall q, f' q = sadd (f q) (if c =? q then v else s0).
Lemma upto_eq f f' c v : upto f f' c v -> f' c = sadd (f c) v.
Proof using. intros H. rewrite H, Z.eqb_refl. auto. Qed.
Lemma upto_ne f f' c v q : upto f f' c v -> q <> c -> f' q = f q.
Proof using RT. intros H Hn. rewrite H. destruct (Z.eqb_spec c q); [congruence|]. ring. Qed.

Lemma tput_wp side k0 k1 ix0 v0 X C f f' iw t c v : room side k0 k1 ix0 v0 X -> TR side k0 ix0 v0 C f iw t -> (forall q, In q C -> In q X) -> zlen iw = n -> 0 <= c < n -> side c -> In c X -> ~ In c C -> upto f f' c v ->
  wp (tput c v iw t) (fun '(iw', t') => TR side k0 ix0 v0 (C ++ [c]) f' iw' t' /\ zlen iw' = n /\ forall q, 0 <= q < n -> q <> c -> znth 0 iw' q = znth 0 iw q).
Proof using RT.
  intros HR HT HC Lw Hc Hs HX Hn Hf. pose proof (room_lt _ _ _ _ _ _ _ _ _ _ _ HR HT HC Hc Hs HX Hn) as Hk. destruct HR as (R0 & R1 & R2 & _). destruct HT as (H1 & H2 & H3 & H4 & H5 & H6). unfold tput.
  wwr; [lia|]. wwr; [lia|]. wwr; [lia|]. cbn [wp]. split; [|split; [len|intros q Hq Hne; apply znth_zupd_neq; lia]].
  assert (Hc0 : znth 0 iw c = 0 /\ f c = s0) by (destruct (H6 c Hc Hs) as [(J & _)|(_ & J)]; [contradiction|auto]). destruct Hc0 as [Hc0 Hf0].
  unfold TR. cbn [t_ix t_v t_k]. repeat match goal with |- _ /\ _ => split end; try len; try lia.
  - intros p Hp. rewrite !znth_zupd_neq by lia. apply H4; auto.
  - intros p Hp. rewrite (znth_zupd 0) by lia. destruct (Z.eqb_spec p (t_k t)) as [->|Hne].
    + rewrite znth_zupd_eq by lia. auto.
    + destruct (H5 p ltac:(lia)) as (K1 & K2 & K3). assert (Hne' : znth 0 (t_ix t) p <> c) by (intros E; rewrite E in K3; lia). rewrite znth_zupd_neq by lia. auto.
  - intros q Hq Hsq'. rewrite (znth_zupd 0 iw) by lia. rewrite in_app_iff. destruct (Z.eqb_spec q c) as [->|Hne].
    + left. replace (t_k t + 1 - 1) with (t_k t) by lia. rewrite !znth_zupd_eq by lia. split; [cbn; auto|]. split; [lia|]. split; [auto|]. rewrite (upto_eq _ _ _ _ Hf), Hf0. ring.
    + rewrite (upto_ne _ _ _ _ _ Hf Hne). destruct (H6 q Hq Hsq') as [(J1 & J2 & J3 & J4)|(J1 & J2 & J3)].
      * left. rewrite !znth_zupd_neq by lia. repeat match goal with |- _ /\ _ => split end; auto; lia.
      * right. split; [intros [HH|[HH|[]]]; [auto|congruence]|auto].
Qed.
Lemma tadd_wp side k0 k1 ix0 v0 X C f f' iw t c v : room side k0 k1 ix0 v0 X -> TR side k0 ix0 v0 C f iw t -> (forall q, In q C -> In q X) -> zlen iw = n -> 0 <= c < n -> side c -> In c X -> upto f f' c v ->
  wp (tadd c v iw t) (fun '(iw', t') => TR side k0 ix0 v0 (C ++ [c]) f' iw' t' /\ zlen iw' = n /\ forall q, 0 <= q < n -> q <> c -> znth 0 iw' q = znth 0 iw q).
Proof using RT.
  intros HR HT HC Lw Hc Hs HX Hf. unfold tadd. wrd 0; [lia|]. pose proof HT as (H1 & H2 & H3 & H4 & H5 & H6). pose proof (H6 c Hc Hs) as D.
  destruct (Z.eqb_spec (znth 0 iw c) 0) as [E|E].
  - apply (tput_wp side k0 k1 ix0 v0 X C f f' iw t c v); auto. destruct HR as (R0 & _). destruct D as [(_ & J & _)|(J & _)]; [lia|auto].
  - destruct D as [(J1 & J2 & J3 & J4)|(_ & J & _)]; [|contradiction]. pose proof HR as (R0 & R1 & R2 & V & RV & RV2 & Rk).
    assert (Hb : t_k t <= k1).
    { pose proof (NoDup_incl_length (TR_nodup _ _ _ _ _ _ _ _ R0 HT) (l' := V)) as HH. rewrite map_length in HH.
      assert (Hincl : incl (map (znth 0 (t_ix t)) (zrange k0 (t_k t))) V). { intros q Hq. apply RV2. apply (TR_col_in _ _ _ _ _ _ _ _ _ R0 HT) in Hq. destruct Hq as (Q1 & Q2 & Q3). auto. }
      specialize (HH Hincl). pose proof (zlen_zrange k0 (t_k t)) as E'. unfold zlen in *. lia. }
    wrd s0; [lia|]. wwr; [lia|]. cbn [wp]. split; [|split; [auto|auto]]. unfold TR. cbn [t_ix t_v t_k]. repeat match goal with |- _ /\ _ => split end; try len; try lia; auto.
    + intros p Hp. rewrite znth_zupd_neq by lia. apply H4; auto.
    + intros q Hq Hsq'. rewrite in_app_iff. destruct (Z.eq_dec q c) as [->|Hne].
      * left. rewrite znth_zupd_eq by lia. rewrite J4, (upto_eq _ _ _ _ Hf). repeat match goal with |- _ /\ _ => split end; auto; lia.
      * rewrite (upto_ne _ _ _ _ _ Hf Hne). destruct (H6 q Hq Hsq') as [(M1 & M2 & M3 & M4)|(M1 & M2 & M3)].
        -- left. assert (znth 0 iw q <> znth 0 iw c) by (intros EE; rewrite EE in M3; congruence). rewrite znth_zupd_neq by lia. repeat match goal with |- _ /\ _ => split end; auto; lia.
        -- right. split; [intros [HH|[HH|[]]]; [auto|congruence]|auto].
Qed.
End P.
