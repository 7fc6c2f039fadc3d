Require Import ZArith List Bool Lia Ring.
From Verif Require Import Base Items Scalar Spec Sort SortProof Ilu SpecIlu DiagProof2 IluProof IluProof2 Ilut.
Import ListNotations.
Open Scope Z_scope.

Section P.
Context {T : Type} {S : Scalar T}.
Hypothesis RT : is_ring S.
Let RT' : @ring_theory T s0 s1 sadd smul ssub sopp (@eq T) := RT.
Add Ring TrIlut : RT'.
Variables n is_ ie : Z.
Hypothesis Hrange : 0 <= is_ <= ie /\ ie <= n.
Variable i : Z.
Hypothesis Hi : is_ <= i < ie.

Local Notation J s p := (znth 0 (t_jbuf s) p).
Local Notation IW s c := (znth 0 (t_iw s) c).
Local Notation W s p := (znth s0 (t_w s) p).

(** the working row after the first j pivots *)
Definition wfT (j : Z) (s : trow (T:=T)) : Prop :=
  zlen (t_jbuf s) = n /\ zlen (t_iw s) = n /\ zlen (t_w s) = n + 1 /\ 0 <= j <= t_lenl s /\ 0 <= t_lenu s /\
  (forall p, 0 <= p < t_lenl s -> is_ <= J s p < i) /\
  (forall p, 0 <= p < j -> IW s (J s p) = -1) /\
  (forall p, j <= p < t_lenl s -> IW s (J s p) = p) /\
  J s i = i /\
  (forall p, i <= p <= i + t_lenu s -> i <= J s p < ie /\ IW s (J s p) = p) /\
  (forall c, is_ <= c < ie -> IW s c = -1 \/ (j <= IW s c < t_lenl s /\ J s (IW s c) = c) \/ (i <= IW s c <= i + t_lenu s /\ J s (IW s c) = c)) /\
  (forall p q, 0 <= p < j -> p < q < t_lenl s -> J s p < J s q).

(** current value of column c *)
Definition valT (s : trow (T:=T)) (c : Z) : T := if IW s c =? -1 then s0 else W s (IW s c).

Lemma wfT_inj j s : wfT j s -> forall p q, 0 <= p < t_lenl s -> 0 <= q < t_lenl s -> J s p = J s q -> p = q.
Proof using Hrange Hi.
  intros (_ & _ & _ & Hj & _ & HL & HD & HP & _ & _ & _ & HO) p q Hp Hq Ee.
  destruct (Z_lt_dec p j), (Z_lt_dec q j).
  - destruct (Z.lt_total p q) as [H|[H|H]]; auto; [specialize (HO p q)|specialize (HO q p)]; lia.
  - specialize (HO p q). lia.
  - specialize (HO q p). lia.
  - pose proof (HP p ltac:(lia)) as E1. pose proof (HP q ltac:(lia)) as E2. rewrite Ee in E1. lia.
Qed.
Lemma wfT_lenl j s : wfT j s -> t_lenl s <= i - is_.
Proof using Hrange Hi.
  intros Hw. pose proof (wfT_inj j s Hw) as Hinj. destruct Hw as (_ & _ & _ & Hj & _ & HL & _).
  pose proof (inj_bound (fun p => J s p) 0 (t_lenl s) is_ i) as H. cbv beta in H. assert (t_lenl s - 0 <= i - is_); [|lia]. apply H; auto; lia.
Qed.
Lemma wfT_lenu j s : wfT j s -> i + t_lenu s < ie.
Proof using Hrange Hi.
  intros (_ & _ & _ & Hj & Hu & _ & _ & _ & _ & HU & _).
  pose proof (inj_bound (fun p => J s p) i (i + t_lenu s + 1) i ie) as H. cbv beta in H. assert (i + t_lenu s + 1 - i <= ie - i); [|lia]. apply H; try lia.
  - intros p Hp. apply HU. lia.
  - intros p q Hp Hq Ee. destruct (HU p ltac:(lia)) as [_ E1], (HU q ltac:(lia)) as [_ E2]. congruence.
Qed.
Lemma wfT_lenl1 j s c : wfT j s -> is_ <= c < i -> IW s c = -1 -> (forall p, 0 <= p < j -> J s p < c) -> t_lenl s < i - is_.
Proof using Hrange Hi.
  intros Hw Hc Hn Hlt. pose proof (wfT_inj j s Hw) as Hinj. pose proof (wfT_lenl j s Hw). destruct Hw as (_ & _ & _ & Hj & _ & HL & HD & HP & _).
  assert (Hne : forall p, 0 <= p < t_lenl s -> J s p <> c).
  { intros p Hp Ee. destruct (Z_lt_dec p j); [specialize (Hlt p); lia|]. specialize (HP p ltac:(lia)). rewrite Ee in HP. lia. }
  pose proof (inj_bound (fun p => if p <? t_lenl s then J s p else c) 0 (t_lenl s + 1) is_ i) as HB. cbv beta in HB.
  assert (t_lenl s + 1 - 0 <= i - is_); [|lia]. apply HB; try lia.
  - intros p Hp. destruct (Z.ltb_spec p (t_lenl s)); [apply HL; lia|lia].
  - intros p q Hp Hq. destruct (Z.ltb_spec p (t_lenl s)), (Z.ltb_spec q (t_lenl s)); intro Ee; [apply Hinj; auto; lia| | |lia]; exfalso; [apply (Hne p)|apply (Hne q)]; auto; lia.
Qed.
Lemma wfT_lenu1 j s c : wfT j s -> i <= c < ie -> IW s c = -1 -> i + t_lenu s + 1 < ie.
Proof using Hrange Hi.
  intros Hw Hc Hn. pose proof (wfT_lenu j s Hw). destruct Hw as (_ & _ & _ & Hj & Hu & _ & _ & _ & _ & HU & _).
  pose proof (inj_bound (fun p => if p <? i + t_lenu s + 1 then J s p else c) i (i + t_lenu s + 2) i ie) as HB. cbv beta in HB.
  assert (i + t_lenu s + 2 - i <= ie - i); [|lia]. apply HB; try lia.
  - intros p Hp. destruct (Z.ltb_spec p (i + t_lenu s + 1)); [apply HU; lia|lia].
  - intros p q Hp Hq. destruct (Z.ltb_spec p (i + t_lenu s + 1)), (Z.ltb_spec q (i + t_lenu s + 1)); intro Ee.
    + destruct (HU p ltac:(lia)) as [_ E1], (HU q ltac:(lia)) as [_ E2]. congruence.
    + destruct (HU p ltac:(lia)) as [_ E1]. rewrite Ee in E1. lia.
    + destruct (HU q ltac:(lia)) as [_ E1]. rewrite <- Ee in E1. lia.
    + lia.
Qed.
Lemma wfT_unproc j s c : wfT j s -> is_ <= c < ie -> IW s c <> -1 -> forall p, 0 <= p < j -> J s p <> c.
Proof. intros (_ & _ & _ & _ & _ & _ & HD & _) Hc Hn p Hp Ee. specialize (HD p Hp). rewrite Ee in HD. auto. Qed.

(** new state keeps what was there *)
Definition keepsT (j : Z) (s s' : trow (T:=T)) : Prop :=
  t_lenl s <= t_lenl s' /\ t_lenu s <= t_lenu s' /\ (forall p, 0 <= p < t_lenl s -> J s' p = J s p) /\ (forall p, 0 <= p < j -> W s' p = W s p).

Lemma app_l_wp j c v s : wfT j s -> is_ <= c < i -> IW s c = -1 -> (forall p, 0 <= p < j -> J s p < c) ->
  wp (app_l c v s) (fun s' => wfT j s' /\ keepsT j s s' /\ (forall c', is_ <= c' < ie -> c' <> c -> IW s' c' = IW s c' /\ valT s' c' = valT s c') /\ IW s' c <> -1 /\ valT s' c = v).
Proof.
  intros Hw Hc Hn Hlt. pose proof (wfT_lenl1 j s c Hw Hc Hn Hlt) as B1. pose proof (wfT_lenu j s Hw) as B2.
  pose proof Hw as (L1 & L2 & L3 & Hj & Hu & HL & HD & HP & HI & HU & HW & HO).
  unfold app_l. wwr; [lia|]. wwr; [lia|]. wwr; [lia|]. apply wp_ok. cbn [t_jbuf t_iw t_w t_lenl t_lenu].
  assert (Hne : forall p, 0 <= p < t_lenl s -> J s p <> c).
  { intros p Hp Ee. destruct (Z_lt_dec p j); [specialize (Hlt p); lia|]. specialize (HP p ltac:(lia)). rewrite Ee in HP. lia. }
  assert (HneU : forall p, i <= p <= i + t_lenu s -> J s p <> c) by (intros p Hp; destruct (HU p Hp); lia).
  split; [|split; [|split; [|split]]].
  - unfold wfT. cbn [t_jbuf t_iw t_w t_lenl t_lenu]. rewrite !zlen_zupd. do 3 (split; [auto|]). split; [lia|]. split; [auto|]. split; [|split; [|split; [|split; [|split; [|split]]]]].
    + intros p Hp. destruct (Z.eq_dec p (t_lenl s)) as [->|]; [rewrite znth_zupd_eq by lia; lia|rewrite znth_zupd_neq by lia; apply HL; lia].
    + intros p Hp. rewrite (znth_zupd_neq 0 (t_jbuf s)) by lia. rewrite znth_zupd_neq by (try specialize (Hne p); lia). apply HD; auto.
    + intros p Hp. destruct (Z.eq_dec p (t_lenl s)) as [->|]; [rewrite (znth_zupd_eq 0 (t_jbuf s)) by lia; rewrite znth_zupd_eq by lia; auto|]. rewrite (znth_zupd_neq 0 (t_jbuf s)) by lia. rewrite znth_zupd_neq by (try specialize (Hne p); lia). apply HP; lia.
    + rewrite znth_zupd_neq by lia. auto.
    + intros p Hp. rewrite (znth_zupd_neq 0 (t_jbuf s)) by lia. destruct (HU p Hp) as [E1 E2]. split; auto. rewrite znth_zupd_neq by lia. auto.
    + intros c' Hc'. destruct (Z.eq_dec c' c) as [->|Hnc].
      * right; left. rewrite (znth_zupd_eq 0 (t_iw s)) by lia. split; [lia|]. rewrite znth_zupd_eq by lia. auto.
      * rewrite (znth_zupd_neq 0 (t_iw s)) by lia. destruct (HW c' Hc') as [E|[[E1 E2]|[E1 E2]]]; [left; auto|right; left|right; right]; (split; [lia|]; rewrite znth_zupd_neq by lia; auto).
    + intros p q Hp Hq. rewrite (znth_zupd_neq 0 (t_jbuf s) (t_lenl s) p) by lia. destruct (Z.eq_dec q (t_lenl s)) as [->|]; [rewrite znth_zupd_eq by lia; apply Hlt; lia|rewrite znth_zupd_neq by lia; apply HO; lia].
  - unfold keepsT. cbn [t_jbuf t_iw t_w t_lenl t_lenu]. split; [lia|]. split; [lia|]. split; intros p Hp; rewrite znth_zupd_neq by lia; auto.
  - intros c' Hc' Hnc. unfold valT. cbn [t_jbuf t_iw t_w t_lenl t_lenu]. rewrite znth_zupd_neq by lia. split; auto. destruct (Z.eqb_spec (IW s c') (-1)); auto. destruct (HW c' Hc') as [E|[[E1 E2]|[E1 E2]]]; [contradiction| |]; rewrite znth_zupd_neq by lia; auto.
  - rewrite znth_zupd_eq by lia. lia.
  - unfold valT. cbn [t_jbuf t_iw t_w t_lenl t_lenu]. rewrite znth_zupd_eq by lia. destruct (Z.eqb_spec (t_lenl s) (-1)); [lia|]. rewrite znth_zupd_eq by lia. auto.
Qed.

Lemma app_u_wp j c v s : wfT j s -> i <= c < ie -> IW s c = -1 ->
  wp (app_u i c v s) (fun s' => wfT j s' /\ keepsT j s s' /\ t_lenl s' = t_lenl s /\ (forall c', is_ <= c' < ie -> c' <> c -> IW s' c' = IW s c' /\ valT s' c' = valT s c') /\ IW s' c <> -1 /\ valT s' c = v).
Proof.
  intros Hw Hc Hn. pose proof (wfT_lenl j s Hw) as B1. pose proof (wfT_lenu1 j s c Hw Hc Hn) as B2.
  pose proof Hw as (L1 & L2 & L3 & Hj & Hu & HL & HD & HP & HI & HU & HW & HO).
  unfold app_u. set (p0 := i + (t_lenu s + 1)). wwr; [lia|]. wwr; [lia|]. wwr; [lia|]. apply wp_ok. cbn [t_jbuf t_iw t_w t_lenl t_lenu].
  assert (HneU : forall p, i <= p <= i + t_lenu s -> J s p <> c) by (intros p Hp Ee; destruct (HU p Hp) as [_ E]; rewrite Ee in E; lia).
  split; [|split; [|split; [|split; [|split]]]].
  - unfold wfT. cbn [t_jbuf t_iw t_w t_lenl t_lenu]. rewrite !zlen_zupd. do 3 (split; [auto|]). split; [lia|]. split; [lia|]. split; [|split; [|split; [|split; [|split; [|split]]]]].
    + intros p Hp. rewrite znth_zupd_neq by lia. apply HL; lia.
    + intros p Hp. pose proof (HL p ltac:(lia)). rewrite (znth_zupd_neq 0 (t_jbuf s)) by lia. rewrite znth_zupd_neq by lia. apply HD; auto.
    + intros p Hp. pose proof (HL p ltac:(lia)). rewrite (znth_zupd_neq 0 (t_jbuf s)) by lia. rewrite znth_zupd_neq by lia. apply HP; auto.
    + rewrite znth_zupd_neq by lia. auto.
    + intros p Hp. destruct (Z.eq_dec p p0) as [->|].
      * rewrite (znth_zupd_eq 0 (t_jbuf s)) by lia. split; [lia|]. rewrite znth_zupd_eq by lia. auto.
      * rewrite (znth_zupd_neq 0 (t_jbuf s)) by lia. destruct (HU p ltac:(lia)) as [E1 E2]. split; auto. rewrite znth_zupd_neq by (try specialize (HneU p); lia). auto.
    + intros c' Hc'. destruct (Z.eq_dec c' c) as [->|Hnc].
      * right; right. rewrite (znth_zupd_eq 0 (t_iw s)) by lia. split; [lia|]. rewrite znth_zupd_eq by lia. auto.
      * rewrite (znth_zupd_neq 0 (t_iw s)) by lia. destruct (HW c' Hc') as [E|[[E1 E2]|[E1 E2]]]; [left; auto|right; left|right; right]; (split; [lia|]; rewrite znth_zupd_neq by lia; auto).
    + intros p q Hp Hq. rewrite !znth_zupd_neq by lia. apply HO; lia.
  - unfold keepsT. cbn [t_jbuf t_iw t_w t_lenl t_lenu]. split; [lia|]. split; [lia|]. split; intros p Hp; rewrite znth_zupd_neq by lia; auto.
  - auto.
  - intros c' Hc' Hnc. unfold valT. cbn [t_jbuf t_iw t_w t_lenl t_lenu]. rewrite znth_zupd_neq by lia. split; auto. destruct (Z.eqb_spec (IW s c') (-1)); auto. destruct (HW c' Hc') as [E|[[E1 E2]|[E1 E2]]]; [contradiction| |]; rewrite znth_zupd_neq by lia; auto.
  - rewrite znth_zupd_eq by lia. lia.
  - unfold valT. cbn [t_jbuf t_iw t_w t_lenl t_lenu]. rewrite znth_zupd_eq by lia. destruct (Z.eqb_spec p0 (-1)); [lia|]. rewrite znth_zupd_eq by lia. auto.
Qed.

(** overwriting the value of a present column *)
Lemma upd_wp j c v s : wfT j s -> is_ <= c < ie -> IW s c <> -1 -> let s' := mkTrow (t_jbuf s) (t_iw s) (zupd (t_w s) (IW s c) v) (t_lenl s) (t_lenu s) in
  0 <= IW s c < n + 1 /\ wfT j s' /\ keepsT j s s' /\ (forall c', is_ <= c' < ie -> c' <> c -> valT s' c' = valT s c') /\ valT s' c = v.
Proof.
  intros Hw Hc Hn s'. pose proof (wfT_lenl j s Hw) as B1. pose proof (wfT_lenu j s Hw) as B2.
  pose proof Hw as (L1 & L2 & L3 & Hj & Hu & HL & HD & HP & HI & HU & HW & HO).
  assert (Hb : j <= IW s c <= i + t_lenu s /\ J s (IW s c) = c) by (destruct (HW c Hc) as [E|[[E1 E2]|[E1 E2]]]; [contradiction| |]; split; auto; lia).
  split; [lia|]. split; [|split; [|split]].
  - unfold wfT, s'. cbn [t_jbuf t_iw t_w t_lenl t_lenu]. rewrite zlen_zupd. repeat (split; auto).
  - unfold keepsT, s'. cbn [t_jbuf t_iw t_w t_lenl t_lenu]. split; [lia|]. split; [lia|]. split; auto. intros p Hp. rewrite znth_zupd_neq by lia. auto.
  - intros c' Hc' Hnc. unfold valT, s'. cbn [t_jbuf t_iw t_w t_lenl t_lenu]. destruct (Z.eqb_spec (IW s c') (-1)); auto. rewrite znth_zupd_neq; auto; [lia|]. intro Ee. apply Hnc. destruct (HW c' Hc') as [E|[[E1 E2]|[E1 E2]]]; [contradiction| |]; destruct Hb as [_ Hb]; congruence.
  - unfold valT, s'. cbn [t_jbuf t_iw t_w t_lenl t_lenu]. destruct (Z.eqb_spec (IW s c) (-1)); [contradiction|]. rewrite znth_zupd_eq by lia. auto.
Qed.
End P.
