(** Every asynchronous execution agrees with the synchronous one; no deadlock. *)
Require Import ZArith List Bool Lia PeanoNat.
From Verif Require Import Base Net.
Import ListNotations.
Open Scope Z_scope.

Section NetP.
Context {St Msg : Type}.
Variable P : Z.
Variable partners : nat -> Z -> St -> list Z.
Variable message : nat -> Z -> St -> Z -> res Msg.
Variable digest : nat -> Z -> St -> list Msg -> res St.
Variable eager : nat -> Z -> bool.
Variable ST : nat -> Z -> St.
Variable M : nat -> Z -> Z -> Msg.
Let nb (r : nat) (p : Z) : list Z := partners r p (ST r p).
Hypothesis Hmsg : forall r p t, 0 <= p < P -> 0 <= t < zlen (nb r p) -> message r p (ST r p) t = Ok (M r p (znth 0 (nb r p) t)).
Hypothesis Hdig : forall r p, 0 <= p < P -> digest r p (ST r p) (map (fun q => M r q p) (nb r p)) = Ok (ST (Datatypes.S r) p).
Hypothesis Hsym : forall r p q, 0 <= p < P -> In q (nb r p) -> 0 <= q < P /\ In p (nb r q).
Hypothesis Hnd : forall r p, 0 <= p < P -> NoDup (nb r p).

Notation proc := (@proc St Msg).
Notation config := (@config St Msg).
Definition mem (q : Z) (l : list Z) : bool := existsb (Z.eqb q) l.
Lemma mem_In q l : mem q l = true <-> In q l.
Proof. unfold mem. rewrite existsb_exists. split; [intros (x & Hx & E); apply Z.eqb_eq in E; subst; auto|intros H; exists q; split; [auto|apply Z.eqb_refl]]. Qed.
Definition window (q p : Z) (a b : nat) : list Msg := flat_map (fun t => if mem p (nb t q) then [M t q p] else []) (seq a (b - a)).
Lemma window_snoc q p a b : (a <= b)%nat -> window q p a (S b) = window q p a b ++ (if mem p (nb b q) then [M b q p] else []).
Proof.
  intros H. unfold window. replace (S b - a)%nat with (b - a + 1)%nat by lia. rewrite seq_app, flat_map_app. f_equal.
  cbn [seq flat_map]. rewrite app_nil_r. replace (a + (b - a))%nat with b by lia. reflexivity.
Qed.
Lemma window_cons q p a b : (a < b)%nat -> window q p a b = (if mem p (nb a q) then [M a q p] else []) ++ window q p (S a) b.
Proof. intros H. unfold window. replace (b - a)%nat with (S (b - S a)) by lia. reflexivity. Qed.
Lemma window_empty q p a b : (b <= a)%nat -> window q p a b = [].
Proof. intros H. unfold window. replace (b - a)%nat with O by lia. reflexivity. Qed.

(** what of round p_round x process q has already sent to p / got from p *)
Definition sent_to (x : proc) (q p : Z) : bool := mem p (firstn (Z.to_nat (p_sent x)) (nb (p_round x) q)).
Definition got_from (x : proc) (p q : Z) : bool :=
  existsb (fun t => (znth 0 (nb (p_round x) p) t =? q) && match znth None (p_got x) t with Some _ => true | None => false end) (zrange 0 (zlen (nb (p_round x) p))).
Definition hi (x : proc) (q p : Z) : nat := if sent_to x q p then S (p_round x) else p_round x.
Definition lo (x : proc) (p q : Z) : nat := if got_from x p q then S (p_round x) else p_round x.

Definition proc_ok (p : Z) (x : proc) : Prop :=
  p_st x = ST (p_round x) p /\ 0 <= p_sent x <= zlen (nb (p_round x) p) /\ zlen (p_got x) = zlen (nb (p_round x) p) /\
  (forall t m, 0 <= t < zlen (nb (p_round x) p) -> znth None (p_got x) t = Some m ->
     m = M (p_round x) (znth 0 (nb (p_round x) p) t) p /\ p_sent x = zlen (nb (p_round x) p)).
Definition chan_ok (q p : Z) (xq xp : proc) (l : list Msg) : Prop :=
  l = window q p (lo xp p q) (hi xq q p) /\ (forall t, (hi xq q p <= t < lo xp p q)%nat -> mem p (nb t q) = false).
Definition inv (c : config) : Prop :=
  (forall p, 0 <= p < P -> proc_ok p (c_proc c p)) /\
  (forall q p, 0 <= q < P -> 0 <= p < P -> chan_ok q p (c_proc c q) (c_proc c p) (c_chan c q p)).

Lemma mine p x : proc_ok p x -> my_partners partners p x = nb (p_round x) p.
Proof. intros (H & _). unfold my_partners. rewrite H. reflexivity. Qed.
Lemma znth_repeat_None t k : znth (@None Msg) (repeat None k) t = None.
Proof. unfold znth. destruct (t <? 0); [reflexivity|]. destruct (nth_in_or_default (Z.to_nat t) (repeat (@None Msg) k) None) as [H|H]; [apply repeat_spec in H; exact H|exact H]. Qed.
Lemma zlen_repeat {A} (a : A) k : zlen (repeat a k) = Z.of_nat k.
Proof. unfold zlen. rewrite repeat_length. reflexivity. Qed.
Lemma fresh_got r p q s k : got_from (mkProc r s 0 (repeat None k)) p q = false.
Proof.
  unfold got_from. cbn [p_round p_got]. apply not_true_is_false. intros C. apply existsb_exists in C. destruct C as (t & _ & C).
  apply andb_true_iff in C. destruct C as (_ & C). rewrite znth_repeat_None in C. discriminate.
Qed.
Lemma fresh_sent r q p s g : sent_to (mkProc r s 0 g) q p = false.
Proof. reflexivity. Qed.
Lemma start_ok r p : 0 <= p < P -> proc_ok p (start partners r p (ST r p)).
Proof.
  intros Hp. unfold start, proc_ok. cbn [p_st p_round p_sent p_got]. split; [reflexivity|]. split; [unfold zlen; lia|]. split; [apply zlen_repeat|].
  intros t m Ht E. rewrite znth_repeat_None in E. discriminate.
Qed.
Lemma initial_inv s0 : (forall p, 0 <= p < P -> s0 p = ST 0 p) -> inv (initial partners s0).
Proof.
  intros H0. split.
  - intros p Hp. cbn [initial c_proc]. rewrite H0 by auto. apply start_ok; auto.
  - intros q p Hq Hp. cbn [initial c_proc c_chan]. rewrite !H0 by auto. unfold chan_ok, lo, hi, start. rewrite fresh_got, fresh_sent. cbn [p_round].
    split; [rewrite window_empty by lia; reflexivity|intros; lia].
Qed.

(** positions of a partner *)
Lemma NoDup_znth (l : list Z) i j : NoDup l -> 0 <= i < zlen l -> 0 <= j < zlen l -> znth 0 l i = znth 0 l j -> i = j.
Proof.
  intros ND Hi Hj E. unfold zlen in *. rewrite NoDup_nth in ND. unfold znth in E. destruct (i <? 0) eqn:Ei, (j <? 0) eqn:Ej; try lia.
  specialize (ND (Z.to_nat i) (Z.to_nat j) ltac:(lia) ltac:(lia) E). lia.
Qed.
Lemma In_pos (l : list Z) q : In q l -> exists t, 0 <= t < zlen l /\ znth 0 l t = q.
Proof.
  intros H. apply (In_nth _ _ 0) in H. destruct H as (k & Hk & E). exists (Z.of_nat k). unfold zlen. split; [lia|].
  unfold znth. destruct (Z.of_nat k <? 0) eqn:C; [lia|]. rewrite Nat2Z.id. exact E.
Qed.
Lemma firstn_In (l : list Z) k q : 0 <= k <= zlen l -> (In q (firstn (Z.to_nat k) l) <-> exists t, 0 <= t < k /\ znth 0 l t = q).
Proof.
  intros Hk. unfold zlen in Hk. split.
  - intros H. apply (In_nth _ _ 0) in H. destruct H as (j & Hj & E). rewrite firstn_length in Hj. exists (Z.of_nat j). split; [lia|].
    unfold znth. destruct (Z.of_nat j <? 0) eqn:C; [lia|]. rewrite Nat2Z.id. rewrite <- E.
    rewrite <- (firstn_skipn (Z.to_nat k) l) at 1. rewrite app_nth1 by (rewrite firstn_length; lia). reflexivity.
  - intros (t & Ht & E). unfold znth in E. destruct (t <? 0) eqn:C; [lia|]. rewrite <- E.
    rewrite <- (firstn_skipn (Z.to_nat k) l) at 1. rewrite app_nth1 by (rewrite firstn_length; lia). apply nth_In. rewrite firstn_length. lia.
Qed.
Lemma sent_spec x q p : 0 <= p_sent x <= zlen (nb (p_round x) q) ->
  (sent_to x q p = true <-> exists t, 0 <= t < p_sent x /\ znth 0 (nb (p_round x) q) t = p).
Proof. intros H. unfold sent_to. rewrite mem_In. apply firstn_In. exact H. Qed.
Lemma got_spec x p q : (got_from x p q = true <-> exists t m, 0 <= t < zlen (nb (p_round x) p) /\ znth 0 (nb (p_round x) p) t = q /\ znth None (p_got x) t = Some m).
Proof.
  unfold got_from. rewrite existsb_exists. split.
  - intros (t & Ht & C). apply In_zrange in Ht. apply andb_true_iff in C. destruct C as (C1 & C2). apply Z.eqb_eq in C1.
    destruct (znth None (p_got x) t) as [m|] eqn:E; [|discriminate]. exists t, m. auto.
  - intros (t & m & Ht & E & G). exists t. split; [apply In_zrange; exact Ht|]. rewrite E, Z.eqb_refl, G. reflexivity.
Qed.

(** steps keep the invariant, and never crash *)
Lemma step_inv c o : inv c -> step P partners message digest eager c o -> exists c', o = Some c' /\ inv c'.
Proof.
  intros (IP & IC) H. destruct H as [p q m x Hp Hlt Hq Hm|p x Hp Hlt Hm|p t q m l x Hp Hs Ht Hg Hq Hc|p msgs s' x Hp Hs Ha He Hd|p msgs x Hp Hs Ha Hd].
  - (* send *)
    pose proof (IP p Hp) as PO. fold x in PO. rewrite (mine p x PO) in Hlt, Hq. destruct PO as (E1 & E2 & E3 & E4).
    assert (EM : m = M (p_round x) p q). { rewrite E1, Hmsg in Hm by lia. inversion Hm. subst. reflexivity. }
    set (x' := mkProc (p_round x) (p_st x) (p_sent x + 1) (p_got x)).
    assert (Hq' : 0 <= q < P). { apply (Hsym (p_round x) p q Hp). subst q. unfold znth. destruct (_ <? 0) eqn:C; [lia|]. apply nth_In. unfold zlen in Hlt. lia. }
    assert (PO' : proc_ok p x').
    { split; [exact E1|]. cbn [x' p_sent p_round p_got]. split; [lia|]. split; [exact E3|]. intros t m' Ht Hg. destruct (E4 t m' Ht Hg). lia. }
    assert (NS : sent_to x p q = false).
    { apply not_true_is_false. intros C. apply (sent_spec x p q E2) in C. destruct C as (t & Ht & C). rewrite Hq in C.
      apply NoDup_znth in C; [lia|apply Hnd; auto|lia|lia]. }
    assert (NS' : sent_to x' p q = true). { apply (sent_spec x' p q); [cbn [x' p_sent p_round]; lia|]. exists (p_sent x). cbn [x' p_sent p_round]. split; [lia|auto]. }
    assert (SO : forall b, b <> q -> sent_to x' p b = sent_to x p b).
    { intros b Hb. apply eq_true_iff_eq. rewrite (sent_spec x' p b), (sent_spec x p b) by (cbn [x' p_sent p_round]; lia). cbn [x' p_sent p_round]. split; intros (t & Ht & E).
      - exists t. split; [|exact E]. assert (t <> p_sent x) by congruence. lia.
      - exists t. split; [lia|exact E]. }
    assert (GO : forall a, got_from x' p a = got_from x p a) by reflexivity.
    eexists. split; [reflexivity|]. split.
    + intros a Ha. cbn [set_chan set_proc c_proc]. destruct (Z.eqb_spec a p) as [->|]; [exact PO'|apply IP; auto].
    + intros a b Ha Hb. cbn [set_chan set_proc c_proc c_chan].
      (* the receiver bound is unchanged *)
      assert (LO : forall a0, 0 <= a0 < P -> lo (if (b =? p)%Z then x' else c_proc c b) b a0 = lo (c_proc c b) b a0).
      { intros a0 _. destruct (Z.eqb_spec b p) as [->|]; [|reflexivity]. fold x. unfold lo. rewrite GO. reflexivity. }
      pose proof (IC a b Ha Hb) as (C1 & C2). unfold chan_ok. rewrite (LO a Ha).
      destruct (Z.eqb_spec a p) as [->|Hne].
      * fold x in C1, C2. destruct (Z.eqb_spec b q) as [->|Hne]; cbn [andb].
        -- unfold hi in *. rewrite NS in C1, C2. rewrite NS'. cbn [x' p_round].
           assert (ME : mem q (nb (p_round x) p) = true). { apply mem_In. rewrite Hq. unfold znth. destruct (_ <? 0) eqn:C; [lia|]. apply nth_In. unfold zlen in Hlt. lia. }
           assert (LE : (lo (c_proc c q) q p <= p_round x)%nat). { destruct (Nat.le_gt_cases (lo (c_proc c q) q p) (p_round x)); [auto|]. rewrite C2 in ME by lia. discriminate. }
           split; [|intros; lia]. rewrite window_snoc by exact LE. rewrite ME, C1, EM. reflexivity.
        -- unfold hi in *. rewrite SO by auto. exact (conj C1 C2).
      * cbn [andb]. exact (conj C1 C2).
  - (* send crash *)
    pose proof (IP p Hp) as PO. fold x in PO. rewrite (mine p x PO) in Hlt. destruct PO as (E1 & E2 & _). exfalso. eapply Hm. rewrite E1, Hmsg by lia. reflexivity.
  - (* recv *)
    pose proof (IP p Hp) as PO. fold x in PO. rewrite (mine p x PO) in Hs, Ht, Hq. destruct PO as (E1 & E2 & E3 & E4).
    set (x' := mkProc (p_round x) (p_st x) (p_sent x) (zupd (p_got x) t (Some m))).
    assert (IQ : In q (nb (p_round x) p)). { rewrite Hq. unfold znth. destruct (_ <? 0) eqn:C; [lia|]. apply nth_In. unfold zlen in Ht. lia. }
    destruct (Hsym _ _ _ Hp IQ) as (Hq' & IP').
    assert (NG : got_from x p q = false).
    { apply not_true_is_false. intros C. apply got_spec in C. destruct C as (t' & m' & Ht' & C & G). rewrite Hq in C.
      apply NoDup_znth in C; [subst t'; congruence|apply Hnd; auto|lia|lia]. }
    assert (NG' : got_from x' p q = true).
    { apply got_spec. exists t, m. cbn [x' p_round p_got]. split; [exact Ht|]. split; [auto|]. apply znth_zupd_eq. lia. }
    assert (GO : forall a, a <> q -> got_from x' p a = got_from x p a).
    { intros a Ha. apply eq_true_iff_eq. rewrite !got_spec. cbn [x' p_round p_got]. split; intros (t' & m' & Ht' & C & G).
      - exists t', m'. split; [exact Ht'|]. split; [exact C|]. rewrite znth_zupd in G by lia. destruct (Z.eqb_spec t' t) as [->|]; [congruence|exact G].
      - exists t', m'. split; [exact Ht'|]. split; [exact C|]. rewrite znth_zupd by lia. destruct (Z.eqb_spec t' t) as [->|]; [congruence|exact G]. }
    assert (SO : forall b, sent_to x' p b = sent_to x p b) by reflexivity.
    pose proof (IC q p Hq' Hp) as (C1 & C2). fold x in C1, C2. unfold lo in C1, C2. rewrite NG in C1, C2. rewrite Hc in C1.
    assert (LT : (p_round x < hi (c_proc c q) q p)%nat). { destruct (Nat.lt_ge_cases (p_round x) (hi (c_proc c q) q p)); [auto|]. rewrite window_empty in C1 by auto. discriminate. }
    rewrite window_cons in C1 by exact LT. assert (ME : mem p (nb (p_round x) q) = true) by (apply mem_In; exact IP'). rewrite ME in C1. cbn [app] in C1.
    injection C1 as EM EL.
    assert (PO' : proc_ok p x').
    { split; [exact E1|]. cbn [x' p_sent p_round p_got]. split; [lia|]. split; [rewrite zlen_zupd; exact E3|]. intros t' m' Ht' Hg'. split; [|exact Hs].
      rewrite znth_zupd in Hg' by lia. destruct (Z.eqb_spec t' t) as [->|]; [|apply (E4 t' m' Ht' Hg')]. injection Hg' as <-. rewrite <- Hq. exact EM. }
    eexists. split; [reflexivity|]. split.
    + intros a Ha. cbn [set_chan set_proc c_proc]. destruct (Z.eqb_spec a p) as [->|]; [exact PO'|apply IP; auto].
    + intros a b Ha Hb. cbn [set_chan set_proc c_proc c_chan].
      assert (HI : forall b0, hi (if a =? p then x' else c_proc c a) a b0 = hi (c_proc c a) a b0).
      { intros b0. destruct (Z.eqb_spec a p) as [->|]; [|reflexivity]. fold x. unfold hi. rewrite SO. reflexivity. }
      unfold chan_ok. rewrite HI. destruct (Z.eqb_spec b p) as [->|Hne].
      * destruct (Z.eqb_spec a q) as [->|Hne]; cbn [andb].
        -- unfold lo. rewrite NG'. cbn [x' p_round]. split; [exact EL|intros; lia].
        -- pose proof (IC a p Ha Hp) as D. fold x in D. unfold chan_ok, lo in D. unfold lo. rewrite GO by auto. exact D.
      * rewrite andb_false_r. exact (IC a b Ha Hb).
  - (* finish *)
    pose proof (IP p Hp) as PO. fold x in PO. rewrite (mine p x PO) in Hs. pose proof PO as (E1 & E2 & E3 & E4).
    assert (G : forall t, 0 <= t < zlen (nb (p_round x) p) -> exists m, znth None (p_got x) t = Some m).
    { intros t Ht. rewrite <- E3 in Ht. clear - Ha Ht. revert msgs t Ht Ha. induction (p_got x) as [|o l IH]; intros msgs t Ht Ha; [unfold zlen in Ht; cbn in Ht; lia|].
      cbn [all_got fold_right] in Ha. destruct o as [m|]; [|discriminate]. destruct (fold_right _ _ l) as [r|] eqn:E; [|discriminate].
      destruct (Z.eq_dec t 0) as [->|]; [exists m; reflexivity|]. destruct (IH r (t - 1) ltac:(unfold zlen in *; cbn [length] in Ht; lia) E) as (m' & Hm'). exists m'. rewrite <- Hm'.
      unfold znth. destruct (t <? 0) eqn:C1, (t - 1 <? 0) eqn:C2; try lia. replace (Z.to_nat t) with (S (Z.to_nat (t - 1))) by lia. reflexivity. }
    assert (EM : msgs = map (fun q => M (p_round x) q p) (nb (p_round x) p)).
    { assert (G' : forall t, 0 <= t < zlen (nb (p_round x) p) -> znth None (p_got x) t = Some (M (p_round x) (znth 0 (nb (p_round x) p) t) p)).
      { intros t Ht. destruct (G t Ht) as (m & Hm). rewrite Hm. f_equal. apply (E4 t m Ht Hm). }
      clear - Ha E3 G'. revert msgs Ha. generalize dependent (p_got x). induction (nb (p_round x) p) as [|q l IH]; intros g E3 G' msgs Ha.
      - destruct g; [|unfold zlen in E3; cbn in E3; lia]. cbn in Ha. inversion Ha. reflexivity.
      - destruct g as [|o g]; [unfold zlen in E3; cbn in E3; lia|]. cbn [all_got fold_right] in Ha.
        pose proof (G' 0 ltac:(unfold zlen; cbn [length]; lia)) as G0. cbn in G0. subst o.
        destruct (fold_right _ _ g) as [r|] eqn:E; [|discriminate]. inversion Ha. subst msgs. cbn [map]. f_equal.
        apply (IH g); [unfold zlen in *; cbn [length] in E3; lia| |exact E].
        intros t Ht. specialize (G' (t + 1) ltac:(unfold zlen in *; cbn [length]; lia)). unfold znth in *.
        destruct (t + 1 <? 0) eqn:C1, (t <? 0) eqn:C2; try lia. replace (Z.to_nat (t + 1)) with (S (Z.to_nat t)) in G' by lia. exact G'. }
    assert (ES : s' = ST (S (p_round x)) p). { rewrite E1, EM, Hdig in Hd by auto. inversion Hd. reflexivity. } subst s'.
    set (x' := start partners (S (p_round x)) p (ST (S (p_round x)) p)).
    assert (HI : forall b, hi x' p b = S (p_round x)) by reflexivity.
    assert (LO : forall a, lo x' p a = S (p_round x)) by (intros a; unfold lo, x', start; rewrite fresh_got; reflexivity).
    assert (HS : forall b, (sent_to x p b = true) \/ mem b (nb (p_round x) p) = false).
    { intros b. destruct (mem b (nb (p_round x) p)) eqn:E; [left|right; reflexivity]. apply mem_In, In_pos in E. destruct E as (t & Ht & E).
      apply (sent_spec x p b E2). exists t. split; [lia|exact E]. }
    assert (HG : forall a, (got_from x p a = true) \/ mem a (nb (p_round x) p) = false).
    { intros a. destruct (mem a (nb (p_round x) p)) eqn:E; [left|right; reflexivity]. apply mem_In, In_pos in E. destruct E as (t & Ht & E).
      apply got_spec. destruct (G t Ht) as (m & Hm). exists t, m. auto. }
    eexists. split; [reflexivity|]. fold x'. split.
    + intros a Ha'. cbn [set_proc c_proc]. destruct (Z.eqb_spec a p) as [->|]; [apply start_ok; auto|apply IP; auto].
    + intros a b Ha' Hb. cbn [set_proc c_proc c_chan]. pose proof (IC a b Ha' Hb) as (C1 & C2).
      assert (WH : forall l, (forall t, (hi (c_proc c a) a b <= t < l)%nat -> mem b (nb t a) = false) -> window a b l (hi (c_proc c a) a b) = window a b l (hi (if (a =? p)%Z then x' else c_proc c a) a b) /\
          (forall t, (hi (if (a =? p)%Z then x' else c_proc c a) a b <= t < l)%nat -> mem b (nb t a) = false)).
      { intros l Hl. destruct (Z.eqb_spec a p) as [->|]; [|split; [reflexivity|exact Hl]]. rewrite HI. fold x in Hl |- *.
        assert (EH : hi x p b = S (p_round x) \/ hi x p b = p_round x /\ mem b (nb (p_round x) p) = false).
        { destruct (HS b) as [E|E]; [left; unfold hi; rewrite E; reflexivity|]. unfold hi. destruct (sent_to x p b); [left; reflexivity|right; auto]. }
        destruct EH as [EH|(EH & EN)]; rewrite EH in *; [split; [reflexivity|exact Hl]|]. split; [|intros t Ht'; apply Hl; lia].
        destruct (Nat.le_gt_cases l (p_round x)); [rewrite window_snoc by auto; rewrite EN, app_nil_r; reflexivity|rewrite !window_empty by lia; reflexivity]. }
      assert (WL : window a b (lo (c_proc c b) b a) (hi (c_proc c a) a b) = window a b (lo (if (b =? p)%Z then x' else c_proc c b) b a) (hi (c_proc c a) a b) /\
          (forall t, (hi (c_proc c a) a b <= t < lo (if (b =? p)%Z then x' else c_proc c b) b a)%nat -> mem b (nb t a) = false)).
      { destruct (Z.eqb_spec b p) as [->|]; [|split; [reflexivity|exact C2]]. rewrite LO. fold x in C2 |- *.
        assert (EH : lo x p a = S (p_round x) \/ lo x p a = p_round x /\ mem p (nb (p_round x) a) = false).
        { destruct (HG a) as [E|E]; [left; unfold lo; rewrite E; reflexivity|]. unfold lo. destruct (got_from x p a); [left; reflexivity|right]. split; [reflexivity|].
          apply not_true_is_false. intros C. apply mem_In in C. destruct (Hsym _ _ _ Ha' C) as (_ & C'). apply mem_In in C'. congruence. }
        destruct EH as [EH|(EH & EN)]; rewrite EH in *; [split; [reflexivity|exact C2]|]. split.
        - destruct (Nat.lt_ge_cases (p_round x) (hi (c_proc c a) a p)); [rewrite window_cons by auto; rewrite EN; reflexivity|rewrite !window_empty by lia; reflexivity].
        - intros t Ht'. destruct (Nat.eq_dec t (p_round x)) as [->|]; [exact EN|apply C2; lia]. }
      destruct WL as (WL1 & WL2). destruct (WH _ WL2) as (WH1 & WH2). split; [rewrite <- WH1, <- WL1; exact C1|exact WH2].
  - (* finish crash *)
    exfalso. pose proof (IP p Hp) as PO. fold x in PO. pose proof PO as (E1 & E2 & E3 & E4).
    assert (EM : msgs = map (fun q => M (p_round x) q p) (nb (p_round x) p)).
    { clear - Ha E3 E4. assert (E5 : forall t m, 0 <= t < zlen (nb (p_round x) p) -> znth None (p_got x) t = Some m -> m = M (p_round x) (znth 0 (nb (p_round x) p) t) p) by (intros t m Ht Hm; apply (E4 t m Ht Hm)). clear E4.
      revert msgs Ha. generalize dependent (p_got x). induction (nb (p_round x) p) as [|q l IH]; intros g E3 G' msgs Ha.
      - destruct g; [|unfold zlen in E3; cbn in E3; lia]. cbn in Ha. inversion Ha. reflexivity.
      - destruct g as [|o g]; [unfold zlen in E3; cbn in E3; lia|]. cbn [all_got fold_right] in Ha. destruct o as [m|]; [|discriminate].
        pose proof (G' 0 m ltac:(unfold zlen; cbn [length]; lia) eq_refl) as G0. cbn in G0. subst m.
        destruct (fold_right _ _ g) as [r|] eqn:E; [|discriminate]. inversion Ha. subst msgs. cbn [map]. f_equal.
        apply (IH g); [unfold zlen in *; cbn [length] in E3; lia| |exact E].
        intros t m Ht. specialize (G' (t + 1) m ltac:(unfold zlen in *; cbn [length]; lia)). unfold znth in *.
        destruct (t + 1 <? 0) eqn:C1, (t <? 0) eqn:C2; try lia. replace (Z.to_nat (t + 1)) with (S (Z.to_nat t)) in G' by lia. exact G'. }
    eapply Hd. rewrite E1, EM. apply Hdig. exact Hp.
Qed.

Theorem reach_inv c o : inv c -> reach P partners message digest eager c o -> exists c', o = Some c' /\ inv c'.
Proof.
  intros HI H. induction H as [|c1 c2 H1 IH H2]; [eauto|]. destruct IH as (c' & E & I'). inversion E. subst c'. eapply step_inv; eauto.
Qed.

(** some process can always move *)
Lemma min_round (c : config) : 0 < P -> exists p, 0 <= p < P /\ forall q, 0 <= q < P -> (p_round (c_proc c p) <= p_round (c_proc c q))%nat.
Proof.
  intros HP. assert (G : forall n, (0 < n)%nat -> exists p, 0 <= p < Z.of_nat n /\ forall q, 0 <= q < Z.of_nat n -> (p_round (c_proc c p) <= p_round (c_proc c q))%nat).
  { induction n as [|n IH]; [lia|]. intros _. destruct n as [|n].
    - exists 0. split; [lia|]. intros q Hq. replace q with 0 by lia. auto.
    - destruct (IH ltac:(lia)) as (p & Hp & HM). destruct (Nat.le_gt_cases (p_round (c_proc c p)) (p_round (c_proc c (Z.of_nat (S n))))).
      + exists p. split; [lia|]. intros q Hq. destruct (Z.eq_dec q (Z.of_nat (S n))) as [->|]; [auto|apply HM; lia].
      + exists (Z.of_nat (S n)). split; [lia|]. intros q Hq. destruct (Z.eq_dec q (Z.of_nat (S n))) as [->|]; [auto|]. specialize (HM q ltac:(lia)). lia. }
  destruct (G (Z.to_nat P) ltac:(lia)) as (p & Hp & HM). exists p. split; [lia|]. intros q Hq. apply HM. lia.
Qed.
Lemma first_none (l : list (option Msg)) : (exists msgs, all_got l = Some msgs) \/ exists t, 0 <= t < zlen l /\ znth None l t = None.
Proof.
  induction l as [|o l IH]; [left; eexists; reflexivity|]. destruct o as [m|].
  - destruct IH as [(ms & E)|(t & Ht & E)].
    + left. exists (m :: ms). unfold all_got in *. cbn [fold_right]. rewrite E. reflexivity.
    + right. exists (t + 1). unfold zlen in *. cbn [length]. split; [lia|]. unfold znth in *. destruct (t + 1 <? 0) eqn:C1, (t <? 0) eqn:C2; try lia.
      replace (Z.to_nat (t + 1)) with (S (Z.to_nat t)) by lia. exact E.
  - right. exists 0. unfold zlen. cbn [length]. split; [lia|reflexivity].
Qed.
Definition pending (c : config) (q : Z) : Prop := let x := c_proc c q in p_sent x < zlen (nb (p_round x) q) \/ exists t, 0 <= t < zlen (nb (p_round x) q) /\ znth None (p_got x) t = None.
Lemma drained_dec (c : config) p (l : list Z) : (forall q, In q l -> c_chan c p q = []) \/ exists q, In q l /\ c_chan c p q <> [].
Proof.
  induction l as [|q l IH]; [left; intros q []|]. destruct IH as [IH|(q' & Hq & IH)]; [|right; exists q'; split; [right; exact Hq|exact IH]].
  destruct (c_chan c p q) eqn:E; [|right; exists q; split; [left; reflexivity|rewrite E; discriminate]]. left. intros q' [<-|Hq]; [exact E|auto].
Qed.
(** ** every process can be brought to any round *)
Definition nones (g : list (option Msg)) : Z := zlen (filter (fun o => match o with None => true | Some _ => false end) g).
Definition todo (m : nat) (p : Z) (x : proc) : Z := if Nat.eqb (p_round x) m then 1 + (zlen (nb m p) - p_sent x) + nones (p_got x) else 0.
(** [c'] is obtained from [c] by a step of one process that is in round [m] *)
Definition moved (m : nat) (c c' : config) : Prop := exists p, 0 <= p < P /\ (forall q, q <> p -> c_proc c' q = c_proc c q) /\
  (m <= p_round (c_proc c' p))%nat /\ todo m p (c_proc c' p) < todo m p (c_proc c p).
Lemma nones_nonneg g : 0 <= nones g. Proof. unfold nones, zlen. lia. Qed.
Lemma nones_upd g t v : 0 <= t < zlen g -> znth None g t = None -> nones (zupd g t (Some v)) = nones g - 1.
Proof.
  revert t. induction g as [|o g IH]; intros t Ht Hn; [unfold zlen in Ht; cbn in Ht; lia|]. unfold zlen in Ht; cbn [length] in Ht.
  destruct (Z.eq_dec t 0) as [->|N].
  - cbn in Hn. subst o. change (zupd (None :: g) 0 (Some v)) with (Some v :: g). unfold nones. cbn [filter]. rewrite zlen_cons. lia.
  - assert (E : zupd (o :: g) t (Some v) = o :: zupd g (t - 1) (Some v)).
    { apply (list_ext None). { unfold zlen. cbn [length]. pose proof (zlen_zupd (o :: g) t (Some v)) as Z1. pose proof (zlen_zupd g (t - 1) (Some v)) as Z2. unfold zlen in Z1, Z2. cbn [length] in Z1. lia. }
      intros i Hi. rewrite zlen_zupd in Hi. unfold zlen in Hi; cbn [length] in Hi. rewrite znth_zupd by (unfold zlen; cbn [length]; lia).
      change (o :: zupd g (t - 1) (Some v)) with ([o] ++ zupd g (t - 1) (Some v)). rewrite znth_app by lia. change (zlen [o]) with 1. destruct (Z.ltb_spec i 1).
      - destruct (Z.eqb_spec i t); [lia|]. replace i with 0 by lia. reflexivity.
      - rewrite znth_zupd by (unfold zlen; lia). change (o :: g) with ([o] ++ g). rewrite znth_app by lia. change (zlen [o]) with 1. destruct (Z.ltb_spec i 1); [lia|].
        destruct (Z.eqb_spec i t), (Z.eqb_spec (i - 1) (t - 1)); try lia; reflexivity. }
    rewrite E. assert (Hn' : znth None g (t - 1) = None).
    { change (o :: g) with ([o] ++ g) in Hn. rewrite znth_app in Hn by lia. change (zlen [o]) with 1 in Hn. destruct (Z.ltb_spec t 1); [lia|]. exact Hn. }
    specialize (IH (t - 1) ltac:(unfold zlen; lia) Hn'). unfold nones in *. cbn [filter]. destruct o; [exact IH|]. rewrite !zlen_cons. lia.
Qed.
Lemma todo_at m p x : p_round x = m -> todo m p x = 1 + (zlen (nb m p) - p_sent x) + nones (p_got x).
Proof. intros H. unfold todo. rewrite H, Nat.eqb_refl. reflexivity. Qed.
Lemma can_send c p m : 0 <= p < P -> proc_ok p (c_proc c p) -> p_sent (c_proc c p) < zlen (nb (p_round (c_proc c p)) p) -> p_round (c_proc c p) = m ->
  exists c', step P partners message digest eager c (Some c') /\ moved m c c'.
Proof.
  intros Hp PO Hs Hm. eexists. split; [refine (step_send P partners message digest eager c p _ _ Hp _ eq_refl _)|].
  - rewrite (mine p _ PO). exact Hs.
  - destruct PO as (E1 & E2 & _). rewrite E1. apply Hmsg; auto. lia.
  - exists p. cbn [set_chan set_proc c_proc]. rewrite Z.eqb_refl. split; [auto|]. split; [intros q Hq; destruct (Z.eqb_spec q p); [congruence|reflexivity]|].
    split; [cbn [p_round]; lia|]. rewrite !todo_at by (try exact Hm; auto). cbn [p_sent p_got]. lia.
Qed.
Theorem progress_min c m : 0 < P -> inv c -> (forall q, 0 <= q < P -> (m <= p_round (c_proc c q))%nat) -> (exists q, 0 <= q < P /\ p_round (c_proc c q) = m) ->
  exists c', step P partners message digest eager c (Some c') /\ moved m c c'.
Proof.
  intros HP (IP & IC) HMm (p & Hp & Epm). assert (HM : forall q, 0 <= q < P -> (p_round (c_proc c p) <= p_round (c_proc c q))%nat) by (intros; rewrite Epm; auto).
  (* a process of the smallest round that still has to send or receive can do so *)
  assert (A : forall p, 0 <= p < P -> (forall q, 0 <= q < P -> (p_round (c_proc c p) <= p_round (c_proc c q))%nat) -> pending c p -> p_round (c_proc c p) = m -> exists c', step P partners message digest eager c (Some c') /\ moved m c c').
  { clear p Hp HM Epm. intros p Hp HM HD Epm. pose proof (IP p Hp) as PO. pose proof PO as (E1 & E2 & E3 & E4). set (x := c_proc c p) in *.
    destruct (Z_lt_le_dec (p_sent x) (zlen (nb (p_round x) p))) as [Hs|Hs].
    { exact (can_send c p m Hp PO Hs Epm). }
    unfold pending in HD. fold x in HD. cbv zeta in HD. destruct HD as [HD|(t & Ht & HN)]; [lia|].
    set (q := znth 0 (nb (p_round x) p) t).
    assert (IQ : In q (nb (p_round x) p)). { unfold q, znth. destruct (_ <? 0) eqn:C; [lia|]. apply nth_In. unfold zlen in Ht. lia. }
    destruct (Hsym _ _ _ Hp IQ) as (Hq & IP').
    pose proof (IC q p Hq Hp) as (C1 & C2). fold x in C1, C2.
    assert (NG : got_from x p q = false).
    { apply not_true_is_false. intros C. apply got_spec in C. destruct C as (t' & m' & Ht' & C & G). unfold q in C.
      apply NoDup_znth in C; [subst t'; congruence|apply Hnd; auto|lia|lia]. }
    unfold lo in C1. rewrite NG in C1. pose proof (HM q Hq) as HL.
    assert (ME : mem p (nb (p_round x) q) = true) by (apply mem_In; exact IP').
    destruct (Nat.lt_ge_cases (p_round x) (hi (c_proc c q) q p)) as [LT|GE].
    - rewrite window_cons in C1 by exact LT. rewrite ME in C1. cbn [app] in C1.
      eexists. split; [refine (step_recv P partners message digest eager c p t q _ _ Hp _ _ HN _ C1); fold x; rewrite (mine p x PO); [lia|exact Ht|reflexivity]|].
      exists p. cbn [set_chan set_proc c_proc]. rewrite Z.eqb_refl. split; [auto|]. split; [intros q' Hq'; destruct (Z.eqb_spec q' p); [congruence|reflexivity]|].
      fold x. split; [cbn [p_round]; lia|]. rewrite !todo_at by (try exact Epm; auto). cbn [p_sent p_got]. rewrite nones_upd by (auto; lia). lia.
    - (* q is in the same round and has not sent to p: q can send *)
      pose proof (IP q Hq) as PQ. pose proof PQ as (F1 & F2 & F3 & F4). set (y := c_proc c q) in *. unfold hi in GE.
      assert (NS : sent_to y q p = false) by (destruct (sent_to y q p); [lia|reflexivity]). rewrite NS in GE. assert (ER : p_round y = p_round x) by lia.
      assert (Hs' : p_sent y < zlen (nb (p_round y) q)).
      { destruct (Z_lt_le_dec (p_sent y) (zlen (nb (p_round y) q))); [auto|]. exfalso. rewrite ER in *. apply In_pos in IP'. destruct IP' as (t' & Ht' & E').
        assert (sent_to y q p = true); [|congruence]. apply (sent_spec y q p); rewrite ER; [lia|]. exists t'. split; [lia|exact E']. }
      apply (can_send c q m Hq PQ Hs'). fold y. lia. }
  pose proof (IP p Hp) as PO. pose proof PO as (E1 & E2 & E3 & E4). set (x := c_proc c p) in *.
  destruct (Z_lt_le_dec (p_sent x) (zlen (nb (p_round x) p))) as [Hs|Hs]; [apply (A p Hp HM); [left; exact Hs|exact Epm]|].
  destruct (first_none (p_got x)) as [(msgs & EG)|(t & Ht & HN)]; [|apply (A p Hp HM); [right; exists t; split; [fold x; lia|exact HN]|exact Epm]].
  (* everything received; if some partner has not taken our message, it can move *)
  destruct (drained_dec c p (nb (p_round x) p)) as [HF|(q & IQ & HN)].
  - assert (EM : digest (p_round x) p (p_st x) msgs = Ok (ST (S (p_round x)) p)).
    { destruct (digest (p_round x) p (p_st x) msgs) eqn:ED.
      - destruct (step_inv c (Some (set_proc c p (start partners (S (p_round x)) p a)))) as (c' & Ec & _); [split; auto| |].
        + refine (step_finish P partners message digest eager c p msgs a Hp _ EG _ ED); fold x; rewrite (mine p x PO); [lia|]. right. exact HF.
        + f_equal. rewrite E1 in ED.
          assert (EM : msgs = map (fun q => M (p_round x) q p) (nb (p_round x) p)).
          { clear - EG E3 E4. assert (E5 : forall t m, 0 <= t < zlen (nb (p_round x) p) -> znth None (p_got x) t = Some m -> m = M (p_round x) (znth 0 (nb (p_round x) p) t) p) by (intros t m Ht Hm; apply (E4 t m Ht Hm)). clear E4.
            revert msgs EG. generalize dependent (p_got x). induction (nb (p_round x) p) as [|q l IH]; intros g E3 G' msgs Ha.
            - destruct g; [|unfold zlen in E3; cbn in E3; lia]. cbn in Ha. inversion Ha. reflexivity.
            - destruct g as [|o g]; [unfold zlen in E3; cbn in E3; lia|]. cbn [all_got fold_right] in Ha. destruct o as [m|]; [|discriminate].
              pose proof (G' 0 m ltac:(unfold zlen; cbn [length]; lia) eq_refl) as G0. cbn in G0. subst m.
              destruct (fold_right _ _ g) as [r|] eqn:E; [|discriminate]. inversion Ha. subst msgs. cbn [map]. f_equal.
              apply (IH g); [unfold zlen in *; cbn [length] in E3; lia| |exact E].
              intros t m Ht. specialize (G' (t + 1) m ltac:(unfold zlen in *; cbn [length]; lia)). unfold znth in *.
              destruct (t + 1 <? 0) eqn:C1, (t <? 0) eqn:C2; try lia. replace (Z.to_nat (t + 1)) with (S (Z.to_nat t)) in G' by lia. exact G'. }
          rewrite EM, Hdig in ED by auto. congruence.
      - exfalso. destruct (step_inv c None) as (c' & Ec & _); [split; auto| |discriminate]. refine (step_finish_crash P partners message digest eager c p msgs Hp _ EG _); fold x; rewrite ?(mine p x PO); [lia|]. intros s'. rewrite ED. discriminate.
      - exfalso. destruct (step_inv c None) as (c' & Ec & _); [split; auto| |discriminate]. refine (step_finish_crash P partners message digest eager c p msgs Hp _ EG _); fold x; rewrite ?(mine p x PO); [lia|]. intros s'. rewrite ED. discriminate. }
    eexists. split; [refine (step_finish P partners message digest eager c p msgs _ Hp _ EG _ EM); fold x; rewrite (mine p x PO); [lia|]; right; exact HF|].
    exists p. cbn [set_proc c_proc]. rewrite Z.eqb_refl. split; [auto|]. split; [intros q' Hq'; destruct (Z.eqb_spec q' p); [congruence|reflexivity]|].
    unfold start. fold x. split; [cbn [p_round]; lia|]. rewrite (todo_at m p x) by exact Epm. unfold todo. cbn [p_round]. destruct (Nat.eqb_spec (S (p_round x)) m); [lia|].
    pose proof (nones_nonneg (p_got x)). rewrite <- Epm. fold x. lia.
  - destruct (Hsym _ _ _ Hp IQ) as (Hq & IP'). pose proof (IC p q Hp Hq) as (C1 & C2). fold x in C1, C2.
    pose proof (IP q Hq) as PQ. pose proof PQ as (F1 & F2 & F3 & F4). pose proof (HM q Hq) as HL. fold x in HL. set (y := c_proc c q) in *.
    (* q has not finished round p_round x *)
    assert (ER : p_round y = p_round x /\ got_from y q p = false).
    { destruct (Nat.lt_ge_cases (lo y q p) (hi x p q)) as [LT|GE]; [|rewrite window_empty in C1 by auto; congruence].
      unfold hi, lo in LT. destruct (sent_to x p q), (got_from y q p); split; try lia; reflexivity. }
    destruct ER as (ER & NG). apply (A q Hq).
    + fold y. rewrite ER. exact HM.
    + right. fold y. rewrite ER. clear A. apply In_pos in IP'. destruct IP' as (t & Ht & E'). exists t. split; [exact Ht|].
      destruct (znth None (p_got y) t) as [m0|] eqn:EG'; [|reflexivity]. exfalso. assert (got_from y q p = true); [|congruence].
      apply got_spec. exists t, m0. rewrite ER. auto.
    + fold y. lia.
Qed.
Theorem progress c : 0 < P -> inv c -> exists c', step P partners message digest eager c (Some c').
Proof.
  intros HP I. destruct (min_round c HP) as (p & Hp & HM). destruct (progress_min c (p_round (c_proc c p)) HP I HM) as (c' & H & _); [exists p; auto|]. exists c'. exact H.
Qed.

Definition work (m : nat) (c : config) : Z := fold_right Z.add 0 (map (fun p => todo m p (c_proc c p)) (zrange 0 P)).
Lemma sum_lt (f g : Z -> Z) l p : NoDup l -> In p l -> (forall q, q <> p -> f q = g q) -> f p < g p -> fold_right Z.add 0 (map f l) < fold_right Z.add 0 (map g l).
Proof.
  induction l as [|a l IH]; intros ND Hin Hq Hp; [destruct Hin|]. inversion ND; subst. cbn [map fold_right]. destruct (Z.eq_dec a p) as [->|N].
  - rewrite (map_ext_in f g l); [lia|]. intros q Hl. apply Hq. congruence.
  - destruct Hin as [->|Hin]; [congruence|]. rewrite (Hq a N). specialize (IH H2 Hin Hq Hp). lia.
Qed.
Lemma todo_nonneg m p x : proc_ok p x -> 0 <= todo m p x.
Proof. intros (E1 & E2 & _). unfold todo. destruct (Nat.eqb_spec (p_round x) m) as [E|E]; [|lia]. rewrite E in E2. pose proof (nones_nonneg (p_got x)). lia. Qed.
Lemma work_nonneg m c : inv c -> 0 <= work m c.
Proof.
  intros (IP & _). unfold work. assert (G : forall l, (forall p, In p l -> 0 <= p < P) -> 0 <= fold_right Z.add 0 (map (fun p => todo m p (c_proc c p)) l)).
  { induction l as [|a l IH]; intros H; [cbn; lia|]. cbn [map fold_right]. pose proof (todo_nonneg m a (c_proc c a) (IP a (H a (or_introl eq_refl)))).
    assert (0 <= fold_right Z.add 0 (map (fun p => todo m p (c_proc c p)) l)) by (apply IH; intros; apply H; right; auto). lia. }
  apply G. intros p Hp. apply In_zrange in Hp. auto.
Qed.
Lemma reach_trans c c1 o : reach P partners message digest eager c (Some c1) -> reach P partners message digest eager c1 o -> reach P partners message digest eager c o.
Proof. intros H1 H2. induction H2; [exact H1|]. eapply reach_step; eauto. Qed.

Lemma round_done c m : 0 < P -> inv c -> (forall q, 0 <= q < P -> (m <= p_round (c_proc c q))%nat) ->
  exists c', reach P partners message digest eager c (Some c') /\ inv c' /\ forall q, 0 <= q < P -> (S m <= p_round (c_proc c' q))%nat.
Proof.
  intros HP. remember (Z.to_nat (work m c)) as w. revert c Heqw. induction w as [w IH] using lt_wf_ind. intros c Ew I HM.
  assert (Dec : (forall q, 0 <= q < P -> (S m <= p_round (c_proc c q))%nat) \/ exists q, 0 <= q < P /\ p_round (c_proc c q) = m).
  { destruct (min_round c HP) as (p & Hp & Hmin). destruct (Nat.eq_dec (p_round (c_proc c p)) m) as [E|E]; [right; exists p; auto|]. left. intros q Hq. specialize (Hmin q Hq). specialize (HM p Hp). lia. }
  destruct Dec as [Dn|Ex]; [exists c; split; [apply reach_refl|auto]|].
  destruct (progress_min c m HP I HM Ex) as (c1 & Stp & (p & Hp & Oth & Hr & Lt)).
  destruct (step_inv c (Some c1) I Stp) as (c1' & E1 & I1). inversion E1; subst c1'.
  assert (Wl : work m c1 < work m c).
  { unfold work. apply (sum_lt _ _ _ p); [apply NoDup_zrange|apply In_zrange; auto| |exact Lt]. intros q Hq. rewrite Oth by auto. reflexivity. }
  pose proof (work_nonneg m c1 I1). destruct (IH (Z.to_nat (work m c1)) ltac:(lia) c1 eq_refl I1) as (c2 & R2 & I2 & H2).
  - intros q Hq. destruct (Z.eq_dec q p) as [->|N]; [auto|]. rewrite Oth by auto. auto.
  - exists c2. split; [|auto]. eapply reach_trans; [|exact R2]. eapply reach_step; [apply reach_refl|exact Stp].
Qed.
Theorem all_reach c R : 0 < P -> inv c -> exists c', reach P partners message digest eager c (Some c') /\ inv c' /\ forall q, 0 <= q < P -> (R <= p_round (c_proc c' q))%nat.
Proof.
  intros HP I. induction R as [|R IH]; [exists c; split; [apply reach_refl|split; [auto|lia]]|].
  destruct IH as (c1 & R1 & I1 & H1). destruct (round_done c1 R HP I1 H1) as (c2 & R2 & I2 & H2). exists c2. split; [eapply reach_trans; eauto|auto].
Qed.
End NetP.
