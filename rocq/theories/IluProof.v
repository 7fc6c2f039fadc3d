Require Import ZArith List Bool Lia FinFun.
From Verif Require Import Base Items Scalar Spec Ilu SpecIlu DiagProof2.
Import ListNotations.
Open Scope Z_scope.

(** ** pigeonhole *)
Lemma inj_bound (f : Z -> Z) lo hi a b :
  lo <= hi -> a <= b -> (forall p, lo <= p < hi -> a <= f p < b) -> (forall p q, lo <= p < hi -> lo <= q < hi -> f p = f q -> p = q) -> hi - lo <= b - a.
Proof.
  intros Hh Hab Hr Hi.
  assert (Hn : NoDup (map f (zrange lo hi))).
  { assert (forall l, (forall x, In x l -> lo <= x < hi) -> NoDup l -> NoDup (map f l)) as H.
    { induction l as [|x l IH]; cbn [map]; intros Hx Hd; constructor; inversion Hd; subst.
      - rewrite in_map_iff. intros (y & Ey & Hy). apply H1. rewrite (Hi x y); auto; apply Hx; cbn; auto.
      - apply IH; auto. intros; apply Hx; right; auto. }
    apply H; [intros; apply In_zrange; auto|apply NoDup_zrange]. }
  assert (Hl : (length (map f (zrange lo hi)) <= length (zrange a b))%nat).
  { apply NoDup_incl_length; auto. intros y Hy. apply in_map_iff in Hy as (x & <- & Hx). apply In_zrange in Hx. apply In_zrange. auto. }
  rewrite map_length in Hl. pose proof (zlen_zrange lo hi). pose proof (zlen_zrange a b). unfold zlen in *. lia.
Qed.

(** ** rows of factors *)
Section Sym.
Context {T : Type} {S : Scalar T}.
Variable A : csr T.
Variables levfill is_ ie : Z.
Let n := csr_n A.
Hypothesis Hok : csr_ok A.
Hypothesis Hnd : no_dup_pos (csr_entries A).
Hypothesis Hlev : 0 <= levfill.
Hypothesis Hrange : 0 <= is_ <= ie /\ ie <= n.
Let E := stored_in is_ ie (csr_entries A).

Local Notation J s p := (znth 0 (s_jbuf s) p).
Local Notation LV s p := (znth 0 (s_levls s) p).
Local Notation IW s c := (znth 0 (s_iw s) c).

Definition wf (i : Z) (s : srow) : Prop :=
  zlen (s_jbuf s) = n /\ zlen (s_levls s) = n /\ zlen (s_iw s) = n /\ 0 <= s_incl s /\ i <= s_incu s /\
  (forall p, 0 <= p < s_incl s -> is_ <= J s p < i /\ IW s (J s p) = p) /\
  (forall p, i <= p < s_incu s -> i < J s p < ie /\ IW s (J s p) = p) /\
  (forall c, is_ <= c < ie -> IW s c = -1 \/ (0 <= IW s c < s_incl s /\ J s (IW s c) = c) \/ (i <= IW s c < s_incu s /\ J s (IW s c) = c)) /\
  IW s i = -1.

Definition lvl (s : srow) (c l : Z) : Prop := is_ <= c < ie /\ IW s c <> -1 /\ LV s (IW s c) = l.

Lemma wf_incl i s : is_ <= i < ie -> wf i s -> s_incl s <= i - is_.
Proof.
  intros Hi (_ & _ & _ & H1 & H2 & HL & HU & HW & _). pose proof (inj_bound (fun p => J s p) 0 (s_incl s) is_ i).
  cbv beta in H. assert (s_incl s - 0 <= i - is_); [|lia]. apply H; try lia.
  - intros p Hp. apply HL; auto.
  - intros p q Hp Hq Ee. destruct (HL p Hp) as [_ Ep], (HL q Hq) as [_ Eq]. congruence.
Qed.
Lemma wf_incu i s : is_ <= i < ie -> wf i s -> s_incu s <= ie.
Proof.
  intros Hi (_ & _ & _ & H1 & H2 & HL & HU & HW & _). pose proof (inj_bound (fun p => J s p) i (s_incu s) (i + 1) ie).
  cbv beta in H. assert (s_incu s - i <= ie - (i + 1)); [|lia]. apply H; try lia.
  - intros p Hp. destruct (HU p Hp). lia.
  - intros p q Hp Hq Ee. destruct (HU p Hp) as [_ Ep], (HU q Hq) as [_ Eq]. congruence.
Qed.
Lemma wf_incl1 i s c : is_ <= i < ie -> wf i s -> is_ <= c < i -> IW s c = -1 -> s_incl s < i.
Proof.
  intros Hi (_ & _ & _ & H1 & H2 & HL & HU & HW & _) Hc Ec.
  pose proof (inj_bound (fun p => if p =? s_incl s then c else J s p) 0 (s_incl s + 1) is_ i).
  cbv beta in H. assert (s_incl s + 1 - 0 <= i - is_); [|lia]. apply H; try lia.
  - intros p Hp. destruct (Z.eqb_spec p (s_incl s)); [lia|]. destruct (HL p); lia.
  - intros p q Hp Hq. destruct (Z.eqb_spec p (s_incl s)), (Z.eqb_spec q (s_incl s)); try lia; intros Ee.
    + destruct (HL q) as [_ Eq]; [lia|]. rewrite <- Ee in Eq. lia.
    + destruct (HL p) as [_ Eq]; [lia|]. rewrite Ee in Eq. lia.
    + destruct (HL p) as [_ Ep]; [lia|]. destruct (HL q) as [_ Eq]; [lia|]. congruence.
Qed.
Lemma wf_incu1 i s c : is_ <= i < ie -> wf i s -> i < c < ie -> IW s c = -1 -> s_incu s < ie.
Proof.
  intros Hi (_ & _ & _ & H1 & H2 & HL & HU & HW & _) Hc Ec.
  pose proof (inj_bound (fun p => if p =? s_incu s then c else J s p) i (s_incu s + 1) (i + 1) ie).
  cbv beta in H. assert (s_incu s + 1 - i <= ie - (i + 1)); [|lia]. apply H; try lia.
  - intros p Hp. destruct (Z.eqb_spec p (s_incu s)); [lia|]. destruct (HU p); lia.
  - intros p q Hp Hq. destruct (Z.eqb_spec p (s_incu s)), (Z.eqb_spec q (s_incu s)); try lia; intros Ee.
    + destruct (HU q) as [_ Eq]; [lia|]. rewrite <- Ee in Eq. lia.
    + destruct (HU p) as [_ Eq]; [lia|]. rewrite Ee in Eq. lia.
    + destruct (HU p) as [_ Ep]; [lia|]. destruct (HU q) as [_ Eq]; [lia|]. congruence.
Qed.

(** the part of jbuf already in use is kept and grows *)
Definition keeps (s s' : srow) : Prop :=
  s_incl s <= s_incl s' /\ (forall p, 0 <= p < s_incl s -> J s' p = J s p).

Lemma put_wp i c l s : is_ <= i < ie -> wf i s -> is_ <= c < ie -> c <> i -> IW s c = -1 ->
  wp (put i c l s) (fun s' => wf i s' /\ keeps s s' /\ (forall q, s_incl s <= q < s_incl s' -> J s' q = c) /\
    (forall c' l', lvl s' c' l' <-> (c' = c /\ l' = l) \/ lvl s c' l')).
Proof.
  intros Hi Hwf Hc Hci Ec. pose proof (wf_incl i s Hi Hwf) as B1. pose proof (wf_incu i s Hi Hwf) as B2.
  pose proof Hwf as (L1 & L2 & L3 & H1 & H2 & HL & HU & HW & HI). unfold put.
  destruct (Z.ltb_spec c i) as [Hlt|Hge].
  - pose proof (wf_incl1 i s c Hi Hwf ltac:(lia) Ec) as B3.
    wwr; [lia|]. wwr; [lia|]. wwr; [lia|]. apply wp_ok. cbn [s_jbuf s_levls s_iw s_incl s_incu].
    assert (Hne : forall c', is_ <= c' < ie -> c' <> c -> IW s c' <> s_incl s).
    { intros c' Hc' _. destruct (HW c' Hc') as [|[[]|[]]]; try lia. }
    split; [|split; [|split]].
    + unfold wf. cbn [s_jbuf s_levls s_iw s_incl s_incu]. rewrite !zlen_zupd.
      split; [auto|]. split; [auto|]. split; [auto|]. split; [lia|]. split; [lia|].
      split; [|split; [|split]].
      * intros p Hp. destruct (Z.eq_dec p (s_incl s)) as [->|].
        -- rewrite znth_zupd_eq by lia. split; [lia|]. rewrite znth_zupd_eq by lia. auto.
        -- rewrite (znth_zupd_neq _ _ (s_incl s)) by lia. destruct (HL p) as [Ha Hb]; [lia|]. split; auto. rewrite znth_zupd_neq; [auto|lia|]. intro Ej. rewrite Ej in Hb. lia.
      * intros p Hp. rewrite (znth_zupd_neq _ _ (s_incl s)) by lia. destruct (HU p) as [Ha Hb]; [lia|]. split; auto. rewrite znth_zupd_neq by lia. auto.
      * intros c' Hc'. destruct (Z.eq_dec c' c) as [->|].
        -- rewrite znth_zupd_eq by lia. right; left. split; [lia|]. rewrite znth_zupd_eq by lia. auto.
        -- rewrite (znth_zupd_neq _ _ c) by lia. destruct (HW c' Hc') as [|[[Ha Hb]|[Ha Hb]]]; auto.
           ++ right; left. split; [lia|]. rewrite znth_zupd_neq by lia. auto.
           ++ right; right. split; [lia|]. rewrite znth_zupd_neq by lia. auto.
      * rewrite znth_zupd_neq by lia. auto.
    + unfold keeps. cbn [s_jbuf s_incl]. split; [lia|]. intros p Hp. rewrite znth_zupd_neq by lia. auto.
    + intros q Hq. assert (q = s_incl s) by lia. subst q. rewrite znth_zupd_eq by lia. auto.
    + intros c' l'. unfold lvl. cbn [s_jbuf s_levls s_iw s_incl s_incu]. destruct (Z.eq_dec c' c) as [->|Hn].
      * rewrite znth_zupd_eq by lia. rewrite znth_zupd_eq by lia. split; [intros (_ & _ & <-); auto|]. intros [[_ ->]|(_ & He & _)]; [|congruence]. split; [lia|]. split; [lia|auto].
      * rewrite (znth_zupd_neq _ _ c) by lia. split.
        -- intros (Ha & Hb & Hd). right. split; auto. split; auto. rewrite znth_zupd_neq in Hd; auto; lia.
        -- intros [[]|(Ha & Hb & Hd)]; [congruence|]. split; auto. split; auto. rewrite znth_zupd_neq; auto; lia.
  - destruct (Z.ltb_spec i c) as [Hgt|]; [|lia].
    pose proof (wf_incu1 i s c Hi Hwf ltac:(lia) Ec) as B3.
    wwr; [lia|]. wwr; [lia|]. wwr; [lia|]. apply wp_ok. cbn [s_jbuf s_levls s_iw s_incl s_incu].
    assert (Hne : forall c', is_ <= c' < ie -> c' <> c -> IW s c' <> s_incu s).
    { intros c' Hc' _. destruct (HW c' Hc') as [|[[]|[]]]; try lia. }
    split; [|split; [|split]].
    + unfold wf. cbn [s_jbuf s_levls s_iw s_incl s_incu]. rewrite !zlen_zupd.
      split; [auto|]. split; [auto|]. split; [auto|]. split; [lia|]. split; [lia|].
      split; [|split; [|split]].
      * intros p Hp. rewrite (znth_zupd_neq _ _ (s_incu s)) by lia. destruct (HL p) as [Ha Hb]; [lia|]. split; auto. rewrite znth_zupd_neq by lia. auto.
      * intros p Hp. destruct (Z.eq_dec p (s_incu s)) as [->|].
        -- rewrite znth_zupd_eq by lia. split; [lia|]. rewrite znth_zupd_eq by lia. auto.
        -- rewrite (znth_zupd_neq _ _ (s_incu s)) by lia. destruct (HU p) as [Ha Hb]; [lia|]. split; auto. rewrite znth_zupd_neq; [auto|lia|]. intro Ej. rewrite Ej in Hb. lia.
      * intros c' Hc'. destruct (Z.eq_dec c' c) as [->|].
        -- rewrite znth_zupd_eq by lia. right; right. split; [lia|]. rewrite znth_zupd_eq by lia. auto.
        -- rewrite (znth_zupd_neq _ _ c) by lia. destruct (HW c' Hc') as [|[[Ha Hb]|[Ha Hb]]]; auto.
           ++ right; left. split; [lia|]. rewrite znth_zupd_neq by lia. auto.
           ++ right; right. split; [lia|]. rewrite znth_zupd_neq by lia. auto.
      * rewrite znth_zupd_neq by lia. auto.
    + unfold keeps. cbn [s_jbuf s_incl]. split; [lia|]. intros p Hp. rewrite znth_zupd_neq by lia. auto.
    + intros q Hq. lia.
    + intros c' l'. unfold lvl. cbn [s_jbuf s_levls s_iw s_incl s_incu]. destruct (Z.eq_dec c' c) as [->|Hn].
      * rewrite znth_zupd_eq by lia. rewrite znth_zupd_eq by lia. split; [intros (_ & _ & <-); auto|]. intros [[_ ->]|(_ & He & _)]; [|congruence]. split; [lia|]. split; [lia|auto].
      * rewrite (znth_zupd_neq _ _ c) by lia. split.
        -- intros (Ha & Hb & Hd). right. split; auto. split; auto. rewrite znth_zupd_neq in Hd; auto; lia.
        -- intros [[]|(Ha & Hb & Hd)]; [congruence|]. split; auto. split; auto. rewrite znth_zupd_neq; auto; lia.
Qed.

Lemma put_diag i l s : put i i l s = Ok s.
Proof. unfold put. rewrite Z.ltb_irrefl. auto. Qed.

Lemma E_iff i c : 0 <= i < n -> E i c <-> is_ <= i < ie /\ is_ <= c < ie /\ exists j, znth 0 (csr_ptr A) i <= j < znth 0 (csr_ptr A) (i + 1) /\ znth 0 (csr_index A) j = c.
Proof.
  intros Hi. unfold E, stored_in. split.
  - intros (Ha & Hb & v & Hv). split; auto. split; auto. unfold csr_entries in Hv. apply in_flat_map in Hv as (r & Hr & Hv). apply in_map_iff in Hv as (j & Ej & Hj). inversion Ej; subst r. exists j. apply In_zrange in Hj. split; [auto|congruence].
  - intros (Ha & Hb & j & Hj & Ej). split; auto. split; auto. exists (znth s0 (csr_value A) j). unfold csr_entries. apply in_flat_map. exists i. split; [apply In_zrange; auto|]. apply in_map_iff. exists j. split; [congruence|apply In_zrange; auto].
Qed.

Lemma row_bounds i j : 0 <= i < n -> znth 0 (csr_ptr A) i <= j < znth 0 (csr_ptr A) (i + 1) -> 0 <= j < csr_nnz A.
Proof. intros Hi Hj. destruct Hok as (Hp & _ & He & _). pose proof (ptr_ok_mono _ _ 0 i Hp ltac:(lia) ltac:(fold n; lia)). pose proof (ptr_ok_mono _ _ (i + 1) n Hp ltac:(lia) ltac:(fold n; lia)). destruct Hp as (_ & _ & H00 & _). fold n in He. lia. Qed.

Lemma sym_row_init_wp i s : is_ <= i < ie -> zlen (s_jbuf s) = n -> zlen (s_levls s) = n -> zlen (s_iw s) = n ->
  s_incl s = 0 -> s_incu s = i -> (forall c, is_ <= c < ie -> IW s c = -1) ->
  wp (sym_row_init is_ ie A i s) (fun s' => wf i s' /\ forall c l, lvl s' c l <-> l = 0 /\ c <> i /\ E i c).
Proof.
  intros Hi L1 L2 L3 E1 E2 Hw. unfold sym_row_init. pose proof Hok as (Hp & Hnp & He & Hl1 & Hl2 & Hcol). pose proof Hp as (Hn0 & Hpl & Hp0 & Hmono).
  fold n in Hn0, Hpl, Hnp, Hp, Hmono. wrd 0; [lia|]. wrd 0; [lia|].
  set (js := znth 0 (csr_ptr A) i). set (je := znth 0 (csr_ptr A) (i + 1)).
  apply (for_wp' (fun j s => wf i s /\ forall c l, lvl s c l <-> l = 0 /\ c <> i /\ is_ <= c < ie /\ exists j', js <= j' < j /\ znth 0 (csr_index A) j' = c)).
  - apply Hmono. lia.
  - split.
    + unfold wf. rewrite E1, E2. split; [auto|]. split; [auto|]. split; [auto|]. split; [lia|]. split; [lia|]. split; [intros; lia|]. split; [intros; lia|]. split; [auto|apply Hw; lia].
    + intros c l. split; [intros (Hc & Hc' & _); exfalso; apply Hc'; apply Hw; auto|]. intros (_ & _ & _ & j' & Hj' & _). lia.
  - intros j s1 Hj (Hwf & Hlv). assert (Hjn : 0 <= j < csr_nnz A) by (apply (row_bounds i); [lia|exact Hj]).
    wrd 0; [lia|]. set (c := znth 0 (csr_index A) j).
    assert (HB : forall c' l, (l = 0 /\ c' <> i /\ is_ <= c' < ie /\ exists j', js <= j' < j /\ znth 0 (csr_index A) j' = c') -> (l = 0 /\ c' <> i /\ is_ <= c' < ie /\ exists j', js <= j' < j + 1 /\ znth 0 (csr_index A) j' = c')).
    { intros c' l (Ha & Hb & Hc & j' & Hj' & Ej). repeat (split; auto). exists j'. split; [lia|auto]. }
    destruct (Z.leb_spec is_ c), (Z.ltb_spec c ie); cbn [andb].
    2-4: apply wp_ok; split; auto; intros c' l; rewrite Hlv; split; [auto|]; intros (Ha & Hb & Hc & j' & Hj' & Ej); repeat (split; auto); destruct (Z.eq_dec j' j) as [->|]; [fold c in Ej; lia|exists j'; split; [lia|auto]].
    destruct (Z.eq_dec c i) as [Ec|Hci].
    + rewrite Ec, put_diag. apply wp_ok. split; auto. intros c' l; rewrite Hlv; split; [auto|]; intros (Ha & Hb & Hc & j' & Hj' & Ej); repeat (split; auto); destruct (Z.eq_dec j' j) as [->|]; [fold c in Ej; lia|exists j'; split; [lia|auto]].
    + eapply wp_mono; [apply put_wp; auto|].
      * destruct (Z.eq_dec (IW s1 c) (-1)) as [|Hx]; auto. exfalso. assert (Hl : lvl s1 c (LV s1 (IW s1 c))) by (split; auto). apply Hlv in Hl as (_ & _ & _ & j' & Hj' & Ej).
        assert (j' = j); [|lia]. apply (csr_pos_unique A i); auto; unfold n, js, je in *; lia.
      * intros s2 (Hwf2 & _ & _ & Hl2'). split; auto. intros c' l. rewrite Hl2', Hlv. split.
        -- intros [[-> ->]|HH]; [|auto]. split; auto. split; auto. split; auto. exists j. split; [lia|auto].
        -- intros (Ha & Hb & Hc & j' & Hj' & Ej). destruct (Z.eq_dec j' j) as [->|]; [left; auto|right]. repeat (split; auto). exists j'; split; [lia|auto].
  - intros s1 (Hwf & Hlv). split; auto. intros c l. rewrite Hlv, E_iff by lia. fold js je. intuition.
Qed.

Lemma sym_select_wp i jpiv s : is_ <= i < ie -> wf i s -> 0 <= jpiv < s_incl s ->
  wp (sym_select jpiv s) (fun r => let '(k, s') := r in wf i s' /\ s_incl s' = s_incl s /\ (forall p, 0 <= p < jpiv -> J s' p = J s p) /\
    J s' jpiv = k /\ (forall q, jpiv < q < s_incl s -> k < J s' q) /\ (forall q, jpiv <= q < s_incl s -> exists q', jpiv <= q' < s_incl s /\ J s' q = J s q') /\
    (forall c l, lvl s' c l <-> lvl s c l)).
Proof.
  intros Hi Hwf Hj. pose proof (wf_incl i s Hi Hwf) as B1. pose proof (wf_incu i s Hi Hwf) as B2. pose proof Hwf as (L1 & L2 & L3 & H1 & H2 & HL & HU & HW & HI).
  unfold sym_select. wrd 0; [lia|]. wbind.
  apply (for_wp' (fun j m => jpiv <= snd m < j /\ fst m = J s (snd m) /\ forall q, jpiv <= q < j -> fst m <= J s q)).
  - lia.
  - cbn [fst snd]. split; [lia|]. split; auto. intros q Hq. assert (q = jpiv) by lia. subst; lia.
  - intros j [km jm] Hjj. cbn [fst snd]. intros (Ha & Hb & Hc). wrd 0; [lia|]. destruct (Z.ltb_spec (J s j) km); apply wp_ok; cbn [fst snd].
    + split; [lia|]. split; auto. intros q Hq. destruct (Z.eq_dec q j) as [->|]; [lia|]. specialize (Hc q). lia.
    + split; [lia|]. split; auto. intros q Hq. destruct (Z.eq_dec q j) as [->|]; [lia|]. apply Hc; lia.
  - intros [km jm]. cbn [fst snd]. intros (Ha & Hb & Hc).
    assert (Hinj : forall p q, 0 <= p < s_incl s -> 0 <= q < s_incl s -> J s p = J s q -> p = q).
    { intros p q Hp Hq Ee. destruct (HL p Hp) as [_ Ep], (HL q Hq) as [_ Eq]. congruence. }
    destruct (Z.eqb_spec jm jpiv) as [->|Hne].
    + apply wp_ok. split; auto. split; auto. split; auto. split; auto. split; [|split; [|tauto]].
      * intros q Hq. specialize (Hc q ltac:(lia)). rewrite Hb in Hc. assert (J s jpiv <> J s q); [|lia]. intro Ee. apply Hinj in Ee; lia.
      * intros q Hq; exists q; auto.
    + destruct (HL jpiv) as [Hk1 Hk2]; [lia|]. destruct (HL jm) as [Hm1 Hm2]; [lia|]. rewrite <- Hb in Hm1, Hm2.
      set (k := J s jpiv) in *.
      assert (Hkk : k <> km) by (intro Ee; rewrite Ee in Hk2; lia).
      wwr; [lia|]. wwr; [len|]. wwr; [lia|]. wwr; [len|].
      unfold swap. wbind. wrd 0; [lia|]. wrd 0; [lia|]. wwr; [lia|]. wwr; [len|]. apply wp_ok.
      cbn [s_jbuf s_levls s_iw s_incl s_incu].
      assert (HJ : forall p, znth 0 (zupd (zupd (s_jbuf s) jpiv km) jm k) p = if p =? jm then k else if p =? jpiv then km else J s p).
      { intros p. destruct (Z.eqb_spec p jm) as [->|]; [rewrite znth_zupd_eq by (rewrite ?zlen_zupd; lia); auto|]. rewrite znth_zupd_neq by (rewrite ?zlen_zupd; lia). destruct (Z.eqb_spec p jpiv) as [->|]; [rewrite znth_zupd_eq by lia; auto|rewrite znth_zupd_neq by lia; auto]. }
      assert (HV : forall p, znth 0 (zupd (zupd (s_levls s) jpiv (LV s jm)) jm (LV s jpiv)) p = if p =? jm then LV s jpiv else if p =? jpiv then LV s jm else LV s p).
      { intros p. destruct (Z.eqb_spec p jm) as [->|]; [rewrite znth_zupd_eq by (rewrite ?zlen_zupd; lia); auto|]. rewrite znth_zupd_neq by (rewrite ?zlen_zupd; lia). destruct (Z.eqb_spec p jpiv) as [->|]; [rewrite znth_zupd_eq by lia; auto|rewrite znth_zupd_neq by lia; auto]. }
      assert (HX : forall c, znth 0 (zupd (zupd (s_iw s) km jpiv) k jm) c = if c =? k then jm else if c =? km then jpiv else IW s c).
      { intros c. destruct (Z.eqb_spec c k) as [->|]; [rewrite znth_zupd_eq by (rewrite ?zlen_zupd; lia); auto|]. rewrite znth_zupd_neq by (rewrite ?zlen_zupd; lia). destruct (Z.eqb_spec c km) as [->|]; [rewrite znth_zupd_eq by lia; auto|rewrite znth_zupd_neq by lia; auto]. }
      split; [|split; [auto|split; [|split; [|split; [|split]]]]].
      * unfold wf. cbn [s_jbuf s_levls s_iw s_incl s_incu]. rewrite !zlen_zupd. split; [auto|]. split; [auto|]. split; [auto|]. split; [lia|]. split; [lia|]. split; [|split; [|split]].
        -- intros p Hp. rewrite HJ. destruct (Z.eqb_spec p jm) as [->|]; [split; [lia|]; rewrite HX, Z.eqb_refl; auto|]. destruct (Z.eqb_spec p jpiv) as [->|].
           ++ split; [lia|]. rewrite HX. destruct (Z.eqb_spec km k); [lia|]. rewrite Z.eqb_refl. auto.
           ++ destruct (HL p Hp) as [Hp1 Hp2]. split; auto. rewrite HX. destruct (Z.eqb_spec (J s p) k) as [Ee|]; [rewrite Ee in Hp2; lia|]. destruct (Z.eqb_spec (J s p) km) as [Ee|]; [rewrite Ee in Hp2; lia|]. auto.
        -- intros p Hp. rewrite HJ. destruct (Z.eqb_spec p jm) as [->|]; [lia|]. destruct (Z.eqb_spec p jpiv) as [->|]; [lia|].
           destruct (HU p Hp) as [Hp1 Hp2]. split; auto. rewrite HX. destruct (Z.eqb_spec (J s p) k) as [Ee|]; [lia|]. destruct (Z.eqb_spec (J s p) km) as [Ee|]; [lia|]. auto.
        -- intros c Hcc. rewrite !HX. destruct (Z.eqb_spec c k) as [->|].
           ++ right; left. split; [lia|]. rewrite HJ, Z.eqb_refl. auto.
           ++ destruct (Z.eqb_spec c km) as [->|].
              ** right; left. split; [lia|]. rewrite HJ. destruct (Z.eqb_spec jpiv jm); [lia|]. rewrite Z.eqb_refl. auto.
              ** destruct (HW c Hcc) as [|[[Hx Hy]|[Hx Hy]]]; auto.
                 --- right; left. split; auto. rewrite HJ. destruct (Z.eqb_spec (IW s c) jm) as [Ee|]; [rewrite Ee in Hy; lia|]. destruct (Z.eqb_spec (IW s c) jpiv) as [Ee|]; [rewrite Ee in Hy; fold k in Hy; lia|]. auto.
                 --- right; right. split; auto. rewrite HJ. destruct (Z.eqb_spec (IW s c) jm) as [Ee|]; [lia|]. destruct (Z.eqb_spec (IW s c) jpiv) as [Ee|]; [lia|]. auto.
        -- rewrite HX. destruct (Z.eqb_spec i k); [lia|]. destruct (Z.eqb_spec i km); [lia|]. auto.
      * intros p Hp. rewrite HJ. destruct (Z.eqb_spec p jm); [lia|]. destruct (Z.eqb_spec p jpiv); [lia|]. auto.
      * rewrite HJ. destruct (Z.eqb_spec jpiv jm); [lia|]. rewrite Z.eqb_refl. auto.
      * intros q Hq. rewrite HJ. destruct (Z.eqb_spec q jm) as [->|]; [specialize (Hc jpiv); fold k in Hc; lia|]. destruct (Z.eqb_spec q jpiv); [lia|]. specialize (Hc q ltac:(lia)).
        assert (J s q <> km); [|lia]. rewrite Hb. intro Ee. apply Hinj in Ee; lia.
      * intros q Hq. rewrite HJ. destruct (Z.eqb_spec q jm) as [->|]; [exists jpiv; split; [lia|auto]|]. destruct (Z.eqb_spec q jpiv) as [->|]; [exists jm; split; [lia|auto]|]. exists q; auto.
      * intros c l. unfold lvl. cbn [s_jbuf s_levls s_iw s_incl s_incu]. rewrite HX. destruct (Z.eqb_spec c k) as [->|].
        -- rewrite HV, Z.eqb_refl, Hk2. intuition lia.
        -- destruct (Z.eqb_spec c km) as [->|].
           ++ rewrite HV, Z.eqb_refl, Hm2. destruct (Z.eqb_spec jpiv jm); [lia|]. intuition lia.
           ++ rewrite HV. split; intros (Hx & Hy & Hz); split; auto; split; auto; (destruct (HW c Hx) as [|[[Hu Hv]|[Hu Hv]]]; [contradiction| |]);
              (destruct (Z.eqb_spec (IW s c) jm) as [Ee|]; [rewrite Ee in Hv; lia|]); (destruct (Z.eqb_spec (IW s c) jpiv) as [Ee|]; [rewrite Ee in Hv; fold k in Hv; lia|]); auto.
Qed.

Definition urow_ok (k : Z) (u lv : list Z) : Prop :=
  zlen lv = zlen u /\ (forall j, 0 <= j < zlen u -> k < znth 0 u j < ie /\ fills E k (znth 0 u j) (znth 0 lv j)) /\
  (forall c b, k < c -> fills E k c b -> b <= levfill -> exists j, 0 <= j < zlen u /\ znth 0 u j = c /\ znth 0 lv j <= b).

Lemma lvl_fun s c l l' : lvl s c l -> lvl s c l' -> l = l'.
Proof. intros (_ & _ & <-) (_ & _ & <-). auto. Qed.

Lemma sym_merge_wp i jpiv k u lv s pl : is_ <= i < ie -> wf i s -> 0 <= jpiv < s_incl s -> J s jpiv = k -> LV s jpiv = pl ->
  zlen lv = zlen u -> (forall j, 0 <= j < zlen u -> k < znth 0 u j < ie) ->
  wp (sym_merge levfill i jpiv u lv s) (fun s' => wf i s' /\ keeps s s' /\ (forall q, s_incl s <= q < s_incl s' -> k < J s' q) /\ LV s' jpiv = pl /\
    (forall c l, lvl s' c l -> lvl s c l \/ exists j, 0 <= j < zlen u /\ znth 0 u j = c /\ c <> i /\ l = znth 0 lv j + pl + 1 /\ l <= levfill) /\
    (forall c l, lvl s c l -> exists l', l' <= l /\ lvl s' c l') /\
    (forall j, 0 <= j < zlen u -> znth 0 u j <> i -> znth 0 lv j + pl + 1 <= levfill -> exists l', l' <= znth 0 lv j + pl + 1 /\ lvl s' (znth 0 u j) l')).
Proof.
  intros Hi Hwf Hj Hk Hpl Hll Hu. unfold sym_merge.
  apply (for_wp' (fun m s' => wf i s' /\ keeps s s' /\ (forall q, s_incl s <= q < s_incl s' -> k < J s' q) /\ LV s' jpiv = pl /\
    (forall c l, lvl s' c l -> lvl s c l \/ exists j, 0 <= j < zlen u /\ znth 0 u j = c /\ c <> i /\ l = znth 0 lv j + pl + 1 /\ l <= levfill) /\
    (forall c l, lvl s c l -> exists l', l' <= l /\ lvl s' c l') /\
    (forall j, 0 <= j < m -> znth 0 u j <> i -> znth 0 lv j + pl + 1 <= levfill -> exists l', l' <= znth 0 lv j + pl + 1 /\ lvl s' (znth 0 u j) l'))).
  - apply zlen_nonneg.
  - split; auto. split; [split; [lia|auto]|]. split; [intros; lia|]. split; auto. split; auto. split; [intros c l Hl; exists l; split; [lia|auto]|intros; lia].
  - intros m s1 Hm (W1 & K1 & N1 & P1 & S1 & M1 & C1). pose proof (wf_incl i s1 Hi W1) as B1. pose proof W1 as (L1 & L2 & L3 & H1 & H2 & HL & HU & HW & HI).
    destruct K1 as [K1 K2]. destruct (Hu m Hm) as [Hc1 Hc2]. destruct (HL jpiv) as [Hk1 Hk2]; [lia|]. rewrite K2, Hk in Hk1, Hk2 by lia.
    wrd 0; [lia|]. wrd 0; [lia|]. wrd 0; [lia|]. rewrite P1. set (c := znth 0 u m) in *. set (it := znth 0 lv m + pl + 1).
    destruct (Z.ltb_spec levfill it) as [Hit|Hit].
    + apply wp_ok. split; auto. split; [split; auto|]. split; auto. split; auto. split; auto. split; auto. intros j Hjm Hne Hle. destruct (Z.eq_dec j m) as [->|]; [fold it in Hle; lia|apply C1; auto; lia].
    + wrd 0; [lia|]. destruct (Z.eqb_spec (IW s1 c) (-1)) as [Ew|Nw].
      * destruct (Z.eq_dec c i) as [Eci|Nci].
        -- rewrite Eci, put_diag. apply wp_ok. split; auto. split; [split; auto|]. split; auto. split; auto. split; auto. split; auto. intros j Hjm Hne Hle. destruct (Z.eq_dec j m) as [->|]; [fold c in Hne; lia|apply C1; auto; lia].
        -- eapply wp_mono; [apply put_wp; auto; lia|]. intros s2 (W2 & (K3 & K4) & N2 & Q2). split; auto. split; [split; [lia|intros; rewrite K4 by lia; auto]|]. split.
           { intros q Hq. destruct (Z_lt_dec q (s_incl s1)); [rewrite K4 by lia; apply N1; lia|rewrite N2 by lia; lia]. }
           split.
           { assert (Hlv : lvl s1 k pl) by (split; [lia|]; rewrite Hk2; split; [lia|auto]). assert (Hlv2 : lvl s2 k pl) by (apply Q2; auto).
             destruct Hlv2 as (_ & Hx & Hy). destruct W2 as (_ & _ & _ & _ & _ & HL2 & _). destruct (HL2 jpiv) as [_ Hz]; [lia|]. rewrite K4, K2, Hk in Hz by lia. rewrite Hz in Hy. auto. }
           split; [|split].
           ++ intros c' l Hl. apply Q2 in Hl as [[-> ->]|Hl]; [|auto]. right. exists m. repeat (split; auto); lia.
           ++ intros c' l Hl. destruct (M1 c' l Hl) as (l' & Hl' & Hlv). exists l'. split; auto. apply Q2; auto.
           ++ intros j Hjm Hne Hle. destruct (Z.eq_dec j m) as [->|]; [exists it; fold c it; split; [lia|apply Q2; auto]|]. destruct (C1 j ltac:(lia) Hne Hle) as (l' & Hl' & Hlv). exists l'. split; auto. apply Q2; auto.
      * assert (Hci : c <> i) by congruence. destruct (HW c ltac:(lia)) as [|HP]; [contradiction|]. set (p := IW s1 c) in *.
        pose proof (wf_incu i s1 Hi W1) as B2.
        assert (Hp : 0 <= p < n) by (destruct HP as [[]|[]]; lia). assert (HJp : J s1 p = c) by (destruct HP as [[]|[]]; auto).
        assert (Hpj : p <> jpiv). { intro Ep. rewrite Ep in HJp. rewrite K2, Hk in HJp by lia. lia. }
        wrd 0; [lia|]. wwr; [lia|]. apply wp_ok. set (s2 := mkSrow _ _ _ _ _).
        assert (W2 : wf i s2). { unfold wf, s2. cbn [s_jbuf s_levls s_iw s_incl s_incu]. rewrite zlen_zupd. repeat (split; auto). }
        assert (Q2 : forall c' l, lvl s2 c' l <-> (c' = c /\ l = Z.min (LV s1 p) it) \/ (c' <> c /\ lvl s1 c' l)).
        { intros c' l. unfold lvl, s2. cbn [s_jbuf s_levls s_iw s_incl s_incu]. destruct (Z.eq_dec c' c) as [->|Hn].
          - fold p. rewrite znth_zupd_eq by lia. intuition lia.
          - split.
            + intros (Hx & Hy & Hz). right. split; auto. split; auto. split; auto. rewrite znth_zupd_neq in Hz; auto; [lia|]. intro Ep. destruct (HW c' Hx) as [|[[_ Hq]|[_ Hq]]]; [contradiction| |]; congruence.
            + intros [[]|(_ & Hx & Hy & Hz)]; [congruence|]. split; auto. split; auto. rewrite znth_zupd_neq; auto; [lia|]. intro Ep. destruct (HW c' Hx) as [|[[_ Hq]|[_ Hq]]]; [contradiction| |]; congruence. }
        assert (Hlc : lvl s1 c (LV s1 p)) by (split; [lia|]; split; auto).
        assert (Hmono : forall c' l, lvl s1 c' l -> exists l', l' <= l /\ lvl s2 c' l').
        { intros c' l Hl. destruct (Z.eq_dec c' c) as [->|Hn]; [|exists l; split; [lia|apply Q2; auto]]. exists (Z.min (LV s1 p) it). rewrite (lvl_fun s1 c l (LV s1 p)) by auto. split; [lia|apply Q2; auto]. }
        split; auto. split; [split; auto|]. split; auto. split; [unfold s2; cbn [s_levls]; rewrite znth_zupd_neq by lia; auto|].
        split; [|split].
        -- intros c' l Hl. apply Q2 in Hl as [[-> ->]|[_ Hl]]; [|auto]. destruct (Z_le_dec (LV s1 p) it).
           ++ rewrite Z.min_l by lia. apply S1; auto.
           ++ rewrite Z.min_r by lia. right. exists m. repeat (split; auto); lia.
        -- intros c' l Hl. destruct (M1 c' l Hl) as (l' & Hl' & Hlv). destruct (Hmono c' l' Hlv) as (l'' & Hl'' & Hlv'). exists l''. split; [lia|auto].
        -- intros j Hjm Hne Hle. destruct (Z.eq_dec j m) as [->|].
           ++ exists (Z.min (LV s1 p) it). fold c it. split; [lia|apply Q2; auto].
           ++ destruct (C1 j ltac:(lia) Hne Hle) as (l' & Hl' & Hlv). destruct (Hmono _ l' Hlv) as (l'' & Hl'' & Hlv'). exists l''. split; [lia|auto].
  - intros s1 (W1 & K1 & N1 & P1 & S1 & M1 & C1). auto 10.
Qed.

Lemma fills_nonneg i c l : fills E i c l -> 0 <= l.
Proof. induction 1; lia. Qed.
Lemma fills_block i c l : fills E i c l -> is_ <= i < ie /\ is_ <= c < ie.
Proof. induction 1 as [i j H|]; [destruct H as (? & ? & _)|]; lia. Qed.

(** what is known while row i is eliminated, the pivots at positions < jpiv being done *)
Definition elim_inv (i : Z) (jpiv : Z) (s : srow) : Prop :=
  wf i s /\ 0 <= jpiv <= s_incl s /\
  (forall p q, 0 <= p < jpiv -> p < q < s_incl s -> J s p < J s q) /\
  (forall c l, lvl s c l -> fills E i c l /\ l <= levfill) /\
  (forall c, c <> i -> E i c -> exists l, l <= 0 /\ lvl s c l) /\
  (forall p a b c, 0 <= p < jpiv -> fills E i (J s p) a -> fills E (J s p) c b -> J s p < c -> c <> i -> a + b + 1 <= levfill ->
     exists l, l <= a + b + 1 /\ lvl s c l).

Lemma elim_complete i jpiv s m : is_ <= i < ie -> elim_inv i jpiv s -> (forall p, jpiv <= p < s_incl s -> m <= J s p) ->
  forall c l, fills E i c l -> c <= m \/ jpiv = s_incl s -> c <> i -> l <= levfill -> exists l', l' <= l /\ lvl s c l'.
Proof.
  intros Hi (W & Hj & Hs & HS & HB & HC) Hm c l Hf. remember i as r eqn:Er in Hf. revert Er.
  induction Hf as [r c He|r k c a b Hk1 Hk2 Hf1 IH1 Hf2 _]; intros -> Hcm Hci Hl.
  - destruct (HB c Hci He) as (l' & Hl' & Hv). exists l'. split; auto.
  - pose proof (fills_nonneg _ _ _ Hf2) as Hb0. destruct IH1 as (l' & Hl' & Hv); auto; [destruct Hcm; [left; lia|auto]|lia|lia|].
    destruct Hv as (Hkr & Hw & _). pose proof W as (_ & _ & _ & _ & _ & HL & HU & HW & _).
    destruct (HW k Hkr) as [|[[Hp HJ]|[Hp HJ]]]; [contradiction| |].
    + set (p := znth 0 (s_iw s) k) in *. assert (Hpj : p < jpiv).
      { destruct Hcm; [|lia]. destruct (Z_lt_dec p jpiv); auto. specialize (Hm p ltac:(lia)). lia. }
      rewrite <- HJ in Hf1, Hf2, Hk2. apply (HC p a b c); auto. lia.
    + destruct (HU _ Hp). lia.
Qed.

Lemma sym_elim_wp i U ulvl s : is_ <= i < ie -> zlen U = n -> zlen ulvl = n -> (forall k, is_ <= k < i -> urow_ok k (znth [] U k) (znth [] ulvl k)) ->
  elim_inv i 0 s ->
  wp (sym_elim n levfill i U ulvl s) (fun s' => elim_inv i (s_incl s') s').
Proof.
  intros Hi HlU Hlv HU H0. unfold sym_elim. wbind.
  apply (while_wp (fun p => elim_inv i (fst p) (snd p)) (fun p => n - fst p)).
  - exact H0.
  - cbn [fst]. lia.
  - intros [jpiv s1]. cbn [fst snd]. intros Hinv. pose proof Hinv as (W & Hj & Hs & HS & HB & HC). pose proof (wf_incl i s1 Hi W) as B1.
    split; [lia|]. apply wp_ok. destruct (Z.ltb_spec jpiv (s_incl s1)) as [Hlt|Hge].
    2:{ apply wp_ok. assert (jpiv = s_incl s1) by lia. subst jpiv. auto. }
    wbind. eapply wp_mono; [apply (sym_select_wp i); auto; lia|]. intros [k s2] (W2 & I2 & Pre & HJk & Hmin & Hperm & Hlv2).
    assert (Hinv2 : elim_inv i jpiv s2).
    { split; auto. split; [lia|]. split; [|split; [|split]].
      - intros p q Hp Hq. rewrite Pre by lia. rewrite I2 in Hq. destruct (Z_lt_dec q jpiv); [rewrite Pre by lia; apply Hs; lia|]. destruct (Hperm q ltac:(lia)) as (q' & Hq' & ->). apply Hs; lia.
      - intros c l Hl. apply HS. apply Hlv2; auto.
      - intros c Hc He. destruct (HB c Hc He) as (l & Hl & Hv). exists l. split; auto. apply Hlv2; auto.
      - intros p a b c Hp. rewrite Pre by lia. intros F1 F2 Hlt' Hc Hle. destruct (HC p a b c Hp F1 F2 Hlt' Hc Hle) as (l & Hl & Hv). exists l. split; auto. apply Hlv2; auto. }
    assert (HW2 := W2). destruct HW2 as (M1 & M2 & M3 & M4 & M5 & HL & HUu & HWw & HI).
    destruct (HL jpiv) as [Hkr Hkw]; [lia|]. rewrite HJk in Hkr, Hkw.
    assert (Hpl : lvl s2 k (LV s2 jpiv)) by (split; [lia|]; rewrite Hkw; split; [lia|auto]). set (pl := LV s2 jpiv) in *.
    wrd (@nil Z); [lia|]. wrd (@nil Z); [lia|]. destruct (HU k) as (U1 & U2 & U3); [lia|]. set (u := znth [] U k) in *. set (lv := znth [] ulvl k) in *.
    wbind. eapply wp_mono; [apply (sym_merge_wp i jpiv k u lv s2 pl); auto; [lia|intros j Hjj; apply U2; auto]|].
    intros s3 (W3 & (K1 & K2) & N3 & P3 & S3 & Mo & C3). apply wp_ok. cbn [fst snd]. split; [|lia].
    destruct Hinv2 as (_ & _ & Hs2 & HS2 & HB2 & HC2). pose proof (fun c l H => HS2 c l H) as HS2'.
    destruct (HS2 k pl Hpl) as [Fk Hkl].
    split; auto. split; [lia|]. split; [|split; [|split]].
    + intros p q Hp Hq. rewrite K2 by lia. destruct (Z_lt_dec q (s_incl s2)).
      * rewrite K2 by lia. destruct (Z.eq_dec p jpiv) as [->|]; [rewrite HJk; apply Hmin; lia|apply Hs2; lia].
      * specialize (N3 q ltac:(lia)). destruct (Z.eq_dec p jpiv) as [->|]; [lia|]. specialize (Hs2 p jpiv ltac:(lia) ltac:(lia)). lia.
    + intros c l Hl. destruct (S3 c l Hl) as [Hl'|(j & Hjj & Ej & Hci & El & Hle)]; [apply HS2; auto|]. split; [|lia]. destruct (U2 j Hjj) as [Hc Hf]. rewrite Ej in *. subst l. replace (znth 0 lv j + pl + 1) with (pl + znth 0 lv j + 1) by lia. apply fills_step with k; auto; lia.
    + intros c Hc He. destruct (HB2 c Hc He) as (l & Hl & Hv). destruct (Mo c l Hv) as (l' & Hl' & Hv'). exists l'. split; [lia|auto].
    + intros p a b c Hp. rewrite K2 by lia. intros F1 F2 Hlt' Hc Hle. destruct (Z.eq_dec p jpiv) as [->|].
      * rewrite HJk in *. pose proof (fills_nonneg _ _ _ F1). pose proof (fills_nonneg _ _ _ F2).
        assert (Hpla : pl <= a).
        { destruct (elim_complete i jpiv s2 k Hi) with (c := k) (l := a) as (l' & Hl' & Hv'); auto; try lia.
          - split; auto. split; [lia|auto].
          - intros p' Hp'. destruct (Z.eq_dec p' jpiv) as [->|]; [lia|]. specialize (Hmin p'). lia.
          - rewrite (lvl_fun s2 k pl l'); auto. }
        destruct (U3 c b Hlt' F2 ltac:(lia)) as (j & Hjj & Ej & Hlb). destruct (C3 j Hjj) as (l' & Hl' & Hv'); [congruence|lia|]. exists l'. rewrite Ej in Hv'. split; [lia|auto].
      * destruct (HC2 p a b c ltac:(lia) F1 F2 Hlt' Hc Hle) as (l & Hl & Hv). destruct (Mo c l Hv) as (l' & Hl' & Hv'). exists l'. split; [lia|auto].
Qed.

Lemma sym_clear_wp i s : is_ <= i < ie -> wf i s -> wp (sym_clear i s) (fun iw => zlen iw = n /\ forall c, is_ <= c < ie -> znth 0 iw c = -1).
Proof.
  intros Hi W. pose proof (wf_incl i s Hi W) as B1. pose proof (wf_incu i s Hi W) as B2. pose proof W as (L1 & L2 & L3 & H1 & H2 & HL & HU & HW & HI).
  unfold sym_clear. wbind. apply (for_wp' (fun j iw => zlen iw = n /\ forall c, is_ <= c < ie -> znth 0 iw c = -1 \/ (znth 0 iw c = IW s c /\ (j <= IW s c < s_incl s \/ i <= IW s c < s_incu s)))).
  - lia.
  - split; auto. intros c Hc. destruct (HW c Hc) as [|[[]|[]]]; auto; right; split; auto.
  - intros j iw Hj (Hl & Hv). destruct (HL j Hj) as [Ha Hb]. wrd 0; [lia|]. wwr; [lia|]. rewrite zlen_zupd. split; auto. intros c Hc. destruct (Z.eq_dec c (J s j)) as [->|Hn]; [rewrite znth_zupd_eq by lia; auto|]. rewrite znth_zupd_neq by lia.
    destruct (Hv c Hc) as [|[He [Hp|Hp]]]; auto. right. split; auto. left. destruct (Z.eq_dec (IW s c) j) as [Ej|]; [|lia]. exfalso. apply Hn. destruct (HW c Hc) as [|[[_ Hx]|[_ Hx]]]; [lia| |]; congruence.
  - intros iw (Hl & Hv). apply (for_wp' (fun j iw => zlen iw = n /\ forall c, is_ <= c < ie -> znth 0 iw c = -1 \/ (znth 0 iw c = IW s c /\ j <= IW s c < s_incu s))).
    + lia.
    + split; auto. intros c Hc. destruct (Hv c Hc) as [|[He [Hp|Hp]]]; auto. lia.
    + intros j iw' Hj (Hl' & Hv'). destruct (HU j Hj) as [Ha Hb]. wrd 0; [lia|]. wwr; [lia|]. rewrite zlen_zupd. split; auto. intros c Hc. destruct (Z.eq_dec c (J s j)) as [->|Hn]; [rewrite znth_zupd_eq by lia; auto|]. rewrite znth_zupd_neq by lia.
      destruct (Hv' c Hc) as [|[He Hp]]; auto. right. split; auto. destruct (Z.eq_dec (IW s c) j) as [Ej|]; [|lia]. exfalso. apply Hn. destruct (HW c Hc) as [|[[_ Hx]|[_ Hx]]]; [lia| |]; congruence.
    + intros iw' (Hl' & Hv'). split; auto. intros c Hc. destruct (Hv' c Hc) as [|[_ ?]]; auto. lia.
Qed.

Lemma copy_out_wp {B} (d : B) (a : list B) lo cnt (Q : list B -> Prop) : 0 <= lo -> 0 <= cnt -> lo + cnt <= zlen a ->
  (forall r, zlen r = cnt -> (forall p, 0 <= p < cnt -> znth d r p = znth d a (lo + p)) -> Q r) -> wp (copy_out a lo cnt) Q.
Proof.
  intros H1 H2 H3 HQ. unfold copy_out. destruct (Z.ltb_spec lo 0); [lia|]. destruct (Z.ltb_spec cnt 0); [lia|]. destruct (Z.ltb_spec (zlen a) (lo + cnt)); [lia|]. cbn [orb]. apply wp_ok. apply HQ.
  - unfold zlen in *. rewrite firstn_length, skipn_length. lia.
  - intros p Hp. unfold znth. destruct (Z.ltb_spec p 0); [lia|]. destruct (Z.ltb_spec (lo + p) 0); [lia|].
    rewrite <- (firstn_skipn (Z.to_nat lo) a) at 2. rewrite app_nth2; rewrite firstn_length; unfold zlen in *; [|lia].
    replace (Z.to_nat (lo + p) - Nat.min (Z.to_nat lo) (length a))%nat with (Z.to_nat p) by lia.
    rewrite <- (firstn_skipn (Z.to_nat cnt) (skipn (Z.to_nat lo) a)) at 2. rewrite app_nth1; auto. rewrite firstn_length, skipn_length. lia.
Qed.

Definition increasing_row (l : list Z) : Prop := forall p q, 0 <= p < q -> q < zlen l -> znth 0 l p < znth 0 l q.
Definition distinct_row (l : list Z) : Prop := forall p q, 0 <= p < zlen l -> 0 <= q < zlen l -> znth 0 l p = znth 0 l q -> p = q.
(** the pattern of row i of L and U *)
Definition lrow_spec (i : Z) (l : list Z) : Prop := increasing_row l /\ forall c, (exists p, 0 <= p < zlen l /\ znth 0 l p = c) <-> c < i /\ level_le E levfill i c.
Definition urow_spec (i : Z) (u : list Z) : Prop := distinct_row u /\ forall c, (exists p, 0 <= p < zlen u /\ znth 0 u p = c) <-> i < c /\ level_le E levfill i c.

Definition sym_inv (i : Z) (y : sym) : Prop :=
  zlen (y_L y) = n /\ zlen (y_U y) = n /\ zlen (y_lev y) = n /\ zlen (y_jbuf y) = n /\ zlen (y_levls y) = n /\ zlen (y_iw y) = n /\
  (forall c, is_ <= c < ie -> znth 0 (y_iw y) c = -1) /\
  (forall k, is_ <= k < i -> lrow_spec k (znth [] (y_L y) k) /\ urow_spec k (znth [] (y_U y) k) /\ urow_ok k (znth [] (y_U y) k) (znth [] (y_lev y) k)).

Lemma sym_row_wp i y : is_ <= i < ie -> sym_inv i y -> wp (sym_row n levfill is_ ie A i y) (sym_inv (i + 1)).
Proof.
  intros Hi (L1 & L2 & L3 & L4 & L5 & L6 & Hw & Hr). unfold sym_row. wbind.
  eapply wp_mono; [apply sym_row_init_wp; auto|]. intros s1 (W1 & V1). wbind.
  eapply wp_mono; [apply sym_elim_wp; auto|].
  - intros k Hk. apply Hr; auto.
  - split; auto. split; [destruct W1 as (_ & _ & _ & ? & _); lia|]. split; [intros; lia|]. split; [|split; [|intros; lia]].
    + intros c l Hl. apply V1 in Hl as (-> & _ & He). split; [constructor; auto|lia].
    + intros c Hc He. exists 0. split; [lia|apply V1; auto].
  - intros s2 Hinv. pose proof Hinv as (W & Hj & Hs & HS & HB & HC). pose proof (wf_incl i s2 Hi W) as B1. pose proof (wf_incu i s2 Hi W) as B2. pose proof W as (M1 & M2 & M3 & H1 & H2 & HL & HU & HW & HI).
    wbind. eapply wp_mono; [apply sym_clear_wp; auto|]. intros iw (Hiw1 & Hiw2).
    assert (Hcomp : forall c l, fills E i c l -> c <> i -> l <= levfill -> exists l', l' <= l /\ lvl s2 c l').
    { intros c l Hf Hc Hl. apply (elim_complete i (s_incl s2) s2 0); auto. intros; lia. }
    wbind. apply (copy_out_wp 0); [lia|lia|lia|]. intros lr Hl1 Hl2.
    wbind. apply (copy_out_wp 0); [lia|lia|lia|]. intros ur Hu1 Hu2.
    wbind. apply (copy_out_wp 0); [lia|lia|lia|]. intros lv Hv1 Hv2.
    wwr; [lia|]. wwr; [lia|]. wwr; [lia|]. apply wp_ok. unfold sym_inv. cbn [y_L y_U y_lev y_jbuf y_levls y_iw]. rewrite !zlen_zupd.
    split; [auto|]. split; [auto|]. split; [auto|]. split; [auto|]. split; [auto|]. split; [auto|]. split; [auto|].
    intros k Hk. destruct (Z.eq_dec k i) as [->|]; [|rewrite !znth_zupd_neq by lia; apply Hr; lia]. rewrite !znth_zupd_eq by lia. clear Hk.
    assert (HLV : forall c l, lvl s2 c l -> level_le E levfill i c) by (intros c l Hl; apply HS in Hl as [? ?]; exists l; auto).
    split; [|split].
    + split.
      * intros p q Hp Hq. rewrite !Hl2 by lia. apply Hs; lia.
      * intros c. split.
        -- intros (p & Hp & Ep). rewrite Hl2 in Ep by lia. cbn in Ep. replace (0 + p) with p in Ep by lia. destruct (HL p) as [Ha Hb]; [lia|]. rewrite Ep in *. split; [lia|]. apply (HLV c (LV s2 p)). split; [lia|]. rewrite Hb. split; [lia|auto].
        -- intros (Hc & l & Hl & Hf). destruct (Hcomp c l Hf ltac:(lia) ltac:(lia)) as (l' & _ & (Hr1 & Hr2 & _)). destruct (HW c Hr1) as [|[[Hp HJ]|[Hp HJ]]]; [contradiction| |].
           ++ exists (IW s2 c). split; [lia|]. rewrite Hl2 by lia. replace (0 + IW s2 c) with (IW s2 c) by lia. auto.
           ++ destruct (HU _ Hp). lia.
    + split.
      * intros p q Hp Hq. rewrite !Hu2 by lia. intros Ee. destruct (HU (i + p)) as [_ Ha]; [lia|]. destruct (HU (i + q)) as [_ Hb]; [lia|]. rewrite Ee in Ha. lia.
      * intros c. split.
        -- intros (p & Hp & Ep). rewrite Hu2 in Ep by lia. destruct (HU (i + p)) as [Ha Hb]; [lia|]. rewrite Ep in *. split; [lia|]. apply (HLV c (LV s2 (i + p))). split; [lia|]. rewrite Hb. split; [lia|auto].
        -- intros (Hc & l & Hl & Hf). destruct (Hcomp c l Hf ltac:(lia) ltac:(lia)) as (l' & _ & (Hr1 & Hr2 & _)). destruct (HW c Hr1) as [|[[Hp HJ]|[Hp HJ]]]; [contradiction| |].
           ++ destruct (HL _ Hp). lia.
           ++ exists (IW s2 c - i). split; [lia|]. rewrite Hu2 by lia. replace (i + (IW s2 c - i)) with (IW s2 c) by lia. auto.
    + split; [lia|]. split.
      * intros j Hjj. rewrite Hu2, Hv2 by lia. destruct (HU (i + j)) as [Ha Hb]; [lia|]. split; [lia|]. apply HS. split; [lia|]. rewrite Hb. split; [lia|auto].
      * intros c b Hc Hf Hb. destruct (Hcomp c b Hf ltac:(lia) Hb) as (l' & Hl' & (Hr1 & Hr2 & Hr3)). destruct (HW c Hr1) as [|[[Hp HJ]|[Hp HJ]]]; [contradiction| |].
        -- destruct (HL _ Hp). lia.
        -- exists (IW s2 c - i). split; [lia|]. rewrite Hu2, Hv2 by lia. replace (i + (IW s2 c - i)) with (IW s2 c) by lia. split; auto. lia.
Qed.

Lemma symbolic_fact_wp jj jl jw : wp (symbolic_fact jj jl jw levfill is_ ie A) (fun LU => zlen (fst LU) = n /\ zlen (snd LU) = n /\
  forall k, is_ <= k < ie -> lrow_spec k (znth [] (fst LU) k) /\ urow_spec k (znth [] (snd LU) k)).
Proof.
  unfold symbolic_fact. fold n. wbind. apply (for_wp' (fun i iw => zlen iw = n /\ forall c, is_ <= c < i -> znth 0 iw c = -1)).
  - lia.
  - split; [apply zlen_alloc; lia|intros; lia].
  - intros i iw Hi (Hl & Hv). wwr; [lia|]. rewrite zlen_zupd. split; auto. intros c Hc. destruct (Z.eq_dec c i) as [->|]; [rewrite znth_zupd_eq by lia; auto|rewrite znth_zupd_neq by lia; apply Hv; lia].
  - intros iw (Hl & Hv). wbind. apply (for_wp' sym_inv).
    + lia.
    + unfold sym_inv. cbn [y_L y_U y_lev y_jbuf y_levls y_iw]. rewrite !zlen_alloc by lia. do 7 (split; [auto|]). intros; lia.
    + intros i y Hi Hy. apply sym_row_wp; auto.
    + intros y (L1 & L2 & _ & _ & _ & _ & _ & Hr). apply wp_ok. cbn [fst snd]. split; auto. split; auto. intros k Hk. destruct (Hr k Hk) as (? & ? & _). auto.
Qed.
End Sym.
