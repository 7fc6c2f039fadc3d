(** I+S: one row of the filling pass. *)
Require Import ZArith List Bool Lia Permutation Ring.
From Verif Require Import Base Items Scalar Spec SpecSplit Split SainvMath SainvStep IlutFinal Isp IspCount IspFill.
Import ListNotations.
Open Scope Z_scope.

Section P.
Context {T : Type} {S : Scalar T}.
Hypothesis RT : is_ring S.
Let RT' : @ring_theory T s0 s1 sadd smul ssub sopp (@eq T) := RT.
Add Ring TrIsF2 : RT'.
Variables (A : split T) (m : Z).
Hypothesis HA : split_ok A.
Hypothesis Hsq : sp_np A = sp_n A.
Hypothesis Hm : 0 <= m.
Hypothesis HL : no_dup_pos (csr_entries (sp_L A)).
Hypothesis HU : no_dup_pos (csr_entries (sp_U A)).
Notation n := (sp_n A).
Variables (w : T) (b : list T).
Hypothesis Hb : n <= zlen b.

(** the products that go into row i of P *)
Definition itemsB (B : csr T) (v : T) (r lo hi : Z) : list (Z * T) := map (fun j => (znth 0 (csr_index B) j, smul v (znth s0 (csr_value B) j))) (zrange lo hi).
Definition rowB (B : csr T) (v : T) (r : Z) : list (Z * T) := itemsB B v r (znth 0 (csr_ptr B) r) (znth 0 (csr_ptr B) (r + 1)).
Definition rowA (v : T) (jj : Z) : list (Z * T) := rowB (sp_L A) v jj ++ [(jj, smul v (znth s0 (sp_D A) jj))] ++ rowB (sp_U A) v jj.
Definition mult (ja : Z) : T := smul (sopp w) (znth s0 (csr_value (sp_U A)) ja).
Definition PR (i : Z) : list (Z * T) := rowB (sp_L A) (znth s0 (sp_D A) i) i ++ rowB (sp_U A) (znth s0 (sp_D A) i) i ++
  flat_map (fun ja => rowA (mult ja) (znth 0 (csr_index (sp_U A)) ja)) (npos A m i).
Lemma rowB_cols B v r : map fst (rowB B v r) = cols B r.
Proof using. unfold rowB, itemsB, cols. rewrite map_map. reflexivity. Qed.
Lemma rowA_cols v jj : map fst (rowA v jj) = vrow A jj.
Proof using. unfold rowA, vrow. rewrite !map_app, !rowB_cols. reflexivity. Qed.
Lemma PR_cols i : map fst (PR i) = vis A m i.
Proof using.
  unfold PR, vis. rewrite !map_app, !rowB_cols. f_equal. f_equal. induction (npos A m i) as [|ja l IH]; [reflexivity|]. cbn [flat_map]. rewrite map_app, rowA_cols, IH. reflexivity.
Qed.

Section ROW.
Variables (i kl0 kl1 ku0 ku1 : Z) (lix0 uix0 : list Z) (lv0 uv0 d0 : list T).
Hypothesis Hi : 0 <= i < n.
Hypothesis Hd0 : n <= zlen d0.
Hypothesis RL : room A (fun c => c < i) kl0 kl1 lix0 lv0 (vis A m i).
Hypothesis RU : room A (fun c => i < c) ku0 ku1 uix0 uv0 (vis A m i).

Definition ST (P : list (Z * T)) (s : fst_ T) : Prop :=
  (forall c, In c (map fst P) -> In c (vis A m i)) /\
  TR A (fun c => c < i) kl0 lix0 lv0 (map fst P) (acc P) (f_iw s) (f_L s) /\
  TR A (fun c => i < c) ku0 uix0 uv0 (map fst P) (acc P) (f_iw s) (f_U s) /\
  (zlen (f_iw s) = n /\ znth 0 (f_iw s) i = 0) /\ zlen (f_d s) = zlen d0 /\ (forall r, 0 <= r < n -> r <> i -> znth s0 (f_d s) r = znth s0 d0 r) /\
  znth s0 (f_d s) i = sadd (znth s0 d0 i) (acc P i).

Lemma acc_upto P c v : upto (acc P) (acc (P ++ [(c, v)])) c v.
Proof using RT. intros q. apply (acc_snoc RT). Qed.
Lemma fst_snoc (P : list (Z * T)) c v : map fst (P ++ [(c, v)]) = map fst P ++ [c].
Proof using. rewrite map_app. reflexivity. Qed.
Lemma in_snoc (P : list (Z * T)) c v : (forall q, In q (map fst P) -> In q (vis A m i)) -> In c (vis A m i) -> forall q, In q (map fst (P ++ [(c, v)])) -> In q (vis A m i).
Proof using. intros H Hc q. rewrite fst_snoc, in_app_iff. intros [?|[?|[]]]; [auto|subst; auto]. Qed.
Lemma acc_ne P c v q : c <> q -> acc (P ++ [(c, v)]) q = acc P q.
Proof using RT. intros H. rewrite (acc_snoc RT). destruct (Z.eqb_spec c q); [contradiction|]. ring. Qed.

Lemma stepL (op : Z -> T -> list Z -> tri T -> res (list Z * tri T)) P s c v : ST P s -> In c (vis A m i) -> c < i ->
  (op = tadd \/ (op = tput /\ ~ In c (map fst P))) -> wp (onL (op c v) s) (ST (P ++ [(c, v)])).
Proof using RT HA Hsq Hi RL.
  intros (HX & HTL & HTU & [Lw Hwi] & Ld & Hd & Hdi) Hc Hlt Hop. pose proof (vis_in A m HA Hsq i c Hi Hc) as Hcr.
  unfold onL. apply wp_bind.
  assert (G : wp (op c v (f_iw s) (f_L s)) (fun '(iw', t') => TR A (fun c => c < i) kl0 lix0 lv0 (map fst P ++ [c]) (acc (P ++ [(c, v)])) iw' t' /\ zlen iw' = n /\ forall q, 0 <= q < n -> q <> c -> znth 0 iw' q = znth 0 (f_iw s) q)).
  { destruct Hop as [Hop|[Hop Hn]]; rewrite Hop; [apply (tadd_wp RT A _ kl0 kl1 lix0 lv0 (vis A m i) (map fst P) (acc P))|apply (tput_wp RT A _ kl0 kl1 lix0 lv0 (vis A m i) (map fst P) (acc P))]; auto; apply acc_upto. }
  eapply wp_mono; [exact G|]. intros [iw' t'] (G1 & G2 & G3). cbn [wp]. unfold ST. cbn [f_iw f_L f_U f_d].
  split; [apply in_snoc; auto|]. split; [rewrite fst_snoc; exact G1|]. split.
  - rewrite fst_snoc. apply (TR_other A _ _ _ _ _ _ _ _ c _ _ HTU); [lia|exact G3|]. intros q Hq. apply acc_ne. auto.
  - repeat match goal with |- _ /\ _ => split end; auto; [rewrite G3 by lia; exact Hwi|]. rewrite acc_ne by lia. exact Hdi.
Qed.
Lemma stepU (op : Z -> T -> list Z -> tri T -> res (list Z * tri T)) P s c v : ST P s -> In c (vis A m i) -> i < c ->
  (op = tadd \/ (op = tput /\ ~ In c (map fst P))) -> wp (onU (op c v) s) (ST (P ++ [(c, v)])).
Proof using RT HA Hsq Hi RU.
  intros (HX & HTL & HTU & [Lw Hwi] & Ld & Hd & Hdi) Hc Hlt Hop. pose proof (vis_in A m HA Hsq i c Hi Hc) as Hcr.
  unfold onU. apply wp_bind.
  assert (G : wp (op c v (f_iw s) (f_U s)) (fun '(iw', t') => TR A (fun c => i < c) ku0 uix0 uv0 (map fst P ++ [c]) (acc (P ++ [(c, v)])) iw' t' /\ zlen iw' = n /\ forall q, 0 <= q < n -> q <> c -> znth 0 iw' q = znth 0 (f_iw s) q)).
  { destruct Hop as [Hop|[Hop Hn]]; rewrite Hop; [apply (tadd_wp RT A _ ku0 ku1 uix0 uv0 (vis A m i) (map fst P) (acc P))|apply (tput_wp RT A _ ku0 ku1 uix0 uv0 (vis A m i) (map fst P) (acc P))]; auto; apply acc_upto. }
  eapply wp_mono; [exact G|]. intros [iw' t'] (G1 & G2 & G3). cbn [wp]. unfold ST. cbn [f_iw f_L f_U f_d].
  split; [apply in_snoc; auto|]. split; [|split; [rewrite fst_snoc; exact G1|]].
  - rewrite fst_snoc. apply (TR_other A _ _ _ _ _ _ _ _ c _ _ HTL); [lia|exact G3|]. intros q Hq. apply acc_ne. auto.
  - repeat match goal with |- _ /\ _ => split end; auto; [rewrite G3 by lia; exact Hwi|]. rewrite acc_ne by lia. exact Hdi.
Qed.
Lemma stepD P s v : ST P s -> In i (vis A m i) ->
  wp (d1 <- rd (f_d s) i ;; d <- wr (f_d s) i (sadd d1 v) ;; Ok (mkFst (f_iw s) (f_L s) (f_U s) d)) (ST (P ++ [(i, v)])).
Proof using RT Hi Hd0.
  intros (HX & HTL & HTU & [Lw Hwi] & Ld & Hd & Hdi) Hc. wrd s0; [lia|]. wwr; [lia|]. cbn [wp]. unfold ST. cbn [f_iw f_L f_U f_d].
  split; [apply in_snoc; auto|]. rewrite fst_snoc. split; [|split].
  - apply (TR_other A _ _ _ _ _ _ _ _ i _ _ HTL); [lia|auto|]. intros q Hq. apply acc_ne. auto.
  - apply (TR_other A _ _ _ _ _ _ _ _ i _ _ HTU); [lia|auto|]. intros q Hq. apply acc_ne. auto.
  - repeat match goal with |- _ /\ _ => split end; auto; try len.
    + intros r Hr Hne. rewrite znth_zupd_neq by lia. auto.
    + rewrite znth_zupd_eq by lia. rewrite Hdi, (acc_snoc RT), Z.eqb_refl. ring.
Qed.

Lemma row_items (B : csr T) r rel v body P s (Q : fst_ T -> Prop) : row_fine A B r rel -> ST P s ->
  (forall j s, znth 0 (csr_ptr B) r <= j < znth 0 (csr_ptr B) (r + 1) -> ST (P ++ itemsB B v r (znth 0 (csr_ptr B) r) j) s ->
     wp (body j s) (ST ((P ++ itemsB B v r (znth 0 (csr_ptr B) r) j) ++ [(znth 0 (csr_index B) j, smul v (znth s0 (csr_value B) j))]))) ->
  (forall s, ST (P ++ rowB B v r) s -> Q s) -> wp (row_loop B r body s) Q.
Proof using.
  intros (H1 & H2 & H3 & H4) Hs Hbd HQ. unfold row_loop. wrd 0; [lia|]. wrd 0; [lia|].
  apply (for_wp' (fun j s => ST (P ++ itemsB B v r (znth 0 (csr_ptr B) r) j) s)); [lia| | |exact HQ].
  - unfold itemsB. rewrite zrange_empty by lia. cbn [map]. rewrite app_nil_r. exact Hs.
  - intros j s' Hj HI. eapply wp_mono; [apply (Hbd j s' Hj HI)|]. intros s2 H. unfold itemsB in *. rewrite zrange_snoc by lia. rewrite map_app, app_assoc. exact H.
Qed.

Lemma fill_ia_wp s : ST [] s -> wp (fill_ia A i (znth s0 (sp_D A) i) s) (ST (rowB (sp_L A) (znth s0 (sp_D A) i) i ++ rowB (sp_U A) (znth s0 (sp_D A) i) i)).
Proof using RT HA Hsq Hi RL RU HL HU.
  intros Hs. unfold fill_ia. pose proof (L_fine A HA Hsq i Hi) as FL. pose proof (U_fine A HA Hsq i Hi) as FU.
  set (v := znth s0 (sp_D A) i).
  assert (NL : NoDup (cols (sp_L A) i)) by (apply (cols_nodup A); auto; destruct HA as (_ & H & _); auto).
  assert (NU : NoDup (cols (sp_U A) i)) by (apply (cols_nodup A); auto; destruct HA as (_ & _ & _ & _ & _ & H & _); auto).
  assert (VL : forall c, In c (cols (sp_L A) i) -> In c (vis A m i)) by (intros c Hc; unfold vis; apply in_or_app; auto).
  assert (VU : forall c, In c (cols (sp_U A) i) -> In c (vis A m i)) by (intros c Hc; unfold vis; apply in_or_app; right; apply in_or_app; auto).
  apply wp_bind. apply (row_items (sp_L A) i _ v _ [] s _ FL Hs).
  - intros j s1 Hj H1. destruct FL as (F1 & F2 & F3 & F4). destruct (F4 j Hj) as (K1 & K2 & K3 & K4). wrd 0; [lia|]. wrd s0; [lia|].
    apply (stepL tput); auto.
    + apply VL. unfold cols. apply in_map. apply In_zrange. auto.
    + right. split; [auto|]. cbn [app]. unfold itemsB. rewrite map_map. cbn [fst]. apply (nodup_fresh [] _ _ _ _ (znth 0 (csr_ptr (sp_L A)) (i + 1))); [rewrite app_nil_r; exact NL|lia].
  - intros s1 H1. cbn [app] in H1. apply (row_items (sp_U A) i _ v _ _ s1 _ FU H1); [|auto].
    intros j s2 Hj H2. pose proof FU as (F1 & F2 & F3 & F4). destruct (F4 j Hj) as (K1 & K2 & K3 & K4). wrd 0; [lia|]. wrd s0; [lia|].
    apply (stepU tput); auto.
    + apply VU. unfold cols. apply in_map. apply In_zrange. auto.
    + right. split; [auto|]. rewrite map_app, rowB_cols. unfold itemsB. rewrite map_map. cbn [fst]. intros Hin. apply in_app_or in Hin. destruct Hin as [Hin|Hin].
      * apply (cols_in _ _ _ _ _ FL) in Hin. lia.
      * revert Hin. apply (nodup_fresh [] _ _ _ _ (znth 0 (csr_ptr (sp_U A)) (i + 1))); [rewrite app_nil_r; exact NU|lia].
Qed.

Lemma fill_sa_wp jj v P s : i < jj < n -> (forall c, In c (vrow A jj) -> In c (vis A m i)) -> ST P s -> wp (fill_sa A i jj v s) (ST (P ++ rowA v jj)).
Proof using RT HA Hsq Hi RL RU Hd0.
  intros Hj HV Hs. unfold fill_sa. pose proof (L_fine A HA Hsq jj ltac:(lia)) as FL. pose proof (U_fine A HA Hsq jj ltac:(lia)) as FU.
  apply wp_bind. apply (row_items (sp_L A) jj _ v _ P s _ FL Hs).
  - intros j s1 Hj' H1. destruct FL as (F1 & F2 & F3 & F4). destruct (F4 j Hj') as (K1 & K2 & K3 & K4). wrd 0; [lia|]. wrd s0; [lia|].
    assert (HIn : In (znth 0 (csr_index (sp_L A)) j) (vis A m i)) by (apply HV; unfold vrow; apply in_or_app; left; unfold cols; apply in_map; apply In_zrange; auto).
    destruct (Z.ltb_spec (znth 0 (csr_index (sp_L A)) j) i) as [E|E]; [apply (stepL tadd); auto|].
    destruct (Z.ltb_spec i (znth 0 (csr_index (sp_L A)) j)) as [E'|E']; [apply (stepU tadd); auto|].
    assert (Ei : znth 0 (csr_index (sp_L A)) j = i) by lia. rewrite Ei in *. apply stepD; auto.
  - intros s1 H1. assert (HD : n <= zlen (sp_D A)) by (destruct HA as (_ & _ & _ & _ & _ & _ & _ & _ & H); auto). wrd s0; [lia|]. apply wp_bind.
    eapply wp_mono; [apply (stepU tadd _ s1 jj (smul v (znth s0 (sp_D A) jj)) H1); [apply HV; unfold vrow; apply in_or_app; right; left; auto|lia|auto]|].
    intros s2 H2. apply (row_items (sp_U A) jj _ v _ _ s2 _ FU H2).
    + intros j s3 Hj' H3. destruct FU as (F1 & F2 & F3 & F4). destruct (F4 j Hj') as (K1 & K2 & K3 & K4). wrd 0; [lia|]. wrd s0; [lia|].
      apply (stepU tadd); auto; [|lia]. apply HV; unfold vrow; apply in_or_app; right; right; unfold cols; apply in_map; apply In_zrange; auto.
    + intros s3 H3. unfold rowA. rewrite !app_assoc. exact H3.
Qed.
End ROW.

(** unmarking one triangle *)
Lemma unmark_wp (ix : list Z) iw lo hi : 0 <= lo <= hi -> hi <= zlen ix -> zlen iw = n -> (forall p, lo <= p < hi -> 0 <= znth 0 ix p < n) ->
  wp (for_ lo hi (fun j iw => c <- rd ix j ;; wr iw c 0) iw) (fun iw' => zlen iw' = n /\ (forall c, 0 <= c < n -> znth 0 iw' c = 0 \/ (znth 0 iw' c = znth 0 iw c /\ forall p, lo <= p < hi -> znth 0 ix p <> c))).
Proof using.
  intros Hlo Hhi Lw Hr.
  apply (for_wp' (fun q iw' => zlen iw' = n /\ (forall c, 0 <= c < n -> znth 0 iw' c = 0 \/ (znth 0 iw' c = znth 0 iw c /\ forall p, lo <= p < q -> znth 0 ix p <> c)))); [lia| | |auto].
  - split; [auto|]. intros c Hc. right. split; [auto|]. intros; lia.
  - intros p iw1 Hp [L1 H1]. wrd 0; [lia|]. specialize (Hr p Hp). rewrite wr_ok by lia. cbn [wp]. split; [len|]. intros c Hc. rewrite znth_zupd by lia. destruct (Z.eqb_spec c (znth 0 ix p)) as [E|E]; [auto|].
    destruct (H1 c Hc) as [H|[H2 H3]]; [auto|]. right. split; [auto|]. intros q Hq. destruct (Z.eq_dec q p) as [->|]; [auto|]. apply H3. lia.
Qed.

(** what a finished row looks like: positions [k0,k1) hold exactly the function f on the columns of the side *)
Definition line_is (ix : list Z) (v : list T) (k0 k1 : Z) (side : Z -> Prop) (f : Z -> T) : Prop :=
  (forall p, k0 <= p < k1 -> 0 <= znth 0 ix p < n /\ side (znth 0 ix p)) /\
  forall c, 0 <= c < n -> side c -> ssum (map (fun p => if znth 0 ix p =? c then znth s0 v p else s0) (zrange k0 k1)) = f c.
Lemma TR_line side k0 k1 ix0 v0 X f iw t : room A side k0 k1 ix0 v0 X -> TR A side k0 ix0 v0 X f iw t -> line_is (t_ix t) (t_v t) k0 k1 side f.
Proof using RT.
  intros HR HT. pose proof (room_end A _ _ _ _ _ _ _ _ _ HR HT) as Ek. destruct HR as (R0 & _). rewrite <- Ek. pose proof HT as (H1 & H2 & H3 & H4 & H5 & H6). split.
  - intros p Hp. destruct (H5 p Hp) as (K1 & K2 & _). auto.
  - intros c Hc Hs. destruct (H6 c Hc Hs) as [(J1 & J2 & J3 & J4)|(J1 & J2 & J3)].
    + rewrite (sum_one RT _ k0 (t_k t) (znth 0 iw c - 1)); [rewrite J3, Z.eqb_refl; exact J4|lia|].
      intros q Hq Hne. destruct (Z.eqb_spec (znth 0 (t_ix t) q) c) as [E|]; [|auto]. destruct (H5 q Hq) as (_ & _ & K). rewrite E in K. lia.
    + rewrite J3. apply (sum_zero RT). intros q Hq. destruct (Z.eqb_spec (znth 0 (t_ix t) q) c) as [E|]; [|auto]. destruct (H5 q Hq) as (_ & _ & K). rewrite E in K. lia.
Qed.

Lemma room_of (side : Z -> Prop) i lo hi k0 k1 (ix0 : list Z) (v0 : list T) : (forall c, 0 <= c < n -> (side c <-> lo <= c < hi)) -> 0 <= lo -> hi <= n -> 0 <= k0 -> k1 <= zlen ix0 -> k1 <= zlen v0 -> k1 = k0 + zlen (vset A m i lo hi) -> room A side k0 k1 ix0 v0 (vis A m i).
Proof using.
  intros Hs Hlo Hhi H0 H1 H2 H3. unfold room. repeat match goal with |- _ /\ _ => split end; auto. exists (vset A m i lo hi). split; [apply vset_nodup|]. split; [|auto].
  intros c. rewrite vset_in. split; [intros [J1 J2]|intros (J1 & J2 & J3)].
  - split; [lia|]. split; [apply Hs; lia|auto].
  - split; [apply Hs; auto|auto].
Qed.

Definition new_b (i : Z) : T := ssum (map (fun ja => smul (mult ja) (znth s0 b (znth 0 (csr_index (sp_U A)) ja))) (npos A m i)).
Lemma fill_row_wp lp up i s : 0 <= i < n -> counted A (fun i => zlen (vset A m i 0 i)) lp -> counted A (fun i => zlen (vset A m i (i + 1) n)) up ->
  clear A (f_iw s) -> n <= zlen (f_d s) -> 0 <= znth 0 lp i -> 0 <= znth 0 up i ->
  znth 0 lp (i + 1) <= zlen (t_ix (f_L s)) -> znth 0 lp (i + 1) <= zlen (t_v (f_L s)) -> znth 0 up (i + 1) <= zlen (t_ix (f_U s)) -> znth 0 up (i + 1) <= zlen (t_v (f_U s)) ->
  wp (fill_row w A m b lp up i s) (fun '(s', t) =>
    clear A (f_iw s') /\
    (zlen (t_ix (f_L s')) = zlen (t_ix (f_L s)) /\ zlen (t_v (f_L s')) = zlen (t_v (f_L s)) /\ zlen (t_ix (f_U s')) = zlen (t_ix (f_U s)) /\ zlen (t_v (f_U s')) = zlen (t_v (f_U s)) /\ zlen (f_d s') = zlen (f_d s)) /\
    (forall p, 0 <= p < znth 0 lp i -> znth 0 (t_ix (f_L s')) p = znth 0 (t_ix (f_L s)) p /\ znth s0 (t_v (f_L s')) p = znth s0 (t_v (f_L s)) p) /\
    (forall p, 0 <= p < znth 0 up i -> znth 0 (t_ix (f_U s')) p = znth 0 (t_ix (f_U s)) p /\ znth s0 (t_v (f_U s')) p = znth s0 (t_v (f_U s)) p) /\
    line_is (t_ix (f_L s')) (t_v (f_L s')) (znth 0 lp i) (znth 0 lp (i + 1)) (fun c => c < i) (acc (PR i)) /\
    line_is (t_ix (f_U s')) (t_v (f_U s')) (znth 0 up i) (znth 0 up (i + 1)) (fun c => i < c) (acc (PR i)) /\
    (forall r, 0 <= r < n -> r <> i -> znth s0 (f_d s') r = znth s0 (f_d s) r) /\
    znth s0 (f_d s') i = sadd (znth s0 (f_d s) i) (acc (PR i) i) /\
    t = sadd (smul (znth s0 (sp_D A) i) (znth s0 b i)) (new_b i)).
Proof using RT HA Hsq Hm HL HU Hb.
  intros Hi (Ll & L0 & Lc) (Lu & U0 & Uc) [Lw Hw] Hd Hl0 Hu0 HL1 HL2 HU1 HU2. unfold fill_row.
  assert (HD : n <= zlen (sp_D A)) by (destruct HA as (_ & _ & _ & _ & _ & _ & _ & _ & H); auto).
  destruct (U_fine A HA Hsq i Hi) as (B1 & B2 & B3 & B4).
  wrd 0; [lia|]. wrd 0; [lia|]. wrd 0; [lia|]. wrd 0; [lia|]. wrd s0; [lia|]. wrd s0; [lia|]. cbv zeta.
  pose proof (Lc i Hi) as Lci. pose proof (Uc i Hi) as Uci. cbv beta in Lci, Uci.
  set (kl0 := znth 0 lp i) in *. set (kl1 := znth 0 lp (i + 1)) in *. set (ku0 := znth 0 up i) in *. set (ku1 := znth 0 up (i + 1)) in *.
  set (st0 := mkFst (f_iw s) (mkTri (t_ix (f_L s)) (t_v (f_L s)) kl0) (mkTri (t_ix (f_U s)) (t_v (f_U s)) ku0) (f_d s)).
  assert (RL : room A (fun c => c < i) kl0 kl1 (t_ix (f_L s)) (t_v (f_L s)) (vis A m i)) by (apply (room_of _ i 0 i); auto; lia).
  assert (RU : room A (fun c => i < c) ku0 ku1 (t_ix (f_U s)) (t_v (f_U s)) (vis A m i)) by (apply (room_of _ i (i + 1) n); auto; lia).
  assert (H0 : ST i kl0 ku0 (t_ix (f_L s)) (t_ix (f_U s)) (t_v (f_L s)) (t_v (f_U s)) (f_d s) [] st0).
  { unfold ST, st0, TR. cbn [f_iw f_L f_U f_d t_ix t_v t_k map acc ssum]. repeat match goal with |- _ /\ _ => split end; auto; try lia; try (intros ? []); try (intros; lia); try (intros c Hc _; right; split; [intros []|split; [apply Hw; auto|reflexivity]]). unfold acc. cbn [map ssum]. ring. }
  apply wp_bind. eapply wp_mono; [apply (fill_ia_wp i kl0 kl1 ku0 ku1); eauto|]. intros s1 H1. apply wp_bind.
  set (STr := ST i kl0 ku0 (t_ix (f_L s)) (t_ix (f_U s)) (t_v (f_L s)) (t_v (f_U s)) (f_d s)).
  set (u0 := znth 0 (csr_ptr (sp_U A)) i) in *. set (u1 := znth 0 (csr_ptr (sp_U A)) (i + 1)) in *.
  apply (for_wp' (fun ja '(s, t) => STr (rowB (sp_L A) (znth s0 (sp_D A) i) i ++ rowB (sp_U A) (znth s0 (sp_D A) i) i ++ flat_map (fun ja => rowA (mult ja) (znth 0 (csr_index (sp_U A)) ja)) (zrange u0 ja)) s /\
     t = sadd (smul (znth s0 (sp_D A) i) (znth s0 b i)) (ssum (map (fun ja => smul (mult ja) (znth s0 b (znth 0 (csr_index (sp_U A)) ja))) (zrange u0 ja))))); [lia| | |].
  - rewrite zrange_empty by lia. cbn [flat_map map ssum]. rewrite app_nil_r. split; [exact H1|ring].
  - intros ja [s2 t2] Hja [H2 Et]. destruct (B4 ja ltac:(lia)) as (K1 & K2 & K3 & K4). wrd 0; [lia|]. wrd s0; [lia|]. wrd s0; [lia|]. apply wp_bind.
    assert (Hjj : i < znth 0 (csr_index (sp_U A)) ja < n) by lia.
    eapply wp_mono; [refine (fill_sa_wp i kl0 kl1 ku0 ku1 _ _ _ _ _ Hi Hd RL RU (znth 0 (csr_index (sp_U A)) ja) (mult ja) _ s2 Hjj _ H2)|].
    + intros c Hc. unfold vis. apply in_or_app. right. apply in_or_app. right. apply in_flat_map. exists ja. split; [|auto]. unfold npos. apply In_zrange. fold u0 u1. lia.
    + intros s3 H3. cbn [wp]. rewrite (zrange_snoc u0 ja) by lia. rewrite flat_map_app, map_app, (ssum_app RT). cbn [flat_map map ssum]. rewrite app_nil_r. rewrite !app_assoc in *. split; [exact H3|]. rewrite Et. unfold mult. ring.
  - intros [s2 t2] [H2 Et]. change (STr (PR i) s2) in H2. unfold STr in H2. destruct H2 as (HX & HTL & HTU & [Lw2 Hwi] & Ld2 & Hd2 & Hdi). rewrite PR_cols in HTL, HTU.
    pose proof (room_end A _ _ _ _ _ _ _ _ _ RL HTL) as EkL. pose proof (room_end A _ _ _ _ _ _ _ _ _ RU HTU) as EkU.
    pose proof (TR_line _ _ _ _ _ _ _ _ _ RL HTL) as LL. pose proof (TR_line _ _ _ _ _ _ _ _ _ RU HTU) as LU.
    pose proof HTL as (G1 & G2 & G3 & G4 & G5 & G6). pose proof HTU as (E1 & E2 & E3 & E4 & E5 & E6).
    apply wp_bind. eapply wp_mono; [apply (unmark_wp (t_ix (f_L s2)) (f_iw s2) kl0 (t_k (f_L s2))); [lia|lia|auto|intros p Hp; destruct (G5 p Hp) as (? & _); auto]|]. intros iw1 [L1 C1].
    apply wp_bind. eapply wp_mono; [apply (unmark_wp (t_ix (f_U s2)) iw1 ku0 (t_k (f_U s2))); [lia|lia|auto|intros p Hp; destruct (E5 p Hp) as (? & _); auto]|]. intros iw2 [L2 C2].
    cbn [wp f_iw f_L f_U f_d]. split; [split; [auto|]|].
    { intros c Hc. destruct (C2 c Hc) as [|[C3 C4]]; [auto|]. rewrite C3. destruct (C1 c Hc) as [|[C5 C6]]; [auto|]. rewrite C5.
      destruct (Z.lt_trichotomy c i) as [Hlt|[Heq|Hgt]].
      - destruct (G6 c Hc Hlt) as [(_ & J2 & J3 & _)|(_ & J & _)]; [|auto]. exfalso. apply (C6 (znth 0 (f_iw s2) c - 1)); [lia|auto].
      - rewrite Heq. exact Hwi.
      - destruct (E6 c Hc Hgt) as [(_ & J2 & J3 & _)|(_ & J & _)]; [|auto]. exfalso. apply (C4 (znth 0 (f_iw s2) c - 1)); [lia|auto]. }
    split; [repeat match goal with |- _ /\ _ => split end; auto|]. split; [intros p Hp; apply G4; auto|]. split; [intros p Hp; apply E4; auto|].
    split; [exact LL|]. split; [exact LU|]. split; [exact Hd2|]. split; [exact Hdi|]. exact Et.
Qed.
End P.
