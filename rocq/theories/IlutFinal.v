Require Import ZArith List Bool Lia Ring Permutation.
From Verif Require Import Base Items Scalar Spec Sort SortProof ConvFinal Ilu SpecIlu SpecIlut DiagProof2 IluProof IluProof2 IluFinal Ilut IlutProof IlutElim IlutRow IlutRow2.
Import ListNotations.
Open Scope Z_scope.

Lemma NoDup_map_on {A B} (f : A -> B) l : (forall x y, In x l -> In y l -> f x = f y -> x = y) -> NoDup l -> NoDup (map f l).
Proof.
  induction l as [|x l IH]; cbn [map]; intros Hf Hd; constructor; inversion Hd; subst.
  - rewrite in_map_iff. intros (y & Ey & Hy). apply H1. rewrite (Hf x y); auto; cbn; auto.
  - apply IH; auto. intros; apply Hf; auto; right; auto.
Qed.
Lemma increasing_NoDup l : increasing_row l -> NoDup l.
Proof.
  intros H. apply (NoDup_nth l 0). intros p q Hp Hq Ee.
  assert (Hz : forall k, nth k l 0 = znth 0 l (Z.of_nat k)) by (intros k; unfold znth; destruct (Z.ltb_spec (Z.of_nat k) 0); [lia|rewrite Nat2Z.id; auto]).
  rewrite !Hz in Ee. pose proof (H (Z.of_nat p) (Z.of_nat q)). pose proof (H (Z.of_nat q) (Z.of_nat p)). unfold zlen in *. lia.
Qed.

Section P.
Context {T : Type} {S : Scalar T}.
Hypothesis RT : is_ring S.
Hypothesis FD : is_field S.
Let RT' : @ring_theory T s0 s1 sadd smul ssub sopp (@eq T) := RT.
Add Ring TrIlut5 : RT'.
Variable A : csr T.
Variable tol : T.
Variables lfil is_ ie : Z.
Let n := csr_n A.
Hypothesis Hok : csr_ok A.
Hypothesis Hnd : no_dup_pos (csr_entries A).
Hypothesis Hlf : 0 <= lfil.
Hypothesis Hrange : 0 <= is_ <= ie /\ ie <= n.
Hypothesis Hswo : strict_weak_order (sltb (T:=T)).
Let E := csr_entries A.
Let a i c := coef E i c.
Let small i := below_tol tol is_ ie E i.

Definition rowspec (d : Z -> T) (q : tst) (i : Z) : Prop :=
  ilut_row_spec (small i) lfil is_ ie (a i) d (q_L q) (q_Lv q) (q_U q) (q_Uv q) i.

Lemma rowspec_ext d d' q q' i : is_ <= i < ie ->
  (forall k, is_ <= k <= i -> d' k = d k /\ znth [] (q_L q') k = znth [] (q_L q) k /\ znth [] (q_Lv q') k = znth [] (q_Lv q) k /\ znth [] (q_U q') k = znth [] (q_U q) k /\ znth [] (q_Uv q') k = znth [] (q_Uv q) k) ->
  rowspec d q i -> rowspec d' q' i.
Proof.
  intros Hi H (z & lc & uc & (Hz & He) & H1 & H2 & H3 & H4 & H5 & H6 & H7 & H8 & H9). exists z, lc, uc.
  destruct (H i ltac:(lia)) as (E1 & E2 & E3 & E4 & E5). rewrite E2, E3, E4, E5. split; [|repeat (split; auto)].
  split; [congruence|]. intros Hd c Hc. destruct (He) with (c := c) as (e & Hdr & Ev); auto.
  { intros k Hk. destruct (H k ltac:(lia)) as (<- & _). auto. }
  exists e. split; auto. rewrite Ev. f_equal. f_equal. apply ssum_map_ext. intros k Hk. apply In_zrange in Hk. f_equal. unfold upper_with. destruct (H k ltac:(lia)) as (-> & _ & _ & -> & ->). auto.
Qed.

Definition shapeT (q : tst (T:=T)) : Prop :=
  zlen (q_L q) = n /\ zlen (q_Lv q) = n /\ zlen (q_U q) = n /\ zlen (q_Uv q) = n /\ zlen (q_D q) = n /\
  zlen (q_jbuf q) = n /\ zlen (q_iw q) = n /\ zlen (q_w q) = n + 1 /\ zlen (q_wn q) = n.

Definition invT (i : Z) (q : tst (T:=T)) : Prop :=
  shapeT q /\ (forall c, is_ <= c < ie -> znth 0 (q_iw q) c = -1) /\
  exists d, forall k, is_ <= k < i -> znth s0 (q_D q) k = sdiv s1 (d k) /\ rowspec d q k.

Lemma keeps_len (z : Z -> T) cols ix v : kept_row lfil z cols ix v -> zlen v = zlen ix.
Proof. intros (_ & _ & _ & ->). unfold zlen. rewrite map_length. auto. Qed.
Lemma NoDup_distinct (l : list Z) : NoDup l -> distinct_row l.
Proof. intros H p q Hp Hq Ee. destruct (Z.lt_total p q) as [Hl|[Hl|Hl]]; auto; exfalso; [apply (NoDup_znth_neq l p q)|apply (NoDup_znth_neq l q p)]; auto; lia. Qed.

Lemma rowspec_shape d q i : rowspec d q i ->
  zlen (znth [] (q_Lv q) i) = zlen (znth [] (q_L q) i) /\ zlen (znth [] (q_Uv q) i) = zlen (znth [] (q_U q) i) /\
  distinct_row (znth [] (q_L q) i) /\ distinct_row (znth [] (q_U q) i) /\
  (forall p, 0 <= p < zlen (znth [] (q_L q) i) -> is_ <= znth 0 (znth [] (q_L q) i) p < i) /\
  (forall p, 0 <= p < zlen (znth [] (q_U q) i) -> i < znth 0 (znth [] (q_U q) i) p < ie).
Proof.
  intros (z & lc & uc & _ & _ & _ & H3 & H4 & _ & H6 & H7 & _). split; [eapply keeps_len; eauto|]. split; [eapply keeps_len; eauto|].
  destruct H6 as (A1 & A2 & _), H7 as (B1 & B2 & _). split; [apply NoDup_distinct; auto|]. split; [apply NoDup_distinct; auto|].
  split; intros p Hp; [apply H3, A2|apply H4, B2]; apply znth_In; auto.
Qed.

Lemma ilut_row_wp i q : is_ <= i < ie -> invT i q -> wp (ilut_row n tol lfil is_ ie A i q) (invT (i + 1)).
Proof.
  intros Hi ((L1 & L2 & L3 & L4 & L5 & L6 & L7 & L8 & L9) & Hm & d & Hd). unfold ilut_row.
  wbind. eapply wp_mono; [apply tnorm_wp; auto; fold n; lia|]. intros tn ->. fold E.
  set (tolnorm := smul tol (row_mean is_ ie E i)).
  wbind. eapply wp_mono; [apply (ilut_load_wp RT A is_ ie); auto|]. intros s (Hw0 & Hv0). fold n in Hw0.
  wbind. eapply wp_mono.
  { apply (ilut_elim_wp RT n is_ ie Hrange i Hi tolnorm (a i)); auto. intros k Hk. destruct (Hd k Hk) as [_ Hr]. apply rowspec_shape in Hr as (R1 & R2 & R3 & R4 & R5 & R6). split; auto. }
  clear s Hw0 Hv0. intros s (Hw & Hn1 & Hn2).
  pose proof (wfT_lenl n is_ ie Hrange i Hi _ s Hw) as B1. pose proof (wfT_lenu n is_ ie Hrange i Hi _ s Hw) as B2. pose proof (wfT_inj n is_ ie Hrange i Hi _ s Hw) as Hinj.
  pose proof Hw as (M1 & M2 & M3 & Hj & Hu & HL & HD & HP & HI & HU & HW & HO).
  set (J := fun p => znth 0 (t_jbuf s) p). set (W := fun p => znth s0 (t_w s) p). set (IW := fun c => znth 0 (t_iw s) c).
  assert (HJu : forall p, i < p <= i + t_lenu s -> i < J p < ie).
  { intros p Hp. destruct (HU p ltac:(lia)) as [Q1 Q2]. unfold J. destruct (HU i ltac:(lia)) as [_ Q3]. rewrite HI in Q3. assert (znth 0 (t_jbuf s) p <> i); [|lia]. intro Ee. rewrite Ee in Q2. lia. }
  wwr; [lia|]. wbind.
  apply (for_wp' (fun j iw => zlen iw = n /\ (forall c, is_ <= c < ie -> znth 0 iw c = -1 \/ (znth 0 iw c = IW c /\ c <> i /\ forall j', 0 <= j' < j -> J (i + j' + 1) <> c)))).
  { lia. }
  { rewrite zlen_zupd. split; auto. intros c Hc. destruct (Z.eq_dec c i) as [->|]; [left; rewrite znth_zupd_eq by lia; auto|right; rewrite znth_zupd_neq by lia; split; auto; split; auto; intros; lia]. }
  { intros j iw Hjj (Z1 & Z2). specialize (HJu (i + j + 1) ltac:(lia)) as Hju. wrd 0; [lia|]. fold (J (i + j + 1)). wwr; [lia|]. rewrite zlen_zupd. split; auto. intros c Hc. destruct (Z.eq_dec c (J (i + j + 1))) as [->|Hne].
    - left. rewrite znth_zupd_eq by lia. auto.
    - rewrite znth_zupd_neq by lia. destruct (Z2 c Hc) as [Q|(Q1 & Q2 & Q3)]; [left; auto|right]. split; auto. split; auto. intros j' Hj'. destruct (Z.eq_dec j' j) as [->|]; [auto|apply Q3; lia]. }
  intros iw1 (Z1 & Z2).
  assert (Hm1 : forall c, is_ <= c < ie -> znth 0 iw1 c = -1).
  { intros c Hc. destruct (Z2 c Hc) as [Q|(Q1 & Q2 & Q3)]; auto. rewrite Q1. destruct (HW c Hc) as [Q|[[Q Q']|[Q Q']]]; [exact Q|lia|]. exfalso. apply (Q3 (IW c - i - 1)).
    - assert (IW c <> i); [|unfold IW in *; lia]. intro Ee. unfold IW in Ee. rewrite Ee in Q'. lia.
    - replace (i + (IW c - i - 1) + 1) with (IW c) by lia. exact Q'. }
  wrd s0; [lia|]. wwr; [lia|]. fold (W i).
  wbind. eapply wp_mono; [apply (ilut_keep_wp Hswo n lfil 0 (t_lenl s)); auto; lia|]. intros [[[wn2 iw2] lx] lv] (K1 & K2 & K3 & K4 & sl & Hsl).
  wwr; [lia|]. wwr; [lia|].
  wbind. eapply wp_mono; [apply (ilut_keep_wp Hswo n lfil (i + 1) (t_lenu s)); auto; lia|]. intros [[[wn3 iw3] ux] uv] (K5 & K6 & K7 & K8 & su & Hsu).
  wwr; [lia|]. wwr; [lia|]. apply wp_ok.
  split; [unfold shapeT; cbn; rewrite ?zlen_zupd; repeat (split; auto)|]. split.
  { cbn [q_iw]. intros c Hc. destruct (Z_lt_dec c (t_lenu s)); [apply K7; lia|]. rewrite K8 by lia. destruct (Z_lt_dec c (t_lenl s)); [apply K3; lia|]. rewrite K4 by lia. auto. }
  set (d' := fun k => if k =? i then W i else d k). exists d'.
  set (q' := mkTst (zupd (q_L q) i lx) (zupd (q_Lv q) i lv) (zupd (q_U q) i ux) (zupd (q_Uv q) i uv) (zupd (q_D q) i (sdiv s1 (W i))) (t_jbuf s) iw3 (t_w s) wn3).
  assert (Hold : forall k, is_ <= k < i -> d' k = d k /\ znth [] (q_L q') k = znth [] (q_L q) k /\ znth [] (q_Lv q') k = znth [] (q_Lv q) k /\ znth [] (q_U q') k = znth [] (q_U q) k /\ znth [] (q_Uv q') k = znth [] (q_Uv q) k).
  { intros k Hk. unfold d', q'. cbn. rewrite !znth_zupd_neq by lia. destruct (Z.eqb_spec k i); [lia|]. auto. }
  intros k Hk. destruct (Z.eq_dec k i) as [->|].
  2: { destruct (Hd k ltac:(lia)) as [Q1 Q2]. destruct (Hold k ltac:(lia)) as (Q3 & _). change (q_D q') with (zupd (q_D q) i (sdiv s1 (W i))). rewrite znth_zupd_neq by lia. rewrite Q3. split; auto. apply (rowspec_ext d d' q q' k); auto; [lia|]. intros k' Hk'. apply Hold. lia. }
  split; [change (q_D q') with (zupd (q_D q) i (sdiv s1 (W i))); rewrite znth_zupd_eq by lia; unfold d'; rewrite Z.eqb_refl; auto|].
  (* the new row *)
  set (lc := map J (zrange 0 (t_lenl s))). set (uc := map J (zrange (i + 1) (i + 1 + t_lenu s))). set (lw := map W (zrange 0 (t_lenl s))).
  assert (Zlc : zlen lc = t_lenl s) by (unfold lc; rewrite zlen_map, zlen_zrange; lia).
  assert (Zlw : zlen lw = t_lenl s) by (unfold lw; rewrite zlen_map, zlen_zrange; lia).
  assert (Zuc : zlen uc = t_lenu s) by (unfold uc; rewrite zlen_map, zlen_zrange; lia).
  assert (Nlc : forall p, 0 <= p < t_lenl s -> znth 0 lc p = J p) by (intros; apply znth_map_range; lia).
  assert (Nlw : forall p, 0 <= p < t_lenl s -> znth s0 lw p = W p) by (intros; apply znth_map_range; lia).
  assert (Dlc : distinct_row lc) by (intros p p' Hp Hp'; rewrite Zlc in *; rewrite !Nlc by auto; apply Hinj; auto).
  set (z := fun c => if c <? i then row_at lc lw c else valT s c).
  assert (Hz1 : forall p, 0 <= p < t_lenl s -> z (J p) = W p).
  { intros p Hp. unfold z. destruct (Z.ltb_spec (J p) i) as [|Hx]; [|specialize (HL p Hp); fold (J p) in HL; lia]. rewrite <- Nlc by auto. rewrite (row_at_in RT) by (auto; lia). apply Nlw; auto. }
  assert (Hz2 : forall p, i <= p <= i + t_lenu s -> z (J p) = W p).
  { intros p Hp. destruct (HU p Hp) as [Q1 Q2]. fold (J p) in Q1, Q2. unfold z. destruct (Z.ltb_spec (J p) i); [lia|]. unfold valT. fold (IW (J p)) in Q2 |- *. rewrite Q2. destruct (Z.eqb_spec p (-1)); [lia|]. auto. }
  assert (Hz3 : forall c, is_ <= c < i -> ~ In c lc -> z c = s0 /\ valT s c = s0).
  { intros c Hc Hno. split.
    - unfold z. destruct (Z.ltb_spec c i); [|lia]. apply (row_at_out RT); [lia|]. intros p Hp Ee. apply Hno. rewrite <- Ee. apply znth_In. auto.
    - unfold valT. destruct (HW c ltac:(lia)) as [Q|[[Q _]|[Q Q']]]; [rewrite Q; auto|lia|]. destruct (HU _ Q) as [Q1 _]. lia. }
  assert (Hz4 : forall c, i < c < ie -> ~ In c uc -> z c = s0).
  { intros c Hc Hno. unfold z. destruct (Z.ltb_spec c i); [lia|]. unfold valT. destruct (HW c ltac:(lia)) as [Q|[[Q _]|[Q Q']]]; [rewrite Q; auto|lia|]. exfalso. apply Hno. apply in_map_iff. exists (IW c). split; [exact Q'|]. apply In_zrange.
    assert (IW c <> i); [|unfold IW in *; lia]. intro Ee. unfold IW in Ee. rewrite Ee, HI in Q'. lia. }
  assert (Hsplit : forall c, is_ <= c < i -> In c lc -> exists p, 0 <= p < t_lenl s /\ J p = c).
  { intros c _ Hin. apply in_map_iff in Hin as (p & Ep & Hp). apply In_zrange in Hp. exists p; auto. }
  exists z, lc, uc. split; [|split; [|split; [|split; [|split; [|split]]]]].
  - split; [unfold d'; rewrite Z.eqb_refl, <- (Hz2 i) by lia; unfold J; rewrite HI; auto|].
    intros Hdk c Hc. set (u := fun k c => row_at (znth [] (q_U q) k) (znth [] (q_Uv q) k) c).
    assert (Hu0 : forall k c, is_ <= k < i -> c <= k -> u k c = s0).
    { intros k0 c0 Hk0 Hc0. destruct (Hd k0 Hk0) as [_ Hr]. apply rowspec_shape in Hr as (R1 & R2 & R3 & R4 & R5 & R6). apply (row_at_out RT); auto. intros p Hp. specialize (R6 p Hp). lia. }
    assert (Hup : forall k, is_ <= k < i -> upper_with d' (q_U q') (q_Uv q') k c = sadd (u k c) (if k =? c then d k else s0)).
    { intros k0 Hk0. destruct (Hold k0 Hk0) as (Q1 & _ & _ & Q4 & Q5). unfold upper_with. destruct (Z.eqb_spec k0 c) as [->|]; [rewrite Q1, (Hu0 c c) by lia; ring|]. rewrite Q4, Q5. fold (u k0 c). ring. }
    assert (HS : ssum (map (fun k => smul (z k) (upper_with d' (q_U q') (q_Uv q') k c)) (zrange is_ i)) =
                 SUM (t_lenl s) (fun p => smul (W p) (sadd (u (J p) c) (if J p =? c then d (J p) else s0)))).
    { rewrite (ssum_map_ext _ (fun k => smul (row_at lc lw k) (sadd (u k c) (if k =? c then d k else s0)))).
      - rewrite (row_at_mul RT lc lw (fun k => sadd (u k c) (if k =? c then d k else s0))); [|lia|].
        + rewrite Zlc. apply SUM_ext. intros p Hp. rewrite Nlc, Nlw by auto. auto.
        + intros p Hp. rewrite Nlc by lia. apply HL. lia.
      - intros k0 Hk0. apply In_zrange in Hk0. rewrite Hup by auto. unfold z. destruct (Z.ltb_spec k0 i); [auto|lia]. }
    assert (HS2 : forall m, 0 <= m <= t_lenl s -> (forall p, 0 <= p < m -> J p <> c) -> SUM m (fun p => smul (W p) (sadd (u (J p) c) (if J p =? c then d (J p) else s0))) = SUM m (fun p => smul (W p) (u (J p) c))).
    { intros m Hm' Hne. apply SUM_ext. intros p Hp. destruct (Z.eqb_spec (J p) c) as [Ee|]; [exfalso; apply (Hne p); auto|]. ring. }
    assert (Hsm : forall m e, dropped (smallT tolnorm) m e -> m <= i - is_ -> dropped (small i) (i - is_) e).
    { intros m e Hdr Hle. apply (dropped_mono (small i) m); auto. clear -Hdr. induction Hdr; [apply dropped_0|apply dropped_keep; auto|apply dropped_drop; auto]. unfold smallT, sltb in H. unfold small, below_tol. fold tolnorm. destruct (sleb tolnorm (sabs v)); [discriminate|auto]. }
    destruct (in_dec Z.eq_dec c lc) as [Hin|Hno].
    + apply in_map_iff in Hin as (p & Ep & Hp). apply In_zrange in Hp. pose proof (HL p Hp) as Hcr. fold (J p) in Hcr. rewrite Ep in Hcr.
      destruct (Hn2 p Hp) as (e & He & Ev). fold (J p) in Ev. fold (W p) in Ev. rewrite Ep in Ev. exists e. split; [apply (Hsm p); auto; lia|].
      destruct (Z.ltb_spec c i); [|lia]. rewrite HS.
      rewrite (SUM_split RT (t_lenl s) (p + 1)), (SUM_snoc RT) by lia. rewrite HS2; [|lia|intros p' Hp' Ee; assert (p' = p) by (apply Hinj; [lia|lia|fold (J p'); fold (J p); congruence]); lia].
      rewrite (ssum_map_ext _ (fun _ => s0) (zrange (p + 1) (t_lenl s))), (ssum_map_zero RT).
      2: { intros p' Hp'. apply In_zrange in Hp'. pose proof (HL p' ltac:(lia)) as Hpr. fold (J p') in Hpr. assert (c < J p') by (rewrite <- Ep; unfold J; apply HO; lia). rewrite Hu0 by lia. destruct (Z.eqb_spec (J p') c); [lia|]. ring. }
      rewrite Ep, Z.eqb_refl, (Hu0 c c) by lia.
      assert (Hdc : smul (W p) (d c) = ssub (ssub (a i c) (SUM p (fun q0 => smul (W q0) (u (J q0) c)))) e).
      { rewrite Ev. destruct (Hd c ltac:(lia)) as [Q _]. rewrite Q. rewrite <- (Rmul_assoc RT). rewrite (Rmul_comm RT (sdiv s1 (d c)) (d c)). rewrite (inv_mul RT FD); [unfold u, J, W; ring|]. destruct (Hold c ltac:(lia)) as (<- & _). apply Hdk. lia. }
      transitivity (sadd (sadd (SUM p (fun q0 => smul (W q0) (u (J q0) c))) (smul (W p) (d c))) e); [rewrite Hdc; ring|ring].
    + destruct (Hn1 c Hc) as (e & He & Ev); [intros p Hp Ee; apply Hno; apply in_map_iff; exists p; split; [exact Ee|apply In_zrange; auto]|].
      exists e. split; [apply (Hsm (t_lenl s)); auto; lia|]. rewrite HS, HS2; [|lia|intros p Hp Ee; apply Hno; apply in_map_iff; exists p; split; [exact Ee|apply In_zrange; auto]].
      transitivity (sadd (sadd (SUM (t_lenl s) (fun q0 => smul (W q0) (u (J q0) c))) (valT s c)) e); [rewrite Ev; unfold u, J, W; ring|]. f_equal. f_equal.
      destruct (Z.ltb_spec c i); [apply Hz3; auto; lia|]. unfold z. destruct (Z.ltb_spec c i); [lia|auto].
  - unfold lc. apply NoDup_map_on; [|apply NoDup_zrange]. intros p p' Hp Hp'. apply In_zrange in Hp, Hp'. apply Hinj; auto.
  - unfold uc. apply NoDup_map_on; [|apply NoDup_zrange]. intros p p' Hp Hp' Ee. apply In_zrange in Hp, Hp'. destruct (HU p ltac:(lia)) as [_ Q1], (HU p' ltac:(lia)) as [_ Q2]. fold (J p) in Q1. fold (J p') in Q2. congruence.
  - intros c Hin. apply in_map_iff in Hin as (p & <- & Hp). apply In_zrange in Hp. apply HL; auto.
  - intros c Hin. apply in_map_iff in Hin as (p & <- & Hp). apply In_zrange in Hp. apply HJu. lia.
  - intros c Hc Hne Hn1' Hn2'. destruct (Z_lt_dec c i); [apply Hz3; auto; lia|apply Hz4; auto; lia].
  - unfold q'. cbn [q_L q_Lv q_U q_Uv]. rewrite !znth_zupd_eq by lia.
    destruct Hsl as (S1 & S2 & S3 & S4 & S5 & S6), Hsu as (V1 & V2 & V3 & V4 & V5 & V6).
    assert (Nl : NoDup lx).
    { rewrite S4. apply NoDup_map_on; [|apply increasing_NoDup; auto]. intros p p' Hp Hp'. apply S3 in Hp, Hp'. apply Hinj; lia. }
    assert (Nu : NoDup ux).
    { rewrite V4. apply NoDup_map_on; [|apply increasing_NoDup; auto]. intros p p' Hp Hp' Ee. apply V3 in Hp, Hp'. destruct (HU p ltac:(lia)) as [_ Q1], (HU p' ltac:(lia)) as [_ Q2]. congruence. }
    assert (HIl : forall c, In c lx -> exists p, In p sl /\ J p = c) by (intros c Hc; rewrite S4 in Hc; apply in_map_iff in Hc as (p & Q1 & Q2); exists p; auto).
    assert (HIu : forall c, In c ux -> exists p, In p su /\ J p = c) by (intros c Hc; rewrite V4 in Hc; apply in_map_iff in Hc as (p & Q1 & Q2); exists p; auto).
    assert (Hsle : forall x y : T, sltb x y = false -> sleb y x = true) by (intros x y; unfold sltb; destruct (sleb y x); auto; discriminate).
    split; [|split; [|split]].
    + split; auto. split; [|split].
      * intros c Hc. destruct (HIl c Hc) as (p & Hp & <-). apply S3 in Hp. apply in_map_iff. exists p. split; auto. apply In_zrange. lia.
      * rewrite S4, zlen_map, S2, Zlc. lia.
      * rewrite S5, S4, map_map. apply map_ext_in. intros p Hp. apply S3 in Hp. symmetry. apply (Hz1 p). lia.
    + split; auto. split; [|split].
      * intros c Hc. destruct (HIu c Hc) as (p & Hp & <-). apply V3 in Hp. apply in_map_iff. exists p. split; auto. apply In_zrange. lia.
      * rewrite V4, zlen_map, V2, Zuc. lia.
      * rewrite V5, V4, map_map. apply map_ext_in. intros p Hp. apply V3 in Hp. symmetry. apply (Hz2 p). lia.
    + intros c c' Hc Hc' Hn'. destruct (HIl c Hc) as (p & Hp & <-). apply in_map_iff in Hc' as (p' & <- & Hp'). apply In_zrange in Hp'. rewrite !Hz1 by (try (apply S3 in Hp); lia). apply Hsle. apply S6; auto. intro Hin. apply Hn'. rewrite S4. apply in_map_iff. exists p'. auto.
    + intros c c' Hc Hc' Hn'. destruct (HIu c Hc) as (p & Hp & <-). apply in_map_iff in Hc' as (p' & <- & Hp'). apply In_zrange in Hp'. rewrite !Hz2 by (try (apply V3 in Hp); lia). apply Hsle. apply V6; auto; try lia. intro Hin. apply Hn'. rewrite V4. apply in_map_iff. exists p'. auto.
Qed.

Lemma create_ilut_wp jb ji jw jn jd :
  wp (create_ilut jb ji jw jn jd tol lfil is_ ie A) (fun F => factors_ok is_ ie F /\ exists d, forall i, is_ <= i < ie ->
    znth s0 (fa_D F) i = sdiv s1 (d i) /\ ilut_row_spec (small i) lfil is_ ie (a i) d (fa_L F) (fa_Lv F) (fa_U F) (fa_Uv F) i).
Proof.
  unfold create_ilut. fold n. pose proof Hok as (Hp & _). pose proof Hp as (Hn0 & _). fold n in Hn0. wbind.
  apply (for_wp' (fun i iw => zlen iw = n /\ forall c, is_ <= c < i -> znth 0 iw c = -1)).
  - lia.
  - rewrite zlen_alloc by lia. split; [lia|]. intros; lia.
  - intros i iw Hi (H1 & H2). wwr; [lia|]. rewrite zlen_zupd. split; auto. intros c Hc. destruct (Z.eq_dec c i) as [->|]; [rewrite znth_zupd_eq by lia; auto|rewrite znth_zupd_neq by lia; apply H2; lia].
  - intros iw (H1 & H2). wbind. apply (for_wp' invT).
    + lia.
    + split; [unfold shapeT; cbn; rewrite !zlen_alloc by lia; repeat (split; auto)|]. split; [exact H2|]. exists (fun _ => s0). intros; lia.
    + intros i q Hi Hq. apply ilut_row_wp; auto.
    + intros q ((L1 & L2 & L3 & L4 & L5 & _) & _ & d & Hd). apply wp_ok. cbn [fa_L fa_Lv fa_U fa_Uv fa_D]. split.
      * unfold factors_ok. cbn [fa_L fa_Lv fa_U fa_Uv fa_D]. split; [lia|]. do 5 (split; [lia|]). intros i Hi. destruct (Hd i Hi) as [_ Hr]. apply rowspec_shape in Hr as (R1 & R2 & R3 & R4 & R5 & R6). auto.
      * exists d. intros i Hi. apply Hd; auto.
Qed.

(** nothing discarded: the stored row is the whole row *)
Lemma kept_all (z : Z -> T) cols ix v c : kept_row lfil z cols ix v -> NoDup cols -> zlen cols <= lfil -> row_at ix v c = (if in_dec Z.eq_dec c cols then z c else s0).
Proof.
  intros Hk Hn Hl. pose proof (keeps_len z cols ix v Hk) as Hlen. destruct Hk as (K1 & K2 & K3 & K4).
  assert (Hinc : incl cols ix) by (apply NoDup_length_incl; auto; unfold zlen in *; lia).
  destruct (in_dec Z.eq_dec c cols) as [Hin|Hno].
  - apply Hinc in Hin. apply in_row_ex in Hin as (p & Hp & Ep). rewrite <- Ep. rewrite (row_at_in RT) by (auto using NoDup_distinct). rewrite K4. rewrite (znth_map z 0 s0) by auto. auto.
  - apply (row_at_out RT); auto. intros p Hp Ee. apply Hno. apply K2. rewrite <- Ee. apply znth_In. auto.
Qed.

Lemma ilut_product F d i : factors_ok is_ ie F -> is_ <= i < ie -> ie - is_ <= lfil -> (forall k, is_ <= k < i -> d k <> s0) ->
  ilut_row_spec (small i) lfil is_ ie (a i) d (fa_L F) (fa_Lv F) (fa_U F) (fa_Uv F) i ->
  forall c, is_ <= c < ie -> exists e, dropped (small i) (i - is_) e /\ a i c = sadd (mat_mul is_ ie (unit_lower (fa_L F) (fa_Lv F)) (upper_with d (fa_U F) (fa_Uv F)) i c) e.
Proof.
  intros HF Hi Hlf' Hd (z & lc & uc & (Hz & He) & N1 & N2 & R1 & R2 & Z0 & K1 & K2 & _) c Hc.
  destruct (He Hd c Hc) as (e & Hdr & Ev). exists e. split; auto. rewrite Ev. f_equal.
  assert (Hlen : forall l lo hi, NoDup l -> (forall c, In c l -> lo <= c < hi) -> lo <= hi -> zlen l <= hi - lo).
  { intros l lo hi Hn Hr Hlo. assert (length l <= length (zrange lo hi))%nat by (apply NoDup_incl_length; auto; intros x Hx; apply In_zrange; auto). pose proof (zlen_zrange lo hi). unfold zlen in *. lia. }
  pose proof (Hlen lc is_ i N1 R1 ltac:(lia)) as B1. pose proof (Hlen uc (i + 1) ie N2 ltac:(intros x Hx; specialize (R2 x Hx); lia) ltac:(lia)) as B2.
  unfold mat_mul. rewrite (zrange_app is_ i ie), (zrange_cons i ie) by lia. rewrite map_app, (ssum_app RT). cbn [map ssum].
  assert (HL : forall k, k <> i -> is_ <= k < ie -> unit_lower (fa_L F) (fa_Lv F) i k = if k <? i then z k else s0).
  { intros k Hk Hkr. unfold unit_lower. destruct (Z.eqb_spec k i); [lia|]. rewrite (kept_all z lc _ _ k K1 N1) by lia. destruct (in_dec Z.eq_dec k lc) as [Hin|Hno].
    - specialize (R1 k Hin). destruct (Z.ltb_spec k i); [auto|lia].
    - destruct (Z.ltb_spec k i); [|auto]. symmetry. apply Z0; auto. intro Hin. specialize (R2 k Hin). lia. }
  rewrite (ssum_map_ext (fun k => smul (unit_lower (fa_L F) (fa_Lv F) i k) (upper_with d (fa_U F) (fa_Uv F) k c)) (fun k => smul (z k) (upper_with d (fa_U F) (fa_Uv F) k c)) (zrange is_ i)).
  2: { intros k Hk. apply In_zrange in Hk. rewrite HL by lia. destruct (Z.ltb_spec k i); [auto|lia]. }
  rewrite (ssum_map_ext _ (fun _ => s0) (zrange (i + 1) ie)), (ssum_map_zero RT).
  2: { intros k Hk. apply In_zrange in Hk. rewrite HL by lia. destruct (Z.ltb_spec k i); [lia|ring]. }
  unfold unit_lower at 1. rewrite Z.eqb_refl.
  transitivity (sadd (ssum (map (fun k => smul (z k) (upper_with d (fa_U F) (fa_Uv F) k c)) (zrange is_ i))) (upper_with d (fa_U F) (fa_Uv F) i c)); [|ring]. f_equal.
  unfold upper_with. destruct (Z.eqb_spec i c) as [<-|Hne]; [destruct (Z.ltb_spec i i); [lia|auto]|].
  rewrite (kept_all z uc _ _ c K2 N2) by lia. destruct (in_dec Z.eq_dec c uc) as [Hin|Hno].
  - specialize (R2 c Hin). destruct (Z.ltb_spec c i); [lia|auto].
  - destruct (Z.ltb_spec c i); [auto|]. apply Z0; auto. intro Hin. specialize (R1 c Hin). lia.
Qed.
End P.
