(** I+S: the counting pass of lis_precon_create_is_csr. *)
Require Import ZArith List Bool Lia Permutation.
From Verif Require Import Base Items Scalar Spec SpecSplit SplitProof Split Isp IspApply.
Import ListNotations.
Open Scope Z_scope.

Section P.
Context {T : Type} {S : Scalar T}.
Variables (A : split T) (m : Z).
Hypothesis HA : split_ok A.
Hypothesis Hsq : sp_np A = sp_n A.
Hypothesis Hm : 0 <= m.
Notation n := (sp_n A).

(** columns of row r of a CSR structure *)
Definition cols (B : csr T) (r : Z) : list Z := map (znth 0 (csr_index B)) (zrange (znth 0 (csr_ptr B) r) (znth 0 (csr_ptr B) (r + 1))).
Definition npos (i : Z) : list Z := zrange (znth 0 (csr_ptr (sp_U A)) i) (Z.min (znth 0 (csr_ptr (sp_U A)) i + m) (znth 0 (csr_ptr (sp_U A)) (i + 1))).
Definition vrow (jj : Z) : list Z := cols (sp_L A) jj ++ [jj] ++ cols (sp_U A) jj.
(** columns visited for row i *)
Definition vis (i : Z) : list Z := cols (sp_L A) i ++ cols (sp_U A) i ++ flat_map (fun ja => vrow (znth 0 (csr_index (sp_U A)) ja)) (npos i).

Definition row_fine (B : csr T) (r : Z) (rel : Z -> Prop) : Prop :=
  0 <= r < zlen (csr_ptr B) /\ 0 <= r + 1 < zlen (csr_ptr B) /\ 0 <= znth 0 (csr_ptr B) r <= znth 0 (csr_ptr B) (r + 1) /\
  forall j, znth 0 (csr_ptr B) r <= j < znth 0 (csr_ptr B) (r + 1) -> 0 <= j < zlen (csr_index B) /\ 0 <= j < zlen (csr_value B) /\ 0 <= znth 0 (csr_index B) j < n /\ rel (znth 0 (csr_index B) j).
Lemma fine_gen (B : csr T) r (rel : Z -> Z -> Prop) : csr_ok B -> csr_n B = n -> csr_np B = n -> (forall e, In e (csr_entries B) -> rel (ecol e) (erow e)) -> 0 <= r < n -> row_fine B r (fun c => rel c r).
Proof using.
  intros H En Enp HR Hr. pose proof H as [HP [_ [Hnz [Hli [Hlv Hix]]]]]. pose proof HP as [_ [HL [H0 Hmono]]]. rewrite En in *.
  pose proof (Hmono r ltac:(lia)). pose proof (ptr_ok_mono n _ 0 r HP ltac:(lia) ltac:(lia)). pose proof (ptr_ok_mono n _ (r + 1) n HP ltac:(lia) ltac:(lia)).
  split; [lia|]. split; [lia|]. split; [lia|]. intros j Hj. split; [lia|]. split; [lia|]. split; [rewrite <- Enp; apply Hix; lia|].
  apply (HR (r, znth 0 (csr_index B) j, znth s0 (csr_value B) j)). unfold csr_entries. apply in_flat_map. exists r. split; [apply In_zrange; lia|]. apply in_map_iff. exists j. split; [auto|]. apply In_zrange. lia.
Qed.
Lemma L_fine r : 0 <= r < n -> row_fine (sp_L A) r (fun c => c < r).
Proof using HA Hsq. destruct HA as (H1 & H2 & H3 & H4 & _). intros. apply (fine_gen (sp_L A) r (fun c r => c < r)); auto. lia. Qed.
Lemma U_fine r : 0 <= r < n -> row_fine (sp_U A) r (fun c => r < c).
Proof using HA Hsq. destruct HA as (_ & _ & _ & _ & H1 & H2 & H3 & H4 & _). intros. apply (fine_gen (sp_U A) r (fun c r => r < c)); auto. lia. Qed.
Lemma cols_in B r rel c : row_fine B r rel -> In c (cols B r) -> 0 <= c < n /\ rel c.
Proof using. intros (_ & _ & _ & H) Hc. unfold cols in Hc. apply in_map_iff in Hc. destruct Hc as (j & <- & Hj). apply In_zrange in Hj. specialize (H j Hj). tauto. Qed.
Lemma npos_in i ja : 0 <= i < n -> In ja (npos i) -> znth 0 (csr_ptr (sp_U A)) i <= ja < znth 0 (csr_ptr (sp_U A)) (i + 1) /\ i < znth 0 (csr_index (sp_U A)) ja < n.
Proof using HA Hsq. intros Hi H. unfold npos in H. apply In_zrange in H. destruct (U_fine i Hi) as (_ & _ & _ & HU). destruct (HU ja ltac:(lia)) as (_ & _ & K1 & K2). lia. Qed.
Lemma vrow_in jj c : 0 <= jj < n -> In c (vrow jj) -> 0 <= c < n.
Proof using HA Hsq. intros Hj H. unfold vrow in H. apply in_app_or in H. destruct H as [H|H]; [apply (cols_in _ _ _ _ (L_fine jj Hj)) in H; lia|]. destruct H as [H|H]; [lia|]. apply (cols_in _ _ _ _ (U_fine jj Hj)) in H. lia. Qed.
Lemma vis_in i c : 0 <= i < n -> In c (vis i) -> 0 <= c < n.
Proof using HA Hsq.
  intros Hi H. unfold vis in H. apply in_app_or in H. destruct H as [H|H]; [apply (cols_in _ _ _ _ (L_fine i Hi)) in H; lia|]. apply in_app_or in H. destruct H as [H|H]; [apply (cols_in _ _ _ _ (U_fine i Hi)) in H; lia|].
  apply in_flat_map in H. destruct H as (ja & Hja & H). destruct (npos_in i ja Hi Hja). apply vrow_in in H; lia.
Qed.

(** loop over a row: the prefix of its columns *)
Lemma row_loop_wp {X} (B : csr T) r rel (body : Z -> X -> res X) (I : list Z -> X -> Prop) C s (Q : X -> Prop) : row_fine B r rel -> I C s ->
  (forall j C s, znth 0 (csr_ptr B) r <= j < znth 0 (csr_ptr B) (r + 1) -> I C s -> (exists C0, C = C0 ++ map (znth 0 (csr_index B)) (zrange (znth 0 (csr_ptr B) r) j)) -> wp (body j s) (I (C ++ [znth 0 (csr_index B) j]))) ->
  (forall s, I (C ++ cols B r) s -> Q s) -> wp (row_loop B r body s) Q.
Proof using.
  intros (H1 & H2 & H3 & H4) Hs Hb HQ. unfold row_loop. wrd 0; [lia|]. wrd 0; [lia|].
  apply (for_wp' (fun j s => I (C ++ map (znth 0 (csr_index B)) (zrange (znth 0 (csr_ptr B) r) j)) s)); [lia| | |exact HQ].
  - rewrite zrange_empty by lia. cbn [map]. rewrite app_nil_r. exact Hs.
  - intros j s' Hj HI. rewrite zrange_snoc by lia. rewrite map_app, app_assoc. apply Hb; auto. exists C. reflexivity.
Qed.

(** *** marks *)
Definition ml (s : cnt) : list Z := map (znth 0 (c_iw2 s)) (zrange 0 (c_k s)).
Definition CN (C : list Z) (s : cnt) : Prop :=
  zlen (c_iw s) = n /\ zlen (c_iw2 s) = n /\ 0 <= c_k s <= n /\ NoDup (ml s) /\ (forall c, In c (ml s) <-> In c C) /\ (forall c, In c C -> 0 <= c < n) /\
  (forall c, 0 <= c < n -> znth 0 (c_iw s) c = 0 <-> ~ In c C).
Definition CC (i : Z) (C : list Z) (s : cnt) : Prop :=
  CN C s /\ c_l s = zlen (filter (fun c => c <? i) (ml s)) /\ c_u s = zlen (filter (fun c => i <? c) (ml s)).

Lemma NoDup_range_len (l : list Z) lo hi : NoDup l -> (forall c, In c l -> lo <= c < hi) -> lo <= hi -> zlen l <= hi - lo.
Proof using.
  intros Hd Hr Hle. pose proof (NoDup_incl_length Hd (l' := zrange lo hi)) as H. assert (E : zlen (zrange lo hi) = hi - lo) by (rewrite zlen_zrange; lia). rewrite <- E. unfold zlen. apply inj_le. apply H. intros c Hc. apply In_zrange. auto.
Qed.
Lemma cmark_wp C s c : CN C s -> 0 <= c < n -> ~ In c C -> wp (cmark c s) (fun s' => CN (C ++ [c]) s' /\ ml s' = ml s ++ [c] /\ c_l s' = c_l s /\ c_u s' = c_u s).
Proof using.
  intros (L1 & L2 & Hk & Hd & Hml & Hr & Hw) Hc Hn. unfold cmark.
  assert (Hnew : NoDup (ml s ++ [c])) by (apply NoDup_Add with (a := c) (l := ml s); [rewrite <- (app_nil_r (ml s)) at 1; apply Add_app|split; [auto|rewrite Hml; auto]]).
  assert (Hk' : c_k s < n).
  { pose proof (NoDup_range_len (ml s ++ [c]) 0 n Hnew) as HH. unfold zlen in HH. rewrite app_length in HH. cbn [length] in HH. assert (E : zlen (ml s) = c_k s) by (unfold ml, zlen; rewrite map_length; pose proof (zlen_zrange 0 (c_k s)); unfold zlen in *; lia). unfold zlen in E.
    assert (forall c0, In c0 (ml s ++ [c]) -> 0 <= c0 < n) by (intros c0 H0; apply in_app_or in H0; destruct H0 as [H0|[H0|[]]]; [apply Hr, Hml; auto|lia]). specialize (HH H ltac:(lia)). lia. }
  wwr; [lia|]. wwr; [lia|]. cbn [wp].
  assert (E : ml (mkCnt (zupd (c_iw s) c (c_k s + 1)) (zupd (c_iw2 s) (c_k s) c) (c_k s + 1) (c_l s) (c_u s)) = ml s ++ [c]).
  { unfold ml. cbn [c_iw2 c_k]. rewrite zrange_snoc by lia. rewrite map_app. f_equal; [|cbn [map]; rewrite znth_zupd_eq by lia; auto]. apply map_ext_in. intros a Ha. apply In_zrange in Ha. apply znth_zupd_neq; lia. }
  split; [|split; [exact E|split; reflexivity]]. unfold CN. rewrite E. cbn [c_iw c_iw2 c_k]. repeat match goal with |- _ /\ _ => split end; auto; try len; try lia.
  - intros q. rewrite !in_app_iff. rewrite Hml. tauto.
  - intros q Hq. apply in_app_or in Hq. destruct Hq as [Hq|[Hq|[]]]; [auto|lia].
  - intros q Hq. rewrite znth_zupd by lia. rewrite in_app_iff. destruct (Z.eqb_spec q c) as [->|Hne].
    + split; [lia|]. intros H. exfalso. apply H. right. left. auto.
    + rewrite Hw by auto. split; [intros H [H'|[H'|[]]]; [tauto|congruence]|intros H H'; apply H; auto].
Qed.
Lemma zlen_snoc {B} (l : list B) x : zlen (l ++ [x]) = zlen l + 1.
Proof using. unfold zlen. rewrite app_length. cbn [length]. lia. Qed.
Lemma count_new i C s c : CC i C s -> 0 <= c < n -> ~ In c C ->
  wp (cmark c s) (fun s' => CC i (C ++ [c]) (if c <? i then cl_inc s' else if i <? c then cu_inc s' else s')).
Proof using.
  intros (HC & Hl & Hu) Hc Hn. eapply wp_mono; [apply (cmark_wp C s c HC Hc Hn)|]. intros s' (H & E & El & Eu).
  assert (G : forall s2, c_iw s2 = c_iw s' -> c_iw2 s2 = c_iw2 s' -> c_k s2 = c_k s' -> c_l s2 = c_l s' + (if c <? i then 1 else 0) -> c_u s2 = c_u s' + (if i <? c then 1 else 0) -> CC i (C ++ [c]) s2).
  { intros s2 E1 E2 E3 E4 E5. assert (Eml : ml s2 = ml s') by (unfold ml; rewrite E2, E3; auto). unfold CC. split; [|split].
    - unfold CN in *. rewrite Eml, E1, E2, E3. exact H.
    - rewrite Eml, E, filter_app, E4, El, Hl. cbn [filter]. destruct (c <? i); [rewrite zlen_snoc; auto|rewrite app_nil_r; lia].
    - rewrite Eml, E, filter_app, E5, Eu, Hu. cbn [filter]. destruct (i <? c); [rewrite zlen_snoc; auto|rewrite app_nil_r; lia]. }
  destruct (Z.ltb_spec c i) as [H1|H1].
  - apply G; try reflexivity. cbn [cl_inc c_u]. destruct (Z.ltb_spec i c); [lia|]. lia.
  - destruct (Z.ltb_spec i c) as [H2|H2]; apply G; try reflexivity; cbn [cu_inc c_l c_u]; lia.
Qed.
Lemma CC_old i C s c : CC i C s -> In c C -> CC i (C ++ [c]) s.
Proof using.
  intros ((L1 & L2 & Hk & Hd & Hml & Hr & Hw) & Hl) Hc. split; [|exact Hl]. unfold CN. repeat match goal with |- _ /\ _ => split end; auto; try lia.
  - intros q. rewrite in_app_iff, Hml. split; [auto|]. intros [H|[H|[]]]; [auto|subst; auto].
  - intros q Hq. apply in_app_or in Hq. destruct Hq as [Hq|[Hq|[]]]; [auto|subst; auto].
  - intros q Hq. rewrite in_app_iff, Hw by auto. split; [intros H [H'|[H'|[]]]; [tauto|subst; tauto]|tauto].
Qed.

(** the sets of columns of row i of P *)
Definition vset (i lo hi : Z) : list Z := filter (fun c => existsb (Z.eqb c) (vis i)) (zrange lo hi).
Lemma vset_in i lo hi c : In c (vset i lo hi) <-> lo <= c < hi /\ In c (vis i).
Proof using.
  unfold vset. rewrite filter_In, In_zrange. split; intros [H1 H2]; (split; [auto|]).
  - apply existsb_exists in H2. destruct H2 as (x & Hx & E). apply Z.eqb_eq in E. subst. auto.
  - apply existsb_exists. exists c. split; auto. apply Z.eqb_refl.
Qed.
Lemma vset_nodup i lo hi : NoDup (vset i lo hi).
Proof using. apply NoDup_filter, NoDup_zrange. Qed.

Hypothesis HL : no_dup_pos (csr_entries (sp_L A)).
Hypothesis HU : no_dup_pos (csr_entries (sp_U A)).
Lemma cols_nodup (B : csr T) r : csr_n B = n -> no_dup_pos (csr_entries B) -> 0 <= r < n -> NoDup (cols B r).
Proof using.
  intros En Hd Hr. assert (H : NoDup (map snd (filter (fun p : Z * Z => fst p =? r) (map fst (csr_entries B))))).
  { assert (G : forall l : list (Z * Z), NoDup l -> NoDup (map snd (filter (fun p => fst p =? r) l))).
    { intros l Hl. induction l as [|p l IH]; [constructor|]. inversion Hl as [|? ? H1 H2]; subst. cbn [filter]. destruct (Z.eqb_spec (fst p) r) as [E|]; [|auto]. cbn [map]. constructor; [|auto].
      intros Hin. apply in_map_iff in Hin. destruct Hin as (p' & E' & Hp'). apply filter_In in Hp'. destruct Hp' as [Hp' E'']. apply Z.eqb_eq in E''. apply H1. destruct p as [a b], p' as [a' b']. cbn in *. congruence. }
    apply G. exact Hd. }
  assert (E : map snd (filter (fun p : Z * Z => fst p =? r) (map fst (csr_entries B))) = cols B r); [|rewrite E in H; exact H].
  assert (E1 : forall l : list (entry T), map snd (filter (fun p : Z * Z => fst p =? r) (map fst l)) = map ecol (filter (fun e => erow e =? r) l)).
  { clear. induction l as [|e l IH]; [reflexivity|]. cbn [map filter]. unfold erow at 1. destruct (fst (fst e) =? r); cbn [map]; rewrite IH; auto. }
  rewrite E1. rewrite filter_rows by lia. unfold rowE. rewrite map_map. reflexivity.
Qed.

Lemma nodup_fresh (l : list Z) a b lo p hi : NoDup (map (znth a b) (zrange lo hi) ++ l) -> lo <= p < hi -> ~ In (znth a b p) (map (znth a b) (zrange lo p)).
Proof using.
  intros H Hp. assert (H0 : NoDup (map (znth a b) (zrange lo hi))).
  { clear -H. induction (map (znth a b) (zrange lo hi)) as [|x t IH]; [constructor|]. cbn in H. inversion H; subst. constructor; [|auto]. intros HH. apply H2. apply in_or_app; auto. }
  rewrite (zrange_app lo p hi) in H0 by lia. rewrite (zrange_cons p hi) in H0 by lia. rewrite map_app in H0. cbn [map] in H0. apply NoDup_remove_2 in H0. intros HH. apply H0. apply in_or_app; auto.
Qed.

Lemma count_ia_wp i s : 0 <= i < n -> CC i [] s -> wp (count_ia A i s) (CC i (cols (sp_L A) i ++ cols (sp_U A) i)).
Proof using HA Hsq HL HU.
  intros Hi Hs. unfold count_ia. pose proof (L_fine i Hi) as FL. pose proof (U_fine i Hi) as FU. apply wp_bind.
  assert (NL : NoDup (cols (sp_L A) i)) by (apply cols_nodup; auto; destruct HA as (_ & H & _); auto).
  assert (NU : NoDup (cols (sp_U A) i)) by (apply cols_nodup; auto; destruct HA as (_ & _ & _ & _ & _ & H & _); auto).
  pose proof FL as (A1 & A2 & A3 & A4). unfold row_loop at 1. wrd 0; [lia|]. wrd 0; [lia|].
  apply (for_wp' (fun j s => CC i (map (znth 0 (csr_index (sp_L A))) (zrange (znth 0 (csr_ptr (sp_L A)) i) j)) s)); [lia|rewrite zrange_empty by lia; exact Hs| |].
  { intros j s1 Hj H1. destruct (A4 j Hj) as (K1 & K2 & K3 & K4). wrd 0; [lia|]. rewrite zrange_snoc by lia. rewrite map_app. apply wp_bind.
    eapply wp_mono; [apply (count_new i _ s1 _ H1 K3)|].
    - apply (nodup_fresh [] _ _ _ _ (znth 0 (csr_ptr (sp_L A)) (i + 1))); [rewrite app_nil_r; exact NL|lia].
    - intros s' H'. cbn [wp]. destruct (Z.ltb_spec (znth 0 (csr_index (sp_L A)) j) i); [exact H'|lia]. }
  intros s1 H1. fold (cols (sp_L A) i) in H1. clear s Hs.
  pose proof FU as (B1 & B2 & B3 & B4). unfold row_loop. wrd 0; [lia|]. wrd 0; [lia|].
  apply (for_wp' (fun j s => CC i (cols (sp_L A) i ++ map (znth 0 (csr_index (sp_U A))) (zrange (znth 0 (csr_ptr (sp_U A)) i) j)) s)); [lia|rewrite zrange_empty by lia; cbn [map]; rewrite app_nil_r; exact H1| |auto].
  intros j s2 Hj H2. destruct (B4 j Hj) as (K1 & K2 & K3 & K4). wrd 0; [lia|]. rewrite zrange_snoc by lia. rewrite map_app, app_assoc. apply wp_bind.
  eapply wp_mono; [apply (count_new i _ s2 _ H2 K3)|].
  - intros Hin. apply in_app_or in Hin. destruct Hin as [Hin|Hin]; [apply (cols_in _ _ _ _ FL) in Hin; lia|]. revert Hin. apply (nodup_fresh [] _ _ _ _ (znth 0 (csr_ptr (sp_U A)) (i + 1))); [rewrite app_nil_r; exact NU|lia].
  - intros s' H'. cbn [wp]. destruct (Z.ltb_spec (znth 0 (csr_index (sp_U A)) j) i); [lia|]. destruct (Z.ltb_spec i (znth 0 (csr_index (sp_U A)) j)); [exact H'|lia].
Qed.

Lemma count_step i C s c (k : cnt -> cnt) : CC i C s -> 0 <= c < n -> (forall s', k s' = if c <? i then cl_inc s' else if i <? c then cu_inc s' else s') ->
  wp (jpos <- rd (c_iw s) c ;; if jpos =? 0 then s <- cmark c s ;; Ok (k s) else Ok s) (CC i (C ++ [c])).
Proof using.
  intros Hs Hc Hk. pose proof Hs as ((L1 & L2 & _ & _ & _ & _ & Hw) & _). wrd 0; [lia|]. specialize (Hw c Hc). destruct (Z.eqb_spec (znth 0 (c_iw s) c) 0) as [E|E].
  - apply wp_bind. eapply wp_mono; [apply (count_new i C s c Hs Hc); tauto|]. intros s' H'. cbn [wp]. rewrite Hk. exact H'.
  - cbn [wp]. apply CC_old; auto. destruct (in_dec Z.eq_dec c C); tauto.
Qed.
Lemma count_sa_wp i jj C s : 0 <= i < jj -> jj < n -> CC i C s -> wp (count_sa A i jj s) (CC i (C ++ vrow jj)).
Proof using HA Hsq.
  intros Hi Hj Hs. unfold count_sa. pose proof (L_fine jj ltac:(lia)) as FL. pose proof (U_fine jj ltac:(lia)) as FU. apply wp_bind.
  apply (row_loop_wp (sp_L A) jj _ _ (CC i) C s _ FL Hs).
  - intros j C' s' Hj' H' _. destruct FL as (_ & _ & _ & F). destruct (F j Hj') as (K1 & K2 & K3 & K4). wrd 0; [lia|].
    apply (count_step i C' s' _ (fun s => if znth 0 (csr_index (sp_L A)) j <? i then cl_inc s else if i <? znth 0 (csr_index (sp_L A)) j then cu_inc s else s)); auto.
  - intros s1 H1.
    assert (G : wp (s2 <- (jpos <- rd (c_iw s1) jj ;; if jpos =? 0 then s <- cmark jj s1 ;; Ok (cu_inc s) else Ok s1) ;; row_loop (sp_U A) jj (fun jb s => jcol <- rd (csr_index (sp_U A)) jb ;; jpos <- rd (c_iw s) jcol ;; if jpos =? 0 then s <- cmark jcol s ;; Ok (cu_inc s) else Ok s) s2) (CC i (C ++ vrow jj))).
    { apply wp_bind. eapply wp_mono; [apply (count_step i _ s1 jj cu_inc H1); [lia|]|].
      - intros s'. destruct (Z.ltb_spec jj i); [lia|]. destruct (Z.ltb_spec i jj); [auto|lia].
      - intros s2 H2. apply (row_loop_wp (sp_U A) jj _ _ (CC i) _ s2 _ FU H2).
        + intros j C' s' Hj' H' _. destruct FU as (_ & _ & _ & F). destruct (F j Hj') as (K1 & K2 & K3 & K4). wrd 0; [lia|]. apply (count_step i C' s' _ cu_inc); auto.
          intros s''. destruct (Z.ltb_spec (znth 0 (csr_index (sp_U A)) j) i); [lia|]. destruct (Z.ltb_spec i (znth 0 (csr_index (sp_U A)) j)); [auto|lia].
        + intros s3 H3. unfold vrow. rewrite !app_assoc in *. exact H3. }
    destruct (rd (c_iw s1) jj) as [jp| |]; cbn [bind] in G |- *; exact G.
Qed.

Definition clear (iw : list Z) : Prop := zlen iw = n /\ forall c, 0 <= c < n -> znth 0 iw c = 0.
Lemma count_row_wp i iw iw2 : 0 <= i < n -> clear iw -> zlen iw2 = n ->
  wp (count_row A m i iw iw2) (fun s => clear (c_iw s) /\ zlen (c_iw2 s) = n /\ c_l s = zlen (vset i 0 i) /\ c_u s = zlen (vset i (i + 1) n)).
Proof using HA Hsq Hm HL HU.
  intros Hi [Hiw Hz] Hiw2. unfold count_row. destruct (U_fine i Hi) as (B1 & B2 & B3 & B4). wrd 0; [lia|]. wrd 0; [lia|]. apply wp_bind.
  assert (H0 : CC i [] (mkCnt iw iw2 0 0 0)).
  { unfold CC, CN, ml. cbn [c_iw c_iw2 c_k c_l c_u]. rewrite zrange_empty by lia. cbn [map filter]. repeat match goal with |- _ /\ _ => split end; auto; try lia; try constructor; try (intros ? []); try tauto; auto. }
  eapply wp_mono; [apply (count_ia_wp i _ Hi H0)|]. intros s1 H1. apply wp_bind.
  apply (for_wp' (fun ja s => CC i (cols (sp_L A) i ++ cols (sp_U A) i ++ flat_map (fun ja => vrow (znth 0 (csr_index (sp_U A)) ja)) (zrange (znth 0 (csr_ptr (sp_U A)) i) ja)) s)); [lia| | |].
  - rewrite zrange_empty by lia. cbn [flat_map]. rewrite app_nil_r. exact H1.
  - intros ja s2 Hja H2. destruct (B4 ja ltac:(lia)) as (K1 & K2 & K3 & K4). wrd 0; [lia|]. eapply wp_mono; [apply (count_sa_wp i (znth 0 (csr_index (sp_U A)) ja) _ s2 ltac:(lia) ltac:(lia) H2)|].
    intros s3 H3. rewrite (zrange_snoc (znth 0 (csr_ptr (sp_U A)) i) ja) by lia. rewrite flat_map_app. cbn [flat_map]. rewrite app_nil_r. rewrite !app_assoc in *. exact H3.
  - intros s2 H2. change (CC i (vis i) s2) in H2. destruct H2 as ((L1 & L2 & Hk & Hd & Hml & Hr & Hw) & Hl & Hu). apply wp_bind.
    apply (for_wp' (fun q iw => zlen iw = n /\ forall c, 0 <= c < n -> znth 0 iw c = 0 \/ exists p, q <= p < c_k s2 /\ znth 0 (c_iw2 s2) p = c)); [lia| | |].
    + split; [auto|]. intros c Hc. destruct (in_dec Z.eq_dec c (vis i)) as [Hin|Hin]; [right|left; apply Hw; auto]. apply Hml in Hin. unfold ml in Hin. apply in_map_iff in Hin. destruct Hin as (p & E & Hp). apply In_zrange in Hp. exists p. split; [lia|auto].
    + intros p w Hp [Lw Hc]. wrd 0; [lia|]. assert (0 <= znth 0 (c_iw2 s2) p < n) by (apply Hr, Hml; unfold ml; apply in_map; apply In_zrange; lia). rewrite wr_ok by lia. cbn [wp]. split; [len|]. intros c Hcr. rewrite znth_zupd by lia. destruct (Z.eqb_spec c (znth 0 (c_iw2 s2) p)) as [|Hne]; [auto|].
      destruct (Hc c Hcr) as [|(p' & Hp' & E)]; [auto|]. right. exists p'. split; [|auto]. assert (p' <> p) by congruence. lia.
    + intros w [Lw Hc]. cbn [wp c_iw c_iw2 c_l c_u]. split; [split; [auto|]|split; [auto|]].
      * intros c Hcr. destruct (Hc c Hcr) as [|(p & Hp & _)]; [auto|lia].
      * rewrite Hl, Hu. split; unfold zlen; f_equal; apply Permutation_length; apply NoDup_Permutation; first [apply vset_nodup|apply NoDup_filter; exact Hd|idtac]; intros c; rewrite filter_In, vset_in, Hml; split; intros [X1 X2].
        -- apply Z.ltb_lt in X2. split; [|auto]. specialize (Hr c X1). lia.
        -- split; [auto|]. apply Z.ltb_lt. lia.
        -- apply Z.ltb_lt in X2. split; [|auto]. specialize (Hr c X1). lia.
        -- split; [auto|]. apply Z.ltb_lt. lia.
Qed.

(** lptr, uptr: prefix sums of the numbers of columns *)
Definition counted (f : Z -> Z) (p : list Z) : Prop := zlen p = n + 1 /\ znth 0 p 0 = 0 /\ forall i, 0 <= i < n -> znth 0 p (i + 1) = znth 0 p i + f i.
Lemma is_count_wp jl ju ji : wp (is_count jl ju ji A m) (fun '(lp, up) => counted (fun i => zlen (vset i 0 i)) lp /\ counted (fun i => zlen (vset i (i + 1) n)) up).
Proof using HA Hsq Hm HL HU.
  assert (Hn : 0 <= n) by (destruct HA as (H & E & _); destruct H as [[H _] _]; lia).
  unfold is_count. apply wp_bind.
  apply (for_wp' (fun q '(lp, up, iw, iw2) => zlen lp = n + 1 /\ zlen up = n + 1 /\ clear iw /\ zlen iw2 = n /\ forall i, 0 <= i < q -> znth 0 lp (i + 1) = zlen (vset i 0 i) /\ znth 0 up (i + 1) = zlen (vset i (i + 1) n))); [lia| | |].
  - rewrite !zlen_alloc by lia. repeat match goal with |- _ /\ _ => split end; auto; try lia. split; [apply zlen_alloc; lia|]. intros c Hc. rewrite znth_alloc by lia. reflexivity.
  - intros i [[[lp up] iw] iw2] Hi (L1 & L2 & Hc & L3 & H). apply wp_bind. eapply wp_mono; [apply (count_row_wp i iw iw2 Hi Hc L3)|]. intros s (Hc' & L3' & Hl & Hu).
    wwr; [lia|]. wwr; [lia|]. cbn [wp]. repeat match goal with |- _ /\ _ => split end; auto; try len. all: try apply Hc'.
    intros q Hq. rewrite !znth_zupd by lia. destruct (Z.eqb_spec (q + 1) (i + 1)) as [E|E]; [replace q with i by lia; auto|]. apply H. lia.
  - intros [[[lp up] iw] iw2] (L1 & L2 & _ & _ & H). wwr; [lia|]. wwr; [lia|].
    set (lp0 := zupd lp 0 0). set (up0 := zupd up 0 0).
    assert (E0 : forall i, 0 <= i < n -> znth 0 lp0 (i + 1) = zlen (vset i 0 i) /\ znth 0 up0 (i + 1) = zlen (vset i (i + 1) n)).
    { intros i Hi. unfold lp0, up0. rewrite !znth_zupd by lia. destruct (Z.eqb_spec (i + 1) 0); [lia|]. apply H; auto. }
    apply (for_wp' (fun q '(lp, up) => zlen lp = n + 1 /\ zlen up = n + 1 /\ znth 0 lp 0 = 0 /\ znth 0 up 0 = 0 /\
       (forall i, 0 <= i < q -> znth 0 lp (i + 1) = znth 0 lp i + zlen (vset i 0 i) /\ znth 0 up (i + 1) = znth 0 up i + zlen (vset i (i + 1) n)) /\
       (forall i, q <= i < n -> znth 0 lp (i + 1) = znth 0 lp0 (i + 1) /\ znth 0 up (i + 1) = znth 0 up0 (i + 1)))); [lia| | |].
    + repeat match goal with |- _ /\ _ => split end; auto; try (unfold lp0, up0; len; fail); try (unfold lp0, up0; rewrite znth_zupd_eq by lia; auto); intros; lia.
    + intros i [p u] Hi (K1 & K2 & K3 & K4 & K5 & K6). wrd 0; [lia|]. wrd 0; [lia|]. wwr; [lia|]. wrd 0; [lia|]. wrd 0; [lia|]. wwr; [lia|]. cbn [wp].
      repeat match goal with |- _ /\ _ => split end; try len.
      * rewrite znth_zupd by lia. destruct (Z.eqb_spec 0 (i + 1)); [lia|auto].
      * rewrite znth_zupd by lia. destruct (Z.eqb_spec 0 (i + 1)); [lia|auto].
      * intros q Hq. rewrite !znth_zupd by lia. destruct (Z.eqb_spec q (i + 1)); [lia|]. destruct (Z.eqb_spec (q + 1) (i + 1)) as [E|E]; [|apply K5; lia]. assert (q = i) by lia. subst q. destruct (K6 i ltac:(lia)) as [M1 M2]. destruct (E0 i Hi) as [M3 M4]. lia.
      * intros q Hq. rewrite !znth_zupd by lia. destruct (Z.eqb_spec (q + 1) (i + 1)) as [E|E]; [lia|]. apply K6. lia.
    + intros [p u] (K1 & K2 & K3 & K4 & K5 & K6). split; (split; [auto|split; [auto|]]); intros i Hi; apply K5; auto.
Qed.
End P.
