(** The working row of the Crout factorisation: loading it and subtracting stored rows. *)
Require Import ZArith List Bool Lia Ring.
From Verif Require BlkProof.
From Verif Require Import Base Scalar Spec SpecIlu Sort Csc Split Ilu IluProof IluProof2 Ilut SainvMath SainvStep Iluc IlucLists.
Import ListNotations.
Open Scope Z_scope.

Section P.
Context {T : Type} {S : Scalar T}.
Hypothesis RT : is_ring S.
Let RT' : @ring_theory T s0 s1 sadd smul ssub sopp (@eq T) := RT.
Add Ring TrIlucA : RT'.
Notation wrow := (wrow (T:=T)).

(** the columns [cols] are marked, their values are f; f vanishes elsewhere right of k *)
Definition acc (n k : Z) (f : Z -> T) (cols : list Z) (s : wrow) : Prop :=
  zlen (w_v s) = n /\ zlen (w_ix s) = n /\ zlen (w_c s) = n /\ w_n s = zlen cols /\
  (forall p, 0 <= p < zlen cols -> znth 0 (w_ix s) p = znth 0 cols p) /\ NoDup cols /\ (forall c, In c cols -> k < c < n) /\
  (forall c, In c cols -> znth 0 (w_c s) c = 1 /\ znth s0 (w_v s) c = f c) /\
  (forall c, k < c < n -> ~ In c cols -> znth 0 (w_c s) c = 0 /\ f c = s0).
(** what the step leaves alone: the pointers at i<=k *)
Definition same_low (k : Z) (s s' : wrow) : Prop := forall i, 0 <= i <= k -> znth 0 (w_c s') i = znth 0 (w_c s) i.

Lemma acc_bound n k f cols (s : wrow) : acc n k f cols s -> 0 <= k < n -> zlen cols <= n - k - 1.
Proof.
  intros (A1 & A2 & A3 & A4 & A5 & A6 & A7 & _) Hk.
  assert (H : (length cols <= length (zrange (k + 1) n))%nat).
  { apply NoDup_incl_length; [exact A6|]. intros c Hc. apply In_zrange. specialize (A7 c Hc). lia. }
  pose proof (zlen_zrange (k + 1) n) as HL. unfold zlen in *. lia.
Qed.

Lemma acc_ext n k f g cols (s : wrow) : (forall c, k < c < n -> f c = g c) -> acc n k f cols s -> acc n k g cols s.
Proof.
  intros H (A1 & A2 & A3 & A4 & A5 & A6 & A7 & A8 & A9). unfold acc. do 7 (split; [assumption|]). split.
  - intros c Hc. rewrite <- H by auto. auto.
  - intros c Hc Hn. rewrite <- H by auto. auto.
Qed.

Lemma wput_wp n k f cols jj a (s : wrow) : 0 <= k < n -> acc n k f cols s -> k < jj < n -> ~ In jj cols ->
  wp (wput jj a s) (fun s' => acc n k (fun c => if c =? jj then a else f c) (cols ++ [jj]) s' /\ same_low k s s').
Proof.
  intros Hk HA Hj HN. pose proof (acc_bound _ _ _ _ _ HA Hk) as HB. destruct HA as (A1 & A2 & A3 & A4 & A5 & A6 & A7 & A8 & A9).
  pose proof (zlen_nonneg cols) as HC0.
  unfold wput. wwr; [lia|]. wwr; [lia|]. wwr; [lia|]. apply wp_ok. split.
  - unfold acc. cbn [w_v w_ix w_c w_n]. rewrite !zlen_zupd. assert (ZL : zlen (cols ++ [jj]) = zlen cols + 1) by (unfold zlen; rewrite app_length; cbn; lia).
    rewrite ZL. do 4 (split; [lia|]). split; [|split; [|split; [|split]]].
    + intros p Hp. rewrite znth_app by lia. rewrite A4. destruct (Z.ltb_spec p (zlen cols)).
      * rewrite znth_zupd_neq by lia. apply A5. lia.
      * assert (p = zlen cols) by lia. subst p. rewrite znth_zupd_eq by lia. rewrite Z.sub_diag. reflexivity.
    + apply BlkProof.NoDup_snoc; assumption.
    + intros c Hc. apply in_app_or in Hc. destruct Hc as [Hc|[<-|[]]]; [apply A7; exact Hc|lia].
    + intros c Hc. destruct (Z.eqb_spec c jj) as [->|N]; [rewrite !znth_zupd_eq by lia; auto|]. apply in_app_or in Hc. destruct Hc as [Hc|[Hc|[]]]; [|congruence].
      specialize (A7 c Hc). rewrite !znth_zupd_neq by lia. auto.
    + intros c Hc Hn. destruct (Z.eqb_spec c jj) as [->|N]; [exfalso; apply Hn; apply in_or_app; right; left; reflexivity|].
      rewrite znth_zupd_neq by lia. apply A9; [exact Hc|]. intros H. apply Hn. apply in_or_app. left. exact H.
  - intros i Hi. cbn [w_c]. apply znth_zupd_neq; lia.
Qed.

Lemma wload_wp n k ptr index value (s : wrow) : 0 <= k < n ->
  zlen (w_v s) = n -> zlen (w_ix s) = n -> zlen (w_c s) = n -> (forall c, k < c < n -> znth 0 (w_c s) c = 0) ->
  k + 1 < zlen ptr -> let js := znth 0 ptr k in let je := znth 0 ptr (k + 1) in 0 <= js <= je -> je <= zlen index -> je <= zlen value ->
  (forall j, js <= j < je -> k < znth 0 index j < n) -> (forall a b, js <= a < je -> js <= b < je -> znth 0 index a = znth 0 index b -> a = b) ->
  wp (wload ptr index value k (setn s 0)) (fun s' => exists cols, acc n k (line ptr index value k) cols s' /\ same_low k s s').
Proof.
  intros Hk L1 L2 L3 HM Hp js je Hj Hi Hv HR HD. unfold wload. wrd 0; [lia|]. wrd 0; [lia|]. fold js je.
  apply (for_wp' (fun j s' => acc n k (fun c => ssum (map (fun t => if znth 0 index t =? c then znth s0 value t else s0) (zrange js j))) (map (znth 0 index) (zrange js j)) s' /\ same_low k s s')).
  - lia.
  - rewrite zrange_empty by lia. split; [|intros i _; reflexivity]. unfold acc. cbn [setn w_v w_ix w_c w_n map zlen length Z.of_nat ssum].
    do 3 (split; [assumption|]). split; [reflexivity|]. split; [intros p Hp'; cbn in Hp'; lia|]. split; [constructor|]. split; [intros c []|]. split; [intros c []|].
    intros c Hc _. auto.
  - intros j s1 Hjr (HA & HS). wrd 0; [lia|]. wrd s0; [lia|]. eapply wp_mono; [apply (wput_wp n k _ _ (znth 0 index j) (znth s0 value j) s1 Hk HA (HR j Hjr))|].
    + intros HI. apply in_map_iff in HI. destruct HI as (t & E & Ht). apply In_zrange in Ht. apply HD in E; lia.
    + intros s2 (H1 & H2). split; [|intros i Hi'; rewrite H2, HS by lia; reflexivity].
      rewrite zrange_snoc by lia. rewrite map_app. cbn [map]. eapply acc_ext; [|exact H1]. intros c Hc. cbv beta. rewrite map_app, (ssum_app RT). cbn [map ssum].
      rewrite Z.eqb_sym. destruct (Z.eqb_spec (znth 0 index j) c) as [E|N]; [|ring].
      assert (Z0 : ssum (map (fun t => if znth 0 index t =? c then znth s0 value t else s0) (zrange js j)) = s0).
      { apply (sum_zero RT). intros t Ht. destruct (Z.eqb_spec (znth 0 index t) c) as [E'|]; [|reflexivity]. exfalso. assert (t = j) by (apply HD; [lia|lia|congruence]). lia. }
      rewrite Z0. ring.
  - intros s' (H1 & H2). eexists. split; [exact H1|exact H2].
Qed.

Lemma wsub_wp (skip : bool) n k kk val ix v f cols (s : wrow) : 0 <= k < n -> acc n k f cols s -> zlen v = zlen ix -> 0 <= kk <= zlen ix ->
  (forall t, 0 <= t < kk -> znth 0 ix t <= k) -> (forall t, kk <= t < zlen ix -> (if skip then k <= znth 0 ix t else k < znth 0 ix t) /\ znth 0 ix t < n) ->
  wp (wsub skip k kk val ix v s) (fun s' => exists cols', acc n k (fun c => ssub (f c) (smul val (row_at ix v c))) cols' s' /\ same_low k s s').
Proof.
  intros Hk HA Hv Hkk Hlo Hhi. unfold wsub.
  apply (for_wp' (fun j s' => exists cols', acc n k (fun c => ssub (f c) (smul val (ssum (map (fun t => if znth 0 ix t =? c then znth s0 v t else s0) (zrange 0 j))))) cols' s' /\ same_low k s s')).
  - lia.
  - exists cols. split; [|intros i _; reflexivity]. eapply acc_ext; [|exact HA]. intros c Hc. cbv beta. rewrite (sum_zero RT); [ring|].
    intros t Ht. specialize (Hlo t Ht). destruct (Z.eqb_spec (znth 0 ix t) c); [lia|reflexivity].
  - intros j s1 Hj (cols1 & H1 & HS). wrd 0; [lia|]. destruct (Hhi j Hj) as (Hh1 & Hh2). set (jj := znth 0 ix j) in *.
    assert (SN : forall c, ssum (map (fun t => if znth 0 ix t =? c then znth s0 v t else s0) (zrange 0 (j + 1))) =
      sadd (ssum (map (fun t => if znth 0 ix t =? c then znth s0 v t else s0) (zrange 0 j))) (if jj =? c then znth s0 v j else s0)).
    { intros c. rewrite zrange_snoc by lia. rewrite map_app, (ssum_app RT). cbn [map ssum]. fold jj. ring. }
    destruct (skip && (jj =? k)) eqn:ES.
    { apply wp_ok. exists cols1. split; [|exact HS]. eapply acc_ext; [|exact H1]. intros c Hc. cbv beta. rewrite SN.
      apply andb_true_iff in ES. destruct ES as (_ & ES). apply Z.eqb_eq in ES. destruct (Z.eqb_spec jj c); [lia|]. ring. }
    assert (Hjk : k < jj). { destruct skip; [cbn [andb] in ES; apply Z.eqb_neq in ES; lia|exact Hh1]. }
    pose proof H1 as (A1 & A2 & A3 & A4 & A5 & A6 & A7 & A8 & A9).
    wrd 0; [lia|]. wrd s0; [lia|].
    destruct (in_dec Z.eq_dec jj cols1) as [HI|HI].
    + destruct (A8 jj HI) as (M1 & M2). rewrite M1. cbn [Z.eqb Pos.eqb]. wrd s0; [lia|]. wwr; [lia|]. apply wp_ok. exists cols1. split; [|exact HS].
      unfold acc. cbn [w_v w_ix w_c w_n]. rewrite zlen_zupd. do 7 (split; [assumption|]). split.
      * intros c Hc. split; [apply A8; exact Hc|]. rewrite SN. specialize (A7 c Hc). destruct (Z.eqb_spec jj c) as [E|N].
        -- rewrite <- E. rewrite znth_zupd_eq by lia. rewrite M2. ring.
        -- rewrite znth_zupd_neq by lia. rewrite (proj2 (A8 c Hc)). ring.
      * intros c Hc HN. destruct (A9 c Hc HN) as (B1 & B2). split; [exact B1|]. rewrite SN. destruct (Z.eqb_spec jj c) as [E|N]; [rewrite <- E in HN; contradiction|].
        etransitivity; [|exact B2]. ring.
    + destruct (A9 jj ltac:(lia) HI) as (M1 & M2). rewrite M1. cbn [Z.eqb]. eapply wp_mono; [apply (wput_wp n k _ _ jj (smul (sopp val) (znth s0 v j)) s1 Hk H1 ltac:(lia) HI)|].
      intros s2 (B1 & B2). exists (cols1 ++ [jj]). split; [|intros i Hi; rewrite B2, HS by lia; reflexivity].
      eapply acc_ext; [|exact B1]. intros c Hc. cbv beta. rewrite SN. rewrite (Z.eqb_sym c jj). destruct (Z.eqb_spec jj c) as [E|N]; [|ring].
      rewrite <- E. match type of M2 with ?a = _ => transitivity (sadd a (smul (sopp val) (znth s0 v j))); [rewrite M2|]; ring end.
  - intros s' (cols' & H1 & H2). exists cols'. split; [|exact H2]. eapply acc_ext; [|exact H1]. intros c Hc. cbv beta. rewrite row_at_sum by auto. reflexivity.
Qed.
End P.
