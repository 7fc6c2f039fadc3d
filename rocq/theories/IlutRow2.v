Require Import ZArith List Bool Lia Ring Permutation.
From Verif Require Import Base Items Scalar Spec Sort SortProof ConvFinal Ilu SpecIlu SpecIlut DiagProof2 IluProof IluProof2 Ilut IlutProof IlutElim IlutRow.
Import ListNotations.
Open Scope Z_scope.

Section P.
Context {T : Type} {S : Scalar T}.
Hypothesis RT : is_ring S.
Let RT' : @ring_theory T s0 s1 sadd smul ssub sopp (@eq T) := RT.
Add Ring TrIlut4 : RT'.
Variable A : csr T.
Variables is_ ie : Z.
Let n := csr_n A.
Hypothesis Hok : csr_ok A.
Hypothesis Hnd : no_dup_pos (csr_entries A).
Hypothesis Hrange : 0 <= is_ <= ie /\ ie <= n.
Let E := csr_entries A.
Let a i c := coef E i c.

Lemma row_filter (P : Z -> bool) i : 0 <= i < n ->
  filter (fun e => (erow e =? i) && P (ecol e)) E = map (fun j => (i, znth 0 (csr_index A) j, znth s0 (csr_value A) j)) (filter (fun j => P (znth 0 (csr_index A) j)) (zrange (znth 0 (csr_ptr A) i) (znth 0 (csr_ptr A) (i + 1)))).
Proof.
  intros Hi. unfold E, csr_entries. fold n.
  assert (Hl : forall l, NoDup l -> filter (fun e => (erow e =? i) && P (ecol e)) (flat_map (fun i0 => map (fun j => (i0, znth 0 (csr_index A) j, znth s0 (csr_value A) j)) (zrange (znth 0 (csr_ptr A) i0) (znth 0 (csr_ptr A) (i0 + 1)))) l) =
     if in_dec Z.eq_dec i l then map (fun j => (i, znth 0 (csr_index A) j, znth s0 (csr_value A) j)) (filter (fun j => P (znth 0 (csr_index A) j)) (zrange (znth 0 (csr_ptr A) i) (znth 0 (csr_ptr A) (i + 1)))) else []).
  { induction l as [|k l IH]; intros Hn; [reflexivity|]. inversion Hn; subst. cbn [flat_map]. etransitivity; [apply filter_app|]. etransitivity; [refine (f_equal2 (@app (entry T)) eq_refl (IH H2))|]. clear IH.
    assert (Hk : filter (fun e : entry T => (erow e =? i) && P (ecol e)) (map (fun j => (k, znth 0 (csr_index A) j, znth s0 (csr_value A) j)) (zrange (znth 0 (csr_ptr A) k) (znth 0 (csr_ptr A) (k + 1)))) =
       if k =? i then map (fun j => (i, znth 0 (csr_index A) j, znth s0 (csr_value A) j)) (filter (fun j => P (znth 0 (csr_index A) j)) (zrange (znth 0 (csr_ptr A) i) (znth 0 (csr_ptr A) (i + 1)))) else []).
    { destruct (Z.eqb_spec k i) as [->|Hne].
      - induction (zrange (znth 0 (csr_ptr A) i) (znth 0 (csr_ptr A) (i + 1))) as [|j r IHr]; [reflexivity|]. cbn [map filter]. unfold erow at 1, ecol at 1. cbn [fst snd]. rewrite Z.eqb_refl. cbn [andb]. destruct (P (znth 0 (csr_index A) j)); cbn [map]; rewrite IHr; reflexivity.
      - induction (zrange (znth 0 (csr_ptr A) k) (znth 0 (csr_ptr A) (k + 1))) as [|j r IHr]; [reflexivity|]. cbn [map filter]. unfold erow at 1. cbn [fst snd]. destruct (Z.eqb_spec k i); [contradiction|]. cbn [andb]. exact IHr. }
    etransitivity; [refine (f_equal2 (@app (entry T)) Hk eq_refl)|]. destruct (Z.eqb_spec k i) as [->|Hne].
    - destruct (in_dec Z.eq_dec i l); [contradiction|]. destruct (in_dec Z.eq_dec i (i :: l)) as [|Hx]; [apply app_nil_r|exfalso; apply Hx; cbn; auto].
    - destruct (in_dec Z.eq_dec i l), (in_dec Z.eq_dec i (k :: l)) as [Hx|Hx]; auto; [exfalso; apply Hx; right; auto|destruct Hx; contradiction]. }
  rewrite Hl by apply NoDup_zrange. destruct (in_dec Z.eq_dec i (zrange 0 n)) as [|Hx]; auto. exfalso. apply Hx. apply In_zrange. auto.
Qed.

Lemma tnorm_wp i : 0 <= i < n -> wp (tnorm is_ ie A i) (fun t => t = row_mean is_ ie E i).
Proof.
  intros Hi. unfold tnorm. pose proof Hok as (Hp & Hnp & He & Hl1 & Hl2 & Hcol). pose proof Hp as (Hn0 & Hpl & Hp0 & Hmono).
  fold n in Hn0, Hpl, Hnp, Hp, Hmono. wrd 0; [lia|]. wrd 0; [lia|].
  set (js := znth 0 (csr_ptr A) i). set (je := znth 0 (csr_ptr A) (i + 1)). wbind.
  set (Pc := fun c => (is_ <=? c) && (c <? ie)).
  apply (for_wp' (fun j p => fst p = ssum (map (fun j => sabs (znth s0 (csr_value A) j)) (filter (fun j => Pc (znth 0 (csr_index A) j)) (zrange js j))) /\ snd p = ssum (map (fun _ => s1) (filter (fun j => Pc (znth 0 (csr_index A) j)) (zrange js j))))).
  - apply Hmono. lia.
  - cbn [fst snd]. rewrite zrange_empty by lia. auto.
  - intros j [t k] Hj. cbn [fst snd]. intros [-> ->]. assert (Hjn : 0 <= j < csr_nnz A) by (apply (row_bounds A Hok i); [fold n; lia|exact Hj]).
    wrd 0; [lia|]. rewrite zrange_snoc, filter_app by lia. cbn [filter]. fold (Pc (znth 0 (csr_index A) j)). destruct (Pc (znth 0 (csr_index A) j)).
    + wrd s0; [lia|]. apply wp_ok. cbn [fst snd]. rewrite !map_app, !(ssum_app RT). cbn [map ssum]. split; ring.
    + apply wp_ok. cbn [fst snd]. rewrite app_nil_r. auto.
  - intros [t k]. cbn [fst snd]. intros [-> ->]. apply wp_ok. unfold row_mean. fold Pc.
    rewrite (filter_ext _ (fun e => (erow e =? i) && Pc (ecol e))) by (intros; reflexivity). rewrite row_filter by auto. fold js je. rewrite !map_map. reflexivity.
Qed.

Section R.
Variable i : Z.
Hypothesis Hi : is_ <= i < ie.
Local Notation J s p := (znth 0 (t_jbuf s) p).
Local Notation IW s c := (znth 0 (t_iw s) c).
Local Notation W s p := (znth s0 (t_w s) p).

Lemma ilut_load_wp jb iw w : zlen jb = n -> zlen iw = n -> zlen w = n + 1 -> (forall c, is_ <= c < ie -> znth 0 iw c = -1) ->
  wp (ilut_load is_ ie A i jb iw w) (fun s => wfT n is_ ie i 0 s /\ forall c, is_ <= c < ie -> valT s c = a i c).
Proof.
  intros L1 L2 L3 Hm. unfold ilut_load. pose proof Hok as (Hp & Hnp & He & Hl1 & Hl2 & Hcol). pose proof Hp as (Hn0 & Hpl & Hp0 & Hmono).
  fold n in Hn0, Hpl, Hnp, Hp, Hmono. wwr; [lia|]. wwr; [lia|]. wwr; [lia|]. wrd 0; [lia|]. wrd 0; [lia|].
  set (js := znth 0 (csr_ptr A) i). set (je := znth 0 (csr_ptr A) (i + 1)).
  set (st0 := mkTrow (zupd jb i i) (zupd iw i i) (zupd w i s0) 0 0).
  assert (H0 : wfT n is_ ie i 0 st0).
  { unfold wfT, st0. cbn [t_jbuf t_iw t_w t_lenl t_lenu]. rewrite !zlen_zupd. do 3 (split; [auto|]). split; [lia|]. split; [lia|]. split; [intros; lia|]. split; [intros; lia|]. split; [intros; lia|]. split; [rewrite znth_zupd_eq by lia; auto|]. split; [|split].
    - intros p Hp'. assert (p = i) by lia. subst p. rewrite (znth_zupd_eq 0 jb) by lia. rewrite znth_zupd_eq by lia. lia.
    - intros c Hc. destruct (Z.eq_dec c i) as [->|]; [right; right; rewrite !(znth_zupd_eq 0 iw) by lia; split; [lia|rewrite znth_zupd_eq by lia; auto]|left; rewrite znth_zupd_neq by lia; auto].
    - intros; lia. }
  assert (Hv0 : forall c, is_ <= c < ie -> valT st0 c = s0).
  { intros c Hc. unfold valT, st0. cbn [t_jbuf t_iw t_w t_lenl t_lenu]. destruct (Z.eq_dec c i) as [->|].
    - rewrite znth_zupd_eq by lia. destruct (Z.eqb_spec i (-1)); auto. rewrite znth_zupd_eq by lia. auto.
    - rewrite znth_zupd_neq by lia. rewrite Hm by auto. auto. }
  assert (Hm0 : forall c, is_ <= c < ie -> c <> i -> IW st0 c = -1) by (intros c Hc Hne; unfold st0; cbn [t_iw]; rewrite znth_zupd_neq by lia; auto).
  assert (Hii : IW st0 i <> -1) by (unfold st0; cbn [t_iw]; rewrite znth_zupd_eq by lia; lia).
  set (inb := fun c => is_ <= c < ie).
  apply (for_wp' (fun j s => wfT n is_ ie i 0 s /\ IW s i <> -1 /\
     (forall j', js <= j' < j -> inb (znth 0 (csr_index A) j') -> valT s (znth 0 (csr_index A) j') = znth s0 (csr_value A) j') /\
     (forall c, inb c -> (forall j', js <= j' < j -> znth 0 (csr_index A) j' <> c) -> (c <> i -> IW s c = -1) /\ valT s c = s0))).
  - apply Hmono. lia.
  - split; auto. split; auto. split; [intros; lia|]. intros c Hc _. split; auto.
  - intros j s Hj (Hw & Hiw & HV & HZ). assert (Hjn : 0 <= j < csr_nnz A) by (apply (row_bounds A Hok i); [fold n; lia|exact Hj]).
    wrd 0; [lia|]. set (c := znth 0 (csr_index A) j).
    destruct ((is_ <=? c) && (c <? ie)) eqn:Eb.
    2: { apply wp_ok. split; auto. split; auto. assert (~ inb c) by (unfold inb; apply andb_false_iff in Eb as [Eb|Eb]; [apply Z.leb_gt in Eb|apply Z.ltb_ge in Eb]; lia). split.
         - intros j' Hj' Hin. destruct (Z.eq_dec j' j) as [->|]; [contradiction|]. apply HV; auto. lia.
         - intros c' Hc' Hno. apply HZ; auto. intros; apply Hno; lia. }
    apply andb_true_iff in Eb as [Eb1 Eb2]. apply Z.leb_le in Eb1. apply Z.ltb_lt in Eb2. assert (Hcb : inb c) by (unfold inb; lia).
    assert (Hnew : forall j', js <= j' < j -> znth 0 (csr_index A) j' <> c).
    { intros j' Hj' Ee. assert (j' = j); [|lia]. apply (csr_pos_unique A i); auto; unfold n, js, je in *; lia. }
    destruct (HZ c Hcb Hnew) as [Hc1 Hc2].
    assert (Hstep : forall s2, wfT n is_ ie i 0 s2 -> IW s2 i <> -1 -> (forall c', inb c' -> c' <> c -> IW s2 c' = IW s c' /\ valT s2 c' = valT s c') -> valT s2 c = znth s0 (csr_value A) j ->
      wfT n is_ ie i 0 s2 /\ IW s2 i <> -1 /\ (forall j', js <= j' < j + 1 -> inb (znth 0 (csr_index A) j') -> valT s2 (znth 0 (csr_index A) j') = znth s0 (csr_value A) j') /\
      (forall c, inb c -> (forall j', js <= j' < j + 1 -> znth 0 (csr_index A) j' <> c) -> (c <> i -> IW s2 c = -1) /\ valT s2 c = s0)).
    { intros s2 Q1 Q2 Q3 Q4. split; auto. split; auto. split.
      - intros j' Hj' Hin. destruct (Z.eq_dec j' j) as [->|]; [exact Q4|]. destruct (Q3 _ Hin) as [_ ->]; [apply Hnew; lia|]. apply HV; auto. lia.
      - intros c' Hc' Hno. destruct (Q3 c' Hc') as [-> ->]; [intro Ee; apply (Hno j); [lia|auto]|]. apply HZ; auto. intros; apply Hno; lia. }
    wrd s0; [lia|]. destruct (Z.ltb_spec c i).
    + eapply wp_mono; [apply (app_l_wp n is_ ie Hrange i Hi 0); [auto|lia|apply Hc1; lia|intros; lia]|]. intros s2 (Q1 & Q2 & Q3 & Q4 & Q5). apply Hstep; auto. destruct (Q3 i ltac:(lia) ltac:(lia)) as [-> _]. auto.
    + destruct (Z.eqb_spec c i) as [Ec|Hne].
      * assert (Hji : IW s i = i).
        { pose proof Hw as (_ & _ & _ & Hj0 & Hu & _ & _ & _ & HI & HU & _). destruct (HU i ltac:(lia)) as [_ Q]. rewrite HI in Q. auto. }
        destruct (upd_wp n is_ ie Hrange i Hi 0 i (znth s0 (csr_value A) j) s Hw ltac:(lia) ltac:(lia)) as (Q0 & Q1 & Q2 & Q3 & Q4). rewrite Hji in *.
        pose proof Hw as (_ & _ & L3' & _). wwr; [lia|]. apply wp_ok. apply Hstep; auto.
        -- cbn [t_iw]. lia.
        -- intros c' Hc' Hn'. split; [reflexivity|]. apply Q3; auto. lia.
        -- rewrite Ec. exact Q4.
      * eapply wp_mono; [apply (app_u_wp n is_ ie Hrange i Hi 0); [auto|lia|apply Hc1; lia]|]. intros s2 (Q1 & Q2 & _ & Q3 & Q4 & Q5). apply Hstep; auto. destruct (Q3 i ltac:(lia) ltac:(lia)) as [-> _]. auto.
  - intros s (Hw & Hiw & HV & HZ). split; auto. intros c Hc.
    destruct (in_dec Z.eq_dec c (map (znth 0 (csr_index A)) (zrange js je))) as [Hin|Hno].
    + apply in_map_iff in Hin as (j & Ej & Hj). apply In_zrange in Hj. subst c. rewrite HV by auto. unfold a. symmetry. apply (coef_eq RT); auto. unfold E, csr_entries. apply in_flat_map. exists i. split; [apply In_zrange; fold n; lia|]. apply in_map_iff. exists j. split; auto. apply In_zrange; auto.
    + destruct (HZ c Hc) as [_ ->]; [intros j Hj Ee; apply Hno; apply in_map_iff; exists j; split; auto; apply In_zrange; auto|].
      unfold a, coef. rewrite filter_none; auto. intros e He'. unfold E, csr_entries in He'. apply in_flat_map in He' as (r & Hr & He'). apply in_map_iff in He' as (j & <- & Hj). apply In_zrange in Hj. unfold at_ij, erow, ecol; cbn [fst snd].
      destruct (Z.eqb_spec r i) as [->|]; auto. cbn [andb]. apply Z.eqb_neq. intro Ee. apply Hno. apply in_map_iff. exists j. split; auto. apply In_zrange; auto.
Qed.
End R.
End P.
