Require Import ZArith List Bool Lia Ring.
From Verif Require Import Base Items Scalar Spec Sort SortProof Ilu SpecIlu SpecIlut DiagProof2 IluProof IluProof2 Ilut IlutProof.
Import ListNotations.
Open Scope Z_scope.

Section P.
Context {T : Type} {S : Scalar T}.
Hypothesis RT : is_ring S.
Let RT' : @ring_theory T s0 s1 sadd smul ssub sopp (@eq T) := RT.
Add Ring TrIlut2 : RT'.
Variables n is_ ie : Z.
Hypothesis Hrange : 0 <= is_ <= ie /\ ie <= n.
Variable i : Z.
Hypothesis Hi : is_ <= i < ie.
Local Notation J s p := (znth 0 (t_jbuf s) p).
Local Notation IW s c := (znth 0 (t_iw s) c).
Local Notation W s p := (znth s0 (t_w s) p).
Local Notation wfT := (wfT n is_ ie i).

Lemma dropped_mono (small : T -> Prop) k k' e : k <= k' -> dropped small k e -> dropped small k' e.
Proof.
  intros Hk H. replace k' with (k + Z.of_nat (Z.to_nat (k' - k))) by lia. induction (Z.to_nat (k' - k)) as [|m IH].
  - replace (k + Z.of_nat 0) with k by lia. auto.
  - replace (k + Z.of_nat (Datatypes.S m)) with (k + Z.of_nat m + 1) by lia. constructor. auto.
Qed.

Lemma ilut_select_wp j s : wfT j s -> j < t_lenl s ->
  wp (ilut_select j s) (fun r => let '(k, s') := r in wfT j s' /\ t_lenl s' = t_lenl s /\ t_lenu s' = t_lenu s /\ (forall p, 0 <= p < j -> J s' p = J s p /\ W s' p = W s p) /\
    J s' j = k /\ (forall q, j < q < t_lenl s -> k < J s' q) /\ (forall c, is_ <= c < ie -> valT s' c = valT s c)).
Proof using Hrange Hi.
  intros Hw Hj. pose proof (wfT_lenl n is_ ie Hrange i Hi j s Hw) as B1. pose proof (wfT_lenu n is_ ie Hrange i Hi j s Hw) as B2.
  pose proof (wfT_inj n is_ ie Hrange i Hi j s Hw) as Hinj.
  pose proof Hw as (L1 & L2 & L3 & Hj0 & Hu & HL & HD & HP & HI & HU & HW & HO).
  unfold ilut_select. wrd 0; [lia|]. wbind.
  apply (for_wp' (fun k m => j <= snd m < k /\ fst m = J s (snd m) /\ forall q, j <= q < k -> fst m <= J s q)).
  - lia.
  - cbn [fst snd]. split; [lia|]. split; auto. intros q Hq. assert (q = j) by lia. subst; lia.
  - intros k [km jm] Hjj. cbn [fst snd]. intros (Ha & Hb & Hc). wrd 0; [lia|]. destruct (Z.ltb_spec (J s k) km); apply wp_ok; cbn [fst snd].
    + split; [lia|]. split; auto. intros q Hq. destruct (Z.eq_dec q k) as [->|]; [lia|]. specialize (Hc q). lia.
    + split; [lia|]. split; auto. intros q Hq. destruct (Z.eq_dec q k) as [->|]; [lia|]. apply Hc; lia.
  - intros [km jm]. cbn [fst snd]. intros (Ha & Hb & Hc).
    destruct (Z.eqb_spec jm j) as [->|Hne].
    + apply wp_ok. do 3 (split; [auto|]). split; [auto|]. split; [auto|]. split; [|auto].
      intros q Hq. specialize (Hc q ltac:(lia)). rewrite Hb in Hc |- *. assert (J s j <> J s q); [|lia]. intro Ee. apply Hinj in Ee; lia.
    + wrd 0; [lia|]. wrd 0; [lia|]. set (k := J s j) in *. rewrite <- Hb.
      assert (Hk2 : IW s k = j) by (apply HP; lia). assert (Hm2 : IW s km = jm) by (rewrite Hb; apply HP; lia).
      assert (Hk1 : is_ <= k < i) by (apply HL; lia). assert (Hm1 : is_ <= km < i) by (rewrite Hb; apply HL; lia).
      assert (Hkk : k <> km) by (intro Ee; rewrite Ee in Hk2; lia).
      wwr; [lia|]. wwr; [len|]. wwr; [lia|]. wwr; [len|].
      unfold swap. wbind. wrd s0; [lia|]. wrd s0; [lia|]. wwr; [lia|]. wwr; [len|]. apply wp_ok.
      assert (HJ : forall p, znth 0 (zupd (zupd (t_jbuf s) j km) jm k) p = if p =? jm then k else if p =? j then km else J s p).
      { intros p. destruct (Z.eqb_spec p jm) as [->|]; [rewrite znth_zupd_eq by (rewrite ?zlen_zupd; lia); auto|]. rewrite znth_zupd_neq by (rewrite ?zlen_zupd; lia). destruct (Z.eqb_spec p j) as [->|]; [rewrite znth_zupd_eq by lia; auto|rewrite znth_zupd_neq by lia; auto]. }
      assert (HV : forall p, znth s0 (zupd (zupd (t_w s) j (W s jm)) jm (W s j)) p = if p =? jm then W s j else if p =? j then W s jm else W s p).
      { intros p. destruct (Z.eqb_spec p jm) as [->|]; [rewrite znth_zupd_eq by (rewrite ?zlen_zupd; lia); auto|]. rewrite znth_zupd_neq by (rewrite ?zlen_zupd; lia). destruct (Z.eqb_spec p j) as [->|]; [rewrite znth_zupd_eq by lia; auto|rewrite znth_zupd_neq by lia; auto]. }
      assert (HX : forall c, znth 0 (zupd (zupd (t_iw s) km j) k jm) c = if c =? k then jm else if c =? km then j else IW s c).
      { intros c. destruct (Z.eqb_spec c k) as [->|]; [rewrite znth_zupd_eq by (rewrite ?zlen_zupd; lia); auto|]. rewrite znth_zupd_neq by (rewrite ?zlen_zupd; lia). destruct (Z.eqb_spec c km) as [->|]; [rewrite znth_zupd_eq by lia; auto|rewrite znth_zupd_neq by lia; auto]. }
      split; [|split; [auto|split; [auto|split; [|split; [|split]]]]]; cbn [t_jbuf t_iw t_w t_lenl t_lenu].
      * unfold IlutProof.wfT. cbn [t_jbuf t_iw t_w t_lenl t_lenu]. rewrite !zlen_zupd. do 3 (split; [auto|]). split; [lia|]. split; [lia|]. split; [|split; [|split; [|split; [|split; [|split]]]]].
        -- intros p Hp. rewrite HJ. destruct (Z.eqb_spec p jm); [lia|]. destruct (Z.eqb_spec p j); [lia|]. apply HL; auto.
        -- intros p Hp. rewrite HJ. destruct (Z.eqb_spec p jm); [lia|]. destruct (Z.eqb_spec p j); [lia|]. specialize (HD p Hp). rewrite HX. destruct (Z.eqb_spec (J s p) k) as [Ee|]; [rewrite Ee in HD; lia|]. destruct (Z.eqb_spec (J s p) km) as [Ee|]; [rewrite Ee in HD; lia|]. auto.
        -- intros p Hp. rewrite HJ. destruct (Z.eqb_spec p jm) as [->|]; [rewrite HX, Z.eqb_refl; auto|]. destruct (Z.eqb_spec p j) as [->|].
           ++ rewrite HX. destruct (Z.eqb_spec km k); [lia|]. rewrite Z.eqb_refl. auto.
           ++ specialize (HP p Hp). rewrite HX. destruct (Z.eqb_spec (J s p) k) as [Ee|]; [rewrite Ee in HP; lia|]. destruct (Z.eqb_spec (J s p) km) as [Ee|]; [rewrite Ee in HP; lia|]. auto.
        -- rewrite HJ. destruct (Z.eqb_spec i jm); [lia|]. destruct (Z.eqb_spec i j); [lia|]. auto.
        -- intros p Hp. rewrite HJ. destruct (Z.eqb_spec p jm); [lia|]. destruct (Z.eqb_spec p j); [lia|]. destruct (HU p Hp) as [Hp1 Hp2]. split; auto. rewrite HX. destruct (Z.eqb_spec (J s p) k) as [Ee|]; [lia|]. destruct (Z.eqb_spec (J s p) km) as [Ee|]; [lia|]. auto.
        -- intros c Hcc. rewrite !HX. destruct (Z.eqb_spec c k) as [->|].
           ++ right; left. split; [lia|]. rewrite HJ, Z.eqb_refl. auto.
           ++ destruct (Z.eqb_spec c km) as [->|].
              ** right; left. split; [lia|]. rewrite HJ. destruct (Z.eqb_spec j jm); [lia|]. rewrite Z.eqb_refl. auto.
              ** destruct (HW c Hcc) as [|[[Hx Hy]|[Hx Hy]]]; auto.
                 --- right; left. split; auto. rewrite HJ. destruct (Z.eqb_spec (IW s c) jm) as [Ee|]; [rewrite Ee in Hy; lia|]. destruct (Z.eqb_spec (IW s c) j) as [Ee|]; [rewrite Ee in Hy; fold k in Hy; lia|]. auto.
                 --- right; right. split; auto. rewrite HJ. destruct (Z.eqb_spec (IW s c) jm) as [Ee|]; [lia|]. destruct (Z.eqb_spec (IW s c) j) as [Ee|]; [lia|]. auto.
        -- intros p q Hp Hq. rewrite !HJ. destruct (Z.eqb_spec p jm); [lia|]. destruct (Z.eqb_spec p j); [lia|]. destruct (Z.eqb_spec q jm); [apply HO; lia|]. destruct (Z.eqb_spec q j); [rewrite Hb; apply HO; lia|]. apply HO; lia.
      * intros p Hp. rewrite HJ, HV. destruct (Z.eqb_spec p jm); [lia|]. destruct (Z.eqb_spec p j); [lia|]. auto.
      * rewrite HJ. destruct (Z.eqb_spec j jm); [lia|]. rewrite Z.eqb_refl. auto.
      * intros q Hq. rewrite HJ. destruct (Z.eqb_spec q jm) as [->|]; [specialize (Hc j); fold k in Hc; lia|]. destruct (Z.eqb_spec q j); [lia|]. specialize (Hc q ltac:(lia)).
        assert (J s q <> km); [|lia]. rewrite Hb. intro Ee. apply Hinj in Ee; lia.
      * intros c Hcc. unfold valT. cbn [t_jbuf t_iw t_w t_lenl t_lenu]. rewrite HX. destruct (Z.eqb_spec c k) as [->|].
        -- rewrite HV, Z.eqb_refl, Hk2. destruct (Z.eqb_spec jm (-1)), (Z.eqb_spec j (-1)); auto; lia.
        -- destruct (Z.eqb_spec c km) as [->|].
           ++ rewrite HV, Z.eqb_refl, Hm2. destruct (Z.eqb_spec jm (-1)), (Z.eqb_spec j (-1)), (Z.eqb_spec j jm); auto; lia.
           ++ rewrite HV. destruct (Z.eqb_spec (IW s c) (-1)) as [|Hn1]; auto. destruct (HW c Hcc) as [|[[Hu' Hv]|[Hu' Hv]]]; [contradiction| |];
              (destruct (Z.eqb_spec (IW s c) jm) as [Ee|]; [rewrite Ee in Hv; lia|]); (destruct (Z.eqb_spec (IW s c) j) as [Ee|]; [rewrite Ee in Hv; fold k in Hv; lia|]); auto.
Qed.

Section M.
Variable tolnorm : T.
Definition smallT (v : T) : Prop := sltb (sabs v) tolnorm = true.

Lemma ilut_merge_wp j s fact urow uval k0 : wfT j s -> zlen uval = zlen urow -> distinct_row urow -> (forall q, 0 <= q < zlen urow -> k0 < znth 0 urow q < ie) -> (forall p, 0 <= p < j -> J s p <= k0) -> is_ <= k0 ->
  wp (ilut_merge tolnorm i fact urow uval s) (fun s' => wfT j s' /\ keepsT j s s' /\
    forall c, is_ <= c < ie -> exists e, (e = s0 \/ smallT e) /\ valT s' c = ssub (ssub (valT s c) (smul fact (row_at urow uval c))) e).
Proof.
  intros Hw Hl Hd Hc Hk0 His. unfold ilut_merge.
  apply (for_wp' (fun k s' => wfT j s' /\ keepsT j s s' /\
     (forall q, 0 <= q < k -> exists e, (e = s0 \/ smallT e) /\ valT s' (znth 0 urow q) = ssub (ssub (valT s (znth 0 urow q)) (smul fact (znth s0 uval q))) e) /\
     (forall c, is_ <= c < ie -> (forall q, 0 <= q < k -> znth 0 urow q <> c) -> valT s' c = valT s c))).
  - apply zlen_nonneg.
  - split; auto. split; [unfold keepsT; split; [lia|]; split; [lia|]; auto|]. split; [intros; lia|]. auto.
  - intros k s' Hk (Hw' & Hkp & HV & HO). specialize (Hc k Hk) as Hck. set (c := znth 0 urow k) in *.
    pose proof Hw' as (L1 & L2 & L3 & Hj0 & Hu & _). pose proof Hkp as (K1 & K2 & K3 & K4).
    assert (Hcb : is_ <= c < ie) by lia.
    assert (Hlt : forall p, 0 <= p < j -> J s' p < c) by (intros p Hp; rewrite K3 by (destruct Hw as (_ & _ & _ & Hj1 & _); lia); specialize (Hk0 p Hp); lia).
    assert (Hcv : valT s' c = valT s c) by (apply HO; auto; intros q Hq Ee; apply Hd in Ee; lia).
    wrd 0; [lia|]. fold c. wrd 0; [lia|]. wrd s0; [lia|]. set (u := znth s0 uval k). set (lxu := smul (sopp fact) u).
    (* finishing a step whose effect is confined to column c *)
    assert (Hstep : forall s2 e, (e = s0 \/ smallT e) -> wfT j s2 -> keepsT j s' s2 -> (forall c', is_ <= c' < ie -> c' <> c -> valT s2 c' = valT s' c') -> valT s2 c = ssub (sadd (valT s c) lxu) e ->
       wfT j s2 /\ keepsT j s s2 /\ (forall q, 0 <= q < k + 1 -> exists e, (e = s0 \/ smallT e) /\ valT s2 (znth 0 urow q) = ssub (ssub (valT s (znth 0 urow q)) (smul fact (znth s0 uval q))) e) /\
       (forall c', is_ <= c' < ie -> (forall q, 0 <= q < k + 1 -> znth 0 urow q <> c') -> valT s2 c' = valT s c')).
    { intros s2 e He Hw2 (G1 & G2 & G3 & G4) Ho Hv. split; auto. split.
      - unfold keepsT. split; [lia|]. split; [lia|]. split; intros p Hp; [rewrite G3 by lia; apply K3; lia|rewrite G4 by lia; apply K4; lia].
      - split.
        + intros q Hq. destruct (Z.eq_dec q k) as [->|].
          * exists e. split; auto. fold c u. rewrite Hv. unfold lxu. ring.
          * destruct (HV q ltac:(lia)) as (e' & He' & Ev). exists e'. split; auto. rewrite Ho; auto; [specialize (Hc q ltac:(lia)); lia|]. intro Ee. apply Hd in Ee; lia.
        + intros c' Hc' Hno. rewrite Ho; auto; [apply HO; auto; intros; apply Hno; lia|]. intro Ee. apply (Hno k); [lia|auto]. }
    destruct (Z.eqb_spec (IW s' c) (-1)) as [Hm|Hm]; [|rewrite andb_false_r].
    + assert (Hz : valT s c = s0) by (rewrite <- Hcv; unfold valT; rewrite Hm; auto). rewrite andb_true_r. destruct (sltb (sabs lxu) tolnorm) eqn:Es.
      * apply wp_ok. apply (Hstep s' lxu); auto; [unfold keepsT; split; [lia|]; split; [lia|]; auto|]. rewrite Hcv. ring.
      * destruct (Z.leb_spec i c).
        -- eapply wp_mono; [apply (app_u_wp n is_ ie Hrange i Hi j); auto; lia|]. intros s2 (A1 & A2 & _ & A3 & _ & A4). apply (Hstep s2 s0); auto; [intros c' H1 H2; apply A3; auto|]. rewrite A4, Hz. ring.
        -- eapply wp_mono; [apply (app_l_wp n is_ ie Hrange i Hi j); auto; lia|]. intros s2 (A1 & A2 & A3 & _ & A4). apply (Hstep s2 s0); auto; [intros c' H1 H2; apply A3; auto|]. rewrite A4, Hz. ring.
    + destruct (upd_wp n is_ ie Hrange i Hi j c (sadd (W s' (IW s' c)) lxu) s' Hw' Hcb Hm) as (A0 & A1 & A2 & A3 & A4).
      wrd s0; [lia|]. wwr; [lia|]. apply wp_ok. eapply Hstep; [left; reflexivity|exact A1|exact A2|exact A3|]. rewrite A4. rewrite <- Hcv. unfold valT. destruct (Z.eqb_spec (IW s' c) (-1)); [contradiction|]. ring.
  - intros s' (Hw' & Hkp & HV & HO). split; auto. split; auto. intros c Hcb.
    destruct (in_dec Z.eq_dec c (map (znth 0 urow) (zrange 0 (zlen urow)))) as [Hin|Hno].
    + apply in_map_iff in Hin as (q & Eq & Hq). apply In_zrange in Hq. destruct (HV q Hq) as (e & He & Ev). exists e. split; auto. rewrite <- Eq. rewrite (row_at_in RT); auto.
    + assert (Hne : forall q, 0 <= q < zlen urow -> znth 0 urow q <> c) by (intros q Hq Ee; apply Hno; apply in_map_iff; exists q; split; auto; apply In_zrange; auto).
      exists s0. split; auto. rewrite HO by auto. rewrite (row_at_out RT); auto. ring.
Qed.

Variable a : Z -> T.
Variables (U : list (list Z)) (Uv : list (list T)) (D : list T).
Hypothesis HlU : zlen U = n.
Hypothesis HlUv : zlen Uv = n.
Hypothesis HlD : zlen D = n.
Definition urowT (k : Z) : Prop :=
  zlen (znth [] Uv k) = zlen (znth [] U k) /\ distinct_row (znth [] U k) /\ (forall q, 0 <= q < zlen (znth [] U k) -> k < znth 0 (znth [] U k) q < ie).
Hypothesis HUk : forall k, is_ <= k < i -> urowT k.
Let u k c := row_at (znth [] U k) (znth [] Uv k) c.

Definition numT (j : Z) (s : trow (T:=T)) : Prop :=
  (forall c, is_ <= c < ie -> (forall p, 0 <= p < j -> J s p <> c) -> exists e, dropped smallT j e /\
     valT s c = ssub (ssub (a c) (SUM j (fun q => smul (W s q) (u (J s q) c)))) e) /\
  (forall p, 0 <= p < j -> exists e, dropped smallT p e /\
     W s p = smul (ssub (ssub (a (J s p)) (SUM p (fun q => smul (W s q) (u (J s q) (J s p))))) e) (znth s0 D (J s p))).

Lemma ilut_elim_wp s : wfT 0 s -> (forall c, is_ <= c < ie -> valT s c = a c) ->
  wp (ilut_elim n tolnorm i U Uv D s) (fun s' => wfT (t_lenl s') s' /\ numT (t_lenl s') s').
Proof.
  intros Hw Hv. unfold ilut_elim. wbind.
  apply (while_wp (fun p => wfT (fst p) (snd p) /\ numT (fst p) (snd p)) (fun p => n - fst p)).
  - cbn [fst snd]. split; auto. split; [|intros; lia]. intros c Hc _. exists s0. split; [constructor|]. rewrite SUM_0, Hv by auto. ring.
  - cbn [fst]. lia.
  - intros [j s1]. cbn [fst snd]. intros (Hw1 & Hn1 & Hn2). pose proof (wfT_lenl n is_ ie Hrange i Hi j s1 Hw1) as B1. pose proof (wfT_lenu n is_ ie Hrange i Hi j s1 Hw1) as B2.
    pose proof Hw1 as (_ & _ & _ & Hj0 & _). split; [lia|]. apply wp_ok. destruct (Z.ltb_spec j (t_lenl s1)) as [Hj|Hj].
    2: { apply wp_ok. assert (j = t_lenl s1) by lia. subst j. split; auto. split; auto. }
    wbind. eapply wp_mono; [apply ilut_select_wp; auto|]. intros [k s2] (Hw2 & El & Eu & Hkeep & Hk & Hmin & Hval).
    pose proof Hw2 as (L1 & L2 & L3 & Hj2 & Hu2 & HL & HD & HP & HI & HU & HW & HO).
    assert (Hkr : is_ <= k < i) by (rewrite <- Hk; apply HL; lia).
    assert (Hik : IW s2 k = j) by (rewrite <- Hk; apply HP; lia).
    wrd s0; [lia|]. wrd s0; [lia|]. set (fact := smul (W s2 j) (znth s0 D k)). wwr; [lia|]. wwr; [lia|]. wrd (@nil Z); [lia|]. wrd (@nil T); [lia|].
    set (s3 := mkTrow (t_jbuf s2) (zupd (t_iw s2) k (-1)) (zupd (t_w s2) j fact) (t_lenl s2) (t_lenu s2)).
    destruct (HUk k Hkr) as (U1 & U2 & U3).
    assert (Hp3 : forall p, J s3 p = J s2 p) by auto.
    assert (Hlt : forall p, 0 <= p < j -> J s2 p < k) by (intros p Hp; rewrite <- Hk; apply HO; lia).
    assert (Hw3 : wfT (j + 1) s3).
    { unfold IlutProof.wfT, s3. cbn [t_jbuf t_iw t_w t_lenl t_lenu]. rewrite !zlen_zupd. do 3 (split; [auto|]). split; [lia|]. split; [lia|]. split; [auto|]. split; [|split; [|split; [auto|split; [|split]]]].
      - intros p Hp. destruct (Z.eq_dec p j) as [->|]; [rewrite Hk, znth_zupd_eq by lia; auto|]. specialize (Hlt p ltac:(lia)). rewrite znth_zupd_neq by lia. apply HD; lia.
      - intros p Hp. specialize (Hmin p ltac:(lia)). rewrite znth_zupd_neq by lia. apply HP. lia.
      - intros p Hp. destruct (HU p Hp) as [E1 E2]. split; auto. rewrite znth_zupd_neq by lia. auto.
      - intros c Hc. destruct (Z.eq_dec c k) as [->|Hn]; [left; rewrite znth_zupd_eq by lia; auto|]. rewrite znth_zupd_neq by lia. destruct (HW c Hc) as [E|[[E1 E2]|[E1 E2]]]; auto. right; left. split; auto. assert (IW s2 c <> j); [|lia]. intro Ee. rewrite Ee in E2. congruence.
      - intros p q Hp Hq. destruct (Z.eq_dec p j) as [->|]; [rewrite Hk; apply Hmin; lia|apply HO; lia]. }
    assert (HW3 : forall p, 0 <= p < n + 1 -> p <> j -> W s3 p = W s2 p) by (intros p Hp Hn; unfold s3; cbn [t_w]; rewrite znth_zupd_neq by lia; auto).
    assert (HWj : W s3 j = fact) by (unfold s3; cbn [t_w]; rewrite znth_zupd_eq by lia; auto).
    assert (Hval3 : forall c, is_ <= c < ie -> c <> k -> valT s3 c = valT s2 c).
    { intros c Hc Hn. unfold valT. assert (IW s3 c = IW s2 c) as -> by (unfold s3; cbn [t_iw]; rewrite znth_zupd_neq by lia; auto). destruct (Z.eqb_spec (IW s2 c) (-1)); auto. assert (IW s2 c <> j /\ 0 <= IW s2 c < n + 1) as [Q1 Q2]; [|apply HW3; auto].
      destruct (HW c Hc) as [E|[[E1 E2]|[E1 E2]]]; [contradiction| |]; (split; [intro Ee; rewrite Ee in E2; congruence|lia]). }
    wbind. eapply wp_mono; [apply (ilut_merge_wp (j + 1) s3 fact _ _ k); auto|].
    + intros p Hp. rewrite Hp3. destruct (Z.eq_dec p j) as [->|]; [lia|]. specialize (Hlt p ltac:(lia)). lia.
    + lia.
    + intros s4 (Hw4 & (K1 & K2 & K3 & K4) & Hm4). apply wp_ok. cbn [fst snd]. split; [|lia]. split; auto.
      assert (HJ4 : forall p, 0 <= p < j -> J s4 p = J s1 p) by (intros p Hp; rewrite K3 by (unfold s3; cbn [t_lenl]; lia); rewrite Hp3; apply Hkeep; auto).
      assert (HW4 : forall p, 0 <= p < j -> W s4 p = W s1 p) by (intros p Hp; rewrite K4 by lia; rewrite HW3 by lia; apply Hkeep; auto).
      assert (HJ4j : J s4 j = k) by (rewrite K3 by (unfold s3; cbn [t_lenl]; lia); rewrite Hp3; auto).
      assert (HW4j : W s4 j = fact) by (rewrite K4 by lia; auto).
      assert (HS : forall m c, 0 <= m <= j -> SUM m (fun q => smul (W s4 q) (u (J s4 q) c)) = SUM m (fun q => smul (W s1 q) (u (J s1 q) c))) by (intros m c Hm; apply SUM_ext; intros q Hq; rewrite HJ4, HW4 by lia; auto).
      split.
      * intros c Hc Hno. destruct (Hn1 c Hc) as (e & He & Ev); [intros p Hp; rewrite <- HJ4 by auto; apply Hno; lia|].
        destruct (Hm4 c Hc) as (e' & He' & Ev'). assert (Hck : c <> k) by (intro Ee; apply (Hno j); [lia|congruence]).
        exists (sadd e e'). split; [destruct He' as [->|He']; [replace (sadd e s0) with e by ring; apply dropped_keep; auto|apply dropped_drop; auto]|].
        rewrite Ev', (Hval3 c Hc Hck), (Hval c Hc), Ev. rewrite (SUM_snoc RT) by lia. rewrite HS by lia. rewrite HJ4j, HW4j. fold (u k c). ring.
      * intros p Hp. destruct (Z.eq_dec p j) as [->|].
        -- destruct (Hn1 k ltac:(lia)) as (e & He & Ev); [intros p Hp'; specialize (Hlt p Hp'); destruct (Hkeep p Hp') as [Q _]; rewrite <- Q; lia|].
           exists e. split; auto. rewrite HJ4j, HW4j, HS by lia. unfold fact. f_equal. rewrite <- Ev. rewrite <- (Hval k) by lia. unfold valT. rewrite Hik. destruct (Z.eqb_spec j (-1)); [lia|auto].
        -- destruct (Hn2 p ltac:(lia)) as (e & He & Ev). exists e. split; auto. rewrite HJ4, HW4, HS by lia. exact Ev.
Qed.
End M.
End P.
