(** The two passes of lis_matrix_solveh_bsr *)
Require Import ZArith List Bool Lia Permutation Ring.
From Verif Require Import Base Scalar Spec SpecArray Items Array TermProof BsrSolve BsrTri BsrSolveH.
Import ListNotations.
Open Scope Z_scope.

Section S.
Context {T : Type} {S : Scalar T}.
Hypothesis RT : is_ring S.
Let RT' : @ring_theory T s0 s1 sadd smul ssub sopp (@eq T) := RT.
Add Ring scalar_ring_bh : RT'.
Hypothesis HC : conj_ok S.

Definition hdot (b : Z) (v : list T) (j jj : Z) (y : Z -> T) : T := sum_to b (fun ii => smul (sconj (znth s0 v (j * (b * b) + jj * b + ii))) (y ii)).
Lemma hdot_ext b v j jj y z : (forall k, 0 <= k < b -> y k = z k) -> hdot b v j jj y = hdot b v j jj z.
Proof using. intros H. apply sum_to_ext. intros i Hi. rewrite H; auto. Qed.

Lemma bmulh_wp c1 c2 b (v : list T) j w : 0 < b -> 0 <= j -> (j + 1) * (b * b) <= zlen v -> zlen w = b ->
  (forall a, c1 a = sconj a) -> (b = 2 \/ b = 3 -> forall a, c2 a = sconj a) ->
  wp (bmulh c1 c2 b v j w) (fun r => zlen r = b /\ forall jj, 0 <= jj < b -> znth s0 r jj = hdot b v j jj (znth s0 w)).
Proof using RT.
  intros Hb Hi Hv Hw Hc1 Hc2. unfold bmulh.
  assert (C : b = 1 \/ b = 2 \/ b = 3 \/ 3 < b) by lia. destruct C as [->|[->|[->|Hb3]]].
  - destruct (zlen1 w Hw) as (t0 & ->). wrd s0; [lia|]. apply wp_ok. split; [reflexivity|]. intros ii Hii. assert (ii = 0) by lia. subst ii.
    unfold hdot, sum_to. change (zrange 0 1) with [0]. cbn [map ssum]. change (znth s0 [t0] 0) with t0. rewrite Hc1.
    replace (j * (1 * 1) + 0 * 1 + 0) with j by lia. change (smul (sconj (znth s0 v j)) t0 = sadd (smul (sconj (znth s0 v j)) t0) s0). ring.
  - specialize (Hc2 ltac:(auto)). destruct (zlen2 w Hw) as (t0 & t1 & ->). do 4 (wrd s0; [lia|]). apply wp_ok. split; [reflexivity|]. intros ii Hii. rewrite !Hc1, !Hc2.
    unfold hdot, sum_to. change (zrange 0 2) with [0; 1]. cbn [map ssum]. change (znth s0 [t0; t1] 0) with t0. change (znth s0 [t0; t1] 1) with t1.
    replace (j * (2 * 2)) with (j * 4) by lia. assert (C : ii = 0 \/ ii = 1) by lia. destruct C as [->| ->].
    + replace (j * 4 + 0 * 2 + 0) with (j * 4 + 0) by lia. replace (j * 4 + 0 * 2 + 1) with (j * 4 + 1) by lia. match goal with |- znth s0 [?a; _] 0 = ?r => change (a = r) end. ring.
    + replace (j * 4 + 1 * 2 + 0) with (j * 4 + 2) by lia. replace (j * 4 + 1 * 2 + 1) with (j * 4 + 3) by lia. match goal with |- znth s0 [_; ?a] 1 = ?r => change (a = r) end. ring.
  - specialize (Hc2 ltac:(auto)). destruct (zlen3 w Hw) as (t0 & t1 & t2 & ->). do 9 (wrd s0; [lia|]). apply wp_ok. split; [reflexivity|]. intros ii Hii. rewrite !Hc1, !Hc2.
    unfold hdot, sum_to. change (zrange 0 3) with [0; 1; 2]. cbn [map ssum]. change (znth s0 [t0; t1; t2] 0) with t0. change (znth s0 [t0; t1; t2] 1) with t1. change (znth s0 [t0; t1; t2] 2) with t2.
    replace (j * (3 * 3)) with (j * 9) by lia. assert (C : ii = 0 \/ ii = 1 \/ ii = 2) by lia. destruct C as [->|[->| ->]].
    + replace (j * 9 + 0 * 3 + 0) with (j * 9 + 0) by lia. replace (j * 9 + 0 * 3 + 1) with (j * 9 + 1) by lia. replace (j * 9 + 0 * 3 + 2) with (j * 9 + 2) by lia. match goal with |- znth s0 [?a; _; _] 0 = ?r => change (a = r) end. ring.
    + replace (j * 9 + 1 * 3 + 0) with (j * 9 + 3) by lia. replace (j * 9 + 1 * 3 + 1) with (j * 9 + 4) by lia. replace (j * 9 + 1 * 3 + 2) with (j * 9 + 5) by lia. match goal with |- znth s0 [_; ?a; _] 1 = ?r => change (a = r) end. ring.
    + replace (j * 9 + 2 * 3 + 0) with (j * 9 + 6) by lia. replace (j * 9 + 2 * 3 + 1) with (j * 9 + 7) by lia. replace (j * 9 + 2 * 3 + 2) with (j * 9 + 8) by lia. match goal with |- znth s0 [_; _; ?a] 2 = ?r => change (a = r) end. ring.
  - set (gen := for_ 0 b (fun jj r => t <- for_ 0 b (fun ii t => a <- rd v (j * (b * b) + jj * b + ii) ;; y <- rd w ii ;; Ok (sadd t (smul (c1 a) y))) s0 ;; wr r jj t) (alloc b (fun _ => s0))).
    match goal with |- wp ?m _ => replace m with gen end.
    2:{ destruct b as [|p|p]; try lia. destruct p as [[p|p|]|[p|p|]|]; try reflexivity; lia. }
    unfold gen. apply (for_wp' (fun p u => zlen u = b /\ forall ii, 0 <= ii < p -> znth s0 u ii = hdot b v j ii (znth s0 w))); [lia| | |].
    + split; [apply zlen_alloc; lia|]. intros; lia.
    + intros ii u Hii [L H]. wbind.
      apply (for_wp' (fun p t => t = sum_to p (fun q => smul (sconj (znth s0 v (j * (b * b) + ii * b + q))) (znth s0 w q)))); [lia| | |].
      * reflexivity.
      * intros q t Hq ->. assert (0 <= j * (b * b)) by nia. assert (0 <= ii * b) by nia. assert (ii * b + b <= b * b) by nia.
        wrd s0; [nia|]. wrd s0; [lia|]. apply wp_ok. rewrite Hc1. unfold sum_to. rewrite zrange_snoc by lia. rewrite map_app, (ssum_app RT). cbn [map ssum]. ring.
      * intros t ->. apply wp_wr; [lia|]. split; [len|]. intros r Hr. rewrite znth_zupd by lia. destruct (Z.eqb_spec r ii) as [->|Hne]; [reflexivity|]. apply H; lia.
    + intros u [L H]. auto.
Qed.

(** what row i contributes to component jj of block c *)
Definition hcol (b : Z) (B : bsr T) (i : Z) (y : Z -> T) (c jj : Z) : T :=
  ssum (map (fun k => if znth 0 (bsr_bindex B) k =? c then hdot b (bsr_value B) k jj y else s0) (zrange (znth 0 (bsr_bptr B) i) (znth 0 (bsr_bptr B) (i + 1)))).
Lemma hcol_ext b B i y z c jj : (forall k, 0 <= k < b -> y k = z k) -> hcol b B i y c jj = hcol b B i z c jj.
Proof using. intros H. unfold hcol. apply ssum_map_ext. intros k _. destruct (_ =? _); auto. apply hdot_ext; auto. Qed.
Lemma hcol_zero b B i y c jj : (forall k, znth 0 (bsr_bptr B) i <= k < znth 0 (bsr_bptr B) (i + 1) -> znth 0 (bsr_bindex B) k <> c) -> hcol b B i y c jj = s0.
Proof using RT. intros H. unfold hcol. rewrite (ssum_map_ext _ (fun _ => s0)); [apply (ssum_map_zero RT)|]. intros k Hk. apply In_zrange in Hk. destruct (Z.eqb_spec (znth 0 (bsr_bindex B) k) c); auto. exfalso; eapply H; eauto. Qed.

Lemma hrow_wp c1 c2 b nr B i w x : 0 < b -> bfit b nr B -> 0 <= i < nr -> nr * b <= zlen x -> zlen w = b ->
  (forall a, c1 a = sconj a) -> (b = 2 \/ b = 3 -> forall a, c2 a = sconj a) ->
  wp (hrow c1 c2 b B i w x) (fun x' => zlen x' = zlen x /\ forall c jj, 0 <= c < nr -> 0 <= jj < b -> znth s0 x' (c * b + jj) = ssub (znth s0 x (c * b + jj)) (hcol b B i (znth s0 w) c jj)).
Proof using RT.
  intros Hb HB Hi Hx Hw Hc1 Hc2. pose proof HB as (Hp & H1 & H2 & H3). pose proof Hp as (_ & Hlp & _ & Hm). unfold hrow. wrd 0; [lia|]. wrd 0; [lia|].
  apply (for_wp' (fun p u => zlen u = zlen x /\ forall c jj, 0 <= c < nr -> 0 <= jj < b -> znth s0 u (c * b + jj) = ssub (znth s0 x (c * b + jj))
     (ssum (map (fun k => if znth 0 (bsr_bindex B) k =? c then hdot b (bsr_value B) k jj (znth s0 w) else s0) (zrange (znth 0 (bsr_bptr B) i) p))))); auto.
  - split; auto. intros c jj Hc Hjj. rewrite zrange_empty by lia. cbn [map ssum]. ring.
  - intros j u Hj [L H]. pose proof (bfit_pos b nr B i j HB Hi Hj) as Hj'. pose proof (H3 j Hj') as Hc. wrd 0; [lia|].
    assert ((j + 1) * (b * b) <= zlen (bsr_value B)) by nia. wbind. eapply wp_mono; [apply bmulh_wp; auto; lia|]. cbv beta. intros r (Lr & Hr).
    eapply wp_mono; [apply bstore_sub_wp; auto; try lia; nia|]. intros u' (L' & S1 & S2). split; [lia|]. intros c jj Hc' Hjj. rewrite zrange_snoc by lia. rewrite map_app, (ssum_app RT). cbn [map ssum].
    destruct (Z.eqb_spec (znth 0 (bsr_bindex B) j) c) as [<-|Ne].
    + rewrite S1, H, Hr by auto. ring.
    + rewrite S2 by nia. rewrite H by auto. ring.
Qed.

Lemma copyx_wp n (bv x : list T) : 0 <= n <= zlen x -> n <= zlen bv -> wp (copyx n bv x) (fun x' => zlen x' = zlen x /\ forall i, 0 <= i < n -> znth s0 x' i = znth s0 bv i).
Proof using.
  intros Hn Hb. unfold copyx. apply (for_wp' (fun m y => zlen y = zlen x /\ forall i, 0 <= i < m -> znth s0 y i = znth s0 bv i)); [lia| | |auto].
  - split; auto. intros; lia.
  - intros m y Hm (L & H). wrd s0; [lia|]. apply wp_wr; [lia|]. split; [len|]. intros i Hi. rewrite znth_zupd by lia. destruct (Z.eqb_spec i m) as [->|]; auto. apply H; lia.
Qed.

(** *** the passes *)
Variables (b nr : Z) (wd : list T) (D : Z -> Z -> Z -> T).
Hypothesis Hb : 0 < b.
Hypothesis Hnr : 0 <= nr.
Hypothesis Hwd : nr * (b * b) <= zlen wd.
Hypothesis Hinv : forall i, 0 <= i < nr -> is_inverse b (D i) (fun ii jj => znth s0 wd (i * (b * b) + jj * b + ii)).
Definition drowh (i jj : Z) (x : Z -> T) : T := sum_to b (fun ii => smul (sconj (D i ii jj)) (x (i * b + ii))).
Lemma drowh_ext i jj x y : (forall q, 0 <= q < b -> x (i * b + q) = y (i * b + q)) -> drowh i jj x = drowh i jj y.
Proof using. intros H. apply sum_to_ext. intros q Hq. rewrite H; auto. Qed.
Lemma wd_cancelh i jj t : 0 <= i < nr -> 0 <= jj < b -> sum_to b (fun p => smul (sconj (D i p jj)) (hdot b wd i p t)) = t jj.
Proof using RT HC Hinv.
  intros Hi Hjj. destruct HC as (Ca & Cm & Cc & C0 & C1). unfold hdot. transitivity (sum_to b (fun p => sum_to b (fun k => smul (sconj (smul (znth s0 wd (i * (b * b) + p * b + k)) (D i p jj))) (t k)))).
  { apply sum_to_ext. intros p _. rewrite <- (sum_to_scale RT). apply sum_to_ext. intros k _. rewrite Cm. ring. }
  rewrite (sum_to_swap RT). transitivity (sum_to b (fun k => smul (delta jj k) (t k))); [|apply (delta_sum RT); auto].
  apply sum_to_ext. intros k Hk. destruct (Hinv i Hi) as [_ H]. specialize (H k jj Hk Hjj). cbv beta in H.
  assert (Ed : sconj (delta k jj) = delta jj k). { unfold delta. rewrite (Z.eqb_sym jj k). destruct (k =? jj); auto. }
  rewrite <- Ed, <- H. unfold sum_to at 2. rewrite (conj_sum HC). rewrite map_map. fold (sum_to b (fun p => sconj (smul (znth s0 wd (i * (b * b) + p * b + k)) (D i p jj)))).
  rewrite (Rmul_comm RT). rewrite <- (sum_to_scale RT). apply sum_to_ext. intros p _. ring.
Qed.
Definition Hs (B : bsr T) (lo hi : Z) (y : Z -> T) (c jj : Z) : T := ssum (map (fun q => hcol b B q (fun ii => y (q * b + ii)) c jj) (zrange lo hi)).
Lemma Hs_ext B lo hi y z c jj : (forall q k, lo <= q < hi -> 0 <= k < b -> y (q * b + k) = z (q * b + k)) -> Hs B lo hi y c jj = Hs B lo hi z c jj.
Proof using. intros H. apply ssum_map_ext. intros q Hq. apply In_zrange in Hq. apply hcol_ext. intros; apply H; auto. Qed.
Lemma Hs_snoc B lo hi y c jj : lo <= hi -> Hs B lo (hi + 1) y c jj = sadd (Hs B lo hi y c jj) (hcol b B hi (fun ii => y (hi * b + ii)) c jj).
Proof using RT. intros H. unfold Hs. rewrite zrange_snoc by lia. rewrite map_app, (ssum_app RT). cbn [map ssum]. ring. Qed.
Lemma Hs_cons B lo hi y c jj : lo < hi -> Hs B lo hi y c jj = sadd (hcol b B lo (fun ii => y (lo * b + ii)) c jj) (Hs B (lo + 1) hi y c jj).
Proof using. intros H. unfold Hs. rewrite zrange_cons by lia. reflexivity. Qed.
Lemma Hs_zero B lo hi y c jj : (forall q, lo <= q < hi -> forall k, znth 0 (bsr_bptr B) q <= k < znth 0 (bsr_bptr B) (q + 1) -> znth 0 (bsr_bindex B) k <> c) -> Hs B lo hi y c jj = s0.
Proof using RT. intros H. unfold Hs. rewrite (ssum_map_ext _ (fun _ => s0)); [apply (ssum_map_zero RT)|]. intros q Hq. apply In_zrange in Hq. apply hcol_zero. intros k Hk. apply (H q Hq k Hk). Qed.
Lemma Hs_app B lo m hi y c jj : lo <= m <= hi -> Hs B lo hi y c jj = sadd (Hs B lo m y c jj) (Hs B m hi y c jj).
Proof using RT. intros H. unfold Hs. rewrite (zrange_app lo m hi) by lia. rewrite map_app, (ssum_app RT). auto. Qed.

(** one step *)
Lemma hstep_wp cw c1 c2 (st : bool) B x i : bfit b nr B -> 0 <= i < nr -> nr * b <= zlen x ->
  (forall a, cw a = sconj a) -> (forall a, c1 a = sconj a) -> (b = 2 \/ b = 3 -> forall a, c2 a = sconj a) ->
  (forall k, znth 0 (bsr_bptr B) i <= k < znth 0 (bsr_bptr B) (i + 1) -> znth 0 (bsr_bindex B) k <> i) ->
  wp (hstep cw c1 c2 st b B wd x i) (fun x' => zlen x' = zlen x /\ exists w : Z -> T,
     (forall jj, 0 <= jj < b -> znth s0 x' (i * b + jj) = if st then w jj else znth s0 x (i * b + jj)) /\
     (forall jj, 0 <= jj < b -> sum_to b (fun p => smul (sconj (D i p jj)) (w p)) = znth s0 x (i * b + jj)) /\
     forall c jj, 0 <= c < nr -> c <> i -> 0 <= jj < b -> znth s0 x' (c * b + jj) = ssub (znth s0 x (c * b + jj)) (hcol b B i w c jj)).
Proof using RT HC Hb Hnr Hwd Hinv.
  intros HB Hi Hx Hcw Hc1 Hc2 Hne. unfold hstep. assert (i * b + b <= nr * b) by nia. wbind. eapply wp_mono; [apply bload_wp; lia|]. cbv beta. intros y (Ly & Hy).
  wbind. eapply wp_mono; [apply (bmulh_wp cw sconj b wd i y); auto; try lia; nia|]. cbv beta. intros w (Lw & Hw).
  assert (St : wp (if st then bstore b x i w else Ok x) (fun x1 => zlen x1 = zlen x /\ (forall jj, 0 <= jj < b -> znth s0 x1 (i * b + jj) = if st then znth s0 w jj else znth s0 x (i * b + jj)) /\
     forall p, 0 <= p < i * b \/ i * b + b <= p -> znth s0 x1 p = znth s0 x p)).
  { destruct st; [|apply wp_ok; auto]. eapply wp_mono; [apply bstore_wp; auto; lia|]. intros x1 (L & S1 & S2). auto. }
  wbind. eapply wp_mono; [exact St|]. cbv beta. intros x1 (L1 & K1 & K2).
  eapply wp_mono; [apply (hrow_wp c1 c2 b nr B i w x1); auto; lia|]. cbv beta. intros x' (L' & H'). split; [lia|]. exists (znth s0 w). split; [|split].
  - intros jj Hjj. rewrite H' by auto. rewrite hcol_zero by auto. rewrite K1 by auto. ring.
  - intros jj Hjj. rewrite <- Hy by auto. rewrite <- (wd_cancelh i jj (znth s0 y)) by auto. apply sum_to_ext. intros p Hp. rewrite Hw by auto. auto.
  - intros c jj Hc Hci Hjj. rewrite H' by auto. rewrite K2 by nia. auto.
Qed.
Definition put (i : Z) (w z : Z -> T) (p : Z) : T := if (i * b <=? p) && (p <? i * b + b) then w (p - i * b) else z p.
Lemma put_in i w z jj : 0 <= jj < b -> put i w z (i * b + jj) = w jj.
Proof using. intros H. unfold put. destruct (Z.leb_spec (i * b) (i * b + jj)); [|lia]. destruct (Z.ltb_spec (i * b + jj) (i * b + b)); [|lia]. cbn [andb]. f_equal. lia. Qed.
Lemma put_out i w z c jj : c <> i -> 0 <= jj < b -> put i w z (c * b + jj) = z (c * b + jj).
Proof using Hb. intros Hc H. unfold put. destruct (Z.leb_spec (i * b) (c * b + jj)); cbn [andb]; auto. destruct (Z.ltb_spec (c * b + jj) (i * b + b)); auto. exfalso. apply Hc. nia. Qed.

Section Up.
Variable B : bsr T.
Hypothesis HB : bfit b nr B.
Hypothesis SB : forall i k, 0 <= i < nr -> znth 0 (bsr_bptr B) i <= k < znth 0 (bsr_bptr B) (i + 1) -> i < znth 0 (bsr_bindex B) k.
Lemma pass_up cw c2 (st : bool) x : nr * b <= zlen x -> (forall a, cw a = sconj a) -> (b = 2 \/ b = 3 -> forall a, c2 a = sconj a) ->
  wp (for_ 0 nr (fun i x => hstep cw sconj c2 st b B wd x i) x) (fun x' => zlen x' = zlen x /\ exists z : Z -> T,
    (forall c jj, 0 <= c < nr -> 0 <= jj < b -> znth s0 x' (c * b + jj) = if st then z (c * b + jj) else drowh c jj z) /\
    forall c jj, 0 <= c < nr -> 0 <= jj < b -> sadd (Hs B 0 nr z c jj) (drowh c jj z) = znth s0 x (c * b + jj)).
Proof using RT HC Hb Hnr Hwd Hinv HB SB.
  intros Hx Hcw Hc2.
  apply (for_wp' (fun i y => zlen y = zlen x /\ exists z : Z -> T,
    (forall c jj, 0 <= c < i -> 0 <= jj < b -> znth s0 y (c * b + jj) = if st then z (c * b + jj) else drowh c jj z) /\
    (forall c jj, 0 <= c < i -> 0 <= jj < b -> sadd (Hs B 0 c z c jj) (drowh c jj z) = znth s0 x (c * b + jj)) /\
    forall c jj, i <= c < nr -> 0 <= jj < b -> znth s0 y (c * b + jj) = ssub (znth s0 x (c * b + jj)) (Hs B 0 i z c jj))); [lia| | |].
  - split; auto. exists (fun _ => s0). split; [intros; lia|]. split; [intros; lia|]. intros c jj Hc Hjj. unfold Hs. rewrite zrange_empty by lia. cbn [map ssum]. ring.
  - intros i y Hi (L & z & Z1 & Z2 & Z3). eapply wp_mono; [apply (hstep_wp cw sconj c2 st B y i); auto; try lia|].
    { intros k Hk. specialize (SB i k Hi Hk). lia. }
    cbv beta. intros y' (L' & w & W1 & W2 & W3). split; [lia|]. exists (put i w z).
    assert (Pz : forall c jj, c <> i -> drowh c jj (put i w z) = drowh c jj z) by (intros c jj Hc; apply drowh_ext; intros q Hq; apply put_out; auto).
    assert (Pi : forall jj, drowh i jj (put i w z) = sum_to b (fun p => smul (sconj (D i p jj)) (w p))) by (intros jj; apply sum_to_ext; intros q Hq; rewrite put_in by auto; auto).
    assert (PH : forall lo hi c jj, hi <= i -> Hs B lo hi (put i w z) c jj = Hs B lo hi z c jj) by (intros lo hi c jj Hh; apply Hs_ext; intros q k Hq Hk; apply put_out; lia).
    split; [|split].
    + intros c jj Hc Hjj. destruct (Z.eq_dec c i) as [->|Ne].
      * rewrite W1 by auto. destruct st; [rewrite put_in by auto; auto|]. rewrite Pi. rewrite W2 by auto. auto.
      * rewrite W3 by (auto; lia). rewrite hcol_zero; [|intros k Hk; specialize (SB i k Hi Hk); lia]. rewrite Z1 by lia. rewrite Pz, put_out by auto. destruct st; ring.
    + intros c jj Hc Hjj. rewrite PH by lia. destruct (Z.eq_dec c i) as [->|Ne].
      * rewrite Pi, W2 by auto. rewrite Z3 by lia. ring.
      * rewrite Pz by auto. apply Z2; lia.
    + intros c jj Hc Hjj. rewrite W3 by lia. rewrite Z3 by lia. rewrite Hs_snoc by lia. rewrite PH by lia. rewrite (hcol_ext b B i (fun ii => put i w z (i * b + ii)) w) by (intros; apply put_in; auto). ring.
  - intros y (L & z & Z1 & Z2 & _). split; auto. exists z. split; auto. intros c jj Hc Hjj. rewrite (Hs_app B 0 c nr) by lia. rewrite (Hs_zero B c nr).
    + rewrite <- (Z2 c jj) by auto. ring.
    + intros q Hq k Hk. specialize (SB q k ltac:(lia) Hk). lia.
Qed.
End Up.

Section Down.
Variable B : bsr T.
Hypothesis HB : bfit b nr B.
Hypothesis SB : forall i k, 0 <= i < nr -> znth 0 (bsr_bptr B) i <= k < znth 0 (bsr_bptr B) (i + 1) -> znth 0 (bsr_bindex B) k < i.
Lemma pass_down cw c2 x : nr * b <= zlen x -> (forall a, cw a = sconj a) -> (b = 2 \/ b = 3 -> forall a, c2 a = sconj a) ->
  wp (for_down (nr - 1) 0 (fun i x => hstep cw sconj c2 true b B wd x i) x) (fun x' => zlen x' = zlen x /\
    forall c jj, 0 <= c < nr -> 0 <= jj < b -> sadd (Hs B 0 nr (znth s0 x') c jj) (drowh c jj (znth s0 x')) = znth s0 x (c * b + jj)).
Proof using RT HC Hb Hnr Hwd Hinv HB SB.
  intros Hx Hcw Hc2.
  apply (ford_wp' (fun m y => zlen y = zlen x /\ (forall c jj, m < c < nr -> 0 <= jj < b -> sadd (Hs B (c + 1) nr (znth s0 y) c jj) (drowh c jj (znth s0 y)) = znth s0 x (c * b + jj)) /\
    forall c jj, 0 <= c <= m -> 0 <= jj < b -> znth s0 y (c * b + jj) = ssub (znth s0 x (c * b + jj)) (Hs B (m + 1) nr (znth s0 y) c jj))); [lia| | |].
  - split; auto. split; [intros; lia|]. intros c jj Hc Hjj. unfold Hs. rewrite zrange_empty by lia. cbn [map ssum]. ring.
  - intros i y Hi (L & Z2 & Z3). eapply wp_mono; [apply (hstep_wp cw sconj c2 true B y i); auto; try lia|].
    { intros k Hk. specialize (SB i k ltac:(lia) Hk). lia. }
    cbv beta iota. intros y' (L' & w & W1 & W2 & W3).
    assert (Keep : forall c jj, i < c < nr -> 0 <= jj < b -> znth s0 y' (c * b + jj) = znth s0 y (c * b + jj)).
    { intros c jj Hc Hjj. rewrite W3 by lia. rewrite hcol_zero; [ring|]. intros k Hk. specialize (SB i k ltac:(lia) Hk). lia. }
    assert (PH : forall lo c jj, i < lo -> Hs B lo nr (znth s0 y') c jj = Hs B lo nr (znth s0 y) c jj) by (intros lo c jj Hl; apply Hs_ext; intros q k Hq Hk; apply Keep; lia).
    assert (Pi : forall jj, drowh i jj (znth s0 y') = sum_to b (fun p => smul (sconj (D i p jj)) (w p))) by (intros jj; apply sum_to_ext; intros q Hq; rewrite W1 by auto; auto).
    split; [lia|]. split.
    + intros c jj Hc Hjj. rewrite PH by lia. destruct (Z.eq_dec c i) as [->|Ne].
      * rewrite Pi, W2 by auto. rewrite Z3 by lia. ring.
      * rewrite (drowh_ext c jj (znth s0 y') (znth s0 y)) by (intros; apply Keep; lia). apply Z2; lia.
    + intros c jj Hc Hjj. replace (i - 1 + 1) with i by lia. rewrite W3 by lia. rewrite Z3 by lia. rewrite (Hs_cons B i nr) by lia. rewrite PH by lia. rewrite (hcol_ext b B i (fun ii => znth s0 y' (i * b + ii)) w) by (intros; apply W1; auto). ring.
  - intros y (L & Z2 & _). split; auto. intros c jj Hc Hjj. rewrite (Hs_app B 0 (c + 1) nr) by lia. rewrite (Hs_zero B 0 (c + 1)).
    + rewrite <- (Z2 c jj) by lia. ring.
    + intros q Hq k Hk. specialize (SB q k ltac:(lia) Hk). lia.
Qed.
End Down.
End S.
