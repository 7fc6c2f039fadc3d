Require Import ZArith List Bool Lia Ring Field.
From Verif Require Import Base Items Scalar Spec Ilu SpecIlu DiagProof2 IluProof IluProof2.
Import ListNotations.
Open Scope Z_scope.

Section P.
Context {T : Type} {S : Scalar T}.
Hypothesis RT : is_ring S.
Let RT' : @ring_theory T s0 s1 sadd smul ssub sopp (@eq T) := RT.
Add Ring TrIluF : RT'.

(** sum over [lo,hi) with one distinguished term *)
Lemma sum_at (f : Z -> T) lo hi k : lo <= k < hi -> (forall q, lo <= q < hi -> q <> k -> f q = s0) -> ssum (map f (zrange lo hi)) = f k.
Proof.
  intros Hk H. rewrite (zrange_app lo k hi) by lia. rewrite (zrange_cons k hi) by lia. rewrite map_app, (ssum_app RT). cbn [map ssum].
  rewrite (ssum_map_ext f (fun _ => s0) (zrange lo k)), (ssum_map_ext f (fun _ => s0) (zrange (k + 1) hi)), !(ssum_map_zero RT); [ring| |]; intros x Hx; apply In_zrange in Hx; apply H; lia.
Qed.

(** factors with the shape the factorisation gives them *)
Definition factors_ok (is_ ie : Z) (F : factors T) : Prop :=
  0 <= is_ <= ie /\ ie <= zlen (fa_L F) /\ ie <= zlen (fa_U F) /\ ie <= zlen (fa_Lv F) /\ ie <= zlen (fa_Uv F) /\ ie <= zlen (fa_D F) /\
  forall i, is_ <= i < ie ->
    zlen (znth [] (fa_Lv F) i) = zlen (znth [] (fa_L F) i) /\ zlen (znth [] (fa_Uv F) i) = zlen (znth [] (fa_U F) i) /\
    (forall p, 0 <= p < zlen (znth [] (fa_L F) i) -> is_ <= znth 0 (znth [] (fa_L F) i) p < i) /\
    (forall p, 0 <= p < zlen (znth [] (fa_U F) i) -> i < znth 0 (znth [] (fa_U F) i) p < ie).

Section F.
Variables is_ ie : Z.
Variable F : factors T.
Hypothesis HF : factors_ok is_ ie F.
Variable d : Z -> T.
Let lh := unit_lower (fa_L F) (fa_Lv F).
Let uh := upper_with d (fa_U F) (fa_Uv F).
Let M := mat_mul is_ ie lh uh.
Local Notation LR i := (znth [] (fa_L F) i).
Local Notation UR i := (znth [] (fa_U F) i).
Local Notation LV i := (znth [] (fa_Lv F) i).
Local Notation UV i := (znth [] (fa_Uv F) i).

Lemma L_out i k : is_ <= i < ie -> i <= k -> row_at (LR i) (LV i) k = s0.
Proof. intros Hi Hk. destruct HF as (_ & _ & _ & _ & _ & _ & H). destruct (H i Hi) as (H1 & _ & H3 & _). apply (row_at_out RT); auto. intros q Hq. specialize (H3 q Hq). lia. Qed.
Lemma U_out i k : is_ <= i < ie -> k <= i -> row_at (UR i) (UV i) k = s0.
Proof. intros Hi Hk. destruct HF as (_ & _ & _ & _ & _ & _ & H). destruct (H i Hi) as (_ & H2 & _ & H4). apply (row_at_out RT); auto. intros q Hq. specialize (H4 q Hq). lia. Qed.

(** sum over a row of I+L and of d+U *)
Lemma lh_sum i (g : Z -> T) : is_ <= i < ie -> ssum (map (fun k => smul (lh i k) (g k)) (zrange is_ ie)) = sadd (g i) (SUM (zlen (LR i)) (fun q => smul (znth s0 (LV i) q) (g (znth 0 (LR i) q)))).
Proof.
  intros Hi. destruct HF as (_ & _ & _ & _ & _ & _ & H). destruct (H i Hi) as (H1 & _ & H3 & _).
  rewrite (ssum_map_ext _ (fun k => sadd (if k =? i then g k else s0) (smul (row_at (LR i) (LV i) k) (g k)))).
  - rewrite (ssum_map_add RT). rewrite (sum_at _ is_ ie i) by first [assumption | intros q _ Hn; destruct (Z.eqb_spec q i); [lia|auto]]. rewrite Z.eqb_refl. f_equal. apply (row_at_mul RT); auto. intros q Hq. specialize (H3 q Hq). lia.
  - intros k Hk. unfold lh, unit_lower. destruct (Z.eqb_spec k i) as [->|]; [rewrite L_out by lia; ring|ring].
Qed.
Lemma uh_sum k (g : Z -> T) : is_ <= k < ie -> ssum (map (fun j => smul (uh k j) (g j)) (zrange is_ ie)) = sadd (smul (d k) (g k)) (SUM (zlen (UR k)) (fun q => smul (znth s0 (UV k) q) (g (znth 0 (UR k) q)))).
Proof.
  intros Hi. destruct HF as (_ & _ & _ & _ & _ & _ & H). destruct (H k Hi) as (_ & H2 & _ & H4).
  rewrite (ssum_map_ext _ (fun j => sadd (if j =? k then smul (d k) (g j) else s0) (smul (row_at (UR k) (UV k) j) (g j)))).
  - rewrite (ssum_map_add RT). rewrite (sum_at _ is_ ie k) by first [assumption | intros q _ Hn; destruct (Z.eqb_spec q k); [lia|auto]]. rewrite Z.eqb_refl. f_equal. apply (row_at_mul RT); auto. intros q Hq. specialize (H4 q Hq). lia.
  - intros j Hj. unfold uh, upper_with. rewrite (Z.eqb_sym k j). destruct (Z.eqb_spec j k) as [->|]; [rewrite U_out by lia; ring|ring].
Qed.

(** M x = (I+L) ((d+U) x) *)
Lemma mat_vec_M x i : is_ <= i < ie -> mat_vec is_ ie M x i = ssum (map (fun k => smul (lh i k) (mat_vec is_ ie uh x k)) (zrange is_ ie)).
Proof.
  intros Hi. unfold mat_vec, M, mat_mul.
  rewrite (ssum_map_ext _ (fun j => ssum (map (fun k => smul (lh i k) (smul (uh k j) (x j))) (zrange is_ ie)))).
  - rewrite (ssum_exchange RT). apply ssum_map_ext. intros k _. rewrite (ssum_map_mul_l RT). auto.
  - intros j _. rewrite <- (ssum_map_mul_r RT). apply ssum_map_ext. intros k _. ring.
Qed.

Lemma row_elim_wp ix v i x (Q : list T -> Prop) : zlen v = zlen ix -> 0 <= i < zlen x -> (forall q, 0 <= q < zlen ix -> 0 <= znth 0 ix q < zlen x /\ znth 0 ix q <> i) ->
  (forall x', zlen x' = zlen x -> (forall c, c <> i -> znth s0 x' c = znth s0 x c) -> znth s0 x' i = ssub (znth s0 x i) (SUM (zlen ix) (fun q => smul (znth s0 v q) (znth s0 x (znth 0 ix q)))) -> Q x') ->
  wp (row_elim ix v i x) Q.
Proof.
  intros Hl Hi Hr HQ. unfold row_elim.
  apply (for_wp' (fun j x' => zlen x' = zlen x /\ (forall c, c <> i -> znth s0 x' c = znth s0 x c) /\ znth s0 x' i = ssub (znth s0 x i) (SUM j (fun q => smul (znth s0 v q) (znth s0 x (znth 0 ix q)))))).
  - apply zlen_nonneg.
  - split; auto. split; auto. rewrite SUM_0. ring.
  - intros j x' Hj (L1 & O1 & V1). destruct (Hr j Hj) as [Ha Hb]. wrd 0; [lia|]. wrd s0; [lia|]. wrd s0; [lia|]. wrd s0; [lia|]. wwr; [lia|]. rewrite zlen_zupd. split; auto. split.
    + intros c Hc. rewrite znth_zupd_neq by lia. auto.
    + rewrite znth_zupd_eq by lia. rewrite V1, O1 by auto. rewrite (SUM_snoc RT) by lia. ring.
  - intros x' (L1 & O1 & V1). apply HQ; auto.
Qed.

Lemma psolve_iluk_wp b : (forall i, is_ <= i < ie -> smul (d i) (znth s0 (fa_D F) i) = s1) -> ie <= zlen b ->
  wp (psolve_iluk is_ ie F b) (fun x => zlen x = zlen b /\ (forall c, ~ (is_ <= c < ie) -> znth s0 x c = znth s0 b c) /\
    forall i, is_ <= i < ie -> mat_vec is_ ie M (znth s0 x) i = znth s0 b i).
Proof.
  intros Hd Hb. pose proof HF as (Hr & A1 & A2 & A3 & A4 & A5 & H). unfold psolve_iluk. wbind.
  apply (for_wp' (fun i y => zlen y = zlen b /\ (forall c, ~ (is_ <= c < i) -> znth s0 y c = znth s0 b c) /\
     forall k, is_ <= k < i -> znth s0 y k = ssub (znth s0 b k) (SUM (zlen (LR k)) (fun q => smul (znth s0 (LV k) q) (znth s0 y (znth 0 (LR k) q)))))).
  - lia.
  - split; auto. split; auto. intros; lia.
  - intros i y Hi (L1 & O1 & V1). destruct (H i Hi) as (B1 & B2 & B3 & B4). wrd (@nil Z); [lia|]. wrd (@nil T); [lia|].
    apply row_elim_wp; [auto|lia|intros q Hq; specialize (B3 q Hq); lia|]. intros y' L2 O2 V2. split; [lia|]. split.
    + intros c Hc. rewrite O2 by lia. apply O1. lia.
    + intros k Hk. destruct (Z.eq_dec k i) as [->|].
      * rewrite V2, (O1 i) by lia. f_equal. apply SUM_ext. intros q Hq. specialize (B3 q Hq). rewrite O2 by lia. auto.
      * rewrite O2 by lia. rewrite V1 by lia. f_equal. apply SUM_ext. intros q Hq. destruct (H k ltac:(lia)) as (_ & _ & C3 & _). specialize (C3 q Hq). rewrite O2 by lia. auto.
  - intros y (L1 & O1 & V1).
    apply (ford_wp' (fun i x => zlen x = zlen b /\ (forall c, ~ (i < c < ie) -> znth s0 x c = znth s0 y c) /\
       forall k, i < k < ie -> sadd (smul (d k) (znth s0 x k)) (SUM (zlen (UR k)) (fun q => smul (znth s0 (UV k) q) (znth s0 x (znth 0 (UR k) q)))) = znth s0 y k)).
    + lia.
    + split; auto. split; auto. intros; lia.
    + intros i x Hi (L2 & O2 & V2). destruct (H i ltac:(lia)) as (B1 & B2 & B3 & B4). wrd (@nil Z); [lia|]. wrd (@nil T); [lia|]. wbind.
      apply row_elim_wp; [auto|lia|intros q Hq; specialize (B4 q Hq); lia|]. intros x1 L3 O3 V3. wrd s0; [lia|]. wrd s0; [lia|]. wwr; [lia|]. rewrite zlen_zupd. split; [lia|]. split.
      * intros c Hc. rewrite znth_zupd_neq by lia. rewrite O3 by lia. apply O2. lia.
      * assert (Ho : forall c, c <> i -> znth s0 (zupd x1 i (smul (znth s0 (fa_D F) i) (znth s0 x1 i))) c = znth s0 x c) by (intros c Hc; rewrite znth_zupd_neq by lia; auto).
        intros k Hk. destruct (Z.eq_dec k i) as [->|].
        -- rewrite (SUM_ext _ _ (fun q => smul (znth s0 (UV i) q) (znth s0 x (znth 0 (UR i) q)))) by (intros q Hq; specialize (B4 q Hq); rewrite Ho by lia; auto).
           rewrite znth_zupd_eq by lia. rewrite V3. rewrite O2 by lia. rewrite (Rmul_assoc RT), (Hd i) by lia. ring.
        -- rewrite (SUM_ext _ _ (fun q => smul (znth s0 (UV k) q) (znth s0 x (znth 0 (UR k) q)))).
           ++ rewrite Ho by lia. apply V2. lia.
           ++ intros q Hq. destruct (H k ltac:(lia)) as (_ & _ & _ & C4). specialize (C4 q Hq). rewrite Ho by lia. auto.
    + intros x (L2 & O2 & V2). split; auto. split; [intros c Hc; rewrite O2 by lia; apply O1; lia|].
      intros i Hi. rewrite mat_vec_M by auto. rewrite lh_sum by auto.
      assert (Hy : forall k, is_ <= k < ie -> mat_vec is_ ie uh (znth s0 x) k = znth s0 y k) by (intros k Hk; unfold mat_vec; rewrite uh_sum by auto; apply V2; lia).
      rewrite Hy by auto. rewrite (SUM_ext _ _ (fun q => smul (znth s0 (LV i) q) (znth s0 y (znth 0 (LR i) q)))).
      * rewrite (V1 i) by auto. ring.
      * intros q Hq. destruct (H i Hi) as (_ & _ & C3 & _). specialize (C3 q Hq). rewrite Hy by lia. auto.
Qed.

(** *** conjugate transpose *)
Hypothesis HC : conj_ok S.
Lemma conj_add a b : sconj (sadd a b) = sadd (sconj a) (sconj b). Proof. apply HC. Qed.
Lemma conj_mul a b : sconj (smul a b) = smul (sconj a) (sconj b). Proof. apply HC. Qed.
Lemma conj_0 : sconj s0 = s0. Proof. apply HC. Qed.
Lemma conj_1 : sconj s1 = s1. Proof. apply HC. Qed.
Lemma conj_sum {B} (f : B -> T) l : sconj (ssum (map f l)) = ssum (map (fun x => sconj (f x)) l).
Proof. induction l; cbn [map ssum]; [apply conj_0|]. rewrite conj_add, IHl. auto. Qed.

Lemma mat_vech_M x i : is_ <= i < ie -> mat_vech is_ ie M x i = ssum (map (fun k => smul (sconj (uh k i)) (mat_vech is_ ie lh x k)) (zrange is_ ie)).
Proof.
  intros Hi. unfold mat_vech, M, mat_mul.
  rewrite (ssum_map_ext _ (fun j => ssum (map (fun k => smul (sconj (uh k i)) (smul (sconj (lh j k)) (x j))) (zrange is_ ie)))).
  - rewrite (ssum_exchange RT). apply ssum_map_ext. intros k _. rewrite (ssum_map_mul_l RT). auto.
  - intros j _. rewrite conj_sum. rewrite <- (ssum_map_mul_r RT). apply ssum_map_ext. intros k _. rewrite conj_mul. ring.
Qed.

Lemma col_elim_wp ix v i x (Q : list T -> Prop) : zlen v = zlen ix -> 0 <= i < zlen x -> (forall q, 0 <= q < zlen ix -> 0 <= znth 0 ix q < zlen x /\ znth 0 ix q <> i) ->
  (forall x', zlen x' = zlen x -> (forall c, znth s0 x' c = ssub (znth s0 x c) (smul (sconj (row_at ix v c)) (znth s0 x i))) -> Q x') ->
  wp (col_elim ix v i x) Q.
Proof.
  intros Hl Hi Hr HQ. unfold col_elim.
  apply (for_wp' (fun j x' => zlen x' = zlen x /\ znth s0 x' i = znth s0 x i /\ (forall c, znth s0 x' c = ssub (znth s0 x c) (smul (sconj (SUM j (fun q => if znth 0 ix q =? c then znth s0 v q else s0))) (znth s0 x i))))).
  - apply zlen_nonneg.
  - split; auto. split; auto. intros c. rewrite SUM_0, conj_0. ring.
  - intros j x' Hj (L1 & E1 & V1). destruct (Hr j Hj) as [Ha Hb]. wrd 0; [lia|]. wrd s0; [lia|]. wrd s0; [lia|]. wrd s0; [lia|]. wwr; [lia|]. rewrite zlen_zupd. split; auto. split; [rewrite znth_zupd_neq by lia; auto|].
    intros c. rewrite (SUM_snoc RT), conj_add by lia. destruct (Z.eqb_spec (znth 0 ix j) c) as [<-|Hn].
    + rewrite znth_zupd_eq by lia. rewrite V1, E1. ring.
    + rewrite znth_zupd_neq by lia. rewrite V1, conj_0. ring.
  - intros x' (L1 & E1 & V1). apply HQ; auto. intros c. rewrite V1, (row_at_sum RT) by auto. auto.
Qed.

Lemma psolveh_iluk_wp b : (forall i, is_ <= i < ie -> smul (d i) (znth s0 (fa_D F) i) = s1) -> ie <= zlen b ->
  wp (psolveh_iluk is_ ie F b) (fun x => zlen x = zlen b /\ (forall c, ~ (is_ <= c < ie) -> znth s0 x c = znth s0 b c) /\
    forall i, is_ <= i < ie -> mat_vech is_ ie M (znth s0 x) i = znth s0 b i).
Proof.
  intros Hd Hb. pose proof HF as (Hr & A1 & A2 & A3 & A4 & A5 & H). unfold psolveh_iluk, psolveh_iluk_with. wbind.
  set (ru := fun k c => row_at (UR k) (UV k) c). set (rl := fun k c => row_at (LR k) (LV k) c).
  apply (for_wp' (fun i z => zlen z = zlen b /\
     (forall c, i <= c < ie -> znth s0 z c = ssub (znth s0 b c) (ssum (map (fun k => smul (sconj (ru k c)) (znth s0 z k)) (zrange is_ i)))) /\
     (forall c, ~ (is_ <= c < ie) -> znth s0 z c = znth s0 b c) /\
     (forall c, is_ <= c < i -> smul (sconj (d c)) (znth s0 z c) = ssub (znth s0 b c) (ssum (map (fun k => smul (sconj (ru k c)) (znth s0 z k)) (zrange is_ c)))))).
  - lia.
  - split; auto. split; [|split; [auto|intros; lia]]. intros c Hc. rewrite zrange_empty by lia. cbn [map ssum]. ring.
  - intros i z Hi (L1 & V1 & O1 & F1). destruct (H i Hi) as (B1 & B2 & B3 & B4). wrd s0; [lia|]. wrd s0; [lia|]. wwr; [lia|]. wrd (@nil Z); [lia|]. wrd (@nil T); [lia|].
    set (zi := smul (sconj (znth s0 (fa_D F) i)) (znth s0 z i)).
    apply col_elim_wp; [auto|rewrite zlen_zupd; lia|intros q Hq; specialize (B4 q Hq); rewrite zlen_zupd; lia|]. rewrite zlen_zupd. intros z' L2 V2. rewrite znth_zupd_eq in V2 by lia.
    assert (Vlow : forall c, c < i -> znth s0 z' c = znth s0 z c).
    { intros c Hc. rewrite V2. rewrite U_out by lia. rewrite znth_zupd_neq by lia. rewrite conj_0. ring. }
    assert (Vi : znth s0 z' i = zi). { rewrite V2. rewrite U_out by lia. rewrite znth_zupd_eq by lia. rewrite conj_0. ring. }
    split; [lia|]. split; [|split].
    + intros c Hc. rewrite V2. fold (ru i c). rewrite znth_zupd_neq by lia. rewrite V1 by lia. rewrite zrange_snoc by lia. rewrite map_app, (ssum_app RT). cbn [map ssum]. rewrite Vi.
      rewrite (ssum_map_ext (fun k => smul (sconj (ru k c)) (znth s0 z' k)) (fun k => smul (sconj (ru k c)) (znth s0 z k)) (zrange is_ i)) by (intros k Hk; apply In_zrange in Hk; rewrite Vlow by lia; auto). ring.
    + intros c Hc. rewrite V2. rewrite (row_at_out RT) by (auto; intros q Hq; specialize (B4 q Hq); lia). rewrite znth_zupd_neq by lia. rewrite conj_0, O1 by auto. ring.
    + intros c Hc. rewrite (ssum_map_ext (fun k => smul (sconj (ru k c)) (znth s0 z' k)) (fun k => smul (sconj (ru k c)) (znth s0 z k)) (zrange is_ c)) by (intros k Hk; apply In_zrange in Hk; rewrite Vlow by lia; auto).
      destruct (Z.eq_dec c i) as [->|]; [|rewrite Vlow by lia; apply F1; lia]. rewrite Vi. unfold zi. rewrite (Rmul_assoc RT), <- conj_mul, (Hd i), conj_1 by lia. rewrite V1 by lia. ring.
  - intros z (L1 & _ & O1 & F1).
    apply (ford_wp' (fun i x => zlen x = zlen b /\ (forall c, ~ (is_ <= c < ie) -> znth s0 x c = znth s0 b c) /\
       (forall c, is_ <= c < ie -> znth s0 x c = ssub (znth s0 z c) (ssum (map (fun k => smul (sconj (rl k c)) (znth s0 x k)) (zrange (i + 1) ie)))))).
    + lia.
    + split; auto. split; auto. intros c Hc. rewrite zrange_empty by lia. cbn [map ssum]. ring.
    + intros i x Hi (L2 & O2 & V2). destruct (H i ltac:(lia)) as (B1 & B2 & B3 & B4). wrd (@nil Z); [lia|]. wrd (@nil T); [lia|].
      apply col_elim_wp; [auto|lia|intros q Hq; specialize (B3 q Hq); lia|]. intros x' L3 V3. split; [lia|]. split.
      * intros c Hc. rewrite V3. rewrite (row_at_out RT) by (auto; intros q Hq; specialize (B3 q Hq); lia). rewrite conj_0, O2 by auto. ring.
      * assert (Vhi : forall c, i <= c < ie -> znth s0 x' c = znth s0 x c) by (intros c Hc; rewrite V3, L_out by lia; rewrite conj_0; ring).
        intros c Hc. rewrite V3. fold (rl i c). rewrite V2 by auto. replace (i - 1 + 1) with i by lia. rewrite (zrange_cons i ie) by lia. cbn [map ssum]. rewrite Vhi by lia.
        rewrite (ssum_map_ext (fun k => smul (sconj (rl k c)) (znth s0 x' k)) (fun k => smul (sconj (rl k c)) (znth s0 x k)) (zrange (i + 1) ie)) by (intros k Hk; apply In_zrange in Hk; rewrite Vhi by lia; auto). ring.
    + intros x (L2 & O2 & V2). split; auto. split; auto. replace (is_ - 1 + 1) with is_ in V2 by lia. intros i Hi. rewrite mat_vech_M by auto.
      assert (Hz : forall k, is_ <= k < ie -> mat_vech is_ ie lh (znth s0 x) k = znth s0 z k).
      { intros k Hk. unfold mat_vech. rewrite (ssum_map_ext _ (fun j => sadd (if j =? k then znth s0 x j else s0) (smul (sconj (rl j k)) (znth s0 x j)))).
        - rewrite (ssum_map_add RT). rewrite (sum_at _ is_ ie k) by first [assumption | intros q _ Hn; destruct (Z.eqb_spec q k); [lia|auto]]. rewrite Z.eqb_refl. rewrite V2 at 1 by auto. ring.
        - intros j Hj. apply In_zrange in Hj. unfold lh, unit_lower. rewrite (Z.eqb_sym k j). destruct (Z.eqb_spec j k) as [->|]; [unfold rl; rewrite L_out by lia; rewrite conj_1, conj_0; ring|fold (rl j k); ring]. }
      rewrite (ssum_map_ext _ (fun k => smul (sconj (uh k i)) (znth s0 z k))) by (intros k Hk; apply In_zrange in Hk; rewrite Hz by auto; auto).
      rewrite (ssum_map_ext _ (fun k => sadd (if k =? i then smul (sconj (d i)) (znth s0 z i) else s0) (smul (sconj (ru k i)) (znth s0 z k)))).
      * rewrite (ssum_map_add RT). rewrite (sum_at _ is_ ie i) by first [assumption | intros q _ Hn; destruct (Z.eqb_spec q i); [lia|auto]]. rewrite Z.eqb_refl. rewrite F1 by auto.
        rewrite (zrange_app is_ i ie) by lia. rewrite map_app, (ssum_app RT).
        rewrite (ssum_map_ext _ (fun _ => s0) (zrange i ie)); [rewrite (ssum_map_zero RT); ring|]. intros k Hk. apply In_zrange in Hk. unfold ru. rewrite U_out by lia. rewrite conj_0. ring.
      * intros k Hk. apply In_zrange in Hk. unfold uh, upper_with. destruct (Z.eqb_spec k i) as [->|]; [unfold ru; rewrite U_out by lia; rewrite conj_0; ring|fold (ru k i); ring].
Qed.
End F.
End P.

Section Q.
Context {T : Type} {S : Scalar T}.
Hypothesis RT : is_ring S.
Let RT' : @ring_theory T s0 s1 sadd smul ssub sopp (@eq T) := RT.
Add Ring TrIluQ : RT'.
Hypothesis FT : is_field S.

Lemma inv_mul (x : T) : x <> s0 -> smul x (sdiv s1 x) = s1.
Proof. intros Hx. rewrite (Rmul_comm RT). apply (Finv_l FT). auto. Qed.

Definition in_row (l : list Z) (c : Z) : Prop := exists p, 0 <= p < zlen l /\ znth 0 l p = c.

Lemma product_on_pattern (A : csr T) is_ ie (F : factors T) d : factors_ok is_ ie F ->
  (forall i, is_ <= i < ie -> increasing_row (znth [] (fa_L F) i) /\ distinct_row (znth [] (fa_U F) i)) ->
  (forall k, is_ <= k < ie -> znth s0 (fa_D F) k = sdiv s1 (d k) /\ rowfact A (fa_L F) (fa_U F) k (znth [] (fa_Lv F) k) (znth [] (fa_Uv F) k) (fa_Uv F) (znth s0 (fa_D F)) (d k)) ->
  forall i c, is_ <= i < ie -> (forall k, is_ <= k < i -> d k <> s0) ->
    (c = i \/ in_row (znth [] (fa_L F) i) c \/ in_row (znth [] (fa_U F) i) c) ->
    mat_mul is_ ie (unit_lower (fa_L F) (fa_Lv F)) (upper_with d (fa_U F) (fa_Uv F)) i c = coef (csr_entries A) i c.
Proof.
  intros HF Hinc Hfact i c Hi Hd Hc. unfold mat_mul. rewrite (lh_sum RT is_ ie F HF i (fun k => upper_with d (fa_U F) (fa_Uv F) k c) Hi).
  destruct (Hfact i Hi) as [_ (L1 & L2 & R1 & R2 & R3)]. pose proof HF as (_ & _ & _ & _ & _ & _ & Hr). destruct (Hr i Hi) as (_ & _ & HLr & HUr). destruct (Hinc i Hi) as [HI HD].
  assert (Hup : forall q, 0 <= q < zlen (znth [] (fa_L F) i) -> znth 0 (znth [] (fa_L F) i) q <> c -> upper_with d (fa_U F) (fa_Uv F) (znth 0 (znth [] (fa_L F) i) q) c = ufun (fa_U F) (fa_Uv F) (znth 0 (znth [] (fa_L F) i) q) c).
  { intros q Hq Hn. unfold upper_with, ufun. destruct (Z.eqb_spec (znth 0 (znth [] (fa_L F) i) q) c); [lia|auto]. }
  destruct Hc as [->|[(p & Hp & <-)|(p & Hp & <-)]].
  - unfold upper_with at 1. rewrite Z.eqb_refl. rewrite (SUM_ext _ _ (fun q => smul (znth s0 (znth [] (fa_Lv F) i) q) (ufun (fa_U F) (fa_Uv F) (znth 0 (znth [] (fa_L F) i) q) i))).
    + rewrite R2. ring.
    + intros q Hq. specialize (HLr q Hq). rewrite Hup by (auto; lia). auto.
  - set (c := znth 0 (znth [] (fa_L F) i) p) in *. pose proof (HLr p Hp) as Hcr. fold c in Hcr.
    unfold upper_with at 1. destruct (Z.eqb_spec i c); [lia|]. rewrite (U_out RT is_ ie F HF) by lia.
    rewrite (SUM_split RT _ (p + 1)) by lia. rewrite (SUM_snoc RT) by lia. fold c.
    rewrite (SUM_ext p _ (fun q => smul (znth s0 (znth [] (fa_Lv F) i) q) (ufun (fa_U F) (fa_Uv F) (znth 0 (znth [] (fa_L F) i) q) c))).
    2:{ intros q Hq. rewrite Hup; [auto|lia|]. assert (znth 0 (znth [] (fa_L F) i) q < c) by (apply HI; lia). lia. }
    rewrite (ssum_map_ext _ (fun _ => s0) (zrange (p + 1) _)).
    2:{ intros q Hq. apply In_zrange in Hq. assert (c < znth 0 (znth [] (fa_L F) i) q) by (apply HI; lia). specialize (HLr q ltac:(lia)). unfold upper_with. destruct (Z.eqb_spec (znth 0 (znth [] (fa_L F) i) q) c); [lia|]. rewrite (U_out RT is_ ie F HF) by lia. ring. }
    rewrite (ssum_map_zero RT). unfold upper_with. rewrite Z.eqb_refl. rewrite (R1 p Hp). fold c.
    set (X := SUM p _). destruct (Hfact c) as [HDc _]; [lia|]. rewrite HDc.
    rewrite <- (Rmul_assoc RT). rewrite (Rmul_comm RT (sdiv s1 (d c))). rewrite inv_mul by (apply Hd; lia). ring.
  - set (c := znth 0 (znth [] (fa_U F) i) p) in *. pose proof (HUr p Hp) as Hcr. fold c in Hcr.
    unfold upper_with at 1. destruct (Z.eqb_spec i c); [lia|]. rewrite (SUM_ext _ _ (fun q => smul (znth s0 (znth [] (fa_Lv F) i) q) (ufun (fa_U F) (fa_Uv F) (znth 0 (znth [] (fa_L F) i) q) c))).
    + unfold c at 1. rewrite (row_at_in RT) by auto. rewrite (R3 p Hp). fold c. ring.
    + intros q Hq. specialize (HLr q Hq). rewrite Hup by (auto; lia). auto.
Qed.

Lemma in_row_iff l c : In c l <-> in_row l c.
Proof. split; [apply in_row_ex|]. intros (p & Hp & <-). apply ex_in_row; auto. Qed.

Lemma create_iluk_wp (A : csr T) levfill is_ ie jj jl jw jlv juv jd jw' :
  csr_ok A -> no_dup_pos (csr_entries A) -> 0 <= levfill -> 0 <= is_ <= ie -> ie <= csr_n A ->
  exists F, create_iluk jj jl jw jlv juv jd jw' levfill is_ ie A = Ok F /\ factors_ok is_ ie F /\
    (forall i c, is_ <= i < ie -> (In c (znth [] (fa_L F) i) <-> c < i /\ level_le (stored_in is_ ie (csr_entries A)) levfill i c) /\
       (In c (znth [] (fa_U F) i) <-> i < c /\ level_le (stored_in is_ ie (csr_entries A)) levfill i c)) /\
    exists d, (forall i, is_ <= i < ie -> znth s0 (fa_D F) i = sdiv s1 (d i)) /\
      (forall i c, is_ <= i < ie -> (forall k, is_ <= k < i -> d k <> s0) -> c = i \/ level_le (stored_in is_ ie (csr_entries A)) levfill i c ->
         mat_mul is_ ie (unit_lower (fa_L F) (fa_Lv F)) (upper_with d (fa_U F) (fa_Uv F)) i c = coef (csr_entries A) i c).
Proof.
  intros Hok Hnd Hlev Hr Hn. set (E := stored_in is_ ie (csr_entries A)).
  destruct (wp_inv _ _ (symbolic_fact_wp A levfill is_ ie Hok Hnd Hlev (conj Hr Hn) jj jl jw)) as ([L U] & HE & Hl1 & Hl2 & Hrow). cbn [fst snd] in *. fold E in Hrow.
  assert (HLp : forall i, is_ <= i < ie -> increasing_row (znth [] L i) /\ forall p, 0 <= p < zlen (znth [] L i) -> is_ <= znth 0 (znth [] L i) p < i).
  { intros i Hi. destruct (Hrow i Hi) as [[H1 H2] _]. split; auto. intros p Hp. destruct (proj1 (H2 _) (ex_intro _ p (conj Hp eq_refl))) as (Ha & l & _ & Hf). apply fills_block in Hf. lia. }
  assert (HUp : forall i, is_ <= i < ie -> distinct_row (znth [] U i) /\ forall p, 0 <= p < zlen (znth [] U i) -> i < znth 0 (znth [] U i) p < ie).
  { intros i Hi. destruct (Hrow i Hi) as [_ [H1 H2]]. split; auto. intros p Hp. destruct (proj1 (H2 _) (ex_intro _ p (conj Hp eq_refl))) as (Ha & l & _ & Hf). apply fills_block in Hf. lia. }
  assert (HAp : forall i c, stored_in is_ ie (csr_entries A) i c -> (c < i -> exists p, 0 <= p < zlen (znth [] L i) /\ znth 0 (znth [] L i) p = c) /\ (i < c -> exists p, 0 <= p < zlen (znth [] U i) /\ znth 0 (znth [] U i) p = c)).
  { intros i c Hs. assert (Hll : level_le E levfill i c) by (exists 0; split; [lia|constructor; exact Hs]). destruct Hs as (Hi & _). destruct (Hrow i Hi) as [[_ H1] [_ H2]]. split; intros Hc; [apply H1|apply H2]; auto. }
  destruct (wp_inv _ _ (numerical_fact_wp RT A is_ ie Hok Hnd (conj Hr Hn) L U Hl1 Hl2 HLp HUp HAp jlv juv jd jw')) as (F & HN & FL & FU & Z1 & Z2 & Z3 & d & Hd).
  exists F. split; [unfold create_iluk; rewrite HE; exact HN|].
  assert (HFok : factors_ok is_ ie F).
  { split; [auto|]. rewrite FL, FU, Hl1, Hl2, Z1, Z2, Z3. do 5 (split; [auto|]). intros i Hi. destruct (Hd i Hi) as (_ & Hl & Hu & _). split; auto. split; auto. split; [apply HLp; auto|apply HUp; auto]. }
  split; auto.
  assert (Hpat : forall i c, is_ <= i < ie -> (in_row (znth [] L i) c <-> c < i /\ level_le E levfill i c) /\ (in_row (znth [] U i) c <-> i < c /\ level_le E levfill i c)).
  { intros i c Hi. destruct (Hrow i Hi) as [[_ H1] [_ H2]]. split; [apply H1|apply H2]. }
  rewrite FL, FU. split.
  - intros i c Hi. rewrite !in_row_iff. apply Hpat; auto.
  - exists d. split; [intros i Hi; apply Hd; auto|]. intros i c Hi Hnz Hc. rewrite <- FL, <- FU.
    apply (product_on_pattern A is_ ie F d HFok); auto; rewrite FL, FU.
    + intros k Hk. split; [apply HLp; auto|apply HUp; auto].
    + auto.
    + destruct (Z.eq_dec c i) as [|Hne]; [auto|right]. destruct Hc as [|Hc]; [contradiction|]. destruct (Z_lt_dec c i); [left|right]; apply Hpat; auto. split; [lia|auto].
Qed.

Lemma psolve_iluk_final is_ ie (F : factors T) d b : factors_ok is_ ie F -> (forall i, is_ <= i < ie -> znth s0 (fa_D F) i = sdiv s1 (d i)) -> (forall i, is_ <= i < ie -> d i <> s0) -> ie <= zlen b ->
  exists x, psolve_iluk is_ ie F b = Ok x /\ zlen x = zlen b /\ (forall c, ~ (is_ <= c < ie) -> znth s0 x c = znth s0 b c) /\
    forall i, is_ <= i < ie -> mat_vec is_ ie (mat_mul is_ ie (unit_lower (fa_L F) (fa_Lv F)) (upper_with d (fa_U F) (fa_Uv F))) (znth s0 x) i = znth s0 b i.
Proof. intros HF HD Hd Hb. apply wp_inv. apply (psolve_iluk_wp RT); auto. intros i Hi. rewrite HD by auto. apply inv_mul; auto. Qed.
Lemma psolveh_iluk_final is_ ie (F : factors T) d b (HC : conj_ok S) : factors_ok is_ ie F -> (forall i, is_ <= i < ie -> znth s0 (fa_D F) i = sdiv s1 (d i)) -> (forall i, is_ <= i < ie -> d i <> s0) -> ie <= zlen b ->
  exists x, psolveh_iluk is_ ie F b = Ok x /\ zlen x = zlen b /\ (forall c, ~ (is_ <= c < ie) -> znth s0 x c = znth s0 b c) /\
    forall i, is_ <= i < ie -> mat_vech is_ ie (mat_mul is_ ie (unit_lower (fa_L F) (fa_Lv F)) (upper_with d (fa_U F) (fa_Uv F))) (znth s0 x) i = znth s0 b i.
Proof. intros HF HD Hd Hb. apply wp_inv. apply (psolveh_iluk_wp RT); auto. intros i Hi. rewrite HD by auto. apply inv_mul; auto. Qed.

(** the preconditioner as the user sees it *)
Lemma iluk_final (A : csr T) levfill is_ ie jj jl jw jlv juv jd jw' :
  csr_ok A -> no_dup_pos (csr_entries A) -> 0 <= levfill -> 0 <= is_ <= ie -> ie <= csr_n A ->
  exists F, create_iluk jj jl jw jlv juv jd jw' levfill is_ ie A = Ok F /\
    (forall i c, is_ <= i < ie -> (In c (znth [] (fa_L F) i) <-> c < i /\ level_le (stored_in is_ ie (csr_entries A)) levfill i c) /\
       (In c (znth [] (fa_U F) i) <-> i < c /\ level_le (stored_in is_ ie (csr_entries A)) levfill i c)) /\
    exists d, (forall i, is_ <= i < ie -> znth s0 (fa_D F) i = sdiv s1 (d i)) /\
      let M := mat_mul is_ ie (unit_lower (fa_L F) (fa_Lv F)) (upper_with d (fa_U F) (fa_Uv F)) in
      (forall i c, is_ <= i < ie -> (forall k, is_ <= k < i -> d k <> s0) -> c = i \/ level_le (stored_in is_ ie (csr_entries A)) levfill i c ->
         M i c = coef (csr_entries A) i c) /\
      ((forall i, is_ <= i < ie -> d i <> s0) -> forall b, ie <= zlen b ->
        (exists x, psolve_iluk is_ ie F b = Ok x /\ zlen x = zlen b /\ (forall c, ~ (is_ <= c < ie) -> znth s0 x c = znth s0 b c) /\
           forall i, is_ <= i < ie -> mat_vec is_ ie M (znth s0 x) i = znth s0 b i) /\
        (conj_ok S -> exists x, psolveh_iluk is_ ie F b = Ok x /\ zlen x = zlen b /\ (forall c, ~ (is_ <= c < ie) -> znth s0 x c = znth s0 b c) /\
           forall i, is_ <= i < ie -> mat_vech is_ ie M (znth s0 x) i = znth s0 b i)).
Proof.
  intros Hok Hnd Hlev Hr Hn. destruct (create_iluk_wp A levfill is_ ie jj jl jw jlv juv jd jw' Hok Hnd Hlev Hr Hn) as (F & HF & Hfok & Hpat & d & HD & HM).
  exists F. split; auto. split; auto. exists d. split; auto. cbv zeta. split; auto. intros Hd b Hb. split; [apply psolve_iluk_final; auto|intros HC; apply psolveh_iluk_final; auto].
Qed.

(** with all the fill kept, M = A *)
Lemma iluk_exact (A : csr T) levfill is_ ie jj jl jw jlv juv jd jw' :
  csr_ok A -> no_dup_pos (csr_entries A) -> 0 <= levfill -> 0 <= is_ <= ie -> ie <= csr_n A ->
  (forall i j l, fills (stored_in is_ ie (csr_entries A)) i j l -> level_le (stored_in is_ ie (csr_entries A)) levfill i j) ->
  exists F, create_iluk jj jl jw jlv juv jd jw' levfill is_ ie A = Ok F /\
    exists d, (forall i, is_ <= i < ie -> znth s0 (fa_D F) i = sdiv s1 (d i)) /\
      ((forall i, is_ <= i < ie -> d i <> s0) -> forall b, ie <= zlen b ->
        exists x, psolve_iluk is_ ie F b = Ok x /\ zlen x = zlen b /\ (forall c, ~ (is_ <= c < ie) -> znth s0 x c = znth s0 b c) /\
           forall i, is_ <= i < ie -> mat_vec is_ ie (coef (csr_entries A)) (znth s0 x) i = znth s0 b i).
Proof.
  intros Hok Hnd Hlev Hr Hn Hall. destruct (create_iluk_wp A levfill is_ ie jj jl jw jlv juv jd jw' Hok Hnd Hlev Hr Hn) as (F & HF & Hfok & Hpat & d & HD & HM).
  exists F. split; auto. exists d. split; auto. intros Hd b Hb. destruct (psolve_iluk_final is_ ie F d b Hfok HD Hd Hb) as (x & Hx & Lx & Ox & Vx). exists x. split; auto. split; auto. split; auto.
  intros i Hi. rewrite <- Vx by auto. unfold mat_vec. apply ssum_map_ext. intros j Hj. apply In_zrange in Hj. f_equal. symmetry.
  set (E := stored_in is_ ie (csr_entries A)) in *.
  assert (Hfn : forall k l c, fills E k c l -> 0 <= l) by (intros k l c Hf; eapply fills_nonneg; exact Hf).
  destruct (Z.eq_dec j i) as [->|Hne]; [apply HM; auto; intros; apply Hd; lia|].
  destruct (Hpat i j Hi) as [PL PU].
  destruct (in_dec Z.eq_dec j (znth [] (fa_L F) i)) as [HinL|HnL]; [apply HM; auto; [intros; apply Hd; lia|right; apply (proj1 PL); auto]|].
  destruct (in_dec Z.eq_dec j (znth [] (fa_U F) i)) as [HinU|HnU]; [apply HM; auto; [intros; apply Hd; lia|right; apply (proj1 PU); auto]|].
  assert (Hno : forall l, ~ fills E i j l).
  { intros l Hf. pose proof (Hall _ _ _ Hf) as Hl. destruct (Z_lt_dec j i); [apply HnL, PL|apply HnU, PU]; (split; [lia|auto]). }
  transitivity (@s0 T S).
  - unfold mat_mul. rewrite (lh_sum RT is_ ie F Hfok i (fun k => upper_with d (fa_U F) (fa_Uv F) k j) Hi). pose proof Hfok as (_ & _ & _ & _ & _ & _ & Hrow). destruct (Hrow i Hi) as (Z1 & Z2 & HLr & HUr).
    rewrite (SUM_zero RT); [|].
    + unfold upper_with. destruct (Z.eqb_spec i j); [lia|]. rewrite (row_at_out RT); [ring|auto|]. intros q Hq Ee. apply HnU. rewrite <- Ee. apply ex_in_row; auto.
    + intros q Hq. specialize (HLr q Hq). set (k := znth 0 (znth [] (fa_L F) i) q) in *. assert (Hik : In k (znth [] (fa_L F) i)) by (apply ex_in_row; auto).
      destruct (Hpat i k Hi) as [PLk _]. apply PLk in Hik as (_ & a & _ & Fa). unfold upper_with. destruct (Z.eqb_spec k j) as [->|]; [exfalso; apply (Hno _ Fa)|].
      destruct (Hrow k ltac:(lia)) as (_ & Z4 & _ & HUk). rewrite (row_at_out RT); [ring|auto|]. intros q' Hq' Ee. specialize (HUk q' Hq'). rewrite Ee in HUk.
      assert (Hkj : In j (znth [] (fa_U F) k)) by (rewrite <- Ee; apply ex_in_row; auto). destruct (Hpat k j ltac:(lia)) as [_ PUk]. apply PUk in Hkj as (_ & b' & _ & Fb). apply (Hno (a + b' + 1)). apply fills_step with k; auto; lia.
  - unfold coef. rewrite filter_none; [reflexivity|]. intros e He. destruct (at_ij i j e) eqn:Ea; auto. exfalso. apply (Hno 0). constructor. split; auto. split; [lia|]. unfold at_ij in Ea. apply andb_true_iff in Ea as [E1 E2]. apply Z.eqb_eq in E1, E2. exists (eval e). destruct e as [[r c'] v]. unfold erow, ecol, eval in *. cbn [fst snd] in *. subst. auto.
Qed.
End Q.
