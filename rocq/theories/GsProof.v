(** Gram-Schmidt: A = Q R and orthonormal columns. *)
Require Import ZArith List Bool Lia Ring Field.
From Verif Require Import Base Scalar SpecArray Array ArrayProof LuProof Gs.
From Verif Require Krylov.
Import ListNotations.
Open Scope Z_scope.

Section P.
Context {T : Type} {S : Scalar T}.
Hypothesis FT : is_field S.
Hypothesis EQ : eqb_ok S.
Lemma RT : is_ring S. Proof. exact (F_R FT). Qed.
Let RT' : @ring_theory T s0 s1 sadd smul ssub sopp (@eq T) := RT.
Add Ring Tr : RT'.
Notation vz v := (znth s0 v).
Variable tol : T.
Hypothesis Htol : sleb tol s0 = false.
Notation Sm := (sum_to_S RT).

Lemma nrm2_ok n x : 0 <= n <= zlen x -> nrm2 n x = Ok (norm_of n (vz x)).
Proof.
  intros Hn. unfold nrm2.
  assert (W : wp (for_ 0 n (fun i t => v <- rd x i ;; Ok (sadd t (smul (sconj v) v))) s0) (fun t => t = sum_to n (fun i => smul (sconj (vz x i)) (vz x i)))).
  { apply (for_wp' (fun k t => t = sum_to k (fun i => smul (sconj (vz x i)) (vz x i)))); [lia|reflexivity| |auto].
    intros k t Hk ->. rewrite (rd_ok s0) by lia. cbn [bind wp]. rewrite Sm by lia. reflexivity. }
  destruct (wp_inv _ _ W) as (t & -> & ->). reflexivity.
Qed.
Lemma clear_ok n q : 0 <= n -> n * n <= zlen q -> wp (clear n q) (fun q' => isM n q' (fun _ _ => s0) /\ zlen q' = zlen q).
Proof.
  intros Hn Hq. unfold clear.
  apply (for_wp' (fun k q' => zlen q' = zlen q /\ forall p, 0 <= p < k -> vz q' p = s0)); [nia| | |].
  - split; [reflexivity|intros; lia].
  - intros k q' Hk (A & B). rewrite wr_ok by lia. cbn [wp]. rewrite zlen_zupd. split; [exact A|]. intros p Hp. rewrite znth_zupd by lia.
    destruct (Z.eqb_spec p k); [reflexivity|apply B; lia].
  - intros q' (A & B). split; [|exact A]. split; [lia|]. intros i j Hi Hj. unfold elt. apply B. nia.
Qed.
Lemma column_ok n a f k v : 0 <= k < n -> isM n a f -> n <= zlen v -> wp (column n a k v) (fun v' => zlen v' = zlen v /\ forall i, 0 <= i < n -> vz v' i = f i k).
Proof.
  intros Hk HM Hv. unfold column.
  apply (for_wp' (fun m v' => zlen v' = zlen v /\ forall i, 0 <= i < m -> vz v' i = f i k)); [lia| | |auto].
  - split; [reflexivity|intros; lia].
  - intros m v' Hm (A & B). rewrite (isM_rd _ _ _ m k HM) by lia. cbn [bind]. rewrite wr_ok by lia. cbn [wp]. rewrite zlen_zupd. split; [exact A|].
    intros i Hi. rewrite znth_zupd by lia. destruct (Z.eqb_spec i m); [subst; reflexivity|apply B; lia].
Qed.
Lemma isM_prod n a f b g i j i' j' : isM n a f -> isM n b g -> 0 <= i < n -> 0 <= j < n -> 0 <= i' < n -> 0 <= j' < n ->
  prod a (i + j * n) b (i' + j' * n) = Ok (smul (f i j) (g i' j')).
Proof. intros HA HB ? ? ? ?. unfold prod. rewrite (isM_rd _ _ _ _ _ HA) by auto. cbn [bind]. rewrite (isM_rd _ _ _ _ _ HB) by auto. reflexivity. Qed.
Lemma isM_same n w f g : isM n w f -> isM n w g -> forall i j, 0 <= i < n -> 0 <= j < n -> f i j = g i j.
Proof. intros (_ & A) (_ & B) i j Hi Hj. rewrite <- A, <- B by auto. reflexivity. Qed.
Lemma project_ok n q Q j a A k r R x y : 0 <= j < n -> 0 <= k < n -> 0 <= x < n -> 0 <= y < n -> isM n q Q -> isM n a A -> isM n r R ->
  wp (project n q j a k r (x + y * n)) (fun r' => isM n r' (upd2 R x y (inner n (fun i => Q i j) (fun i => A i k))) /\ zlen r' = zlen r).
Proof.
  intros Hj Hk Hx Hy HQ HA HR. unfold project. destruct (isM_wr n r R x y s0 HR Hx Hy) as (E & M). rewrite E. cbn [bind].
  apply (for_wp' (fun m r' => isM n r' (upd2 R x y (sum_to m (fun i => smul (Q i j) (A i k)))) /\ zlen r' = zlen r)); [lia| | |auto].
  - split; [exact M|apply zlen_zupd].
  - intros m r' Hm (M1 & L1). rewrite (isM_rd _ _ _ x y M1) by lia. cbn [bind].
    rewrite (isM_prod n q Q a A m j m k) by (auto; lia). cbn [bind].
    set (v := sadd _ _). destruct (isM_wr n r' _ x y v M1 Hx Hy) as (E1 & M2). rewrite E1. cbn [wp]. split; [|rewrite zlen_zupd; exact L1].
    apply (isM_ext _ _ _ _ M2). intros i' j' Hi' Hj'. unfold v, upd2. rewrite !Z.eqb_refl. cbn [andb]. rewrite Sm by lia.
    destruct ((i' =? x) && (j' =? y)); reflexivity.
Qed.
Lemma normalise_ok n v nrm q Q k : 0 <= k < n -> n <= zlen v -> nrm <> s0 -> isM n q Q ->
  wp (normalise n v nrm q k) (fun q' => isM n q' (fun i j => if j =? k then sdiv (vz v i) nrm else Q i j) /\ zlen q' = zlen q).
Proof.
  intros Hk Hv Hn HQ. unfold normalise.
  apply (for_wp' (fun m q' => isM n q' (fun i j => if (j =? k) && (i <? m) then sdiv (vz v i) nrm else Q i j) /\ zlen q' = zlen q)); [lia| | |].
  - split; [|reflexivity]. apply (isM_ext _ _ _ _ HQ). intros i j Hi Hj. destruct (Z.ltb_spec i 0); [lia|]. rewrite andb_false_r. reflexivity.
  - intros m q' Hm (M & L). rewrite (rd_ok s0) by lia. cbn [bind]. unfold Krylov.divz.
    destruct (seqb nrm s0) eqn:E; [apply EQ in E; contradiction|]. cbn [bind].
    destruct (isM_wr n q' _ m k (sdiv (vz v m) nrm) M) as (E1 & M1); [lia|lia|]. rewrite E1. cbn [wp]. split; [|rewrite zlen_zupd; exact L].
    apply (isM_ext _ _ _ _ M1). intros i j Hi Hj. unfold upd2.
    destruct (Z.eqb_spec i m), (Z.eqb_spec j k), (Z.ltb_spec i m), (Z.ltb_spec i (m + 1)); cbn [andb]; try lia; subst; reflexivity.
  - intros q' (M & L). split; [|exact L]. apply (isM_ext _ _ _ _ M). intros i j Hi Hj. destruct (Z.ltb_spec i n); [|lia]. rewrite andb_true_r. reflexivity.
Qed.
Lemma tol_nz nrm : sltb nrm tol = false -> nrm <> s0.
Proof. unfold sltb. intros H C. subst. rewrite Htol in H. discriminate. Qed.

(** real scalars: conj is the identity and sqrt inverts squaring *)
Definition real_like : Prop := (forall v : T, sconj v = v) /\ (forall n v, smul (norm_of n v) (norm_of n v) = inner n v v).

(** *** classical Gram-Schmidt *)
(** columns < m of Q and R are done *)
Definition done (n m : Z) (A Q R : Z -> Z -> T) : Prop :=
  (forall i c, 0 <= i < n -> 0 <= c < m -> A i c = sum_to (c + 1) (fun j => smul (Q i j) (R j c))) /\
  (forall c, 0 <= c < m -> sltb (R c c) tol = false) /\
  (forall i j, 0 <= i < n -> 0 <= j < m -> j < i -> R i j = s0) /\
  (real_like -> forall j c, 0 <= j < m -> 0 <= c < m -> inner n (fun i => Q i j) (fun i => Q i c) = delta j c).
Definition rest0 (n m : Z) (Q R : Z -> Z -> T) : Prop := forall i j, 0 <= i < n -> m <= j < n -> Q i j = s0 /\ R i j = s0.
(** the loop stopped at column m: its remainder is shorter than tol *)
Definition stopped (n m : Z) (A Q R : Z -> Z -> T) : Prop :=
  done n m A Q R /\ (forall i j, 0 <= i < n -> m <= j < n -> Q i j = s0) /\ (forall i j, 0 <= i < n -> m < j < n -> R i j = s0) /\
  R m m = norm_of n (fun i => ssub (A i m) (sum_to m (fun j => smul (Q i j) (R j m)))) /\ sltb (R m m) tol = true /\ (forall i, m < i < n -> R i m = s0).

Lemma done_ext n m A Q R Q' R' : m <= n -> done n m A Q R ->
  (forall i j, 0 <= i < n -> 0 <= j < m -> Q i j = Q' i j) -> (forall i j, 0 <= i < n -> 0 <= j < m -> R i j = R' i j) -> done n m A Q' R'.
Proof.
  intros Hm (D1 & D2 & D3 & D4) HQ HR. split; [|split; [|split]].
  - intros i c Hi Hc. rewrite D1 by auto. apply sum_to_ext. intros j Hj. rewrite HQ, HR by lia. reflexivity.
  - intros c Hc. rewrite <- HR by lia. auto.
  - intros i j Hi Hj Hij. rewrite <- HR by auto. auto.
  - intros RL j c Hj Hc. rewrite <- (D4 RL j c Hj Hc). apply sum_to_ext. intros i Hi. rewrite !HQ by lia. reflexivity.
Qed.
Lemma sum_mul_l n c (f : Z -> T) : smul c (sum_to n f) = sum_to n (fun i => smul c (f i)).
Proof. unfold sum_to. rewrite (ssum_map_mul_l RT). reflexivity. Qed.
Lemma sum_sub n (f g : Z -> T) : sum_to n (fun i => ssub (f i) (g i)) = ssub (sum_to n f) (sum_to n g).
Proof.
  transitivity (sadd (sum_to n f) (smul (sopp s1) (sum_to n g))); [|ring]. rewrite sum_mul_l. unfold sum_to. rewrite <- (ssum_map_add RT).
  apply ssum_map_ext. intros i _. ring.
Qed.
Lemma sum_exch n m (f : Z -> Z -> T) : sum_to n (fun i => sum_to m (fun j => f i j)) = sum_to m (fun j => sum_to n (fun i => f i j)).
Proof. unfold sum_to. apply (ssum_exchange RT). Qed.

(** the new column *)
Lemma done_step n k A Q R v nrm Q' R' : 0 <= k < n -> done n k A Q R ->
  (forall i, 0 <= i < n -> v i = ssub (A i k) (sum_to k (fun j => smul (R' j k) (Q i j)))) -> nrm = norm_of n v -> sltb nrm tol = false ->
  (forall j, 0 <= j < k -> R' j k = inner n (fun i => Q i j) (fun i => A i k)) -> R' k k = nrm -> (forall i, k < i < n -> R' i k = s0) ->
  (forall i j, 0 <= i < n -> 0 <= j < k -> Q' i j = Q i j) -> (forall i, 0 <= i < n -> Q' i k = sdiv (v i) nrm) ->
  (forall i j, 0 <= i < n -> 0 <= j < k -> R' i j = R i j) ->
  done n (k + 1) A Q' R'.
Proof.
  intros Hk HD Hv Hn HT HRp HRk HRz HQ HQk HR. pose proof (tol_nz nrm HT) as NZ.
  assert (HD' : done n k A Q' R') by (apply (done_ext n k A Q R); [lia|exact HD| |]; intros; symmetry; auto).
  destruct HD' as (D1 & D2 & D3 & D4).
  assert (QK : forall i, 0 <= i < n -> smul nrm (Q' i k) = v i).
  { intros i Hi. rewrite HQk by auto. rewrite (Fdiv_def FT (v i) nrm). transitivity (smul (smul (sdiv s1 nrm) nrm) (v i)); [ring|]. rewrite (Finv_l FT nrm NZ). ring. }
  split; [|split; [|split]].
  - intros i c Hi Hc. destruct (Z.eq_dec c k) as [->|]; [|apply D1; lia]. rewrite Sm by lia. rewrite HRk.
    transitivity (sadd (sum_to k (fun j => smul (R' j k) (Q i j))) (smul nrm (Q' i k))).
    + rewrite QK by auto. rewrite Hv by auto. ring.
    + f_equal; [|ring]. apply sum_to_ext. intros j Hj. rewrite HQ by lia. ring.
  - intros c Hc. destruct (Z.eq_dec c k) as [->|]; [rewrite HRk; exact HT|apply D2; lia].
  - intros i j Hi Hj Hij. destruct (Z.eq_dec j k) as [->|]; [apply HRz; lia|apply D3; lia].
  - intros RL. destruct RL as (CJ & SQ).
    assert (O : forall j, 0 <= j < k -> inner n (fun i => Q' i j) v = s0).
    { intros j Hj. unfold inner. rewrite (sum_to_ext n _ (fun i => ssub (smul (Q i j) (A i k)) (sum_to k (fun l => smul (R' l k) (smul (Q i j) (Q i l)))))).
      - rewrite sum_sub, sum_exch. fold (inner n (fun i => Q i j) (fun i => A i k)). rewrite <- HRp by auto.
        rewrite (sum_to_ext k _ (fun l => smul (R' l k) (delta l j))).
        + rewrite (sum_to_ext k _ (fun l => smul (delta j l) (R' l k))) by (intros l Hl; unfold delta; rewrite (Z.eqb_sym l j); destruct (j =? l); ring).
          unfold sum_to. rewrite (zrange_app 0 j k) by lia. rewrite map_app, (ssum_app RT). rewrite (zrange_cons j k) by lia. cbn [map ssum].
          rewrite (ssum_map_ext _ (fun _ => s0) (zrange 0 j)) by (intros l Hl; apply In_zrange in Hl; unfold delta; destruct (Z.eqb_spec j l); [lia|ring]).
          rewrite (ssum_map_ext _ (fun _ => s0) (zrange (j + 1) k)) by (intros l Hl; apply In_zrange in Hl; unfold delta; destruct (Z.eqb_spec j l); [lia|ring]).
          rewrite !(ssum_map_zero RT). unfold delta. rewrite Z.eqb_refl. ring.
        + intros l Hl. rewrite <- sum_mul_l. f_equal. rewrite <- (D4 (conj CJ SQ) l j ltac:(lia) ltac:(lia)). apply sum_to_ext. intros i Hi. rewrite !HQ by lia. ring.
      - intros i Hi. rewrite HQ by lia. rewrite Hv by auto. rewrite (sum_to_ext k (fun l => smul (R' l k) (smul (Q i j) (Q i l))) (fun l => smul (Q i j) (smul (R' l k) (Q i l)))) by (intros; ring). rewrite <- sum_mul_l. ring. }
    assert (O' : forall j, 0 <= j < k -> inner n (fun i => Q' i j) (fun i => Q' i k) = s0).
    { intros j Hj. unfold inner. rewrite (sum_to_ext n _ (fun i => smul (sdiv s1 nrm) (smul (Q' i j) (v i)))).
      - rewrite <- sum_mul_l. fold (inner n (fun i => Q' i j) v). rewrite O by auto. ring.
      - intros i Hi. rewrite HQk by auto. rewrite (Fdiv_def FT (v i) nrm). ring. }
    intros j c Hj Hc. destruct (Z.eq_dec j k) as [->|Hj']; destruct (Z.eq_dec c k) as [->|Hc'].
    + unfold delta. rewrite Z.eqb_refl. unfold inner. rewrite (sum_to_ext n _ (fun i => smul (smul (sdiv s1 nrm) (sdiv s1 nrm)) (smul (v i) (v i)))).
      * rewrite <- sum_mul_l. fold (inner n v v). rewrite <- SQ. rewrite <- Hn.
        transitivity (smul (smul (sdiv s1 nrm) nrm) (smul (sdiv s1 nrm) nrm)); [ring|]. rewrite (Finv_l FT nrm NZ). ring.
      * intros i Hi. rewrite HQk by auto. rewrite (Fdiv_def FT (v i) nrm). ring.
    + unfold delta. destruct (Z.eqb_spec k c); [lia|]. unfold inner. rewrite (sum_to_ext n _ (fun i => smul (Q' i c) (Q' i k))) by (intros; ring). apply O'. lia.
    + unfold delta. destruct (Z.eqb_spec j k); [lia|]. apply O'. lia.
    + apply D4; [split; auto|lia|lia].
Qed.

Lemma cgs_ok n a q r junk : 0 <= n -> n * n <= zlen a -> n * n <= zlen q -> n * n <= zlen r ->
  wp (lis_array_cgs tol n a q r junk) (fun o => let '(q', r') := o in zlen q' = zlen q /\ zlen r' = zlen r /\
    (done n n (elt a n) (elt q' n) (elt r' n) \/ exists m, 0 <= m < n /\ stopped n m (elt a n) (elt q' n) (elt r' n))).
Proof.
  intros Hn Ha Hq Hr. unfold lis_array_cgs. pose proof (isM_self n a Ha) as MA. set (A := elt a n) in *.
  apply wp_bind. eapply wp_mono; [apply clear_ok; auto|]. intros q0 (MQ0 & LQ0). apply wp_bind. eapply wp_mono; [apply clear_ok; auto|]. intros r0 (MR0 & LR0).
  apply wp_bind.
  apply (for_wp' (fun k (st : bool * list T * list T * list T) => let '(stop, ak, q1, r1) := st in zlen ak = n /\ zlen q1 = zlen q /\ zlen r1 = zlen r /\
    exists Q R, isM n q1 Q /\ isM n r1 R /\
     if stop then exists m, 0 <= m < k /\ stopped n m A Q R else done n k A Q R /\ rest0 n k Q R)); [lia| | |].
  - split; [apply zlen_alloc; lia|]. split; [exact LQ0|]. split; [exact LR0|]. exists (fun _ _ => s0), (fun _ _ => s0). split; [exact MQ0|]. split; [exact MR0|].
    split; [|intros i j Hi Hj; auto]. split; [intros; lia|]. split; [intros; lia|]. split; [intros; lia|]. intros; lia.
  - intros k [[[stop ak] q1] r1] Hk (Lk & L1 & L2 & Q & R & MQ & MR & HI). destruct stop.
    { cbn [wp]. split; [auto|]. split; [auto|]. split; [auto|]. exists Q, R. split; [auto|]. split; [auto|]. destruct HI as (m & Hm & HS). exists m. split; [lia|exact HS]. }
    destruct HI as (HD & HZ). apply wp_bind. eapply wp_mono; [apply (column_ok n a A k ak); auto; lia|]. intros ak1 (Lk1 & Ck). apply wp_bind.
    set (P := fun j => inner n (fun i => Q i j) (fun i => A i k)).
    apply (for_wp' (fun m (st : list T * list T) => let '(v, r2) := st in zlen v = n /\ zlen r2 = zlen r /\
       isM n r2 (fun i j => if (j =? k) && (i <? m) then P i else R i j) /\
       forall i, 0 <= i < n -> vz v i = ssub (A i k) (sum_to m (fun j => smul (P j) (Q i j))))); [lia| | |].
    + split; [lia|]. split; [auto|]. split.
      * apply (isM_ext _ _ _ _ MR). intros i j Hi Hj. destruct (Z.ltb_spec i 0); [lia|]. rewrite andb_false_r. reflexivity.
      * intros i Hi. rewrite Ck by auto. rewrite sum_to_0. ring.
    + intros j [v r2] Hj (V1 & V2 & V3 & V4). apply wp_bind.
      eapply wp_mono; [apply (project_ok n q1 Q j a A k r2 (fun i j0 => if (j0 =? k) && (i <? j) then P i else R i j0) j k); auto; lia|]. intros r3 (M3 & L3). apply wp_bind. fold (P j) in M3.
      apply (for_wp' (fun m v' => zlen v' = n /\ forall i, 0 <= i < n -> vz v' i = if i <? m then ssub (vz v i) (smul (P j) (Q i j)) else vz v i)); [lia| | |].
      * split; [exact V1|]. intros i Hi. destruct (Z.ltb_spec i 0); [lia|reflexivity].
      * intros m v' Hm (W1 & W2). rewrite (rd_ok s0) by lia. cbn [bind]. rewrite (isM_prod n r3 _ q1 Q j k m j M3 MQ) by lia. cbn [bind].
        rewrite wr_ok by lia. cbn [wp]. rewrite zlen_zupd. split; [exact W1|]. intros i Hi. rewrite znth_zupd by lia.
        destruct (Z.eqb_spec i m) as [->|].
        -- destruct (Z.ltb_spec m (m + 1)); [|lia]. rewrite W2 by lia. rewrite Z.ltb_irrefl. unfold upd2. rewrite !Z.eqb_refl. reflexivity.
        -- rewrite W2 by auto. destruct (Z.ltb_spec i m), (Z.ltb_spec i (m + 1)); try lia; reflexivity.
      * intros v' (W1 & W2). cbn [wp]. split; [exact W1|]. split; [lia|]. split.
        -- apply (isM_ext _ _ _ _ M3). intros i' j' Hi' Hj'. unfold upd2.
           destruct (Z.eqb_spec i' j), (Z.eqb_spec j' k), (Z.ltb_spec i' j), (Z.ltb_spec i' (j + 1)); cbn [andb]; try lia; subst; reflexivity.
        -- intros i Hi. rewrite W2 by auto. destruct (Z.ltb_spec i n); [|lia]. rewrite V4 by auto. rewrite Sm by lia. ring.
    + intros [v r2] (V1 & V2 & V3 & V4). rewrite nrm2_ok by lia. cbn [bind].
      set (nrm := norm_of n (vz v)).
      destruct (isM_wr n r2 _ k k nrm V3 Hk Hk) as (E & M). rewrite E. cbn [bind].
      set (R' := upd2 (fun i j => if (j =? k) && (i <? k) then P i else R i j) k k nrm) in *.
      assert (R1 : forall j, 0 <= j < k -> R' j k = P j).
      { intros j Hj. unfold R', upd2. rewrite Z.eqb_refl. destruct (Z.eqb_spec j k), (Z.ltb_spec j k); cbn [andb]; try lia. reflexivity. }
      assert (R2 : R' k k = nrm) by (unfold R', upd2; rewrite Z.eqb_refl; reflexivity).
      assert (R3 : forall i j, 0 <= i < n -> 0 <= j < n -> j <> k -> R' i j = R i j).
      { intros i j Hi Hj Hne. unfold R', upd2. destruct (Z.eqb_spec j k); [lia|]. rewrite andb_false_r. reflexivity. }
      assert (R4 : forall i, k < i < n -> R' i k = s0).
      { intros i Hi. unfold R', upd2. rewrite Z.eqb_refl. destruct (Z.eqb_spec i k), (Z.ltb_spec i k); cbn [andb]; try lia. apply HZ; lia. }
      assert (V5 : forall i, 0 <= i < n -> vz v i = ssub (A i k) (sum_to k (fun j => smul (R' j k) (Q i j)))).
      { intros i Hi. rewrite V4 by auto. f_equal. apply sum_to_ext. intros j Hj. rewrite R1 by lia. reflexivity. }
      destruct (sltb nrm tol) eqn:ET.
      * cbn [wp]. split; [exact V1|]. split; [exact L1|]. split; [rewrite zlen_zupd; exact V2|]. exists Q, R'. split; [exact MQ|]. split; [exact M|].
        exists k. split; [lia|]. split; [|split; [|split; [|split; [|split]]]].
        -- apply (done_ext n k A Q R); [lia|exact HD|auto|]. intros i j Hi Hj. symmetry. apply R3; lia.
        -- intros i j Hi Hj. apply HZ; lia.
        -- intros i j Hi Hj. rewrite R3 by lia. apply HZ; lia.
        -- rewrite R2. unfold nrm, norm_of. f_equal. apply sum_to_ext. intros i Hi.
           rewrite V5 by auto. rewrite (sum_to_ext k (fun j => smul (R' j k) (Q i j)) (fun j => smul (Q i j) (R' j k))) by (intros; ring). reflexivity.
        -- rewrite R2. exact ET.
        -- exact R4.
      * apply wp_bind. eapply wp_mono; [apply (normalise_ok n v nrm q1 Q k); auto; [lia|apply tol_nz; exact ET]|]. intros q2 (M2 & L4). cbn [wp].
        split; [exact V1|]. split; [lia|]. split; [rewrite zlen_zupd; exact V2|]. eexists. exists R'. split; [exact M2|]. split; [exact M|]. split.
        -- eapply (done_step n k A Q R (vz v) nrm _ R'); auto.
           ++ intros i j Hi Hj. cbv beta. destruct (Z.eqb_spec j k); [lia|reflexivity].
           ++ intros i Hi. cbv beta. rewrite Z.eqb_refl. reflexivity.
           ++ intros i j Hi Hj. apply R3; lia.
        -- intros i j Hi Hj. destruct (Z.eqb_spec j k); [lia|]. rewrite R3 by lia. apply HZ; lia.
  - intros [[[stop ak] q1] r1] (_ & L1 & L2 & Q & R & MQ & MR & HI). cbn [wp]. split; [exact L1|]. split; [exact L2|].
    assert (EQ1 : forall i j, 0 <= i < n -> 0 <= j < n -> Q i j = elt q1 n i j) by (intros; symmetry; apply MQ; auto).
    assert (ER1 : forall i j, 0 <= i < n -> 0 <= j < n -> R i j = elt r1 n i j) by (intros; symmetry; apply MR; auto).
    destruct stop.
    + right. destruct HI as (m & Hm & S1 & S2 & S3 & S4 & S5 & S6). exists m. split; [exact Hm|]. split; [|split; [|split; [|split; [|split]]]].
      * apply (done_ext n m A Q R); [lia|exact S1| |]; intros; [apply EQ1|apply ER1]; lia.
      * intros i j Hi Hj. rewrite <- EQ1 by lia. auto.
      * intros i j Hi Hj. rewrite <- ER1 by lia. auto.
      * rewrite <- ER1 by lia. rewrite S4. unfold norm_of. f_equal. apply sum_to_ext. intros i Hi.
        rewrite (sum_to_ext m (fun j => smul (Q i j) (R j m)) (fun j => smul (elt q1 n i j) (elt r1 n j m))) by (intros j Hj; rewrite EQ1, ER1 by lia; reflexivity). reflexivity.
      * rewrite <- ER1 by lia. exact S5.
      * intros i Hi. rewrite <- ER1 by lia. auto.
    + left. apply (done_ext n n A Q R); [lia|apply HI| |]; intros; [apply EQ1|apply ER1]; lia.
Qed.
(** A = QR in one formula *)
Lemma done_product n A Q R : 0 <= n -> done n n A Q R -> forall i c, 0 <= i < n -> 0 <= c < n -> A i c = sum_to n (fun j => smul (Q i j) (R j c)).
Proof.
  intros Hn (D1 & _ & D3 & _) i c Hi Hc. rewrite D1 by auto. symmetry. apply (sum_cut FT); [lia|]. intros j Hj. rewrite D3 by lia. ring.
Qed.

(** *** modified Gram-Schmidt *)
(** column c of a is what remains of column c of A after subtracting its projections; it is normalised unless it is short *)
Definition mgs_done (n m : Z) (A B Q R : Z -> Z -> T) : Prop :=
  (forall i c, 0 <= i < n -> 0 <= c < n -> B i c = ssub (A i c) (sum_to (Z.min m c) (fun j => smul (Q i j) (R j c)))) /\
  (forall c, 0 <= c < m -> R c c = norm_of n (fun i => B i c)) /\
  (forall i c, 0 <= i < n -> 0 <= c < m -> Q i c = if sltb (R c c) tol then s0 else sdiv (B i c) (R c c)) /\
  (forall i c, 0 <= i < n -> 0 <= c < n -> c < i \/ m <= i -> R i c = s0) /\
  (forall i c, 0 <= i < n -> m <= c < n -> Q i c = s0) /\
  (real_like -> forall j c, 0 <= j < m -> j < c < n -> inner n (fun i => Q i j) (fun i => B i c) = s0).

Lemma inner_ext n u v u' v' : (forall i, 0 <= i < n -> u i = u' i) -> (forall i, 0 <= i < n -> v i = v' i) -> inner n u v = inner n u' v'.
Proof. intros HU HV. apply sum_to_ext. intros i Hi. rewrite HU, HV by auto. reflexivity. Qed.
Lemma norm_ext n u u' : (forall i, 0 <= i < n -> u i = u' i) -> norm_of n u = norm_of n u'.
Proof. intros HU. unfold norm_of. f_equal. apply sum_to_ext. intros i Hi. rewrite HU by auto. reflexivity. Qed.
Lemma mgs_ext n m A B Q R B' Q' R' : 0 <= m <= n -> mgs_done n m A B Q R -> (forall i j, 0 <= i < n -> 0 <= j < n -> B i j = B' i j) ->
  (forall i j, 0 <= i < n -> 0 <= j < n -> Q i j = Q' i j) -> (forall i j, 0 <= i < n -> 0 <= j < n -> R i j = R' i j) -> mgs_done n m A B' Q' R'.
Proof.
  intros Hm (D1 & D2 & D3 & D4 & D5 & D6) HB HQ HR. split; [|split; [|split; [|split; [|split]]]].
  - intros i c Hi Hc. rewrite <- HB, D1 by auto. f_equal. apply sum_to_ext. intros j Hj. rewrite HQ, HR by lia. reflexivity.
  - intros c Hc. rewrite <- HR by lia. rewrite D2 by auto. apply norm_ext. intros i Hi. apply HB; lia.
  - intros i c Hi Hc. rewrite <- HR by lia. rewrite <- HQ by lia. rewrite D3 by auto. rewrite HB by lia. reflexivity.
  - intros i c Hi Hc Hx. rewrite <- HR by lia. auto.
  - intros i c Hi Hc. rewrite <- HQ by lia. auto.
  - intros RL j c Hj Hc. rewrite <- (D6 RL j c Hj Hc). apply inner_ext; intros i Hi; symmetry; [apply HQ|apply HB]; lia.
Qed.
Lemma inner_sub n u v w c : inner n u (fun i => ssub (v i) (smul c (w i))) = ssub (inner n u v) (smul c (inner n u w)).
Proof.
  unfold inner. rewrite sum_mul_l, <- sum_sub. apply sum_to_ext. intros i Hi. ring.
Qed.
Lemma inner_comm n u v : inner n u v = inner n v u.
Proof. apply sum_to_ext. intros. ring. Qed.
Lemma inner_zero n u v : (forall i, 0 <= i < n -> v i = s0) -> inner n u v = s0.
Proof. intros H. unfold inner. rewrite (sum_to_ext n _ (fun _ => s0)) by (intros i Hi; rewrite H by auto; ring). unfold sum_to. apply (ssum_map_zero RT). Qed.
Lemma inner_div n u v d : inner n u (fun i => sdiv (v i) d) = smul (sdiv s1 d) (inner n u v).
Proof. unfold inner. rewrite sum_mul_l. apply sum_to_ext. intros i Hi. rewrite (Fdiv_def FT (v i) d). ring. Qed.

(** the orthogonality facts about a column that is 0 or v/|v| *)
Lemma unit_or_zero n v q nrm : real_like -> nrm = norm_of n v -> (forall i, 0 <= i < n -> q i = if sltb nrm tol then s0 else sdiv (v i) nrm) ->
  (sltb nrm tol = true /\ inner n q q = s0 \/ sltb nrm tol = false /\ inner n q q = s1).
Proof.
  intros (CJ & SQ) Hn Hq. destruct (sltb nrm tol) eqn:E; [left|right]; (split; [reflexivity|]).
  - apply inner_zero. exact Hq.
  - pose proof (tol_nz nrm E) as NZ. rewrite (inner_ext n q q (fun i => sdiv (v i) nrm) (fun i => sdiv (v i) nrm)) by auto.
    rewrite inner_div, inner_comm, inner_div, <- SQ, <- Hn.
    transitivity (smul (smul (sdiv s1 nrm) nrm) (smul (sdiv s1 nrm) nrm)); [ring|]. rewrite (Finv_l FT nrm NZ). ring.
Qed.

Lemma mgs_step n m A B Q R B' Q' R' : 0 <= m < n -> mgs_done n m A B Q R ->
  R' m m = norm_of n (fun i => B i m) -> (forall i, 0 <= i < n -> Q' i m = if sltb (R' m m) tol then s0 else sdiv (B i m) (R' m m)) ->
  (forall i c, 0 <= i < n -> 0 <= c < n -> c <> m -> Q' i c = Q i c) ->
  (forall c, m < c < n -> R' m c = inner n (fun i => Q' i m) (fun i => B i c)) ->
  (forall i c, 0 <= i < n -> 0 <= c < n -> i <> m \/ c < m -> R' i c = R i c) ->
  (forall i c, 0 <= i < n -> 0 <= c <= m -> B' i c = B i c) ->
  (forall i c, 0 <= i < n -> m < c < n -> B' i c = ssub (B i c) (smul (R' m c) (Q' i m))) ->
  mgs_done n (m + 1) A B' Q' R'.
Proof.
  intros Hm (D1 & D2 & D3 & D4 & D5 & D6) HN HQm HQ HRm HR HB HBm. split; [|split; [|split; [|split; [|split]]]].
  - intros i c Hi Hc. destruct (Z_lt_le_dec m c).
    + rewrite HBm by lia. rewrite D1 by lia. replace (Z.min (m + 1) c) with (m + 1) by lia. replace (Z.min m c) with m by lia. rewrite Sm by lia.
      rewrite (sum_to_ext m (fun j => smul (Q' i j) (R' j c)) (fun j => smul (Q i j) (R j c))) by (intros j Hj; rewrite HQ, HR by lia; reflexivity). ring.
    + rewrite HB by lia. rewrite D1 by lia. replace (Z.min (m + 1) c) with c by lia. replace (Z.min m c) with c by lia.
      f_equal. apply sum_to_ext. intros j Hj. rewrite HQ, HR by lia. reflexivity.
  - intros c Hc. destruct (Z.eq_dec c m) as [->|].
    + rewrite HN. apply norm_ext. intros i Hi. rewrite HB by lia. reflexivity.
    + rewrite HR by lia. rewrite D2 by lia. apply norm_ext. intros i Hi. rewrite HB by lia. reflexivity.
  - intros i c Hi Hc. destruct (Z.eq_dec c m) as [->|].
    + rewrite HQm by auto. rewrite HB by lia. reflexivity.
    + rewrite HQ by lia. rewrite D3 by lia. rewrite HR by lia. rewrite HB by lia. reflexivity.
  - intros i c Hi Hc Hx. rewrite HR by lia. apply D4; lia.
  - intros i c Hi Hc. rewrite HQ by lia. apply D5; lia.
  - intros RL j c Hj Hc.
    assert (OJ : forall j, 0 <= j < m -> inner n (fun i => Q i j) (fun i => Q' i m) = s0).
    { intros l Hl. destruct (sltb (R' m m) tol) eqn:E.
      - apply inner_zero. exact HQm.
      - rewrite (inner_ext n (fun i => Q i l) (fun i => Q' i m) (fun i => Q i l) (fun i => sdiv (B i m) (R' m m))) by auto.
        rewrite inner_div, (D6 RL l m) by lia. ring. }
    destruct (Z.eq_dec j m) as [->|].
    + rewrite (inner_ext n _ _ (fun i => Q' i m) (fun i => ssub (B i c) (smul (R' m c) (Q' i m)))) by (auto; intros; apply HBm; lia).
      rewrite inner_sub, <- HRm by lia.
      destruct (unit_or_zero n (fun i => B i m) (fun i => Q' i m) (R' m m) RL HN HQm) as [(E & E')|(E & E')]; rewrite E'.
      * rewrite HRm by lia. rewrite inner_comm. rewrite inner_zero; [ring|]. intros i Hi. rewrite HQm by auto. rewrite E. reflexivity.
      * ring.
    + rewrite (inner_ext n _ (fun i => B' i c) (fun i => Q i j) (fun i => B' i c)) by (auto; intros; apply HQ; lia).
      destruct (Z_lt_le_dec m c).
      * rewrite (inner_ext n (fun i => Q i j) _ (fun i => Q i j) (fun i => ssub (B i c) (smul (R' m c) (Q' i m)))) by (auto; intros; apply HBm; lia).
        rewrite inner_sub, OJ, (D6 RL j c) by lia. ring.
      * rewrite (inner_ext n (fun i => Q i j) _ (fun i => Q i j) (fun i => B i c)) by (auto; intros; apply HB; lia). apply D6; auto; lia.
Qed.

Lemma mgs_ok n a q r junk : 0 <= n -> n * n <= zlen a -> n * n <= zlen q -> n * n <= zlen r ->
  wp (lis_array_mgs tol n a q r junk) (fun o => let '(a', q', r') := o in zlen a' = zlen a /\ zlen q' = zlen q /\ zlen r' = zlen r /\
    mgs_done n n (elt a n) (elt a' n) (elt q' n) (elt r' n)).
Proof.
  intros Hn Ha Hq Hr. unfold lis_array_mgs. pose proof (isM_self n a Ha) as MA. set (A := elt a n) in *.
  apply wp_bind. eapply wp_mono; [apply clear_ok; auto|]. intros q0 (MQ0 & LQ0). apply wp_bind. eapply wp_mono; [apply clear_ok; auto|]. intros r0 (MR0 & LR0).
  apply wp_bind.
  apply (for_wp' (fun m (st : list T * list T * list T * list T) => let '(aj, a1, q1, r1) := st in zlen aj = n /\ zlen a1 = zlen a /\ zlen q1 = zlen q /\ zlen r1 = zlen r /\
    exists B Q R, isM n a1 B /\ isM n q1 Q /\ isM n r1 R /\ mgs_done n m A B Q R)); [lia| | |].
  - split; [apply zlen_alloc; lia|]. split; [reflexivity|]. split; [exact LQ0|]. split; [exact LR0|]. exists A, (fun _ _ => s0), (fun _ _ => s0). split; [exact MA|].
    split; [exact MQ0|]. split; [exact MR0|]. split; [|split; [|split; [|split; [|split]]]]; try (intros; lia); auto.
    intros i c Hi Hc. rewrite Z.min_l by lia. rewrite sum_to_0. ring.
  - intros j [[[aj a1] q1] r1] Hj (L0 & L1 & L2 & L3 & B & Q & R & MB & MQ & MR & HD).
    apply wp_bind. eapply wp_mono; [apply (column_ok n a1 B j aj); auto; lia|]. intros aj1 (Lj1 & Cj).
    rewrite nrm2_ok by lia. cbn [bind]. set (nrm := norm_of n (vz aj1)).
    assert (EN : nrm = norm_of n (fun i => B i j)) by (apply norm_ext; exact Cj).
    destruct (isM_wr n r1 _ j j nrm MR Hj Hj) as (E & M). rewrite E. cbn [bind]. clear E.
    set (r2 := zupd r1 (j + j * n) nrm) in *. assert (L4 : zlen r2 = zlen r) by (unfold r2; rewrite zlen_zupd; exact L3). clearbody r2.
    apply wp_bind.
    apply (wp_mono _ (fun q2 => zlen q2 = zlen q /\ isM n q2 (fun i c => if c =? j then if sltb nrm tol then s0 else sdiv (B i j) nrm else Q i c))).
    { destruct (sltb nrm tol) eqn:ET.
      - cbn [wp]. split; [exact L2|]. apply (isM_ext _ _ _ _ MQ). intros i c Hi Hc. destruct (Z.eqb_spec c j) as [->|]; [|reflexivity]. apply HD; lia.
      - eapply wp_mono; [apply (normalise_ok n aj1 nrm q1 Q j); auto; [lia|apply tol_nz; exact ET]|]. intros q2 (M2 & L5). split; [lia|].
        apply (isM_ext _ _ _ _ M2). intros i c Hi Hc. destruct (Z.eqb_spec c j); [rewrite Cj by auto|]; reflexivity. }
    intros q2 (L5 & M2). set (Q' := fun i c => if c =? j then if sltb nrm tol then s0 else sdiv (B i j) nrm else Q i c) in *.
    set (P := fun c => inner n (fun i => Q' i j) (fun i => B i c)). apply wp_bind.
    apply (for_wp' (fun k (st : list T * list T) => let '(a2, r3) := st in zlen a2 = zlen a /\ zlen r3 = zlen r /\
       isM n a2 (fun i c => if (j <? c) && (c <? k) then ssub (B i c) (smul (P c) (Q' i j)) else B i c) /\
       isM n r3 (fun i c => if (i =? j) && ((j <? c) && (c <? k)) then P c else upd2 R j j nrm i c))); [lia| | |].
    + split; [exact L1|]. split; [exact L4|]. split.
      * apply (isM_ext _ _ _ _ MB). intros i c Hi Hc. destruct (Z.ltb_spec j c), (Z.ltb_spec c (j + 1)); cbn [andb]; try lia; reflexivity.
      * apply (isM_ext _ _ _ _ M). intros i c Hi Hc. destruct (Z.ltb_spec j c), (Z.ltb_spec c (j + 1)); cbn [andb]; try lia; rewrite ?andb_false_r; reflexivity.
    + intros k [a2 r3] Hk (K1 & K2 & K3 & K4). apply wp_bind.
      set (B2 := fun i c => if (j <? c) && (c <? k) then ssub (B i c) (smul (P c) (Q' i j)) else B i c) in *.
      set (R3 := fun i c => if (i =? j) && ((j <? c) && (c <? k)) then P c else upd2 R j j nrm i c) in *.
      eapply wp_mono; [apply (project_ok n q2 Q' j a2 B2 k r3 R3 j k); auto; lia|].
      intros r4 (M4 & L6). apply wp_bind.
      assert (EP : inner n (fun i => Q' i j) (fun i => B2 i k) = P k).
      { apply inner_ext; [auto|]. intros i Hi. unfold B2. rewrite Z.ltb_irrefl, andb_false_r. reflexivity. }
      rewrite EP in M4.
      apply (for_wp' (fun m a3 => zlen a3 = zlen a /\ isM n a3 (fun i c => if (c =? k) && (i <? m) then ssub (B i c) (smul (P c) (Q' i j)) else B2 i c))); [lia| | |].
      * split; [exact K1|]. apply (isM_ext _ _ _ _ K3). intros i c Hi Hc. destruct (Z.ltb_spec i 0); [lia|]. rewrite andb_false_r. reflexivity.
      * intros m a3 Hm (W1 & W2). rewrite (isM_rd _ _ _ m k W2) by lia. cbn [bind]. rewrite (isM_prod n r4 _ q2 Q' j k m j M4 M2) by lia. cbn [bind].
        match goal with |- context [wr a3 (m + k * n) ?v] => destruct (isM_wr n a3 _ m k v W2 ltac:(lia) ltac:(lia)) as (E & W3); rewrite E; clear E end.
        cbn [wp]. split; [rewrite zlen_zupd; exact W1|]. apply (isM_ext _ _ _ _ W3). intros i c Hi Hc. unfold upd2. rewrite !Z.eqb_refl, Z.ltb_irrefl. cbn [andb].
        unfold B2. rewrite Z.ltb_irrefl, andb_false_r.
        destruct (Z.eqb_spec i m), (Z.eqb_spec c k), (Z.ltb_spec i m), (Z.ltb_spec i (m + 1)); cbn [andb]; try lia; subst; reflexivity.
      * intros a3 (W1 & W2). cbn [wp]. split; [exact W1|]. split; [lia|]. split.
        -- apply (isM_ext _ _ _ _ W2). intros i c Hi Hc. unfold B2. destruct (Z.ltb_spec i n); [|lia].
           destruct (Z.eqb_spec c k), (Z.ltb_spec j c), (Z.ltb_spec c k), (Z.ltb_spec c (k + 1)); cbn [andb]; try lia; subst; reflexivity.
        -- apply (isM_ext _ _ _ _ M4). intros i c Hi Hc. unfold upd2 at 1. unfold R3.
           destruct (Z.eqb_spec i j), (Z.eqb_spec c k), (Z.ltb_spec j c), (Z.ltb_spec c k), (Z.ltb_spec c (k + 1)); cbn [andb]; try lia; subst; reflexivity.
    + intros [a2 r3] (K1 & K2 & K3 & K4). cbn [wp]. split; [lia|]. split; [exact K1|]. split; [exact L5|]. split; [exact K2|]. do 3 eexists.
      split; [exact K3|]. split; [exact M2|]. split; [exact K4|].
      set (R4 := fun i c => if (i =? j) && ((j <? c) && (c <? n)) then P c else upd2 R j j nrm i c) in *.
      assert (RJ : R4 j j = nrm) by (unfold R4, upd2; rewrite Z.ltb_irrefl, Z.eqb_refl; reflexivity).
      eapply (mgs_step n j A B Q R); [lia|exact HD| | | | | | |].
      * rewrite RJ. exact EN.
      * intros i Hi. rewrite RJ. unfold Q'. rewrite Z.eqb_refl. reflexivity.
      * intros i c Hi Hc Hne. unfold Q'. destruct (Z.eqb_spec c j); [lia|reflexivity].
      * intros c Hc. unfold R4. rewrite Z.eqb_refl. destruct (Z.ltb_spec j c), (Z.ltb_spec c n); cbn [andb]; try lia. reflexivity.
      * intros i c Hi Hc Hne. unfold R4, upd2.
        destruct (Z.eqb_spec i j), (Z.eqb_spec c j), (Z.ltb_spec j c), (Z.ltb_spec c n); cbn [andb]; try lia; reflexivity.
      * intros i c Hi Hc. destruct (Z.ltb_spec j c), (Z.ltb_spec c n); cbn [andb]; try lia; reflexivity.
      * intros i c Hi Hc. destruct (Z.ltb_spec j c), (Z.ltb_spec c n); cbn [andb]; try lia.
        unfold R4. rewrite Z.eqb_refl. destruct (Z.ltb_spec j c), (Z.ltb_spec c n); cbn [andb]; try lia. reflexivity.
  - intros [[[aj a1] q1] r1] (L0 & L1 & L2 & L3 & B & Q & R & MB & MQ & MR & HD). cbn [wp]. split; [exact L1|]. split; [exact L2|]. split; [exact L3|].
    apply (mgs_ext n n A B Q R); [lia|exact HD| | |]; intros i c Hi Hc; symmetry; [apply MB|apply MQ|apply MR]; auto.
Qed.
(** what the three results say together *)
Lemma mgs_facts n A B Q R : 0 <= n -> mgs_done n n A B Q R ->
  (forall i c, 0 <= i < n -> 0 <= c < n -> c < i -> R i c = s0) /\
  (forall i c, 0 <= i < n -> 0 <= c < n -> sltb (R c c) tol = false -> A i c = sum_to n (fun j => smul (Q i j) (R j c))) /\
  (forall c, 0 <= c < n -> sltb (R c c) tol = true -> (forall i, 0 <= i < n -> Q i c = s0) /\
     R c c = norm_of n (fun i => ssub (A i c) (sum_to n (fun j => smul (Q i j) (R j c))))) /\
  (real_like -> forall j c, 0 <= j < n -> 0 <= c < n ->
     inner n (fun i => Q i j) (fun i => Q i c) = if j =? c then if sltb (R c c) tol then s0 else s1 else s0).
Proof.
  intros Hn (D1 & D2 & D3 & D4 & D5 & D6).
  assert (SC : forall i c, 0 <= i < n -> 0 <= c < n -> sum_to n (fun j => smul (Q i j) (R j c)) = sadd (sum_to c (fun j => smul (Q i j) (R j c))) (smul (Q i c) (R c c))).
  { intros i c Hi Hc. rewrite <- Sm by lia. apply (sum_cut FT); [lia|]. intros j Hj. rewrite D4 by lia. ring. }
  split; [|split; [|split]].
  - intros. apply D4; auto.
  - intros i c Hi Hc E. rewrite SC by auto. rewrite D3 by auto. rewrite E. pose proof (tol_nz _ E) as NZ.
    rewrite D1 by auto. rewrite Z.min_r by lia. rewrite (Fdiv_def FT _ (R c c)).
    set (s := sum_to c _). transitivity (sadd s (smul (ssub (A i c) s) (smul (sdiv s1 (R c c)) (R c c)))); [|ring]. rewrite (Finv_l FT _ NZ). ring.
  - intros c Hc E. assert (Z0 : forall i, 0 <= i < n -> Q i c = s0) by (intros i Hi; rewrite D3, E by auto; reflexivity).
    split; [exact Z0|]. rewrite D2 by auto. apply norm_ext. intros i Hi. rewrite D1, SC by auto. rewrite Z.min_r by lia. rewrite Z0 by auto. ring.
  - intros RL.
    assert (G : forall j c, 0 <= j < n -> 0 <= c < n -> j < c -> inner n (fun i => Q i j) (fun i => Q i c) = s0).
    { intros j c Hj Hc Hlt. destruct (sltb (R c c) tol) eqn:E.
      - apply inner_zero. intros i Hi. rewrite D3, E by auto. reflexivity.
      - rewrite (inner_ext n _ (fun i => Q i c) (fun i => Q i j) (fun i => sdiv (B i c) (R c c))) by (auto; intros i Hi; rewrite D3, E by auto; reflexivity).
        rewrite inner_div, (D6 RL j c) by lia. ring. }
    intros j c Hj Hc. destruct (Z.eqb_spec j c) as [->|].
    + destruct (unit_or_zero n (fun i => B i c) (fun i => Q i c) (R c c) RL (D2 c Hc)) as [(E & E')|(E & E')]; [auto| |]; rewrite E, E'; reflexivity.
    + destruct (Z_lt_le_dec j c); [apply G; lia|]. rewrite inner_comm. apply G; lia.
Qed.
End P.
