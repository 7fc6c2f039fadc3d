(** Sums and inner products of real vectors; the rotated basis of GMRES. *)
Require Import Reals Lra ZArith List Bool Lia.
From Verif Require Import Base Scalar ScalarReal Spec Lindep.
Import ListNotations.
Open Scope R_scope.

Definition sm (lo hi : Z) (f : Z -> R) : R := ssum (map f (zrange lo hi)).
Lemma sm_ext lo hi f g : (forall k, (lo <= k < hi)%Z -> f k = g k) -> sm lo hi f = sm lo hi g.
Proof. intros H. apply ssum_map_ext. intros k Hk. apply In_zrange in Hk. apply H; lia. Qed.
Lemma sm_nil lo hi f : (hi <= lo)%Z -> sm lo hi f = 0.
Proof. intros H. unfold sm, zrange. replace (Z.to_nat (hi - lo)) with 0%nat by lia. reflexivity. Qed.
Lemma sm_snoc lo hi f : (lo <= hi)%Z -> sm lo (hi + 1) f = sm lo hi f + f hi.
Proof.
  intros H. unfold sm. rewrite zrange_snoc by lia. rewrite map_app, (ssum_app ScalarR_ring). cbn [map ssum].
  cbn [sadd s0 ScalarR]. ring.
Qed.
Lemma sm_cons lo hi f : (lo < hi)%Z -> sm lo hi f = f lo + sm (lo + 1) hi f.
Proof. intros H. unfold sm. rewrite zrange_cons by lia. reflexivity. Qed.
Lemma sm_plus lo hi f g : sm lo hi (fun k => f k + g k) = sm lo hi f + sm lo hi g.
Proof. apply (ssum_map_add ScalarR_ring f g). Qed.
Lemma sm_scal lo hi a f : sm lo hi (fun k => a * f k) = a * sm lo hi f.
Proof. apply (ssum_map_mul_l ScalarR_ring a f). Qed.
Lemma sm_zero lo hi f : (forall k, (lo <= k < hi)%Z -> f k = 0) -> sm lo hi f = 0.
Proof. intros H. rewrite (sm_ext lo hi f (fun _ => 0)) by auto. apply (ssum_map_zero ScalarR_ring). Qed.
Lemma sm_swap a b c d (f : Z -> Z -> R) : sm a b (fun i => sm c d (f i)) = sm c d (fun j => sm a b (fun i => f i j)).
Proof. apply (ssum_exchange ScalarR_ring f). Qed.
Lemma sm_split lo mid hi f : (lo <= mid <= hi)%Z -> sm lo hi f = sm lo mid f + sm mid hi f.
Proof. intros H. unfold sm. rewrite (zrange_app lo mid hi) by lia. rewrite map_app, (ssum_app ScalarR_ring). reflexivity. Qed.
Lemma sm_single lo hi f k : (lo <= k < hi)%Z -> (forall j, (lo <= j < hi)%Z -> j <> k -> f j = 0) -> sm lo hi f = f k.
Proof.
  intros H H0. rewrite (sm_split lo k hi) by lia. rewrite (sm_cons k hi) by lia.
  rewrite (sm_zero lo k), (sm_zero (k + 1) hi); [ring|intros; apply H0; lia|intros; apply H0; lia].
Qed.
Lemma sm_nonneg lo hi f : (forall k, (lo <= k < hi)%Z -> 0 <= f k) -> 0 <= sm lo hi f.
Proof.
  intros H. destruct (Z.le_gt_cases hi lo) as [C|C]; [rewrite sm_nil by auto; lra|].
  replace hi with (lo + Z.of_nat (Z.to_nat (hi - lo)))%Z in * by lia. revert H. generalize (Z.to_nat (hi - lo)). clear C. intros k. induction k; intros H.
  - rewrite sm_nil by lia. lra.
  - replace (lo + Z.of_nat (S k))%Z with (lo + Z.of_nat k + 1)%Z in * by lia. rewrite sm_snoc by lia.
    pose proof (IHk ltac:(intros; apply H; lia)). pose proof (H (lo + Z.of_nat k)%Z ltac:(lia)). lra.
Qed.
(** exchange in a triangular double sum *)
Lemma sm_tri i (f : Z -> Z -> R) : (0 <= i)%Z -> sm 0 i (fun k => sm 0 (k + 1) (fun l => f l k)) = sm 0 i (fun l => sm l i (fun k => f l k)).
Proof.
  intros H. pattern i. apply natlike_ind; [rewrite !sm_nil by lia; reflexivity| |exact H]. clear i H. intros i Hi IH.
  unfold Z.succ. rewrite !sm_snoc by lia. rewrite IH.
  rewrite (sm_ext 0 i (fun l => sm l (i + 1) (fun k => f l k)) (fun l => sm l i (fun k => f l k) + f l i)) by (intros l Hl; rewrite sm_snoc by lia; reflexivity).
  rewrite sm_plus. rewrite (sm_nil i i) by lia. ring.
Qed.

Section N.
Variable n : Z.
Definition ip (f g : Z -> R) : R := sm 0 n (fun j => f j * g j).
Definition peq (f g : Z -> R) : Prop := forall j, (0 <= j < n)%Z -> f j = g j.
Lemma ip_ext f f' g g' : peq f f' -> peq g g' -> ip f g = ip f' g'.
Proof. intros H H'. apply sm_ext. intros j Hj. rewrite H, H' by auto. reflexivity. Qed.
Lemma ip_sym f g : ip f g = ip g f.
Proof. apply sm_ext. intros; ring. Qed.
Lemma ip_lin a b f g h w : (forall j, (0 <= j < n)%Z -> f j = a * g j + b * h j) -> ip f w = a * ip g w + b * ip h w.
Proof.
  intros H. unfold ip. rewrite <- !sm_scal, <- sm_plus. apply sm_ext. intros j Hj. rewrite H by auto. ring.
Qed.
Lemma ip_lin_r a b f g h w : (forall j, (0 <= j < n)%Z -> f j = a * g j + b * h j) -> ip w f = a * ip w g + b * ip w h.
Proof. intros H. rewrite !(ip_sym w). apply ip_lin; auto. Qed.
Lemma ip_sum lo hi y (g : Z -> Z -> R) f w : (forall j, (0 <= j < n)%Z -> f j = sm lo hi (fun k => y k * g k j)) ->
  ip f w = sm lo hi (fun k => y k * ip (g k) w).
Proof.
  intros H. unfold ip. transitivity (sm 0 n (fun j => sm lo hi (fun k => y k * (g k j * w j)))).
  - apply sm_ext. intros j Hj. rewrite H by auto. rewrite (Rmult_comm _ (w j)), <- sm_scal. apply sm_ext. intros; ring.
  - rewrite sm_swap. apply sm_ext. intros k _. apply sm_scal.
Qed.
Lemma ip_nonneg f : 0 <= ip f f.
Proof. apply sm_nonneg. intros. apply Rle_0_sqr. Qed.
Lemma ip_zero f : ip f f = 0 -> peq f (fun _ => 0).
Proof.
  intros H j Hj. unfold ip in H. rewrite (sm_split 0 j n) in H by lia. rewrite (sm_cons j n) in H by lia.
  pose proof (sm_nonneg 0 j (fun j => f j * f j) ltac:(intros; apply Rle_0_sqr)).
  pose proof (sm_nonneg (j + 1) n (fun j => f j * f j) ltac:(intros; apply Rle_0_sqr)).
  pose proof (Rle_0_sqr (f j)). unfold Rsqr in *. assert (f j * f j = 0) by lra.
  destruct (Rmult_integral _ _ H3); auto.
Qed.

(** n+1 orthonormal vectors do not exist *)
Lemma orthonormal_count (V : Z -> Z -> R) i : (0 <= i)%Z -> (0 <= n)%Z ->
  (forall a b, (0 <= a < i)%Z -> (0 <= b < i)%Z -> ip (V a) (V b) = if Z.eqb a b then 1 else 0) -> (i <= n)%Z.
Proof.
  intros Hi Hn HO.
  pose (nf := fun (f : Z -> R) (k : nat) => f (Z.of_nat k)).
  assert (IPn : forall f g, ip f g = pair_ (Z.to_nat n) (nf f) (nf g)).
  { intros f g. unfold ip, sm, pair_, zrange, nf. rewrite map_map. replace (n - 0)%Z with n by lia. apply ssum_map_ext.
    intros k _. reflexivity. }
  assert (D : forall k : nat, (Z.of_nat k <= i)%Z -> exists l, dual (Z.to_nat n) l /\ length l = k /\ forall w, In w (map fst l) -> exists a, (0 <= a < Z.of_nat k)%Z /\ w = nf (V a)).
  { induction k as [|k IH]; intros Hk.
    - exists []. split; [constructor|]. split; [reflexivity|]. intros w [].
    - destruct IH as (l & D1 & D2 & D3); [lia|]. exists ((nf (V (Z.of_nat k)), nf (V (Z.of_nat k))) :: l).
      split; [|split].
      + constructor; [| |exact D1].
        * rewrite <- IPn, HO by lia. rewrite Z.eqb_refl. change (1 <> 0). lra.
        * intros w Hw. destruct (D3 w Hw) as (a & Ha & ->). rewrite <- IPn, HO by lia.
          destruct (Z.eqb_spec (Z.of_nat k) a); [lia|reflexivity].
      + cbn [length]. lia.
      + intros w [<-|Hw]; [exists (Z.of_nat k); split; [lia|reflexivity]|]. destruct (D3 w Hw) as (a & Ha & ->). exists a. split; [lia|reflexivity]. }
  destruct (D (Z.to_nat i)) as (l & D1 & D2 & _); [lia|].
  pose proof (dual_length ScalarR_field ScalarR_eqb (Z.to_nat n) l D1). lia.
Qed.

(** *** the rotated basis *)
Definition rot (c s : R) (V' q h h' : Z -> R) : Prop := c * c + s * s = 1 /\ forall j, (0 <= j < n)%Z ->
  q j = c * h j + s * V' j /\ h' j = - s * h j + c * V' j.
Section Q.
Variables (V q qh : Z -> Z -> R) (c s : Z -> R) (i : Z).
Hypothesis Hi : (0 <= i)%Z.
Hypothesis ON : forall a b, (0 <= a <= i)%Z -> (0 <= b <= i)%Z -> ip (V a) (V b) = if Z.eqb a b then 1 else 0.
Hypothesis Q0 : peq (qh 0%Z) (V 0%Z).
Hypothesis RO : forall k, (0 <= k < i)%Z -> rot (c k) (s k) (V (k + 1)%Z) (q k) (qh k) (qh (k + 1)%Z).
Lemma q_ip k w : (0 <= k < i)%Z -> ip (q k) w = c k * ip (qh k) w + s k * ip (V (k + 1)%Z) w.
Proof. intros H. apply ip_lin. intros j Hj. apply (proj2 (RO k H) j Hj). Qed.
Lemma qh_ip k w : (0 <= k < i)%Z -> ip (qh (k + 1)%Z) w = - s k * ip (qh k) w + c k * ip (V (k + 1)%Z) w.
Proof. intros H. apply ip_lin. intros j Hj. apply (proj2 (RO k H) j Hj). Qed.
Lemma qh_props k : (0 <= k)%Z -> (k <= i)%Z ->
  ip (qh k) (qh k) = 1 /\ (forall a, (k < a <= i)%Z -> ip (qh k) (V a) = 0) /\
  (forall a, (0 <= a < k)%Z -> ip (qh k) (q a) = 0 /\ forall b, (k < b <= i)%Z -> ip (q a) (V b) = 0) /\
  (forall a b, (0 <= a < k)%Z -> (0 <= b < k)%Z -> ip (q a) (q b) = if Z.eqb a b then 1 else 0).
Proof.
  intros H. pattern k. apply natlike_ind; [| |exact H].
  - intros _. split; [|split; [|split]].
    + rewrite (ip_ext _ (V 0%Z) _ (V 0%Z)) by auto. rewrite ON by lia. reflexivity.
    + intros a Ha. rewrite (ip_ext _ (V 0%Z) _ (V a)) by (auto; intros ? ?; reflexivity). rewrite ON by lia. destruct (Z.eqb_spec 0 a); [lia|reflexivity].
    + intros a Ha. lia.
    + intros a b Ha. lia.
  - clear k H. intros k Hk IH Hk1. unfold Z.succ in *. destruct IH as (I1 & I2 & I3 & I4); [lia|].
    destruct (RO k ltac:(lia)) as (CS & _).
    assert (VV : ip (V (k + 1)%Z) (V (k + 1)%Z) = 1) by (rewrite ON by lia; rewrite Z.eqb_refl; reflexivity).
    assert (HV : ip (qh k) (V (k + 1)%Z) = 0) by (apply I2; lia).
    assert (N1 : ip (qh k) (qh (k + 1)%Z) = - s k) by (rewrite ip_sym, qh_ip by lia; rewrite (ip_sym (V (k+1)%Z)), HV, I1; ring).
    assert (N2 : ip (V (k + 1)%Z) (qh (k + 1)%Z) = c k) by (rewrite ip_sym, qh_ip by lia; rewrite HV, VV; ring).
    assert (QA : forall a, (0 <= a < k)%Z -> ip (q a) (qh (k + 1)%Z) = 0).
    { intros a Ha. rewrite ip_sym, qh_ip by lia. destruct (I3 a Ha) as (J1 & J2). rewrite J1, (ip_sym (V (k + 1)%Z)), J2 by lia. ring. }
    assert (QB : forall a, (0 <= a < k)%Z -> ip (q k) (q a) = 0).
    { intros a Ha. rewrite q_ip by lia. destruct (I3 a Ha) as (J1 & J2). rewrite J1, (ip_sym (V (k + 1)%Z)), J2 by lia. ring. }
    split; [|split; [|split]].
    + rewrite qh_ip by lia. rewrite N1, N2. rewrite <- CS. ring.
    + intros a Ha. rewrite qh_ip by lia. rewrite I2 by lia. rewrite ON by lia. destruct (Z.eqb_spec (k + 1) a); [lia|ring].
    + intros a Ha. destruct (Z.eq_dec a k) as [->|].
      * split.
        -- rewrite ip_sym, q_ip by lia. rewrite N1, N2. ring.
        -- intros b Hb. rewrite q_ip by lia. rewrite I2 by lia. rewrite ON by lia. destruct (Z.eqb_spec (k + 1) b); [lia|ring].
      * split; [rewrite ip_sym; apply QA; lia|]. intros b Hb. apply (I3 a ltac:(lia)). lia.
    + intros a b Ha Hb. destruct (Z.eq_dec a k) as [->|Na], (Z.eq_dec b k) as [->|Nb].
      * rewrite Z.eqb_refl. rewrite q_ip by lia. rewrite (ip_sym (qh k)), (ip_sym (V (k + 1)%Z)), !q_ip by lia.
        rewrite I1, (ip_sym (V (k + 1)%Z) (qh k)), HV, VV. transitivity (c k * c k + s k * s k); [ring|exact CS].
      * rewrite QB by lia. destruct (Z.eqb_spec k b); [lia|reflexivity].
      * rewrite ip_sym, QB by lia. destruct (Z.eqb_spec a k); [lia|reflexivity].
      * apply I4; lia.
Qed.
End Q.

(** *** least squares: A z_k = sum R_lk q_l, r0 = sum s_l q_l + s_i qh_i *)
Variables (q : Z -> Z -> R) (rm : Z -> Z -> R) (sv y : Z -> R) (AZ : Z -> Z -> R) (i : Z).
Hypothesis Hi : (0 <= i)%Z.
Hypothesis HA : forall k, (0 <= k < i)%Z -> forall j, (0 <= j < n)%Z -> AZ k j = sm 0 (k + 1) (fun l => rm l k * q l j).
Hypothesis HY : forall l, (0 <= l < i)%Z -> sm l i (fun k => rm l k * y k) = sv l.
Lemma solved_sum : forall j, (0 <= j < n)%Z -> sm 0 i (fun k => y k * AZ k j) = sm 0 i (fun l => sv l * q l j).
Proof.
  intros j Hj. transitivity (sm 0 i (fun k => sm 0 (k + 1) (fun l => rm l k * y k * q l j))).
  - apply sm_ext. intros k Hk. rewrite HA by auto. rewrite <- sm_scal. apply sm_ext. intros; ring.
  - rewrite (sm_tri i (fun l k => rm l k * y k * q l j)) by auto. apply sm_ext. intros l Hl. rewrite <- HY by auto.
    rewrite (Rmult_comm (sm _ _ _)), <- sm_scal. apply sm_ext. intros; ring.
Qed.
End N.
