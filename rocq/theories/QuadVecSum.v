(** Accumulated rounding errors of quad sums. *)
From Coq Require Import ZArith Reals Lra Lia Psatz Bool List Permutation.
From Flocq Require Import Core BinarySingleNaN.
From Verif Require Import Base Quad SpecQuad QuadReal QuadB64 QuadB64b QuadFinal QuadVec QuadVecOp.
Import ListNotations.
Open Scope R_scope.

Definition delta : R := bpow radix2 (-101).
Lemma delta_pos : 0 < delta. Proof. apply bpow_gt_0. Qed.
Fixpoint lsum (l : list R) : R := match l with [] => 0 | x :: l => x + lsum l end.
Definition labs (l : list R) : R := lsum (map Rabs l).

Lemma lsum_app : forall l m, lsum (l ++ m) = lsum l + lsum m.
Proof. induction l; intros; simpl; [lra|]. rewrite IHl. lra. Qed.
Lemma labs_app : forall l m, labs (l ++ m) = labs l + labs m.
Proof. intros. unfold labs. rewrite map_app. apply lsum_app. Qed.
Lemma lsum_perm : forall l m, Permutation l m -> lsum l = lsum m.
Proof. induction 1; simpl; lra. Qed.
Lemma labs_perm : forall l m, Permutation l m -> labs l = labs m.
Proof. intros. apply lsum_perm. now apply Permutation_map. Qed.
Lemma labs_pos : forall l, 0 <= labs l.
Proof. unfold labs. induction l; simpl; [lra|]. pose proof (Rabs_pos a). lra. Qed.
Lemma lsum_le : forall l, Rabs (lsum l) <= labs l.
Proof. unfold labs. induction l; simpl; [rewrite Rabs_R0; lra|]. eapply Rle_trans; [apply Rabs_triang|]. lra. Qed.

Definition acc (e : R) (k : nat) (l : list R) (q : Qd) : Prop :=
  fin q -> normal q /\ Rabs (val q - lsum l) <= ((1 + delta) ^ k - 1) * labs l + INR k * (1 + delta) ^ k * e.

Lemma pow1 : forall k, 1 <= (1 + delta) ^ k.
Proof. intros. apply pow_R1_Rle. pose proof delta_pos. lra. Qed.
Lemma powm : forall k k', (k <= k')%nat -> (1 + delta) ^ k <= (1 + delta) ^ k'.
Proof. intros. apply Rle_pow; auto. pose proof delta_pos. lra. Qed.

Lemma acc_mono : forall e k k' l q, 0 <= e -> (k <= k')%nat -> acc e k l q -> acc e k' l q.
Proof.
  intros e k k' l q He K H F. destruct (H F) as [N B]. split; auto. eapply Rle_trans; [exact B|].
  pose proof (powm k k' K). pose proof (pow1 k). pose proof (labs_pos l). pose proof (le_INR k k' K). pose proof (pos_INR k).
  apply Rplus_le_compat.
  - apply Rmult_le_compat_r; lra.
  - apply Rmult_le_compat_r; auto. apply Rmult_le_compat; lra.
Qed.
Lemma acc_perm : forall e k l m q, Permutation l m -> acc e k l q -> acc e k m q.
Proof. intros e k l m q P H F. rewrite <- (lsum_perm l m P), <- (labs_perm l m P). auto. Qed.
Lemma normal_zero : normal (f0, f0).
Proof.
  split; [split; reflexivity|]. unfold val, real. cbn [fst snd]. rewrite c0. unfold nearest. rewrite Rplus_0_l. symmetry. apply round_0. typeclasses eauto.
Qed.
Lemma val_zero : val (f0, f0) = 0.
Proof. unfold val, real. cbn [fst snd]. rewrite c0. lra. Qed.
Lemma acc_zero : forall e, acc e 0 [] (f0, f0).
Proof. intros e _. split; [apply normal_zero|]. rewrite val_zero. unfold labs. simpl. rewrite Rminus_0_r, Rabs_R0. lra. Qed.

(** the relative and absolute error of k additions *)
Lemma err_step : forall d k T m e va E, 0 <= d -> 0 <= e -> 0 <= T -> 0 <= m ->
  E = ((1 + d) ^ k - 1) * T + INR k * (1 + d) ^ k * e -> va <= T + E ->
  d * (va + m) + e + E <= ((1 + d) ^ S k - 1) * (T + m) + INR (S k) * (1 + d) ^ S k * e.
Proof.
  intros d k T m e va E Hd He HT Hm HE Hv. rewrite S_INR. simpl pow. set (P := (1 + d) ^ k) in *.
  assert (P1 : 1 <= P) by (apply pow_R1_Rle; lra). pose proof (pos_INR k) as K. set (n := INR k) in *.
  assert (d * va <= d * (T + E)) by (apply Rmult_le_compat_l; lra).
  assert (d * m <= ((1 + d) * P - 1) * m) by (apply Rmult_le_compat_r; nra).
  assert (e <= (1 + d) * P * e) by (rewrite <- (Rmult_1_l e) at 1; apply Rmult_le_compat_r; nra).
  apply Rle_trans with (d * (T + E) + d * m + e + E); [lra|].
  replace (d * (T + E) + d * m + e + E) with ((1 + d) * E + d * T + d * m + e) by ring.
  replace (((1 + d) * P - 1) * (T + m) + (n + 1) * ((1 + d) * P) * e)
    with ((((1 + d) * P - 1) * T + n * ((1 + d) * P) * e) + ((1 + d) * P - 1) * m + (1 + d) * P * e) by ring.
  replace ((1 + d) * E + d * T) with ((((1 + d) * P - 1) * T + n * ((1 + d) * P) * e)) by (rewrite HE; ring).
  lra.
Qed.
Lemma acc_step : forall e k l (r a : Qd) m, 0 <= e -> accum e r a m -> acc e k l a -> acc e (S k) (l ++ [m]) r.
Proof.
  intros e k l r a m He A H F. destruct (A F) as [Fa A2]. destruct (H Fa) as [Na Ba]. destruct (A2 Na) as [Nr Br]. split; auto.
  rewrite lsum_app, labs_app. unfold labs at 2. simpl lsum. rewrite !Rplus_0_r.
  replace (val r - (lsum l + m)) with ((val r - (val a + m)) + (val a - lsum l)) by ring.
  eapply Rle_trans; [apply Rabs_triang|].
  eapply Rle_trans; [|apply (err_step delta k (labs l) (Rabs m) e (Rabs (val a)) _ (Rlt_le _ _ delta_pos) He (labs_pos l) (Rabs_pos m) eq_refl)].
  - apply Rplus_le_compat; auto.
  - replace (val a) with (lsum l + (val a - lsum l)) by ring. eapply Rle_trans; [apply Rabs_triang|].
    apply Rplus_le_compat; auto. apply lsum_le.
Qed.
Lemma acc_of_prod : forall p m, isprod p m -> acc epsp 1 [m] p.
Proof.
  intros p m H F. destruct (H F) as [N B]. split; auto. unfold labs. simpl lsum. simpl pow. simpl INR. rewrite !Rplus_0_r, Rmult_1_r, Rmult_1_l.
  eapply Rle_trans; [exact B|]. replace (1 + delta - 1) with delta by ring. apply Rplus_le_compat.
  - apply Rmult_le_compat_r; [apply Rabs_pos|]. apply bpow_le. lia.
  - apply Rle_trans with epsp; [apply bpow_le; lia|]. pose proof delta_pos. assert (0 <= epsp) by apply bpow_ge_0. nra.
Qed.
Lemma err_mono : forall k K T e, (k <= K)%nat -> 0 <= T -> 0 <= e ->
  ((1 + delta) ^ k - 1) * T + INR k * (1 + delta) ^ k * e <= ((1 + delta) ^ K - 1) * T + INR k * (1 + delta) ^ K * e.
Proof.
  intros k K T e H HT He. pose proof (powm k K H). pose proof (pos_INR k). apply Rplus_le_compat.
  - apply Rmult_le_compat_r; lra.
  - apply Rmult_le_compat_r; auto. apply Rmult_le_compat_l; lra.
Qed.
Lemma acc_add : forall e k k' l l' (a b : Qd), 0 <= e -> acc e k l a -> acc e k' l' b -> acc e (k + k' + 1) (l ++ l') (quad_add_fast a b).
Proof.
  intros e k k' l l' a b He Ha Hb F. destruct (fin_add_fast a b F) as [Fa Fb].
  destruct (Ha Fa) as [Na Ba], (Hb Fb) as [Nb Bb]. destruct (addf_ok a b Na Nb F) as [Nr Br]. split; auto.
  rewrite lsum_app, labs_app. replace (k + k' + 1)%nat with (S (k + k')) by lia.
  pose proof (err_mono k (k + k') (labs l) e ltac:(lia) (labs_pos l) He) as Ea.
  pose proof (err_mono k' (k + k') (labs l') e ltac:(lia) (labs_pos l') He) as Eb.
  pose proof (err_step delta (k + k') (labs l + labs l') 0 e (Rabs (val a) + Rabs (val b)) _ (Rlt_le _ _ delta_pos) He
    ltac:(pose proof (labs_pos l); pose proof (labs_pos l'); lra) (Rle_refl 0) eq_refl) as St.
  rewrite plus_INR in St. set (P := (1 + delta) ^ (k + k')) in *. rewrite !Rplus_0_r in St.
  assert (X : forall x y T E, Rabs (x - y) <= E -> Rabs y <= T -> Rabs x <= T + E).
  { intros x y T E H1 H2. replace x with (y + (x - y)) by ring. eapply Rle_trans; [apply Rabs_triang|]. lra. }
  pose proof (X _ _ _ _ Ba (lsum_le l)) as Va. pose proof (X _ _ _ _ Bb (lsum_le l')) as Vb.
  assert (SE : (P - 1) * labs l + INR k * P * e + ((P - 1) * labs l' + INR k' * P * e) = (P - 1) * (labs l + labs l') + (INR k + INR k') * P * e) by ring.
  eapply Rle_trans; [|apply St; lra].
  replace (val (quad_add_fast a b) - (lsum l + lsum l')) with
    ((val (quad_add_fast a b) - (val a + val b)) + ((val a - lsum l) + (val b - lsum l'))) by ring.
  eapply Rle_trans; [apply Rabs_triang|]. eapply Rle_trans; [apply Rplus_le_compat_l, Rabs_triang|].
  assert (bpow radix2 (-103) * (Rabs (val a) + Rabs (val b)) <= delta * (Rabs (val a) + Rabs (val b))).
  { apply Rmult_le_compat_r; [pose proof (Rabs_pos (val a)); pose proof (Rabs_pos (val b)); lra|]. apply bpow_le. lia. }
  lra.
Qed.

(** For up to 2^50 additions the bound is linear. *)
Lemma pow_lin : forall d k, 0 <= d -> INR k * d <= / 2 -> (1 + d) ^ k <= 1 + 2 * (INR k * d).
Proof.
  intros d k Hd. induction k; intros H.
  - simpl. lra.
  - rewrite S_INR in *. pose proof (pos_INR k). simpl pow. set (n := INR k) in *.
    assert (K : n * d <= / 2) by nra. specialize (IHk K).
    apply Rle_trans with ((1 + d) * (1 + 2 * (n * d))); [apply Rmult_le_compat_l; lra|].
    assert (d * (2 * (n * d)) <= d * 1) by (apply Rmult_le_compat_l; lra). lra.
Qed.
Lemma acc_final : forall e k l q, 0 <= e -> (Z.of_nat k <= 2 ^ 50)%Z -> acc e k l q -> fin q ->
  normal q /\ Rabs (val q - lsum l) <= INR k * (bpow radix2 (-100) * labs l + 2 * e).
Proof.
  intros e k l q He K H F. destruct (H F) as [N B]. split; auto. eapply Rle_trans; [exact B|].
  pose proof (labs_pos l) as T. pose proof (pos_INR k) as Pk.
  assert (Q : INR k * delta <= / 2).
  { apply Rle_trans with (bpow radix2 50 * delta).
    - apply Rmult_le_compat_r; [apply Rlt_le, delta_pos|]. rewrite INR_IZR_INZ. change (bpow radix2 50) with (IZR (2 ^ 50)). now apply IZR_le.
    - unfold delta. rewrite <- bpow_plus. replace (/ 2) with (bpow radix2 (-1)) by (simpl; lra). apply bpow_le. lia. }
  pose proof (pow_lin delta k (Rlt_le _ _ delta_pos) Q) as L.
  assert (D : bpow radix2 (-100) = 2 * delta) by (unfold delta; change 2 with (bpow radix2 1); rewrite <- bpow_plus; reflexivity).
  rewrite D. set (P := (1 + delta) ^ k) in *. set (n := INR k) in *.
  assert ((P - 1) * labs l <= 2 * (n * delta) * labs l) by (apply Rmult_le_compat_r; lra).
  assert (n * P <= n * 2) by (apply Rmult_le_compat_l; lra).
  assert (n * P * e <= n * 2 * e) by (apply Rmult_le_compat_r; lra).
  lra.
Qed.
