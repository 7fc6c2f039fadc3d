(** One step of MINRES for a symmetric operator K. *)
Require Import Reals Lra ZArith List Bool Lia.
From Verif Require Import Base Scalar ScalarReal Spec GmresMath.
Import ListNotations.
Open Scope R_scope.

Section N.
Variable n : Z.
Notation pe := (peq n).
Notation ip := (ip n).
Variable K : (Z -> R) -> Z -> R.
Hypothesis K_ext : forall f g, pe f g -> pe (K f) (K g).
Hypothesis K_lin : forall a b f g, pe (K (fun j => a * f j + b * g j)) (fun j => a * K f j + b * K g j).
Hypothesis K_sym : forall f g, ip (K f) g = ip f (K g).

Lemma ip_lin3 a b c f g h k w : (forall j, (0 <= j < n)%Z -> f j = a * g j + b * h j + c * k j) -> ip f w = a * ip g w + b * ip h w + c * ip k w.
Proof.
  intros H. rewrite (ip_lin n 1 c f (fun j => a * g j + b * h j) k w) by (intros j Hj; rewrite H by auto; ring).
  rewrite (ip_lin n a b (fun j => a * g j + b * h j) g h w) by (intros; reflexivity). ring.
Qed.
Lemma ip_lin3_r a b c f g h k w : (forall j, (0 <= j < n)%Z -> f j = a * g j + b * h j + c * k j) -> ip w f = a * ip w g + b * ip w h + c * ip w k.
Proof. intros H. rewrite !(ip_sym n w). apply ip_lin3; auto. Qed.
Lemma ip_0_r w f : pe f (fun _ => 0) -> ip w f = 0.
Proof. intros H. rewrite (ip_lin_r n 0 0 f f f w) by (intros j Hj; rewrite (H j Hj); ring). ring. Qed.
Lemma K_lin3 a b c f g h k : (forall j, (0 <= j < n)%Z -> f j = a * g j + b * h j + c * k j) -> pe (K f) (fun j => a * K g j + b * K h j + c * K k j).
Proof.
  intros H j Hj. rewrite (K_ext f (fun j => 1 * (a * g j + b * h j) + c * k j)) by (auto; intros i Hi; rewrite H by auto; ring).
  rewrite (K_lin 1 c (fun j => a * g j + b * h j) k j Hj). rewrite (K_lin a b g h j Hj). ring.
Qed.

Section I.
Variable z0 : Z -> R.
Record MI (k : Z) (V : Z -> Z -> R) (al be : Z -> R) (qh q1 q0 v1 v2 w0 w1 z : Z -> R) (b2 g1 g2 s1 s2 eta : R) : Prop := {
  m_k : (1 <= k)%Z; m_b : b2 <> 0; m_bk : be k = b2;
  m_v2 : pe v2 (fun j => b2 * V k j); m_v1 : pe v1 (V (k - 1)%Z); m_V0 : pe (V 0%Z) (fun _ => 0);
  m_on : forall a b, (1 <= a <= k)%Z -> (1 <= b <= k)%Z -> ip (V a) (V b) = if (a =? b)%Z then 1 else 0;
  m_rec : forall i, (1 <= i < k)%Z -> pe (K (V i)) (fun j => be i * V (i - 1)%Z j + al i * V i j + be (i + 1)%Z * V (i + 1)%Z j);
  m_z : pe z (fun j => eta * qh j); m_qh : ip qh qh = 1;
  m_Vk : pe (V k) (fun j => s2 * q1 j + g2 * qh j);
  m_Vp : pe (V (k - 1)%Z) (fun j => s1 * q0 j + g1 * (g2 * q1 j - s2 * qh j));
  m_q1 : pe (K w1) q1; m_q0 : pe (K w0) q0;
  m_d1 : forall g, (forall i, (1 <= i <= k)%Z -> ip g (V i) = 0) -> ip g qh = 0 /\ ip g q1 = 0;
  m_d2 : ip qh q1 = 0 /\ ip qh q0 = 0;
  m_d3 : forall g, (forall i, (1 <= i < k)%Z -> ip g (K (V i)) = 0) -> ip g q1 = 0 /\ ip g q0 = 0 /\ ip g z = ip g z0;
  m_d4 : forall g, (forall i, (1 <= i < k)%Z -> ip g (V i) = 0) -> ip g w1 = 0 /\ ip g w0 = 0;
  m_d5 : forall i, (1 <= i < k)%Z -> ip qh (K (V i)) = 0;
  m_z0 : exists b, pe z0 (fun j => b * V 1%Z j) }.

Lemma MI_ext k V al be qh q1 q0 v1 v2 w0 w1 z v1' v2' w0' w1' z' b2 g1 g2 s1 s2 eta :
  MI k V al be qh q1 q0 v1 v2 w0 w1 z b2 g1 g2 s1 s2 eta -> pe v1' v1 -> pe v2' v2 -> pe w0' w0 -> pe w1' w1 -> pe z' z ->
  MI k V al be qh q1 q0 v1' v2' w0' w1' z' b2 g1 g2 s1 s2 eta.
Proof.
  intros [] E1 E2 E3 E4 E5.
  assert (T : forall f f' g, pe f' f -> pe f g -> pe f' g) by (intros f f' g A B j Hj; rewrite (A j Hj); apply B; exact Hj).
  assert (I : forall g f f', pe f' f -> ip g f' = ip g f) by (intros g f f' A; apply ip_ext; [intros j Hj; reflexivity|exact A]).
  split; auto; try (eapply T; eassumption).
  - intros j Hj. rewrite (K_ext w1' w1 E4 j Hj). apply m_q2. exact Hj.
  - intros j Hj. rewrite (K_ext w0' w0 E3 j Hj). apply m_q3. exact Hj.
  - intros g G. rewrite (I g z z' E5). apply m_d8. exact G.
  - intros g G. rewrite (I g w1 w1' E4), (I g w0 w0' E3). apply m_d9. exact G.
Qed.

Section S.
Variables (k : Z) (V : Z -> Z -> R) (al be : Z -> R) (qh q1 q0 v1 v2 w0 w1 z : Z -> R) (b2 g1 g2 s1 s2 eta : R).
Hypothesis H : MI k V al be qh q1 q0 v1 v2 w0 w1 z b2 g1 g2 s1 s2 eta.
Variables (alpha b3 delta rho1 rho2 rho3 : R) (v4 w2 z' : Z -> R).
Hypothesis Ha : alpha = ip (V k) (K (V k)).
Hypothesis H4 : pe v4 (fun j => K (V k) j - alpha * V k j - b2 * v1 j).
Hypothesis Hb : b3 = sqrt (ip v4 v4).
Hypothesis Hd : delta = g2 * alpha - g1 * s2 * b2.
Hypothesis Hr1 : rho1 = sqrt (delta * delta + b3 * b3).
Hypothesis Hr2 : rho2 = s2 * alpha + g1 * g2 * b2.
Hypothesis Hr3 : rho3 = s1 * b2.

Let k1 : (1 <= k)%Z := m_k _ _ _ _ _ _ _ _ _ _ _ _ _ _ _ _ _ _ H.
Lemma on a b : (1 <= a <= k)%Z -> (1 <= b <= k)%Z -> ip (V a) (V b) = if (a =? b)%Z then 1 else 0.
Proof. exact (m_on _ _ _ _ _ _ _ _ _ _ _ _ _ _ _ _ _ _ H a b). Qed.
Lemma rec_k : pe (K (V k)) (fun j => b2 * V (k - 1)%Z j + alpha * V k j + v4 j).
Proof. intros j Hj. rewrite (H4 j Hj). pose proof (m_v1 _ _ _ _ _ _ _ _ _ _ _ _ _ _ _ _ _ _ H j Hj) as E. cbv beta in E. rewrite E. ring. Qed.
Lemma ip_KVk g : ip g (K (V k)) = b2 * ip g (V (k - 1)%Z) + alpha * ip g (V k) + ip g v4.
Proof. rewrite (ip_lin3_r b2 alpha 1 (K (V k)) (V (k - 1)%Z) (V k) v4 g); [ring|]. intros j Hj. rewrite (rec_k j Hj). ring. Qed.
Lemma ip_KVi i g : (1 <= i < k)%Z -> ip g (K (V i)) = be i * ip g (V (i - 1)%Z) + al i * ip g (V i) + be (i + 1)%Z * ip g (V (i + 1)%Z).
Proof. intros Hi. apply ip_lin3_r. intros j Hj. apply (m_rec _ _ _ _ _ _ _ _ _ _ _ _ _ _ _ _ _ _ H i Hi j Hj). Qed.
Lemma ip_V0 g : ip g (V 0%Z) = 0.
Proof. apply ip_0_r. exact (m_V0 _ _ _ _ _ _ _ _ _ _ _ _ _ _ _ _ _ _ H). Qed.
Lemma ip_pred i g : (1 <= i)%Z -> ((1 <= i - 1)%Z -> ip g (V (i - 1)%Z) = 0) -> ip g (V (i - 1)%Z) = 0.
Proof. intros Hi G. destruct (Z.eq_dec i 1) as [->|]; [apply ip_V0|apply G; lia]. Qed.
Lemma v4_orth i : (1 <= i <= k)%Z -> ip v4 (V i) = 0.
Proof.
  intros Hi. pose proof k1 as k1'.
  assert (E : ip v4 (V i) = ip (K (V k)) (V i) - alpha * ip (V k) (V i) - b2 * ip (V (k - 1)%Z) (V i)).
  { rewrite (ip_lin3 1 (- alpha) (- b2) v4 (K (V k)) (V k) (V (k - 1)%Z) (V i)); [ring|]. intros j Hj. rewrite (H4 j Hj). pose proof (m_v1 _ _ _ _ _ _ _ _ _ _ _ _ _ _ _ _ _ _ H j Hj) as E. cbv beta in E. rewrite E. ring. }
  rewrite E. rewrite K_sym. destruct (Z.eq_dec i k) as [->|Hne].
  - rewrite <- Ha. rewrite on by lia. rewrite Z.eqb_refl. rewrite (ip_sym n (V (k - 1)%Z)). rewrite (ip_pred k (V k)); [ring|lia|]. intros Hk. rewrite on by lia. destruct (Z.eqb_spec k (k - 1)); [lia|reflexivity].
  - rewrite (ip_KVi i (V k)) by lia. rewrite (on k i) by lia. destruct (Z.eqb_spec k i); [lia|]. 
    assert (PK : ip (V k) (V (i - 1)%Z) = 0) by (apply ip_pred; [lia|intros Hq; rewrite on by lia; destruct (Z.eqb_spec k (i - 1)); [lia|reflexivity]]). rewrite PK.
    destruct (Z.eq_dec (i + 1) k) as [E1|E1].
    + rewrite E1. rewrite (m_bk _ _ _ _ _ _ _ _ _ _ _ _ _ _ _ _ _ _ H). rewrite on by lia. rewrite Z.eqb_refl. replace (k - 1)%Z with i by lia. rewrite on by lia. rewrite Z.eqb_refl. ring.
    + rewrite on by lia. destruct (Z.eqb_spec k (i + 1)); [lia|]. rewrite on by lia. destruct (Z.eqb_spec (k - 1) i); [lia|]. ring.
Qed.
Lemma v4_qh : ip v4 qh = 0 /\ ip v4 q1 = 0.
Proof. apply (m_d1 _ _ _ _ _ _ _ _ _ _ _ _ _ _ _ _ _ _ H). apply v4_orth. Qed.
(** the rotated column *)
Definition u (j : Z) : R := V k j - rho3 * w0 j - rho2 * w1 j.
Lemma Ku : pe (K u) (fun j => delta * qh j + v4 j).
Proof.
  intros j Hj. rewrite (K_lin3 1 (- rho3) (- rho2) u (V k) w0 w1) by (auto; intros; unfold u; ring).
  pose proof (m_q1 _ _ _ _ _ _ _ _ _ _ _ _ _ _ _ _ _ _ H j Hj) as E1. pose proof (m_q0 _ _ _ _ _ _ _ _ _ _ _ _ _ _ _ _ _ _ H j Hj) as E0. cbv beta in *. rewrite E1, E0.
  rewrite (rec_k j Hj). pose proof (m_Vk _ _ _ _ _ _ _ _ _ _ _ _ _ _ _ _ _ _ H j Hj) as E2. pose proof (m_Vp _ _ _ _ _ _ _ _ _ _ _ _ _ _ _ _ _ _ H j Hj) as E3. cbv beta in *. rewrite E2, E3, Hd, Hr2, Hr3. ring.
Qed.
Lemma b3_sq : b3 * b3 = ip v4 v4.
Proof. rewrite Hb. apply sqrt_sqrt. apply ip_nonneg. Qed.
Lemma rho_sq : rho1 * rho1 = delta * delta + b3 * b3.
Proof. rewrite Hr1. apply sqrt_sqrt. pose proof (Rle_0_sqr delta). pose proof (Rle_0_sqr b3). unfold Rsqr in *. lra. Qed.
Lemma rho_nonzero : (forall f, pe (K f) (fun _ => 0) -> pe f (fun _ => 0)) -> rho1 <> 0.
Proof.
  intros HI E. pose proof k1 as k1'. pose proof rho_sq as RS. rewrite E in RS. pose proof (Rle_0_sqr delta). pose proof (Rle_0_sqr b3). unfold Rsqr in *.
  assert (D0 : delta * delta = 0) by lra. assert (B0 : b3 * b3 = 0) by lra. assert (delta = 0) by (destruct (Rmult_integral _ _ D0); auto).
  assert (V4 : pe v4 (fun _ => 0)) by (apply ip_zero; rewrite <- b3_sq; exact B0).
  assert (U0 : pe u (fun _ => 0)). { apply HI. intros j Hj. rewrite (Ku j Hj), (V4 j Hj), H2. ring. }
  assert (O : forall i, (1 <= i < k)%Z -> ip (V k) (V i) = 0) by (intros i Hi; rewrite on by lia; destruct (Z.eqb_spec k i); [lia|reflexivity]).
  destruct (m_d4 _ _ _ _ _ _ _ _ _ _ _ _ _ _ _ _ _ _ H (V k) O) as (W1 & W0).
  pose proof (on k k ltac:(lia) ltac:(lia)) as V1. rewrite Z.eqb_refl in V1.
  rewrite (ip_lin3_r 1 rho3 rho2 (V k) u w0 w1 (V k)) in V1 by (intros j Hj; unfold u; ring). rewrite W1, W0, (ip_0_r (V k) u U0) in V1. lra.
Qed.

Hypothesis Hrho : rho1 <> 0.
Let g3 := delta / rho1.
Let s3 := b3 / rho1.
Hypothesis Hw2 : pe w2 (fun j => / rho1 * u j).
Hypothesis Hz' : pe z' (fun j => z j - g3 * eta * K w2 j).
Lemma cs1 : g3 * g3 + s3 * s3 = 1.
Proof. unfold g3, s3. replace (delta / rho1 * (delta / rho1) + b3 / rho1 * (b3 / rho1)) with ((delta * delta + b3 * b3) / (rho1 * rho1)) by (field; exact Hrho). rewrite <- rho_sq. field. exact Hrho. Qed.
Lemma q_eq : pe (K w2) (fun j => g3 * qh j + / rho1 * v4 j).
Proof.
  intros j Hj. rewrite (K_lin3 (/ rho1) 0 0 w2 u u u) by (auto; intros; rewrite Hw2 by auto; ring). rewrite (Ku j Hj). unfold g3. field. exact Hrho.
Qed.
Lemma ip_q g : ip g (K w2) = g3 * ip g qh + / rho1 * ip g v4.
Proof. apply ip_lin_r. exact q_eq. Qed.
Lemma z_eq : pe z' (fun j => eta * (1 - g3 * g3) * qh j + - (g3 * eta / rho1) * v4 j).
Proof.
  intros j Hj. rewrite (Hz' j Hj), (q_eq j Hj). pose proof (m_z _ _ _ _ _ _ _ _ _ _ _ _ _ _ _ _ _ _ H j Hj) as E. cbv beta in E. rewrite E. unfold Rdiv. ring.
Qed.
Lemma ip_z' g : ip g z' = eta * (1 - g3 * g3) * ip g qh + - (g3 * eta / rho1) * ip g v4.
Proof. apply ip_lin_r. exact z_eq. Qed.
Let qhh : ip qh qh = 1 := m_qh _ _ _ _ _ _ _ _ _ _ _ _ _ _ _ _ _ _ H.
Lemma z_norm : ip z' z' = (s3 * eta) * (s3 * eta).
Proof.
  pose proof v4_qh as (A & _). rewrite ip_z'. rewrite (ip_sym n z' qh), (ip_sym n z' v4), !ip_z'. rewrite qhh, A, (ip_sym n qh v4), A. rewrite <- b3_sq.
  assert (E : 1 - g3 * g3 = s3 * s3) by (pose proof cs1; lra). rewrite E. 
  replace (- (g3 * eta / rho1) * (eta * (s3 * s3) * 0 + - (g3 * eta / rho1) * (b3 * b3))) with (g3 * g3 * eta * eta * (b3 / rho1 * (b3 / rho1))) by (field; exact Hrho). fold s3.
  transitivity (eta * eta * (s3 * s3) * (g3 * g3 + s3 * s3)); [ring|]. rewrite cs1. ring.
Qed.
(** z' is orthogonal to K V_1 .. K V_k *)
Lemma ip_qh_KVk : ip qh (K (V k)) = delta.
Proof.
  pose proof v4_qh as (A & _). destruct (m_d2 _ _ _ _ _ _ _ _ _ _ _ _ _ _ _ _ _ _ H) as (D1 & D2). rewrite ip_KVk. rewrite (ip_sym n qh v4), A.
  rewrite (ip_lin_r n s2 g2 (V k) q1 qh qh) by (exact (m_Vk _ _ _ _ _ _ _ _ _ _ _ _ _ _ _ _ _ _ H)).
  rewrite (ip_lin3_r s1 (g1 * g2) (- (g1 * s2)) (V (k - 1)%Z) q0 q1 qh qh) by (intros j Hj; pose proof (m_Vp _ _ _ _ _ _ _ _ _ _ _ _ _ _ _ _ _ _ H j Hj) as E; cbv beta in E; rewrite E; ring).
  rewrite D1, D2, qhh, Hd. ring.
Qed.
Lemma ip_v4_KV i : (1 <= i <= k)%Z -> ip v4 (K (V i)) = if (i =? k)%Z then b3 * b3 else 0.
Proof.
  intros Hi. assert (P : forall i, (1 <= i <= k)%Z -> ip v4 (V (i - 1)%Z) = 0) by (intros i' Hi'; apply ip_pred; [lia|intros; apply v4_orth; lia]).
  destruct (Z.eqb_spec i k) as [->|Hne].
  - rewrite ip_KVk. rewrite P, v4_orth by lia. rewrite b3_sq. ring.
  - rewrite ip_KVi by lia. rewrite P, !v4_orth by lia. ring.
Qed.
Lemma z_orth i : (1 <= i <= k)%Z -> ip z' (K (V i)) = 0.
Proof.
  intros Hi. rewrite (ip_sym n z'), ip_z'. rewrite (ip_sym n _ qh), (ip_sym n _ v4). rewrite ip_v4_KV by lia. destruct (Z.eqb_spec i k) as [->|Hne].
  - rewrite ip_qh_KVk. assert (E : 1 - g3 * g3 = s3 * s3) by (pose proof cs1; lra). rewrite E. unfold g3, s3. field. exact Hrho.
  - rewrite (m_d5 _ _ _ _ _ _ _ _ _ _ _ _ _ _ _ _ _ _ H) by lia. ring.
Qed.
Lemma q_dual g : (forall i, (1 <= i <= k)%Z -> ip g (K (V i)) = 0) -> ip g (K w2) = 0 /\ ip g q1 = 0 /\ ip g z = ip g z0.
Proof.
  intros G. destruct (m_d3 _ _ _ _ _ _ _ _ _ _ _ _ _ _ _ _ _ _ H g ltac:(intros; apply G; lia)) as (A1 & A2 & A3).
  split; [|split; [exact A1|exact A3]].
  assert (E : ip g (K w2) = / rho1 * (ip g (K (V k)) - rho3 * ip g q0 - rho2 * ip g q1)).
  { rewrite (ip_lin3_r (/ rho1) (- (/ rho1 * rho3)) (- (/ rho1 * rho2)) (K w2) (K (V k)) q0 q1 g); [ring|]. intros j Hj.
    rewrite (K_lin3 (/ rho1) (- (/ rho1 * rho3)) (- (/ rho1 * rho2)) w2 (V k) w0 w1) by (auto; intros i Hi; rewrite Hw2 by auto; unfold u; ring).
    pose proof (m_q1 _ _ _ _ _ _ _ _ _ _ _ _ _ _ _ _ _ _ H j Hj) as E1. pose proof (m_q0 _ _ _ _ _ _ _ _ _ _ _ _ _ _ _ _ _ _ H j Hj) as E0. cbv beta in *. rewrite E1, E0. ring. }
  rewrite E, A1, A2, G by (pose proof k1; lia). ring.
Qed.
Lemma z_dual g : (forall i, (1 <= i <= k)%Z -> ip g (K (V i)) = 0) -> ip g z' = ip g z0.
Proof.
  intros G. destruct (q_dual g G) as (A1 & _ & A3). rewrite (ip_lin_r n 1 (- (g3 * eta)) z' z (K w2) g) by (intros j Hj; rewrite (Hz' j Hj); ring). rewrite A1, A3. ring.
Qed.

(** *** optimality *)
Fixpoint Kp (l : nat) (f : Z -> R) : Z -> R := match l with O => f | S l => K (Kp l f) end.
Lemma Kp_span (l : nat) : (Z.of_nat l < k)%Z -> forall g, (forall i, (1 <= i <= Z.of_nat l + 1)%Z -> ip g (V i) = 0) -> ip g (Kp l z0) = 0.
Proof.
  induction l as [|l IH]; intros Hl g G; cbn [Kp].
  - destruct (m_z0 _ _ _ _ _ _ _ _ _ _ _ _ _ _ _ _ _ _ H) as (b & E). rewrite (ip_lin_r n b 0 z0 (V 1%Z) (V 1%Z) g) by (intros j Hj; rewrite (E j Hj); ring). rewrite G by lia. ring.
  - rewrite <- K_sym. apply IH; [lia|]. intros i Hi. rewrite K_sym. rewrite ip_KVi by lia. 
    assert (PK : ip g (V (i - 1)%Z) = 0) by (apply ip_pred; [lia|intros Hq; apply G; lia]). rewrite PK, !G by lia. ring.
Qed.
Lemma z_Kp (l : nat) : (Z.of_nat l < k)%Z -> ip z' (Kp (S l) z0) = 0.
Proof. intros Hl. cbn [Kp]. rewrite <- K_sym. apply Kp_span; [exact Hl|]. intros i Hi. rewrite K_sym. apply z_orth. lia. Qed.
Lemma optimal (c : Z -> R) p : pe p (fun j => z0 j - sm 0 k (fun l => c l * Kp (S (Z.to_nat l)) z0 j)) -> ip z' z' <= ip p p.
Proof.
  intros Hp. pose proof k1 as k1'.
  assert (E1 : ip z' z' = ip z' z0) by (apply z_dual; intros; apply z_orth; lia).
  assert (E2 : ip z' p = ip z' z0).
  { rewrite (ip_lin_r n 1 (-1) p z0 (fun j => sm 0 k (fun l => c l * Kp (S (Z.to_nat l)) z0 j)) z') by (intros j Hj; rewrite (Hp j Hj); ring).
    rewrite (ip_sym n z' (fun j => sm 0 k _)). rewrite (ip_sum n 0 k c (fun l => Kp (S (Z.to_nat l)) z0) _ z') by (intros; reflexivity).
    rewrite sm_zero; [ring|]. intros l Hl. rewrite ip_sym, z_Kp by lia. ring. }
  pose proof (ip_nonneg n (fun j => 1 * p j + - 1 * z' j)) as N.
  rewrite (ip_lin n 1 (-1) (fun j => 1 * p j + - 1 * z' j) p z') in N by (intros; reflexivity).
  rewrite !(ip_lin_r n 1 (-1) (fun j => 1 * p j + - 1 * z' j) p z') in N by (intros; reflexivity). rewrite (ip_sym n p z') in N. lra.
Qed.

(** *** the next state *)
Definition V' (i : Z) : Z -> R := if (i =? k + 1)%Z then (fun j => / b3 * v4 j) else V i.
Definition al' (i : Z) : R := if (i =? k)%Z then alpha else al i.
Definition be' (i : Z) : R := if (i =? k + 1)%Z then b3 else be i.
Lemma V'_old i : (i <= k)%Z -> V' i = V i.
Proof. intros Hi. unfold V'. destruct (Z.eqb_spec i (k + 1)); [lia|reflexivity]. Qed.
Lemma V'_new : V' (k + 1) = (fun j => / b3 * v4 j).
Proof. unfold V'. rewrite Z.eqb_refl. reflexivity. Qed.
Definition qh' (j : Z) : R := - s3 * qh j + g3 * (/ b3 * v4 j).
Lemma ip_new g : ip g (V' (k + 1)) = / b3 * ip g v4.
Proof. rewrite V'_new. rewrite (ip_lin_r n (/ b3) 0 (fun j => / b3 * v4 j) v4 v4 g) by (intros; ring). ring. Qed.
Lemma step : b3 <> 0 -> MI (k + 1) V' al' be' qh' (K w2) q1 (V k) v4 w1 w2 z' b3 g2 g3 s2 s3 (- s3 * eta).
Proof.
  intros B3. pose proof k1 as k1'. pose proof v4_qh as (A1 & A2). pose proof cs1 as CS.
  assert (ipq : forall g, ip g qh' = - s3 * ip g qh + g3 * / b3 * ip g v4) by (intros g; apply ip_lin_r; intros; unfold qh'; ring).
  assert (BI : b3 * / b3 = 1) by (field; exact B3).
  assert (BR : / rho1 = s3 * / b3) by (unfold s3; field; auto).
  assert (NN : ip (V' (k + 1)) (V' (k + 1)) = 1).
  { rewrite ip_new. rewrite ip_sym, ip_new. rewrite <- b3_sq. field. exact B3. }
  split.
  - lia.
  - exact B3.
  - unfold be'. rewrite Z.eqb_refl. reflexivity.
  - intros j Hj. rewrite V'_new. field. exact B3.
  - replace (k + 1 - 1)%Z with k by lia. rewrite V'_old by lia. intros j Hj. reflexivity.
  - rewrite V'_old by lia. exact (m_V0 _ _ _ _ _ _ _ _ _ _ _ _ _ _ _ _ _ _ H).
  - assert (O : forall a, (1 <= a <= k)%Z -> ip (V a) (V' (k + 1)) = 0) by (intros a Ha'; rewrite ip_new, ip_sym, v4_orth by lia; ring).
    intros a b Ha' Hb'. destruct (Z.eq_dec a (k + 1)) as [->|Na], (Z.eq_dec b (k + 1)) as [->|Nb].
    + rewrite Z.eqb_refl. exact NN.
    + rewrite (V'_old b) by lia. rewrite ip_sym, O by lia. destruct (Z.eqb_spec (k + 1) b); [lia|reflexivity].
    + rewrite (V'_old a) by lia. rewrite O by lia. destruct (Z.eqb_spec a (k + 1)); [lia|reflexivity].
    + rewrite !V'_old by lia. apply on; lia.
  - intros i Hi j Hj. destruct (Z.eq_dec i k) as [->|Ne].
    + rewrite V'_new, !V'_old by lia. unfold al', be'. rewrite !Z.eqb_refl. destruct (Z.eqb_spec k (k + 1)); [lia|]. rewrite (m_bk _ _ _ _ _ _ _ _ _ _ _ _ _ _ _ _ _ _ H). rewrite (rec_k j Hj). transitivity (b2 * V (k - 1)%Z j + alpha * V k j + (b3 * / b3) * v4 j); [rewrite BI; ring|ring].
    + rewrite !V'_old by lia. unfold al', be'. destruct (Z.eqb_spec i k); [lia|]. destruct (Z.eqb_spec i (k + 1)); [lia|]. destruct (Z.eqb_spec (i + 1) (k + 1)); [lia|]. apply (m_rec _ _ _ _ _ _ _ _ _ _ _ _ _ _ _ _ _ _ H i ltac:(lia) j Hj).
  - intros j Hj. rewrite (z_eq j Hj). unfold qh'. assert (E : 1 - g3 * g3 = s3 * s3) by lra. rewrite E. unfold Rdiv. rewrite BR. ring.
  - rewrite ipq. rewrite !(ip_sym n qh'), !ipq. rewrite qhh, A1, (ip_sym n qh v4), A1, <- b3_sq. transitivity (s3 * s3 + g3 * g3 * (b3 * / b3) * (b3 * / b3)); [ring|]. rewrite BI. lra.
  - intros j Hj. rewrite V'_new. rewrite (q_eq j Hj). unfold qh'. rewrite BR.
    transitivity ((s3 * s3 + g3 * g3) * (/ b3 * v4 j)); [|ring]. replace (s3 * s3 + g3 * g3) with 1 by lra. ring.
  - intros j Hj. replace (k + 1 - 1)%Z with k by lia. rewrite V'_old by lia. pose proof (m_Vk _ _ _ _ _ _ _ _ _ _ _ _ _ _ _ _ _ _ H j Hj) as E. cbv beta in E. rewrite E. rewrite (q_eq j Hj). unfold qh'. rewrite BR.
    transitivity (s2 * q1 j + g2 * ((g3 * g3 + s3 * s3) * qh j)); [rewrite CS; ring|ring].
  - intros j Hj. reflexivity.
  - exact (m_q1 _ _ _ _ _ _ _ _ _ _ _ _ _ _ _ _ _ _ H).
  - intros g G. assert (G0 : forall i, (1 <= i <= k)%Z -> ip g (V i) = 0) by (intros i Hi; rewrite <- (V'_old i) by lia; apply G; lia).
    assert (G1 : ip g v4 = 0). { pose proof (G (k + 1)%Z ltac:(lia)) as E. rewrite ip_new in E. destruct (Rmult_integral _ _ E) as [E'|E']; [|exact E']. exfalso. apply (Rinv_neq_0_compat b3 B3). exact E'. }
    destruct (m_d1 _ _ _ _ _ _ _ _ _ _ _ _ _ _ _ _ _ _ H g G0) as (D1 & D2). rewrite ipq, ip_q, D1, G1. split; ring.
  - destruct (m_d2 _ _ _ _ _ _ _ _ _ _ _ _ _ _ _ _ _ _ H) as (D1 & D2). split.
    + rewrite ip_sym, ipq. rewrite !(ip_sym n (K w2)), !ip_q. rewrite qhh, A1, (ip_sym n qh v4), A1, <- b3_sq. rewrite BR. transitivity (s3 * g3 * ((b3 * / b3) * (b3 * / b3) - 1)); [ring|]. rewrite BI. ring.
    + rewrite ip_sym, ipq. rewrite (ip_sym n q1 qh), D1, (ip_sym n q1 v4), A2. ring.
  - intros g G. assert (G0 : forall i, (1 <= i <= k)%Z -> ip g (K (V i)) = 0) by (intros i Hi; rewrite <- (V'_old i) by lia; apply G; lia).
    destruct (q_dual g G0) as (D1 & D2 & _). split; [exact D1|]. split; [exact D2|]. apply z_dual. exact G0.
  - intros g G. assert (G0 : forall i, (1 <= i <= k)%Z -> ip g (V i) = 0) by (intros i Hi; rewrite <- (V'_old i) by lia; apply G; lia).
    destruct (m_d4 _ _ _ _ _ _ _ _ _ _ _ _ _ _ _ _ _ _ H g ltac:(intros; apply G0; lia)) as (D1 & D2). split; [|exact D1].
    rewrite (ip_lin3_r (/ rho1) (- (/ rho1 * rho3)) (- (/ rho1 * rho2)) w2 (V k) w0 w1 g) by (intros j Hj; rewrite Hw2 by auto; unfold u; ring). rewrite D1, D2, G0 by lia. ring.
  - intros i Hi. rewrite V'_old by lia. rewrite (ip_sym n qh'), ipq. rewrite (ip_sym n _ qh), (ip_sym n _ v4), ip_v4_KV by lia. destruct (Z.eqb_spec i k) as [->|Ne].
    + rewrite ip_qh_KVk. unfold s3, g3. field. auto.
    + rewrite (m_d5 _ _ _ _ _ _ _ _ _ _ _ _ _ _ _ _ _ _ H) by lia. ring.
  - destruct (m_z0 _ _ _ _ _ _ _ _ _ _ _ _ _ _ _ _ _ _ H) as (b & E). exists b. rewrite V'_old by lia. exact E.
Qed.
Lemma count : (0 <= n)%Z -> (k <= n)%Z.
Proof.
  intros Hn. apply (orthonormal_count n (fun i => V (i + 1)%Z) k); [pose proof k1; lia|exact Hn|]. intros a b Ha' Hb'. rewrite on by lia. destruct (Z.eqb_spec (a + 1) (b + 1)), (Z.eqb_spec a b); try lia; reflexivity.
Qed.
End S.

(** *** the first state *)
Lemma start b : b = sqrt (ip z0 z0) -> b <> 0 ->
  MI 1 (fun i => if (i =? 1)%Z then (fun j => / b * z0 j) else (fun _ => 0)) (fun _ => 0) (fun _ => b) (fun j => / b * z0 j) (fun _ => 0) (fun _ => 0) (fun _ => 0) z0 (fun _ => 0) (fun _ => 0) z0 b 1 1 0 0 b.
Proof.
  intros Hb B. assert (BS : b * b = ip z0 z0) by (rewrite Hb; apply sqrt_sqrt; apply ip_nonneg).
  assert (N1 : ip (fun j => / b * z0 j) (fun j => / b * z0 j) = 1).
  { rewrite (ip_lin n (/ b) 0 (fun j => / b * z0 j) z0 z0) by (intros; ring). rewrite !(ip_lin_r n (/ b) 0 (fun j => / b * z0 j) z0 z0) by (intros; ring). rewrite <- BS. field. exact B. }
  assert (K0 : pe (K (fun _ => 0)) (fun _ => 0)). { intros j Hj. rewrite (K_ext (fun _ => 0) (fun j => 0 * z0 j + 0 * z0 j)) by (auto; intros i Hi; ring). rewrite (K_lin 0 0 z0 z0 j Hj). ring. }
  assert (I0 : forall g, ip g (fun _ => 0) = 0) by (intros g; apply ip_0_r; intros j Hj; reflexivity).
  split; cbn [Z.eqb Pos.eqb Z.sub Z.add Z.opp Z.pos_sub].
  - lia.
  - exact B.
  - reflexivity.
  - intros j Hj. field. exact B.
  - intros j Hj. reflexivity.
  - intros j Hj. reflexivity.
  - intros a c Ha Hc. replace a with 1%Z by lia. replace c with 1%Z by lia. exact N1.
  - intros i Hi. lia.
  - intros j Hj. field. exact B.
  - exact N1.
  - intros j Hj. ring.
  - intros j Hj. ring.
  - exact K0.
  - exact K0.
  - intros g G. split; [apply (G 1%Z); lia|apply I0].
  - split; apply I0.
  - intros g G. split; [apply I0|]. split; [apply I0|reflexivity].
  - intros g G. split; apply I0.
  - intros i Hi. lia.
  - exists b. intros j Hj. field. exact B.
Qed.
End I.
End N.
