(** Accuracy of the double-double macros, in rounded real arithmetic. *)
From Coq Require Import ZArith Reals Lra Lia Psatz Bool.
From Flocq Require Import Core.
From Verif Require Import Quad QuadReal QuadSqr.
Open Scope R_scope.

Definition rval (q : R * R) : R := fst q + snd q.
Definition rnrm (q : R * R) : Prop := fmt (fst q) /\ fmt (snd q) /\ fst q = rnd (rval q).

Lemma rnrm_lo : forall q, rnrm q -> Rabs (snd q) <= u * Rabs (fst q).
Proof.
  intros [h l] (F1 & F2 & E). unfold rval in E. cbn [fst snd] in *.
  pose proof (rnd_add_err_r h l F1 F2) as H. rewrite <- E in H.
  replace (h - (h + l)) with (- l) in H by ring. now rewrite Rabs_Ropp in H.
Qed.

Lemma Kabs : forall w k, Rabs w <= k -> - k <= w <= k.
Proof. intros w k Hw. apply Rabs_le_inv in Hw. lra. Qed.

Lemma u_small : 0 < u <= / 2 ^ 50.
Proof. split. apply u_pos. unfold u. apply Rle_trans with (bpow radix2 (-50)). apply bpow_le; lia. simpl. lra. Qed.

(** After an exact FAST_TWO_SUM the result is normalised. *)
Lemma fts_nrm : forall a b, fmt a -> fmt b ->
  fst (fast_two_sum a b) = rnd (a + b) /\ fst (fast_two_sum a b) + snd (fast_two_sum a b) = a + b ->
  rnrm (fast_two_sum a b) /\ rval (fast_two_sum a b) = a + b.
Proof.
  intros a b Ha Hb [E1 E2]. split; [|exact E2]. split; [|split].
  - rewrite E1. apply rnd_fmt.
  - apply rnd_fmt.
  - unfold rval. now rewrite E2.
Qed.

Lemma rnd_err_le : forall w k, Rabs w <= k -> Rabs (rnd w - w) <= u * k + eta / 2.
Proof.
  intros w k H. apply Rle_trans with (1 := rnd_err w). pose proof u_pos.
  apply Rplus_le_compat_r. apply Rmult_le_compat_l; lra.
Qed.

Lemma rnd_add_err_le : forall x y k, fmt x -> fmt y -> Rabs (x + y) <= k -> Rabs (rnd (x + y) - (x + y)) <= u * k.
Proof.
  intros x y k Hx Hy H. apply Rle_trans with (1 := rnd_add_err x y Hx Hy). pose proof u_pos.
  apply Rmult_le_compat_l; lra.
Qed.

Lemma abs_prod_le : forall x y a b, Rabs x <= a -> Rabs y <= b -> Rabs (x * y) <= a * b.
Proof. intros. rewrite Rabs_mult. apply Rmult_le_compat; auto using Rabs_pos. Qed.

(** Common part of the products: a first product [p1 + e] close to
    [bh*ch = P], and corrections. *)
Lemma mul_tail : forall P p1 s2 z k d,
  fmt p1 -> fmt s2 -> 
  Rabs (p1 - P) <= u * Rabs P + eta / 2 ->
  Rabs s2 <= 8 * u * Rabs P + d ->
  Rabs (p1 + s2 - z) <= k ->
  0 <= d <= bpow radix2 (-1030) ->
  rnrm (fast_two_sum p1 s2) /\ Rabs (rval (fast_two_sum p1 s2) - z) <= k.
Proof.
  intros P p1 s2 z k d F1 F2 H1 H2 H3 Hd.
  destruct (fts_nrm p1 s2 F1 F2) as [N V]; [|now rewrite V].
  apply fast_two_sum_ok; auto.
  pose proof u_small as U. pose proof (Rabs_pos P) as PP.
  assert (Et : 0 < eta <= bpow radix2 (-1030)).
  { split. apply eta_pos. unfold eta. apply bpow_le. lia. }
  set (q := bpow radix2 (-1030)) in *.
  destruct (Rle_or_lt (8 * q) (Rabs P)) as [H|H]; [left|right].
  - apply Kabs in H1.
    assert (Rabs P <= Rabs p1 + Rabs (p1 - P)).
    { replace P with (p1 - (p1 - P)) at 1 by ring. apply Rle_trans with (1 := Rabs_triang _ _). rewrite Rabs_Ropp. lra. }
    assert (Rabs (p1 - P) <= u * Rabs P + eta / 2) by (apply Rabs_le; lra).
    assert (u * Rabs P <= / 2 ^ 50 * Rabs P) by (apply Rmult_le_compat_r; lra).
    lra.
  - assert (u * Rabs P <= / 2 ^ 50 * Rabs P) by (apply Rmult_le_compat_r; lra).
    apply Rle_lt_trans with (1 := H2).
    apply Rlt_le_trans with (bpow radix2 9 * q).
    + simpl. lra.
    + unfold q. rewrite <- bpow_plus. apply bpow_le. lia.
Qed.

Lemma hi_val : forall h l, Rabs l <= u * Rabs h -> Rabs h <= 9 / 8 * Rabs (h + l).
Proof.
  intros h l H. pose proof u_small as U.
  assert (Rabs h <= Rabs (h + l) + Rabs l).
  { replace h with ((h + l) - l) at 1 by ring. apply Rle_trans with (1 := Rabs_triang _ _). rewrite Rabs_Ropp. lra. }
  assert (u * Rabs h <= / 2 ^ 50 * Rabs h) by (apply Rmult_le_compat_r; [apply Rabs_pos|lra]).
  pose proof (Rabs_pos h). lra.
Qed.

Lemma quad_mul_ok : forall b c, rnrm b -> rnrm c ->
  rnrm (quad_mul false b c) /\
  Rabs (rval (quad_mul false b c) - rval b * rval c) <= 16 * u * u * Rabs (rval b * rval c) + 8 * eta.
Proof.
  intros [bh bl] [ch cl] Nb Nc.
  pose proof (rnrm_lo _ Nb) as Lb. pose proof (rnrm_lo _ Nc) as Lc.
  destruct Nb as (Fbh & Fbl & _). destruct Nc as (Fch & Fcl & _). cbn [fst snd] in *.
  unfold quad_mul. change (TWO_PROD false) with (@two_prod R FOpsR).
  destruct (two_prod_dekker bh ch Fbh Fch) as (E1 & _ & E2).
  destruct (fmt_fst_two_prod bh ch) as [F1 F2].
  destruct (two_prod bh ch) as [p1 e]. cbn [fst snd fadd fmul FOpsR] in *.
  pose proof u_small as U. pose proof eta_pos as Et.
  set (P := bh * ch) in *. set (A := Rabs P).
  assert (A0 : 0 <= A) by apply Rabs_pos.
  assert (B1 : Rabs (bh * cl) <= u * A).
  { unfold A, P. rewrite !Rabs_mult. pose proof (Rabs_pos bh). nra. }
  assert (B2 : Rabs (bl * ch) <= u * A).
  { unfold A, P. rewrite !Rabs_mult. pose proof (Rabs_pos ch). nra. }
  assert (B3 : Rabs (bl * cl) <= u * (u * A)).
  { unfold A, P. rewrite !Rabs_mult. pose proof (Rabs_pos bl). pose proof (Rabs_pos cl). pose proof (Rabs_pos bh). pose proof (Rabs_pos ch).
    apply Rle_trans with ((u * Rabs bh) * (u * Rabs ch)); [apply Rmult_le_compat; auto|]. right; ring. }
  assert (a1 : 0 <= u * A <= / 2 ^ 50 * A) by (split; [nra|apply Rmult_le_compat_r; lra]).
  assert (a2 : 0 <= u * (u * A) <= / 2 ^ 50 * (u * A)) by (split; [nra|apply Rmult_le_compat_r; lra]).
  assert (a3 : 0 <= u * (u * (u * A)) <= / 2 ^ 50 * (u * (u * A))) by (split; [nra|apply Rmult_le_compat_r; lra]).
  assert (ue : 0 <= u * eta <= / 2 ^ 50 * eta) by (split; [nra|apply Rmult_le_compat_r; lra]).
  assert (Ep : Rabs (p1 - P) <= u * A + eta / 2) by (rewrite E1; apply rnd_err).
  pose proof Ep as Ep'. apply Kabs in Ep'. pose proof E2 as E2'. apply Kabs in E2'.
  pose proof (rnd_err_le _ _ B1) as M1. pose proof (rnd_err_le _ _ B2) as M2.
  apply Kabs in B1, B2, B3, M1, M2.
  set (m1 := rnd (bh * cl)) in *. set (m2 := rnd (bl * ch)) in *.
  assert (S1 : Rabs (e + m1) <= 3 * (u * A) + 6 * eta) by (apply Rabs_le; lra).
  pose proof (rnd_add_err_le e m1 _ F2 (rnd_fmt _) S1) as R1. apply Kabs in S1, R1.
  set (s1 := rnd (e + m1)) in *.
  assert (S2 : Rabs (s1 + m2) <= 4 * (u * A) + 8 * eta) by (apply Rabs_le; lra).
  pose proof (rnd_add_err_le s1 m2 _ (rnd_fmt _) (rnd_fmt _) S2) as R2. apply Kabs in S2, R2.
  set (s2 := rnd (s1 + m2)) in *.
  set (B := Rabs ((bh + bl) * (ch + cl))).
  assert (AB : A <= 3 / 2 * B).
  { unfold A, B, P. rewrite !Rabs_mult. pose proof (hi_val _ _ Lb). pose proof (hi_val _ _ Lc).
    pose proof (Rabs_pos bh). pose proof (Rabs_pos ch). pose proof (Rabs_pos (bh + bl)). pose proof (Rabs_pos (ch + cl)).
    apply Rle_trans with ((9 / 8 * Rabs (bh + bl)) * (9 / 8 * Rabs (ch + cl))).
    - apply Rmult_le_compat; auto.
    - nra. }
  unfold rval. cbn [fst snd]. fold B.
  apply (mul_tail P p1 s2 ((bh + bl) * (ch + cl)) _ (9 * eta)); auto.
  - apply rnd_fmt.
  - fold A. replace (8 * u * A) with (8 * (u * A)) by ring. apply Rabs_le. lra.
  - assert (AB2 : u * (u * A) <= u * (u * (3 / 2 * B))) by (repeat apply Rmult_le_compat_l; lra).
    replace (16 * u * u * B) with (32 / 3 * (u * (u * (3 / 2 * B)))) by field.
    replace ((bh + bl) * (ch + cl)) with (P + bh * cl + bl * ch + bl * cl) by (unfold P; ring).
    replace (u * (3 * (u * A) + 6 * eta)) with (3 * (u * (u * A)) + 6 * (u * eta)) in R1 by ring.
    replace (u * (4 * (u * A) + 8 * eta)) with (4 * (u * (u * A)) + 8 * (u * eta)) in R2 by ring.
    apply Rabs_le. lra.
  - unfold eta. change (-1074)%Z with (-44 + -1030)%Z. rewrite bpow_plus. simpl (bpow radix2 (-44)).
    pose proof (bpow_gt_0 radix2 (-1030)). lra.
Qed.

Lemma eta_tiny : 0 < 2 ^ 44 * eta <= bpow radix2 (-1030).
Proof.
  unfold eta. change (-1074)%Z with (-44 + -1030)%Z. rewrite bpow_plus. simpl (bpow radix2 (-44)).
  pose proof (bpow_gt_0 radix2 (-1030)). lra.
Qed.

Lemma quad_muld_ok : forall b c, rnrm b -> fmt c ->
  rnrm (quad_muld false b c) /\
  Rabs (rval (quad_muld false b c) - rval b * c) <= 8 * u * u * Rabs (rval b * c) + 8 * eta.
Proof.
  intros [bh bl] c Nb Fc.
  pose proof (rnrm_lo _ Nb) as Lb.
  destruct Nb as (Fbh & Fbl & _). cbn [fst snd] in *.
  unfold quad_muld. change (TWO_PROD false) with (@two_prod R FOpsR).
  destruct (two_prod_dekker bh c Fbh Fc) as (E1 & _ & E2).
  destruct (fmt_fst_two_prod bh c) as [F1 F2].
  destruct (two_prod bh c) as [p1 e]. cbn [fst snd fadd fmul FOpsR] in *.
  pose proof u_small as U. pose proof eta_pos as Et.
  set (P := bh * c) in *. set (A := Rabs P).
  assert (A0 : 0 <= A) by apply Rabs_pos.
  assert (B2 : Rabs (bl * c) <= u * A).
  { unfold A, P. rewrite !Rabs_mult. pose proof (Rabs_pos c). nra. }
  assert (a1 : 0 <= u * A <= / 2 ^ 50 * A) by (split; [nra|apply Rmult_le_compat_r; lra]).
  assert (a2 : 0 <= u * (u * A) <= / 2 ^ 50 * (u * A)) by (split; [nra|apply Rmult_le_compat_r; lra]).
  assert (ue : 0 <= u * eta <= / 2 ^ 50 * eta) by (split; [nra|apply Rmult_le_compat_r; lra]).
  assert (Ep : Rabs (p1 - P) <= u * A + eta / 2) by (rewrite E1; apply rnd_err).
  pose proof Ep as Ep'. apply Kabs in Ep'. pose proof E2 as E2'. apply Kabs in E2'.
  pose proof (rnd_err_le _ _ B2) as M2.
  apply Kabs in B2, M2.
  set (m2 := rnd (bl * c)) in *.
  assert (S2 : Rabs (e + m2) <= 3 * (u * A) + 8 * eta) by (apply Rabs_le; lra).
  pose proof (rnd_add_err_le e m2 _ F2 (rnd_fmt _) S2) as R2. apply Kabs in S2, R2.
  set (s2 := rnd (e + m2)) in *.
  set (B := Rabs ((bh + bl) * c)).
  assert (AB : A <= 3 / 2 * B).
  { unfold A, B, P. rewrite !Rabs_mult. pose proof (hi_val _ _ Lb).
    pose proof (Rabs_pos bh). pose proof (Rabs_pos c). pose proof (Rabs_pos (bh + bl)). nra. }
  unfold rval. cbn [fst snd]. fold B.
  apply (mul_tail P p1 s2 ((bh + bl) * c) _ (9 * eta)); auto.
  - apply rnd_fmt.
  - fold A. replace (8 * u * A) with (8 * (u * A)) by ring. apply Rabs_le. lra.
  - assert (AB2 : u * (u * A) <= u * (u * (3 / 2 * B))) by (repeat apply Rmult_le_compat_l; lra).
    replace (8 * u * u * B) with (16 / 3 * (u * (u * (3 / 2 * B)))) by field.
    replace ((bh + bl) * c) with (P + bl * c) by (unfold P; ring).
    replace (u * (3 * (u * A) + 8 * eta)) with (3 * (u * (u * A)) + 8 * (u * eta)) in R2 by ring.
    apply Rabs_le. lra.
  - pose proof eta_tiny. lra.
Qed.

Definition sqr_err (A : R) : R := if Rle_lt_dec (bpow radix2 (-969)) A then 0 else 512 * (u * A) + 16 * eta.

Lemma two_sqr_ok : forall x, fmt x ->
  fst (two_sqr x) = rnd (x * x) /\ fmt (snd (two_sqr x)) /\
  Rabs (x * x - (fst (two_sqr x) + snd (two_sqr x))) <= sqr_err (Rabs (x * x)).
Proof.
  intros x Hx. split; [apply two_sqr_fst|]. split.
  - rewrite two_sqr_unfold. apply rnd_fmt.
  - unfold sqr_err. destruct (Rle_lt_dec (bpow radix2 (-969)) (Rabs (x * x))) as [H|H].
    + rewrite two_sqr_exact by auto. unfold Rminus. rewrite Rplus_opp_r, Rabs_R0. lra.
    + now apply two_sqr_small.
Qed.

Lemma sqr_err_le : forall A, 0 <= A -> 0 <= sqr_err A <= 512 * (u * A) + 16 * eta /\ sqr_err A <= bpow radix2 (-1012).
Proof.
  intros A HA. pose proof u_small as U. pose proof eta_pos as Et.
  assert (0 <= u * A) by nra. pose proof (bpow_gt_0 radix2 (-1012)).
  unfold sqr_err. destruct (Rle_lt_dec (bpow radix2 (-969)) A) as [L|L]; [lra|]. split; [lra|].
  assert (u * A <= bpow radix2 (-1022)).
  { change (-1022)%Z with (-53 + -969)%Z. rewrite bpow_plus. fold u. apply Rmult_le_compat_l; lra. }
  pose proof eta_tiny. assert (bpow radix2 (-1030) <= bpow radix2 (-1022)) by (apply bpow_le; lia).
  change (-1012)%Z with (10 + -1022)%Z. rewrite (bpow_plus radix2 10). simpl (bpow radix2 10). lra.
Qed.

Lemma quad_sqr_ok : forall b, rnrm b ->
  rnrm (quad_sqr false b) /\
  Rabs (rval (quad_sqr false b) - rval b * rval b) <= 16 * u * u * Rabs (rval b * rval b) + bpow radix2 (-1000).
Proof.
  intros [bh bl] Nb.
  pose proof (rnrm_lo _ Nb) as Lb.
  destruct Nb as (Fbh & Fbl & _). cbn [fst snd] in *.
  unfold quad_sqr. change (TWO_SQR false) with (@two_sqr R FOpsR).
  destruct (two_sqr_ok bh Fbh) as (E1 & F2 & Ez).
  assert (F1 : fmt (fst (two_sqr bh))) by (rewrite E1; apply rnd_fmt).
  destruct (two_sqr bh) as [p1 e]. cbn [fst snd fadd fmul f2 FOpsR] in *.
  pose proof u_small as U. pose proof eta_pos as Et. pose proof eta_tiny as Etn.
  rewrite (rnd_id (2 * bh)) by now apply fmt_double.
  set (P := bh * bh) in *. set (A := Rabs P) in *.
  assert (A0 : 0 <= A) by apply Rabs_pos.
  assert (B1 : Rabs (2 * bh * bl) <= 2 * (u * A)).
  { unfold A, P. rewrite !Rabs_mult, (Rabs_pos_eq 2) by lra. pose proof (Rabs_pos bh).
    rewrite Rmult_assoc. apply Rmult_le_compat_l; [lra|]. nra. }
  assert (B2 : Rabs (bl * bl) <= u * (u * A)).
  { unfold A, P. rewrite !Rabs_mult. pose proof (Rabs_pos bl). pose proof (Rabs_pos bh).
    apply Rle_trans with ((u * Rabs bh) * (u * Rabs bh)); [apply Rmult_le_compat; auto|]. right; ring. }
  assert (a1 : 0 <= u * A <= / 2 ^ 50 * A) by (split; [nra|apply Rmult_le_compat_r; lra]).
  assert (a2 : 0 <= u * (u * A) <= / 2 ^ 50 * (u * A)) by (split; [nra|apply Rmult_le_compat_r; lra]).
  assert (a3 : 0 <= u * (u * (u * A)) <= / 2 ^ 50 * (u * (u * A))) by (split; [nra|apply Rmult_le_compat_r; lra]).
  assert (ue : 0 <= u * eta <= / 2 ^ 50 * eta) by (split; [nra|apply Rmult_le_compat_r; lra]).
  destruct (sqr_err_le A A0) as [Z1 Z2]. set (z := sqr_err A) in *.
  assert (uz : 0 <= u * z <= / 2 ^ 50 * z) by (split; [nra|apply Rmult_le_compat_r; lra]).
  assert (Ep : Rabs (p1 - P) <= u * A + eta / 2) by (rewrite E1; apply rnd_err).
  pose proof Ep as Ep'. apply Kabs in Ep'. apply Kabs in Ez.
  pose proof (rnd_err_le _ _ B1) as M1. pose proof (rnd_err_le _ _ B2) as M2.
  apply Kabs in B1, B2, M1, M2.
  set (m1 := rnd (2 * bh * bl)) in *. set (m2 := rnd (bl * bl)) in *.
  assert (S1 : Rabs (e + m1) <= 4 * (u * A) + 6 * eta + z) by (apply Rabs_le; lra).
  pose proof (rnd_add_err_le e m1 _ F2 (rnd_fmt _) S1) as R1. apply Kabs in S1, R1.
  set (s1 := rnd (e + m1)) in *.
  assert (S2 : Rabs (s1 + m2) <= 5 * (u * A) + 8 * eta + 2 * z) by (apply Rabs_le; lra).
  pose proof (rnd_add_err_le s1 m2 _ (rnd_fmt _) (rnd_fmt _) S2) as R2. apply Kabs in S2, R2.
  set (s2 := rnd (s1 + m2)) in *.
  set (B := Rabs ((bh + bl) * (bh + bl))).
  assert (AB : A <= 81 / 64 * B).
  { unfold A, B, P. rewrite !Rabs_mult. pose proof (hi_val _ _ Lb).
    pose proof (Rabs_pos bh). pose proof (Rabs_pos (bh + bl)).
    apply Rle_trans with ((9 / 8 * Rabs (bh + bl)) * (9 / 8 * Rabs (bh + bl))).
    - apply Rmult_le_compat; auto.
    - nra. }
  assert (Q : 2 ^ 6 * bpow radix2 (-1012) <= bpow radix2 (-1000)).
  { change (-1000)%Z with (12 + -1012)%Z. rewrite bpow_plus. simpl (bpow radix2 12). pose proof (bpow_gt_0 radix2 (-1012)). lra. }
  assert (Q' : bpow radix2 (-1030) <= bpow radix2 (-1012)) by (apply bpow_le; lia).
  unfold rval. cbn [fst snd]. fold B.
  replace (u * (4 * (u * A) + 6 * eta + z)) with (4 * (u * (u * A)) + 6 * (u * eta) + u * z) in R1 by ring.
  replace (u * (5 * (u * A) + 8 * eta + 2 * z)) with (5 * (u * (u * A)) + 8 * (u * eta) + 2 * (u * z)) in R2 by ring.
  assert (T : Rabs (p1 + s2 - (bh + bl) * (bh + bl)) <= 16 * u * u * B + bpow radix2 (-1000)).
  { assert (AB2 : u * (u * A) <= u * (u * (81 / 64 * B))) by (repeat apply Rmult_le_compat_l; lra).
    replace (16 * u * u * B) with (16 * 64 / 81 * (u * (u * (81 / 64 * B)))) by field.
    replace ((bh + bl) * (bh + bl)) with (P + 2 * bh * bl + bl * bl) by (unfold P; ring).
    apply Rabs_le. lra. }
  destruct (fts_nrm p1 s2 F1 (rnd_fmt _)) as [N V].
  2:{ split; auto. unfold rval in V. now rewrite V. }
  assert (Bs : Rabs s2 <= 2000 * (u * A) + 100 * eta) by (apply Rabs_le; lra).
  apply fast_two_sum_ok; auto; [apply rnd_fmt|].
  set (q := bpow radix2 (-1030)) in *.
  destruct (Rle_or_lt q A) as [H|H]; [left|right].
  - apply Rle_trans with (1 := Bs).
    assert (A <= Rabs p1 + (u * A + eta / 2)).
    { unfold A. replace P with (p1 - (p1 - P)) at 1 by ring. apply Rle_trans with (1 := Rabs_triang _ _).
      rewrite Rabs_Ropp. apply Rplus_le_compat_l. exact Ep. }
    lra.
  - apply Rle_lt_trans with (1 := Bs). apply Rlt_le_trans with (bpow radix2 9 * q).
    + simpl. lra.
    + unfold q. rewrite <- bpow_plus. apply bpow_le. lia.
Qed.

Lemma cexp_le : forall x k, x <> 0 -> Rabs x < bpow radix2 k -> (cexp radix2 fexp x <= Z.max (k - 53) (-1074))%Z.
Proof.
  intros x k Hx H. assert (mag radix2 x <= k)%Z by (apply mag_le_bpow; auto). unfold cexp, FLT_exp. lia.
Qed.

(** Heavy cancellation in the high parts. *)
Lemma cancel_grid : forall x y t, fmt x -> fmt y -> t <> 0 ->
  Rabs (x + y) <= / 2 * Rabs x -> Rabs t <= 16 * u * Rabs x ->
  exists k, rnd (x + y) = IZR k * bpow radix2 (cexp radix2 fexp t).
Proof.
  intros x y t Fx Fy Ht H1 H2.
  assert (X : x <> 0). { intros ->. rewrite Rabs_R0, Rmult_0_r in H2. apply Ht. destruct (Req_dec t 0) as [|Z]; auto. apply Rabs_pos_lt in Z. lra. }
  assert (Y : / 2 * Rabs x <= Rabs y).
  { assert (Rabs x <= Rabs (x + y) + Rabs y).
    { replace x with ((x + y) - y) at 1 by ring. apply Rle_trans with (1 := Rabs_triang _ _). rewrite Rabs_Ropp. lra. }
    lra. }
  set (m := mag radix2 x : Z).
  assert (Mx : bpow radix2 (m - 1) <= Rabs x < bpow radix2 m).
  { split. now apply bpow_mag_le. apply bpow_mag_gt. }
  set (g := Z.max (m - 54) (-1074)).
  assert (Gx : exists k, x = IZR k * bpow radix2 g).
  { apply grid_of_fmt; auto. unfold g, cexp, FLT_exp. fold m. lia. }
  assert (Gy : exists k, y = IZR k * bpow radix2 g).
  { apply grid_of_fmt; auto. unfold g, cexp, FLT_exp.
    assert (m - 1 <= mag radix2 y)%Z; [|lia].
    apply mag_ge_bpow. apply Rle_trans with (2 := Y). apply Rle_trans with (/ 2 * bpow radix2 (m - 1)); [|lra].
    replace (m - 1)%Z with (1 + (m - 1 - 1))%Z at 2 by lia. rewrite bpow_plus. simpl (bpow radix2 1). lra. }
  assert (C : (cexp radix2 fexp t <= Z.max (m - 49 - 53) (-1074))%Z).
  { apply cexp_le; auto. apply Rle_lt_trans with (1 := H2).
    replace (m - 49)%Z with (4 + -53 + m)%Z by lia. rewrite !bpow_plus. fold u. change (bpow radix2 4) with 16. pose proof u_pos. nra. }
  apply grid_le with g; [|unfold g; lia]. apply grid_rnd; [|unfold g; lia]. now apply grid_add.
Qed.

Lemma quad_add_fast_ok : forall b c, rnrm b -> rnrm c ->
  rnrm (quad_add_fast b c) /\
  Rabs (rval (quad_add_fast b c) - (rval b + rval c)) <= 8 * u * u * (Rabs (rval b) + Rabs (rval c)).
Proof.
  intros [bh bl] [ch cl] Nb Nc.
  pose proof (rnrm_lo _ Nb) as Lb. pose proof (rnrm_lo _ Nc) as Lc.
  destruct Nb as (Fbh & Fbl & _). destruct Nc as (Fch & Fcl & _). cbn [fst snd] in *.
  unfold quad_add_fast.
  destruct (two_sum_ok bh ch Fbh Fch) as (E1 & E2).
  assert (F2 : fmt (snd (two_sum bh ch))) by apply rnd_fmt.
  destruct (two_sum bh ch) as [sh eh]. cbn [fst snd fadd FOpsR] in *.
  pose proof u_small as U.
  set (M := Rabs bh + Rabs ch).
  pose proof (Rabs_pos bh) as P1. pose proof (Rabs_pos ch) as P2.
  assert (M0 : 0 <= M) by (unfold M; lra).
  assert (uM : 0 <= u * M <= / 2 ^ 50 * M) by (split; [nra|apply Rmult_le_compat_r; lra]).
  assert (uuM : 0 <= u * (u * M) <= / 2 ^ 50 * (u * M)) by (split; [nra|apply Rmult_le_compat_r; lra]).
  assert (uuuM : 0 <= u * (u * (u * M)) <= / 2 ^ 50 * (u * (u * M))) by (split; [nra|apply Rmult_le_compat_r; lra]).
  assert (Beh : Rabs eh <= u * M).
  { replace eh with (- (sh - (bh + ch))) by lra. rewrite Rabs_Ropp, E1.
    apply rnd_add_err_le; auto. apply Rabs_triang. }
  assert (Blo : Rabs bl + Rabs cl <= u * M) by (unfold M; lra).
  assert (Fsh : fmt sh) by (rewrite E1; apply rnd_fmt).
  assert (S1 : Rabs (eh + bl) <= 2 * (u * M)).
  { apply Rle_trans with (1 := Rabs_triang _ _). pose proof (Rabs_pos cl). lra. }
  pose proof (rnd_add_err_le eh bl _ F2 Fbl S1) as R1.
  assert (Bs : Rabs (eh + bl + cl) <= 2 * (u * M)).
  { apply Rle_trans with (1 := Rabs_triang _ _). pose proof (Rabs_triang eh bl). lra. }
  apply Kabs in S1, R1, Bs.
  set (t1 := rnd (eh + bl)) in *.
  assert (S2 : Rabs (t1 + cl) <= 9 / 4 * (u * M)) by (apply Rabs_le; lra).
  pose proof (rnd_add_err_le t1 cl _ (rnd_fmt _) Fcl S2) as R2. apply Kabs in S2, R2.
  assert (F3 : fmt (rnd (t1 + cl))) by apply rnd_fmt.
  set (t2 := rnd (t1 + cl)) in *.
  assert (Bt : Rabs t2 <= 5 / 2 * (u * M)) by (apply Rabs_le; lra).
  destruct (fts_nrm sh t2 Fsh F3) as [N V].
  - apply fast_two_sum_grid; auto. intros Ht.
    destruct (Rle_or_lt (Rabs t2) (Rabs sh)) as [H|H].
    + apply grid_of_fmt; auto.
      assert (sh <> 0). { intros ->. rewrite Rabs_R0 in H. apply Ht. destruct (Req_dec t2 0) as [|Z]; auto. apply Rabs_pos_lt in Z. lra. }
      unfold cexp, FLT_exp. assert (mag radix2 t2 <= mag radix2 sh)%Z by (apply mag_le_abs; auto). lia.
    + assert (Hs : Rabs (bh + ch) <= 4 * (u * M)).
      { replace (bh + ch) with (sh + eh) by lra. apply Rle_trans with (1 := Rabs_triang _ _). lra. }
      assert (Hx : Rabs bh <= Rabs ch + Rabs (bh + ch)).
      { replace bh with ((bh + ch) - ch) at 1 by ring. apply Rle_trans with (1 := Rabs_triang _ _). rewrite Rabs_Ropp. lra. }
      assert (Hy : Rabs ch <= Rabs bh + Rabs (bh + ch)).
      { replace ch with ((bh + ch) - bh) at 1 by ring. apply Rle_trans with (1 := Rabs_triang _ _). rewrite Rabs_Ropp. lra. }
      assert (HM : M <= 3 * Rabs bh) by (unfold M in *; lra).
      assert (HM2 : u * M <= u * (3 * Rabs bh)) by (apply Rmult_le_compat_l; lra).
      rewrite E1. apply cancel_grid; auto.
      * lra.
      * replace (16 * u * Rabs bh) with (16 / 3 * (u * (3 * Rabs bh))) by field.
        assert (0 <= u * (3 * Rabs bh)) by nra. lra.
  - split; auto. rewrite V. unfold rval. cbn [fst snd].
    set (B := Rabs (bh + bl) + Rabs (ch + cl)).
    assert (MB : M <= 9 / 8 * B) by (unfold M, B; pose proof (hi_val _ _ Lb); pose proof (hi_val _ _ Lc); lra).
    assert (MB2 : u * (u * M) <= u * (u * (9 / 8 * B))) by (repeat apply Rmult_le_compat_l; lra).
    replace (8 * u * u * B) with (64 / 9 * (u * (u * (9 / 8 * B)))) by field.
    replace (u * (2 * (u * M))) with (2 * (u * (u * M))) in R1 by ring.
    replace (u * (9 / 4 * (u * M))) with (9 / 4 * (u * (u * M))) in R2 by field.
    apply Rabs_le. lra.
Qed.
