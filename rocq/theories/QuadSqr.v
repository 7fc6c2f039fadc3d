(** TWO_SQR. *)
From Coq Require Import ZArith Reals Lra Lia Psatz Bool.
From Flocq Require Import Core.
From Verif Require Import Quad QuadReal.
Open Scope R_scope.

Lemma cexp_mag : forall x e, bpow radix2 (e - 1) <= Rabs x -> (e - 53 <= cexp radix2 fexp x)%Z.
Proof.
  intros x e H. assert (e <= mag radix2 x)%Z by now apply mag_ge_bpow. unfold cexp, FLT_exp. lia.
Qed.

Lemma abs_mul_le : forall x y a b, Rabs x <= bpow radix2 a -> Rabs y <= bpow radix2 b -> Rabs (x * y) <= bpow radix2 (a + b).
Proof.
  intros. rewrite Rabs_mult, bpow_plus. apply Rmult_le_compat; auto using Rabs_pos.
Qed.

Lemma split_grid : forall x, fmt x -> x <> 0 -> (-1020 <= cexp radix2 fexp x)%Z ->
  let e := cexp radix2 fexp x in
  (exists k, fst (split x) = IZR k * bpow radix2 (e + 27)) /\ Rabs (fst (split x)) <= bpow radix2 (e + 53) /\
  (exists k, snd (split x) = IZR k * bpow radix2 e) /\ Rabs (snd (split x)) <= bpow radix2 (e + 26).
Proof.
  intros x Hx Hn He e.
  assert (V : Valid_exp (FLT_exp (-1074) 26)) by (apply FLT_exp_valid; reflexivity).
  destruct (split_ok x Hx) as [S _]. pose proof (split_hi x Hx) as H.
  assert (C : (cexp radix2 (FLT_exp (-1074) 26) x = e + 27)%Z).
  { unfold e in *. unfold cexp, FLT_exp in *. lia. }
  assert (G : exists k, fst (split x) = IZR k * bpow radix2 (e + 27)).
  { rewrite H, <- C. unfold round, F2R. simpl. eexists. reflexivity. }
  assert (M : e = (mag radix2 x - 53)%Z) by (unfold e in *; unfold cexp, FLT_exp in *; lia).
  assert (D : Rabs (fst (split x) - x) <= / 2 * bpow radix2 (e + 27)).
  { rewrite H, <- C. rewrite <- ulp_neq_0 by auto. apply error_le_half_ulp. auto. }
  split; auto. split; [|split].
  - rewrite H. apply abs_round_le_generic; try typeclasses eauto.
    + apply generic_format_bpow. unfold FLT_exp. lia.
    + apply Rlt_le. replace (e + 53)%Z with (mag radix2 x : Z) by lia. apply bpow_mag_gt.
  - replace (snd (split x)) with (x - fst (split x)) by lra.
    apply grid_sub. apply grid_of_fmt; auto; unfold e; lia. apply grid_le with (e + 27)%Z; auto. lia.
  - replace (snd (split x)) with (- (fst (split x) - x)) by lra. rewrite Rabs_Ropp.
    apply Rle_trans with (1 := D). replace (e + 27)%Z with (1 + (e + 26))%Z by lia.
    rewrite (bpow_plus radix2 1). simpl (bpow radix2 1). lra.
Qed.

Lemma two_sqr_unfold : forall x, snd (two_sqr x) =
  rnd (rnd (rnd (rnd (fst (split x) * fst (split x)) - rnd (x * x)) + rnd (rnd (2 * fst (split x)) * snd (split x)))
       + rnd (snd (split x) * snd (split x))).
Proof. intros. unfold two_sqr. destruct (split x). reflexivity. Qed.

Lemma two_sqr_fst : forall x, fst (two_sqr x) = rnd (x * x).
Proof. intros. unfold two_sqr. destruct (split x). reflexivity. Qed.

Lemma bsum : forall e a b c, (a < c)%Z -> (b < c)%Z -> forall x y, Rabs x <= bpow radix2 (e + a) -> Rabs y <= bpow radix2 (e + b) ->
  Rabs (x + y) <= bpow radix2 (e + c).
Proof.
  intros e a b c Ha Hb x y Hx Hy. apply Rle_trans with (1 := Rabs_triang _ _).
  assert (bpow radix2 (e + a) <= bpow radix2 (e + c - 1)) by (apply bpow_le; lia).
  assert (bpow radix2 (e + b) <= bpow radix2 (e + c - 1)) by (apply bpow_le; lia).
  replace (e + c)%Z with (1 + (e + c - 1))%Z at 1 by lia. rewrite (bpow_plus radix2 1). simpl (bpow radix2 1). lra.
Qed.

Lemma two_sqr_exact : forall x, fmt x -> bpow radix2 (-969) <= Rabs (x * x) ->
  fst (two_sqr x) + snd (two_sqr x) = x * x.
Proof.
  intros x Hx Hb.
  assert (Hn : x <> 0). { intros ->. rewrite Rmult_0_l, Rabs_R0 in Hb. pose proof (bpow_gt_0 radix2 (-969)). lra. }
  assert (L : bpow radix2 (-485) <= Rabs x).
  { destruct (Rle_or_lt (bpow radix2 (-485)) (Rabs x)) as [H|H]; auto.
    exfalso. rewrite Rabs_mult in Hb. pose proof (Rabs_pos x).
    assert (Rabs x * Rabs x < bpow radix2 (-485) * bpow radix2 (-485)) by nra.
    rewrite <- bpow_plus in H1. assert (bpow radix2 (-485 + -485) <= bpow radix2 (-969)) by (apply bpow_le; lia). lra. }
  assert (M : (-484 <= mag radix2 x)%Z) by (apply mag_ge_bpow; auto).
  set (e := cexp radix2 fexp x).
  assert (He : e = (mag radix2 x - 53)%Z) by (unfold e, cexp, FLT_exp; lia).
  destruct (split_grid x Hx Hn ltac:(fold e; lia)) as (G1 & B1 & G2 & B2). fold e in G1, B1, G2, B2.
  destruct (split_ok x Hx) as [S _].
  rewrite two_sqr_fst, two_sqr_unfold.
  set (h := fst (split x)) in *. set (l := snd (split x)) in *.
  assert (Hx53 : Rabs x < bpow radix2 (e + 53)).
  { rewrite He. replace (mag radix2 x - 53 + 53)%Z with (mag radix2 x : Z) by lia. apply bpow_mag_gt. }
  assert (Hx52 : bpow radix2 (e + 52) <= Rabs x).
  { rewrite He. replace (mag radix2 x - 53 + 52)%Z with (mag radix2 x - 1)%Z by lia. now apply bpow_mag_le. }
  assert (Hx2 : Rabs (x * x) < bpow radix2 (2 * e + 106)).
  { rewrite Rabs_mult. replace (2 * e + 106)%Z with ((e + 53) + (e + 53))%Z by lia. rewrite bpow_plus.
    pose proof (Rabs_pos x). nra. }
  assert (Hx2' : bpow radix2 (2 * e + 104) <= Rabs (x * x)).
  { rewrite Rabs_mult. replace (2 * e + 104)%Z with ((e + 52) + (e + 52))%Z by lia. rewrite bpow_plus.
    pose proof (bpow_gt_0 radix2 (e + 52)). nra. }
  (* the product and its error *)
  assert (Er : Rabs (rnd (x * x) - x * x) <= bpow radix2 (2 * e + 52)).
  { apply Rle_trans with (/ 2 * bpow radix2 (2 * e + 53)).
    - apply rnd_half_ulp; [|lia]. replace (2 * e + 53 + 53)%Z with (2 * e + 106)%Z by lia. auto.
    - replace (2 * e + 53)%Z with (1 + (2 * e + 52))%Z by lia. rewrite (bpow_plus radix2 1). simpl (bpow radix2 1). lra. }
  assert (Gr : exists k, rnd (x * x) = IZR k * bpow radix2 (2 * e + 52)).
  { apply grid_le with (cexp radix2 fexp (x * x)).
    - unfold rnd, round, F2R. simpl. eexists. reflexivity.
    - assert (2 * e + 105 - 53 <= cexp radix2 fexp (x * x))%Z; [|lia].
      apply cexp_mag. replace (2 * e + 105 - 1)%Z with (2 * e + 104)%Z by lia. auto. }
  assert (Gx : exists k, x = IZR k * bpow radix2 e) by (apply grid_of_fmt; auto; unfold e; lia).
  assert (Gxx : exists k, x * x = IZR k * bpow radix2 (2 * e)).
  { replace (2 * e)%Z with (e + e)%Z by lia. now apply grid_mul. }
  (* exact products *)
  assert (Ghh : exists k, h * h = IZR k * bpow radix2 (2 * e + 54)).
  { replace (2 * e + 54)%Z with ((e + 27) + (e + 27))%Z by lia. now apply grid_mul. }
  assert (Bhh : Rabs (h * h) <= bpow radix2 (2 * e + 106)).
  { replace (2 * e + 106)%Z with ((e + 53) + (e + 53))%Z by lia. now apply abs_mul_le. }
  assert (G2h : exists k, 2 * h = IZR k * bpow radix2 (e + 27)).
  { replace (2 * h) with (h + h) by ring. now apply grid_add. }
  assert (B2h : Rabs (2 * h) <= bpow radix2 (e + 54)).
  { replace (2 * h) with (h + h) by ring. apply bsum with 53%Z 53%Z; auto; lia. }
  assert (Ghl : exists k, 2 * h * l = IZR k * bpow radix2 (2 * e + 27)).
  { replace (2 * e + 27)%Z with ((e + 27) + e)%Z by lia. now apply grid_mul. }
  assert (Bhl : Rabs (2 * h * l) <= bpow radix2 (2 * e + 80)).
  { replace (2 * e + 80)%Z with ((e + 54) + (e + 26))%Z by lia. now apply abs_mul_le. }
  assert (Gll : exists k, l * l = IZR k * bpow radix2 (2 * e)).
  { replace (2 * e)%Z with (e + e)%Z by lia. now apply grid_mul. }
  assert (Bll : Rabs (l * l) <= bpow radix2 (2 * e + 52)).
  { replace (2 * e + 52)%Z with ((e + 26) + (e + 26))%Z by lia. now apply abs_mul_le. }
  rewrite (rnd_id (h * h)).
  2:{ apply fmt_of_grid with (2 * e + 54)%Z; auto; [lia|]. apply Rle_trans with (1 := Bhh). apply bpow_le. lia. }
  rewrite (rnd_id (2 * h)).
  2:{ apply fmt_of_grid with (e + 27)%Z; auto; [lia|]. apply Rle_trans with (1 := B2h). apply bpow_le. lia. }
  rewrite (rnd_id (2 * h * l)).
  2:{ apply fmt_of_grid with (2 * e + 27)%Z; auto; [lia|]. apply Rle_trans with (1 := Bhl). apply bpow_le. lia. }
  rewrite (rnd_id (l * l)).
  2:{ apply fmt_of_grid with (2 * e)%Z; auto; [lia|]. apply Rle_trans with (1 := Bll). apply bpow_le. lia. }
  set (r := rnd (x * x)) in *.
  assert (Q : x * x = h * h + 2 * h * l + l * l) by (rewrite <- S; ring).
  assert (Er' : Rabs (- (r - x * x)) <= bpow radix2 (2 * e + 52)) by (now rewrite Rabs_Ropp).
  assert (Bll' : Rabs (- (l * l)) <= bpow radix2 (2 * e + 52)) by (now rewrite Rabs_Ropp).
  assert (Bhl' : Rabs (- (2 * h * l)) <= bpow radix2 (2 * e + 80)) by (now rewrite Rabs_Ropp).
  assert (B3 : Rabs (h * h - r + 2 * h * l) <= bpow radix2 (2 * e + 53)).
  { replace (h * h - r + 2 * h * l) with (- (r - x * x) + - (l * l)) by (rewrite Q; ring).
    apply bsum with 52%Z 52%Z; auto; lia. }
  rewrite (rnd_id (h * h - r)).
  2:{ apply fmt_of_grid with (2 * e + 52)%Z; [|lia|].
      - apply grid_sub; auto. apply grid_le with (2 * e + 54)%Z; auto. lia.
      - replace (h * h - r) with ((h * h - r + 2 * h * l) + - (2 * h * l)) by ring.
        apply Rle_trans with (bpow radix2 (2 * e + 81)); [|apply bpow_le; lia].
        apply bsum with 53%Z 80%Z; auto; lia. }
  rewrite (rnd_id (h * h - r + 2 * h * l)).
  2:{ apply fmt_of_grid with (2 * e)%Z; auto; [|lia].
      apply grid_add. apply grid_sub. apply grid_le with (2 * e + 54)%Z; auto; lia.
      apply grid_le with (2 * e + 52)%Z; auto; lia. apply grid_le with (2 * e + 27)%Z; auto; lia. }
  replace (h * h - r + 2 * h * l + l * l) with (- (r - x * x)) by (rewrite Q; ring).
  rewrite (rnd_id (- (r - x * x))).
  2:{ apply fmt_of_grid with (2 * e)%Z; [|lia|].
      - apply grid_opp, grid_sub; auto. apply grid_le with (2 * e + 52)%Z; auto; lia.
      - apply Rle_trans with (1 := Er'). apply bpow_le. lia. }
  ring.
Qed.

(** A coarse bound, without condition on the exponent. *)
Lemma two_sqr_small : forall x, fmt x ->
  Rabs (x * x - (fst (two_sqr x) + snd (two_sqr x))) <= 512 * (u * Rabs (x * x)) + 16 * eta.
Proof.
  intros x Hx.
  assert (V : Valid_exp (FLT_exp (-1074) 26)) by (apply FLT_exp_valid; reflexivity).
  destruct (split_ok x Hx) as [S _]. pose proof (split_hi x Hx) as H.
  rewrite two_sqr_fst, two_sqr_unfold.
  assert (Fh : fmt (fst (split x))) by (rewrite split_velt; apply rnd_fmt).
  set (h := fst (split x)) in *. set (l := snd (split x)) in *.
  set (a := Rabs x). assert (Ha : 0 <= a) by apply Rabs_pos.
  assert (Bh : Rabs h <= 2 * a).
  { destruct (Req_dec x 0) as [E0|E0].
    - unfold a. rewrite H, E0, round_0, Rabs_R0 by typeclasses eauto. lra.
    - apply Rle_trans with (bpow radix2 (mag radix2 x)).
      + rewrite H. apply abs_round_le_generic; try typeclasses eauto.
        * apply generic_format_bpow.
          assert (-1073 <= mag radix2 x)%Z.
          { apply mag_ge_bpow. destruct (grid_of_fmt x (-1074) Hx (cexp_ge x)) as [k Hk].
            rewrite Hk, Rabs_mult, (Rabs_pos_eq (bpow _ _)) by apply bpow_ge_0.
            change (-1073 - 1)%Z with (-1074)%Z. rewrite <- (Rmult_1_l (bpow radix2 (-1074))) at 1.
            apply Rmult_le_compat_r. apply bpow_ge_0. rewrite <- abs_IZR. apply (IZR_le 1).
            assert (k <> 0)%Z by (intros ->; apply E0; rewrite Hk; ring). lia. }
          unfold FLT_exp. lia.
        * apply Rlt_le, bpow_mag_gt.
      + pose proof (bpow_mag_le radix2 x E0) as L. fold a in L.
        replace (mag radix2 x : Z) with (1 + (mag radix2 x - 1))%Z by lia. rewrite bpow_plus. simpl (bpow radix2 1). lra. }
  assert (Bl : Rabs l <= 3 * a).
  { replace l with (x - h) by lra. apply Rle_trans with (1 := Rabs_triang _ _). rewrite Rabs_Ropp. fold a. lra. }
  set (t := Rabs (x * x)).
  assert (T : t = a * a) by (unfold t, a; apply Rabs_mult).
  assert (T0 : 0 <= t) by apply Rabs_pos.
  assert (B1 : Rabs (h * h) <= 4 * t).
  { rewrite Rabs_mult, T. pose proof (Rabs_pos h). nra. }
  assert (B2 : Rabs (2 * h * l) <= 12 * t).
  { rewrite !Rabs_mult, T, (Rabs_pos_eq 2) by lra. pose proof (Rabs_pos h). pose proof (Rabs_pos l).
    replace (12 * (a * a)) with (2 * ((2 * a) * (3 * a))) by ring. rewrite Rmult_assoc. apply Rmult_le_compat_l; [lra|].
    apply Rmult_le_compat; auto. }
  assert (B3 : Rabs (l * l) <= 9 * t).
  { rewrite Rabs_mult, T. pose proof (Rabs_pos l). nra. }
  assert (Q : x * x = h * h + 2 * h * l + l * l) by (rewrite <- S; ring).
  pose proof eta_pos as Et.
  assert (Uu : 0 < u <= / 2 ^ 50).
  { split. apply u_pos. unfold u. apply Rle_trans with (bpow radix2 (-50)). apply bpow_le; lia. simpl. lra. }
  assert (ut : 0 <= u * t <= / 2 ^ 50 * t) by (split; [nra|apply Rmult_le_compat_r; lra]).
  assert (ue : 0 <= u * eta <= / 2 ^ 50 * eta) by (split; [nra|apply Rmult_le_compat_r; lra]).
  assert (U : forall w k j, Rabs w <= k * t + j * eta -> Rabs (rnd w - w) <= k * (u * t) + j * (u * eta) + eta / 2).
  { intros w k j Hw. apply Rle_trans with (1 := rnd_err w). apply Rplus_le_compat_r.
    replace (k * (u * t) + j * (u * eta)) with (u * (k * t + j * eta)) by ring. apply Rmult_le_compat_l; lra. }
  assert (K : forall w k, Rabs w <= k -> - k <= w <= k).
  { intros w k Hw. apply Rabs_le_inv in Hw. lra. }
  rewrite (rnd_id (2 * h)) by now apply fmt_double.
  assert (E1 := U (h * h) 4 0 ltac:(lra)).
  assert (E3 := U (x * x) 1 0 ltac:(fold t; lra)).
  assert (E4 := U (2 * h * l) 12 0 ltac:(lra)).
  assert (E5 := U (l * l) 9 0 ltac:(lra)).
  apply K in E1, E3, E4, E5, B1, B2, B3.
  assert (Hb' : - t <= x * x <= t) by (apply K; unfold t; lra).
  assert (E6 := U (rnd (h * h) - rnd (x * x)) 6 2 ltac:(apply Rabs_le; lra)). apply K in E6.
  assert (E7 := U (rnd (rnd (h * h) - rnd (x * x)) + rnd (2 * h * l)) 19 4 ltac:(apply Rabs_le; lra)). apply K in E7.
  assert (E8 := U (rnd (rnd (rnd (h * h) - rnd (x * x)) + rnd (2 * h * l)) + rnd (l * l)) 30 6 ltac:(apply Rabs_le; lra)).
  apply K in E8.
  apply Rabs_le. lra.
Qed.
