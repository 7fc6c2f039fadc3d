(** Accuracy of LIS_QUAD_DIV, in rounded real arithmetic. *)
From Coq Require Import ZArith Reals Lra Lia Psatz Bool.
From Flocq Require Import Core.
From Verif Require Import Quad QuadReal QuadSqr QuadAcc.
Open Scope R_scope.

Lemma two_diff_lo : forall x y, fmt x -> fmt y -> Rabs (snd (two_diff x y)) <= u * Rabs (x - y).
Proof.
  intros x y Fx Fy. destruct (two_diff_ok x y Fx Fy) as [E1 E2].
  replace (snd (two_diff x y)) with (- (rnd (x - y) - (x - y))) by lra. rewrite Rabs_Ropp. now apply rnd_sub_err.
Qed.

Lemma rnd_sub_err_le : forall x y k, fmt x -> fmt y -> Rabs (x - y) <= k -> Rabs (rnd (x - y) - (x - y)) <= u * k.
Proof.
  intros x y k Hx Hy H. apply Rle_trans with (1 := rnd_sub_err x y Hx Hy). pose proof u_pos.
  apply Rmult_le_compat_l; lra.
Qed.

Lemma quad_div_ok : forall b c, rnrm b -> rnrm c -> fst c <> 0 ->
  bpow radix2 (-900) <= Rabs (fst b) -> bpow radix2 (-900) <= Rabs (fst b / fst c) ->
  rnrm (quad_div false b c) /\
  Rabs (rval (quad_div false b c) - rval b / rval c) <= 64 * u * u * Rabs (rval b / rval c).
Proof.
  intros [bh bl] [ch cl] Nb Nc Hc HN HQ.
  pose proof (rnrm_lo _ Nb) as Lb. pose proof (rnrm_lo _ Nc) as Lc. pose proof Nc as Nc'.
  destruct Nb as (Fbh & Fbl & _). destruct Nc as (Fch & Fcl & _). cbn [fst snd] in *.
  unfold quad_div. cbn [fadd fsub fdiv FOpsR].
  assert (Ftl : fmt (rnd (bh / ch))) by apply rnd_fmt.
  pose proof (rnd_err (bh / ch)) as Etl.
  set (tl := rnd (bh / ch)) in *.
  destruct (quad_muld_ok (ch, cl) tl Nc' Ftl) as [Ne Ee].
  pose proof (rnrm_lo _ Ne) as Le. destruct Ne as (Feh & Fel & _).
  unfold rval in Ee. destruct (quad_muld false (ch, cl) tl) as [eh el]. cbn [fst snd] in *.
  pose proof (two_diff_lo bh eh Fbh Feh) as Ls. destruct (two_diff_ok bh eh Fbh Feh) as [Es1 Es2].
  assert (Fsl : fmt (snd (two_diff bh eh))) by apply rnd_fmt.
  destruct (two_diff bh eh) as [sh sl]. cbn [fst snd] in *.
  assert (Fsh : fmt sh) by (rewrite Es1; apply rnd_fmt).
  pose proof u_small as U. pose proof eta_pos as Et.
  set (N := Rabs bh) in *. set (Q := Rabs (bh / ch)) in *.
  assert (AC : 0 < Rabs ch) by (now apply Rabs_pos_lt).
  assert (NQ : N = Q * Rabs ch). { unfold N, Q. rewrite <- Rabs_mult. f_equal. field. auto. }
  assert (N0 : 0 < N) by (pose proof (bpow_gt_0 radix2 (-900)); lra).
  assert (Q0 : 0 < Q) by (pose proof (bpow_gt_0 radix2 (-900)); lra).
  assert (n1 : 0 <= u * N <= / 2 ^ 50 * N) by (split; [nra|apply Rmult_le_compat_r; lra]).
  assert (n2 : 0 <= u * (u * N) <= / 2 ^ 50 * (u * N)) by (split; [nra|apply Rmult_le_compat_r; lra]).
  assert (n3 : 0 <= u * (u * (u * N)) <= / 2 ^ 50 * (u * (u * N))) by (split; [nra|apply Rmult_le_compat_r; lra]).
  assert (q1 : 0 <= u * Q <= / 2 ^ 50 * Q) by (split; [nra|apply Rmult_le_compat_r; lra]).
  assert (q2 : 0 <= u * (u * Q) <= / 2 ^ 50 * (u * Q)) by (split; [nra|apply Rmult_le_compat_r; lra]).
  assert (q3 : 0 <= u * (u * (u * Q)) <= / 2 ^ 50 * (u * (u * Q))) by (split; [nra|apply Rmult_le_compat_r; lra]).
  assert (tiny : forall X, bpow radix2 (-900) <= X -> 16 * eta <= u * (u * (u * X))).
  { intros X HX. apply Rle_trans with (u * (u * (u * bpow radix2 (-900)))).
    - unfold u, eta. rewrite <- !bpow_plus. change 16 with (bpow radix2 4). rewrite <- bpow_plus. apply bpow_le. lia.
    - repeat apply Rmult_le_compat_l; lra. }
  pose proof (tiny _ HN) as tN. pose proof (tiny _ HQ) as tQ. clear tiny.
  (* tl * ch is close to bh *)
  assert (Dtl : Rabs (tl - bh / ch) <= 2 * (u * Q)) by lra.
  assert (D1 : Rabs (ch * tl - bh) <= 2 * (u * N)).
  { replace (ch * tl - bh) with ((tl - bh / ch) * ch) by (field; auto).
    rewrite Rabs_mult, NQ. replace (2 * (u * (Q * Rabs ch))) with (2 * (u * Q) * Rabs ch) by ring.
    apply Rmult_le_compat_r; lra. }
  assert (D2 : Rabs (cl * tl) <= 9 / 8 * (u * N)).
  { assert (Rabs (ch * tl) <= 9 / 8 * N).
    { replace (ch * tl) with ((ch * tl - bh) + bh) by ring. apply Rle_trans with (1 := Rabs_triang _ _). fold N. lra. }
    rewrite Rabs_mult in *. pose proof (Rabs_pos tl).
    apply Rle_trans with (u * Rabs ch * Rabs tl); [apply Rmult_le_compat_r; auto|].
    replace (9 / 8 * (u * N)) with (u * (9 / 8 * N)) by field. rewrite Rmult_assoc. apply Rmult_le_compat_l; lra. }
  pose proof (Kabs _ _ D1) as D1'. pose proof (Kabs _ _ D2) as D2'.
  assert (Nb : - N <= bh <= N) by (apply Kabs; unfold N; lra).
  replace ((ch + cl) * tl) with (ch * tl + cl * tl) in Ee by ring.
  assert (D3 : Rabs (ch * tl + cl * tl) <= 5 / 4 * N) by (apply Rabs_le; lra).
  assert (D3' : 8 * u * u * Rabs (ch * tl + cl * tl) <= 10 * (u * (u * N))).
  { replace (10 * (u * (u * N))) with (8 * u * u * (5 / 4 * N)) by field. apply Rmult_le_compat_l; nra. }
  assert (D4 : Rabs (eh + el - (ch * tl + cl * tl)) <= 11 * (u * (u * N))) by lra.
  apply Kabs in D4.
  assert (Beh : Rabs eh <= 9 / 8 * N).
  { pose proof (hi_val eh el Le) as Hv. 
    assert (Rabs (eh + el) <= N + 4 * (u * N)) by (apply Rabs_le; lra).
    assert (Rabs eh <= 9 / 8 * (N + 4 * (u * N))) by lra.
    assert (u * Rabs eh <= / 2 ^ 50 * Rabs eh) by (apply Rmult_le_compat_r; [apply Rabs_pos|lra]).
    replace eh with ((eh + el) - el) by ring. apply Rle_trans with (1 := Rabs_triang _ _). rewrite Rabs_Ropp.
    pose proof (Rabs_pos eh). lra. }
  assert (Bel : Rabs el <= 9 / 8 * (u * N)).
  { apply Rle_trans with (1 := Le). replace (9 / 8 * (u * N)) with (u * (9 / 8 * N)) by field. apply Rmult_le_compat_l; lra. }
  pose proof (Kabs _ _ Bel) as Bel'.
  assert (Bd : Rabs (bh - eh) <= 9 / 2 * (u * N)) by (apply Rabs_le; lra).
  assert (Bsl : Rabs sl <= 9 / 2 * (u * (u * N))).
  { apply Rle_trans with (1 := Ls). replace (9 / 2 * (u * (u * N))) with (u * (9 / 2 * (u * N))) by field. apply Rmult_le_compat_l; lra. }
  apply Kabs in Bd, Bsl. pose proof (Kabs _ _ Lb) as Lb'.
  assert (S1 : Rabs (sl - el) <= 5 / 4 * (u * N)) by (apply Rabs_le; lra).
  pose proof (rnd_sub_err_le sl el _ Fsl Fel S1) as R1.
  assert (F1 : fmt (rnd (sl - el))) by apply rnd_fmt. set (s1 := rnd (sl - el)) in *. apply Kabs in S1, R1.
  assert (S2 : Rabs (s1 + bl) <= 5 / 2 * (u * N)) by (apply Rabs_le; lra).
  pose proof (rnd_add_err_le s1 bl _ F1 Fbl S2) as R2.
  assert (F2 : fmt (rnd (s1 + bl))) by apply rnd_fmt. set (s2 := rnd (s1 + bl)) in *. apply Kabs in S2, R2.
  assert (S3 : Rabs (sh + s2) <= 15 / 2 * (u * N)) by (apply Rabs_le; lra).
  pose proof (rnd_add_err_le sh s2 _ Fsh F2 S3) as R3.
  assert (Fw : fmt (rnd (sh + s2))) by apply rnd_fmt. set (w := rnd (sh + s2)) in *. apply Kabs in S3, R3.
  replace (u * (5 / 4 * (u * N))) with (5 / 4 * (u * (u * N))) in R1 by field.
  replace (u * (5 / 2 * (u * N))) with (5 / 2 * (u * (u * N))) in R2 by field.
  replace (u * (15 / 2 * (u * N))) with (15 / 2 * (u * (u * N))) in R3 by field.
  assert (Bw : Rabs w <= 8 * (u * N)) by (apply Rabs_le; lra).
  set (T := (bh + bl) - (ch + cl) * tl).
  assert (DT : Rabs (w - T) <= 24 * (u * (u * N))) by (unfold T; apply Rabs_le; lra).
  assert (BT : Rabs T <= 5 * (u * N)) by (unfold T; apply Rabs_le; lra).
  (* divide *)
  assert (dv : forall X k, Rabs X <= k * N -> Rabs (X / ch) <= k * Q).
  { intros X k HX. unfold Rdiv. rewrite Rabs_mult, Rabs_inv. 
    apply Rmult_le_reg_r with (Rabs ch); auto. rewrite Rmult_assoc, Rinv_l by lra. rewrite NQ in HX. lra. }
  assert (Dw : Rabs (w / ch) <= 8 * (u * Q)).
  { replace (8 * (u * Q)) with (8 * u * Q) by ring. apply dv. lra. }
  assert (Dd : Rabs (w / ch - T / ch) <= 24 * (u * (u * Q))).
  { replace (w / ch - T / ch) with ((w - T) / ch) by (field; auto).
    replace (24 * (u * (u * Q))) with (24 * u * u * Q) by ring. apply dv. lra. }
  assert (DTc : Rabs (T / ch) <= 5 * (u * Q)).
  { replace (5 * (u * Q)) with (5 * u * Q) by ring. apply dv. lra. }
  pose proof (hi_val ch cl Lc) as Hc98.
  assert (Cn : ch + cl <> 0). { intros E. rewrite E, Rabs_R0 in Hc98. lra. }
  assert (Rc : Rabs (cl / (ch + cl)) <= 9 / 8 * u).
  { unfold Rdiv at 1. rewrite Rabs_mult, Rabs_inv.
    assert (0 < Rabs (ch + cl)) by (now apply Rabs_pos_lt).
    apply Rmult_le_reg_r with (Rabs (ch + cl)); auto. rewrite Rmult_assoc, Rinv_l by lra. nra. }
  assert (DTd : Rabs (T / ch - T / (ch + cl)) <= 6 * (u * (u * Q))).
  { replace (T / ch - T / (ch + cl)) with ((T / ch) * (cl / (ch + cl))) by (field; split; auto).
    apply Rle_trans with ((5 * (u * Q)) * (9 / 8 * u)); [apply abs_prod_le; auto|].
    replace (5 * (u * Q) * (9 / 8 * u)) with (45 / 8 * (u * (u * Q))) by field. lra. }
  pose proof (rnd_err_le _ _ Dw) as Rth.
  replace (u * (8 * (u * Q))) with (8 * (u * (u * Q))) in Rth by ring.
  set (th := rnd (w / ch)) in *.
  assert (Dth : Rabs (th - T / (ch + cl)) <= 40 * (u * (u * Q))).
  { apply Kabs in Rth, DTd, Dd. apply Rabs_le. lra. }
  assert (Bth : Rabs th <= 9 * (u * Q)).
  { apply Kabs in Rth, Dw. apply Rabs_le. lra. }
  assert (Btl : Q <= 2 * Rabs tl).
  { assert (Q <= Rabs tl + Rabs (tl - bh / ch)).
    { unfold Q. replace (bh / ch) with (tl - (tl - bh / ch)) at 1 by ring. apply Rle_trans with (1 := Rabs_triang _ _). rewrite Rabs_Ropp. lra. }
    lra. }
  destruct (fts_nrm tl th Ftl (rnd_fmt _)) as [Nr V].
  { apply fast_two_sum_ok; auto. apply rnd_fmt. left. lra. }
  split; auto. rewrite V. unfold rval. cbn [fst snd].
  replace ((bh + bl) / (ch + cl)) with (tl + T / (ch + cl)) at 1 by (unfold T; field; auto).
  replace (tl + th - (tl + T / (ch + cl))) with (th - T / (ch + cl)) by ring.
  apply Rle_trans with (1 := Dth).
  set (V2 := Rabs ((bh + bl) / (ch + cl))).
  assert (QV : Q <= 5 / 4 * V2).
  { pose proof (hi_val bh bl Lb) as Hb98.
    assert (0 < Rabs (ch + cl)) by (now apply Rabs_pos_lt).
    unfold Q, V2. unfold Rdiv. rewrite !Rabs_mult, !Rabs_inv.
    assert (Rabs (ch + cl) <= 17 / 16 * Rabs ch).
    { apply Rle_trans with (1 := Rabs_triang _ _). 
      assert (u * Rabs ch <= / 2 ^ 50 * Rabs ch) by (apply Rmult_le_compat_r; lra). lra. }
    apply Rmult_le_reg_r with (Rabs ch); auto. rewrite Rmult_assoc, Rinv_l, Rmult_1_r by lra.
    apply Rmult_le_reg_r with (Rabs (ch + cl)); auto.
    replace (5 * / 4 * (Rabs (bh + bl) * / Rabs (ch + cl)) * Rabs ch * Rabs (ch + cl)) with (5 / 4 * Rabs (bh + bl) * Rabs ch) by (field; lra).
    pose proof (Rabs_pos (bh + bl)).
    apply Rle_trans with ((9 / 8 * Rabs (bh + bl)) * (17 / 16 * Rabs ch)).
    - apply Rmult_le_compat; try apply Rabs_pos; auto.
    - assert (0 <= Rabs (bh + bl) * Rabs ch) by (apply Rmult_le_pos; lra).
      replace (9 / 8 * Rabs (bh + bl) * (17 / 16 * Rabs ch)) with (153 / 128 * (Rabs (bh + bl) * Rabs ch)) by field.
      rewrite (Rmult_assoc (5 / 4)). lra. }
  assert (u * (u * Q) <= u * (u * (5 / 4 * V2))) by (repeat apply Rmult_le_compat_l; lra).
  replace (64 * u * u * V2) with (256 / 5 * (u * (u * (5 / 4 * V2)))) by field.
  assert (0 <= V2) by apply Rabs_pos.
  assert (0 <= u * (u * (5 / 4 * V2))) by (repeat apply Rmult_le_pos; lra).
  lra.
Qed.
