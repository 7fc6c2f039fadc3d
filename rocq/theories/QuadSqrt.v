(** Accuracy of LIS_QUAD_SQRT_SSE2, in rounded real arithmetic. *)
From Coq Require Import ZArith Reals Lra Lia Psatz Bool.
From Flocq Require Import Core.
From Verif Require Import Quad QuadReal QuadSqr QuadAcc QuadDiv.
Open Scope R_scope.

(** The SSE2 code written with the scalar macros. *)
Definition sqrt_form (b : R * R) : R * R :=
  let '(bh, bl) := b in
  let g := rnd (1 / rnd (sqrt bh)) in
  let x := rnd (bh * g) in
  let h := rnd (g * / 2) in
  let '(p1, t1) := two_sqr x in
  let '(sh, eh) := two_diff bh p1 in
  let '(sl, el) := two_diff bl t1 in
  let v := rnd (eh + sl) in
  let '(th, lo) := fast_two_sum sh v in
  let lo := rnd (lo + el) in
  let th := rnd (th + lo) in
  let c := rnd (h * th) in
  fast_two_sum x c.

Lemma sqrt_sse2_form : forall b, quad_sqrt_sse2_core b = sqrt_form b.
Proof.
  intros [bh bl]. unfold quad_sqrt_sse2_core, sqrt_form.
  cbv beta iota zeta delta [set_sd sqrt_pd div_sd mul_sd sub_sd add_sd sub_pd add_pd op_sd op_pd unpacklo_pd unpackhi_pd
    two_sqr two_diff fast_two_sum split fst snd].
  cbn [fadd fsub fmul fdiv fopp fsqrt f1 f2 fhalf fsplit FOpsR].
  set (x := rnd (bh * _)). 
  set (h := rnd (rnd (134217729 * x) - rnd (rnd (134217729 * x) - x))).
  replace (h + h) with (2 * h) by ring. reflexivity.
Qed.

Lemma sqrt_ok : forall b, rnrm b -> bpow radix2 (-900) <= fst b -> fst b <= bpow radix2 1024 ->
  rnrm (quad_sqrt_sse2_core b) /\
  Rabs (rval (quad_sqrt_sse2_core b) - sqrt (rval b)) <= 64 * u * u * sqrt (rval b).
Proof.
  intros [bh bl] Nb HL HU. rewrite sqrt_sse2_form.
  pose proof (rnrm_lo _ Nb) as Lb.
  destruct Nb as (Fbh & Fbl & _). cbn [fst snd] in *.
  unfold sqrt_form, rval at 2 3. cbn [fst snd].
  pose proof u_small as U. pose proof eta_pos as Et.
  assert (B0 : 0 < bh) by (pose proof (bpow_gt_0 radix2 (-900)); lra).
  rewrite (Rabs_pos_eq bh) in Lb by lra.
  set (S := sqrt bh). assert (S0 : 0 < S) by (apply sqrt_lt_R0; auto).
  assert (SS : S * S = bh) by (apply sqrt_sqrt; lra).
  assert (SL : bpow radix2 (-450) <= S).
  { destruct (Rle_or_lt (bpow radix2 (-450)) S) as [H|H]; auto. exfalso.
    assert (S * S < bpow radix2 (-450) * bpow radix2 (-450)) by nra.
    rewrite <- bpow_plus in H0. change (-450 + -450)%Z with (-900)%Z in H0. lra. }
  assert (SU : S <= bpow radix2 512).
  { destruct (Rle_or_lt S (bpow radix2 512)) as [H|H]; auto. exfalso. pose proof (bpow_gt_0 radix2 512).
    assert (bpow radix2 512 * bpow radix2 512 < S * S) by nra.
    rewrite <- bpow_plus in H1. change (512 + 512)%Z with 1024%Z in H1. lra. }
  assert (s1 : 0 <= u * S <= / 2 ^ 50 * S) by (split; [nra|apply Rmult_le_compat_r; lra]).
  assert (s2 : 0 <= u * (u * S) <= / 2 ^ 50 * (u * S)) by (split; [nra|apply Rmult_le_compat_r; lra]).
  assert (n1 : 0 <= u * bh <= / 2 ^ 50 * bh) by (split; [nra|apply Rmult_le_compat_r; lra]).
  assert (n2 : 0 <= u * (u * bh) <= / 2 ^ 50 * (u * bh)) by (split; [nra|apply Rmult_le_compat_r; lra]).
  assert (n3 : 0 <= u * (u * (u * bh)) <= / 2 ^ 50 * (u * (u * bh))) by (split; [nra|apply Rmult_le_compat_r; lra]).
  assert (tiny : forall X, bpow radix2 (-900) <= X -> 16 * eta <= u * (u * (u * X))).
  { intros X HX. apply Rle_trans with (u * (u * (u * bpow radix2 (-900)))).
    - unfold u, eta. rewrite <- !bpow_plus. change 16 with (bpow radix2 4). rewrite <- bpow_plus. apply bpow_le. lia.
    - repeat apply Rmult_le_compat_l; lra. }
  pose proof (tiny bh HL) as tb.
  assert (tS : 16 * eta <= u * (u * (u * S))).
  { apply tiny. apply Rle_trans with (2 := SL). apply bpow_le. lia. }
  set (I := / S).
  assert (I0 : 0 < I) by (now apply Rinv_0_lt_compat).
  assert (IS : I * S = 1) by (unfold I; field; lra).
  assert (IL : bpow radix2 (-512) <= I).
  { unfold I. change (-512)%Z with (- (512))%Z. rewrite bpow_opp. apply Rinv_le; auto. }
  assert (tI : 16 * eta <= u * (u * (u * I))).
  { apply tiny. apply Rle_trans with (2 := IL). apply bpow_le. lia. }
  clear tiny.
  assert (i1 : 0 <= u * I <= / 2 ^ 50 * I) by (split; [nra|apply Rmult_le_compat_r; lra]).
  assert (i2 : 0 <= u * (u * I) <= / 2 ^ 50 * (u * I)) by (split; [nra|apply Rmult_le_compat_r; lra]).
  assert (i3 : 0 <= u * (u * (u * I)) <= / 2 ^ 50 * (u * (u * I))) by (split; [nra|apply Rmult_le_compat_r; lra]).
  assert (s3 : 0 <= u * (u * (u * S)) <= / 2 ^ 50 * (u * (u * S))) by (split; [nra|apply Rmult_le_compat_r; lra]).
  (* the approximations of S and 1/S *)
  pose proof (rnd_err S) as G0. rewrite (Rabs_pos_eq S) in G0 by lra. set (g0 := rnd S) in *. apply Kabs in G0.
  assert (g0p : 0 < g0) by lra.
  assert (G1a : Rabs (1 / g0 - I) <= 9 / 8 * (u * I)).
  { replace (1 / g0 - I) with ((S - g0) * I * / g0).
    2:{ replace ((S - g0) * I * / g0) with ((S * I - g0 * I) / g0) by (unfold Rdiv; ring). rewrite (Rmult_comm S), IS. field. lra. }
    rewrite !Rabs_mult, Rabs_inv, (Rabs_pos_eq I), (Rabs_pos_eq g0) by lra.
    apply Rmult_le_reg_r with g0; auto. rewrite Rmult_assoc, Rinv_l, Rmult_1_r by lra.
    assert (Rabs (S - g0) <= 17 / 16 * (u * S)) by (apply Rabs_le; lra).
    apply Rle_trans with (17 / 16 * (u * S) * I); [apply Rmult_le_compat_r; lra|].
    replace (17 / 16 * (u * S) * I) with (17 / 16 * (u * (I * S))) by ring. rewrite IS.
    replace (9 / 8 * (u * I) * g0) with (9 / 8 * (u * (I * g0))) by ring.
    assert (I * g0 >= 33 / 34).
    { assert (I * g0 >= I * (33 / 34 * S)) by (apply Rmult_ge_compat_l; lra).
      replace (I * (33 / 34 * S)) with (33 / 34 * (I * S)) in H0 by ring. rewrite IS in H0. lra. }
    assert (u * (I * g0) >= u * (33 / 34)) by (apply Rmult_ge_compat_l; lra). lra. }
  apply Kabs in G1a.
  assert (G1b : Rabs (1 / g0) <= 5 / 4 * I) by (apply Rabs_le; lra).
  pose proof (rnd_err_le _ _ G1b) as G1c. set (g := rnd (1 / g0)) in *. apply Kabs in G1c.
  replace (u * (5 / 4 * I)) with (5 / 4 * (u * I)) in G1c by ring.
  assert (G1 : Rabs (g - I) <= 5 / 2 * (u * I)) by (apply Rabs_le; lra).
  assert (HS : bh * I = S) by (rewrite <- SS, Rmult_assoc, (Rmult_comm S I), IS; ring).
  assert (X0 : Rabs (bh * g - S) <= 5 / 2 * (u * S)).
  { replace (bh * g - S) with (bh * (g - I)) by (rewrite <- HS; ring).
    rewrite Rabs_mult, (Rabs_pos_eq bh) by lra.
    apply Rle_trans with (bh * (5 / 2 * (u * I))); [apply Rmult_le_compat_l; lra|].
    replace (bh * (5 / 2 * (u * I))) with (5 / 2 * (u * (bh * I))) by ring. rewrite HS. lra. }
  apply Kabs in X0.
  assert (X1 : Rabs (bh * g) <= 5 / 4 * S) by (apply Rabs_le; lra).
  pose proof (rnd_err_le _ _ X1) as X2.
  assert (Fx : fmt (rnd (bh * g))) by apply rnd_fmt.
  set (x := rnd (bh * g)) in *. apply Kabs in X2.
  replace (u * (5 / 4 * S)) with (5 / 4 * (u * S)) in X2 by ring.
  assert (Xe : Rabs (x - S) <= 4 * (u * S)) by (apply Rabs_le; lra).
  pose proof (Kabs _ _ Xe) as Xe'.
  apply Kabs in G1.
  assert (H0 : Rabs (g * / 2) <= 5 / 8 * I) by (apply Rabs_le; lra).
  pose proof (rnd_err_le _ _ H0) as H1. set (h := rnd (g * / 2)) in *. apply Kabs in H1.
  replace (u * (5 / 8 * I)) with (5 / 8 * (u * I)) in H1 by ring.
  assert (He : Rabs (h - I / 2) <= 2 * (u * I)) by (apply Rabs_le; lra).
  (* the square *)
  assert (xx : Rabs (x * x - bh) <= 9 * (u * bh)).
  { replace (x * x - bh) with ((x - S) * (x + S)) by (rewrite <- SS; ring).
    apply Rle_trans with ((4 * (u * S)) * (9 / 4 * S)).
    - apply abs_prod_le; auto. apply Rabs_le. lra.
    - replace (4 * (u * S) * (9 / 4 * S)) with (9 * (u * (S * S))) by field. rewrite SS. lra. }
  pose proof (Kabs _ _ xx) as xx'.
  assert (Sq : fst (two_sqr x) + snd (two_sqr x) = x * x).
  { apply two_sqr_exact; auto. rewrite Rabs_pos_eq by nra.
    apply Rle_trans with (/ 2 * bpow radix2 (-900)); [|lra].
    apply Rle_trans with (bpow radix2 (-901)); [apply bpow_le; lia|].
    right. change (-900)%Z with (1 + -901)%Z. rewrite (bpow_plus radix2 1). change (bpow radix2 1) with 2. field. }
  destruct (two_sqr_ok x Fx) as (P1 & Ft1 & _).
  assert (P1e : Rabs (fst (two_sqr x) - x * x) <= 9 / 8 * (u * bh)).
  { rewrite P1. apply Rle_trans with (1 := rnd_err _). rewrite (Rabs_pos_eq (x * x)) by nra.
    assert (u * (x * x) <= u * (17 / 16 * bh)) by (apply Rmult_le_compat_l; lra).
    replace (u * (17 / 16 * bh)) with (17 / 16 * (u * bh)) in H by ring. lra. }
  assert (Fp1 : fmt (fst (two_sqr x))) by (rewrite P1; apply rnd_fmt).
  destruct (two_sqr x) as [p1 t1]. cbn [fst snd] in *. apply Kabs in P1e.
  pose proof (two_diff_lo bh p1 Fbh Fp1) as L1. destruct (two_diff_ok bh p1 Fbh Fp1) as [Es1 Es2].
  assert (Feh : fmt (snd (two_diff bh p1))) by apply rnd_fmt.
  destruct (two_diff bh p1) as [sh eh]. cbn [fst snd] in *.
  assert (Fsh : fmt sh) by (rewrite Es1; apply rnd_fmt).
  pose proof (two_diff_lo bl t1 Fbl Ft1) as L2. destruct (two_diff_ok bl t1 Fbl Ft1) as [El1 El2].
  assert (Fel : fmt (snd (two_diff bl t1))) by apply rnd_fmt.
  destruct (two_diff bl t1) as [sl el]. cbn [fst snd] in *.
  assert (Fsl : fmt sl) by (rewrite El1; apply rnd_fmt).
  pose proof (Kabs _ _ Lb) as Lb'.
  assert (D1 : Rabs (bh - p1) <= 21 / 2 * (u * bh)) by (apply Rabs_le; lra).
  assert (D1' : u * Rabs (bh - p1) <= 21 / 2 * (u * (u * bh))).
  { replace (21 / 2 * (u * (u * bh))) with (u * (21 / 2 * (u * bh))) by field. apply Rmult_le_compat_l; lra. }
  assert (D2 : Rabs (bl - t1) <= 9 / 4 * (u * bh)) by (apply Rabs_le; lra).
  assert (D2' : u * Rabs (bl - t1) <= 9 / 4 * (u * (u * bh))).
  { replace (9 / 4 * (u * (u * bh))) with (u * (9 / 4 * (u * bh))) by field. apply Rmult_le_compat_l; lra. }
  assert (Beh : Rabs eh <= 21 / 2 * (u * (u * bh))) by lra.
  assert (Bel : Rabs el <= 9 / 4 * (u * (u * bh))) by lra.
  apply Kabs in D1, D2, Beh, Bel.
  assert (V0 : Rabs (eh + sl) <= 5 / 2 * (u * bh)) by (apply Rabs_le; lra).
  pose proof (rnd_add_err_le eh sl _ Feh Fsl V0) as V1.
  assert (Fv : fmt (rnd (eh + sl))) by apply rnd_fmt. set (v := rnd (eh + sl)) in *. apply Kabs in V0, V1.
  replace (u * (5 / 2 * (u * bh))) with (5 / 2 * (u * (u * bh))) in V1 by ring.
  unfold fast_two_sum at 2 4. cbn [fadd fsub FOpsR].
  assert (W0 : Rabs (sh + v) <= 14 * (u * bh)) by (apply Rabs_le; lra).
  pose proof (rnd_add_err_le sh v _ Fsh Fv W0) as W1.
  assert (Fw : fmt (rnd (sh + v))) by apply rnd_fmt. set (w := rnd (sh + v)) in *. apply Kabs in W0, W1.
  replace (u * (14 * (u * bh))) with (14 * (u * (u * bh))) in W1 by ring.
  assert (d0 : Rabs (w - sh) <= 3 * (u * bh)) by (apply Rabs_le; lra).
  pose proof (rnd_sub_err_le w sh _ Fw Fsh d0) as d1.
  assert (Fd : fmt (rnd (w - sh))) by apply rnd_fmt. set (d := rnd (w - sh)) in *. apply Kabs in d0, d1.
  replace (u * (3 * (u * bh))) with (3 * (u * (u * bh))) in d1 by ring.
  assert (l0 : Rabs (v - d) <= 17 * (u * (u * bh))) by (apply Rabs_le; lra).
  pose proof (rnd_sub_err_le v d _ Fv Fd l0) as l1.
  assert (Fl : fmt (rnd (v - d))) by apply rnd_fmt. set (l := rnd (v - d)) in *. apply Kabs in l0, l1.
  replace (u * (17 * (u * (u * bh)))) with (17 * (u * (u * (u * bh)))) in l1 by ring.
  assert (k0 : Rabs (l + el) <= 20 * (u * (u * bh))) by (apply Rabs_le; lra).
  pose proof (rnd_add_err_le l el _ Fl Fel k0) as k1.
  assert (Fk : fmt (rnd (l + el))) by apply rnd_fmt. set (k := rnd (l + el)) in *. apply Kabs in k0, k1.
  replace (u * (20 * (u * (u * bh)))) with (20 * (u * (u * (u * bh)))) in k1 by ring.
  assert (h0 : Rabs (w + k) <= 15 * (u * bh)) by (apply Rabs_le; lra).
  pose proof (rnd_add_err_le w k _ Fw Fk h0) as h1.
  set (th := rnd (w + k)) in *. apply Kabs in h0, h1.
  replace (u * (15 * (u * bh))) with (15 * (u * (u * bh))) in h1 by ring.
  set (r := bh + bl - x * x).
  assert (rT : Rabs (th - r) <= 22 * (u * (u * bh))) by (unfold r; apply Rabs_le; lra).
  assert (rB : Rabs r <= 11 * (u * bh)) by (unfold r; apply Rabs_le; lra).
  assert (tB : Rabs th <= 12 * (u * bh)) by (apply Kabs in rT, rB; apply Rabs_le; lra).
  (* the correction *)
  assert (bI : forall q, q * bh * I = q * S) by (intros; rewrite Rmult_assoc, HS; auto).
  assert (C1 : Rabs (h * th - r * (I / 2)) <= 36 * (u * (u * S))).
  { replace (h * th - r * (I / 2)) with ((h - I / 2) * th + (I / 2) * (th - r)) by ring.
    apply Rle_trans with (1 := Rabs_triang _ _).
    apply Rle_trans with ((2 * (u * I)) * (12 * (u * bh)) + (I / 2) * (22 * (u * (u * bh)))).
    - apply Rplus_le_compat; apply abs_prod_le; auto. rewrite Rabs_pos_eq; lra.
    - replace (2 * (u * I) * (12 * (u * bh)) + I / 2 * (22 * (u * (u * bh)))) with (35 * (u * (u * (bh * I)))) by field.
      rewrite HS. lra. }
  assert (C2 : Rabs (r * (I / 2)) <= 6 * (u * S)).
  { apply Rle_trans with ((11 * (u * bh)) * (I / 2)).
    - apply abs_prod_le; auto. rewrite Rabs_pos_eq; lra.
    - replace (11 * (u * bh) * (I / 2)) with (11 / 2 * (u * (bh * I))) by field. rewrite HS. lra. }
  pose proof (Kabs _ _ C1) as C1'. pose proof (Kabs _ _ C2) as C2'.
  assert (C3 : Rabs (h * th) <= 7 * (u * S)) by (apply Rabs_le; lra).
  pose proof (rnd_err_le _ _ C3) as C4.
  assert (Fc : fmt (rnd (h * th))) by apply rnd_fmt. set (c := rnd (h * th)) in *. apply Kabs in C3, C4.
  replace (u * (7 * (u * S))) with (7 * (u * (u * S))) in C4 by ring.
  (* the exact square root *)
  set (s := sqrt (bh + bl)).
  assert (sp : 0 <= s) by apply sqrt_pos.
  assert (ss : s * s = bh + bl) by (apply sqrt_sqrt; lra).
  assert (sS : Rabs (s - S) <= 9 / 8 * (u * S)).
  { assert (E : (s - S) * (s + S) = bl) by (replace ((s - S) * (s + S)) with (s * s - S * S) by ring; rewrite ss, SS; ring).
    assert (0 < s + S) by lra.
    assert (Rabs (s - S) * (s + S) <= u * bh).
    { rewrite <- (Rabs_pos_eq (s + S)), <- Rabs_mult, E by lra. lra. }
    apply Rmult_le_reg_r with S; auto.
    apply Rle_trans with (Rabs (s - S) * (s + S)).
    - apply Rmult_le_compat_l. apply Rabs_pos. lra.
    - apply Rle_trans with (1 := H2). replace (9 / 8 * (u * S) * S) with (9 / 8 * (u * (S * S))) by field. rewrite SS. lra. }
  apply Kabs in sS.
  assert (dx : (s - x) * (s + x) = r) by (unfold r; replace ((s - x) * (s + x)) with (s * s - x * x) by ring; rewrite ss; ring).
  assert (sx : 0 < s + x) by lra.
  assert (Fin : Rabs (r * (I / 2) - (s - x)) <= 18 * (u * (u * S))).
  { apply Rmult_le_reg_r with S; auto.
    replace (Rabs (r * (I / 2) - (s - x)) * S) with (Rabs ((r * (I / 2) - (s - x)) * S)).
    2:{ rewrite Rabs_mult, (Rabs_pos_eq S) by lra. reflexivity. }
    replace ((r * (I / 2) - (s - x)) * S) with ((s - x) * ((s + x - 2 * S) / 2)).
    2:{ rewrite <- dx. replace (((s - x) * (s + x) * (I / 2) - (s - x)) * S) with ((s - x) * ((s + x) * (I * S) / 2 - S)) by field.
        rewrite IS. field. }
    apply Rle_trans with ((6 * (u * S)) * (3 * (u * S))).
    - apply abs_prod_le; apply Rabs_le; lra.
    - right; ring. }
  apply Kabs in Fin.
  assert (Cs : Rabs (x + c - s) <= 62 * (u * (u * S))) by (apply Rabs_le; lra).
  destruct (fts_nrm x c Fx Fc) as [Nr V].
  { apply fast_two_sum_le; auto. rewrite (Rabs_pos_eq x) by lra. apply Rabs_le. lra. }
  split; [exact Nr|].
  match goal with |- Rabs (?a - ?z) <= _ => change a with (rval (fast_two_sum x c)); change z with s end.
  rewrite V. apply Rle_trans with (1 := Cs).
  assert (u * (u * S) <= u * (u * (64 / 63 * s))) by (repeat apply Rmult_le_compat_l; lra).
  replace (64 * u * u * s) with (63 * (u * (u * (64 / 63 * s)))) by field.
  assert (0 <= u * (u * (64 / 63 * s))) by (repeat apply Rmult_le_pos; lra).
  lra.
Qed.
