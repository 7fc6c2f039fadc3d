(** Rounded real arithmetic for binary64 (round to nearest even, gradual
    underflow, no overflow) and the exactness of the elementary macros. *)
From Coq Require Import ZArith Reals Lra Lia Psatz Bool.
From Flocq Require Import Core Plus_error Mult_error Relative Sterbenz Pff2Flocq.
From Verif Require Import Quad.
Open Scope R_scope.

Notation fexp := (FLT_exp (-1074) 53).
Notation fmt := (generic_format radix2 fexp).
Definition rnd (x : R) : R := round radix2 fexp ZnearestE x.

#[export] Instance fexp_valid : Valid_exp fexp.
Proof. apply FLT_exp_valid. reflexivity. Qed.
#[export] Instance prec53 : Prec_gt_0 53 := eq_refl.

#[export] Instance FOpsR : FOps R := {
  fadd x y := rnd (x + y);
  fsub x y := rnd (x - y);
  fmul x y := rnd (x * y);
  fdiv x y := rnd (x / y);
  ffma x y z := rnd (x * y + z);
  fopp x := - x;
  fsqrt x := rnd (sqrt x);
  feqb := Req_bool;
  fltb := Rlt_bool;
  f0 := 0; f1 := 1; f2 := 2; fhalf := / 2;
  fsplit := 134217729 }.

Ltac foldrnd := repeat match goal with
  | |- context [round radix2 fexp ZnearestE ?w] => change (round radix2 fexp ZnearestE w) with (rnd w) end.
Ltac foldrnd_in H := repeat match type of H with
  | context [round radix2 fexp ZnearestE ?w] => change (round radix2 fexp ZnearestE w) with (rnd w) in H end.

Definition u : R := bpow radix2 (-53).
Definition eta : R := bpow radix2 (-1074).

Lemma u_pos : 0 < u. Proof. apply bpow_gt_0. Qed.
Lemma eta_pos : 0 < eta. Proof. apply bpow_gt_0. Qed.

Lemma rnd_fmt : forall x, fmt (rnd x).
Proof. intros. apply generic_format_round; typeclasses eauto. Qed.

Lemma rnd_id : forall x, fmt x -> rnd x = x.
Proof. intros. apply round_generic; [typeclasses eauto|assumption]. Qed.

Lemma rnd_opp : forall x, rnd (- x) = - rnd x.
Proof. intros. apply round_NE_opp. Qed.

Lemma rnd_0 : rnd 0 = 0.
Proof. apply round_0. typeclasses eauto. Qed.

Lemma fmt_0 : fmt 0. Proof. apply generic_format_0. Qed.

Lemma fmt_opp : forall x, fmt x -> fmt (- x).
Proof. intros. now apply generic_format_opp. Qed.

Lemma rnd_le : forall x y, x <= y -> rnd x <= rnd y.
Proof. intros. apply round_le; auto; typeclasses eauto. Qed.

Lemma choice_sym : forall x : Z, negb (Z.even x) = negb (negb (Z.even (- (x + 1)))).
Proof.
  intros. rewrite Z.even_opp, Z.even_add. simpl. now destruct (Z.even x).
Qed.

(** ** Error bounds of a single operation *)
Lemma u_ro_u : u_ro radix2 53 = u.
Proof. unfold u_ro, u. change (-53 + 1)%Z with (-52)%Z. change (-53)%Z with (-1 + -52)%Z. rewrite bpow_plus. simpl. lra. Qed.

Lemma rnd_add_err : forall x y, fmt x -> fmt y -> Rabs (rnd (x + y) - (x + y)) <= u * Rabs (x + y).
Proof.
  intros x y Hx Hy.
  destruct (FLT_plus_error_N_ex radix2 (-1074) 53 (fun z => negb (Z.even z)) x y Hx Hy) as [e [He E]].
  unfold rnd. rewrite E. rewrite u_ro_u in He.
  replace ((x + y) * (1 + e) - (x + y)) with (e * (x + y)) by ring.
  rewrite Rabs_mult. apply Rmult_le_compat_r. apply Rabs_pos.
  apply Rle_trans with (1 := He). pose proof u_pos.
  apply Rmult_le_reg_r with (1 + u); [lra|]. unfold Rdiv. rewrite Rmult_assoc, Rinv_l by lra. nra.
Qed.

Lemma rnd_add_err_r : forall x y, fmt x -> fmt y -> Rabs (rnd (x + y) - (x + y)) <= u * Rabs (rnd (x + y)).
Proof.
  intros x y Hx Hy.
  destruct (FLT_plus_error_N_round_ex radix2 (-1074) 53 (fun z => negb (Z.even z)) x y Hx Hy) as [e [He E]].
  fold (rnd (x + y)) in E. rewrite E at 2. rewrite u_ro_u in He.
  replace (rnd (x + y) - rnd (x + y) * (1 + e)) with (- e * rnd (x + y)) by ring.
  rewrite Rabs_mult, Rabs_Ropp. apply Rmult_le_compat_r; auto. apply Rabs_pos.
Qed.

Lemma rnd_sub_err : forall x y, fmt x -> fmt y -> Rabs (rnd (x - y) - (x - y)) <= u * Rabs (x - y).
Proof. intros. apply (rnd_add_err x (- y)); auto using fmt_opp. Qed.

Lemma rnd_err : forall x, Rabs (rnd x - x) <= u * Rabs x + eta / 2.
Proof.
  intros x.
  destruct (error_N_FLT radix2 (-1074) 53 ltac:(reflexivity) (fun z => negb (Z.even z)) x) as [e [d [He [Hd [_ E]]]]].
  unfold rnd. rewrite E.
  replace (x * (1 + e) + d - x) with (e * x + d) by ring.
  apply Rle_trans with (1 := Rabs_triang _ _). rewrite Rabs_mult.
  apply Rplus_le_compat.
  - apply Rmult_le_compat_r. apply Rabs_pos. apply Rle_trans with (1 := He).
    unfold u. change (-53)%Z with (-1 + -52)%Z. rewrite bpow_plus. simpl. lra.
  - apply Rle_trans with (1 := Hd). unfold eta. lra.
Qed.

(** ** FAST_TWO_SUM *)
Lemma plus_err_fmt : forall x y, fmt x -> fmt y -> fmt (rnd (x + y) - (x + y)).
Proof. intros. apply plus_error; auto; typeclasses eauto. Qed.

Lemma fast_two_sum_le : forall a b, fmt a -> fmt b -> Rabs b <= Rabs a ->
  fst (fast_two_sum a b) = rnd (a + b) /\ fst (fast_two_sum a b) + snd (fast_two_sum a b) = a + b.
Proof.
  intros a b Ha Hb H. unfold fast_two_sum. cbn [fst snd fadd fsub FOpsR]. split; auto.
  pose proof (Fast2Sum_correct (-1074) 53 (fun z => negb (Z.even z)) ltac:(lia) ltac:(lia) choice_sym a b Ha Hb H) as E.
  fold rnd in E. rewrite <- E at 3. unfold rnd at 3. f_equal. fold rnd.
  change (round radix2 fexp ZnearestE ?x) with (rnd x). f_equal.
  replace (rnd (a + b) - a) with (- (a - rnd (a + b))) by ring. rewrite rnd_opp.
  unfold rnd. ring.
Qed.

Lemma fast_two_sum_of : forall a b, fmt a -> fmt b -> fmt (rnd (a + b) - a) ->
  fst (fast_two_sum a b) = rnd (a + b) /\ fst (fast_two_sum a b) + snd (fast_two_sum a b) = a + b.
Proof.
  intros a b Ha Hb H. unfold fast_two_sum. cbn [fst snd fadd fsub FOpsR]. split; auto.
  rewrite (rnd_id (rnd (a + b) - a) H).
  rewrite (rnd_id (b - (rnd (a + b) - a))). ring.
  replace (b - (rnd (a + b) - a)) with (- (rnd (a + b) - (a + b))) by ring.
  apply fmt_opp. now apply plus_err_fmt.
Qed.

Lemma fmt_grid : forall n e, (Z.abs n <= 2 ^ 53)%Z -> (-1074 <= e)%Z -> fmt (IZR n * bpow radix2 e).
Proof.
  intros n e Hn He.
  destruct (Z.eq_dec (Z.abs n) (2 ^ 53)) as [E|E].
  - assert (fmt (bpow radix2 (53 + e))).
    { apply generic_format_bpow. unfold FLT_exp. lia. }
    rewrite bpow_plus in H. change (bpow radix2 53) with (IZR (2 ^ 53)) in H.
    rewrite <- E in H.
    destruct (Z.abs_spec n) as [[_ A]|[_ A]]; rewrite A in H; auto.
    rewrite opp_IZR in H. replace (IZR n * bpow radix2 e) with (- (- IZR n * bpow radix2 e)) by ring. now apply fmt_opp.
  - apply generic_format_FLT. exists (Float radix2 n e); simpl; auto. change (Z.pow_pos 2 53) with (2 ^ 53)%Z. lia.
Qed.

Lemma grid_of_fmt : forall x e, fmt x -> (e <= cexp radix2 fexp x)%Z -> exists k, x = IZR k * bpow radix2 e.
Proof.
  intros x e Hx He.
  exists (Ztrunc (scaled_mantissa radix2 fexp x) * 2 ^ (cexp radix2 fexp x - e))%Z.
  rewrite Hx at 1. unfold F2R. simpl. rewrite mult_IZR.
  replace (bpow radix2 (cexp radix2 fexp x)) with (IZR (2 ^ (cexp radix2 fexp x - e)) * bpow radix2 e).
  - ring.
  - change 2%Z with (radix_val radix2). rewrite (IZR_Zpower radix2) by lia. rewrite <- bpow_plus. f_equal. lia.
Qed.

Lemma grid_add : forall x y e, (exists k, x = IZR k * bpow radix2 e) -> (exists k, y = IZR k * bpow radix2 e) ->
  exists k, x + y = IZR k * bpow radix2 e.
Proof. intros x y e [k ->] [l ->]. exists (k + l)%Z. rewrite plus_IZR. ring. Qed.
Lemma grid_opp : forall x e, (exists k, x = IZR k * bpow radix2 e) -> exists k, - x = IZR k * bpow radix2 e.
Proof. intros x e [k ->]. exists (- k)%Z. rewrite opp_IZR. ring. Qed.
Lemma grid_sub : forall x y e, (exists k, x = IZR k * bpow radix2 e) -> (exists k, y = IZR k * bpow radix2 e) ->
  exists k, x - y = IZR k * bpow radix2 e.
Proof. intros. apply grid_add; auto. now apply grid_opp. Qed.
Lemma grid_mul : forall x y e f, (exists k, x = IZR k * bpow radix2 e) -> (exists k, y = IZR k * bpow radix2 f) ->
  exists k, x * y = IZR k * bpow radix2 (e + f).
Proof. intros x y e f [k ->] [l ->]. exists (k * l)%Z. rewrite mult_IZR, bpow_plus. ring. Qed.
Lemma grid_le : forall x e f, (exists k, x = IZR k * bpow radix2 e) -> (f <= e)%Z -> exists k, x = IZR k * bpow radix2 f.
Proof.
  intros x e f [k ->] H. exists (k * 2 ^ (e - f))%Z. rewrite mult_IZR.
  change 2%Z with (radix_val radix2). rewrite (IZR_Zpower radix2) by lia.
  rewrite Rmult_assoc, <- bpow_plus. do 2 f_equal. lia.
Qed.

(** A number on a grid, with few significant bits, is a float. *)
Lemma fmt_of_grid : forall x e, (exists k, x = IZR k * bpow radix2 e) -> (-1074 <= e)%Z ->
  Rabs x <= bpow radix2 (e + 53) -> fmt x.
Proof.
  intros x e [k ->] He H. apply fmt_grid; auto.
  rewrite Rabs_mult, (Rabs_pos_eq (bpow _ _)) in H by apply bpow_ge_0.
  rewrite (Z.add_comm e), bpow_plus in H.
  apply Rmult_le_reg_r in H; [|apply bpow_gt_0].
  rewrite <- abs_IZR in H. change (bpow radix2 53) with (IZR (2 ^ 53)) in H. now apply le_IZR.
Qed.

(** Rounding stays on a grid. *)
Lemma grid_rnd : forall x e, (exists k, x = IZR k * bpow radix2 e) -> (-1074 <= e)%Z ->
  exists k, rnd x = IZR k * bpow radix2 e.
Proof.
  intros x e [k Hk] He.
  destruct (Z_le_gt_dec (cexp radix2 fexp x) e) as [H|H].
  - exists k. rewrite rnd_id; auto. rewrite Hk.
    change (fmt (F2R (Float radix2 k e))). apply generic_format_F2R. intros _.
    replace (F2R _) with x by (rewrite Hk; reflexivity). auto.
  - unfold rnd, round, F2R. simpl.
    apply grid_le with (cexp radix2 fexp x); [|lia].
    eexists. reflexivity.
Qed.

Lemma cexp_ge : forall x, (-1074 <= cexp radix2 fexp x)%Z.
Proof. intros. unfold cexp, FLT_exp. lia. Qed.

Lemma cexp_lt : forall x e, x <> 0 -> Rabs x < bpow radix2 (e + 53) -> (-1074 <= e)%Z -> (cexp radix2 fexp x <= e)%Z.
Proof.
  intros x e Hx H He. unfold cexp, FLT_exp. assert (mag radix2 x <= e + 53)%Z by (apply mag_le_bpow; auto). lia.
Qed.

Lemma lt_cexp : forall x, Rabs x < bpow radix2 (cexp radix2 fexp x + 53).
Proof.
  intros x. apply Rlt_le_trans with (bpow radix2 (mag radix2 x)). apply bpow_mag_gt.
  apply bpow_le. unfold cexp, FLT_exp. lia.
Qed.

Lemma rnd_half_ulp : forall x e, Rabs x < bpow radix2 (e + 53) -> (-1074 <= e)%Z ->
  Rabs (rnd x - x) <= / 2 * bpow radix2 e.
Proof.
  intros x e H He. destruct (Req_dec x 0) as [->|Hx].
  - rewrite rnd_0, Rminus_0_r, Rabs_R0. pose proof (bpow_gt_0 radix2 e). lra.
  - apply Rle_trans with (/ 2 * ulp radix2 fexp x).
    + apply error_le_half_ulp. typeclasses eauto.
    + rewrite ulp_neq_0 by auto. apply Rmult_le_compat_l; [lra|]. apply bpow_le. now apply cexp_lt.
Qed.

Lemma fast_two_sum_grid : forall a b, fmt a -> fmt b ->
  (b <> 0 -> exists k, a = IZR k * bpow radix2 (cexp radix2 fexp b)) ->
  fst (fast_two_sum a b) = rnd (a + b) /\ fst (fast_two_sum a b) + snd (fast_two_sum a b) = a + b.
Proof.
  intros a b Ha Hb G.
  destruct (Rle_or_lt (Rabs b) (Rabs a)) as [H|H]; [now apply fast_two_sum_le|].
  apply fast_two_sum_of; auto.
  assert (b <> 0). { intros ->. rewrite Rabs_R0 in H. pose proof (Rabs_pos a). lra. }
  specialize (G H0). set (e := cexp radix2 fexp b) in *.
  assert (He : (-1074 <= e)%Z) by apply cexp_ge.
  assert (Gb : exists k, b = IZR k * bpow radix2 e) by (apply grid_of_fmt; auto; lia).
  apply fmt_of_grid with e; auto.
  - apply grid_sub; auto. apply grid_rnd; auto. now apply grid_add.
  - replace (rnd (a + b) - a) with (b + (rnd (a + b) - (a + b))) by ring.
    apply Rle_trans with (1 := Rabs_triang _ _).
    assert (D : Rabs (rnd (a + b) - (a + b)) <= / 2 * bpow radix2 (e + 1)).
    { apply rnd_half_ulp; [|lia]. pose proof (lt_cexp b). fold e in H1.
      apply Rle_lt_trans with (1 := Rabs_triang _ _).
      replace (e + 1 + 53)%Z with (1 + (e + 53))%Z by lia. rewrite bpow_plus. simpl (bpow radix2 1). lra. }
    rewrite bpow_plus in D. simpl (bpow radix2 1) in D.
    assert (Rabs b <= bpow radix2 (e + 53) - bpow radix2 e).
    { destruct Gb as [k Ek]. pose proof (lt_cexp b) as L. fold e in L.
      rewrite Ek in L |- *. rewrite Rabs_mult, (Rabs_pos_eq (bpow _ _)) in L |- * by apply bpow_ge_0.
      rewrite (Z.add_comm e), bpow_plus in L |- *. pose proof (bpow_gt_0 radix2 e).
      apply Rmult_lt_reg_r in L; auto.
      rewrite <- abs_IZR in *. change (bpow radix2 53) with (IZR (2 ^ 53)) in *.
      apply lt_IZR in L.
      assert (IZR (Z.abs k) <= IZR (2 ^ 53) - 1) by (rewrite <- minus_IZR; apply IZR_le; lia). nra. }
    lra.
Qed.

Lemma fast_two_sum_ok : forall a b, fmt a -> fmt b ->
  Rabs b <= Rabs a \/ Rabs b < bpow radix2 (-1021) ->
  fst (fast_two_sum a b) = rnd (a + b) /\ fst (fast_two_sum a b) + snd (fast_two_sum a b) = a + b.
Proof.
  intros a b Ha Hb [H|H]; [now apply fast_two_sum_le|].
  apply fast_two_sum_grid; auto. intros Hn.
  apply grid_of_fmt; auto.
  transitivity (-1074)%Z. apply cexp_lt; auto. lia. apply cexp_ge.
Qed.

(** ** TWO_SUM, TWO_DIFF *)
Lemma two_sum_ok : forall a b, fmt a -> fmt b ->
  fst (two_sum a b) = rnd (a + b) /\ fst (two_sum a b) + snd (two_sum a b) = a + b.
Proof.
  intros a b Ha Hb. split; auto. unfold two_sum. cbn [fst snd fadd fsub FOpsR].
  exact (TwoSum_correct (-1074) 53 (fun z => negb (Z.even z)) ltac:(lia) ltac:(lia) choice_sym a b Ha Hb).
Qed.

Lemma two_diff_ok : forall a b, fmt a -> fmt b ->
  fst (two_diff a b) = rnd (a - b) /\ fst (two_diff a b) + snd (two_diff a b) = a - b.
Proof.
  intros a b Ha Hb.
  destruct (two_sum_ok a (- b) Ha (fmt_opp _ Hb)) as [E1 E2].
  unfold two_diff, two_sum in *. cbn [fst snd fadd fsub FOpsR] in *.
  split; auto. change (a + - b) with (a - b) in *.
  etransitivity; [|exact E2]. f_equal. unfold Rminus at 1. f_equal. f_equal.
  replace (- b - rnd (rnd (a - b) - a)) with (- (b + rnd (rnd (a - b) - a))) by ring.
  rewrite rnd_opp. reflexivity.
Qed.

(** ** SPLIT *)
Lemma split_velt : forall b, fst (split b) =
  rnd (rnd (b - rnd (b * (bpow radix2 27 + 1))) + rnd (b * (bpow radix2 27 + 1))).
Proof.
  intros b. unfold split. cbn [fst snd fadd fsub fmul fsplit FOpsR].
  replace (134217729 * b) with (b * (bpow radix2 27 + 1)).
  2:{ rewrite Rmult_comm. f_equal. simpl. lra. }
  set (q := rnd (b * (bpow radix2 27 + 1))).
  replace (b - q) with (- (q - b)) by ring. rewrite (rnd_opp (q - b)).
  f_equal. ring.
Qed.

Lemma split_hi : forall b, fmt b -> fst (split b) = round radix2 (FLT_exp (-1074) 26) ZnearestE b.
Proof.
  intros b Hb. rewrite split_velt.
  exact (Veltkamp_Even radix2 (-1074) 53 (fun z => negb (Z.even z)) 27 ltac:(lia) ltac:(lia) ltac:(lia) ltac:(lia) b Hb eq_refl).
Qed.

Lemma fmt26_grid : forall n e, (Z.abs n <= 2 ^ 26)%Z -> (-1074 <= e)%Z ->
  generic_format radix2 (FLT_exp (-1074) 26) (IZR n * bpow radix2 e).
Proof.
  intros n e Hn He. assert (Prec_gt_0 26) by reflexivity.
  destruct (Z.eq_dec (Z.abs n) (2 ^ 26)) as [E|E].
  - assert (G : generic_format radix2 (FLT_exp (-1074) 26) (bpow radix2 (26 + e))).
    { apply generic_format_bpow. unfold FLT_exp. lia. }
    rewrite bpow_plus in G. change (bpow radix2 26) with (IZR (2 ^ 26)) in G.
    rewrite <- E in G.
    destruct (Z.abs_spec n) as [[_ A]|[_ A]]; rewrite A in G; auto.
    rewrite opp_IZR in G. replace (IZR n * bpow radix2 e) with (- (- IZR n * bpow radix2 e)) by ring. now apply generic_format_opp.
  - apply generic_format_FLT. exists (Float radix2 n e); simpl; auto. change (Z.pow_pos 2 26) with (2 ^ 26)%Z. lia.
Qed.

Lemma half_tail : forall b l, fmt b -> l = b - round radix2 (FLT_exp (-1074) 26) ZnearestE b ->
  generic_format radix2 (FLT_exp (-1074) 26) l.
Proof.
  intros b l Hb ->. assert (P26 : Prec_gt_0 26) by reflexivity.
  assert (V : Valid_exp (FLT_exp (-1074) 26)) by (apply FLT_exp_valid; reflexivity).
  destruct (Req_dec b 0) as [->|Hn].
  { rewrite round_0 by typeclasses eauto. rewrite Rminus_0_r. apply generic_format_0. }
  set (h := round radix2 (FLT_exp (-1074) 26) ZnearestE b).
  assert (Hh : Rabs (h - b) <= / 2 * bpow radix2 (cexp radix2 (FLT_exp (-1074) 26) b)).
  { rewrite <- ulp_neq_0 by auto. apply error_le_half_ulp. auto. }
  set (e := cexp radix2 fexp b) in *.
  assert (He : (-1074 <= e)%Z) by apply cexp_ge.
  assert (C : (e <= cexp radix2 (FLT_exp (-1074) 26) b <= e + 27)%Z).
  { subst e. unfold cexp, FLT_exp. lia. }
  destruct (grid_of_fmt b e Hb ltac:(unfold e; lia)) as [k Hk].
  assert (G : exists j, b - h = IZR j * bpow radix2 e).
  { apply grid_sub; [now exists k|]. apply grid_le with (cexp radix2 (FLT_exp (-1074) 26) b); [|lia].
    unfold h, round, F2R. simpl. eexists. reflexivity. }
  destruct G as [j Hj]. rewrite Hj. apply fmt26_grid; auto.
  assert (Rabs (IZR j * bpow radix2 e) <= bpow radix2 (26 + e)).
  { rewrite <- Hj, Rabs_minus_sym. apply Rle_trans with (1 := Hh).
    apply Rle_trans with (/ 2 * bpow radix2 (e + 27)).
    - apply Rmult_le_compat_l; [lra|]. apply bpow_le. lia.
    - replace (e + 27)%Z with (1 + (26 + e))%Z by lia. rewrite (bpow_plus radix2 1). simpl (bpow radix2 1). lra. }
  rewrite Rabs_mult, (Rabs_pos_eq (bpow _ _)), bpow_plus in H by apply bpow_ge_0.
  apply Rmult_le_reg_r in H; [|apply bpow_gt_0]. rewrite <- abs_IZR in H.
  change (bpow radix2 26) with (IZR (2 ^ 26)) in H. now apply le_IZR.
Qed.

(** The two halves have at most 26 significant bits and add up to the number. *)
Lemma split_ok : forall b, fmt b ->
  fst (split b) + snd (split b) = b /\
  generic_format radix2 (FLT_exp (-1074) 26) (fst (split b)) /\
  generic_format radix2 (FLT_exp (-1074) 26) (snd (split b)).
Proof.
  intros b Hb.
  destruct (Veltkamp_tail radix2 (-1074) 53 (fun z => negb (Z.even z)) 27 ltac:(lia) ltac:(lia) ltac:(lia) ltac:(lia) b Hb) as [E T].
  foldrnd_in E. foldrnd_in T.
  assert (S : snd (split b) = rnd (b - fst (split b))) by reflexivity.
  rewrite <- split_velt in E, T. rewrite <- S in E, T.
  split; [lra|]. split.
  - rewrite split_hi by auto. apply generic_format_round; try typeclasses eauto. apply FLT_exp_valid. reflexivity.
  - apply (half_tail b); auto. rewrite <- split_hi by auto. lra.
Qed.

(** ** TWO_PROD *)
Lemma two_prod_dekker : forall a b, fmt a -> fmt b ->
  fst (two_prod a b) = rnd (a * b) /\
  (a * b = 0 \/ bpow radix2 (-969) <= Rabs (a * b) -> fst (two_prod a b) + snd (two_prod a b) = a * b) /\
  Rabs (a * b - (fst (two_prod a b) + snd (two_prod a b))) <= 7 / 2 * eta.
Proof.
  intros a b Ha Hb.
  assert (D := Dekker radix2 (-1074) 53 (fun z => negb (Z.even z)) ltac:(lia) ltac:(lia) a b Ha Hb (or_introl eq_refl)).
  change (53 - Z.div2 53)%Z with 27%Z in D. change (-1074 + 2 * 53 - 1)%Z with (-969)%Z in D.
  foldrnd_in D. rewrite <- !split_velt in D.
  change (rnd (a - fst (split a))) with (snd (split a)) in D.
  change (rnd (b - fst (split b))) with (snd (split b)) in D.
  split.
  { unfold two_prod. destruct (split a), (split b). reflexivity. }
  assert (E : fst (two_prod a b) = rnd (a * b) /\ snd (two_prod a b) =
    rnd (rnd (rnd (rnd (- rnd (a * b) + rnd (fst (split a) * fst (split b))) +
          rnd (fst (split a) * snd (split b))) + rnd (snd (split a) * fst (split b))) +
          rnd (snd (split a) * snd (split b)))).
  { unfold two_prod. destruct (split a) as [x1 x2], (split b) as [y1 y2].
    cbn [fst snd fadd fsub fmul FOpsR]. split; auto.
    replace (rnd (x1 * y1) - rnd (a * b)) with (- rnd (a * b) + rnd (x1 * y1)) by ring. reflexivity. }
  destruct E as [E1 E2]. rewrite <- E2, <- E1 in D.
  split; [intros H; symmetry; apply (proj1 D H)|]. apply (proj2 D).
Qed.

Lemma fmt_fst_two_prod : forall a b, fmt (fst (two_prod a b)) /\ fmt (snd (two_prod a b)).
Proof.
  intros. unfold two_prod. destruct (split a), (split b). cbn. split; apply rnd_fmt.
Qed.

Lemma fmt_double : forall h, fmt h -> fmt (2 * h).
Proof.
  intros h Hh. destruct (grid_of_fmt h (cexp radix2 fexp h) Hh ltac:(lia)) as [k Hk].
  set (c := cexp radix2 fexp h) in *.
  apply fmt_of_grid with (c + 1)%Z.
  - exists k. rewrite Hk at 1. rewrite bpow_plus. change (bpow radix2 1) with 2. ring.
  - pose proof (cexp_ge h). fold c in H. lia.
  - rewrite Rabs_mult, (Rabs_pos_eq 2) by lra. pose proof (lt_cexp h) as L. fold c in L.
    replace (c + 1 + 53)%Z with (1 + (c + 53))%Z by lia. rewrite bpow_plus. simpl (bpow radix2 1). lra.
Qed.
