(** The quad-precision operations on binary64. *)
From Coq Require Import ZArith Reals Lra Lia Psatz Bool.
From Flocq Require Import Core BinarySingleNaN.
From Verif Require Import Base Quad SpecQuad QuadReal QuadSqr QuadAcc QuadDiv QuadSqrt QuadB64 QuadB64b.
Open Scope R_scope.

Definition toR (q : b64 * b64) : R * R := (B2R (fst q), B2R (snd q)).

Lemma rel2_toR : forall q, Rel2 q (toR q). Proof. intros [x y]. split; apply rel_refl. Qed.
Lemma fin_toR : forall q v, Rel2 q v -> fin q -> toR q = v.
Proof. intros [x y] [v w] [A B] [C D]. unfold toR. cbn [fst snd] in *. now rewrite (A C), (B D). Qed.
Lemma val_toR : forall q, val q = rval (toR q). Proof. reflexivity. Qed.
Lemma normal_fmt : forall x : b64, fmt (B2R x).
Proof. intros x. exact (generic_format_B2R 53 1024 x). Qed.
Lemma normal_toR : forall q, normal q -> rnrm (toR q).
Proof. intros q [_ E]. split; [|split]; try apply normal_fmt. exact E. Qed.
Lemma normal_of : forall q v, Rel2 q v -> fin q -> rnrm v -> normal q.
Proof. intros q v H F (_ & _ & N). split; auto. rewrite <- (fin_toR q v H F) in N. exact N. Qed.

Lemma pow_u : u * u = bpow radix2 (-106). Proof. unfold u. rewrite <- bpow_plus. reflexivity. Qed.
Ltac pw := rewrite ?Rmult_assoc, pow_u.
Lemma p8 : 8 * bpow radix2 (-106) = bpow radix2 (-103).
Proof. change 8 with (bpow radix2 3). rewrite <- bpow_plus. reflexivity. Qed.
Lemma p16 : 16 * bpow radix2 (-106) = bpow radix2 (-102).
Proof. change 16 with (bpow radix2 4). rewrite <- bpow_plus. reflexivity. Qed.
Lemma p64 : 64 * bpow radix2 (-106) = bpow radix2 (-100).
Proof. change 64 with (bpow radix2 6). rewrite <- bpow_plus. reflexivity. Qed.
Lemma p8e : 8 * eta = bpow radix2 (-1071).
Proof. unfold eta. change 8 with (bpow radix2 3). rewrite <- bpow_plus. reflexivity. Qed.
Lemma c8 : 8 * u * u = bpow radix2 (-103). Proof. rewrite Rmult_assoc, pow_u. apply p8. Qed.
Lemma c16 : 16 * u * u = bpow radix2 (-102). Proof. rewrite Rmult_assoc, pow_u. apply p16. Qed.
Lemma c64 : 64 * u * u = bpow radix2 (-100). Proof. rewrite Rmult_assoc, pow_u. apply p64. Qed.

(** Operations by configuration, over any FOps. *)
Lemma add_ok : forall g b c, q_fast_add g = true -> normal b -> normal c -> fin (lis_quad_add g b c) ->
  normal (lis_quad_add g b c) /\
  Rabs (val (lis_quad_add g b c) - (val b + val c)) <= bpow radix2 (-103) * (Rabs (val b) + Rabs (val c)).
Proof.
  intros g b c G Nb Nc H.
  assert (E : Rel2 (lis_quad_add g b c) (quad_add_fast (toR b) (toR c))).
  { unfold lis_quad_add. rewrite G. destruct (q_sse2 g).
    - rewrite <- add_sse2_same. apply rel_add_sse2; apply rel2_toR.
    - apply rel_add_fast; apply rel2_toR. }
  destruct (quad_add_fast_ok _ _ (normal_toR b Nb) (normal_toR c Nc)) as [N B].
  split; [eapply normal_of; eauto|]. rewrite !val_toR, (fin_toR _ _ E H). rewrite <- c8. exact B.
Qed.

Lemma opp_normal : forall q, normal q -> normal (lis_quad_minus q) /\ val (lis_quad_minus q) = - val q.
Proof.
  intros [h l] [[Fh Fl] N]. unfold lis_quad_minus. cbn [fst snd] in *.
  change (fopp h) with (Bopp h). change (fopp l) with (Bopp l).
  unfold normal, fin, finite, val, real in *. cbn [fst snd] in *.
  rewrite !is_finite_Bopp, !B2R_Bopp. split; [split; [auto|]|ring].
  replace (- B2R h + - B2R l) with (- (B2R h + B2R l)) by ring. unfold nearest in *.
  rewrite round_NE_opp. now rewrite <- N.
Qed.
Lemma sub_is_add : forall g (b c : b64 * b64), lis_quad_sub g b c = lis_quad_add g b (lis_quad_minus c).
Proof. reflexivity. Qed.

Lemma sub_ok : forall g b c, q_fast_add g = true -> normal b -> normal c -> fin (lis_quad_sub g b c) ->
  normal (lis_quad_sub g b c) /\
  Rabs (val (lis_quad_sub g b c) - (val b - val c)) <= bpow radix2 (-103) * (Rabs (val b) + Rabs (val c)).
Proof.
  intros g b c G Nb Nc H. rewrite sub_is_add in H. rewrite sub_is_add. destruct (opp_normal c Nc) as [Nm E].
  destruct (add_ok g b _ G Nb Nm H) as [N B]. split; auto. rewrite E, Rabs_Ropp in B. exact B.
Qed.


Lemma mul_ok : forall g b c, no_fma g -> normal b -> normal c -> fin (lis_quad_mul g b c) ->
  normal (lis_quad_mul g b c) /\
  Rabs (val (lis_quad_mul g b c) - val b * val c) <= bpow radix2 (-102) * Rabs (val b * val c) + bpow radix2 (-1071).
Proof.
  intros g b c G Nb Nc H. unfold lis_quad_mul in *. destruct (q_sse2 g) eqn:Q.
  - pose proof (rel_mul_sse2 _ _ _ _ (rel2_toR b) (rel2_toR c)) as E. rewrite mul_sse2_swap in E.
    destruct (quad_mul_ok _ _ (normal_toR c Nc) (normal_toR b Nb)) as [N B].
    split; [eapply normal_of; eauto|]. rewrite !val_toR, (fin_toR _ _ E H). rewrite <- c16, <- p8e.
    rewrite (Rmult_comm (rval (toR b))). exact B.
  - destruct G as [G|G]; [congruence|]. rewrite G in *.
    pose proof (rel_quad_mul _ _ _ _ (rel2_toR b) (rel2_toR c)) as E.
    destruct (quad_mul_ok _ _ (normal_toR b Nb) (normal_toR c Nc)) as [N B].
    split; [eapply normal_of; eauto|]. rewrite !val_toR, (fin_toR _ _ E H). rewrite <- c16, <- p8e. exact B.
Qed.

Lemma muld_ok : forall g b (c : b64), no_fma g -> normal b -> finite c -> fin (lis_quad_mul_dd_d g b c) ->
  normal (lis_quad_mul_dd_d g b c) /\
  Rabs (val (lis_quad_mul_dd_d g b c) - val b * real c) <= bpow radix2 (-103) * Rabs (val b * real c) + bpow radix2 (-1071).
Proof.
  intros g b c G Nb Fc H. 
  assert (E : Rel2 (lis_quad_mul_dd_d g b c) (quad_muld false (toR b) (B2R c))).
  { unfold lis_quad_mul_dd_d in *. destruct (q_sse2 g) eqn:Q.
    - rewrite <- muld_sse2_same. apply rel_muld_sse2; [apply rel2_toR|apply rel_refl].
    - destruct G as [G|G]; [congruence|]. rewrite G in *. apply rel_quad_muld; [apply rel2_toR|apply rel_refl]. }
  destruct (quad_muld_ok _ _ (normal_toR b Nb) (normal_fmt c)) as [N B].
  split; [eapply normal_of; eauto|]. rewrite !val_toR, (fin_toR _ _ E H). rewrite <- c8, <- p8e. exact B.
Qed.

Lemma sqr_ok : forall g b, no_fma g -> normal b -> fin (lis_quad_sqr g b) ->
  normal (lis_quad_sqr g b) /\
  Rabs (val (lis_quad_sqr g b) - val b * val b) <= bpow radix2 (-102) * Rabs (val b * val b) + bpow radix2 (-1000).
Proof.
  intros g b G Nb H. 
  assert (E : Rel2 (lis_quad_sqr g b) (quad_sqr false (toR b))).
  { unfold lis_quad_sqr in *. destruct (q_sse2 g) eqn:Q.
    - rewrite <- sqr_sse2_same. apply rel_sqr_sse2; apply rel2_toR.
    - destruct G as [G|G]; [congruence|]. rewrite G in *. apply rel_quad_sqr; apply rel2_toR. }
  destruct (quad_sqr_ok _ (normal_toR b Nb)) as [N B].
  split; [eapply normal_of; eauto|]. rewrite !val_toR, (fin_toR _ _ E H). rewrite <- c16. exact B.
Qed.

Lemma div_ok : forall g b c, no_fma g -> normal b -> normal c -> real (fst c) <> 0 ->
  bpow radix2 (-900) <= Rabs (real (fst b)) -> bpow radix2 (-900) <= Rabs (real (fst b) / real (fst c)) ->
  fin (lis_quad_div g b c) ->
  normal (lis_quad_div g b c) /\
  Rabs (val (lis_quad_div g b c) - val b / val c) <= bpow radix2 (-100) * Rabs (val b / val c).
Proof.
  intros g b c G Nb Nc Z Lb Lq H.
  assert (E : Rel2 (lis_quad_div g b c) (quad_div false (toR b) (toR c))).
  { unfold lis_quad_div in *. destruct (q_sse2 g) eqn:Q.
    - rewrite <- div_sse2_same. apply rel_div_sse2; auto.
    - destruct G as [G|G]; [congruence|]. rewrite G in *. apply rel_quad_div; auto. apply Nc. }
  destruct (quad_div_ok _ _ (normal_toR b Nb) (normal_toR c Nc) Z Lb Lq) as [N B].
  split; [eapply normal_of; eauto|]. rewrite !val_toR, (fin_toR _ _ E H). rewrite <- c64. exact B.
Qed.

Lemma Beqb0 : forall x : b64, is_finite x = true -> feqb x f0 = Req_bool (B2R x) 0.
Proof. intros x F. change (feqb x f0) with (Beqb x (b64_of 0 0)). rewrite Beqb_correct by auto. reflexivity. Qed.
Lemma Bltb0 : forall x : b64, is_finite x = true -> fltb x f0 = Rlt_bool (B2R x) 0.
Proof. intros x F. change (fltb x f0) with (Bltb x (b64_of 0 0)). rewrite Bltb_correct by auto. reflexivity. Qed.

Lemma sqrt_pos_call : forall g b, normal b -> 0 < real (fst b) ->
  lis_quad_sqrt g b = (LIS_SUCCESS, if q_sse2 g then quad_sqrt_sse2_core b else quad_sqrt_core (q_fast_add g) (q_fma g) b).
Proof.
  intros g b [[F _] _] P. unfold lis_quad_sqrt. unfold real in P. rewrite Beqb0, Bltb0 by auto.
  rewrite Req_bool_false, Rlt_bool_false by lra. reflexivity.
Qed.

Lemma sqrt_sse2_ok : forall g b, q_sse2 g = true -> normal b -> bpow radix2 (-900) <= real (fst b) ->
  fin (snd (lis_quad_sqrt g b)) ->
  fst (lis_quad_sqrt g b) = LIS_SUCCESS /\
  normal (snd (lis_quad_sqrt g b)) /\
  Rabs (val (snd (lis_quad_sqrt g b)) - R_sqrt.sqrt (val b)) <= bpow radix2 (-100) * R_sqrt.sqrt (val b).
Proof.
  intros g b G Nb L H.
  assert (P : 0 < real (fst b)) by (eapply Rlt_le_trans; [apply (bpow_gt_0 radix2 (-900))|exact L]).
  rewrite (sqrt_pos_call g b Nb P), G in *. cbn [fst snd] in *. split; auto.
  assert (S0 : B2R (fsqrt (fst b)) <> 0).
  { destruct (Bsqrt_correct 53 1024 _ _ mode_NE (fst b)) as (E & _ & _). change (Bsqrt mode_NE (fst b)) with (fsqrt (fst b)) in E.
    rewrite E. apply Rgt_not_eq. change (0 < rnd (R_sqrt.sqrt (real (fst b)))).
    apply Rlt_le_trans with (bpow radix2 (-450)); [apply bpow_gt_0|].
    unfold rnd. apply round_ge_generic; try typeclasses eauto. apply generic_format_bpow. unfold FLT_exp. lia.
    apply Rle_trans with (R_sqrt.sqrt (bpow radix2 (-900))); [|now apply sqrt_le_1_alt].
    right. change (-900)%Z with (-450 + -450)%Z. rewrite bpow_plus. rewrite sqrt_square; auto. apply bpow_ge_0. }
  pose proof (rel_sqrt_sse2 b S0) as E.
  assert (U : B2R (fst b) <= bpow radix2 1024).
  { pose proof (abs_B2R_lt_emax 53 1024 (fst b)). apply Rabs_def2 in H0. lra. }
  destruct (QuadSqrt.sqrt_ok (toR b) (normal_toR b Nb) L U) as [N B].
  split; [eapply normal_of; eauto|]. rewrite !val_toR, (fin_toR _ _ E H). rewrite <- c64. exact B.
Qed.

(** Comparison. *)
Lemma normal_lt : forall a b, normal a -> normal b ->
  real (fst a) < real (fst b) -> val a < val b.
Proof.
  intros a b [_ Na] [_ Nb] H. destruct (Rlt_or_le (val a) (val b)) as [|L]; auto.
  exfalso. assert (real (fst b) <= real (fst a)); [|lra]. rewrite Na, Nb. unfold nearest. apply round_le; auto; typeclasses eauto.
Qed.
Lemma fltb_real : forall x y : b64, finite x -> finite y -> fltb x y = Rlt_bool (real x) (real y).
Proof. intros. apply Bltb_correct; auto. Qed.
Lemma feqb_real : forall x y : b64, finite x -> finite y -> feqb x y = Req_bool (real x) (real y).
Proof. intros. apply Beqb_correct; auto. Qed.
Lemma cmp_ok : forall a b, normal a -> normal b ->
  (fltb (fst b) (fst a) || (feqb (fst a) (fst b) && fltb (snd b) (snd a)))%bool = Rlt_bool (val b) (val a).
Proof.
  intros a b Na Nb. pose proof (proj1 Na) as [Fa Fal]. pose proof (proj1 Nb) as [Fb Fbl].
  rewrite !fltb_real, feqb_real by auto.
  destruct (Rlt_bool_spec (real (fst b)) (real (fst a))) as [H|H]; cbn [orb].
  - rewrite Rlt_bool_true; auto. now apply normal_lt.
  - destruct (Req_bool_spec (real (fst a)) (real (fst b))) as [H1|H1]; cbn [andb].
    + unfold val. rewrite H1. destruct (Rlt_bool_spec (real (snd b)) (real (snd a))); symmetry;
      [apply Rlt_bool_true|apply Rlt_bool_false]; lra.
    + symmetry. apply Rlt_bool_false. left. apply normal_lt; auto. lra.
Qed.
Lemma max_ok : forall a b, normal a -> normal b ->
  (lis_quad_max a b = a \/ lis_quad_max a b = b) /\ val (lis_quad_max a b) = Rmax (val a) (val b).
Proof.
  intros a b Na Nb. unfold lis_quad_max. rewrite cmp_ok by auto. destruct (Rlt_bool_spec (val b) (val a)).
  - split; auto. rewrite Rmax_left; lra.
  - split; auto. rewrite Rmax_right; lra.
Qed.
Lemma min_ok : forall a b, normal a -> normal b ->
  (lis_quad_min a b = a \/ lis_quad_min a b = b) /\ val (lis_quad_min a b) = Rmin (val a) (val b).
Proof.
  intros a b Na Nb. unfold lis_quad_min.
  replace (feqb (fst a) (fst b)) with (feqb (fst b) (fst a)).
  - rewrite cmp_ok by auto. destruct (Rlt_bool_spec (val a) (val b)).
    + split; auto. rewrite Rmin_left; lra.
    + split; auto. rewrite Rmin_right; lra.
  - rewrite !feqb_real by (apply Na || apply Nb).
    destruct (Req_bool_spec (real (fst b)) (real (fst a))); symmetry; [apply Req_bool_true|apply Req_bool_false]; lra.
Qed.
