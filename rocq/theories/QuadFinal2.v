(** Error-free transformations, absence of overflow, and counterexamples, on binary64. *)
From Coq Require Import ZArith Reals Lra Lia Psatz Bool SpecFloat.
From Flocq Require Import Core BinarySingleNaN.
From Verif Require Import Base Quad SpecQuad QuadReal QuadSqr QuadAcc QuadDiv QuadSqrt QuadB64 QuadB64b QuadFinal.
Open Scope R_scope.

Lemma fin_rel : forall q v, Rel2 q v -> fin q -> real (fst q) = fst v /\ real (snd q) = snd v.
Proof. intros q v [A B] [C D]. split; [exact (A C)|exact (B D)]. Qed.

Lemma eft_fast : forall a b : b64, Rabs (real b) <= Rabs (real a) -> fin (fast_two_sum a b) ->
  real (fst (fast_two_sum a b)) = nearest (real a + real b) /\ val (fast_two_sum a b) = real a + real b.
Proof.
  intros a b H F. destruct (fin_rel _ _ (rel_fts a b _ _ (rel_refl a) (rel_refl b)) F) as [E1 E2].
  destruct (fast_two_sum_le _ _ (normal_fmt a) (normal_fmt b) H) as [G1 G2].
  unfold val. rewrite E1, E2. split; [exact G1|exact G2].
Qed.
Lemma eft_sum : forall a b : b64, fin (two_sum a b) ->
  real (fst (two_sum a b)) = nearest (real a + real b) /\ val (two_sum a b) = real a + real b.
Proof.
  intros a b F. destruct (fin_rel _ _ (rel_two_sum a b _ _ (rel_refl a) (rel_refl b)) F) as [E1 E2].
  destruct (two_sum_ok _ _ (normal_fmt a) (normal_fmt b)) as [G1 G2].
  unfold val. rewrite E1, E2. split; [exact G1|exact G2].
Qed.
Lemma eft_diff : forall a b : b64, fin (two_diff a b) ->
  real (fst (two_diff a b)) = nearest (real a - real b) /\ val (two_diff a b) = real a - real b.
Proof.
  intros a b F. destruct (fin_rel _ _ (rel_two_diff a b _ _ (rel_refl a) (rel_refl b)) F) as [E1 E2].
  destruct (two_diff_ok _ _ (normal_fmt a) (normal_fmt b)) as [G1 G2].
  unfold val. rewrite E1, E2. split; [exact G1|exact G2].
Qed.
Lemma fits26_of : forall x, generic_format radix2 (FLT_exp (-1074) 26) x -> fits26 x.
Proof.
  intros x H. apply FLT_format_generic in H; [|reflexivity]. destruct H as [[m e] E M L].
  exists m, e. split; auto.
Qed.
Lemma eft_split : forall b : b64, fin (split b) ->
  val (split b) = real b /\ fits26 (real (fst (split b))) /\ fits26 (real (snd (split b))).
Proof.
  intros b F. destruct (fin_rel _ _ (rel_split b _ (rel_refl b)) F) as [E1 E2].
  destruct (split_ok _ (normal_fmt b)) as (G1 & G2 & G3).
  unfold val. rewrite E1, E2. split; [exact G1|]. split; apply fits26_of; assumption.
Qed.
Lemma eft_prod : forall a b : b64, fin (two_prod a b) ->
  real (fst (two_prod a b)) = nearest (real a * real b) /\
  (real a * real b = 0 \/ bpow radix2 (-969) <= Rabs (real a * real b) -> val (two_prod a b) = real a * real b) /\
  Rabs (val (two_prod a b) - real a * real b) <= bpow radix2 (-1072).
Proof.
  intros a b F. destruct (fin_rel _ _ (rel_two_prod a b _ _ (rel_refl a) (rel_refl b)) F) as [E1 E2].
  destruct (two_prod_dekker _ _ (normal_fmt a) (normal_fmt b)) as (G1 & G2 & G3).
  unfold val. rewrite E1, E2. split; [exact G1|]. split; [exact G2|].
  rewrite Rabs_minus_sym. eapply Rle_trans; [exact G3|]. unfold eta.
  change (-1072)%Z with (2 + -1074)%Z. rewrite bpow_plus. change (bpow radix2 2) with 4. pose proof (bpow_gt_0 radix2 (-1074)). lra.
Qed.
Lemma eft_sqr : forall a : b64, fin (two_sqr a) ->
  real (fst (two_sqr a)) = nearest (real a * real a) /\
  (bpow radix2 (-969) <= Rabs (real a * real a) -> val (two_sqr a) = real a * real a).
Proof.
  intros a F. destruct (fin_rel _ _ (rel_two_sqr a _ (rel_refl a)) F) as [E1 E2].
  unfold val. rewrite E1, E2. split; [apply two_sqr_fst|]. apply two_sqr_exact. apply normal_fmt.
Qed.

(** Absence of overflow, for operands of moderate size. *)
Lemma normal_lo : forall q, normal q -> Rabs (real (snd q)) <= Rabs (real (fst q)).
Proof.
  intros q N. pose proof (rnrm_lo _ (normal_toR q N)) as L. unfold toR in L. cbn [fst snd] in L.
  pose proof u_small. pose proof (Rabs_pos (B2R (fst q))). unfold real. nra.
Qed.
Lemma fb_of : forall q k, normal q -> Rabs (real (fst q)) <= bpow radix2 k -> FB (fst q) k /\ FB (snd q) k.
Proof.
  intros q k N H. pose proof (normal_lo q N) as L. destruct N as [[F1 F2] _]. split; split; auto. unfold real in *. lra.
Qed.
Lemma nv_sum : forall a b : b64, finite a -> finite b -> Rabs (real a) <= bpow radix2 1000 -> Rabs (real b) <= bpow radix2 1000 ->
  fin (fast_two_sum a b) /\ fin (two_sum a b) /\ fin (two_diff a b).
Proof.
  intros a b Fa Fb Ha Hb. assert (A : FB a 1000) by (split; auto). assert (B : FB b 1000) by (split; auto).
  split; [|split]; split; unall; eapply fb_fin; fb.
Qed.
Lemma nv_prod : forall a b : b64, finite a -> finite b -> Rabs (real a) <= bpow radix2 400 -> Rabs (real b) <= bpow radix2 400 ->
  fin (split a) /\ fin (two_prod a b) /\ fin (two_sqr a).
Proof.
  intros a b Fa Fb Ha Hb. assert (A : FB a 400) by (split; auto). assert (B : FB b 400) by (split; auto).
  split; [|split]; split; unall; eapply fb_fin; fb.
Qed.
Lemma nv_add : forall g b c, q_fast_add g = true -> normal b -> normal c ->
  Rabs (real (fst b)) <= bpow radix2 1000 -> Rabs (real (fst c)) <= bpow radix2 1000 ->
  fin (lis_quad_add g b c) /\ fin (lis_quad_sub g b c).
Proof.
  intros g b c G Nb Nc Hb Hc. destruct (fb_of _ _ Nb Hb), (fb_of _ _ Nc Hc).
  unfold lis_quad_sub, lis_quad_add. rewrite G.
  destruct (q_sse2 g); split; try (apply nov_add_sse2; auto; apply fb_opp; auto); apply nov_add; auto; apply fb_opp; auto.
Qed.
Lemma nv_mul : forall g b c, no_fma g -> normal b -> normal c ->
  Rabs (real (fst b)) <= bpow radix2 400 -> Rabs (real (fst c)) <= bpow radix2 400 ->
  fin (lis_quad_mul g b c) /\ fin (lis_quad_mul_dd_d g b (fst c)) /\ fin (lis_quad_sqr g b).
Proof.
  intros g b c G Nb Nc Hb Hc. destruct (fb_of _ _ Nb Hb), (fb_of _ _ Nc Hc).
  unfold lis_quad_mul, lis_quad_mul_dd_d, lis_quad_sqr. destruct (q_sse2 g) eqn:Q.
  - split; [|split]; [apply nov_mul_sse2|apply nov_muld_sse2|apply nov_sqr_sse2]; auto.
  - destruct G as [G|G]; [congruence|]. rewrite G. split; [|split]; [apply nov_mul|apply nov_muld|apply nov_sqr]; auto.
Qed.
Lemma nv_div : forall g b c, no_fma g -> normal b -> normal c ->
  Rabs (real (fst b)) <= bpow radix2 150 -> bpow radix2 (-150) <= Rabs (real (fst c)) <= bpow radix2 150 ->
  fin (lis_quad_div g b c).
Proof.
  intros g b c G Nb Nc Hb [Lc Hc]. destruct (fb_of _ _ Nb Hb), (fb_of _ _ Nc Hc).
  unfold lis_quad_div. destruct (q_sse2 g) eqn:Q.
  - apply nov_div_sse2; auto.
  - destruct G as [G|G]; [congruence|]. rewrite G. apply nov_div; auto.
Qed.
Lemma nv_sqrt : forall g b, q_sse2 g = true -> normal b -> bpow radix2 (-200) <= real (fst b) <= bpow radix2 200 ->
  fin (snd (lis_quad_sqrt g b)).
Proof.
  intros g b G Nb [L H].
  assert (P : 0 < real (fst b)) by (eapply Rlt_le_trans; [apply (bpow_gt_0 radix2 (-200))|exact L]).
  rewrite (sqrt_pos_call g b Nb P), G. cbn [snd].
  destruct (fb_of b 200 Nb). rewrite Rabs_pos_eq; auto; lra. apply nov_sqrt; auto.
Qed.

(** Concrete doubles. *)
Lemma real_sf : forall (x : b64) s m e, B2SF x = S754_finite s m e ->
  finite x /\ real x = IZR (cond_Zopp s (Zpos m)) * bpow radix2 e.
Proof.
  intros x s m e H. destruct x; simpl in H; try discriminate. injection H as -> -> ->. split; reflexivity.
Qed.
Lemma real_sf0 : forall (x : b64) s, B2SF x = S754_zero s -> finite x /\ real x = 0.
Proof. intros x s H. destruct x; simpl in H; try discriminate. split; reflexivity. Qed.
Lemma normal_by : forall (h l : b64) s m e, B2SF h = S754_finite s m e -> is_finite l = true ->
  B2SF (Bplus mode_NE h l) = S754_finite s m e -> normal (h, l).
Proof.
  intros h l s m e Hh Hl Hp. destruct (real_sf _ _ _ _ Hh) as [Fh Eh]. destruct (real_sf _ _ _ _ Hp) as [Fp Ep].
  split; [split; auto|]. unfold val. cbn [fst snd]. etransitivity; [|exact (add_real h l Fp)]. change (B2R (Bplus mode_NE h l)) with (real (Bplus mode_NE h l)). congruence.
Qed.
Ltac rsf := match goal with |- context [real ?x] =>
  let v := eval vm_compute in (B2SF x) in
  match v with
  | S754_finite ?s ?m ?e => let H := fresh in destruct (real_sf x s m e ltac:(vm_compute; reflexivity)) as [_ H]; rewrite H; clear H; cbn [cond_Zopp]
  | S754_zero ?s => let H := fresh in destruct (real_sf0 x s ltac:(vm_compute; reflexivity)) as [_ H]; rewrite H; clear H
  end end.

(* the value of a pair whose components compute to known doubles *)
Ltac fins := split; vm_compute; reflexivity.

(** 1 + 2^-53 plus 2^-53, accurate scalar variant: 1 + 2^-51. *)
Definition ex_b1 : b64 * b64 := (b64_of 1 0, b64_of 1 (-53)).
Definition ex_c1 : b64 * b64 := (b64_of 1 (-53), b64_of 0 0).
Lemma ex_b1_n : normal ex_b1.
Proof. eapply normal_by; vm_compute; reflexivity. Qed.
Lemma ex_c1_n : normal ex_c1.
Proof. eapply normal_by; vm_compute; reflexivity. Qed.

Lemma acc_add_wrong : exists b c, normal b /\ normal c /\ fin (lis_quad_add g_scalar_acc b c) /\
  ~ (Rabs (val (lis_quad_add g_scalar_acc b c) - (val b + val c)) <= bpow radix2 (-60) * (Rabs (val b) + Rabs (val c))).
Proof.
  exists ex_b1, ex_c1. split; [apply ex_b1_n|]. split; [apply ex_c1_n|]. split; [fins|].
  unfold val. repeat rsf. intros H. cbn -[Rabs] in H.
  rewrite !Rabs_pos_eq in H by lra. lra.
Qed.

(** The square root of 2 in the scalar variant: an error above 2^-60. *)
Definition ex_two : b64 * b64 := (b64_of 2 0, b64_of 0 0).
Definition ex_one : b64 * b64 := (b64_of 1 0, b64_of 0 0).
Lemma ex_two_n : normal ex_two. Proof. eapply normal_by; vm_compute; reflexivity. Qed.
Lemma ex_one_n : normal ex_one. Proof. eapply normal_by; vm_compute; reflexivity. Qed.
Lemma val_one : val ex_one = 1. Proof. unfold val, ex_one. cbn [fst snd]. repeat rsf. simpl. lra. Qed.
Lemma val_two : val ex_two = 2. Proof. unfold val, ex_two. cbn [fst snd]. repeat rsf. simpl. lra. Qed.

Lemma far_from_sqrt2 : forall v e, 0 < v -> 0 <= e <= 1 -> 8 * e < Rabs (v * v - 2) -> v <= 2 -> ~ (Rabs (v - R_sqrt.sqrt 2) <= e * R_sqrt.sqrt 2).
Proof.
  intros v e P E H V2 A. set (s := R_sqrt.sqrt 2) in *.
  assert (S2 : s * s = 2) by (apply sqrt_sqrt; lra).
  assert (Sp : 0 <= s) by apply sqrt_pos.
  assert (s <= 2) by nra.
  replace (v * v - 2) with ((v - s) * (v + s)) in H by (ring_simplify; replace (s ^ 2) with (s * s) by ring; rewrite S2; ring).
  rewrite Rabs_mult, (Rabs_pos_eq (v + s)) in H by lra.
  assert (Rabs (v - s) <= e * 2) by (eapply Rle_trans; [exact A|]; apply Rmult_le_compat_l; lra).
  pose proof (Rabs_pos (v - s)).
  assert (Rabs (v - s) * (v + s) <= (e * 2) * 4) by (apply Rmult_le_compat; lra). lra.
Qed.
Lemma scalar_sqrt_wrong : exists b, normal b /\ fst (lis_quad_sqrt g_scalar b) = LIS_SUCCESS /\ fin (snd (lis_quad_sqrt g_scalar b)) /\
  ~ (Rabs (val (snd (lis_quad_sqrt g_scalar b)) - R_sqrt.sqrt (val b)) <= bpow radix2 (-60) * R_sqrt.sqrt (val b)).
Proof.
  exists ex_two. split; [apply ex_two_n|]. split; [vm_compute; reflexivity|]. split; [fins|].
  rewrite val_two. unfold val. repeat rsf.
  apply far_from_sqrt2; cbn -[Rabs]; try lra. rewrite Rabs_pos_eq; lra.
Qed.

(** 1 * 1 = -1 when HAS_FMA is defined. *)
Lemma fma_mul_wrong : val (lis_quad_mul g_fma ex_one ex_one) = -1 /\ val (lis_quad_sqr g_fma ex_one) = -1 /\ val (lis_quad_mul_dd_d g_fma ex_one (fst ex_one)) = -1.
Proof. split; [|split]; unfold val; repeat rsf; simpl; lra. Qed.

(** Cancellation: a nonzero difference computed as 0. *)
Definition ex_b2 : b64 * b64 := (b64_of (2 ^ 51 + 1) (-51), b64_of (-1) (-53)).
Definition ex_c2 : b64 * b64 := (b64_of (2 ^ 52 + 1) (-52), b64_of (2 ^ 53 - 1) (-106)).
Lemma ex_b2_n : normal ex_b2. Proof. eapply normal_by; vm_compute; reflexivity. Qed.
Lemma ex_c2_n : normal ex_c2. Proof. eapply normal_by; vm_compute; reflexivity. Qed.
Lemma sub_cancel : forall g, g = g_scalar \/ g = g_sse2 ->
  val (lis_quad_sub g ex_b2 ex_c2) = 0 /\ val ex_b2 - val ex_c2 = bpow radix2 (-106).
Proof.
  intros g [-> | ->]; (split; [unfold val; repeat rsf; simpl; lra|unfold val, ex_b2, ex_c2; cbn [fst snd]; repeat rsf; simpl; lra]).
Qed.

(** Division by a denormalised pair or by zero; square root of zero. *)
Lemma sqrt_zero : forall g, lis_quad_sqrt g (lis_quad_zero : b64 * b64) = (LIS_FAILS, lis_quad_zero).
Proof. intros g. reflexivity. Qed.
Lemma sqrt_neg : forall g b, finite (fst b) -> real (fst b) <= 0 -> fst (lis_quad_sqrt g b) = LIS_FAILS /\ val (snd (lis_quad_sqrt g b)) = 0.
Proof.
  intros g b F H. unfold lis_quad_sqrt. rewrite Beqb0, Bltb0 by auto. unfold real in H.
  assert (E : (Req_bool (B2R (fst b)) 0 || Rlt_bool (B2R (fst b)) 0)%bool = true).
  { destruct (Req_dec (B2R (fst b)) 0) as [E|E]; [rewrite Req_bool_true; auto|].
    rewrite (Rlt_bool_true (B2R (fst b))) by lra. apply orb_true_r. }
  rewrite E. cbn [fst snd]. split; auto. unfold val. cbn [fst snd]. repeat rsf. lra.
Qed.
(** Concrete uses. *)
Definition ex_third : b64 * b64 := lis_quad_div g_sse2 ex_one (b64_of 3 0, b64_of 0 0).
Lemma ex_third_n : normal ex_third. Proof. eapply normal_by; vm_compute; reflexivity. Qed.
Lemma sqrt_zero_fails : forall g, fst (lis_quad_sqrt g (lis_quad_zero : b64 * b64)) = LIS_FAILS /\
  val (snd (lis_quad_sqrt g (lis_quad_zero : b64 * b64))) = 0.
Proof. intros g. apply sqrt_neg. reflexivity. cbn [fst lis_quad_zero]. rsf. lra. Qed.
Lemma add_same_sign : forall g b c, q_fast_add g = true -> normal b -> normal c -> fin (lis_quad_add g b c) ->
  0 <= val b * val c ->
  Rabs (val (lis_quad_add g b c) - (val b + val c)) <= bpow radix2 (-103) * Rabs (val b + val c).
Proof.
  intros g b c G Nb Nc F S. destruct (add_ok g b c G Nb Nc F) as [_ B].
  replace (Rabs (val b + val c)) with (Rabs (val b) + Rabs (val c)); auto.
  unfold Rabs. destruct (Rcase_abs (val b)), (Rcase_abs (val c)), (Rcase_abs (val b + val c)); nra.
Qed.
Lemma prod_fma_wrong : let one := b64_of 1 0 in real (fst (two_prod_fma one one)) + real (snd (two_prod_fma one one)) = -1.
Proof. cbv zeta. repeat rsf. simpl. lra. Qed.
