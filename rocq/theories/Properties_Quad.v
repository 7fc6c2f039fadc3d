(** C49, C50: double-double ("quad") arithmetic.

    [real x] is the real number of a double, [val q] the number hi + lo of a
    pair, [normal q] says hi is the double nearest to hi + lo, [fin q] that
    both components are finite (no overflow happened); SpecQuad.v.  The build
    variants are in [qcfg]: SSE2 or scalar, USE_FAST_QUAD_ADD, HAS_FMA.  *)
From Coq Require Import ZArith Reals Bool.
From Flocq Require Import Core BinarySingleNaN.
From Verif Require Import Base Quad SpecQuad QuadFinal QuadFinal2.
Open Scope R_scope.

(** * C49: error-free transformations. *)

(** LIS_QUAD_FAST_TWO_SUM, when |b| <= |a|. *)
Theorem C49_fast_two_sum_exact : forall a b : b64,
  Rabs (real b) <= Rabs (real a) -> fin (fast_two_sum a b) ->
  real (fst (fast_two_sum a b)) = nearest (real a + real b) /\
  real (fst (fast_two_sum a b)) + real (snd (fast_two_sum a b)) = real a + real b.
Proof. exact eft_fast. Qed.

Theorem C49_two_sum_exact : forall a b : b64,
  fin (two_sum a b) ->
  real (fst (two_sum a b)) = nearest (real a + real b) /\
  real (fst (two_sum a b)) + real (snd (two_sum a b)) = real a + real b.
Proof. exact eft_sum. Qed.

Theorem C49_two_diff_exact : forall a b : b64,
  fin (two_diff a b) ->
  real (fst (two_diff a b)) = nearest (real a - real b) /\
  real (fst (two_diff a b)) + real (snd (two_diff a b)) = real a - real b.
Proof. exact eft_diff. Qed.

Theorem C49_split_exact : forall b : b64,
  fin (split b) ->
  real (fst (split b)) + real (snd (split b)) = real b /\
  fits26 (real (fst (split b))) /\ fits26 (real (snd (split b))).
Proof. exact eft_split. Qed.

(** Exact unless the product is so small that its error underflows; then
    the error is at most 2^-1072. *)
Theorem C49_two_prod_exact : forall a b : b64,
  fin (two_prod a b) ->
  real (fst (two_prod a b)) = nearest (real a * real b) /\
  (real a * real b = 0 \/ bpow radix2 (-969) <= Rabs (real a * real b) ->
     real (fst (two_prod a b)) + real (snd (two_prod a b)) = real a * real b) /\
  Rabs (val (two_prod a b) - real a * real b) <= bpow radix2 (-1072).
Proof. exact eft_prod. Qed.

Theorem C49_two_sqr_exact : forall a : b64,
  fin (two_sqr a) ->
  real (fst (two_sqr a)) = nearest (real a * real a) /\
  (bpow radix2 (-969) <= Rabs (real a * real a) ->
     real (fst (two_sqr a)) + real (snd (two_sqr a)) = real a * real a).
Proof. exact eft_sqr. Qed.

(** The hypothesis [fin] holds for operands up to 2^1000 (sums) or 2^400
    (products). *)
Theorem C49_sums_do_not_overflow : forall a b : b64,
  finite a -> finite b -> Rabs (real a) <= bpow radix2 1000 -> Rabs (real b) <= bpow radix2 1000 ->
  fin (fast_two_sum a b) /\ fin (two_sum a b) /\ fin (two_diff a b).
Proof. exact nv_sum. Qed.
Theorem C49_products_do_not_overflow : forall a b : b64,
  finite a -> finite b -> Rabs (real a) <= bpow radix2 400 -> Rabs (real b) <= bpow radix2 400 ->
  fin (split a) /\ fin (two_prod a b) /\ fin (two_sqr a).
Proof. exact nv_prod. Qed.

(** With HAS_FMA the products have the wrong sign. *)
Theorem C49_two_prod_fma_refuted :
  let one := b64_of 1 0 in
  real (fst (two_prod_fma one one)) + real (snd (two_prod_fma one one)) = -1.
Proof. exact prod_fma_wrong. Qed.

Example C49_two_sum_case :
  let a := b64_of 1 0 in let b := b64_of 3 (-80) in
  fin (two_sum a b) /\ B2SF (fst (two_sum a b)) = B2SF a /\ B2SF (snd (two_sum a b)) = B2SF b.
Proof. cbv zeta. split; [fins|]. split; vm_compute; reflexivity. Qed.
Example C49_two_prod_case :
  let a := b64_of (2 ^ 52 + 1) (-52) in
  fin (two_prod a a) /\ B2SF (fst (two_prod a a)) = B2SF (b64_of (2 ^ 51 + 1) (-51)) /\
  B2SF (snd (two_prod a a)) = B2SF (b64_of 1 (-104)).
Proof. cbv zeta. split; [fins|]. split; vm_compute; reflexivity. Qed.

(** * C50: accuracy of the exported quad functions. *)

(** Sum and difference: at most 2^-103 of |b| + |c|, in the scalar and the
    SSE2 variant, with USE_FAST_QUAD_ADD (what configure --enable-quad sets). *)
Theorem C50_add_accurate : forall g (b c : b64 * b64),
  q_fast_add g = true -> normal b -> normal c -> fin (lis_quad_add g b c) ->
  normal (lis_quad_add g b c) /\
  Rabs (val (lis_quad_add g b c) - (val b + val c)) <= bpow radix2 (-103) * (Rabs (val b) + Rabs (val c)).
Proof. exact add_ok. Qed.

Theorem C50_sub_accurate : forall g (b c : b64 * b64),
  q_fast_add g = true -> normal b -> normal c -> fin (lis_quad_sub g b c) ->
  normal (lis_quad_sub g b c) /\
  Rabs (val (lis_quad_sub g b c) - (val b - val c)) <= bpow radix2 (-103) * (Rabs (val b) + Rabs (val c)).
Proof. exact sub_ok. Qed.

(** Hence a relative error of at most 2^-103 for summands of the same sign. *)
Theorem C50_add_same_sign : forall g (b c : b64 * b64),
  q_fast_add g = true -> normal b -> normal c -> fin (lis_quad_add g b c) ->
  0 <= val b * val c ->
  Rabs (val (lis_quad_add g b c) - (val b + val c)) <= bpow radix2 (-103) * Rabs (val b + val c).
Proof. exact add_same_sign. Qed.

Theorem C50_mul_accurate : forall g (b c : b64 * b64),
  no_fma g -> normal b -> normal c -> fin (lis_quad_mul g b c) ->
  normal (lis_quad_mul g b c) /\
  Rabs (val (lis_quad_mul g b c) - val b * val c) <= bpow radix2 (-102) * Rabs (val b * val c) + bpow radix2 (-1071).
Proof. exact mul_ok. Qed.

Theorem C50_mul_by_double_accurate : forall g (b : b64 * b64) (c : b64),
  no_fma g -> normal b -> finite c -> fin (lis_quad_mul_dd_d g b c) ->
  normal (lis_quad_mul_dd_d g b c) /\
  Rabs (val (lis_quad_mul_dd_d g b c) - val b * real c) <= bpow radix2 (-103) * Rabs (val b * real c) + bpow radix2 (-1071).
Proof. exact muld_ok. Qed.

Theorem C50_sqr_accurate : forall g (b : b64 * b64),
  no_fma g -> normal b -> fin (lis_quad_sqr g b) ->
  normal (lis_quad_sqr g b) /\
  Rabs (val (lis_quad_sqr g b) - val b * val b) <= bpow radix2 (-102) * Rabs (val b * val b) + bpow radix2 (-1000).
Proof. exact sqr_ok. Qed.

Theorem C50_div_accurate : forall g (b c : b64 * b64),
  no_fma g -> normal b -> normal c -> real (fst c) <> 0 ->
  bpow radix2 (-900) <= Rabs (real (fst b)) ->
  bpow radix2 (-900) <= Rabs (real (fst b) / real (fst c)) ->
  fin (lis_quad_div g b c) ->
  normal (lis_quad_div g b c) /\
  Rabs (val (lis_quad_div g b c) - val b / val c) <= bpow radix2 (-100) * Rabs (val b / val c).
Proof. exact div_ok. Qed.

(** The square root, in the SSE2 variant only: see the refutation below. *)
Theorem C50_sqrt_sse2_accurate_partial : forall g (b : b64 * b64),
  q_sse2 g = true -> normal b -> bpow radix2 (-900) <= real (fst b) ->
  fin (snd (lis_quad_sqrt g b)) ->
  fst (lis_quad_sqrt g b) = LIS_SUCCESS /\
  normal (snd (lis_quad_sqrt g b)) /\
  Rabs (val (snd (lis_quad_sqrt g b)) - R_sqrt.sqrt (val b)) <= bpow radix2 (-100) * R_sqrt.sqrt (val b).
Proof. exact sqrt_sse2_ok. Qed.

(** Negation is exact; max and min return the larger and smaller operand. *)
Theorem C50_minus_exact : forall q : b64 * b64, normal q ->
  normal (lis_quad_minus q) /\ val (lis_quad_minus q) = - val q.
Proof. exact opp_normal. Qed.
Theorem C50_max_correct : forall a b : b64 * b64, normal a -> normal b ->
  (lis_quad_max a b = a \/ lis_quad_max a b = b) /\ val (lis_quad_max a b) = Rmax (val a) (val b).
Proof. exact max_ok. Qed.
Theorem C50_min_correct : forall a b : b64 * b64, normal a -> normal b ->
  (lis_quad_min a b = a \/ lis_quad_min a b = b) /\ val (lis_quad_min a b) = Rmin (val a) (val b).
Proof. exact min_ok. Qed.

(** No overflow for operands of moderate size. *)
Theorem C50_add_does_not_overflow : forall g (b c : b64 * b64),
  q_fast_add g = true -> normal b -> normal c ->
  Rabs (real (fst b)) <= bpow radix2 1000 -> Rabs (real (fst c)) <= bpow radix2 1000 ->
  fin (lis_quad_add g b c) /\ fin (lis_quad_sub g b c).
Proof. exact nv_add. Qed.
Theorem C50_mul_does_not_overflow : forall g (b c : b64 * b64),
  no_fma g -> normal b -> normal c ->
  Rabs (real (fst b)) <= bpow radix2 400 -> Rabs (real (fst c)) <= bpow radix2 400 ->
  fin (lis_quad_mul g b c) /\ fin (lis_quad_mul_dd_d g b (fst c)) /\ fin (lis_quad_sqr g b).
Proof. exact nv_mul. Qed.
Theorem C50_div_does_not_overflow : forall g (b c : b64 * b64),
  no_fma g -> normal b -> normal c ->
  Rabs (real (fst b)) <= bpow radix2 150 ->
  bpow radix2 (-150) <= Rabs (real (fst c)) <= bpow radix2 150 ->
  fin (lis_quad_div g b c).
Proof. exact nv_div. Qed.
Theorem C50_sqrt_does_not_overflow : forall g (b : b64 * b64),
  q_sse2 g = true -> normal b -> bpow radix2 (-200) <= real (fst b) <= bpow radix2 200 ->
  fin (snd (lis_quad_sqrt g b)).
Proof. exact nv_sqrt. Qed.

(** ** Where the claim fails. *)

(** The scalar LIS_QUAD_SQRT swaps the operands of its last step: the low
    half of the result is lost, the square root of 2 is only a double. *)
Theorem C50_scalar_sqrt_refuted : exists b : b64 * b64,
  normal b /\ fst (lis_quad_sqrt g_scalar b) = LIS_SUCCESS /\ fin (snd (lis_quad_sqrt g_scalar b)) /\
  ~ (Rabs (val (snd (lis_quad_sqrt g_scalar b)) - R_sqrt.sqrt (val b)) <= bpow radix2 (-60) * R_sqrt.sqrt (val b)).
Proof. exact scalar_sqrt_wrong. Qed.

(** Without USE_FAST_QUAD_ADD the scalar addition, meant to be the more
    accurate one, is only accurate to double precision. *)
Theorem C50_accurate_add_refuted : exists b c : b64 * b64,
  normal b /\ normal c /\ fin (lis_quad_add g_scalar_acc b c) /\
  ~ (Rabs (val (lis_quad_add g_scalar_acc b c) - (val b + val c)) <= bpow radix2 (-60) * (Rabs (val b) + Rabs (val c))).
Proof. exact acc_add_wrong. Qed.

(** With HAS_FMA, 1 * 1 is -1. *)
Theorem C50_fma_products_refuted :
  val (lis_quad_mul g_fma ex_one ex_one) = -1 /\ val (lis_quad_sqr g_fma ex_one) = -1 /\
  val (lis_quad_mul_dd_d g_fma ex_one (fst ex_one)) = -1.
Proof. exact fma_mul_wrong. Qed.

(** No relative bound under cancellation: the difference 2^-106 is computed
    as 0 (numbers near 1, scalar and SSE2). *)
Theorem C50_relative_sub_refuted : exists b c : b64 * b64, normal b /\ normal c /\
  forall g, g = g_scalar \/ g = g_sse2 ->
  val (lis_quad_sub g b c) = 0 /\ val b - val c = bpow radix2 (-106).
Proof. exact (ex_intro _ ex_b2 (ex_intro _ ex_c2 (conj ex_b2_n (conj ex_c2_n sub_cancel)))). Qed.

(** The square root of 0 is reported as a failure. *)
Theorem C50_sqrt_of_zero_refuted : forall g,
  fst (lis_quad_sqrt g (lis_quad_zero : b64 * b64)) = LIS_FAILS /\
  val (snd (lis_quad_sqrt g (lis_quad_zero : b64 * b64))) = 0.
Proof. exact sqrt_zero_fails. Qed.

(** The hypotheses are met: 1/3 to quad precision, its square, product, sum. *)
Example C50_case : normal ex_third /\ fin (lis_quad_mul g_sse2 ex_third ex_third) /\
  fin (lis_quad_mul g_scalar ex_third ex_third) /\ fin (lis_quad_sqr g_scalar ex_third) /\
  fin (lis_quad_add g_scalar ex_third ex_third) /\ fin (lis_quad_div g_scalar ex_one ex_third) /\
  fin (snd (lis_quad_sqrt g_sse2 ex_third)) /\ real (snd ex_third) <> 0.
Proof.
  split; [apply ex_third_n|]. repeat (split; [fins|]).
  rsf. intros H. apply Rmult_integral in H. destruct H as [H|H]; [now apply eq_IZR in H|].
  now apply Rgt_not_eq in H; [|apply bpow_gt_0].
Qed.

Print Assumptions C49_two_prod_exact.
Print Assumptions C50_add_accurate.
Print Assumptions C50_div_accurate.
Print Assumptions C50_sqrt_sse2_accurate_partial.
Print Assumptions C50_scalar_sqrt_refuted.
Print Assumptions C49_fast_two_sum_exact.
Print Assumptions C49_two_sum_exact.
Print Assumptions C49_two_diff_exact.
Print Assumptions C49_split_exact.
Print Assumptions C49_two_sqr_exact.
Print Assumptions C49_sums_do_not_overflow.
Print Assumptions C49_products_do_not_overflow.
Print Assumptions C49_two_prod_fma_refuted.
Print Assumptions C50_sub_accurate.
Print Assumptions C50_add_same_sign.
Print Assumptions C50_mul_accurate.
Print Assumptions C50_mul_by_double_accurate.
Print Assumptions C50_sqr_accurate.
Print Assumptions C50_minus_exact.
Print Assumptions C50_max_correct.
Print Assumptions C50_min_correct.
Print Assumptions C50_add_does_not_overflow.
Print Assumptions C50_mul_does_not_overflow.
Print Assumptions C50_div_does_not_overflow.
Print Assumptions C50_sqrt_does_not_overflow.
Print Assumptions C50_accurate_add_refuted.
Print Assumptions C50_fma_products_refuted.
Print Assumptions C50_relative_sub_refuted.
Print Assumptions C50_sqrt_of_zero_refuted.
