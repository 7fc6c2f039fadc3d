(** SSE2 registers: transfer to rounded reals, lanes, and absence of overflow. *)
From Coq Require Import ZArith Reals Lra Lia Psatz Bool.
From Flocq Require Import Core BinarySingleNaN.
From Verif Require Import Quad SpecQuad QuadReal QuadSqr QuadAcc QuadDiv QuadSqrt QuadB64.
Open Scope R_scope.

Lemma rel_mul_sse2 : forall b c v w, Rel2 b v -> Rel2 c w -> Rel2 (quad_mul_sse2 b c) (quad_mul_sse2 v w).
Proof. intros [bh bl] [xh xl] [vh vl] [wh wl] [A B] [C D]. cbn [fst snd] in *. sse. split; sse; rel. Qed.
Lemma rel_muld_sse2 : forall b c v w, Rel2 b v -> Rel c w -> Rel2 (quad_muld_sse2 b c) (quad_muld_sse2 v w).
Proof. intros [bh bl] xh [vh vl] wh [A B] C. cbn [fst snd] in *. sse. split; sse; rel. Qed.
Lemma rel_sqr_sse2 : forall b v, Rel2 b v -> Rel2 (quad_sqr_sse2 b) (quad_sqr_sse2 v).
Proof. intros [bh bl] [vh vl] [A B]. cbn [fst snd] in *. sse. split; sse; rel. Qed.
Lemma rel_add_sse2 : forall b c v w, Rel2 b v -> Rel2 c w -> Rel2 (quad_add_sse2 true b c) (quad_add_sse2 true v w).
Proof. intros [bh bl] [xh xl] [vh vl] [wh wl] [A B] [C D]. cbn [fst snd] in *. sse. split; sse; rel. Qed.
Lemma rel_fma_sse2 : forall a b c z v w, Rel2 a z -> Rel2 b v -> Rel2 c w -> Rel2 (quad_fma_sse2 true a b c) (quad_fma_sse2 true z v w).
Proof. intros [ah al] [bh bl] [xh xl] [zh zl] [vh vl] [wh wl] [A B] [C D] [E G]. cbn [fst snd] in *. sse. split; sse; rel. Qed.
Lemma rel_fmad_sse2 : forall a b c z v w, Rel2 a z -> Rel2 b v -> Rel c w -> Rel2 (quad_fmad_sse2 true a b c) (quad_fmad_sse2 true z v w).
Proof. intros [ah al] [bh bl] xh [zh zl] [vh vl] wh [A B] [C D] E. cbn [fst snd] in *. sse. split; sse; rel. Qed.
Lemma rel_fsa_sse2 : forall a b z v, Rel2 a z -> Rel2 b v -> Rel2 (quad_fsa_sse2 true a b) (quad_fsa_sse2 true z v).
Proof. intros [ah al] [bh bl] [zh zl] [vh vl] [A B] [C D]. cbn [fst snd] in *. sse. split; sse; rel. Qed.
Lemma rel_div_sse2 : forall b c, B2R (fst c) <> 0 ->
  Rel2 (quad_div_sse2 b c) (quad_div_sse2 (B2R (fst b), B2R (snd b)) (B2R (fst c), B2R (snd c))).
Proof.
  intros [bh bl] [xh xl] Z. cbn [fst snd] in *.
  pose proof (rel_refl bh) as Rbh. pose proof (rel_refl bl) as Rbl. pose proof (rel_refl xh) as Rxh. pose proof (rel_refl xl) as Rxl.
  sse. split; sse; rel.
Qed.
Lemma rel_sqrt_sse2 : forall b, B2R (fsqrt (fst b)) <> 0 ->
  Rel2 (quad_sqrt_sse2_core b) (quad_sqrt_sse2_core (B2R (fst b), B2R (snd b))).
Proof.
  intros [bh bl] Z. cbn [fst snd] in *.
  pose proof (rel_refl bh) as Rbh. pose proof (rel_refl bl) as Rbl.
  assert (D : Rel (fdiv f1 (fsqrt bh)) (fdiv f1 (fsqrt (B2R bh)))).
  { destruct (Bsqrt_correct 53 1024 _ _ mode_NE bh) as (E & F & _).
    change (Bsqrt mode_NE bh) with (fsqrt bh) in E.
    replace (fsqrt (B2R bh)) with (B2R (fsqrt bh)) by exact E. apply rel_div; auto. apply rel_c1. }
  sse. unfold sqrt_pd. sse. split; sse; rel.
Qed.

(** * No overflow *)
Definition FB (x : b64) (k : Z) : Prop := is_finite x = true /\ Rabs (B2R x) <= bpow radix2 k.

Lemma rnd_le_bpow : forall x k, (-1074 <= k)%Z -> Rabs x <= bpow radix2 k -> Rabs (rnd x) <= bpow radix2 k.
Proof.
  intros x k K H. unfold rnd. apply abs_round_le_generic; auto; try typeclasses eauto.
  apply generic_format_bpow. unfold fexp, FLT_exp. lia.
Qed.
Lemma fb_weak : forall x k l, FB x k -> (k <= l)%Z -> FB x l.
Proof. intros x k l [A B] H. split; auto. eapply Rle_trans; [exact B|]. now apply bpow_le. Qed.
Lemma fb_add : forall x y k l, FB x k -> FB y l -> ((-1075 <? Z.max k l) && (Z.max k l + 1 <? 1024))%Z = true ->
  FB (fadd x y) (Z.max k l + 1).
Proof.
  intros x y k l Hx Hy K. apply andb_prop in K. destruct K as [K1 K2]. apply Z.ltb_lt in K1, K2.
  apply (fb_weak _ _ (Z.max k l)) in Hx; [|lia]. apply (fb_weak _ _ (Z.max k l)) in Hy; [|lia].
  destruct Hx as [Fx Bx], Hy as [Fy By]. set (m := Z.max k l) in *.
  pose proof (Bplus_correct 53 1024 _ _ mode_NE x y Fx Fy) as C.
  assert (L : Rabs (rnd (B2R x + B2R y)) <= bpow radix2 (m + 1)).
  { apply rnd_le_bpow; [lia|]. eapply Rle_trans; [apply Rabs_triang|].
    rewrite bpow_plus. change (bpow radix2 1) with 2. lra. }
  change (round radix2 (SpecFloat.fexp 53 1024) (round_mode mode_NE) (B2R x + B2R y)) with (rnd (B2R x + B2R y)) in C.
  rewrite Rlt_bool_true in C.
  - destruct C as (C1 & C2 & _). split; [exact C2|]. change (fadd x y) with (Bplus mode_NE x y). rewrite C1. exact L.
  - eapply Rle_lt_trans; [exact L|]. apply bpow_lt. lia.
Qed.
Lemma fb_sub : forall x y k l, FB x k -> FB y l -> ((-1075 <? Z.max k l) && (Z.max k l + 1 <? 1024))%Z = true ->
  FB (fsub x y) (Z.max k l + 1).
Proof.
  intros x y k l Hx Hy K. apply andb_prop in K. destruct K as [K1 K2]. apply Z.ltb_lt in K1, K2.
  apply (fb_weak _ _ (Z.max k l)) in Hx; [|lia]. apply (fb_weak _ _ (Z.max k l)) in Hy; [|lia].
  destruct Hx as [Fx Bx], Hy as [Fy By]. set (m := Z.max k l) in *.
  pose proof (Bminus_correct 53 1024 _ _ mode_NE x y Fx Fy) as C.
  assert (L : Rabs (rnd (B2R x - B2R y)) <= bpow radix2 (m + 1)).
  { apply rnd_le_bpow; [lia|]. eapply Rle_trans; [apply Rabs_triang|].
    rewrite Rabs_Ropp, bpow_plus. change (bpow radix2 1) with 2. lra. }
  change (round radix2 (SpecFloat.fexp 53 1024) (round_mode mode_NE) (B2R x - B2R y)) with (rnd (B2R x - B2R y)) in C.
  rewrite Rlt_bool_true in C.
  - destruct C as (C1 & C2 & _). split; [exact C2|]. change (fsub x y) with (Bminus mode_NE x y). rewrite C1. exact L.
  - eapply Rle_lt_trans; [exact L|]. apply bpow_lt. lia.
Qed.
Lemma fb_mul : forall x y k l, FB x k -> FB y l -> ((-1075 <? k + l) && (k + l <? 1024))%Z = true ->
  FB (fmul x y) (k + l).
Proof.
  intros x y k l [Fx Bx] [Fy By] K. apply andb_prop in K. destruct K as [K1 K2]. apply Z.ltb_lt in K1, K2.
  pose proof (Bmult_correct 53 1024 _ _ mode_NE x y) as C.
  assert (L : Rabs (rnd (B2R x * B2R y)) <= bpow radix2 (k + l)).
  { apply rnd_le_bpow; [lia|]. rewrite Rabs_mult, bpow_plus. apply Rmult_le_compat; auto using Rabs_pos. }
  change (round radix2 (SpecFloat.fexp 53 1024) (round_mode mode_NE) (B2R x * B2R y)) with (rnd (B2R x * B2R y)) in C.
  rewrite Rlt_bool_true in C.
  - destruct C as (C1 & C2 & _). rewrite Fx, Fy in C2. split; [exact C2|]. change (fmul x y) with (Bmult mode_NE x y). rewrite C1. exact L.
  - eapply Rle_lt_trans; [exact L|]. apply bpow_lt. lia.
Qed.
Lemma fb_opp : forall x k, FB x k -> FB (fopp x) k.
Proof.
  intros x k [A B]. change (fopp x) with (Bopp x). split; [now rewrite is_finite_Bopp|]. now rewrite B2R_Bopp, Rabs_Ropp.
Qed.
Lemma fb_div : forall x y k l, FB x k -> is_finite y = true -> bpow radix2 l <= Rabs (B2R y) ->
  ((-1075 <? k - l) && (k - l <? 1024))%Z = true -> FB (fdiv x y) (k - l).
Proof.
  intros x y k l [Fx Bx] Fy By K. apply andb_prop in K. destruct K as [K1 K2]. apply Z.ltb_lt in K1, K2.
  assert (Py : 0 < Rabs (B2R y)) by (eapply Rlt_le_trans; [apply (bpow_gt_0 radix2 l)|auto]).
  assert (Zy : B2R y <> 0) by (intros Z; rewrite Z, Rabs_R0 in Py; lra).
  pose proof (Bdiv_correct 53 1024 _ _ mode_NE x y Zy) as C.
  assert (L : Rabs (rnd (B2R x / B2R y)) <= bpow radix2 (k - l)).
  { apply rnd_le_bpow; [lia|]. unfold Rdiv. rewrite Rabs_mult, Rabs_inv. unfold Zminus. rewrite bpow_plus.
    apply Rmult_le_compat; auto using Rabs_pos. left. now apply Rinv_0_lt_compat.
    rewrite bpow_opp. apply Rinv_le; auto. apply bpow_gt_0. }
  change (round radix2 (SpecFloat.fexp 53 1024) (round_mode mode_NE) (B2R x / B2R y)) with (rnd (B2R x / B2R y)) in C.
  rewrite Rlt_bool_true in C.
  - destruct C as (C1 & C2 & _). rewrite Fx in C2. split; [exact C2|]. change (fdiv x y) with (Bdiv mode_NE x y). rewrite C1. exact L.
  - eapply Rle_lt_trans; [exact L|]. apply bpow_lt. lia.
Qed.
Lemma fb_c1 : FB f1 0.
Proof. destruct (const_small 1) as [A B]; [vm_compute; discriminate|]. split; [exact B|]. change (f1 : b64) with (b64_of 1 0). rewrite A. simpl. rewrite Rabs_pos_eq; lra. Qed.
Lemma fb_c2 : FB f2 1.
Proof. destruct (const_small 2) as [A B]; [vm_compute; discriminate|]. split; [exact B|]. change (f2 : b64) with (b64_of 2 0). rewrite A. simpl. rewrite Rabs_pos_eq; lra. Qed.
Lemma fb_cs : FB fsplit 28.
Proof.
  destruct (const_small 134217729) as [A B]; [vm_compute; discriminate|]. split; [exact B|].
  change (fsplit : b64) with (b64_of 134217729 0). rewrite A. rewrite Rabs_pos_eq by lra. change (bpow radix2 28) with 268435456. lra.
Qed.
Lemma fb_ch : FB fhalf 0.
Proof. split; [reflexivity|]. rewrite ch. rewrite Rabs_pos_eq by lra. simpl. lra. Qed.

Ltac fb := lazymatch goal with
  | |- FB (fadd _ _) _ => simple eapply fb_add; [fb|fb|reflexivity]
  | |- FB (fsub _ _) _ => simple eapply fb_sub; [fb|fb|reflexivity]
  | |- FB (fmul _ _) _ => simple eapply fb_mul; [fb|fb|reflexivity]
  | |- FB (fopp _) _ => simple eapply fb_opp; fb
  | |- FB f1 _ => exact fb_c1
  | |- FB f2 _ => exact fb_c2
  | |- FB fsplit _ => exact fb_cs
  | |- FB fhalf _ => exact fb_ch
  | |- _ => eassumption
  end.

Lemma fb_fin : forall x k, FB x k -> is_finite x = true. Proof. intros x k H. apply H. Qed.

Ltac unall := cbv beta iota zeta delta [quad_mul quad_muld quad_sqr quad_add_fast QUAD_ADD quad_fma quad_fmad quad_fsa quad_div TWO_PROD TWO_SQR two_prod two_sqr two_sum two_diff fast_two_sum split fst snd].

Lemma nov_add : forall b c : b64 * b64, FB (fst b) 1000 -> FB (snd b) 1000 -> FB (fst c) 1000 -> FB (snd c) 1000 ->
  fin (quad_add_fast b c).
Proof. intros [bh bl] [xh xl] A B C D. cbn [fst snd] in *. split; unall; eapply fb_fin; fb. Qed.
Lemma nov_add_sse2 : forall b c : b64 * b64, FB (fst b) 1000 -> FB (snd b) 1000 -> FB (fst c) 1000 -> FB (snd c) 1000 ->
  fin (quad_add_sse2 true b c).
Proof. intros [bh bl] [xh xl] A B C D. cbn [fst snd] in *. split; sse; eapply fb_fin; fb. Qed.
Lemma nov_mul : forall b c : b64 * b64, FB (fst b) 400 -> FB (snd b) 400 -> FB (fst c) 400 -> FB (snd c) 400 ->
  fin (quad_mul false b c).
Proof. intros [bh bl] [xh xl] A B C D. cbn [fst snd] in *. split; unall; eapply fb_fin; fb. Qed.
Lemma nov_mul_sse2 : forall b c : b64 * b64, FB (fst b) 400 -> FB (snd b) 400 -> FB (fst c) 400 -> FB (snd c) 400 ->
  fin (quad_mul_sse2 b c).
Proof. intros [bh bl] [xh xl] A B C D. cbn [fst snd] in *. split; sse; eapply fb_fin; fb. Qed.
Lemma nov_muld : forall (b : b64 * b64) c, FB (fst b) 400 -> FB (snd b) 400 -> FB c 400 ->
  fin (quad_muld false b c).
Proof. intros [bh bl] xh A B C. cbn [fst snd] in *. split; unall; eapply fb_fin; fb. Qed.
Lemma nov_muld_sse2 : forall (b : b64 * b64) c, FB (fst b) 400 -> FB (snd b) 400 -> FB c 400 ->
  fin (quad_muld_sse2 b c).
Proof. intros [bh bl] xh A B C. cbn [fst snd] in *. split; sse; eapply fb_fin; fb. Qed.
Lemma nov_sqr : forall (b : b64 * b64), FB (fst b) 400 -> FB (snd b) 400 -> fin (quad_sqr false b).
Proof. intros [bh bl] A B. cbn [fst snd] in *. split; unall; eapply fb_fin; fb. Qed.
Lemma nov_sqr_sse2 : forall (b : b64 * b64), FB (fst b) 400 -> FB (snd b) 400 -> fin (quad_sqr_sse2 b).
Proof. intros [bh bl] A B. cbn [fst snd] in *. split; sse; eapply fb_fin; fb. Qed.
Ltac fbd Q T := lazymatch goal with
  | |- FB (fdiv _ _) _ => first [exact Q | simple eapply T; [fbd Q T|reflexivity]]
  | |- FB (fadd _ _) _ => simple eapply fb_add; [fbd Q T|fbd Q T|reflexivity]
  | |- FB (fsub _ _) _ => simple eapply fb_sub; [fbd Q T|fbd Q T|reflexivity]
  | |- FB (fmul _ _) _ => simple eapply fb_mul; [fbd Q T|fbd Q T|reflexivity]
  | |- FB fsplit _ => exact fb_cs
  | |- _ => eassumption end.
Lemma nov_div : forall (b c : b64 * b64), FB (fst b) 150 -> FB (snd b) 150 -> FB (fst c) 150 -> FB (snd c) 150 ->
  bpow radix2 (-150) <= Rabs (B2R (fst c)) -> fin (quad_div false b c).
Proof.
  intros [bh bl] [xh xl] A B C D L. cbn [fst snd] in *.
  pose proof (fb_div bh xh _ _ A (proj1 C) L eq_refl) as Q.
  assert (T : forall y k, FB y k -> ((-1075 <? k - -150) && (k - -150 <? 1024))%Z = true -> FB (fdiv y xh) (k - -150)).
  { intros y k Hy Hk. apply fb_div; auto. apply C. }
  split; unall; eapply fb_fin;
  fbd Q T.
Qed.
Lemma nov_div_sse2 : forall (b c : b64 * b64), FB (fst b) 150 -> FB (snd b) 150 -> FB (fst c) 150 -> FB (snd c) 150 ->
  bpow radix2 (-150) <= Rabs (B2R (fst c)) -> fin (quad_div_sse2 b c).
Proof.
  intros [bh bl] [xh xl] A B C D L. cbn [fst snd] in *.
  pose proof (fb_div bh xh _ _ A (proj1 C) L eq_refl) as Q.
  assert (T : forall y k, FB y k -> ((-1075 <? k - -150) && (k - -150 <? 1024))%Z = true -> FB (fdiv y xh) (k - -150)).
  { intros y k Hy Hk. apply fb_div; auto. apply C. }
  split; sse; eapply fb_fin;
  fbd Q T.
Qed.
Lemma fb_sqrt_inv : forall x, FB x 200 -> bpow radix2 (-200) <= B2R x -> FB (fdiv f1 (fsqrt x)) 100.
Proof.
  intros x [Fx Bx] L.
  destruct (Bsqrt_correct 53 1024 _ _ mode_NE x) as (E & Fi & _).
  change (Bsqrt mode_NE x) with (fsqrt x) in *.
  change (round radix2 (SpecFloat.fexp 53 1024) (round_mode mode_NE) (R_sqrt.sqrt (B2R x))) with (rnd (R_sqrt.sqrt (B2R x))) in E.
  assert (G : bpow radix2 (-100) <= B2R (fsqrt x)).
  { rewrite E. unfold rnd. apply round_ge_generic; try typeclasses eauto.
    apply generic_format_bpow. unfold FLT_exp. lia.
    apply sqrt_le_1_alt in L. eapply Rle_trans; [|exact L].
    right. change (-200)%Z with (-100 + -100)%Z. rewrite bpow_plus. rewrite sqrt_square; auto. apply bpow_ge_0. }
  apply (fb_div f1 (fsqrt x) 0 (-100)); auto using fb_c1.
  - rewrite Fi. destruct x; auto; try discriminate. destruct s; auto. exfalso.
    pose proof (bpow_gt_0 radix2 (-200)). assert (B2R (B754_finite true m e e0) < 0).
    { unfold B2R. apply F2R_lt_0. reflexivity. } lra.
  - rewrite Rabs_pos_eq; auto. eapply Rle_trans; [|exact G]. apply bpow_ge_0.
Qed.
Lemma nov_sqrt : forall (b : b64 * b64), FB (fst b) 200 -> FB (snd b) 200 -> bpow radix2 (-200) <= B2R (fst b) ->
  fin (quad_sqrt_sse2_core b).
Proof.
  intros [bh bl] A B L. cbn [fst snd] in *. pose proof (fb_sqrt_inv bh A L) as Q.
  split; sse; unfold sqrt_pd; sse; eapply fb_fin; fb.
Qed.

