(** From binary64 to rounded real arithmetic. *)
From Coq Require Import ZArith Reals Lra Lia Psatz Bool.
From Flocq Require Import Core BinarySingleNaN.
From Verif Require Import Quad SpecQuad QuadReal QuadSqr QuadAcc QuadDiv QuadSqrt.
Open Scope R_scope.

(** [x] is the number [v], if it is a number at all. *)
Definition Rel (x : b64) (v : R) : Prop := is_finite x = true -> B2R x = v.
Definition Rel2 (x : b64 * b64) (v : R * R) : Prop := Rel (fst x) (fst v) /\ Rel (snd x) (snd v).

Lemma rel_refl : forall x, Rel x (B2R x). Proof. intros x H. reflexivity. Qed.
Lemma rel2_refl : forall q, Rel2 q (B2R (fst q), B2R (snd q)). Proof. intros [x y]. split; apply rel_refl. Qed.

Lemma fin_overflow : forall s (x : b64), B2SF x = binary_overflow 53 1024 mode_NE s -> is_finite x = false.
Proof. intros s x H. destruct x; simpl in H; try discriminate; auto. Qed.

Lemma add_fin : forall x y : b64, is_finite (Bplus mode_NE x y) = true -> is_finite x = true /\ is_finite y = true.
Proof. intros [s|s| |s m e h] [s'|s'| |s' m' e' h'] H; simpl in *; auto; try discriminate; try (destruct (Bool.eqb s s'); discriminate). Qed.
Lemma sub_fin : forall x y : b64, is_finite (Bminus mode_NE x y) = true -> is_finite x = true /\ is_finite y = true.
Proof. intros [s|s| |s m e h] [s'|s'| |s' m' e' h'] H; simpl in *; auto; try discriminate; try (destruct (Bool.eqb s (negb s')); discriminate). Qed.
Lemma mul_fin : forall x y : b64, is_finite (Bmult mode_NE x y) = true -> is_finite x = true /\ is_finite y = true.
Proof. intros [s|s| |s m e h] [s'|s'| |s' m' e' h'] H; simpl in *; auto; try discriminate. Qed.
Lemma div_fin : forall x y : b64, is_finite (Bdiv mode_NE x y) = true -> is_finite x = true.
Proof. intros [s|s| |s m e h] [s'|s'| |s' m' e' h'] H; simpl in *; auto; try discriminate. Qed.

Lemma add_real : forall x y : b64, is_finite (Bplus mode_NE x y) = true ->
  B2R (Bplus mode_NE x y) = rnd (B2R x + B2R y).
Proof.
  intros x y H. destruct (add_fin x y H) as [Fx Fy].
  pose proof (Bplus_correct 53 1024 _ _ mode_NE x y Fx Fy) as C.
  destruct (Rlt_bool _ _); [apply C|]. destruct C as [C _]. apply fin_overflow in C. congruence.
Qed.
Lemma sub_real : forall x y : b64, is_finite (Bminus mode_NE x y) = true ->
  B2R (Bminus mode_NE x y) = rnd (B2R x - B2R y).
Proof.
  intros x y H. destruct (sub_fin x y H) as [Fx Fy].
  pose proof (Bminus_correct 53 1024 _ _ mode_NE x y Fx Fy) as C.
  destruct (Rlt_bool _ _); [apply C|]. destruct C as [C _]. apply fin_overflow in C. congruence.
Qed.
Lemma mul_real : forall x y : b64, is_finite (Bmult mode_NE x y) = true ->
  B2R (Bmult mode_NE x y) = rnd (B2R x * B2R y).
Proof.
  intros x y H.
  pose proof (Bmult_correct 53 1024 _ _ mode_NE x y) as C.
  destruct (Rlt_bool _ _); [apply C|]. apply fin_overflow in C. congruence.
Qed.
Lemma div_real : forall x y : b64, B2R y <> 0 -> is_finite (Bdiv mode_NE x y) = true ->
  B2R (Bdiv mode_NE x y) = rnd (B2R x / B2R y).
Proof.
  intros x y Hy H.
  pose proof (Bdiv_correct 53 1024 _ _ mode_NE x y Hy) as C.
  destruct (Rlt_bool _ _); [apply C|]. apply fin_overflow in C. congruence.
Qed.

Lemma rel_add : forall x y v w, Rel x v -> Rel y w -> Rel (fadd x y) (fadd v w).
Proof.
  intros x y v w Hx Hy H. change (fadd x y) with (Bplus mode_NE x y) in *. destruct (add_fin x y H) as [Fx Fy].
  rewrite add_real by auto. rewrite (Hx Fx), (Hy Fy). reflexivity.
Qed.
Lemma rel_sub : forall x y v w, Rel x v -> Rel y w -> Rel (fsub x y) (fsub v w).
Proof.
  intros x y v w Hx Hy H. change (fsub x y) with (Bminus mode_NE x y) in *. destruct (sub_fin x y H) as [Fx Fy].
  rewrite sub_real by auto. rewrite (Hx Fx), (Hy Fy). reflexivity.
Qed.
Lemma rel_mul : forall x y v w, Rel x v -> Rel y w -> Rel (fmul x y) (fmul v w).
Proof.
  intros x y v w Hx Hy H. change (fmul x y) with (Bmult mode_NE x y) in *. destruct (mul_fin x y H) as [Fx Fy].
  rewrite mul_real by auto. rewrite (Hx Fx), (Hy Fy). reflexivity.
Qed.
Lemma rel_opp : forall x v, Rel x v -> Rel (fopp x) (fopp v).
Proof.
  intros x v Hx H. change (fopp x) with (Bopp x) in *. rewrite is_finite_Bopp in H. rewrite B2R_Bopp, (Hx H). reflexivity.
Qed.
Lemma rel_sqrt : forall x v, Rel x v -> Rel (fsqrt x) (fsqrt v).
Proof.
  intros x v Hx H. change (fsqrt x) with (Bsqrt mode_NE x) in *.
  destruct (Bsqrt_correct 53 1024 _ _ mode_NE x) as (E & F & _). rewrite E. rewrite F in H.
  rewrite Hx. reflexivity. destruct x; auto; discriminate.
Qed.
Lemma rel_div : forall x y v, B2R y <> 0 -> Rel x v -> Rel (fdiv x y) (fdiv v (B2R y)).
Proof.
  intros x y v Hy Hx H. change (fdiv x y) with (Bdiv mode_NE x y) in *. pose proof (div_fin x y H) as Fx.
  rewrite div_real by auto. rewrite (Hx Fx). reflexivity.
Qed.

Lemma b64_of_exact : forall m e, fmt (IZR m * bpow radix2 e) -> Rabs (IZR m * bpow radix2 e) < bpow radix2 1024 ->
  B2R (b64_of m e) = IZR m * bpow radix2 e /\ is_finite (b64_of m e) = true.
Proof.
  intros m e F L. pose proof (binary_normalize_correct 53 1024 _ _ mode_NE m e false) as C.
  unfold F2R in C. cbn [Fnum Fexp] in C.
  change (round radix2 (SpecFloat.fexp 53 1024) (round_mode mode_NE) (IZR m * bpow radix2 e)) with (rnd (IZR m * bpow radix2 e)) in C.
  rewrite rnd_id in C by auto. rewrite Rlt_bool_true in C by auto. split; apply C.
Qed.
Lemma const_small : forall m, (Z.abs m <= 2 ^ 53)%Z -> B2R (b64_of m 0) = IZR m /\ is_finite (b64_of m 0) = true.
Proof.
  intros m H. destruct (b64_of_exact m 0) as [A B].
  - apply fmt_grid; auto; lia.
  - simpl (bpow radix2 0). rewrite Rmult_1_r, <- abs_IZR. apply Rle_lt_trans with (bpow radix2 53).
    + change (bpow radix2 53) with (IZR (2 ^ 53)). now apply IZR_le.
    + apply bpow_lt. lia.
  - simpl (bpow radix2 0) in A. rewrite Rmult_1_r in A. auto.
Qed.
Lemma c0 : B2R (f0 : b64) = 0. Proof. apply (const_small 0). vm_compute; discriminate. Qed.
Lemma c1 : B2R (f1 : b64) = 1. Proof. apply (const_small 1). vm_compute; discriminate. Qed.
Lemma c2 : B2R (f2 : b64) = 2. Proof. apply (const_small 2). vm_compute; discriminate. Qed.
Lemma cs : B2R (fsplit : b64) = 134217729. Proof. apply (const_small 134217729). vm_compute; discriminate. Qed.
Lemma ch : B2R (fhalf : b64) = / 2.
Proof.
  destruct (b64_of_exact 1 (-1)) as [A B].
  - apply fmt_grid; [vm_compute; discriminate|lia].
  - rewrite Rmult_1_l, Rabs_pos_eq by apply bpow_ge_0. apply bpow_lt. lia.
  - change (fhalf : b64) with (b64_of 1 (-1)). rewrite A. simpl. lra.
Qed.
Lemma rel_c0 : Rel f0 f0. Proof. intros _. apply c0. Qed.
Lemma rel_c1 : Rel f1 f1. Proof. intros _. apply c1. Qed.
Lemma rel_c2 : Rel f2 f2. Proof. intros _. apply c2. Qed.
Lemma rel_cs : Rel fsplit fsplit. Proof. intros _. apply cs. Qed.
Lemma rel_ch : Rel fhalf fhalf. Proof. intros _. apply ch. Qed.

Ltac rel := lazymatch goal with
  | |- Rel (fadd _ _) _ => simple apply rel_add; rel
  | |- Rel (fsub _ _) _ => simple apply rel_sub; rel
  | |- Rel (fmul _ _) _ => simple apply rel_mul; rel
  | |- Rel (fopp _) _ => simple apply rel_opp; rel
  | |- Rel (fsqrt _) _ => simple apply rel_sqrt; rel
  | |- Rel (fdiv _ _) _ => first [assumption | simple apply rel_div; [assumption|rel] | idtac]
  | |- Rel f0 _ => exact rel_c0
  | |- Rel f1 _ => exact rel_c1
  | |- Rel f2 _ => exact rel_c2
  | |- Rel fsplit _ => exact rel_cs
  | |- Rel fhalf _ => exact rel_ch
  | |- _ => try assumption
  end.

Lemma rel_fts : forall x y v w, Rel x v -> Rel y w -> Rel2 (fast_two_sum x y) (fast_two_sum v w).
Proof. intros. unfold fast_two_sum. split; cbn [fst snd]; rel. Qed.
Lemma rel_two_sum : forall x y v w, Rel x v -> Rel y w -> Rel2 (two_sum x y) (two_sum v w).
Proof. intros. unfold two_sum. split; cbn [fst snd]; rel. Qed.
Lemma rel_two_diff : forall x y v w, Rel x v -> Rel y w -> Rel2 (two_diff x y) (two_diff v w).
Proof. intros. unfold two_diff. split; cbn [fst snd]; rel. Qed.
Lemma rel_split : forall x v, Rel x v -> Rel2 (split x) (split v).
Proof. intros. unfold split. split; cbn [fst snd]; rel. Qed.
Lemma rel_two_prod : forall x y v w, Rel x v -> Rel y w -> Rel2 (two_prod x y) (two_prod v w).
Proof.
  intros. unfold two_prod. destruct (rel_split x v H), (rel_split y w H0).
  destruct (split x), (split y), (split v), (split w). cbn [fst snd] in *. split; cbn [fst snd]; rel.
Qed.
Lemma rel_two_sqr : forall x v, Rel x v -> Rel2 (two_sqr x) (two_sqr v).
Proof.
  intros. unfold two_sqr. destruct (rel_split x v H).
  destruct (split x), (split v). cbn [fst snd] in *. split; cbn [fst snd]; rel.
Qed.
Lemma rel_quad_mul : forall b c v w, Rel2 b v -> Rel2 c w -> Rel2 (quad_mul false b c) (quad_mul false v w).
Proof.
  intros [bh bl] [xh xl] [vh vl] [wh wl] [A B] [C D]. cbn [fst snd] in *. unfold quad_mul, TWO_PROD.
  destruct (rel_two_prod bh xh vh wh A C). destruct (two_prod bh xh), (two_prod vh wh). cbn [fst snd] in *.
  apply rel_fts; rel.
Qed.
Lemma rel_quad_muld : forall b c v w, Rel2 b v -> Rel c w -> Rel2 (quad_muld false b c) (quad_muld false v w).
Proof.
  intros [bh bl] xh [vh vl] wh [A B] C. cbn [fst snd] in *. unfold quad_muld, TWO_PROD.
  destruct (rel_two_prod bh xh vh wh A C). destruct (two_prod bh xh), (two_prod vh wh). cbn [fst snd] in *.
  apply rel_fts; rel.
Qed.
Lemma rel_quad_sqr : forall b v, Rel2 b v -> Rel2 (quad_sqr false b) (quad_sqr false v).
Proof.
  intros [bh bl] [vh vl] [A B]. cbn [fst snd] in *. unfold quad_sqr, TWO_SQR.
  destruct (rel_two_sqr bh vh A). destruct (two_sqr bh), (two_sqr vh). cbn [fst snd] in *.
  apply rel_fts; rel.
Qed.
Lemma rel_add_fast : forall b c v w, Rel2 b v -> Rel2 c w -> Rel2 (quad_add_fast b c) (quad_add_fast v w).
Proof.
  intros [bh bl] [xh xl] [vh vl] [wh wl] [A B] [C D]. cbn [fst snd] in *. unfold quad_add_fast.
  destruct (rel_two_sum bh xh vh wh A C). destruct (two_sum bh xh), (two_sum vh wh). cbn [fst snd] in *.
  apply rel_fts; rel.
Qed.
Lemma rel_quad_div : forall b c, is_finite (fst c) = true -> B2R (fst c) <> 0 ->
  Rel2 (quad_div false b c) (quad_div false (B2R (fst b), B2R (snd b)) (B2R (fst c), B2R (snd c))).
Proof.
  intros [bh bl] [xh xl] F Z. cbn [fst snd] in *. unfold quad_div.
  pose proof (rel_refl bh) as Rbh. pose proof (rel_refl bl) as Rbl. pose proof (rel_refl xh) as Rxh. pose proof (rel_refl xl) as Rxl.
  pose proof (rel_div bh xh _ Z Rbh) as Rt.
  set (tl := fdiv bh xh) in *. set (vt := fdiv (B2R bh) (B2R xh)) in *.
  destruct (rel_quad_muld (xh, xl) tl (B2R xh, B2R xl) vt (conj Rxh Rxl) Rt) as [E1 E2].
  destruct (quad_muld false (xh, xl) tl) as [eh el]. destruct (quad_muld false (B2R xh, B2R xl) vt) as [veh vel]. cbn [fst snd] in *.
  destruct (rel_two_diff bh eh (B2R bh) veh Rbh E1) as [S1 S2].
  destruct (two_diff bh eh) as [sh sl]. destruct (two_diff (B2R bh) veh) as [vsh vsl]. cbn [fst snd] in *.
  apply rel_fts; auto. apply rel_div; auto. rel.
Qed.

(** SSE2 variants. *)
Ltac sse := cbv beta iota zeta delta [quad_mul_sse2 quad_muld_sse2 quad_sqr_sse2 quad_add_sse2 mul_sse2_store mul_sse2_core muld_sse2_core sqr_sse2_core
  add_sse2_fast_core quad_fma_sse2 quad_fmad_sse2 quad_fsa_sse2 fma_sse2_tail quad_div_sse2
  quad_div_sse2 quad_sqrt_sse2_core set_sd set_pd move_sd div_sd mul_sd sub_sd add_sd mul_pd sub_pd add_pd op_sd op_pd unpacklo_pd unpackhi_pd fst snd].
Ltac unscal := cbv beta iota zeta delta [quad_mul quad_muld quad_sqr quad_add_fast quad_div TWO_PROD TWO_SQR two_prod two_sqr two_sum two_diff fast_two_sum split fst snd].

Lemma fadd_comm : forall x y : R, fadd x y = fadd y x.
Proof. intros. cbn. f_equal. ring. Qed.
Lemma fmul_comm : forall x y : R, fmul x y = fmul y x.
Proof. intros. cbn. f_equal. ring. Qed.

Lemma fadd_cg : forall a b c d : R, a = c -> b = d -> fadd a b = fadd c d. Proof. congruence. Qed.
Lemma fadd_cg' : forall a b c d : R, a = d -> b = c -> fadd a b = fadd c d. Proof. intros; subst. apply fadd_comm. Qed.
Lemma fmul_cg : forall a b c d : R, a = c -> b = d -> fmul a b = fmul c d. Proof. congruence. Qed.
Lemma fmul_cg' : forall a b c d : R, a = d -> b = c -> fmul a b = fmul c d. Proof. intros; subst. apply fmul_comm. Qed.
Lemma fsub_cg : forall a b c d : R, a = c -> b = d -> fsub a b = fsub c d. Proof. congruence. Qed.
Lemma fdiv_cg : forall a b c d : R, a = c -> b = d -> fdiv a b = fdiv c d. Proof. congruence. Qed.
Lemma fdbl : forall a : R, fmul f2 a = fadd a a. Proof. intros. cbn. f_equal. ring. Qed.
Lemma pair_cg : forall a b c d : R, a = c -> b = d -> (a, b) = (c, d). Proof. congruence. Qed.

(** Equality up to commutativity of + and *. *)
Ltac ceq := first [ reflexivity
  | simple apply pair_cg; [solve [ceq]|solve [ceq]]
  | simple apply fsub_cg; [solve [ceq]|solve [ceq]]
  | simple apply fdiv_cg; [solve [ceq]|solve [ceq]]
  | simple apply fadd_cg; [solve [ceq]|solve [ceq]]
  | simple apply fadd_cg'; [solve [ceq]|solve [ceq]]
  | simple apply fmul_cg; [solve [ceq]|solve [ceq]]
  | simple apply fmul_cg'; [solve [ceq]|solve [ceq]] ].

Lemma mul_sse2_swap : forall b c : R * R, quad_mul_sse2 b c = quad_mul false c b.
Proof. intros [bh bl] [xh xl]. sse. unscal. ceq. Qed.
Lemma add_sse2_same : forall (b c : R * R), quad_add_sse2 true b c = quad_add_fast b c.
Proof. intros [bh bl] [xh xl]. sse. unscal. reflexivity. Qed.
Lemma muld_sse2_same : forall (b : R * R) (c : R), quad_muld_sse2 b c = quad_muld false b c.
Proof. intros [bh bl] xh. sse. unscal. ceq. Qed.
Lemma sqr_sse2_same : forall (b : R * R), quad_sqr_sse2 b = quad_sqr false b.
Proof. intros [bh bl]. sse. unscal. rewrite !fdbl. ceq. Qed.
Lemma fma_sse2_same : forall (a b c : R * R), quad_fma_sse2 true a b c = quad_add_fast a (quad_mul false c b).
Proof. intros [ah al] [bh bl] [xh xl]. sse. unscal. Time ceq. Qed.
Lemma fmad_sse2_same : forall (a b : R * R) (c : R), quad_fmad_sse2 true a b c = quad_fmad true false a b c.
Proof. intros [ah al] [bh bl] xh. sse. unfold quad_fmad, QUAD_ADD. unscal. Time ceq. Qed.
Lemma fsa_sse2_same : forall (a b : R * R), quad_fsa_sse2 true a b = quad_fsa true false a b.
Proof. intros [ah al] [bh bl]. sse. unfold quad_fsa, QUAD_ADD. unscal. rewrite !fdbl. Time ceq. Qed.
Lemma div_sse2_same : forall (b c : R * R), quad_div_sse2 b c = quad_div false b c.
Proof. intros [bh bl] [xh xl]. sse. unscal. Time ceq. Qed.
