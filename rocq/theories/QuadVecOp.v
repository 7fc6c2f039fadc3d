(** The operations used on quad vectors, one lane at a time. *)
From Coq Require Import ZArith Reals Lra Lia Psatz Bool List.
From Flocq Require Import Core BinarySingleNaN.
From Verif Require Import Base Quad SpecQuad QuadReal QuadSqr QuadAcc QuadDiv QuadSqrt QuadB64 QuadB64b QuadFinal QuadVec.
Open Scope R_scope.

Notation Qd := (b64 * b64)%type (only parsing).

Section GEN.
Context {F : Type} {O : FOps F}.
Ltac go := intros; repeat match goal with a : (F * F)%type |- _ => destruct a end; reflexivity.
Lemma fma_split : forall a b c : F * F, quad_fma_sse2 true a b c = quad_add_fast a (quad_mul_sse2 b c). Proof. go. Qed.
Lemma fmad_split : forall (a b : F * F) (c : F), quad_fmad_sse2 true a b c = quad_add_fast a (quad_muld_sse2 b c). Proof. go. Qed.
Lemma fsa_split : forall a b : F * F, quad_fsa_sse2 true a b = quad_add_fast a (quad_sqr_sse2 b). Proof. go. Qed.
Lemma add_split : forall a b : F * F, quad_add_sse2 true a b = quad_add_fast a b. Proof. go. Qed.

Definition sqr2 (b0 b1 : F * F) : (F * F) * (F * F) := lanes (quad_sqr2_sse2 (fst b0, fst b1) (snd b0, snd b1)).
Variable g : qcfg.
Hypothesis G : q_fast_add g = true.
Lemma fma2_split : forall a0 a1 b0 b1 c0 c1 : F * F, fma2 g a0 a1 b0 b1 c0 c1 =
  (quad_add_fast a0 (fst (mul2 b0 b1 c0 c1)), quad_add_fast a1 (snd (mul2 b0 b1 c0 c1))).
Proof. unfold fma2. rewrite G. go. Qed.
Lemma fmad2_split : forall (a0 a1 b0 b1 : F * F) (c0 c1 : F), fmad2 g a0 a1 b0 b1 c0 c1 =
  (quad_add_fast a0 (fst (muld2 b0 b1 c0 c1)), quad_add_fast a1 (snd (muld2 b0 b1 c0 c1))).
Proof. unfold fmad2. rewrite G. go. Qed.
Lemma fsa2_split : forall a0 a1 b0 b1 : F * F, fsa2 g a0 a1 b0 b1 =
  (quad_add_fast a0 (fst (sqr2 b0 b1)), quad_add_fast a1 (snd (sqr2 b0 b1))).
Proof. unfold fsa2. rewrite G. go. Qed.
End GEN.

Ltac pd := cbv beta iota zeta delta [mul2 muld2 sqr2 lanes quad_mul2_sse2 quad_muld2_sse2 quad_sqr2_sse2 mul2_sse2_store mul2_sse2_core muld2_sse2_core sqr2_sse2_core
  set_pd mul_pd sub_pd add_pd op_pd fst snd].

Lemma mul2_R : forall b0 b1 c0 c1 : R * R, mul2 b0 b1 c0 c1 = (quad_mul false b0 c0, quad_mul false b1 c1).
Proof. intros [? ?] [? ?] [? ?] [? ?]. apply injective_projections; pd; unscal; ceq. Qed.
Lemma muld2_R : forall (b0 b1 : R * R) (c0 c1 : R), muld2 b0 b1 c0 c1 = (quad_muld false b0 c0, quad_muld false b1 c1).
Proof. intros [? ?] [? ?] ? ?. apply injective_projections; pd; unscal; ceq. Qed.
Lemma sqr2_R : forall b0 b1 : R * R, sqr2 b0 b1 = (quad_sqr false b0, quad_sqr false b1).
Proof. intros [? ?] [? ?]. apply injective_projections; pd; unscal; rewrite !fdbl; ceq. Qed.

Definition Rel4 (x : Qd * Qd) (v : (R * R) * (R * R)) : Prop := Rel2 (fst x) (fst v) /\ Rel2 (snd x) (snd v).
Lemma rel_mul2 : forall (b0 b1 c0 c1 : Qd) v0 v1 w0 w1, Rel2 b0 v0 -> Rel2 b1 v1 -> Rel2 c0 w0 -> Rel2 c1 w1 ->
  Rel4 (mul2 b0 b1 c0 c1) (mul2 v0 v1 w0 w1).
Proof.
  intros [? ?] [? ?] [? ?] [? ?] [? ?] [? ?] [? ?] [? ?] [? ?] [? ?] [? ?] [? ?]. cbn [fst snd] in *.
  split; split; pd; rel.
Qed.
Lemma rel_muld2 : forall (b0 b1 : Qd) (c0 c1 : b64) v0 v1 w0 w1, Rel2 b0 v0 -> Rel2 b1 v1 -> Rel c0 w0 -> Rel c1 w1 ->
  Rel4 (muld2 b0 b1 c0 c1) (muld2 v0 v1 w0 w1).
Proof.
  intros [? ?] [? ?] ? ? [? ?] [? ?] ? ? [? ?] [? ?] ? ?. cbn [fst snd] in *.
  split; split; pd; rel.
Qed.
Lemma rel_sqr2 : forall (b0 b1 : Qd) v0 v1, Rel2 b0 v0 -> Rel2 b1 v1 -> Rel4 (sqr2 b0 b1) (sqr2 v0 v1).
Proof.
  intros [? ?] [? ?] [? ?] [? ?] [? ?] [? ?]. cbn [fst snd] in *.
  split; split; pd; rel.
Qed.

(** [p] is b*c in quad precision, if it is finite *)
Definition isprod (p : Qd) (m : R) : Prop :=
  fin p -> normal p /\ Rabs (val p - m) <= bpow radix2 (-102) * Rabs m + bpow radix2 (-1071).
Definition issqr (p : Qd) (m : R) : Prop :=
  fin p -> normal p /\ Rabs (val p - m) <= bpow radix2 (-102) * Rabs m + bpow radix2 (-1000).

Lemma prod_of : forall (p b c : Qd), Rel2 p (quad_mul false (toR b) (toR c)) -> normal b -> normal c -> isprod p (val b * val c).
Proof.
  intros p b c E Nb Nc H. destruct (quad_mul_ok _ _ (normal_toR b Nb) (normal_toR c Nc)) as [N B].
  split; [eapply normal_of; eauto|]. rewrite !val_toR, (fin_toR _ _ E H). rewrite <- c16, <- p8e. exact B.
Qed.
Lemma prodd_of : forall (p b : Qd) (c : b64), Rel2 p (quad_muld false (toR b) (B2R c)) -> normal b -> isprod p (val b * real c).
Proof.
  intros p b c E Nb H. destruct (quad_muld_ok _ _ (normal_toR b Nb) (normal_fmt c)) as [N B].
  split; [eapply normal_of; eauto|]. rewrite !val_toR, (fin_toR _ _ E H).
  eapply Rle_trans; [exact B|]. rewrite c8, p8e. apply Rplus_le_compat_r, Rmult_le_compat_r; [apply Rabs_pos|]. apply bpow_le. lia.
Qed.
Lemma sqr_of : forall (p b : Qd), Rel2 p (quad_sqr false (toR b)) -> normal b -> issqr p (val b * val b).
Proof.
  intros p b E Nb H. destruct (quad_sqr_ok _ (normal_toR b Nb)) as [N B].
  split; [eapply normal_of; eauto|]. rewrite !val_toR, (fin_toR _ _ E H). rewrite <- c16. exact B.
Qed.
Lemma mul2_prod : forall b0 b1 c0 c1 : Qd, normal b0 -> normal b1 -> normal c0 -> normal c1 ->
  isprod (fst (mul2 b0 b1 c0 c1)) (val b0 * val c0) /\ isprod (snd (mul2 b0 b1 c0 c1)) (val b1 * val c1).
Proof.
  intros b0 b1 c0 c1 B0 B1 C0 C1. destruct (rel_mul2 b0 b1 c0 c1 _ _ _ _ (rel2_toR b0) (rel2_toR b1) (rel2_toR c0) (rel2_toR c1)) as [A B].
  rewrite mul2_R in A, B. split; apply prod_of; auto.
Qed.
Lemma muld2_prod : forall (b0 b1 : Qd) (c0 c1 : b64), normal b0 -> normal b1 ->
  isprod (fst (muld2 b0 b1 c0 c1)) (val b0 * real c0) /\ isprod (snd (muld2 b0 b1 c0 c1)) (val b1 * real c1).
Proof.
  intros b0 b1 c0 c1 B0 B1. destruct (rel_muld2 b0 b1 c0 c1 _ _ _ _ (rel2_toR b0) (rel2_toR b1) (rel_refl c0) (rel_refl c1)) as [A B].
  rewrite muld2_R in A, B. split; apply prodd_of; auto.
Qed.
Lemma sqr2_prod : forall (b0 b1 : Qd), normal b0 -> normal b1 ->
  issqr (fst (sqr2 b0 b1)) (val b0 * val b0) /\ issqr (snd (sqr2 b0 b1)) (val b1 * val b1).
Proof.
  intros b0 b1 B0 B1. destruct (rel_sqr2 b0 b1 _ _ (rel2_toR b0) (rel2_toR b1)) as [A B].
  rewrite sqr2_R in A, B. split; apply sqr_of; auto.
Qed.

Lemma fin_add_fast : forall a p : Qd, fin (quad_add_fast a p) -> fin a /\ fin p.
Proof.
  intros [ah al] [ph pl] [H _]. revert H. unfold quad_add_fast, two_sum, fast_two_sum. cbn [fst snd].
  unfold fin, finite. cbn [fst snd].
  change (@fadd b64 _) with (Bplus (prec:=53) (emax:=1024) mode_NE). change (@fsub b64 _) with (Bminus (prec:=53) (emax:=1024) mode_NE).
  intros H. apply add_fin in H. destruct H as [H1 H2]. apply add_fin in H1. apply add_fin in H2. destruct H2 as [H2 H3]. apply add_fin in H2.
  tauto.
Qed.
Lemma addf_ok : forall b c : Qd, normal b -> normal c -> fin (quad_add_fast b c) ->
  normal (quad_add_fast b c) /\
  Rabs (val (quad_add_fast b c) - (val b + val c)) <= bpow radix2 (-103) * (Rabs (val b) + Rabs (val c)).
Proof. intros b c. exact (add_ok g_scalar b c eq_refl). Qed.

(** [r] is the quad sum a + m *)
Definition accum (e : R) (r a : Qd) (m : R) : Prop :=
  fin r -> fin a /\ (normal a -> normal r /\ Rabs (val r - (val a + m)) <= bpow radix2 (-101) * (Rabs (val a) + Rabs m) + e).

Lemma bp3 : bpow radix2 (-101) = 4 * bpow radix2 (-103).
Proof. change 4 with (bpow radix2 2). rewrite <- bpow_plus. reflexivity. Qed.
Lemma bp2 : bpow radix2 (-102) = 2 * bpow radix2 (-103).
Proof. change 2 with (bpow radix2 1). rewrite <- bpow_plus. reflexivity. Qed.
Lemma b103 : 0 < bpow radix2 (-103) <= / 16.
Proof. split; [apply bpow_gt_0|]. replace (/ 16) with (bpow radix2 (-4)) by (simpl; lra). apply bpow_le. lia. Qed.
Lemma accum_gen : forall e (a p : Qd) m, 0 <= e ->
  (fin p -> normal p /\ Rabs (val p - m) <= bpow radix2 (-102) * Rabs m + e) ->
  accum (2 * e) (quad_add_fast a p) a m.
Proof.
  intros e a p m He P H. destruct (fin_add_fast a p H) as [Fa Fp]. split; auto. intros Na.
  destruct (P Fp) as [Np Ep]. destruct (addf_ok a p Na Np H) as [Nr Er]. split; auto.
  rewrite bp3. rewrite bp2 in Ep. pose proof b103 as D. set (d := bpow radix2 (-103)) in *.
  set (r := val (quad_add_fast a p)) in *. set (va := val a) in *. set (vp := val p) in *.
  pose proof (Rabs_pos m) as Pm. pose proof (Rabs_pos va) as Pa.
  assert (Bp : Rabs vp <= Rabs m + (2 * d * Rabs m + e)).
  { replace vp with (m + (vp - m)) by ring. eapply Rle_trans; [apply Rabs_triang|]. lra. }
  replace (r - (va + m)) with ((r - (va + vp)) + (vp - m)) by ring.
  eapply Rle_trans; [apply Rabs_triang|].
  assert (d * Rabs vp <= d * (Rabs m + (2 * d * Rabs m + e))) by (apply Rmult_le_compat_l; lra).
  assert (d * (2 * d * Rabs m) <= / 16 * (2 * d * Rabs m)) by (apply Rmult_le_compat_r; [|lra]; apply Rmult_le_pos; lra).
  assert (d * e <= / 16 * e) by (apply Rmult_le_compat_r; lra).
  assert (0 <= d * Rabs m) by (apply Rmult_le_pos; lra). assert (0 <= d * Rabs va) by (apply Rmult_le_pos; lra).
  nra.
Qed.
Definition epsp : R := bpow radix2 (-1070).
Definition epss : R := bpow radix2 (-999).
Lemma two_e : 2 * bpow radix2 (-1071) = epsp.
Proof. unfold epsp. change 2 with (bpow radix2 1). rewrite <- bpow_plus. reflexivity. Qed.
Lemma two_s : 2 * bpow radix2 (-1000) = epss.
Proof. unfold epss. change 2 with (bpow radix2 1). rewrite <- bpow_plus. reflexivity. Qed.
Lemma accum_prod : forall a p m, isprod p m -> accum epsp (quad_add_fast a p) a m.
Proof. intros. rewrite <- two_e. apply accum_gen; auto. apply bpow_ge_0. Qed.
Lemma accum_sqr : forall a p m, issqr p m -> accum epss (quad_add_fast a p) a m.
Proof. intros. rewrite <- two_s. apply accum_gen; auto. apply bpow_ge_0. Qed.

Section OPS.
Variable g : qcfg.
Hypothesis G : q_fast_add g = true.
Hypothesis NF : no_fma g.

Lemma m_mul_prod : forall b c : Qd, normal b -> normal c -> isprod (m_mul g b c) (val b * val c).
Proof. intros b c Nb Nc H. apply (mul_ok g b c NF Nb Nc H). Qed.
Lemma m_muld_prod : forall (b : Qd) (c : b64), normal b -> isprod (m_muld g b c) (val b * real c).
Proof.
  intros b c Nb. apply prodd_of; auto. unfold m_muld, lis_quad_mul_dd_d. destruct (q_sse2 g) eqn:Q.
  - rewrite <- muld_sse2_same. apply rel_muld_sse2; [apply rel2_toR|apply rel_refl].
  - destruct NF as [N|N]; [congruence|]. rewrite N. apply rel_quad_muld; [apply rel2_toR|apply rel_refl].
Qed.
Lemma m_sqr_prod : forall b : Qd, normal b -> issqr (lis_quad_sqr g b) (val b * val b).
Proof. intros b Nb H. apply (sqr_ok g b NF Nb H). Qed.

Lemma m_fma_ok : forall a b c : Qd, normal b -> normal c -> accum epsp (m_fma g a b c) a (val b * val c).
Proof.
  intros a b c Nb Nc. pose proof (m_mul_prod b c Nb Nc) as P. unfold m_fma, m_mul, lis_quad_mul, quad_fma, QUAD_ADD in *.
  rewrite G. destruct (q_sse2 g); [rewrite fma_split|]; now apply accum_prod.
Qed.
Lemma m_fmad_ok : forall (a b : Qd) (c : b64), normal b -> accum epsp (m_fmad g a b c) a (val b * real c).
Proof.
  intros a b c Nb. pose proof (m_muld_prod b c Nb) as P. unfold m_fmad, m_muld, lis_quad_mul_dd_d, quad_fmad, QUAD_ADD in *.
  rewrite G. destruct (q_sse2 g); [rewrite fmad_split|]; now apply accum_prod.
Qed.
Lemma m_fsa_ok : forall a b : Qd, normal b -> accum epss (m_fsa g a b) a (val b * val b).
Proof.
  intros a b Nb. pose proof (m_sqr_prod b Nb) as P. unfold m_fsa, lis_quad_sqr, quad_fsa, QUAD_ADD in *.
  rewrite G. destruct (q_sse2 g); [rewrite fsa_split|]; now apply accum_sqr.
Qed.
Lemma m_add_eq : forall a b : Qd, m_add g a b = quad_add_fast a b.
Proof. intros a b. unfold m_add, lis_quad_add. rewrite G. destruct (q_sse2 g); [apply add_split|reflexivity]. Qed.
Lemma fma2_ok : forall a0 a1 b0 b1 c0 c1 : Qd, normal b0 -> normal b1 -> normal c0 -> normal c1 ->
  accum epsp (fst (fma2 g a0 a1 b0 b1 c0 c1)) a0 (val b0 * val c0) /\ accum epsp (snd (fma2 g a0 a1 b0 b1 c0 c1)) a1 (val b1 * val c1).
Proof.
  intros a0 a1 b0 b1 c0 c1 B0 B1 C0 C1. rewrite fma2_split by auto. destruct (mul2_prod b0 b1 c0 c1 B0 B1 C0 C1).
  split; apply accum_prod; auto.
Qed.
Lemma fmad2_ok : forall (a0 a1 b0 b1 : Qd) (c0 c1 : b64), normal b0 -> normal b1 ->
  accum epsp (fst (fmad2 g a0 a1 b0 b1 c0 c1)) a0 (val b0 * real c0) /\ accum epsp (snd (fmad2 g a0 a1 b0 b1 c0 c1)) a1 (val b1 * real c1).
Proof.
  intros a0 a1 b0 b1 c0 c1 B0 B1. rewrite fmad2_split by auto. destruct (muld2_prod b0 b1 c0 c1 B0 B1).
  split; apply accum_prod; auto.
Qed.
Lemma fsa2_ok : forall a0 a1 b0 b1 : Qd, normal b0 -> normal b1 ->
  accum epss (fst (fsa2 g a0 a1 b0 b1)) a0 (val b0 * val b0) /\ accum epss (snd (fsa2 g a0 a1 b0 b1)) a1 (val b1 * val b1).
Proof.
  intros a0 a1 b0 b1 B0 B1. rewrite fsa2_split by auto. destruct (sqr2_prod b0 b1 B0 B1).
  split; apply accum_sqr; auto.
Qed.
End OPS.
