(** The 2-norm, reciprocals, copies, and counterexamples for the quad vectors. *)
From Coq Require Import ZArith Reals Lra Lia Psatz List Bool.
From Flocq Require Import Core BinarySingleNaN.
From Verif Require Import Base Quad SpecQuad QuadB64 QuadB64b QuadFinal QuadFinal2 System Omp OmpProof Spec SpecQuadVec QuadVec QuadVecOp QuadVecSum QuadVecProof QuadVecMv QuadVecFinal.
Import ListNotations.
Open Scope R_scope.

Lemma addf : forall x y : b64, is_finite (fadd x y) = true -> is_finite x = true /\ is_finite y = true.
Proof. exact add_fin. Qed.
Lemma subf : forall x y : b64, is_finite (fsub x y) = true -> is_finite x = true /\ is_finite y = true.
Proof. exact sub_fin. Qed.
Lemma mulf : forall x y : b64, is_finite (fmul x y) = true -> is_finite x = true /\ is_finite y = true.
Proof. exact mul_fin. Qed.
Ltac step H := match type of H with ?r = (let x := ?v in @?f x) =>
  let y := fresh "v" in pose (y := v); assert (H' : r = ltac:(let t := eval cbv beta in (f y) in exact t)) by exact H; clear H; rename H' into H end.
Lemma fsA : forall a b : b64*b64, is_finite (fst (add_sd a b)) = true -> is_finite (fst a) = true /\ is_finite (fst b) = true.
Proof. intros a b. apply addf. Qed.
Lemma fsM : forall a b : b64*b64, is_finite (fst (mul_sd a b)) = true -> is_finite (fst a) = true /\ is_finite (fst b) = true.
Proof. intros a b. apply mulf. Qed.
Lemma sqrt_sse2_fin : forall b : b64 * b64, fin (quad_sqrt_sse2_core b) -> fin b.
Proof.
  intros [bh bl] [H _]. unfold finite in H. remember (quad_sqrt_sse2_core (bh, bl)) as r eqn:E. cbv beta delta [quad_sqrt_sse2_core] in E.
  repeat step E. subst r. 
  match type of H with is_finite (fst (?x, _)) = _ => change (is_finite x = true) in H; unfold x in H end. 
  match type of H with is_finite (fst ?x) = _ => unfold x in H end. apply fsA in H. destruct H as [H1 H].
  match type of H1 with is_finite (fst ?x) = _ => unfold x in H1 end. apply fsM in H1. destruct H1 as [H1 _]. split; [exact H1|]; unfold finite; cbn [snd].
  match type of H with is_finite (fst ?x) = _ => unfold x in H end. apply fsM in H. destruct H as [_ H].
  match type of H with is_finite (fst ?x) = _ => unfold x in H end. apply fsA in H. destruct H as [H _].
  match type of H with is_finite (fst ?x) = _ => unfold x in H end. apply fsA in H. destruct H as [_ H].
  match type of H with is_finite (fst ?x) = _ => unfold x in H end. apply fsA in H. destruct H as [_ H].
  match type of H with is_finite (fst ?x) = _ => unfold x in H end.
  match type of H with is_finite (fst (unpackhi_pd ?x _)) = _ => change (is_finite (snd x) = true) in H; unfold x in H end.
  match type of H with is_finite (snd (sub_pd ?x ?y)) = _ => change (is_finite (fsub (snd x) (snd y)) = true) in H end.
  apply subf in H. apply H.
Qed.
Lemma sqrt_fin : forall g (b : b64 * b64), q_sse2 g = true -> fst (lis_quad_sqrt g b) = LIS_SUCCESS -> fin (snd (lis_quad_sqrt g b)) -> fin b.
Proof.
  intros g b G. unfold lis_quad_sqrt. rewrite G. destruct (_ || _)%bool; [discriminate|]. intros _. apply sqrt_sse2_fin.
Qed.

Section N.
Variable g : qcfg.
Hypothesis G : q_fast_add g = true.
Hypothesis NF : no_fma g.
Local Open Scope R_scope.

Lemma f_nrm2 : forall threads n x, q_sse2 g = true -> threads_ok threads -> (0 <= n)%Z -> normal_upto n x -> few (IZR (n + 2 * team threads)) ->
  bpow radix2 (-800) <= rsum 0 n (fun i => val (elt x i) * val (elt x i)) ->
  exists code v, nrm2ex g threads n x = Ok (code, v) /\
    (code = LIS_SUCCESS -> fin v -> normal v /\
      Rabs (val v - R_sqrt.sqrt (rsum 0 n (fun i => val (elt x i) * val (elt x i)))) <=
        IZR (n + 2 * team threads + 1) * bpow radix2 (-99) * R_sqrt.sqrt (rsum 0 n (fun i => val (elt x i) * val (elt x i)))).
Proof.
  intros threads n x S2 T Hn N K L. destruct (f_sumsq g G NF threads n x T Hn N K) as (s & E & H).
  exists (fst (lis_quad_sqrt g s)), (snd (lis_quad_sqrt g s)). split.
  { unfold nrm2ex. rewrite E. cbn [bind]. now destruct (lis_quad_sqrt g s). }
  intros C F. pose proof (sqrt_fin g s S2 C F) as Fs. destruct (H Fs) as [Ns B].
  set (S := rsum 0 n (fun i => val (elt x i) * val (elt x i))) in *. set (k := IZR (n + 2 * team threads)) in *.
  assert (K0 : 1 <= k). { unfold k. apply IZR_le. clear - T Hn. destruct threads; cbn [team threads_ok] in *; lia. }
  assert (E1 : bpow radix2 (-998) <= bpow radix2 (-100) * S).
  { apply Rle_trans with (bpow radix2 (-100) * bpow radix2 (-800)). rewrite <- bpow_plus. apply bpow_le. lia.
    apply Rmult_le_compat_l; auto. apply bpow_ge_0. }
  assert (Sp : 0 < S) by (eapply Rlt_le_trans; [apply (bpow_gt_0 radix2 (-800))|exact L]).
  assert (T99 : 2 * bpow radix2 (-100) = bpow radix2 (-99)).
  { change 2 with (bpow radix2 1). rewrite <- bpow_plus. reflexivity. }
  assert (B' : Rabs (val s - S) <= k * bpow radix2 (-99) * S).
  { eapply Rle_trans; [exact B|]. rewrite <- T99. replace (k * (2 * bpow radix2 (-100)) * S) with (k * (bpow radix2 (-100) * S + bpow radix2 (-100) * S)) by ring.
    apply Rmult_le_compat_l; lra. }
  assert (D : k * bpow radix2 (-99) <= / 2).
  { apply Rle_trans with (IZR (2 ^ 50) * bpow radix2 (-99)). apply Rmult_le_compat_r; auto. apply bpow_ge_0.
    change (IZR (2 ^ 50)) with (bpow radix2 50). rewrite <- bpow_plus. change (/ 2) with (bpow radix2 (-1)). apply bpow_le. lia. }
  assert (D' : k * bpow radix2 (-99) * S <= / 2 * S) by (apply Rmult_le_compat_r; lra).
  assert (V : S / 2 <= val s <= 2 * S) by (apply Rabs_le_inv in B'; lra).
  assert (P : bpow radix2 (-900) <= real (fst s)).
  { pose proof (normal_lo s Ns) as Lo. unfold val in V. pose proof (Rle_abs (real (snd s))).
    assert (0 < real (fst s)). { destruct (Rle_or_lt (real (fst s)) 0) as [Z|Z]; auto. rewrite (Rabs_left1 _ Z) in Lo. lra. }
    rewrite (Rabs_pos_eq (real (fst s))) in Lo by lra.
    apply Rle_trans with (bpow radix2 (-802)); [apply bpow_le; lia|]. change (-802)%Z with (-2 + -800)%Z. rewrite bpow_plus.
    change (bpow radix2 (-2)) with (/ 4). lra. }
  destruct (sqrt_sse2_ok g s S2 Ns P F) as (_ & N' & B2). split; auto.
  set (r := R_sqrt.sqrt S) in *. set (t := R_sqrt.sqrt (val s)) in *.
  assert (r2 : r * r = S) by (apply sqrt_def; lra). assert (t2 : t * t = val s) by (apply sqrt_def; lra).
  assert (rp : 0 < r) by (apply sqrt_lt_R0; lra). assert (tp : 0 < t) by (apply sqrt_lt_R0; lra).
  assert (t2r : t <= 2 * r).
  { apply Rnot_lt_le. intros Q. assert (2 * r * (2 * r) < t * t) by nra. nra. }
  assert (Q : Rabs (t - r) <= k * bpow radix2 (-99) * r).
  { assert (Rabs (t - r) * (t + r) <= k * bpow radix2 (-99) * r * r).
    { replace (k * bpow radix2 (-99) * r * r) with (k * bpow radix2 (-99) * (r * r)) by ring. rewrite r2.
      replace (Rabs (t - r) * (t + r)) with (Rabs (val s - S)); auto.
      rewrite <- t2, <- r2. replace (t * t - r * r) with ((t - r) * (t + r)) by ring. rewrite Rabs_mult. f_equal. apply Rabs_pos_eq. lra. }
    pose proof (Rabs_pos (t - r)). apply Rmult_le_reg_r with r; auto. eapply Rle_trans; [|exact H0]. apply Rmult_le_compat_l; lra. }
  replace (IZR (n + 2 * team threads + 1)) with (k + 1) by (unfold k; now rewrite (plus_IZR (n + 2 * team threads) 1)).
  replace (val (snd (lis_quad_sqrt g s)) - r) with ((val (snd (lis_quad_sqrt g s)) - t) + (t - r)) by ring.
  eapply Rle_trans; [apply Rabs_triang|].
  assert (bpow radix2 (-100) * t <= bpow radix2 (-99) * r).
  { rewrite <- T99. replace (2 * bpow radix2 (-100) * r) with (bpow radix2 (-100) * (2 * r)) by ring. apply Rmult_le_compat_l; auto. apply bpow_ge_0. }
  replace ((k + 1) * bpow radix2 (-99) * r) with (k * bpow radix2 (-99) * r + bpow radix2 (-99) * r) by ring. lra.
Qed.

End N.
