(** Loops of the quad vector operations. *)
From Coq Require Import ZArith Reals Lra Lia Psatz Bool List Permutation.
From Flocq Require Import Core BinarySingleNaN.
From Verif Require Import Base System SystemProof Quad SpecQuad QuadB64 QuadFinal QuadVec QuadVecOp QuadVecSum.
Import ListNotations.
Open Scope Z_scope.

Notation qz := ((f0, f0) : Qd) (only parsing).
Notation qn l i := (znth qz l i) (only parsing).

Lemma pairs_wp {St} (I : Z -> St -> Prop) is ie two s (Q : Z * St -> Prop) : is <= ie -> I is s ->
  (forall i s, is <= i -> i + 1 < ie -> I i s -> wp (two i s) (I (i + 2))) ->
  (forall i s, is <= i <= ie -> ie - 1 <= i -> I i s -> Q (i, s)) ->
  wp (pairs_loop is ie two s) Q.
Proof.
  intros H H0 Hs HQ. unfold pairs_loop.
  apply (while_wp (fun p => is <= fst p <= ie /\ I (fst p) (snd p)) (fun p => ie - fst p)); cbn [fst snd].
  - split; auto; lia.
  - lia.
  - intros [i t] [Hi It]. cbn [fst snd] in *. split; [lia|]. cbn [wp]. destruct (Z.ltb_spec i (ie - 1)).
    + wbind. eapply wp_mono; [apply Hs; auto; lia|]. intros t' Ht. cbn [wp]. cbn [fst snd]. repeat split; auto; lia.
    + apply HQ; auto; lia.
Qed.
Lemma two_then_one_wp {St} (I : Z -> St -> Prop) is ie two one s (Q : St -> Prop) : is <= ie -> I is s ->
  (forall i s, is <= i -> i + 1 < ie -> I i s -> wp (two i s) (I (i + 2))) ->
  (forall i s, is <= i < ie -> I i s -> wp (one i s) (I (i + 1))) ->
  (forall s, I ie s -> Q s) ->
  wp (two_then_one is ie two one s) Q.
Proof.
  intros H H0 H2 H1 HQ. unfold two_then_one. wbind. apply (pairs_wp I); auto.
  intros i t Hi Hi' It. cbn [fst snd]. apply (for_wp' I); auto; try lia. intros; apply H1; auto; lia.
Qed.

Section EW.
Variable g : qcfg.
(** every element j of the result satisfies P j, whatever the loop structure *)
Lemma ew_wp : forall (P : Z -> Qd -> Prop) threads n two one (y0 : list Qd), 0 <= n <= zlen y0 -> 0 < nthreads threads ->
  (forall i y, 0 <= i -> i + 1 < n -> zlen y = zlen y0 -> (forall j, i <= j -> qn y j = qn y0 j) ->
     wp (two i y) (fun y' => exists a b, y' = zupd (zupd y i a) (i + 1) b /\ P i a /\ P (i + 1) b)) ->
  (forall i y, 0 <= i < n -> zlen y = zlen y0 -> (forall j, i <= j -> qn y j = qn y0 j) ->
     wp (one i y) (fun y' => exists a, y' = zupd y i a /\ P i a)) ->
  wp (ew g threads n two one y0) (fun y' => zlen y' = zlen y0 /\ (forall j, 0 <= j < n -> P j (qn y' j)) /\ (forall j, n <= j -> qn y' j = qn y0 j)).
Proof.
  intros P threads n two one y0 Hn Hp H2 H1.
  set (I := fun i (y : list Qd) => zlen y = zlen y0 /\ (forall j, 0 <= j < i -> P j (qn y j)) /\ (forall j, i <= j -> qn y j = qn y0 j)).
  assert (S1 : forall i y, 0 <= i < n -> I i y -> wp (one i y) (I (i + 1))).
  { intros i y Hi (L & A & B). eapply wp_mono; [apply H1; auto|]. intros y' (a & -> & Pa). repeat split.
    - len.
    - intros j Hj. updcase; [subst; auto|]. apply A. lia.
    - intros j Hj. updcase; [lia|]. apply B. lia. }
  assert (S2 : forall i y, 0 <= i -> i + 1 < n -> I i y -> wp (two i y) (I (i + 2))).
  { intros i y Hi Hi' (L & A & B). eapply wp_mono; [apply H2; auto|]. intros y' (a & b & -> & Pa & Pb). repeat split.
    - len.
    - intros j Hj. updcase; [subst; auto|]. updcase; [subst; auto|]. apply A. lia.
    - intros j Hj. updcase; [lia|]. updcase; [lia|]. apply B. lia. }
  assert (I0 : I 0 y0) by (repeat split; auto; intros; lia).
  assert (IQ : forall y, I n y -> zlen y = zlen y0 /\ (forall j, 0 <= j < n -> P j (qn y j)) /\ (forall j, n <= j -> qn y j = qn y0 j)) by (intros y H; exact H).
  unfold ew. destruct (q_sse2 g).
  - set (p := nthreads threads) in *.
    apply (for_wp' (fun r => I (part_bound n p r))); try lia.
    + now rewrite part_bound_0 by lia.
    + intros r y Hr HI. rewrite get_isie_eq by lia. cbn [bind fst snd].
      pose proof (part_bound_mono n p 0 r). pose proof (part_bound_mono n p r (r + 1)). pose proof (part_bound_mono n p (r + 1) p).
      rewrite part_bound_0 in * by lia. rewrite part_bound_p in * by lia.
      apply (two_then_one_wp I); auto; try lia; intros; [apply S2|apply S1]; auto; lia.
    + intros y H. rewrite part_bound_p in H by lia. auto.
  - apply (for_wp' I); auto; try lia.
Qed.

Hypothesis G : q_fast_add g = true.
Hypothesis NF : no_fma g.

Lemma axpyex_ok : forall threads n (alpha : Qd) x y, 0 <= n <= zlen x -> n <= zlen y -> 0 < nthreads threads ->
  normal alpha -> (forall i, 0 <= i < n -> normal (qn x i)) ->
  wp (axpyex g threads n alpha x y) (fun y' => zlen y' = zlen y /\
    (forall i, 0 <= i < n -> accum epsp (qn y' i) (qn y i) (val alpha * val (qn x i))%R) /\ (forall i, n <= i -> qn y' i = qn y i)).
Proof.
  intros threads n alpha x y Hx Hy Hp Na Nx. unfold axpyex.
  apply (ew_wp (fun i r => accum epsp r (qn y i) (val alpha * val (qn x i))%R)); auto; try lia.
  - intros i t Hi Hi' L E. do 2 (wrd (f0:b64,f0:b64); [lia|]). do 2 (wrd (f0:b64,f0:b64); [lia|]). rewrite !E by lia.
    destruct (fma2_ok g G (qn y i) (qn y (i + 1)) alpha alpha (qn x i) (qn x (i + 1))) as [A B]; auto; try (apply Nx; lia).
    destruct (fma2 g _ _ _ _ _ _) as [r0 r1]. cbn [fst snd] in *. wwr; [lia|]. wwr; [len|]. exists r0, r1. auto.
  - intros i t Hi L E. do 2 (wrd (f0:b64,f0:b64); [lia|]). rewrite !E by lia. wwr; [lia|]. eexists. split; [reflexivity|].
    apply m_fma_ok; auto. 
Qed.
Lemma axpyzex_ok : forall threads n (alpha : Qd) x y z, 0 <= n <= zlen x -> n <= zlen y -> n <= zlen z -> 0 < nthreads threads ->
  normal alpha -> (forall i, 0 <= i < n -> normal (qn x i)) ->
  wp (axpyzex g threads n alpha x y z) (fun z' => zlen z' = zlen z /\
    (forall i, 0 <= i < n -> accum epsp (qn z' i) (qn y i) (val alpha * val (qn x i))%R) /\ (forall i, n <= i -> qn z' i = qn z i)).
Proof.
  intros threads n alpha x y z Hx Hy Hz Hp Na Nx. unfold axpyzex.
  apply (ew_wp (fun i r => accum epsp r (qn y i) (val alpha * val (qn x i))%R)); auto; try lia.
  - intros i t Hi Hi' L E. do 2 (wrd (f0:b64,f0:b64); [lia|]). do 2 (wrd (f0:b64,f0:b64); [lia|]).
    destruct (fma2_ok g G (qn y i) (qn y (i + 1)) alpha alpha (qn x i) (qn x (i + 1))) as [A B]; auto; try (apply Nx; lia).
    destruct (fma2 g _ _ _ _ _ _) as [r0 r1]. cbn [fst snd] in *. wwr; [lia|]. wwr; [len|]. exists r0, r1. auto.
  - intros i t Hi L E. do 2 (wrd (f0:b64,f0:b64); [lia|]). wwr; [lia|]. eexists. split; [reflexivity|].
    apply m_fma_ok; auto.
Qed.
Lemma xpayex_ok : forall threads n x (alpha : Qd) y, 0 <= n <= zlen x -> n <= zlen y -> 0 < nthreads threads ->
  normal alpha -> (forall i, 0 <= i < n -> normal (qn y i)) ->
  wp (xpayex g threads n x alpha y) (fun y' => zlen y' = zlen y /\
    (forall i, 0 <= i < n -> accum epsp (qn y' i) (qn x i) (val alpha * val (qn y i))%R) /\ (forall i, n <= i -> qn y' i = qn y i)).
Proof.
  intros threads n x alpha y Hx Hy Hp Na Ny. unfold xpayex.
  apply (ew_wp (fun i r => accum epsp r (qn x i) (val alpha * val (qn y i))%R)); auto; try lia.
  - intros i t Hi Hi' L E. do 2 (wrd (f0:b64,f0:b64); [lia|]). do 2 (wrd (f0:b64,f0:b64); [lia|]). rewrite !E by lia.
    destruct (fma2_ok g G (qn x i) (qn x (i + 1)) alpha alpha (qn y i) (qn y (i + 1))) as [A B]; auto; try (apply Ny; lia).
    destruct (fma2 g _ _ _ _ _ _) as [r0 r1]. cbn [fst snd] in *. wwr; [lia|]. wwr; [len|]. exists r0, r1. auto.
  - intros i t Hi L E. do 2 (wrd (f0:b64,f0:b64); [lia|]). rewrite !E by lia. wwr; [lia|]. eexists. split; [reflexivity|].
    apply m_fma_ok; auto.
Qed.
Lemma scaleex_mm_ok : forall threads n (alpha : Qd) x, 0 <= n <= zlen x -> 0 < nthreads threads ->
  normal alpha -> (forall i, 0 <= i < n -> normal (qn x i)) ->
  wp (scaleex_mm g threads n alpha x) (fun y => zlen y = zlen x /\
    (forall i, 0 <= i < n -> isprod (qn y i) (val (qn x i) * val alpha)%R) /\ (forall i, n <= i -> qn y i = qn x i)).
Proof.
  intros threads n alpha x Hx Hp Na Nx. unfold scaleex_mm.
  apply (ew_wp (fun i r => isprod r (val (qn x i) * val alpha)%R)); auto; try lia.
  - intros i t Hi Hi' L E. do 2 (wrd (f0:b64,f0:b64); [lia|]). rewrite !E by lia.
    destruct (mul2_prod (qn x i) (qn x (i + 1)) alpha alpha) as [A B]; auto; try (apply Nx; lia).
    destruct (mul2 _ _ _ _) as [r0 r1]. cbn [fst snd] in *. wwr; [lia|]. wwr; [len|]. exists r0, r1. auto.
  - intros i t Hi L E. do 1 (wrd (f0:b64,f0:b64); [lia|]). rewrite !E by lia. wwr; [lia|]. eexists. split; [reflexivity|].
    apply m_mul_prod; auto.
Qed.
Lemma scaleex_nm_ok : forall threads n (alpha : b64) x, 0 <= n <= zlen x -> 0 < nthreads threads ->
  (forall i, 0 <= i < n -> normal (qn x i)) ->
  wp (scaleex_nm g threads n alpha x) (fun y => zlen y = zlen x /\
    (forall i, 0 <= i < n -> isprod (qn y i) (val (qn x i) * real alpha)%R) /\ (forall i, n <= i -> qn y i = qn x i)).
Proof.
  intros threads n alpha x Hx Hp Nx. unfold scaleex_nm.
  apply (ew_wp (fun i r => isprod r (val (qn x i) * real alpha)%R)); auto; try lia.
  - intros i t Hi Hi' L E. do 2 (wrd (f0:b64,f0:b64); [lia|]). rewrite !E by lia.
    destruct (muld2_prod (qn x i) (qn x (i + 1)) alpha alpha) as [A B]; auto; try (apply Nx; lia).
    destruct (muld2 _ _ _ _) as [r0 r1]. cbn [fst snd] in *. wwr; [lia|]. wwr; [len|]. exists r0, r1. auto.
  - intros i t Hi L E. do 1 (wrd (f0:b64,f0:b64); [lia|]). rewrite !E by lia. wwr; [lia|]. eexists. split; [reflexivity|].
    apply m_muld_prod; auto.
Qed.

(** * Sums *)
Lemma snoc_map {A} (f : Z -> A) lo hi : lo <= hi -> map f (zrange lo (hi + 1)) = map f (zrange lo hi) ++ [f hi].
Proof. intros. rewrite zrange_snoc by lia. now rewrite map_app. Qed.
Lemma perm_two {A} (l0 l1 : list A) l a b : Permutation (l0 ++ l1) l -> Permutation ((l0 ++ [a]) ++ (l1 ++ [b])) (l ++ [a] ++ [b]).
Proof.
  intros P. rewrite <- P. rewrite <- !app_assoc. apply Permutation_app_head. rewrite !app_assoc.
  apply Permutation_app_tail. apply Permutation_app_comm.
Qed.

(** two accumulators, or one *)
Lemma sum_part : forall e (m : Z -> R) is ie two one, (0 <= e)%R -> is <= ie ->
  (forall i (a : Qd * Qd), is <= i -> i + 1 < ie -> wp (two i a) (fun r => accum e (fst r) (fst a) (m i) /\ accum e (snd r) (snd a) (m (i + 1)))) ->
  (forall i (a : Qd), is <= i < ie -> wp (one i a) (fun r => accum e r a (m i))) ->
  wp (if q_sse2 g
      then p <- pairs_loop is ie two (qz, qz) ;; for_ (fst p) ie one (m_add g (fst (snd p)) (snd (snd p)))
      else for_ is ie one qz) (acc e (Z.to_nat (ie - is) + 1) (map m (zrange is ie))).
Proof.
  intros e m is ie two one He H H2 H1.
  assert (LP : forall i0 a k, is <= i0 <= ie -> acc e k (map m (zrange is i0)) a ->
     wp (for_ i0 ie one a) (acc e (Z.to_nat (ie - i0) + k) (map m (zrange is ie)))).
  { intros i0 a k Hi Ha.
    apply (for_wp' (fun i a => acc e (Z.to_nat (i - i0) + k) (map m (zrange is i)) a)); try lia.
    - rewrite Z.sub_diag. exact Ha.
    - intros i t Hi' Ht. eapply wp_mono; [apply H1; lia|]. intros r Hr. rewrite snoc_map by lia.
      replace (Z.to_nat (i + 1 - i0) + k)%nat with (Datatypes.S (Z.to_nat (i - i0) + k)) by lia.
      exact (acc_step _ _ _ _ _ _ He Hr Ht).
    - auto. }
  destruct (q_sse2 g).
  - wbind.
    apply (pairs_wp (fun i (a : Qd * Qd) => exists l0 l1 k0 k1, acc e k0 l0 (fst a) /\ acc e k1 l1 (snd a) /\
        Permutation (l0 ++ l1) (map m (zrange is i)) /\ (k0 + k1 = Z.to_nat (i - is))%nat)); auto.
    + exists [], [], O, O. rewrite zrange_empty by lia. cbn [fst snd]. repeat split; try apply acc_zero; auto. lia.
    + intros i a Hi Hi' (l0 & l1 & k0 & k1 & A0 & A1 & P & K). eapply wp_mono; [apply H2; auto|]. intros r [R0 R1].
      exists (l0 ++ [m i]), (l1 ++ [m (i + 1)]), (Datatypes.S k0), (Datatypes.S k1). repeat split; try (eapply acc_step; eauto).
      * replace (i + 2) with (i + 1 + 1) by lia. rewrite !snoc_map by lia. rewrite <- (app_assoc (map m (zrange is i))). now apply perm_two.
      * lia.
    + intros i a Hi Hi' (l0 & l1 & k0 & k1 & A0 & A1 & P & K). cbn [fst snd]. rewrite m_add_eq by auto.
      eapply wp_mono; [apply (LP i _ (k0 + k1 + 1)%nat); [lia|]|].
      * eapply acc_perm; [exact P|]. apply acc_add; auto.
      * intros q Hq. eapply acc_mono; [auto| |exact Hq]. lia.
  - eapply wp_mono; [apply (LP is qz O); [lia|]|].
    + rewrite zrange_empty by lia. apply acc_zero.
    + intros q Hq. eapply acc_mono; [auto| |exact Hq]. lia.
Qed.
Lemma dot_part_ok : forall x y is ie n, 0 <= is <= ie -> ie <= n -> n <= zlen x -> n <= zlen y ->
  (forall i, 0 <= i < n -> normal (qn x i)) -> (forall i, 0 <= i < n -> normal (qn y i)) ->
  wp (dot_part g x y is ie) (acc epsp (Z.to_nat (ie - is) + 1) (map (fun i => val (qn y i) * val (qn x i))%R (zrange is ie))).
Proof.
  intros x y is ie n H Hn Lx Ly Nx Ny. unfold dot_part. apply sum_part; auto; try lia. { apply bpow_ge_0. }
  - intros i a Hi Hi'. do 4 (wrd (f0:b64,f0:b64); [lia|]). cbn [wp]. apply fma2_ok; auto; (apply Nx || apply Ny); lia.
  - intros i a Hi. do 2 (wrd (f0:b64,f0:b64); [lia|]). cbn [wp]. apply m_fma_ok; auto; (apply Nx || apply Ny); lia.
Qed.
Lemma nrm_part_ok : forall x is ie n, 0 <= is <= ie -> ie <= n -> n <= zlen x ->
  (forall i, 0 <= i < n -> normal (qn x i)) ->
  wp (nrm_part g x is ie) (acc epss (Z.to_nat (ie - is) + 1) (map (fun i => val (qn x i) * val (qn x i))%R (zrange is ie))).
Proof.
  intros x is ie n H Hn Lx Nx. unfold nrm_part. apply sum_part; auto; try lia. { apply bpow_ge_0. }
  - intros i a Hi Hi'. do 2 (wrd (f0:b64,f0:b64); [lia|]). cbn [wp]. apply fsa2_ok; auto; apply Nx; lia.
  - intros i a Hi. do 1 (wrd (f0:b64,f0:b64); [lia|]). cbn [wp]. apply m_fsa_ok; auto; apply Nx; lia.
Qed.
Lemma reduce_ok : forall e (m : Z -> R) threads n part, (0 <= e)%R -> 0 <= n -> 0 < nthreads threads ->
  (forall is ie, 0 <= is <= ie -> ie <= n -> wp (part is ie) (acc e (Z.to_nat (ie - is) + 1) (map m (zrange is ie)))) ->
  wp (reduce_parts g threads n part) (acc e (Z.to_nat (n + 2 * nthreads threads)) (map m (zrange 0 n))).
Proof.
  intros e m threads n part He Hn Hp HP. unfold reduce_parts. destruct threads as [p|]; cbn [nthreads] in *.
  - apply (for_wp' (fun r a => acc e (Z.to_nat (part_bound n p r + 2 * r)) (map m (zrange 0 (part_bound n p r))) a)); try lia.
    + rewrite part_bound_0 by lia. rewrite zrange_empty by lia. apply acc_zero.
    + intros r a Hr Ha. rewrite get_isie_eq by lia. cbn [bind fst snd].
      pose proof (part_bound_mono n p 0 r). pose proof (part_bound_mono n p r (r + 1)). pose proof (part_bound_mono n p (r + 1) p).
      rewrite part_bound_0 in * by lia. rewrite part_bound_p in * by lia.
      wbind. eapply wp_mono; [apply HP; lia|]. intros t Ht. cbn [wp]. rewrite m_add_eq by auto.
      rewrite (zrange_app 0 (part_bound n p r) (part_bound n p (r + 1))) by lia. rewrite map_app.
      eapply acc_mono; [auto| |apply acc_add; eauto]. lia.
    + intros a Ha. rewrite part_bound_p in Ha by lia. exact Ha.
  - eapply wp_mono; [apply HP; lia|]. intros q Hq. eapply acc_mono; [auto| |exact Hq]. lia.
Qed.
End EW.
