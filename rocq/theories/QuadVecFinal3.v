(** Reciprocals, copies, and counterexamples for the quad vectors. *)
From Coq Require Import ZArith Reals Lra Lia Psatz List Bool.
From Flocq Require Import Core BinarySingleNaN.
From Verif Require Import Base Quad SpecQuad QuadB64 QuadB64b QuadFinal QuadFinal2 System Omp OmpProof Spec SpecQuadVec QuadVec.
Import ListNotations.
Open Scope Z_scope.

(** A loop that rewrites element i from what it was. *)
Lemma elem_loop : forall (T : Type) (d : T) n (h : Z -> list T -> res (list T)) (P : Z -> T -> Prop) (y : list T), 0 <= n <= zlen y ->
  (forall i s, 0 <= i < n -> zlen s = zlen y -> (forall j, i <= j -> znth d s j = znth d y j) ->
     wp (h i s) (fun s' => exists a, s' = zupd s i a /\ P i a)) ->
  wp (for_ 0 n h y) (fun y' => zlen y' = zlen y /\ (forall j, 0 <= j < n -> P j (znth d y' j)) /\ (forall j, n <= j -> znth d y' j = znth d y j)).
Proof.
  intros T d n h P y Hn H.
  apply (for_wp' (fun i s => zlen s = zlen y /\ (forall j, 0 <= j < i -> P j (znth d s j)) /\ (forall j, i <= j -> znth d s j = znth d y j))); try lia; auto.
  - split; [auto|split; intros; [lia|auto]].
  - intros i s Hi (L & A & B). eapply wp_mono; [apply H; auto|]. intros s' (a & -> & Pa).
    assert (HL : zlen (zupd s i a) = zlen s) by (now rewrite zlen_zupd).
    split; [lia|]. split; intros j Hj.
    + destruct (Z.eq_dec j i) as [->|Nj]; [rewrite znth_zupd_eq by lia; auto|rewrite znth_zupd_neq by lia; apply A; lia].
    + rewrite znth_zupd_neq by lia. apply B. lia.
Qed.

Lemma f_copy : forall n (x y : list (b64 * b64)), 0 <= n <= zlen y -> n <= zlen x ->
  exists y', copyex_mm n x y = Ok y' /\ zlen y' = zlen y /\
    (forall i, 0 <= i < n -> elt y' i = elt x i) /\ (forall i, n <= i -> elt y' i = elt y i).
Proof.
  intros n x y Hy Hx. apply wp_inv. unfold copyex_mm.
  apply (elem_loop _ (b64_of 0 0, b64_of 0 0) _ _ (fun i a => a = elt x i)); auto.
  intros i s Hi L _. wrd (b64_of 0 0, b64_of 0 0); [lia|]. wwr; [lia|]. eexists. split; [reflexivity|reflexivity].
Qed.
Lemma normal_d : forall a : b64, finite a -> normal (a, f0 : b64) /\ val (a, f0 : b64) = real a.
Proof.
  intros a Fa. assert (E : val (a, f0 : b64) = real a).
  { unfold val. cbn [fst snd]. unfold real at 2. rewrite c0. lra. }
  split; auto. split; [split; [exact Fa|reflexivity]|]. rewrite E. cbn [fst]. symmetry. unfold nearest. apply round_generic; try typeclasses eauto.
  apply (generic_format_B2R 53 1024).
Qed.
Lemma f_copy_nm : forall n (x : list b64) (y : list (b64 * b64)), 0 <= n <= zlen y -> n <= zlen x ->
  exists y', copyex_nm n x y = Ok y' /\ zlen y' = zlen y /\
    (forall i, 0 <= i < n -> finite (znth (b64_of 0 0) x i) -> normal (elt y' i) /\ val (elt y' i) = real (znth (b64_of 0 0) x i)) /\
    (forall i, n <= i -> elt y' i = elt y i).
Proof.
  intros n x y Hy Hx. apply wp_inv. unfold copyex_nm.
  apply (elem_loop _ (b64_of 0 0, b64_of 0 0) _ _ (fun i a => finite (znth (b64_of 0 0) x i) -> normal a /\ val a = real (znth (b64_of 0 0) x i))); auto.
  intros i s Hi L _. wrd (b64_of 0 0); [lia|]. wwr; [lia|]. eexists. split; [reflexivity|apply normal_d].
Qed.
Lemma f_set_all : forall n (a : b64) (y : list (b64 * b64)), 0 <= n <= zlen y -> finite a ->
  exists y', set_allex_nm n a y = Ok y' /\ zlen y' = zlen y /\
    (forall i, 0 <= i < n -> normal (elt y' i) /\ val (elt y' i) = real a) /\ (forall i, n <= i -> elt y' i = elt y i).
Proof.
  intros n a y Hy Fa. apply wp_inv. unfold set_allex_nm.
  apply (elem_loop _ (b64_of 0 0, b64_of 0 0) _ _ (fun i q => normal q /\ val q = real a)); auto.
  intros i s Hi L _. wwr; [lia|]. eexists. split; [reflexivity|now apply normal_d].
Qed.

Lemma recip_one : forall g (q : b64 * b64), no_fma g -> invertible q -> fin (m_div g lis_quad_one q) ->
  normal (m_div g lis_quad_one q) /\ (Rabs (val (m_div g lis_quad_one q) - / val q) <= bpow radix2 (-100) * Rabs (/ val q))%R.
Proof.
  intros g q NF (N & Z & U) F.
  assert (E1 : real (fst (lis_quad_one : b64 * b64)) = 1%R) by exact c1.
  assert (V1 : val (lis_quad_one : b64 * b64) = 1%R) by exact val_one.
  destruct (div_ok g lis_quad_one q NF) as [A B]; auto.
  - exact ex_one_n.
  - rewrite E1, Rabs_R1. change 1%R with (bpow radix2 0). apply bpow_le. lia.
  - rewrite E1. unfold Rdiv. rewrite Rmult_1_l, Rabs_inv.
    change (-900) with (- (900)). rewrite bpow_opp. apply Rinv_le; auto. now apply Rabs_pos_lt.
  - split; auto. rewrite V1 in B. unfold Rdiv in B. rewrite Rmult_1_l in B. exact B.
Qed.
Lemma f_recip : forall g n x, no_fma g -> 0 <= n <= zlen x -> (forall i, 0 <= i < n -> invertible (elt x i)) ->
  exists y, reciprocalex g n x = Ok y /\ zlen y = zlen x /\ (forall i, n <= i -> elt y i = elt x i) /\
    forall i, 0 <= i < n -> fin (elt y i) -> normal (elt y i) /\ (Rabs (val (elt y i) - / val (elt x i)) <= bpow radix2 (-100) * Rabs (/ val (elt x i)))%R.
Proof.
  intros g n x NF Hn HI.
  assert (W : wp (reciprocalex g n x) (fun y => zlen y = zlen x /\
    (forall i, 0 <= i < n -> fin (elt y i) -> normal (elt y i) /\ (Rabs (val (elt y i) - / val (elt x i)) <= bpow radix2 (-100) * Rabs (/ val (elt x i)))%R) /\
    (forall i, n <= i -> elt y i = elt x i))).
  { unfold reciprocalex.
    apply (elem_loop _ (b64_of 0 0, b64_of 0 0) _ _ (fun i a => fin a -> normal a /\ (Rabs (val a - / val (elt x i)) <= bpow radix2 (-100) * Rabs (/ val (elt x i)))%R)); auto.
    intros i s Hi Ls Hs. wrd (b64_of 0 0, b64_of 0 0); [lia|]. wwr; [lia|]. eexists. split; [reflexivity|].
    rewrite (Hs i) by lia. intros F. apply recip_one; auto. }
  destruct (wp_inv _ _ W) as (y & E & L & A & B). exists y. split; [exact E|]. split; auto.
Qed.

Lemma f_recip_omp : forall g p n s s', no_fma g -> q_sse2 g = false -> (forall i, 0 <= i < n -> invertible (at_cell s i)) ->
  exec (omp_reciprocalex g p n) s s' ->
  forall i, 0 <= i < n -> fin (at_cell s' i) -> normal (at_cell s' i) /\
    (Rabs (val (at_cell s' i) - / val (at_cell s i)) <= bpow radix2 (-100) * Rabs (/ val (at_cell s i)))%R.
Proof.
  intros g p n s s' NF S2 HI HE. unfold omp_reciprocalex in HE. rewrite S2 in HE.
  destruct (par_for_spec n (fun i => recip_elem g i Done) (fun i c => snd c = i) (fun i c => snd c = i) s s') as [A _]; auto.
  - intros i Hi. cbn. repeat split; auto.
  - intros i j c Hi Hj Nij Hc. cbn in *. split; congruence.
  - intros i Hi. assert (E : at_cell s' i = m_div g lis_quad_one (at_cell s i)).
    { unfold at_cell. rewrite (A i (0, i)), (A i (1, i)) by auto. cbn. unfold put, cell_eqb. cbn. rewrite !Z.eqb_refl. cbn.
      now destruct (m_div g lis_quad_one (s (0, i), s (1, i))). }
    rewrite E. intros F. apply recip_one; auto.
Qed.

(** * Counterexamples *)
Definition getok {T} (d : T) (r : res T) : T := match r with Ok y => y | _ => d end.
Definition isok {T} (r : res T) : bool := match r with Ok _ => true | _ => false end.
Lemma getok_ok : forall {T} (d : T) (r : res T), isok r = true -> r = Ok (getok d r).
Proof. intros T d [y| |]; cbn; congruence. Qed.

Lemma recip_omp_wrong : exists s s', at_cell s 0 = ex_two /\ exec (omp_reciprocalex g_sse2 2 1) s s' /\ val (at_cell s' 0) = 2%R.
Proof.
  pose (s := fun c : cell => if (fst c =? 0)%Z then b64_of 2 0 else b64_of 0 0).
  exists s, (run (ser_for 2 (fun _ => recip_all g_sse2 1)) s). split; [reflexivity|]. split; [apply ser_for_exec|].
  unfold val. repeat rsf. cbn. lra.
Qed.

Lemma dup_wrong : exists y', scatter_mp g_sse2 1 1 [0; 2] [0; 0] [b64_of 1 0; b64_of 1 0] [ex_one] [ex_one] = Ok y' /\ val (elt y' 0) = 1%R.
Proof.
  exists (getok [] (scatter_mp g_sse2 1 1 [0; 2] [0; 0] [b64_of 1 0; b64_of 1 0] [ex_one] [ex_one])).
  split; [apply getok_ok; vm_compute; reflexivity|]. unfold val. repeat rsf. cbn. lra.
Qed.
Lemma stale_wrong : forall stale, stale = ex_one \/ stale = ex_two ->
  exists y', scatter_split_mp g_sse2 stale 2 2 [b64_of 1 0; b64_of 1 0] [0; 0; 1] [0] [b64_of 1 0] [0; 0; 0] [] [] [ex_one; ex_one] [ex_one; ex_one] = Ok y' /\
    val (elt y' 0) = (1 + val stale)%R.
Proof.
  intros stale H.
  exists (getok [] (scatter_split_mp g_sse2 stale 2 2 [b64_of 1 0; b64_of 1 0] [0; 0; 1] [0] [b64_of 1 0] [0; 0; 0] [] [] [ex_one; ex_one] [ex_one; ex_one])).
  destruct H as [-> | ->]; (split; [apply getok_ok; vm_compute; reflexivity|]); rewrite ?val_one, ?val_two; unfold val; repeat rsf; cbn; lra.
Qed.
Lemma zero_norm : forall g, g = g_scalar \/ g = g_sse2 -> exists v, nrm2ex g None 2 [lis_quad_zero; lis_quad_zero : b64 * b64] = Ok (LIS_FAILS, v) /\ val v = 0%R.
Proof.
  intros g H. set (r := nrm2ex g None 2 [lis_quad_zero; lis_quad_zero : b64 * b64]).
  exists (snd (getok (0, ex_one) r)). destruct H as [-> | ->]; subst r.
  - split; [rewrite (getok_ok (0, ex_one) (nrm2ex _ _ _ _)) at 1 by (vm_compute; reflexivity); rewrite (surjective_pairing (getok _ _)) at 1; repeat f_equal; vm_compute; reflexivity|].
    unfold val. repeat rsf. lra.
  - split; [rewrite (getok_ok (0, ex_one) (nrm2ex _ _ _ _)) at 1 by (vm_compute; reflexivity); rewrite (surjective_pairing (getok _ _)) at 1; repeat f_equal; vm_compute; reflexivity|].
    unfold val. repeat rsf. lra.
Qed.
Lemma scalar_norm_wrong : exists v, nrm2ex g_scalar None 2 [ex_one; ex_one] = Ok (LIS_SUCCESS, v) /\ fin v /\
  ~ (Rabs (val v - R_sqrt.sqrt (rsum 0 2 (fun i => val (elt [ex_one; ex_one] i) * val (elt [ex_one; ex_one] i)))) <=
     bpow radix2 (-60) * R_sqrt.sqrt (rsum 0 2 (fun i => val (elt [ex_one; ex_one] i) * val (elt [ex_one; ex_one] i))))%R.
Proof.
  set (r := nrm2ex g_scalar None 2 [ex_one; ex_one]).
  exists (snd (getok (0, ex_one) r)). subst r. split.
  { rewrite (getok_ok (0, ex_one) (nrm2ex _ _ _ _)) at 1 by (vm_compute; reflexivity). rewrite (surjective_pairing (getok _ _)) at 1. repeat f_equal. }
  split; [fins|].
  replace (rsum 0 2 (fun i => val (elt [ex_one; ex_one] i) * val (elt [ex_one; ex_one] i))%R) with 2%R.
  2:{ unfold rsum. change (zrange 0 2) with [0; 1]. cbn [map listsum]. change (elt [ex_one; ex_one] 0) with ex_one. change (elt [ex_one; ex_one] 1) with ex_one.
      rewrite val_one. lra. }
  unfold val. repeat rsf. apply far_from_sqrt2; cbn -[Rabs]; try lra. rewrite Rabs_pos_eq; lra.
Qed.
