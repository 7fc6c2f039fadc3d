(** C54 at the level of lis_solve. *)
Require Import Reals Lra ZArith List Bool Lia Field.
From Verif Require Import Base Scalar ScalarReal Spec SpecSolver Krylov Krylov2 Solve SpecSolve MatvecProof KrylovProof SpecTerm SpecGmres SpecStat TermFinal GmresMath GmresLoop StatRun StatConv.
From Verif Require Properties_Gmres.
Import ListNotations.
Open Scope Z_scope.

(** every non-singular system has a solution *)
Lemma solvable n E b : 0 <= n -> nonsingular n E -> exists xs, solves n E b xs.
Proof.
  intros Hn HE. destruct (Z.eq_dec n 0) as [->|Hne]; [exists []; intros i Hi; lia|].
  set (I := map (fun i => (i, i, 1%R)) (zrange 0 n) : list (entry R)).
  set (o := mkOpts 9 0 n 0 0%R 0%R true true 0 n 1%R 0 (fun _ v => times n I v) (fun _ v => v) None (fun _ => 0%R) 2 2 (fun _ => 0%R) : opts (T:=R)).
  assert (CI : forall i j, 0 <= i < n -> coef I i j = if j =? i then 1%R else 0%R).
  { intros i j Hi.
    assert (Z0 : forall l : list Z, ~ In i l -> filter (at_ij i j) (map (fun i => (i, i, 1%R)) l) = []).
    { induction l as [|c l IH]; intros Hl; [reflexivity|]. cbn [map filter]. unfold at_ij at 1. cbn [erow ecol fst snd].
      destruct (c =? i) eqn:C; [apply Z.eqb_eq in C; exfalso; apply Hl; left; exact C|]. cbn [andb]. apply IH. intros Q. apply Hl. right. exact Q. }
    unfold coef, I. rewrite (zrange_app 0 i n), (zrange_cons i n) by lia. rewrite map_app, filter_app. cbn [map filter].
    rewrite !Z0 by (rewrite In_zrange; lia). unfold at_ij. cbn [erow ecol fst snd app]. rewrite Z.eqb_refl. cbn [andb].
    rewrite (Z.eqb_sym j i). destruct (i =? j); cbn [map ssum]; [|reflexivity]. change (1 + 0 = 1)%R. ring. }
  assert (MI : forall v i, 0 <= i < n -> mv_spec I n (vcomp v) i = vcomp v i).
  { intros v i Hi. unfold mv_spec. rewrite (sum_delta _ n i Hi).
    - rewrite CI, Z.eqb_refl by auto. change (1 * vcomp v i = vcomp v i)%R. ring.
    - intros j Hj Hji. rewrite CI by auto. apply Z.eqb_neq in Hji. rewrite Hji. change (0 * vcomp v j = 0)%R. ring. }
  destruct (Properties_Gmres.C53_exact 9 o n E I b []) as (v & _ & _ & _ & H); try (cbn; auto; lia).
  - unfold accepts; cbn. lia.
  - intros k v i Hi. exact (at_tab n (mv_spec I n (vcomp v)) i Hi).
  - intros v H i Hi. rewrite <- MI by auto. apply H. exact Hi.
  - exists (v_x v). exact H.
Qed.

Lemma norm2_bound n (v : list R) (c : Z -> R) q : (0 <= q)%R -> (forall i, 0 <= i < n -> (Rabs (vcomp v i) <= c i * q)%R) ->
  (norm2 n v <= sqrt (sm 0 n (fun i => c i * c i)%R) * q)%R.
Proof.
  intros Hq H. assert (S1 : norm2 n v = sqrt (sm 0 n (fun i => vcomp v i * vcomp v i)%R)) by reflexivity. rewrite S1.
  rewrite <- (sqrt_square q) at 1 by exact Hq. rewrite <- sqrt_mult_alt by (apply sm_nonneg; intros; apply Rle_0_sqr).
  apply sqrt_le_1_alt. rewrite Rmult_comm, <- sm_scal. apply sm_le. intros i Hi. specialize (H i Hi).
  replace (vcomp v i * vcomp v i)%R with (Rabs (vcomp v i) * Rabs (vcomp v i))%R by (rewrite <- Rabs_mult; apply Rabs_pos_eq; apply Rle_0_sqr).
  replace (q * q * (c i * c i))%R with ((c i * q) * (c i * q))%R by ring. apply Rmult_le_compat; try apply Rabs_pos; exact H.
Qed.
Lemma start_len zs n x i : 0 <= i < n -> vcomp (start_x 0 zs n [] x) i = if zs then 0%R else vcomp x i.
Proof. intros Hi. unfold start_x. cbn [Z.eqb]. destruct zs; [|reflexivity]. exact (at_tab n (fun _ => 0%R) i Hi). Qed.

(** dominant matrices are non-singular *)
Lemma dominant_nonsingular n E rho : 0 <= n -> dominant n E rho -> nonsingular n E.
Proof.
  intros Hn HD v Hv i Hi. set (z := tab n (fun _ => 0%R)).
  assert (Z0 : forall j, 0 <= j < n -> vcomp z j = 0%R) by (intros j Hj; exact (at_tab n (fun _ => 0%R) j Hj)).
  assert (HS : solves n E z z). { intros j Hj. rewrite Z0 by auto. apply sum_zero. intros l Hl. rewrite Z0 by auto. change (coef E j l * 0 = 0)%R. ring. }
  assert (HU : is_update 10 1%R n E z v v).
  { intros j Hj. cbv zeta. change (10 =? 12) with false. change (10 =? 10) with true. cbn match.
    assert (RR : vcomp (residual n E z v) j = (vcomp z j - mv_spec E n (vcomp v) j)%R) by (exact (at_tab n (fun i => ssub (vcomp z i) (mv_spec E n (vcomp v) i)) j Hj)).
    rewrite RR, Hv, Z0 by auto. change (coef E j j * (vcomp v j - vcomp v j) + 0 = 0 - 0)%R. ring. }
  set (D := sm 0 n (fun j => Rabs (vcomp v j))).
  assert (D0 : (0 <= D)%R) by (apply sm_nonneg; intros; apply Rabs_pos).
  assert (W0 : within n D z v).
  { intros j Hj. rewrite Z0 by auto. unfold D. replace (0 - vcomp v j)%R with (- vcomp v j)%R by ring. rewrite Rabs_Ropp.
    rewrite (sm_split 0 j n) by lia. rewrite (sm_cons j n) by lia.
    assert (0 <= sm 0 j (fun j => Rabs (vcomp v j)))%R by (apply sm_nonneg; intros; apply Rabs_pos).
    assert (0 <= sm (j + 1) n (fun j => Rabs (vcomp v j)))%R by (apply sm_nonneg; intros; apply Rabs_pos). lra. }
  assert (HT : trajectory 10 1%R n E z v (fun _ => v)) by (split; [reflexivity|intros; exact HU]).
  assert (G := trajectory_within 10 n 1%R E z z (or_introl eq_refl) Hn HS rho HD ltac:(cbn; lra) v (fun _ => v) D HT D0 W0).
  assert (B : forall s, (Rabs (vcomp v i) <= rho ^ s * D)%R).
  { intros s. specialize (G s i Hi). rewrite Z0 in G by auto. replace (0 - vcomp v i)%R with (- vcomp v i)%R in G by ring. rewrite Rabs_Ropp in G. exact G. }
  destruct (Req_dec (vcomp v i) 0) as [|Hne]; [auto|]. exfalso. assert (P : (0 < Rabs (vcomp v i))%R) by (apply Rabs_pos_lt; exact Hne).
  destruct HD as (Hr & _). destruct (pow_lt_1_zero rho ltac:(rewrite Rabs_pos_eq; lra) (Rabs (vcomp v i) / (D + 1)) ltac:(apply Rdiv_lt_0_compat; lra)) as (N & HN).
  specialize (HN N (Nat.le_refl N)). rewrite Rabs_pos_eq in HN by (apply pow_le; lra). specialize (B N).
  assert ((rho ^ N * D <= rho ^ N * (D + 1))%R) by (apply Rmult_le_compat_l; [apply pow_le; lra|lra]).
  assert ((rho ^ N * (D + 1) < Rabs (vcomp v i) / (D + 1) * (D + 1))%R) by (apply Rmult_lt_compat_r; lra).
  replace (Rabs (vcomp v i) / (D + 1) * (D + 1))%R with (Rabs (vcomp v i)) in * by (field; lra). lra.
Qed.
Lemma spd_nonsingular n E : pos_def n (times n E) -> nonsingular n E.
Proof.
  intros HP v Hv i Hi. destruct (zero_or_nonzero n v) as [H|H]; [auto|]. exfalso. specialize (HP v H).
  replace (inner n v (times n E v)) with 0%R in HP; [lra|]. symmetry. apply sum_zero. intros j Hj.
  change (vcomp v j * vcomp (times n E v) j = 0)%R. assert (RR : vcomp (times n E v) j = mv_spec E n (vcomp v) j) by (exact (at_tab n (mv_spec E n (vcomp v)) j Hj)).
  rewrite RR, Hv by auto. ring.
Qed.

(** when an iterate is good enough, the run ends with success *)
Lemma run_success n E b (o : opts (T:=R)) X m v N s : stat_run n E b o X m v -> (Z.of_nat s < N) -> N <= s_maxiter o ->
  (rel (norm2 n (residual n E b (X s))) (norm2 n b) <= s_tol o)%R -> v_status v = LIS_SUCCESS /\ v_iter v <= N.
Proof.
  intros (_ & _ & _ & _ & H4 & H5 & _) Hs HN HM. apply sleb_R_t in HM.
  assert (M : (m <= S s)%nat). { destruct (Nat.le_gt_cases m (S s)) as [|C]; [auto|]. rewrite (H4 s C) in HM. discriminate. }
  destruct H5 as [(A & B & C & D)|(A & B & C & D)]; [split; [exact A|lia]|]. exfalso.
  destruct (Nat.eq_dec m (S s)) as [Em|]; [|lia]. rewrite Em in D. cbn [Nat.pred] in D. rewrite D in HM by lia. discriminate.
Qed.
Lemma rel_le a c tol : (0 < c)%R -> (a <= tol * c)%R -> (rel a c <= tol)%R.
Proof.
  intros Hc H. unfold rel. cbn [seqb ScalarR s0]. destruct (Req_EM_T c 0); [lra|]. change (a / c <= tol)%R.
  apply Rmult_le_reg_r with c; [exact Hc|]. replace (a / c * c)%R with a by (field; lra). exact H.
Qed.

Definition wide (k : Z) (w : R) : R := if k =? 12 then w else 1%R.
Lemma dominant_run k o n E b x rho xs D v X m : 0 <= n -> k = 10 \/ k = 11 \/ k = 12 -> dominant n E rho -> (k = 12 -> (0 < s_omega o <= 1)%R) ->
  solves n E b xs -> (0 <= D)%R -> within n D xs (start_x 0 (s_zeros o) n [] x) ->
  trajectory k (s_omega o) n E b (start_x 0 (s_zeros o) n [] x) X -> stat_run n E b o X m v ->
  within n (factor k (s_omega o) rho ^ Z.to_nat (Z.min (v_iter v) (s_maxiter o)) * D) xs (v_x v).
Proof.
  intros Hn Hk HD HW HS HD0 H0 HT (_ & _ & R1 & _ & _ & R2 & _).
  assert (M : Z.to_nat (Z.min (v_iter v) (s_maxiter o)) = m) by (destruct R2 as [R2|R2]; lia). rewrite M.
  assert (HW' : (0 < wide k (s_omega o) <= 1)%R) by (unfold wide; destruct (k =? 12) eqn:C; [apply HW, Z.eqb_eq, C|lra]).
  assert (G := trajectory_within k n (s_omega o) E b xs Hk Hn HS rho HD HW' _ X D HT HD0 H0 m).
  intros i Hi. rewrite R1 by auto. apply G. exact Hi.
Qed.
Lemma bnorm_pos n (b : list R) : norm2 n b <> 0%R -> (0 < norm2 n b)%R.
Proof. intros H. assert (0 <= norm2 n b)%R by apply sqrt_pos. lra. Qed.
Lemma dominant_steps k w n E b rho tol x0 : 0 <= n -> k = 10 \/ k = 11 \/ k = 12 -> dominant n E rho -> (k = 12 -> (0 < w <= 1)%R) -> (0 < tol)%R -> norm2 n b <> 0%R ->
  exists s, forall X, trajectory k w n E b x0 X -> (rel (norm2 n (residual n E b (X s))) (norm2 n b) <= tol)%R.
Proof.
  intros Hn Hk HD HW Ht Hb. destruct (solvable n E b Hn (dominant_nonsingular n E rho Hn HD)) as (xs & HS).
  apply bnorm_pos in Hb.
  assert (HW' : (0 < wide k w <= 1)%R) by (unfold wide; destruct (k =? 12) eqn:C; [apply HW, Z.eqb_eq, C|lra]).
  set (D := sm 0 n (fun j => Rabs (vcomp xs j - vcomp x0 j))).
  assert (D0 : (0 <= D)%R) by (apply sm_nonneg; intros; apply Rabs_pos).
  assert (W0 : within n D xs x0).
  { intros j Hj. unfold D. rewrite (sm_split 0 j n) by lia. rewrite (sm_cons j n) by lia.
    assert (0 <= sm 0 j (fun j => Rabs (vcomp xs j - vcomp x0 j)))%R by (apply sm_nonneg; intros; apply Rabs_pos).
    assert (0 <= sm (j + 1) n (fun j => Rabs (vcomp xs j - vcomp x0 j)))%R by (apply sm_nonneg; intros; apply Rabs_pos). lra. }
  set (c := fun i => sm 0 n (fun j => Rabs (coef E i j))). set (C := sqrt (sm 0 n (fun i => c i * c i)%R)).
  assert (C0 : (0 <= C)%R) by apply sqrt_pos.
  assert (F : (0 <= factor k w rho < 1)%R).
  { assert (FE : factor k w rho = (1 - wide k w + wide k w * rho)%R) by (unfold factor, wide; destruct (k =? 12); ring). rewrite FE. destruct HD as (Hr & _).
    assert (0 <= wide k w * rho)%R by (apply Rmult_le_pos; lra). assert (wide k w * rho < wide k w)%R by (rewrite <- (Rmult_1_r (wide k w)) at 2; apply Rmult_lt_compat_l; lra). lra. }
  set (eps := (tol * norm2 n b)%R). assert (He : (0 < eps)%R) by (apply Rmult_lt_0_compat; lra).
  assert (CD : (0 <= C * D)%R) by (apply Rmult_le_pos; auto).
  destruct (pow_lt_1_zero (factor k w rho) ltac:(rewrite Rabs_pos_eq; lra) (eps / (C * D + 1)) ltac:(apply Rdiv_lt_0_compat; lra)) as (N & HN).
  specialize (HN N (Nat.le_refl N)). rewrite Rabs_pos_eq in HN by (apply pow_le; lra). exists N. intros X HT. apply rel_le; [exact Hb|].
  assert (G := trajectory_within k n w E b xs Hk Hn HS rho HD HW' x0 X D HT D0 W0 N).
  set (q := (factor k w rho ^ N * D)%R) in *. assert (Hq : (0 <= q)%R) by (apply Rmult_le_pos; [apply pow_le; lra|auto]).
  eapply Rle_trans; [apply (norm2_bound n _ c q Hq)|].
  - intros i Hi. rewrite (resid_err n E b xs HS (X N) i Hi). eapply Rle_trans; [apply sm_Rabs|]. unfold c. rewrite Rmult_comm, <- sm_scal. apply sm_le.
    intros j Hj. rewrite Rabs_mult. rewrite (Rmult_comm q). apply Rmult_le_compat_l; [apply Rabs_pos|]. apply G. exact Hj.
  - fold C. fold eps. unfold q. replace (C * (factor k w rho ^ N * D))%R with (factor k w rho ^ N * (C * D))%R by ring.
    assert (0 <= factor k w rho ^ N)%R by (apply pow_le; lra).
    assert ((factor k w rho ^ N * (C * D) <= factor k w rho ^ N * (C * D + 1))%R) by (apply Rmult_le_compat_l; lra).
    assert ((factor k w rho ^ N * (C * D + 1) < eps / (C * D + 1) * (C * D + 1))%R) by (apply Rmult_lt_compat_r; lra).
    replace (eps / (C * D + 1) * (C * D + 1))%R with eps in * by (field; lra). lra.
Qed.
Lemma accepts_omega k (o : opts (T:=R)) : stat_accepts k o -> k = 12 -> s_omega o <> 0%R.
Proof.
  intros (_ & _ & _ & _ & _ & _ & _ & H) Hk C. destruct (H Hk) as (H1 & _). rewrite C in H1. apply sleb_R in H1.
  change (0 < Rabs 0)%R in H1. rewrite Rabs_R0 in H1. lra.
Qed.
Lemma dominant_success k w tol z n E b x rho : 0 <= n -> dominant n E rho -> (k = 12 -> (0 < w <= 1)%R) -> (0 < tol)%R -> norm2 n b <> 0%R ->
  exists N, forall o : opts (T:=R), stat_accepts k o -> no_change n (s_psolve o) -> s_omega o = w -> s_tol o = tol -> s_zeros o = z -> N <= s_maxiter o ->
    exists v, lis_solve o n E b x = Ok v /\ v_status v = LIS_SUCCESS /\ 1 <= v_iter v <= N.
Proof.
  intros Hn HD HW Ht Hb. assert (HK : (k = 10 \/ k = 11 \/ k = 12) \/ ~ (k = 10 \/ k = 11 \/ k = 12)) by lia. destruct HK as [HK|HK].
  2:{ exists 0. intros o (C & _). contradiction. }
  destruct (dominant_steps k w n E b rho tol (start_x 0 z n [] x) Hn HK HD HW Ht Hb) as (s & H). exists (Z.of_nat s + 1).
  intros o HA HN <- <- <- HM.
  destruct (stat_solve ScalarR_field ScalarR_eqb k o n E b x Hn HA HN) as (v & X & m & Hv & HT & HR); auto.
  { intros i Hi. destruct HD as (_ & HD). destruct (HD i Hi) as (A & _). exact A. }
  { apply accepts_omega; auto. }
  exists v. split; [exact Hv|]. destruct (run_success n E b o X m v (Z.of_nat s + 1) s HR ltac:(lia) HM (H X HT)) as (S1 & S2). split; [exact S1|].
  destruct HR as (_ & _ & _ & _ & _ & [R|R] & _); [lia|]. destruct R as (R & _). rewrite S1 in R. discriminate.
Qed.

(** *** symmetric positive definite *)
Lemma spd_energy k w n E b xs x0 X : 0 <= n -> k = 11 \/ k = 12 -> (k = 12 -> (0 < w < 2)%R) -> symmetric n E -> pos_def n (times n E) -> solves n E b xs ->
  trajectory k w n E b x0 X -> forall s, (energy_error n E xs (X (S s)) <= energy_error n E xs (X s))%R.
Proof.
  intros Hn Hk HW HSy HP HS (_ & HT) s.
  assert (HW' : (0 < wide k w < 2)%R) by (unfold wide; destruct (k =? 12) eqn:C; [apply HW, Z.eqb_eq, C|lra]).
  rewrite !en_energy. rewrite (en_step k n w E b xs ltac:(lia) Hn HS HSy HP HW' ltac:(lia) (X s) (X (S s)) (HT s)). fold (wide k w).
  set (Q := sm 0 n _). assert (Q0 : (0 <= Q)%R) by (apply sm_nonneg; intros i Hi; pose proof (diag_pos n E HP i Hi); apply Rmult_le_pos; [lra|apply Rle_0_sqr]).
  assert (1 < 2 / wide k w)%R by (apply Rmult_lt_reg_r with (wide k w); [lra|]; replace (2 / wide k w * wide k w)%R with 2%R by (field; lra); lra).
  assert (0 <= (2 / wide k w - 1) * Q)%R by (apply Rmult_le_pos; lra). lra.
Qed.
Lemma energy_ext n E xs x y : (forall i, 0 <= i < n -> vcomp x i = vcomp (T:=R) y i) -> energy_error n E xs x = energy_error n E xs y.
Proof.
  intros H. unfold energy_error. cbv zeta. replace (map (fun i => (vcomp xs i - vcomp x i)%R) (zrange 0 n)) with (map (fun i => (vcomp xs i - vcomp y i)%R) (zrange 0 n)); [reflexivity|].
  apply map_ext_in. intros i Hi. apply In_zrange in Hi. rewrite H by lia. reflexivity.
Qed.
Lemma energy_nonneg n E xs x : pos_def n (times n E) -> (0 <= energy_error n E xs x)%R.
Proof. intros HP. rewrite en_energy. apply en_nonneg. exact HP. Qed.
Lemma spd_steps k w n E b tol x0 : 0 <= n -> k = 11 \/ k = 12 -> (k = 12 -> (0 < w < 2)%R) -> symmetric n E -> pos_def n (times n E) -> (0 < tol)%R -> norm2 n b <> 0%R ->
  exists N : nat, forall X, trajectory k w n E b x0 X -> exists s, (s < N)%nat /\ (rel (norm2 n (residual n E b (X s))) (norm2 n b) <= tol)%R.
Proof.
  intros Hn Hk HW HSy HP Ht Hb. destruct (solvable n E b Hn (spd_nonsingular n E HP)) as (xs & HS). apply bnorm_pos in Hb.
  assert (HW' : (0 < wide k w < 2)%R) by (unfold wide; destruct (k =? 12) eqn:C; [apply HW, Z.eqb_eq, C|lra]).
  set (c2 := (2 / wide k w - 1)%R). assert (Hc2 : (0 < c2)%R).
  { unfold c2. assert (1 < 2 / wide k w)%R by (apply Rmult_lt_reg_r with (wide k w); [lra|]; replace (2 / wide k w * wide k w)%R with 2%R by (field; lra); lra). lra. }
  set (K := KK k n w E). assert (K0 : (0 <= K)%R) by (apply sm_nonneg; intros; apply Rle_0_sqr).
  set (eps := (tol * norm2 n b)%R). assert (He : (0 < eps)%R) by (apply Rmult_lt_0_compat; lra).
  set (del := (c2 * (eps * eps / (K + 1)))%R).
  assert (Hdel : (0 < del)%R) by (apply Rmult_lt_0_compat; [exact Hc2|]; apply Rdiv_lt_0_compat; [apply Rmult_lt_0_compat; lra|lra]).
  destruct (archimed (energy_error n E xs x0 / del)) as (Har & _).
  exists (Z.to_nat (up (energy_error n E xs x0 / del))). set (N := Z.to_nat _). intros X HT.
  assert (G : forall t : nat, (exists s, (s < t)%nat /\ (rel (norm2 n (residual n E b (X s))) (norm2 n b) <= tol)%R) \/ (energy_error n E xs (X t) <= energy_error n E xs x0 - INR t * del)%R).
  { induction t as [|t [(s & S1 & S2)|IH]].
    - right. cbn [INR]. rewrite (energy_ext n E xs (X O) x0) by (apply HT). lra.
    - left. exists s. split; [lia|exact S2].
    - destruct (Rle_dec (rel (norm2 n (residual n E b (X t))) (norm2 n b)) tol) as [Y|Y]; [left; exists t; split; [lia|exact Y]|]. right.
      assert (Y' : (eps < norm2 n (residual n E b (X t)))%R).
      { apply Rnot_le_lt. intros C. apply Y. apply rel_le; auto. }
      destruct HT as (_ & HT). rewrite S_INR.
      assert (E1 : energy_error n E xs (X (S t)) = (energy_error n E xs (X t) - c2 * sm 0 n (fun i => coef E i i * ((vcomp xs i - vcomp (X t) i - (vcomp xs i - vcomp (X (S t)) i)) * (vcomp xs i - vcomp (X t) i - (vcomp xs i - vcomp (X (S t)) i))))%R)%R).
      { rewrite !en_energy. exact (en_step k n w E b xs ltac:(lia) Hn HS HSy HP HW' ltac:(lia) (X t) (X (S t)) (HT t)). }
      assert (E2 := resid_step k n w E b xs ltac:(lia) Hn HS HSy HP HW' ltac:(lia) (X t) (X (S t)) (HT t)). cbv beta in E2. fold K in E2.
      set (Q := sm 0 n (fun i => coef E i i * ((vcomp xs i - vcomp (X t) i - (vcomp xs i - vcomp (X (S t)) i)) * (vcomp xs i - vcomp (X t) i - (vcomp xs i - vcomp (X (S t)) i))))%R) in *.
      assert (Q0 : (0 <= Q)%R) by (apply sm_nonneg; intros i Hi; pose proof (diag_pos n E HP i Hi); apply Rmult_le_pos; [lra|apply Rle_0_sqr]).
      set (RR := sm 0 n (fun i => vcomp (residual n E b (X t)) i * vcomp (residual n E b (X t)) i)%R) in *.
      assert (R0 : (0 <= RR)%R) by (apply sm_nonneg; intros; apply Rle_0_sqr).
      change (norm2 n (residual n E b (X t))) with (sqrt RR) in Y'.
      assert (E3 : (eps * eps < RR)%R). { rewrite <- (sqrt_sqrt RR) by exact R0. apply Rmult_le_0_lt_compat; lra. }
      assert (E4 : (eps * eps / (K + 1) <= Q)%R).
      { apply Rmult_le_reg_r with (K + 1)%R; [lra|]. replace (eps * eps / (K + 1) * (K + 1))%R with (eps * eps)%R by (field; lra). lra. }
      assert (E5 : (del <= c2 * Q)%R) by (apply Rmult_le_compat_l; lra). rewrite E1. lra. }
  destruct (G N) as [H|H]; [exact H|]. exfalso. assert (P := energy_nonneg n E xs (X N) HP). assert (P0 := energy_nonneg n E xs x0 HP).
  assert (UP : (0 <= up (energy_error n E xs x0 / del))%Z).
  { apply le_IZR. assert (0 <= energy_error n E xs x0 / del)%R by (apply Rmult_le_pos; [exact P0|left; apply Rinv_0_lt_compat; exact Hdel]). lra. }
  assert (HI : INR N = IZR (up (energy_error n E xs x0 / del))) by (unfold N; rewrite INR_IZR_INZ, Z2Nat.id by exact UP; reflexivity).
  rewrite HI in H. assert (energy_error n E xs x0 / del * del < IZR (up (energy_error n E xs x0 / del)) * del)%R by (apply Rmult_lt_compat_r; lra).
  replace (energy_error n E xs x0 / del * del)%R with (energy_error n E xs x0) in * by (field; lra). lra.
Qed.
Lemma spd_stat_success k w tol z n E b x : 0 <= n -> k = 11 \/ k = 12 -> (k = 12 -> (0 < w < 2)%R) -> symmetric n E -> pos_def n (times n E) -> (0 < tol)%R -> norm2 n b <> 0%R ->
  exists N, forall o : opts (T:=R), stat_accepts k o -> no_change n (s_psolve o) -> s_omega o = w -> s_tol o = tol -> s_zeros o = z -> N <= s_maxiter o ->
    exists v, lis_solve o n E b x = Ok v /\ v_status v = LIS_SUCCESS /\ 1 <= v_iter v <= N.
Proof.
  intros Hn HK HW HSy HP Ht Hb.
  destruct (spd_steps k w n E b tol (start_x 0 z n [] x) Hn HK HW HSy HP Ht Hb) as (N & H). exists (Z.of_nat N).
  intros o HA HN <- <- <- HM.
  destruct (stat_solve ScalarR_field ScalarR_eqb k o n E b x Hn HA HN) as (v & X & m & Hv & HT & HR); auto.
  { intros i Hi. pose proof (diag_pos n E HP i Hi). change (coef E i i <> 0%R). lra. }
  { apply accepts_omega; auto. }
  exists v. split; [exact Hv|]. destruct (H X HT) as (s & S0 & S3). destruct (run_success n E b o X m v (Z.of_nat N) s HR ltac:(lia) HM S3) as (S1 & S2). split; [exact S1|].
  destruct HR as (_ & _ & _ & _ & _ & [R|R] & _); [lia|]. destruct R as (R & _). rewrite S1 in R. discriminate.
Qed.
