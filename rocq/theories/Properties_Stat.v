(** C54: the stationary solvers. *)
Require Import Reals Lra ZArith List Bool Lia QArith.
From Coq Require Import Qcanon.
From Verif Require Import Base Scalar ScalarReal Spec SpecSolver Krylov Krylov2 Solve SpecSolve SpecTerm SpecGmres SpecStat TermFinal GmresMath GmresLoop KrylovProof StatRun StatConv StatFinal.
Import ListNotations.
Open Scope Z_scope.

(** The run, for every field: lis_solve always returns, having made m steps of the method; it
    reports and records the relative residual of every iterate it steps from, stops with success
    after the first step from an iterate that is good enough, and otherwise after maxiter steps. *)
Theorem C54_run {T} {S : Scalar T} (FT : is_field S) (EQ : eqb_ok S) (k : Z) (o : opts (T:=T)) n E b x :
  0 <= n -> stat_accepts k o -> no_change n (s_psolve o) ->
  (forall i, 0 <= i < n -> coef E i i <> s0) -> norm2 n b <> s0 -> (k = 12 -> s_omega o <> s0) ->
  exists v X m, lis_solve o n E b x = Ok v /\
    trajectory k (s_omega o) n E b (start_x 0 (s_zeros o) n [] x) X /\ stat_run n E b o X m v.
Proof. exact (stat_solve FT EQ k o n E b x). Qed.
Print Assumptions C54_run.

(** Strictly diagonally dominant rows: whatever the outcome, the returned x is closer to the
    solution than the initial vector by factor^(number of steps). *)
Theorem C54_dominant_rate (k : Z) (o : opts (T:=R)) n E b x rho xs D : 0 <= n -> stat_accepts k o -> no_change n (s_psolve o) ->
  dominant n E rho -> (k = 12 -> (0 < s_omega o <= 1)%R) -> norm2 n b <> 0%R -> solves n E b xs ->
  (0 <= D)%R -> within n D xs (start_x 0 (s_zeros o) n [] x) ->
  exists v, lis_solve o n E b x = Ok v /\
    within n (factor k (s_omega o) rho ^ Z.to_nat (Z.min (v_iter v) (s_maxiter o)) * D) xs (v_x v).
Proof.
  intros Hn HA HN HD HW Hb HS HD0 H0.
  destruct (stat_solve ScalarR_field ScalarR_eqb k o n E b x Hn HA HN) as (v & X & m & Hv & HT & HR); auto.
  { intros i Hi. destruct HD as (_ & HD). destruct (HD i Hi) as (A & _). exact A. }
  { apply accepts_omega; auto. }
  exists v. split; [exact Hv|]. destruct HA as (Hk & _). exact (dominant_run k o n E b x rho xs D v X m Hn Hk HD HW HS HD0 H0 HT HR).
Qed.
Print Assumptions C54_dominant_rate.
(** ... and with enough iterations every one of the three ends with success *)
Theorem C54_dominant_success (k : Z) w tol z n E b x rho : 0 <= n -> dominant n E rho -> (k = 12 -> (0 < w <= 1)%R) -> (0 < tol)%R -> norm2 n b <> 0%R ->
  exists N, forall o : opts (T:=R), stat_accepts k o -> no_change n (s_psolve o) -> s_omega o = w -> s_tol o = tol -> s_zeros o = z -> N <= s_maxiter o ->
    exists v, lis_solve o n E b x = Ok v /\ v_status v = LIS_SUCCESS /\ 1 <= v_iter v <= N.
Proof. exact (dominant_success k w tol z n E b x rho). Qed.
Print Assumptions C54_dominant_success.
(** such a system has exactly one solution *)
Theorem C54_dominant_solvable n E b rho : 0 <= n -> dominant n E rho ->
  exists xs, solves n E b xs /\ forall ys, solves n E b ys -> forall i, 0 <= i < n -> vcomp ys i = vcomp xs i.
Proof.
  intros Hn HD. assert (HN := dominant_nonsingular n E rho Hn HD). destruct (solvable n E b Hn HN) as (xs & HS). exists xs. split; [exact HS|].
  intros ys HY i Hi. set (d := tab n (fun i => (vcomp ys i - vcomp xs i)%R)).
  assert (Hd : forall j, 0 <= j < n -> vcomp d j = (vcomp ys j - vcomp xs j)%R) by (intros j Hj; exact (at_tab n (fun i => (vcomp ys i - vcomp xs i)%R) j Hj)).
  assert (G : vcomp d i = 0%R).
  { apply (HN d); [|exact Hi]. intros j Hj. assert (A := HS j Hj). assert (B := HY j Hj).
    change (sm 0 n (fun l => coef E j l * vcomp xs l)%R = vcomp b j) in A. change (sm 0 n (fun l => coef E j l * vcomp ys l)%R = vcomp b j) in B.
    change (sm 0 n (fun l => coef E j l * vcomp d l)%R = 0%R). rewrite (sm_ext 0 n _ (fun l => coef E j l * vcomp ys l - coef E j l * vcomp xs l)%R) by (intros l Hl; rewrite Hd by auto; ring).
    rewrite sm_minus. lra. }
  rewrite Hd in G by auto. lra.
Qed.
Print Assumptions C54_dominant_solvable.

(** Symmetric positive definite matrices: Gauss-Seidel, and SOR for every 0 < omega < 2, end with
    success (Ostrowski-Reich), and no run increases the energy norm of the error. *)
Theorem C54_spd_success (k : Z) w tol z n E b x : 0 <= n -> k = 11 \/ k = 12 -> (k = 12 -> (0 < w < 2)%R) -> symmetric n E -> pos_def n (times n E) -> (0 < tol)%R -> norm2 n b <> 0%R ->
  exists N, forall o : opts (T:=R), stat_accepts k o -> no_change n (s_psolve o) -> s_omega o = w -> s_tol o = tol -> s_zeros o = z -> N <= s_maxiter o ->
    exists v, lis_solve o n E b x = Ok v /\ v_status v = LIS_SUCCESS /\ 1 <= v_iter v <= N.
Proof. exact (spd_stat_success k w tol z n E b x). Qed.
Print Assumptions C54_spd_success.
Theorem C54_spd_energy (k : Z) (o : opts (T:=R)) n E b x xs : 0 <= n -> stat_accepts k o -> no_change n (s_psolve o) -> k = 11 \/ k = 12 ->
  (k = 12 -> (0 < s_omega o < 2)%R) -> symmetric n E -> pos_def n (times n E) -> norm2 n b <> 0%R -> solves n E b xs ->
  exists v, lis_solve o n E b x = Ok v /\ (energy_error n E xs (v_x v) <= energy_error n E xs (start_x 0 (s_zeros o) n [] x))%R.
Proof.
  intros Hn HA HN Hk HW HSy HP Hb HS.
  destruct (stat_solve ScalarR_field ScalarR_eqb k o n E b x Hn HA HN) as (v & X & m & Hv & HT & HR); auto.
  { intros i Hi. pose proof (diag_pos n E HP i Hi). change (coef E i i <> 0%R). lra. }
  { apply accepts_omega; auto. }
  exists v. split; [exact Hv|]. destruct HR as (_ & _ & R1 & _). rewrite (energy_ext n E xs (v_x v) (X m) R1).
  assert (G : forall s, (energy_error n E xs (X s) <= energy_error n E xs (start_x 0 (s_zeros o) n [] x))%R).
  { induction s as [|s IH]; [rewrite (energy_ext n E xs (X O) (start_x 0 (s_zeros o) n [] x)) by (apply HT); lra|].
    pose proof (spd_energy k (s_omega o) n E b xs _ X Hn Hk HW HSy HP HS HT s). lra. }
  apply G.
Qed.
Print Assumptions C54_spd_energy.

(** *** the hypotheses are met: ((4 1)(1 3)), dominant with rho = 1/3, symmetric positive definite *)
Definition E2r : list (entry R) := [(0, 0, 4%R); (0, 1, 1%R); (1, 0, 1%R); (1, 1, 3%R)].
Definition ost (k mi : Z) (w tol : R) : opts (T:=R) := mkOpts k 0 mi 0 tol 0%R true true 0 40 w 0 (fun _ v => v) (fun _ v => v) None (fun _ => 7%R) 2 2 (fun _ => 7%R).
Lemma ost_accepts k mi w tol : k = 10 \/ k = 11 \/ k = 12 -> 0 <= mi -> (0 < Rabs w < 2)%R -> stat_accepts k (ost k mi w tol).
Proof.
  intros Hk Hm Hw. unfold stat_accepts, ost; cbn [s_solver s_precon s_pcreate s_maxiter s_conv s_scale s_omega].
  repeat (split; [auto; lia|]). intros _. split.
  - apply sleb_R_f. change (0 < Rabs w)%R. lra.
  - apply sleb_R_f. change (Rabs w < 1 + 1)%R. lra.
Qed.
Lemma two (i : Z) : 0 <= i < 2 -> i = 0 \/ i = 1. Proof. lia. Qed.
Example C54_dominant_applies : dominant 2 E2r (1/3) /\ symmetric 2 E2r /\ pos_def 2 (times 2 E2r) /\ norm2 2 [1%R; 2%R] <> 0%R /\
  solves 2 E2r [1%R; 2%R] [(1/11)%R; (7/11)%R] /\ (forall k, k = 10 \/ k = 11 \/ k = 12 -> stat_accepts k (ost k 100 1%R (1/1000)) /\ no_change 2 (s_psolve (ost k 100 1%R (1/1000)))).
Proof.
  split; [|split; [|split; [|split; [|split]]]].
  - split; [lra|]. intros i Hi. destruct (two i Hi) as [->| ->].
    + change (coef E2r 0 0) with (4 + 0)%R. split; [lra|]. change (0 + (Rabs (1 + 0) + 0) <= 1 / 3 * Rabs (4 + 0))%R. rewrite !Rabs_pos_eq by lra. lra.
    + change (coef E2r 1 1) with (3 + 0)%R. split; [lra|]. change (Rabs (1 + 0) + (0 + 0) <= 1 / 3 * Rabs (3 + 0))%R. rewrite !Rabs_pos_eq by lra. lra.
  - intros i j Hi Hj. destruct (two i Hi) as [->| ->], (two j Hj) as [->| ->]; reflexivity.
  - intros v (i & Hi & Hv). change (0 < vcomp v 0 * ((4 + 0) * vcomp v 0 + ((1 + 0) * vcomp v 1 + 0)) + (vcomp v 1 * ((1 + 0) * vcomp v 0 + ((3 + 0) * vcomp v 1 + 0)) + 0))%R.
    set (p := vcomp v 0) in *. set (q := vcomp v 1) in *.
    assert (H1 : (0 <= (p + q) * (p + q))%R) by apply Rle_0_sqr. assert (H2 : (0 <= p * p)%R) by apply Rle_0_sqr. assert (H3 : (0 <= q * q)%R) by apply Rle_0_sqr.
    assert (H4 : (0 < p * p \/ 0 < q * q)%R).
    { destruct (two i Hi) as [Ei|Ei]; rewrite Ei in Hv; [left; fold p in Hv|right; fold q in Hv]; apply Rsqr_pos_lt in Hv; exact Hv. }
    replace (p * ((4 + 0) * p + ((1 + 0) * q + 0)) + (q * ((1 + 0) * p + ((3 + 0) * q + 0)) + 0))%R with (3 * (p * p) + 2 * (q * q) + (p + q) * (p + q))%R by ring. destruct H4; lra.
  - change (sqrt (1 * 1 + (2 * 2 + 0)) <> 0)%R. assert (0 < sqrt (1 * 1 + (2 * 2 + 0)))%R by (apply sqrt_lt_R0; lra). lra.
  - intros i Hi. destruct (two i Hi) as [->| ->].
    + change ((4 + 0) * (1 / 11) + ((1 + 0) * (7 / 11) + 0) = 1)%R. lra.
    + change ((1 + 0) * (1 / 11) + ((3 + 0) * (7 / 11) + 0) = 2)%R. lra.
  - intros k Hk. split; [apply ost_accepts; [exact Hk|lia|rewrite Rabs_pos_eq; lra]|]. intros j v i _. reflexivity.
Qed.

(** *** the limits *)
(** a trajectory whose residual stays large is never accepted *)
Lemma never n E b (o : opts (T:=R)) X m v : norm2 n b = 1%R -> (s_tol o < 1)%R -> (forall s, (1 <= norm2 n (residual n E b (X s)))%R) -> stat_run n E b o X m v -> v_status v = LIS_MAXITER.
Proof.
  intros Hb Ht HX (_ & _ & _ & _ & _ & [(_ & _ & _ & R)|(R & _)] & _); [|exact R]. exfalso.
  rewrite Hb in R. apply (proj2 (not_false_iff_true _)) in R. apply R. apply sleb_R_f. unfold rel. cbn [seqb ScalarR s0].
  destruct (Req_EM_T 1 0); [lra|]. specialize (HX (Nat.pred m)). change (s_tol o < norm2 n (residual n E b (X (Nat.pred m))) / 1)%R. lra.
Qed.
Definition E1r : list (entry R) := [(0, 0, 1%R)].
(** the check on omega is 0 < |omega| < 2: a negative omega is accepted, and SOR then diverges
    even for the identity matrix, however many iterations are allowed *)
Theorem C54_negative_omega_refuted : forall mi tol, 0 <= mi -> (tol < 1)%R ->
  stat_accepts 12 (ost 12 mi (-1/2) tol) /\
  exists v, lis_solve (ost 12 mi (-1/2) tol) 1 E1r [1%R] [] = Ok v /\ v_ret v = LIS_SUCCESS /\ v_status v = LIS_MAXITER.
Proof.
  intros mi tol Hm Ht.
  assert (HA : stat_accepts 12 (ost 12 mi (-1/2) tol)) by (apply ost_accepts; [auto|exact Hm|rewrite Rabs_left; lra]). split; [exact HA|].
  assert (Hb : norm2 1 [1%R] = 1%R) by (change (sqrt (1 * 1 + 0) = 1)%R; replace (1 * 1 + 0)%R with 1%R by ring; apply sqrt_1).
  destruct (stat_solve ScalarR_field ScalarR_eqb 12 (ost 12 mi (-1/2) tol) 1 E1r [1%R] []) as (v & X & m & Hv & (T0 & T1) & HR); auto; try lia.
  { intros k w i _. reflexivity. }
  { intros i Hi. replace i with 0 by lia. change (1 + 0 <> 0)%R. lra. }
  { change (norm2 1 [1%R] <> 0)%R. rewrite Hb. lra. }
  { apply accepts_omega; exact HA. }
  exists v. split; [exact Hv|]. split; [exact (proj1 HR)|]. refine (never 1 _ _ (ost 12 mi (-1/2) tol) X m v Hb Ht _ HR).
  assert (RX : forall s, vcomp (residual 1 E1r [1%R] (X s)) 0 = (1 - vcomp (X s) 0)%R).
  { intros s. change (1 - ((1 + 0) * vcomp (X s) 0 + 0) = 1 - vcomp (X s) 0)%R. ring. }
  assert (G : forall s, (1 <= 1 - vcomp (X s) 0)%R).
  { induction s as [|s IH]; [rewrite T0 by lia; change (1 <= 1 - 0)%R; lra|].
    specialize (T1 s 0 ltac:(lia)). cbv zeta in T1. rewrite RX in T1.
    change ((1 + 0) / (-1/2) * (vcomp (X (S s)) 0 - vcomp (X s) 0) + 0 = 1 - vcomp (X s) 0)%R in T1. lra. }
  intros s. change (1 <= sqrt (vcomp (residual 1 E1r [1%R] (X s)) 0 * vcomp (residual 1 E1r [1%R] (X s)) 0 + 0))%R. rewrite RX. specialize (G s).
  rewrite <- sqrt_1 at 1. apply sqrt_le_1_alt. rewrite <- (Rmult_1_r 1) at 1. rewrite Rplus_0_r. apply Rmult_le_compat; lra.
Qed.
Print Assumptions C54_negative_omega_refuted.

(** Jacobi on a symmetric positive definite matrix that is not dominant: never accepted *)
Definition E3r : list (entry R) := [(0,0,1%R); (0,1,(4/5)%R); (0,2,(4/5)%R); (1,0,(4/5)%R); (1,1,1%R); (1,2,(4/5)%R); (2,0,(4/5)%R); (2,1,(4/5)%R); (2,2,1%R)].
Lemma three (i : Z) : 0 <= i < 3 -> i = 0 \/ i = 1 \/ i = 2. Proof. lia. Qed.
Lemma E3_mv (f : Z -> R) i : 0 <= i < 3 -> mv_spec E3r 3 f i = (4/5 * (f 0%Z + f 1%Z + f 2%Z) + 1/5 * f i)%R.
Proof.
  intros Hi. destruct (three i Hi) as [->|[->| ->]].
  - change ((1 + 0) * f 0%Z + ((4/5 + 0) * f 1%Z + ((4/5 + 0) * f 2%Z + 0)) = 4/5 * (f 0%Z + f 1%Z + f 2%Z) + 1/5 * f 0%Z)%R. lra.
  - change ((4/5 + 0) * f 0%Z + ((1 + 0) * f 1%Z + ((4/5 + 0) * f 2%Z + 0)) = 4/5 * (f 0%Z + f 1%Z + f 2%Z) + 1/5 * f 1%Z)%R. lra.
  - change ((4/5 + 0) * f 0%Z + ((4/5 + 0) * f 1%Z + ((1 + 0) * f 2%Z + 0)) = 4/5 * (f 0%Z + f 1%Z + f 2%Z) + 1/5 * f 2%Z)%R. lra.
Qed.
Theorem C54_jacobi_spd_refuted : symmetric 3 E3r /\ pos_def 3 (times 3 E3r) /\
  forall mi tol, 0 <= mi -> (tol < 1)%R -> exists v, lis_solve (ost 10 mi 1 tol) 3 E3r [1%R; 0%R; 0%R] [] = Ok v /\ v_status v = LIS_MAXITER.
Proof.
  split; [|split].
  - intros i j Hi Hj. destruct (three i Hi) as [->|[->| ->]], (three j Hj) as [->|[->| ->]]; reflexivity.
  - intros v (i & Hi & Hv).
    assert (TT : forall j, 0 <= j < 3 -> vcomp (times 3 E3r v) j = (4/5 * (vcomp v 0 + vcomp v 1 + vcomp v 2) + 1/5 * vcomp v j)%R) by (intros j Hj; rewrite <- E3_mv by exact Hj; exact (at_tab 3 (mv_spec E3r 3 (vcomp v)) j Hj)).
    change (0 < vcomp v 0 * vcomp (times 3 E3r v) 0 + (vcomp v 1 * vcomp (times 3 E3r v) 1 + (vcomp v 2 * vcomp (times 3 E3r v) 2 + 0)))%R. rewrite !TT by lia.
    set (p := vcomp v 0) in *. set (q := vcomp v 1) in *. set (r := vcomp v 2) in *.
    assert (H1 : (0 <= (p + q + r) * (p + q + r))%R) by apply Rle_0_sqr. assert (H2 : (0 <= p * p)%R) by apply Rle_0_sqr. assert (H3 : (0 <= q * q)%R) by apply Rle_0_sqr. assert (H4 : (0 <= r * r)%R) by apply Rle_0_sqr.
    assert (H5 : (0 < p * p \/ 0 < q * q \/ 0 < r * r)%R).
    { destruct (three i Hi) as [Ei|[Ei|Ei]]; rewrite Ei in Hv; [left; fold p in Hv|right; left; fold q in Hv|right; right; fold r in Hv]; apply Rsqr_pos_lt in Hv; exact Hv. }
    replace (p * (4 / 5 * (p + q + r) + 1 / 5 * p) + (q * (4 / 5 * (p + q + r) + 1 / 5 * q) + (r * (4 / 5 * (p + q + r) + 1 / 5 * r) + 0)))%R with (4/5 * ((p + q + r) * (p + q + r)) + 1/5 * (p * p) + 1/5 * (q * q) + 1/5 * (r * r))%R by field. destruct H5 as [|[|]]; lra.
  - intros mi tol Hm Ht.
    assert (HA : stat_accepts 10 (ost 10 mi 1 tol)) by (apply ost_accepts; [auto|exact Hm|rewrite Rabs_pos_eq; lra]).
    assert (Hb : norm2 3 [1%R; 0%R; 0%R] = 1%R) by (change (sqrt (1 * 1 + (0 * 0 + (0 * 0 + 0))) = 1)%R; replace (1 * 1 + (0 * 0 + (0 * 0 + 0)))%R with 1%R by ring; apply sqrt_1).
    destruct (stat_solve ScalarR_field ScalarR_eqb 10 (ost 10 mi 1 tol) 3 E3r [1%R; 0%R; 0%R] []) as (v & X & m & Hv & (T0 & T1) & HR); auto; try lia.
    { intros k w i _. reflexivity. }
    { intros i Hi. destruct (three i Hi) as [->|[->| ->]]; change (1 + 0 <> 0)%R; lra. }
    { change (norm2 3 [1%R; 0%R; 0%R] <> 0)%R. rewrite Hb. lra. }
    exists v. split; [exact Hv|]. refine (never 3 _ _ (ost 10 mi 1 tol) X m v Hb Ht _ HR).
    assert (RX : forall s i, 0 <= i < 3 -> vcomp (residual 3 E3r [1%R; 0%R; 0%R] (X s)) i = (vcomp [1%R; 0%R; 0%R] i - (4/5 * (vcomp (X s) 0 + vcomp (X s) 1 + vcomp (X s) 2) + 1/5 * vcomp (X s) i))%R).
    { intros s i Hi. rewrite <- E3_mv by exact Hi. exact (at_tab 3 (fun i => ssub (vcomp [1%R; 0%R; 0%R] i) (mv_spec E3r 3 (vcomp (X s)) i)) i Hi). }
    set (r := fun s i => vcomp (residual 3 E3r [1%R; 0%R; 0%R] (X s)) i).
    assert (UP : forall s i, 0 <= i < 3 -> vcomp (X (S s)) i = (vcomp (X s) i + r s i)%R).
    { intros s i Hi. specialize (T1 s i Hi). cbv zeta in T1. fold (r s i) in T1. rewrite <- T1.
      assert (D1 : coef E3r i i = 1%R) by (destruct (three i Hi) as [->|[->| ->]]; change (1 + 0 = 1)%R; ring). rewrite D1.
      change (vcomp (X (S s)) i = vcomp (X s) i + (1 * (vcomp (X (S s)) i - vcomp (X s) i) + 0))%R. ring. }
    (* the sum of the residuals is multiplied by -8/5, the differences by 4/5 *)
    assert (G : forall s, (r s 0%Z + r s 1%Z + r s 2%Z = (-8/5) ^ s)%R /\ (r s 0%Z - r s 1%Z = (4/5) ^ s)%R /\ (r s 0%Z - r s 2%Z = (4/5) ^ s)%R).
    { induction s as [|s (I1 & I2 & I3)].
      - unfold r. rewrite !RX by lia. rewrite !T0 by lia. cbn [pow]. change ((1 - (4/5 * (0 + 0 + 0) + 1/5 * 0) + (0 - (4/5 * (0 + 0 + 0) + 1/5 * 0)) + (0 - (4/5 * (0 + 0 + 0) + 1/5 * 0)) = 1) /\ (1 - (4/5 * (0 + 0 + 0) + 1/5 * 0) - (0 - (4/5 * (0 + 0 + 0) + 1/5 * 0)) = 1) /\ (1 - (4/5 * (0 + 0 + 0) + 1/5 * 0) - (0 - (4/5 * (0 + 0 + 0) + 1/5 * 0)) = 1))%R. lra.
      - assert (RN : forall i, 0 <= i < 3 -> r (S s) i = (r s i - (4/5 * (r s 0%Z + r s 1%Z + r s 2%Z) + 1/5 * r s i))%R).
        { intros i Hi. unfold r at 1. rewrite RX by exact Hi. rewrite !UP by lia. unfold r at 5. rewrite RX by exact Hi. lra. }
        rewrite !RN by lia. cbn [pow]. rewrite <- I1, <- I2. lra. }
    assert (POW : forall s, (1 <= ((-8/5) ^ s) * ((-8/5) ^ s) /\ 0 <= (4/5)^s * (4/5)^s /\ (s = O -> 1 <= (4/5)^s * (4/5)^s) /\ (s <> O -> 64/25 <= ((-8/5) ^ s) * ((-8/5) ^ s)))%R).
    { induction s as [|s (J1 & J2 & J3 & J4)]; [cbn [pow]; repeat split; intros; lra || congruence|]. cbn [pow].
      replace (-8 / 5 * (-8/5) ^ s * (-8 / 5 * (-8/5) ^ s))%R with (64/25 * ((-8/5) ^ s * (-8/5) ^ s))%R by field.
      replace (4 / 5 * (4/5) ^ s * (4 / 5 * (4/5) ^ s))%R with (16/25 * ((4/5) ^ s * (4/5) ^ s))%R by field. repeat split; intros; try discriminate; lra. }
    intros s. destruct (G s) as (G1 & G2 & G3). destruct (POW s) as (P1 & P2 & P3 & P4).
    change (1 <= sqrt (r s 0%Z * r s 0%Z + (r s 1%Z * r s 1%Z + (r s 2%Z * r s 2%Z + 0))))%R.
    rewrite <- sqrt_1 at 1. apply sqrt_le_1_alt.
    assert (E1 : (r s 1%Z = r s 0%Z - (4/5)^s)%R) by lra. assert (E2 : (r s 2%Z = r s 0%Z - (4/5)^s)%R) by lra. rewrite E1, E2 in *.
    set (p := ((-8/5)^s)%R) in *. set (q := ((4/5)^s)%R) in *. set (r0 := r s 0%Z) in *. assert (E0 : (r0 = (p + 2 * q) / 3)%R) by lra. rewrite E0.
    replace ((p + 2 * q) / 3 * ((p + 2 * q) / 3) + (((p + 2 * q) / 3 - q) * ((p + 2 * q) / 3 - q) + (((p + 2 * q) / 3 - q) * ((p + 2 * q) / 3 - q) + 0)))%R with (p * p / 3 + 2 / 3 * (q * q))%R by field.
    destruct s as [|[|s]].
    + unfold p, q. cbn [pow]. lra.
    + unfold p, q. cbn [pow]. lra.
    + assert (P5 : (1 <= (-8/5)^s * (-8/5)^s)%R).
      { clear. induction s as [|s IH]; cbn [pow]; [lra|]. replace (-8 / 5 * (-8/5) ^ s * (-8 / 5 * (-8/5) ^ s))%R with (64/25 * ((-8/5) ^ s * (-8/5) ^ s))%R by field. lra. }
      unfold p. cbn [pow]. replace (-8 / 5 * (-8 / 5 * (-8/5) ^ s) * (-8 / 5 * (-8 / 5 * (-8/5) ^ s)))%R with (4096/625 * ((-8/5) ^ s * (-8/5) ^ s))%R by field. lra.
Qed.
Print Assumptions C54_jacobi_spd_refuted.
