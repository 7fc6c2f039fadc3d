(** C64: the eigensolvers for A x = lambda B x: lis_egpi, lis_egii, lis_egrqi, lis_egcg, lis_egcr
    (exact real arithmetic, one process, A in CSR).  [gready]: at least one iteration allowed, a
    residual history of the size lis_gesolve allocates.  [gave_up]: an inner solve failed, its
    error code is returned and no eigenvalue is written. *)
Require Import ZArith List Bool Lia Reals Lra.
From Verif Require Import Base Scalar ScalarReal Spec SpecSolver SpecEsolver SpecSub Krylov Esolver Gesolver SpecGesolver GesTerms GesFinal Properties_Esolver.
Import ListNotations.
Open Scope Z_scope.

(** ** Power iteration: what the reported numbers are.  v with <v,(A - sigma B) v> = 1,
    w = (A - sigma B) v, y from the inner solve B y = w; lam - sigma = <w,y>, the residual is
    |y - (lam - sigma) v| / |lam - sigma|, x is y normalised, A is restored *)
Theorem C64_power : forall e A B x rh o, gready e rh -> egpi e A B x rh = Ok o -> let n := ee_n e in let sigma := oshift e in
  (exists lam r iter k v w y, reports o lam r iter /\ verdict_le e o iter r /\ (lam <> sigma)%R /\
     (forall i, 0 <= i < n -> vcomp w i = vcomp (gen_residual n A B sigma v) i) /\ inner n v w = 1%R /\ ee_solve e k B w = (0, y) /\
     (lam - sigma)%R = inner n w y /\ r = (norm2 n (minus_times n y (lam - sigma) v) / Rabs (lam - sigma))%R /\
     direction n (eo_x o) y /\ norm2 n (eo_x o) = 1%R /\ same_matrix n A (eo_E o)) \/ gave_up o.
Proof. exact gpi_final. Qed.
Print Assumptions C64_power.

(** the returned pair: with exact inner solves and C = A - sigma B symmetric, non-negative and of
    norm at most K, |A x - lam B x| <= K sqrt(K) r *)
Theorem C64_power_pair : forall e A B x rh o K C, gready e rh -> egpi e A B x rh = Ok o -> solves_with e (eq B) 0%R -> shifted_by (ee_n e) A B (oshift e) C ->
  symmetric (ee_n e) C -> nonnegative (ee_n e) C -> bounded_by (ee_n e) C K -> let n := ee_n e in
  (exists lam r iter, reports o lam r iter /\ verdict_le e o iter r /\ norm2 n (eo_x o) = 1%R /\ (norm2 n (gen_residual n A B lam (eo_x o)) <= K * sqrt K * r)%R) \/ gave_up o.
Proof. exact gpi_pair. Qed.
Print Assumptions C64_power_pair.

(** ** Inverse iteration: v with <v,B v> = 1, w = B v, y from the inner solve (A - sigma B) y = w *)
Theorem C64_inverse : forall e A B x rh o, gready e rh -> egii e A B x rh = Ok o -> let n := ee_n e in let sigma := oshift e in
  (exists lam r iter k v w y C, reports o lam r iter /\ verdict_le e o iter r /\ (lam <> sigma)%R /\
     (forall i, 0 <= i < n -> vcomp w i = vcomp (image n B v) i) /\ inner n v w = 1%R /\ shifted_by n A B sigma C /\ ee_solve e k C w = (0, y) /\
     (lam - sigma)%R = (1 / inner n w y)%R /\ r = (norm2 n (minus_times n y (inner n w y) v) / Rabs (inner n w y))%R /\
     direction n (eo_x o) y /\ norm2 n (eo_x o) = 1%R /\ same_matrix n A (eo_E o)) \/ gave_up o.
Proof. exact gii_final. Qed.
Print Assumptions C64_inverse.

(** the returned pair: inner solves with relative residual at most delta, B symmetric,
    non-negative, of norm at most K *)
Theorem C64_inverse_pair : forall e A B x rh o K delta, gready e rh -> egii e A B x rh = Ok o -> (0 <= delta)%R -> solves_with e (shifted_by (ee_n e) A B (oshift e)) delta ->
  symmetric (ee_n e) B -> nonnegative (ee_n e) B -> bounded_by (ee_n e) B K -> let n := ee_n e in
  (exists lam r iter, reports o lam r iter /\ verdict_le e o iter r /\ norm2 n (eo_x o) = 1%R /\
     (norm2 n (gen_residual n A B lam (eo_x o)) <= (K * sqrt K * r + delta * K) * Rabs (lam - oshift e))%R) \/ gave_up o.
Proof. exact gii_pair. Qed.
Print Assumptions C64_inverse_pair.

(** ** Rayleigh quotient iteration: w = B v, y from the inner solve (A - rho B) y = w *)
Theorem C64_rayleigh : forall e A B x rh o, gready e rh -> egrqi e A B x rh = Ok o -> let n := ee_n e in
  (exists lam r iter k rho v w y C, reports o lam r iter /\ verdict_le e o iter r /\
     (forall i, 0 <= i < n -> vcomp w i = vcomp (image n B v) i) /\ ((iter = 1 /\ norm2 n v = 1%R) \/ inner n v w = 1%R) /\ shifted_by n A B rho C /\ ee_solve e k C w = (0, y) /\
     lam = (rho + inner n w y / rayleigh n B y)%R /\ (0 < rayleigh n B y)%R /\ r = (1 / Rabs (inner n w y))%R /\ (inner n w y <> 0)%R /\
     direction n (eo_x o) y /\ norm2 n (eo_x o) = 1%R /\ same_matrix n A (eo_E o)) \/ gave_up o.
Proof. exact grq_final. Qed.
Print Assumptions C64_rayleigh.

(** with exact inner solves the reported value is the quotient <x,A x> / <x,B x> of the returned
    vector, and with B symmetric, non-negative, of norm at most K the residual of the pair is at
    most K max(1,K) r *)
Theorem C64_rayleigh_exact : forall e A B x rh o, gready e rh -> egrqi e A B x rh = Ok o -> (forall rho, solves_with e (shifted_by (ee_n e) A B rho) 0%R) -> let n := ee_n e in
  (exists lam r iter, reports o lam r iter /\ verdict_le e o iter r /\ norm2 n (eo_x o) = 1%R /\ (rayleigh n B (eo_x o) <> 0)%R /\ lam = (rayleigh n A (eo_x o) / rayleigh n B (eo_x o))%R /\
     (forall K, symmetric n B -> nonnegative n B -> bounded_by n B K -> norm2 n (gen_residual n A B lam (eo_x o)) <= K * Rmax 1 K * r)%R) \/ gave_up o.
Proof. exact grq_exact. Qed.
Print Assumptions C64_rayleigh_exact.

(** ** Conjugate residual: lam is the quotient <A x,B x> / <B x,B x> of the returned vector; x is z
    normalised, and the reported residual is that of z relative to |lam - sigma| *)
Theorem C64_conjugate_residual : forall e A B x rh o, gready e rh -> egcr e A B x rh = Ok o -> let n := ee_n e in
  exists lam r iter z, reports o lam r iter /\ verdict_lt e o iter r /\ norm2 n (eo_x o) = 1%R /\ direction n (eo_x o) z /\ (lam <> oshift e)%R /\
    lam = (inner n (image n A (eo_x o)) (image n B (eo_x o)) / inner n (image n B (eo_x o)) (image n B (eo_x o)))%R /\
    norm2 n (gen_residual n A B lam z) = (r * Rabs (lam - oshift e))%R /\ norm2 n (gen_residual n A B lam (eo_x o)) = (r * Rabs (lam - oshift e) / norm2 n z)%R /\ same_matrix n A (eo_E o).
Proof. exact gcr_final. Qed.
Print Assumptions C64_conjugate_residual.

(** ** Conjugate gradient: whatever the eigenproblem of size 3 returns, the reported eigenvalue and
    residual belong to some vector z, but the returned vector is the normalised start vector *)
Theorem C64_conjugate_gradient_values : forall small e A B x rh o, gready e rh -> egcg small e A B x rh = Ok o -> let n := ee_n e in let x0 := if ee_ones e then set_all n s1 else x in
  (exists lam r iter, reports o lam r iter /\ verdict_lt e o iter r /\ direction n (eo_x o) x0 /\ norm2 n (eo_x o) = 1%R /\ same_matrix n A (eo_E o) /\
     (solves_with e (shifted_by n A B (oshift e)) 0%R -> exists z, (lam <> oshift e)%R /\ lam = (inner n (image n A z) (image n B z) / inner n (image n B z) (image n B z))%R /\
        norm2 n (gen_residual n A B lam z) = (r * Rabs (lam - oshift e))%R /\ (iter = 1 -> forall i, 0 <= i < n -> vcomp z i = vcomp (eo_x o) i))) \/ gave_up o.
Proof. exact gcg_final. Qed.
Print Assumptions C64_conjugate_gradient_values.

(** lis_egcg never updates x: unless the start vector already is an eigenvector, the returned
    vector is not an eigenvector, whatever the status, tolerance and number of iterations *)
Theorem C64_conjugate_gradient_vector_refuted : forall small e A B x rh o, gready e rh -> egcg small e A B x rh = Ok o -> let n := ee_n e in let x0 := if ee_ones e then set_all n s1 else x in
  (forall mu, norm2 n (gen_residual n A B mu x0) <> 0%R) -> forall mu, eo_evalue o <> None -> norm2 n (gen_residual n A B mu (eo_x o)) <> 0%R.
Proof. exact gcg_vector. Qed.
Print Assumptions C64_conjugate_gradient_vector_refuted.

(** none of them leaves an array *)
Theorem C64_no_undefined_behaviour : forall e A B small x rh, gready e rh ->
  egpi e A B x rh <> UB /\ egii e A B x rh <> UB /\ egrqi e A B x rh <> UB /\ egcg small e A B x rh <> UB /\ egcr e A B x rh <> UB.
Proof. exact gno_ub. Qed.
Print Assumptions C64_no_undefined_behaviour.

Open Scope R_scope.
(** ** The documented stopping rule |lam x - B^-1 A x| <= tol |lam x| does not hold for lis_egpi:
    for every tolerance there are A and B = I, exact inner solves, and a run that returns
    LIS_SUCCESS with a residual above |lam x| / 10 *)
Ltac ev := cbv -[Rplus Rmult Ropp Rminus Rdiv Rinv sqrt Rabs Req_EM_T Rle_dec IZR cramer].
Ltac v2 := ev; apply f_equal2; [field|apply f_equal2; [field|reflexivity]].
Definition idB : list (entry R) := [(0%Z, 0%Z, 1); (1%Z, 1%Z, 1)].
Definition stA (s : R) : list (entry R) := [(0%Z, 0%Z, 41 * (s * s)); (1%Z, 1%Z, 82 * (s * s))].
Definition ste (s : R) : eenv R := mkEE 2%Z 1%Z (/ s) 0 0 false true cramer (fun _ r => r).
Lemma cramer_solves e P : ee_n e = 2%Z -> ee_solve e = cramer -> solves_with e P 0.
Proof.
  intros En Es k E' w y _ Hs. rewrite Rmult_0_l. rewrite En. rewrite Es in Hs. unfold cramer in Hs.
  destruct (seqb _ _) eqn:Ed; [discriminate|]. injection Hs as <-.
  assert (D : coef E' 0 0 * coef E' 1 1 - coef E' 0 1 * coef E' 1 0 <> 0) by (intros X; apply ScalarR_eqb in X; cbn in X, Ed; congruence).
  rewrite norm2_2. unfold residual. change (zrange 0 2) with [0; 1]%Z. cbn [map]. rewrite !mv2.
  match goal with |- sqrt (?a * ?a + (?b * ?b + 0)) <= 0 => assert (a = 0) as -> by (cbv -[Rplus Rmult Ropp Rminus Rdiv Rinv coef IZR]; field; auto); assert (b = 0) as -> by (cbv -[Rplus Rmult Ropp Rminus Rdiv Rinv coef IZR]; field; auto) end.
  replace (0 * 0 + (0 * 0 + 0)) with 0 by ring. rewrite sqrt_0. lra.
Qed.
Lemma shift0 n (e : eenv R) A B : ee_shift e = 0 -> ee_ishift e = 0 -> oshift e = 0 /\ do_gshift n 0 A B = A /\ undo_gshift n 0 A B = A.
Proof. intros H1 H2. unfold oshift, do_gshift, undo_gshift. rewrite H1, H2. cbn. destruct (Req_EM_T 0 0); [|congruence]. auto. Qed.
Lemma st_run s : 0 < s -> exists o, egpi (ste s) (stA s) idB [3; 4] exrh = Ok o /\ eo_ret o = LIS_SUCCESS /\ eo_evalue o = Some (73 * (s * s)) /\ eo_x o = [3 / sqrt 73; 8 / sqrt 73].
Proof.
  intros Hs. unfold egpi. destruct (shift0 2 (ste s) (stA s) idB eq_refl eq_refl) as (S1 & S2 & S3). rewrite S1. cbn [ee_n ee_ones ee_maxiter ste]. rewrite S2.
  change (Z.to_nat 1) with 1%nat. cbn [eiterate bind]. unfold egpi_body. cbn [ee_n ste]. rewrite ex_norm. cbn [bind].
  match goal with |- context [matvec 2 ?E ?v] => assert (X : matvec 2 E v = [123 * (s * s) / 5; 328 * (s * s) / 5]) by v2; rewrite X; clear X end.
  match goal with |- context [dot 2 ?u ?v] => assert (X : dot 2 u v = 41 * s / 5 * (41 * s / 5)) by (ev; field); rewrite X; clear X end.
  unfold sqrtz. assert (P : 0 <= 41 * s / 5 * (41 * s / 5)) by nra. cbn [sleb s0 ssqrt ScalarR]. destruct (Rle_dec 0 _) as [_|N]; [|exfalso; apply N; exact P]. cbn [bind]. rewrite sqrt_square by lra.
  rewrite divz_R by lra. cbn [bind s1 ScalarR].
  match goal with |- context [scale 2 ?c [3/5; 4/5]] => assert (X : scale 2 c [3/5; 4/5] = [3 / (41 * s); 4 / (41 * s)]) by (v2; lra); rewrite X; clear X end.
  match goal with |- context [scale 2 ?c [123 * (s * s) / 5; 328 * (s * s) / 5]] => assert (X : scale 2 c [123 * (s * s) / 5; 328 * (s * s) / 5] = [3 * s; 8 * s]) by (v2; lra); rewrite X; clear X end.
  cbn [ee_solve ste]. assert (X : cramer 1 idB [3 * s; 8 * s] = (0%Z, [3 * s; 8 * s])).
  { unfold cramer. ev. destruct (Req_EM_T _ _) as [H|H]; [exfalso; lra|]. apply f_equal; v2. }
  change (0 + 1)%Z with 1%Z. rewrite X; clear X. cbn [Z.eqb negb].
  match goal with |- context [dot 2 ?u ?v] => assert (X : dot 2 u v = 73 * (s * s)) by (ev; field); rewrite X; clear X end.
  assert (Hss : 0 < s * s) by nra. match goal with |- context [nrm2 2 ?u] => assert (X : nrm2 2 u = s / 41 * sqrt 10512) end.
  { ev. match goal with |- sqrt ?a = _ => replace a with (s / 41 * (s / 41) * 10512) by (field; lra) end. rewrite sqrt_mult by nra. rewrite sqrt_square by lra. reflexivity. }
  rewrite X; clear X. cbn [sabs ScalarR]. rewrite (Rabs_pos_eq (73 * (s * s))) by nra. rewrite divz_R by nra. cbn [bind]. unfold history. cbn [ee_mem ste].
  rewrite wr_ok by (vm_compute; split; [discriminate|reflexivity]). cbn [bind].
  assert (L : s / 41 * sqrt 10512 / (73 * (s * s)) <= / s).
  { assert (Q : sqrt 10512 <= 104) by (apply Rsqr_incr_0_var; [rewrite Rsqr_sqrt by lra; unfold Rsqr; lra|lra]).
    replace (s / 41 * sqrt 10512 / (73 * (s * s))) with (sqrt 10512 / 2993 * / s) by (field; lra). pose proof (Rinv_0_lt_compat s Hs). nra. }
  cbn [sleb ScalarR ee_tol ste]. destruct (Rle_dec _ (/ s)) as [_|N]; [|exfalso; apply N; exact L]. cbn [bind get].
  assert (N73 : sqrt 73 <> 0) by (apply sqrt_nz; lra).
  assert (X : normalize 2 (copy 2 [3 * s; 8 * s]) = Ok [3 / sqrt 73; 8 / sqrt 73]).
  { unfold normalize. assert (Y : nrm2 2 (copy 2 [3 * s; 8 * s]) = s * sqrt 73).
    { ev. match goal with |- sqrt ?a = _ => replace a with (s * s * 73) by (field; lra) end. rewrite sqrt_mult by nra. rewrite sqrt_square by lra. reflexivity. }
    rewrite Y, divz_R by (apply Rmult_integral_contrapositive; split; lra). ev. apply f_equal. apply f_equal2; [field; split; auto; lra|apply f_equal2; [field; split; auto; lra|reflexivity]]. }
  rewrite X. cbn [bind]. eexists. split; [reflexivity|]. cbn [eo_ret eo_evalue eo_x]. split; [reflexivity|]. split; [|reflexivity]. cbn [sadd ScalarR]. f_equal. ring.
Qed.
Theorem C64_stopping_rule_refuted : forall tol, 0 < tol -> exists e A B x rh o lam, ee_tol e = tol /\ gready e rh /\ solves_with e (eq B) 0 /\
  (forall i j, (0 <= i < ee_n e)%Z -> (0 <= j < ee_n e)%Z -> coef B i j = if (i =? j)%Z then 1 else 0) /\
  egpi e A B x rh = Ok o /\ eo_ret o = LIS_SUCCESS /\ eo_evalue o = Some lam /\
  norm2 (ee_n e) (gen_residual (ee_n e) A B lam (eo_x o)) > 1 / 10 * (Rabs lam * norm2 (ee_n e) (eo_x o)).
Proof.
  intros tol Ht. pose proof (Rinv_0_lt_compat tol Ht) as Hs. destruct (st_run (/ tol) Hs) as (o & R1 & R2 & R3 & R4). set (s := / tol) in *.
  exists (ste s), (stA s), idB, [3; 4], exrh, o, (73 * (s * s)). split; [cbn [ee_tol ste]; unfold s; apply Rinv_inv|]. split; [split; [cbn; lia|reflexivity]|]. split; [apply cramer_solves; reflexivity|].
  split. { cbn [ee_n ste]. intros i j Hi Hj. assert (i = 0 \/ i = 1)%Z as [-> | ->] by lia; assert (j = 0 \/ j = 1)%Z as [-> | ->] by lia; cbv -[IZR Rplus]; ring. }
  split; [exact R1|]. split; [exact R2|]. split; [exact R3|]. rewrite R4. cbn [ee_n ste]. clear R1 R2 R3 R4. clearbody s. assert (P : 0 < s * s) by nra. assert (Q0 : 0 < sqrt 73) by (apply sqrt_lt_R0; lra). pose proof (sqrt_sqrt 73 ltac:(lra)) as Q2.
  assert (U : norm2 2 [3 / sqrt 73; 8 / sqrt 73] = 1).
  { rewrite norm2_2. cbv -[Rplus Rmult Rdiv sqrt IZR]. match goal with |- sqrt ?a = _ => replace a with (73 / (sqrt 73 * sqrt 73)) by (field; lra) end. rewrite Q2. replace (73 / 73) with 1 by field. apply sqrt_1. }
  rewrite U, Rabs_pos_eq by nra.
  assert (V : norm2 2 (gen_residual 2 (stA s) idB (73 * (s * s)) [3 / sqrt 73; 8 / sqrt 73]) = 120 * (s * s) / sqrt 73).
  { unfold gen_residual. change (zrange 0 2) with [0; 1]%Z. cbn [map]. rewrite !mv2, norm2_2. cbv -[Rplus Rmult Rdiv Ropp Rminus sqrt IZR].
    match goal with |- sqrt ?a = _ => replace a with (120 * (s * s) / sqrt 73 * (120 * (s * s) / sqrt 73)) by (field; lra) end. apply sqrt_square. apply Rlt_le, Rdiv_lt_0_compat; nra. }
  rewrite V. apply Rlt_gt. apply Rmult_lt_reg_r with (sqrt 73); [exact Q0|]. replace (120 * (s * s) / sqrt 73 * sqrt 73) with (120 * (s * s)) by (field; lra).
  assert (sqrt 73 < 9) by (apply Rsqr_incrst_0; [rewrite Rsqr_sqrt by lra; unfold Rsqr; lra|lra|lra]). nra.
Qed.
Print Assumptions C64_stopping_rule_refuted.

(** ** Runs that meet the hypotheses: A = diag(2,3) and a B that is not the identity *)
Definition ge0 : eenv R := mkEE 2%Z 1%Z (1/100) 0 0 false true cramer (fun _ r => r).
Definition exB : list (entry R) := [(0%Z, 0%Z, 16); (1%Z, 1%Z, 91)].
Definition exB4 : list (entry R) := [(0%Z, 0%Z, 4); (1%Z, 1%Z, 4)].
Example ge0_ready : gready ge0 exrh.
Proof. split; [cbn; lia|reflexivity]. Qed.
Example ge0_exact : forall P, solves_with ge0 P 0.
Proof. intros P. apply cramer_solves; reflexivity. Qed.
(** a diagonal matrix meets the conditions on C and B *)
Lemma diag_sym a d : symmetric 2 [(0%Z, 0%Z, a); (1%Z, 1%Z, d)].
Proof. intros i j Hi Hj. assert (i = 0 \/ i = 1)%Z as [-> | ->] by lia; assert (j = 0 \/ j = 1)%Z as [-> | ->] by lia; reflexivity. Qed.
Lemma diag_pos a d : 0 <= a -> 0 <= d -> nonnegative 2 [(0%Z, 0%Z, a); (1%Z, 1%Z, d)].
Proof.
  intros Ha Hd u. match goal with |- 0 <= ?g => assert (X : g = a * (vcomp u 0 * vcomp u 0) + d * (vcomp u 1 * vcomp u 1)) by (cbv -[Rplus Rmult IZR]; ring); rewrite X end.
  pose proof (Rle_0_sqr (vcomp u 0)). pose proof (Rle_0_sqr (vcomp u 1)). unfold Rsqr in *. nra.
Qed.
Lemma diag_bound a d K : 0 <= a <= K -> 0 <= d <= K -> bounded_by 2 [(0%Z, 0%Z, a); (1%Z, 1%Z, d)] K.
Proof.
  intros Ha Hd u. rewrite !norm2_2. unfold image. change (zrange 0 2) with [0; 1]%Z. cbn [map]. rewrite !mv2.
  replace (K * sqrt (vcomp u 0 * vcomp u 0 + (vcomp u 1 * vcomp u 1 + 0))) with (sqrt (K * K * (vcomp u 0 * vcomp u 0 + (vcomp u 1 * vcomp u 1 + 0)))).
  - apply sqrt_le_1_alt. pose proof (Rle_0_sqr (vcomp u 0)). pose proof (Rle_0_sqr (vcomp u 1)). unfold Rsqr in *. assert (a * a <= K * K) by nra. assert (d * d <= K * K) by nra.
    match goal with |- ?l <= _ => assert (X : l = a * a * (vcomp u 0 * vcomp u 0) + d * d * (vcomp u 1 * vcomp u 1)) by (cbv -[Rplus Rmult IZR]; ring); rewrite X end. nra.
  - rewrite sqrt_mult by (pose proof (Rle_0_sqr (vcomp u 0)); pose proof (Rle_0_sqr (vcomp u 1)); unfold Rsqr in *; nra). rewrite sqrt_square by lra. reflexivity.
Qed.
Example st_meets : symmetric 2 (stA 1) /\ nonnegative 2 (stA 1) /\ bounded_by 2 (stA 1) 82 /\ shifted_by 2 (stA 1) idB (oshift (ste 1)) (stA 1) /\
  exists o, egpi (ste 1) (stA 1) idB [3; 4] exrh = Ok o /\ eo_evalue o = Some (73 * (1 * 1)).
Proof.
  split; [apply diag_sym|]. split; [apply diag_pos; lra|]. split; [apply diag_bound; lra|]. split.
  - intros i j Hi Hj. rewrite (proj1 (shift0 2 (ste 1) (stA 1) idB eq_refl eq_refl)). ring.
  - destruct (st_run 1 ltac:(lra)) as (o & R1 & _ & R3 & _). eauto.
Qed.
Lemma norm_ok (a b : R) : 0 < a * a + b * b -> exists v, normalize 2 [a; b] = Ok v.
Proof. intros H. unfold normalize. rewrite divz_R; [eexists; reflexivity|]. ev. apply sqrt_nz. lra. Qed.
Example ex_gii : symmetric 2 exB /\ nonnegative 2 exB /\ bounded_by 2 exB 91 /\ exists o lam, egii ge0 exE exB [3; 4] exrh = Ok o /\ eo_evalue o = Some lam.
Proof.
  split; [apply diag_sym|]. split; [apply diag_pos; lra|]. split; [apply diag_bound; lra|].
  unfold egii. destruct (shift0 2 ge0 exE exB eq_refl eq_refl) as (S1 & S2 & S3). rewrite S1. cbn [ee_n ee_ones ee_maxiter ge0]. rewrite S2.
  change (Z.to_nat 1) with 1%nat. cbn [eiterate bind]. unfold egii_body. cbn [ee_n ge0]. rewrite ex_norm. cbn [bind].
  match goal with |- context [matvec 2 ?E ?v] => assert (X : matvec 2 E v = [48/5; 364/5]) by v2; rewrite X; clear X end.
  match goal with |- context [dot 2 ?u ?v] => assert (X : dot 2 u v = 8 * 8) by (ev; field); rewrite X; clear X end.
  unfold sqrtz. cbn [sleb s0 ssqrt ScalarR]. destruct (Rle_dec 0 _) as [_|N]; [|exfalso; lra]. cbn [bind]. rewrite sqrt_square by lra. rewrite divz_R by lra. cbn [bind s1 ScalarR].
  match goal with |- context [scale 2 ?c [3/5; 4/5]] => assert (X : scale 2 c [3/5; 4/5] = [3/40; 1/10]) by v2; rewrite X; clear X end.
  match goal with |- context [scale 2 ?c [48/5; 364/5]] => assert (X : scale 2 c [48/5; 364/5] = [6/5; 91/10]) by v2; rewrite X; clear X end.
  cbn [ee_solve ge0]. change (0 + 1)%Z with 1%Z. assert (X : cramer 1 exE [6/5; 91/10] = (0%Z, [3/5; 91/30])).
  { unfold cramer. ev. destruct (Req_EM_T _ _) as [H|H]; [exfalso; lra|]. apply f_equal; v2. }
  rewrite X; clear X. cbn [Z.eqb negb].
  match goal with |- context [dot 2 ?u ?v] => assert (X : dot 2 u v = 8497/300) by (ev; field); rewrite X; clear X end.
  rewrite divz_R by (cbn; apply Rabs_no_R0; lra). cbn [bind]. unfold history. cbn [ee_mem ge0]. rewrite wr_ok by (vm_compute; split; [discriminate|reflexivity]). cbn [bind].
  assert (X : copy 2 [3/5; 91/30] = [3/5; 91/30]) by reflexivity. rewrite X; clear X. destruct (norm_ok (3/5) (91/30) ltac:(lra)) as [v Ev].
  destruct (Rle_dec _ _); cbn [bind get]; rewrite divz_R by lra; cbn [bind]; rewrite Ev; do 2 eexists; split; reflexivity.
Qed.
Example ex_grqi : symmetric 2 exB4 /\ nonnegative 2 exB4 /\ bounded_by 2 exB4 4 /\ exists o lam, egrqi ge0 exE exB4 [3; 4] exrh = Ok o /\ eo_evalue o = Some lam.
Proof.
  split; [apply diag_sym|]. split; [apply diag_pos; lra|]. split; [apply diag_bound; lra|].
  unfold egrqi. cbn [ee_n ee_ones ee_maxiter ge0]. rewrite ex_norm. cbn [bind].
  assert (X : matvec 2 exB4 [3/5; 4/5] = [12/5; 16/5]) by v2; rewrite X; clear X.
  assert (X : matvec 2 exE [3/5; 4/5] = [6/5; 12/5]) by v2; rewrite X; clear X.
  assert (X : dot 2 [12/5; 16/5] [6/5; 12/5] = 264/25) by (ev; field); rewrite X; clear X.
  assert (X : dot 2 [12/5; 16/5] [12/5; 16/5] = 16) by (ev; field); rewrite X; clear X.
  rewrite divz_R by lra. cbn [bind]. change (Z.to_nat 1) with 1%nat. cbn [eiterate bind]. unfold egrqi_body. cbn [ee_n ee_solve ge0 g_v g_w g_E g_rho g_resid g_rh].
  change (0 + 1)%Z with 1%Z. match goal with |- context [cramer ?k ?E ?v] => assert (X : cramer k E v = (0%Z, [-15/4; 80/9])) end.
  { unfold cramer. ev. destruct (Req_EM_T _ _) as [H|H]; [exfalso; lra|]. apply f_equal; v2; lra. }
  rewrite X; clear X. cbn [Z.eqb negb].
  assert (X : dot 2 [12/5; 16/5] [-15/4; 80/9] = 175/9) by (ev; field); rewrite X; clear X.
  assert (X : matvec 2 exB4 [-15/4; 80/9] = [-15; 320/9]) by v2; rewrite X; clear X.
  assert (X : dot 2 [-15; 320/9] [-15/4; 80/9] = 120625/324) by (ev; field); rewrite X; clear X.
  unfold sqrtz. cbn [sleb s0 ssqrt ScalarR]. destruct (Rle_dec 0 _) as [_|N]; [|exfalso; lra]. cbn [bind].
  assert (Q : sqrt (120625/324) <> 0) by (apply sqrt_nz; lra). rewrite divz_R by exact Q. cbn [bind]. rewrite divz_R by (cbn; apply Rmult_integral_contrapositive; auto). cbn [bind]. rewrite divz_R by (cbn; apply Rabs_no_R0; lra). cbn [bind].
  unfold history. cbn [ee_mem ge0]. rewrite wr_ok by (vm_compute; split; [discriminate|reflexivity]). cbn [bind].
  cbn [s1 ScalarR]. set (c := 1 / sqrt (120625/324)). assert (Hc : 0 < c) by (apply Rdiv_lt_0_compat; [lra|apply sqrt_lt_R0; lra]). clearbody c.
  assert (X : copy 2 (scale 2 c [-15/4; 80/9]) = [c * (-15/4); c * (80/9)]) by reflexivity. rewrite X; clear X. destruct (norm_ok (c * (-15/4)) (c * (80/9)) ltac:(nra)) as [v Ev].
  destruct (Rle_dec _ _); cbn [bind get g_resid g_v]; rewrite Ev; do 2 eexists; split; reflexivity.
Qed.
(** lis_egcg with a loose tolerance: LIS_SUCCESS, x = (3/5,4/5), not an eigenvector *)
Definition ge1 : eenv R := mkEE 2%Z 1%Z 10 0 0 false true cramer (fun _ r => r).
Example ex_gcg : (forall mu, norm2 2 (gen_residual 2 exE exB4 mu [3; 4]) <> 0) /\ exists o lam, egcg (fun _ _ => (0, 0, 0)) ge1 exE exB4 [3; 4] exrh = Ok o /\ eo_ret o = LIS_SUCCESS /\ eo_evalue o = Some lam.
Proof.
  split.
  - intros mu X. rewrite norm2_2 in X. unfold gen_residual in X. change (zrange 0 2) with [0; 1]%Z in X. cbn [map] in X. rewrite !mv2 in X. apply sqrt_eq_0 in X; [|nra].
    cbv -[Rplus Rmult Ropp Rminus IZR] in X.
    assert (Y : (6 - 12 * mu) * (6 - 12 * mu) + (12 - 16 * mu) * (12 - 16 * mu) = 0) by (rewrite <- X; ring). pose proof (Rle_0_sqr (20 * mu - 66/5)) as Z0. unfold Rsqr in Z0. lra.
  - unfold egcg. destruct (shift0 2 ge1 exE exB4 eq_refl eq_refl) as (S1 & S2 & S3). rewrite S1. cbn [ee_n ee_ones ee_maxiter ge1]. rewrite S2. rewrite ex_norm. cbn [bind ee_solve ge1].
    assert (X : cramer 0 exE [3/5; 4/5] = (0%Z, [3/10; 4/15])).
    { unfold cramer. ev. destruct (Req_EM_T _ _) as [H|H]; [exfalso; lra|]. apply f_equal; v2. }
    rewrite X; clear X. cbn [Z.eqb negb]. change (Z.to_nat 1) with 1%nat. cbn [eiterate bind]. unfold egcg_body. cbn [ee_n ge1 gc_x gc_p gc_Ax gc_Ap gc_Bx gc_Bp gc_rh].
    assert (X : matvec 2 exB4 [3/5; 4/5] = [12/5; 16/5]) by v2; rewrite X; clear X.
    assert (X : matvec 2 exE [3/5; 4/5] = [6/5; 12/5]) by v2; rewrite X; clear X.
    assert (X : dot 2 [6/5; 12/5] [12/5; 16/5] = 264/25) by (ev; field); rewrite X; clear X.
    assert (X : dot 2 [12/5; 16/5] [12/5; 16/5] = 16) by (ev; field); rewrite X; clear X.
    rewrite divz_R by lra. cbn [bind]. rewrite divz_R by lra. cbn [bind]. change (0 + 1)%Z with 1%Z. unfold history. cbn [ee_mem ge1].
    rewrite wr_ok by (vm_compute; split; [discriminate|reflexivity]). cbn [bind].
    match goal with |- context [nrm2 2 ?u] => assert (X : nrm2 2 u < 10); [|set (q := nrm2 2 u) in *; clearbody q] end.
    { ev. match goal with |- sqrt ?a < _ => assert (Y : a < 10 * 10) by lra; assert (Z0 : 0 <= a) by lra end. apply Rsqr_incrst_0; [rewrite Rsqr_sqrt by exact Z0; unfold Rsqr; lra|apply sqrt_pos|lra]. }
    cbn [sleb ScalarR ee_tol ge1]. destruct (Rle_dec 10 q) as [N|_]; [exfalso; lra|]. cbn [negb bind get gc_resid gc_lambda]. do 2 eexists. repeat split; reflexivity.
Qed.
(** lis_egcr: one step from (3,4) *)
Example ex_gcr : exists o lam, egcr ge0 exE exB4 [3; 4] exrh = Ok o /\ eo_evalue o = Some lam.
Proof.
  unfold egcr. destruct (shift0 2 ge0 exE exB4 eq_refl eq_refl) as (S1 & S2 & S3). rewrite S1. cbn [ee_n ee_ones ee_maxiter ge0]. rewrite S2. rewrite ex_norm. cbn [bind].
  assert (X : matvec 2 exB4 [3/5; 4/5] = [12/5; 16/5]) by v2; rewrite X; clear X.
  assert (X : matvec 2 exE [3/5; 4/5] = [6/5; 12/5]) by v2; rewrite X; clear X.
  assert (X : dot 2 [6/5; 12/5] [12/5; 16/5] = 264/25) by (ev; field); rewrite X; clear X.
  assert (X : dot 2 [12/5; 16/5] [12/5; 16/5] = 16) by (ev; field); rewrite X; clear X.
  rewrite divz_R by lra. cbn [bind]. change (Z.to_nat 1) with 1%nat. cbn [eiterate bind]. unfold egcr_body. cbn [ee_n ee_psolve ge0 gd_x gd_p gd_r gd_Ap gd_Bp gd_lambda gd_rh].
  match goal with |- context [scale 2 (- (1)) (axpyz 2 ?m ?u ?v)] => idtac | |- context [scale 2 (sopp s1) (axpyz 2 ?m ?u ?v)] => assert (X : scale 2 (sopp s1) (axpyz 2 m u v) = [48/125; -36/125]) by v2; rewrite X; clear X end.
  assert (X : copy 2 [48/125; -36/125] = [48/125; -36/125]) by reflexivity. rewrite X; clear X.
  assert (X : matvec 2 exE [48/125; -36/125] = [96/125; -108/125]) by v2; rewrite X; clear X.
  assert (X : matvec 2 exB4 [48/125; -36/125] = [192/125; -144/125]) by v2; rewrite X; clear X.
  match goal with |- context [divz ?a ?b] => assert (X : b <> 0) by (ev; lra); rewrite (divz_R a b X); clear X; assert (X : a / b = -175/193); [ev; field|rewrite X; clear X] end.
  cbn [bind]. match goal with |- context [axpy 2 ?c ?u ?v] => assert (X : axpy 2 c u v = [243/965; 1024/965]) by v2; rewrite X; clear X end.
  assert (X : matvec 2 exB4 [243/965; 1024/965] = [972/965; 4096/965]) by v2; rewrite X; clear X.
  assert (X : matvec 2 exE [243/965; 1024/965] = [486/965; 3072/965]) by v2; rewrite X; clear X.
  match goal with |- context [divz ?a ?b] => assert (X : b <> 0) by (ev; lra); rewrite (divz_R a b X); clear X; assert (X : a / b = 1631913/2215250); [ev; field|rewrite X; clear X] end.
  cbn [bind]. match goal with |- context [divz (sopp ?a) ?b] => assert (X : b <> 0) by (ev; lra); rewrite (divz_R (sopp a) b X); clear X end.
  cbn [bind]. rewrite divz_R by (cbn; apply Rabs_no_R0; lra). cbn [bind]. change (0 + 1)%Z with 1%Z. unfold history. cbn [ee_mem ge0]. rewrite wr_ok by (vm_compute; split; [discriminate|reflexivity]). cbn [bind].
  destruct (norm_ok (243/965) (1024/965) ltac:(lra)) as [v Ev].
  destruct (negb _); cbn [bind get gd_resid gd_x gd_lambda]; rewrite Ev; do 2 eexists; split; reflexivity.
Qed.
