(** C47: eigensolvers lis_epi, lis_eii, lis_erqi, lis_ecg, lis_ecr, lis_esolve (exact real
    arithmetic).  [ready]: at least one iteration allowed, a residual history of the size
    lis_esolve allocates, no position stored twice, and every diagonal entry stored when a
    shift is used. *)
Require Import ZArith List Bool Lia Reals Lra QArith Qcanon.
From Verif Require Import Base Scalar ScalarReal Spec SpecSolver SpecDiag SpecEsolver Krylov Esolver EsolverTerms EsolverFinal.
Import ListNotations.
Open Scope Z_scope.

(** ** Power iteration.  The reported eigenvalue is the Rayleigh quotient of a unit vector v,
    the reported residual is ||A v - lam v|| / |lam - sigma|, SUCCESS iff it is within the
    tolerance; the returned vector is (A - sigma) v normalised, A is as before *)
Theorem C47_power_iteration : forall e E x rh o, ready e E rh -> epi e E x rh = Ok o -> let n := ee_n e in let sigma := oshift e in
  exists v lam r iter z, norm2 n v = 1%R /\ lam = rayleigh n E v /\ (lam <> sigma)%R /\
    r = (norm2 n (eig_residual n E lam v) / Rabs (lam - sigma))%R /\
    eo_evalue o = Some lam /\ eo_resid o = Some r /\ eo_iter o = Some iter /\ 1 <= iter <= ee_maxiter e /\
    ((eo_ret o = LIS_SUCCESS /\ (r <= ee_tol e)%R) \/ (eo_ret o = LIS_MAXITER /\ iter = ee_maxiter e /\ (ee_tol e < r)%R)) /\
    norm2 n (eo_x o) = 1%R /\ direction n (eo_x o) z /\ (forall i, 0 <= i < n -> vcomp z i = vcomp (eig_residual n E sigma v) i) /\ eo_E o = E.
Proof. exact pi_final. Qed.
Print Assumptions C47_power_iteration.

(** the returned pair itself: its residual is at most K times the reported one, where K bounds
    the norm of A - sigma I *)
Theorem C47_power_iteration_vector : forall e E x rh o K, ready e E rh -> epi e E x rh = Ok o ->
  (forall u, (norm2 (ee_n e) (eig_residual (ee_n e) E (oshift e) u) <= K * norm2 (ee_n e) u)%R) ->
  exists lam r, eo_evalue o = Some lam /\ eo_resid o = Some r /\ (norm2 (ee_n e) (eig_residual (ee_n e) E lam (eo_x o)) <= K * r)%R.
Proof. exact pi_vector. Qed.
Print Assumptions C47_power_iteration_vector.

(** ** Inverse iteration, inner solves with relative residual at most delta *)
Theorem C47_inverse_iteration : forall e E x rh delta o, ready e E rh -> inner_ok e E (oshift e) delta -> eii e E x rh = Ok o -> let n := ee_n e in
  (exists lam r iter, eo_evalue o = Some lam /\ eo_resid o = Some r /\ eo_iter o = Some iter /\ 1 <= iter <= ee_maxiter e /\
    ((eo_ret o = LIS_SUCCESS /\ (r <= ee_tol e)%R) \/ (eo_ret o = LIS_MAXITER /\ iter = ee_maxiter e /\ (ee_tol e < r)%R)) /\
    norm2 n (eo_x o) = 1%R /\ (norm2 n (eig_residual n E lam (eo_x o)) <= (r + delta) * Rabs (lam - oshift e))%R /\ eo_E o = E) \/
  (eo_ret o <> LIS_SUCCESS /\ eo_evalue o = None).
Proof. exact ii_final. Qed.
Print Assumptions C47_inverse_iteration.

(** ** Rayleigh quotient iteration *)
Theorem C47_rayleigh_iteration : forall e E x rh delta o, ready e E rh -> full_diagonal (ee_n e) E -> (forall rho, inner_ok e E rho delta) -> erqi e E x rh = Ok o -> let n := ee_n e in
  (exists lam r iter, eo_evalue o = Some lam /\ eo_resid o = Some r /\ eo_iter o = Some iter /\ 1 <= iter <= ee_maxiter e /\
    ((eo_ret o = LIS_SUCCESS /\ (r <= ee_tol e)%R) \/ (eo_ret o = LIS_MAXITER /\ iter = ee_maxiter e /\ (ee_tol e < r)%R)) /\
    norm2 n (eo_x o) = 1%R /\ eo_E o = E /\
    exists rho v y E', rqi_from e E lam r (eo_x o) rho v y E' /\ (norm2 n (eig_residual n E lam (eo_x o)) <= (r + delta * (1 + r)) * Rabs (lam - rho))%R) \/
  (eo_ret o <> LIS_SUCCESS /\ eo_evalue o = None).
Proof. exact rqi_final. Qed.
Print Assumptions C47_rayleigh_iteration.

(** exact inner solves: the eigenvalue is the Rayleigh quotient of the returned vector and the
    residual of the pair is at most 2 K times the reported one, K bounding the norm of A *)
Theorem C47_rayleigh_iteration_exact : forall e E x rh K o, ready e E rh -> full_diagonal (ee_n e) E -> (forall rho, inner_ok e E rho 0%R) ->
  (forall u, (norm2 (ee_n e) (image (ee_n e) E u) <= K * norm2 (ee_n e) u)%R) -> erqi e E x rh = Ok o -> let n := ee_n e in
  (exists lam r, eo_evalue o = Some lam /\ eo_resid o = Some r /\ norm2 n (eo_x o) = 1%R /\ lam = rayleigh n E (eo_x o) /\ (norm2 n (eig_residual n E lam (eo_x o)) <= 2 * K * r)%R) \/
  (eo_ret o <> LIS_SUCCESS /\ eo_evalue o = None).
Proof. exact rqi_exact. Qed.
Print Assumptions C47_rayleigh_iteration_exact.

(** ** Conjugate gradient, when the first inner solve is exact: the reported residual is that
    of the returned pair, relative to |lam - sigma| *)
Theorem C47_conjugate_gradient : forall small e E x rh o, ready e E rh -> inner_ok e E (oshift e) 0%R -> ecg small e E x rh = Ok o -> let n := ee_n e in
  (exists lam r iter, eo_evalue o = Some lam /\ eo_resid o = Some r /\ eo_iter o = Some iter /\ 1 <= iter <= ee_maxiter e /\ norm2 n (eo_x o) = 1%R /\
    ((eo_ret o = LIS_SUCCESS /\ (r < ee_tol e)%R /\ lam = rayleigh n E (eo_x o) /\ norm2 n (eig_residual n E lam (eo_x o)) = (r * Rabs (lam - oshift e))%R) \/
     (eo_ret o = LIS_MAXITER /\ iter = ee_maxiter e /\ (ee_tol e <= r)%R)) /\
    eo_E o = E) \/
  (eo_ret o <> LIS_SUCCESS /\ eo_evalue o = None).
Proof. exact cg_final. Qed.
Print Assumptions C47_conjugate_gradient.

(** ** Conjugate residual: the reported residual is that of the iterate z before it is
    normalised; the returned pair has the reported residual divided by ||z|| *)
Theorem C47_conjugate_residual : forall e E x rh o, ready e E rh -> ecr e E x rh = Ok o -> let n := ee_n e in
  exists lam r iter z, eo_evalue o = Some lam /\ eo_resid o = Some r /\ eo_iter o = Some iter /\ 1 <= iter <= ee_maxiter e /\ norm2 n (eo_x o) = 1%R /\
    ((eo_ret o = LIS_SUCCESS /\ (r < ee_tol e)%R) \/ (eo_ret o = LIS_MAXITER /\ iter = ee_maxiter e /\ (ee_tol e <= r)%R)) /\
    lam = rayleigh n E (eo_x o) /\ (lam <> oshift e)%R /\ direction n (eo_x o) z /\
    r = (norm2 n (eig_residual n E lam z) / Rabs (lam - oshift e))%R /\
    norm2 n (eig_residual n E lam (eo_x o)) = (r * Rabs (lam - oshift e) / norm2 n z)%R /\ eo_E o = E.
Proof. exact cr_final. Qed.
Print Assumptions C47_conjugate_residual.

(** ** with at least one iteration allowed nothing is read before it is written and the residual
    history is never overrun, whatever the inner solver, preconditioner and small solver return *)
Theorem C47_no_undefined_behaviour : forall e E small x rh, ready e E rh ->
  epi e E x rh <> UB /\ eii e E x rh <> UB /\ ecg small e E x rh <> UB /\ ecr e E x rh <> UB /\ erqi e E x rh <> UB.
Proof. exact no_ub. Qed.
Print Assumptions C47_no_undefined_behaviour.

(** ** a case: diag(2,3), started at (3,4)/5, exact 2 x 2 solver *)
Section Ex.
Open Scope R_scope.
Definition cramer (k : Z) (E : list (entry R)) (v : list R) : Z * list R :=
  let a := coef E 0 0 in let b := coef E 0 1 in let c := coef E 1 0 in let d := coef E 1 1 in
  let det := a * d - b * c in
  if seqb det 0 then (1%Z, v) else (0%Z, [(d * vcomp v 0 - b * vcomp v 1) / det; (a * vcomp v 1 - c * vcomp v 0) / det]).
Definition exE : list (entry R) := [(0%Z, 0%Z, 2); (1%Z, 1%Z, 3)].
Definition exe : eenv R := mkEE 2%Z 1%Z (1/100) 1 0 false true cramer (fun _ r => r).
Definition exrh : list R := [1; 0; 0].
Example exE_ready : ready exe exE exrh.
Proof.
  split; [cbn; lia|]. split; [reflexivity|]. split.
  - constructor; [cbn; intros [H|[]]; congruence|constructor; [intros []|constructor]].
  - right. intros i Hi. cbn [ee_n exe] in Hi. assert (i = 0 \/ i = 1)%Z as [-> | ->] by lia; reflexivity.
Qed.
Lemma mv2 (E : list (entry R)) f i : mv_spec E 2 f i = coef E i 0 * f 0%Z + (coef E i 1 * f 1%Z + 0).
Proof. reflexivity. Qed.
Lemma norm2_2 (v : list R) : norm2 2 v = sqrt (vcomp v 0 * vcomp v 0 + (vcomp v 1 * vcomp v 1 + 0)).
Proof. reflexivity. Qed.
Example cramer_exact : forall sg, inner_ok exe exE sg 0.
Proof.
  intros sg k E' v y _ Hs. rewrite Rmult_0_l. change (ee_n exe) with 2%Z. cbn [ee_solve exe] in Hs. unfold cramer in Hs.
  destruct (seqb _ _) eqn:Ed; [discriminate|]. injection Hs as <-.
  assert (D : coef E' 0 0 * coef E' 1 1 - coef E' 0 1 * coef E' 1 0 <> 0) by (intros X; apply ScalarR_eqb in X; cbn in X, Ed; congruence).
  rewrite norm2_2. unfold residual. cbn [map zrange]. change (zrange 0 2) with [0; 1]%Z. cbn [map]. rewrite !mv2.
  match goal with |- sqrt (?a * ?a + (?b * ?b + 0)) <= 0 => assert (a = 0) as -> by (cbv -[Rplus Rmult Ropp Rminus Rdiv Rinv coef IZR]; field; auto); assert (b = 0) as -> by (cbv -[Rplus Rmult Ropp Rminus Rdiv Rinv coef IZR]; field; auto) end.
  replace (0 * 0 + (0 * 0 + 0)) with 0 by ring. rewrite sqrt_0. lra.
Qed.
Ltac ev := cbv -[Rplus Rmult Ropp Rminus Rdiv Rinv sqrt Rabs Req_EM_T Rle_dec IZR cramer].
Ltac v2 := ev; apply f_equal2; [field|apply f_equal2; [field|reflexivity]].
Lemma divz_R (a b : R) : b <> 0 -> divz a b = Ok (a / b).
Proof. intros H. unfold divz. cbn. destruct (Req_EM_T b 0); [contradiction|reflexivity]. Qed.
Example ex_norm : normalize 2 [3; 4] = Ok [3/5; 4/5].
Proof.
  unfold normalize. assert (X : nrm2 2 [3; 4] = 5) by (ev; replace (3 * 3 + (4 * 4 + 0)) with (5 * 5) by ring; apply sqrt_square; lra).
  rewrite X, divz_R by lra. ev. apply f_equal; v2.
Qed.
Lemma sqrt_nz a : 0 < a -> sqrt a <> 0.
Proof. intros H X. apply sqrt_lt_R0 in H. lra. Qed.
Example ex_shift : oshift exe = 1 /\ do_shift 1 exE = [(0%Z, 0%Z, 2 - 1); (1%Z, 1%Z, 3 - 1)].
Proof. split; unfold oshift, do_shift; cbn; [destruct (Req_EM_T 0 0); [reflexivity|congruence]|destruct (Req_EM_T 1 0); [lra|reflexivity]]. Qed.
Example ex_pi : exists o, epi exe exE [3; 4] exrh = Ok o.
Proof.
  unfold epi. destruct ex_shift as [-> ->]. cbn [ee_n ee_ones ee_maxiter exe]. change (Z.to_nat 1) with 1%nat. cbn [eiterate bind]. unfold epi_body. cbn [ee_n exe]. rewrite ex_norm. cbn [bind].
  match goal with |- context [matvec 2 ?E ?v] => assert (X : matvec 2 E v = [3/5; 8/5]) by v2; rewrite X; clear X end.
  match goal with |- context [dot 2 ?u ?v] => assert (X : dot 2 u v = 41/25) by (ev; field); rewrite X; clear X end.
  rewrite divz_R by (cbn; apply Rabs_no_R0; lra). cbn [bind]. unfold history. cbn [ee_mem exe]. change (0+1)%Z with 1%Z.
  rewrite wr_ok by (vm_compute; split; [discriminate|reflexivity]). cbn [bind].
  assert (N : forall y, normalize 2 (copy 2 [3/5; 8/5]) = y -> exists v, y = Ok v).
  { intros y <-. unfold normalize. rewrite divz_R; [eexists; reflexivity|]. ev. apply sqrt_nz. lra. }
  destruct (sleb _ _); cbn [bind get]; destruct (N _ eq_refl) as [v ->]; eexists; reflexivity.
Qed.
Example ex_ii : exists o lam, eii exe exE [3; 4] exrh = Ok o /\ eo_evalue o = Some lam.
Proof.
  unfold eii. destruct ex_shift as [-> ->]. cbn [ee_n ee_ones ee_maxiter exe]. change (Z.to_nat 1) with 1%nat. cbn [eiterate bind]. unfold eii_body. cbn [ee_n exe]. rewrite ex_norm. cbn [bind].
  cbn [ee_solve exe].
  match goal with |- context [cramer ?k ?E ?v] => assert (X : cramer k E v = (0%Z, [3/5; 2/5])) end.
  { unfold cramer. ev. destruct (Req_EM_T _ _) as [H|H]; [exfalso; lra|]. apply f_equal; v2. }
  rewrite X; clear X. cbn [Z.eqb negb].
  match goal with |- context [dot 2 ?u ?v] => assert (X : dot 2 u v = 17/25) by (ev; field); rewrite X; clear X end.
  rewrite divz_R by (cbn; apply Rabs_no_R0; lra). cbn [bind]. unfold history. cbn [ee_mem exe]. change (0+1)%Z with 1%Z.
  rewrite wr_ok by (vm_compute; split; [discriminate|reflexivity]). cbn [bind].
  assert (N : forall y, normalize 2 (copy 2 [3/5; 2/5]) = y -> exists v, y = Ok v).
  { intros y <-. unfold normalize. rewrite divz_R; [eexists; reflexivity|]. ev. apply sqrt_nz. lra. }
  destruct (sleb _ _); cbn [bind get]; rewrite divz_R by lra; cbn [bind]; destruct (N _ eq_refl) as [v ->]; do 2 eexists; split; reflexivity.
Qed.
Example ex_rqi : exists o lam, erqi exe exE [3; 4] exrh = Ok o /\ eo_evalue o = Some lam.
Proof.
  unfold erqi. cbn [ee_n ee_ones ee_maxiter exe]. rewrite ex_norm. cbn [bind]. change (Z.to_nat 1) with 1%nat.
  match goal with |- context [matvec 2 ?E ?v] => assert (X : matvec 2 E v = [6/5; 12/5]) by v2; rewrite X; clear X end.
  match goal with |- context [dot 2 ?u ?v] => assert (X : dot 2 u v = 66/25) by (ev; field); rewrite X; clear X end.
  cbn [eiterate bind]. unfold erqi_body. cbn [ee_n exe ee_solve].
  match goal with |- context [cramer ?k ?E ?v] => assert (X : cramer k E v = (0%Z, [-15/16; 20/9])) end.
  { unfold cramer. ev. destruct (Req_EM_T _ _) as [H|H]; [exfalso; lra|]. apply f_equal; v2. }
  rewrite X; clear X. cbn [Z.eqb negb].
  assert (N : nrm2 2 [-15/16; 20/9] <> 0) by (ev; apply sqrt_nz; lra).
  match goal with |- context [dot 2 ?u ?v] => assert (X : dot 2 u v = 175/144) by (ev; field); rewrite X; clear X end.
  rewrite divz_R by (cbn; apply Rmult_integral_contrapositive; auto). cbn [bind]. rewrite divz_R by (cbn; apply Rabs_no_R0; lra). cbn [bind].
  rewrite divz_R by auto. cbn [bind]. unfold history. cbn [ee_mem exe]. change (0+1)%Z with 1%Z.
  rewrite wr_ok by (vm_compute; split; [discriminate|reflexivity]). cbn [bind].
  set (c := s1 / nrm2 2 [-15/16; 20/9]). assert (Hc : c <> 0) by (unfold c; apply Rmult_integral_contrapositive; split; [cbn; lra|apply Rinv_neq_0_compat; auto]). clearbody c.
  assert (N2 : forall y, normalize 2 (copy 2 (scale 2 c [-15/16; 20/9])) = y -> exists v, y = Ok v).
  { intros y <-. unfold normalize. rewrite divz_R; [eexists; reflexivity|]. ev. apply sqrt_nz. assert (0 < c * c) by nra. match goal with |- 0 < ?a => replace a with (c * c * (120625/20736)) by field end. lra. }
  destruct (sleb _ _); cbn [bind get]; destruct (N2 _ eq_refl) as [v ->]; do 2 eexists; split; reflexivity.
Qed.
(** CG started at the eigenvector (1,0) stops at once *)
Example ex_cg : forall small, exists o lam, ecg small exe exE [1; 0] exrh = Ok o /\ eo_ret o = LIS_SUCCESS /\ eo_evalue o = Some lam.
Proof.
  intros small. unfold ecg. destruct ex_shift as [-> ->]. cbn [ee_n ee_ones ee_maxiter exe].
  assert (X : normalize 2 [1; 0] = Ok [1; 0]).
  { unfold normalize. assert (X : nrm2 2 [1; 0] = 1) by (ev; replace (1 * 1 + (0 * 0 + 0)) with (1 * 1) by ring; apply sqrt_square; lra).
    rewrite X, divz_R by lra. ev. apply f_equal; v2. }
  rewrite X; clear X. cbn [bind]. cbn [ee_solve exe].
  match goal with |- context [cramer ?k ?E ?v] => assert (X : cramer k E v = (0%Z, [1; 0])) end.
  { unfold cramer. ev. destruct (Req_EM_T _ _) as [H|H]; [exfalso; lra|]. apply f_equal; v2. }
  rewrite X; clear X. cbn [Z.eqb negb].
  match goal with |- context [matvec 2 ?E ?v] => assert (X : matvec 2 E v = [1; 0]) by v2; rewrite X; clear X end.
  change (Z.to_nat 1) with 1%nat. cbn [eiterate bind]. unfold ecg_body. cbn [ee_n exe c_x c_Ax c_p c_Ap].
  match goal with |- context [dot 2 ?u ?v] => assert (X : dot 2 u v = 1) by (ev; field); rewrite X; clear X end.
  rewrite divz_R by lra. cbn [bind].
  match goal with |- context [nrm2 2 ?u] => assert (X : nrm2 2 u = 0) end.
  { ev. match goal with |- sqrt ?a = 0 => replace a with 0 by field end. apply sqrt_0. }
  rewrite X; clear X. unfold history. cbn [ee_mem exe]. change (0+1)%Z with 1%Z.
  rewrite wr_ok by (vm_compute; split; [discriminate|reflexivity]). cbn [bind].
  assert (X : sleb (ee_tol exe) 0 = false) by (cbn; destruct (Rle_dec (1/100) 0); [lra|reflexivity]). rewrite X. cbn [negb bind get c_resid c_lambda].
  do 2 eexists; repeat split; reflexivity.
Qed.
Example ex_cr : exists o, ecr exe exE [3; 4] exrh = Ok o.
Proof.
  unfold ecr. destruct ex_shift as [-> ->]. cbn [ee_n ee_ones ee_maxiter exe]. rewrite ex_norm. cbn [bind].
  match goal with |- context [matvec 2 ?E [3/5; 4/5]] => assert (X : matvec 2 E [3/5; 4/5] = [3/5; 8/5]) by v2; rewrite X; clear X end.
  match goal with |- context [dot 2 ?u ?v] => assert (X : dot 2 u v = 41/25) by (ev; field); rewrite X; clear X end.
  match goal with |- context [copy 2 ?u] => assert (X : u = [48/125; -36/125]) by v2; rewrite X; clear X end.
  match goal with |- context [copy 2 ?u] => change (copy 2 u) with u end.
  match goal with |- context [matvec 2 ?E ?v] => assert (X : matvec 2 E v = [48/125; -72/125]) by v2; rewrite X; clear X end.
  change (Z.to_nat 1) with 1%nat. cbn [eiterate bind]. unfold ecr_body. cbn [ee_n exe d_x d_p d_r d_Ap d_lambda d_rh ee_psolve].
  match goal with |- context [divz ?a ?b] => assert (X : a / b = -175/193) by (ev; field); assert (Y : b <> 0) by (ev; lra); rewrite (divz_R a b Y), X; clear X Y end. cbn [bind].
  match goal with |- context [axpy 2 ?a ?u ?v] => assert (X : axpy 2 a u v = [243/965; 1024/965]) by v2; rewrite X; clear X end.
  match goal with |- context [matvec 2 ?E [243/965; 1024/965]] => assert (X : matvec 2 E [243/965; 1024/965] = [243/965; 2048/965]) by v2; rewrite X; clear X end.
  assert (N : nrm2 2 [243/965; 1024/965] * nrm2 2 [243/965; 1024/965] = 1107625/931225).
  { ev. rewrite sqrt_sqrt by lra. field. }
  change (smul (nrm2 2 [243/965; 1024/965]) (nrm2 2 [243/965; 1024/965])) with (nrm2 2 [243/965; 1024/965] * nrm2 2 [243/965; 1024/965]). rewrite N.
  match goal with |- context [dot 2 [243/965; 1024/965] ?v] => assert (X : dot 2 [243/965; 1024/965] v = 2156201/931225) by (ev; field); rewrite X; clear X end.
  rewrite divz_R by lra. cbn [bind].
  match goal with |- context [scale 2 ?c ?u] => assert (X : scale 2 c u = [254803968/1068858125; -60466176/1068858125]) by v2; rewrite X; clear X end.
  match goal with |- context [divz ?a ?b] => assert (Y : b <> 0) by (ev; lra); rewrite (divz_R a b Y); clear Y end. cbn [bind].
  rewrite divz_R by (cbn; apply Rabs_no_R0; lra). cbn [bind]. unfold history. cbn [ee_mem exe]. change (0+1)%Z with 1%Z.
  rewrite wr_ok by (vm_compute; split; [discriminate|reflexivity]). cbn [bind].
  assert (N2 : forall y, normalize 2 [243/965; 1024/965] = y -> exists v, y = Ok v).
  { intros y <-. unfold normalize. rewrite divz_R; [eexists; reflexivity|]. intros X. rewrite X in N. lra. }
  destruct (negb _); cbn [bind get d_resid d_x]; destruct (N2 _ eq_refl) as [v ->]; eexists; reflexivity.
Qed.
End Ex.

(** ** What does not hold (rational arithmetic; every square root taken below is exact) *)
Ltac qe := first [vm_compute; reflexivity|cbn [eo_resid eo_evalue eo_x]; apply f_equal; apply Qc_is_canon; vm_compute; reflexivity|cbn [eo_resid eo_evalue eo_x]; apply f_equal2; [apply Qc_is_canon; vm_compute; reflexivity|reflexivity]].
Notation q a b := (Q2Qc (a # b)).
Definition sumsq (n : Z) (v : list Qc) : Qc := inner n v v.
Definition qenv (n M : Z) (tol sg : Qc) (solve : Z -> list (entry Qc) -> list Qc -> Z * list Qc) : eenv Qc := mkEE n M tol sg s0 false false solve (fun _ r => r).
Definition nosolve : Z -> list (entry Qc) -> list Qc -> Z * list Qc := fun _ _ v => (0, v).

(** "lis_esolve: the residual reported with LIS_SUCCESS is the residual of the returned pair":
    not for power iteration.  diag(1, 14/3) from (40,9): reported and within tol = 7/10, while
    the relative residual of the returned pair is above 2 *)
Definition piE : list (entry Qc) := [(0, 0, q 1 1); (1, 1, q 14 3)].
Theorem C47_power_iteration_residual_refuted : exists (e : eenv Qc) (E : list (entry Qc)) x rh o lam r, epi e E x rh = Ok o /\ eo_ret o = LIS_SUCCESS /\ eo_evalue o = Some lam /\ eo_resid o = Some r /\
  sleb r (ee_tol e) = true /\ oshift e = s0 /\
  sleb (smul (smul (q 2 1) lam) (smul (q 2 1) lam)) (sumsq (ee_n e) (eig_residual (ee_n e) E lam (eo_x o))) = true /\ ee_tol e = q 7 10.
Proof.
  exists (qenv 2 1 (q 7 10) s0 nosolve), piE, [q 40 1; q 9 1], [s0; s0; s0]. do 3 eexists. split; [vm_compute; reflexivity|].
  repeat split; vm_compute; reflexivity.
Qed.
Print Assumptions C47_power_iteration_residual_refuted.

(** with a shift the residual is relative to |lam - sigma|, not to |lam|: sigma = -999 makes the
    solver report 0.0016 for a pair whose relative residual is above 1 *)
Definition shE : list (entry Qc) := [(0, 0, sadd (q (1000 * (1000000 - 251001) * 5) (1251001 * 3)) (q (-999) 1)); (1, 1, sadd (q (1000 * 1002000 * 5) (1251001 * 4)) (q (-999) 1))].
Theorem C47_shifted_residual_refuted : exists (e : eenv Qc) (E : list (entry Qc)) x rh o lam r, epi e E x rh = Ok o /\ eo_ret o = LIS_SUCCESS /\ eo_evalue o = Some lam /\ eo_resid o = Some r /\
  sleb r (q 1 500) = true /\ no_dup_pos E /\ full_diagonal (ee_n e) E /\
  sleb (smul lam lam) (sumsq (ee_n e) (eig_residual (ee_n e) E lam x)) = true /\ sumsq (ee_n e) x = s1 /\ lam = rayleigh (ee_n e) E x.
Proof.
  exists (qenv 2 1 (q 1 500) (q (-999) 1) nosolve), shE, [q 3 5; q 4 5], [s0; s0; s0]. do 3 eexists. split; [vm_compute; reflexivity|].
  do 3 (split; [vm_compute; reflexivity|]). split; [vm_compute; reflexivity|]. split.
  { constructor; [cbn; intros [H|[]]; congruence|constructor; [intros []|constructor]]. }
  split. { intros i Hi. cbn [ee_n qenv] in Hi. assert (i = 0 \/ i = 1)%Z as [-> | ->] by lia; reflexivity. }
  split; [vm_compute; reflexivity|]. split; apply Qc_is_canon; vm_compute; reflexivity.
Qed.
Print Assumptions C47_shifted_residual_refuted.

(** a diagonal entry that is not stored is not shifted, the eigenvalue is then off by sigma:
    ((-6,12),(12,.)), sigma = 1: LIS_SUCCESS, residual 0, eigenvalue 10; no vector but 0
    satisfies A x = 10 x *)
Definition mdE : list (entry Qc) := [(0, 0, q (-6) 1); (0, 1, q 12 1); (1, 0, q 12 1)].
Theorem C47_missing_diagonal_refuted : exists (e : eenv Qc) (E : list (entry Qc)) x rh o, epi e E x rh = Ok o /\ eo_ret o = LIS_SUCCESS /\ eo_resid o = Some s0 /\ eo_evalue o = Some (q 10 1) /\ ee_n e = 2 /\
  no_dup_pos E /\ (smul (ssub (coef E 0 0) (q 10 1)) (ssub (coef E 1 1) (q 10 1)) <> smul (coef E 0 1) (coef E 1 0))%Qc.
Proof.
  exists (qenv 2 1 (q 1 100) (q 1 1) nosolve), mdE, [q 3 1; q 4 1], [s0; s0; s0]. eexists. split; [vm_compute; reflexivity|].
  do 4 (split; [qe|]). split.
  { repeat constructor; cbn; intuition congruence. }
  vm_compute. discriminate.
Qed.
Print Assumptions C47_missing_diagonal_refuted.

(** with maxiter = 0 the residual and eigenvalue are read uninitialised *)
Theorem C47_zero_iterations_refuted : forall (E : list (entry Qc)) x rh tol sg solve,
  epi (qenv 2 0 tol sg solve) E x rh = UB /\ eii (qenv 2 0 tol sg solve) E x rh = UB.
Proof. intros. split; reflexivity. Qed.
Print Assumptions C47_zero_iterations_refuted.

(** an error of the inner solver: lis_esolve still returns LIS_SUCCESS, the eigenvalue is 1 and
    the user's matrix is left shifted *)
Theorem C47_inner_error_refuted : exists (e : eenv Qc) (E : list (entry Qc)) x o, esolve eii e E x (fun _ => s0) = Ok (LIS_SUCCESS, s1, o) /\ eo_ret o <> LIS_SUCCESS /\ eo_E o <> E.
Proof.
  exists (qenv 1 5 (q 1 100) (q 2 1) (fun _ _ v => (LIS_ERR_OUT_OF_MEMORY, v))), [(0, 0, q 7 1)], [q 1 1]. eexists. split; [vm_compute; reflexivity|].
  split; vm_compute; discriminate.
Qed.
Print Assumptions C47_inner_error_refuted.

(** an inner solver that stops without converging (LIS_MAXITER is not an error for
    lis_solve_kernel: C40): LIS_SUCCESS, residual 0, eigenvalue 1 for the 1 x 1 matrix (7) *)
Theorem C47_inner_not_converged_refuted : exists (e : eenv Qc) (E : list (entry Qc)) x o, esolve eii e E x (fun _ => s0) = Ok (LIS_SUCCESS, s1, o) /\ eo_ret o = LIS_SUCCESS /\ eo_resid o = Some s0 /\
  eo_evalue o = Some s1 /\ E = [(0, 0, q 7 1)] /\ eo_x o = [s1].
Proof.
  exists (qenv 1 5 (q 1 100) s0 nosolve), [(0, 0, q 7 1)], [q 1 1]. eexists. split; [vm_compute; reflexivity|].
  repeat match goal with |- _ /\ _ => split end; qe.
Qed.
Print Assumptions C47_inner_not_converged_refuted.

(** lis_esolve returns LIS_SUCCESS whenever the solver returns at all *)
Theorem C47_esolve_return_refuted : forall (T : Type) (S : Scalar T) run e E x jrh ret ev (o : eout T), esolve run e E x jrh = Ok (ret, ev, o) -> ret = LIS_SUCCESS.
Proof. intros T S run e E x jrh ret ev o. unfold esolve. destruct (run _ _ _ _); cbn; congruence. Qed.
Print Assumptions C47_esolve_return_refuted.
