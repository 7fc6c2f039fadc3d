Require Import ZArith List Bool Lia Reals Lra Field.
From Verif Require Import Base Scalar ScalarReal Spec SpecSolver SpecDiag SpecEsolver Krylov MatvecProof KrylovProof DiagProof2 RealVec Esolver EsolverTerms EsolverProof EsolverProof2 EsolverProof3.
Import ListNotations.
Open Scope Z_scope.

Lemma eig_residual_nm n (E : Ent) lam x : norm2 n (eig_residual n E lam x) = nm n (fun i => mv_spec E n (at_ x) i - lam * at_ x i)%R.
Proof. rewrite norm2_nm. apply nm_ext. intros i Hi. apply (atR_tab n (fun i => mv_spec E n (at_ x) i - lam * at_ x i)%R); auto. Qed.
Lemma rayleigh_ip n (E : Ent) x : rayleigh n E x = ip n (at_ x) (fun i => mv_spec E n (at_ x) i).
Proof. unfold rayleigh. change (inner n x (image n E x)) with (ip n (at_ x) (at_ (image n E x))). apply ip_ext; [intros i Hi; auto|]. intros i Hi. apply (atR_tab n (fun i => mv_spec E n (at_ x) i)); auto. Qed.

Lemma pi_final e E x rh o : ready e E rh -> epi e E x rh = Ok o -> let n := ee_n e in let sigma := oshift e in
  exists v lam r iter z, norm2 n v = 1%R /\ lam = rayleigh n E v /\ (lam <> sigma)%R /\
    r = (norm2 n (eig_residual n E lam v) / Rabs (lam - sigma))%R /\
    eo_evalue o = Some lam /\ eo_resid o = Some r /\ eo_iter o = Some iter /\ 1 <= iter <= ee_maxiter e /\
    ((eo_ret o = LIS_SUCCESS /\ (r <= ee_tol e)%R) \/ (eo_ret o = LIS_MAXITER /\ iter = ee_maxiter e /\ (ee_tol e < r)%R)) /\
    norm2 n (eo_x o) = 1%R /\ direction n (eo_x o) z /\ (forall i, 0 <= i < n -> vcomp z i = vcomp (eig_residual n E sigma v) i) /\ eo_E o = E.
Proof.
  intros [H1 [H2 [H3 H4]]] Ho n sigma. pose proof (safe_ok _ _ _ (epi_safe e E x rh H1 H2 H3 H4) Ho) as [v [lam [r [it [A1 [A2 [A3 [A4 [A5 [A6 [A7 [A8 [A9 [A10 [[z [Z1 [Z2 Z3]]] [A12 _]]]]]]]]]]]]]]]].
  exists v, lam, r, it, z. rewrite eig_residual_nm, rayleigh_ip.
  do 10 (split; [auto|]). split; [split; auto|]. split; [|auto].
  intros i Hi. change (at_ z i = at_ (eig_residual n E sigma v) i). rewrite Z2 by auto. symmetry. apply (atR_tab n (fun i => mv_spec E n (at_ v) i - sigma * at_ v i)%R); auto.
Qed.

(** (A - s)(A - l) v = (A - l)(A - s) v *)
Lemma commute n (E : Ent) (v : Z -> R) s l i :
  (mv_spec E n (fun j => mv_spec E n v j - s * v j) i - l * (mv_spec E n v i - s * v i))%R =
  (mv_spec E n (fun j => mv_spec E n v j - l * v j) i - s * (mv_spec E n v i - l * v i))%R.
Proof.
  assert (X : forall c, mv_spec E n (fun j => mv_spec E n v j - c * v j)%R i = (mv_spec E n (mv_spec E n v) i - c * mv_spec E n v i)%R).
  { intros c. rewrite (mvR_ext n E _ (fun j => 1 * mv_spec E n v j + (- c) * v j)%R i) by (intros j Hj; ring). rewrite mvR_lin. ring. }
  rewrite !X. ring.
Qed.
Lemma pi_vector e E x rh o K : ready e E rh -> epi e E x rh = Ok o ->
  (forall u, (norm2 (ee_n e) (eig_residual (ee_n e) E (oshift e) u) <= K * norm2 (ee_n e) u)%R) ->
  exists lam r, eo_evalue o = Some lam /\ eo_resid o = Some r /\ (norm2 (ee_n e) (eig_residual (ee_n e) E lam (eo_x o)) <= K * r)%R.
Proof.
  intros Hr Ho HK. destruct (pi_final e E x rh o Hr Ho) as [v [lam [r [it [z [A1 [A2 [A3 [A4 [A5 [A6 [_ [_ [_ [A10 [[Z0 Z1] [Z2 _]]]]]]]]]]]]]]]]].
  set (n := ee_n e) in *. set (sg := oshift e) in *. exists lam, r. split; [auto|]. split; [auto|].
  rewrite eig_residual_nm in *. rewrite norm2_nm in *. change (vcomp (T:=R)) with (at_ (T:=R)) in *.
  rewrite (scaled_residual n E (at_ (eo_x o)) (at_ z) (1 / nm n (at_ z))%R lam Z1).
  assert (Hz : eqv n (at_ z) (fun i => mv_spec E n (at_ v) i - sg * at_ v i)%R).
  { intros i Hi. rewrite Z2 by auto. apply (atR_tab n (fun i => mv_spec E n (at_ v) i - sg * at_ v i)%R); auto. }
  set (q := map (fun i => mv_spec E n (at_ v) i - lam * at_ v i)%R (zrange 0 n)).
  assert (Hq : eqv n (at_ q) (fun i => mv_spec E n (at_ v) i - lam * at_ v i)%R) by (intros i Hi; apply (atR_tab n (fun i => mv_spec E n (at_ v) i - lam * at_ v i)%R); auto).
  pose proof (HK q) as Bq. rewrite eig_residual_nm, norm2_nm in Bq.
  assert (E1 : nm n (fun i => mv_spec E n (at_ z) i - lam * at_ z i)%R = nm n (fun i => mv_spec E n (at_ q) i - sg * at_ q i)%R).
  { apply nm_ext. intros i Hi. rewrite (mvR_ext n E _ _ i Hz), (mvR_ext n E _ _ i Hq), Hz, Hq by auto. apply commute. }
  rewrite E1. rewrite (nm_ext n _ _ Hq) in Bq.
  assert (Cz : (Rabs (lam - sg) <= nm n (at_ z))%R).
  { replace (lam - sg)%R with (ip n (at_ v) (at_ z)).
    - eapply Rle_trans; [apply cauchy|]. rewrite A1. lra.
    - rewrite A2, rayleigh_ip. rewrite (ip_ext n _ (at_ v) _ (fun i => 1 * mv_spec E n (at_ v) i + (- sg) * at_ v i)%R); [|intros i Hi; auto|intros i Hi; rewrite Hz by auto; ring].
      rewrite ip_lin_r, <- (nm_sq n (at_ v)), A1. change (fun i : Z => mv_spec E n (at_ v) i) with (mv_spec E n (at_ v)). ring. }
  assert (P1 : (0 < Rabs (lam - sg))%R) by (apply Rabs_pos_lt; lra).
  assert (Hr' : nm n (fun i => mv_spec E n (at_ v) i - lam * at_ v i)%R = (r * Rabs (lam - sg))%R) by (rewrite A4; field; lra).
  rewrite Hr' in Bq. pose proof (nm_pos n (fun i => mv_spec E n (at_ q) i - sg * at_ q i)%R) as P2.
  rewrite Rabs_pos_eq by (apply Rlt_le, Rdiv_lt_0_compat; lra).
  apply Rmult_le_reg_l with (nm n (at_ z)); [lra|].
  replace (nm n (at_ z) * (1 / nm n (at_ z) * nm n (fun i => mv_spec E n (at_ q) i - sg * at_ q i)))%R with (nm n (fun i => mv_spec E n (at_ q) i - sg * at_ q i)%R) by (field; lra).
  set (t := nm n (fun i => mv_spec E n (at_ q) i - sg * at_ q i)%R) in *.
  assert (0 <= K * r)%R by (apply Rmult_le_reg_r with (Rabs (lam - sg)); [auto|]; nra). nra.
Qed.

Lemma ii_final e E x rh delta o : ready e E rh -> inner_ok e E (oshift e) delta -> eii e E x rh = Ok o -> let n := ee_n e in
  (exists lam r iter, eo_evalue o = Some lam /\ eo_resid o = Some r /\ eo_iter o = Some iter /\ 1 <= iter <= ee_maxiter e /\
    ((eo_ret o = LIS_SUCCESS /\ (r <= ee_tol e)%R) \/ (eo_ret o = LIS_MAXITER /\ iter = ee_maxiter e /\ (ee_tol e < r)%R)) /\
    norm2 n (eo_x o) = 1%R /\ (norm2 n (eig_residual n E lam (eo_x o)) <= (r + delta) * Rabs (lam - oshift e))%R /\ eo_E o = E) \/
  (eo_ret o <> LIS_SUCCESS /\ eo_evalue o = None).
Proof.
  intros [H1 [H2 [H3 H4]]] Hs Ho n. destruct (safe_ok _ _ _ (eii_safe e E x rh delta H1 H2 H3 H4) Ho) as [[lam [r [it H]]]|[A [B _]]]; [left|right; auto].
  exists lam, r, it. rewrite eig_residual_nm. destruct H as [A1 [A2 [A3 [A4 [A5 [A6 [A7 A8]]]]]]]. do 7 (split; [auto|]). auto.
Qed.
Lemma rqi_step_final e E lam r x delta : no_dup_pos E -> full_diagonal (ee_n e) E -> (forall rho, inner_ok e E rho delta) -> rqi_step e E (fun _ _ => True) x lam r -> let n := ee_n e in
  exists rho v y E', rqi_from e E lam r x rho v y E' /\ (norm2 n (eig_residual n E lam x) <= (r + delta * (1 + r)) * Rabs (lam - rho))%R.
Proof.
  intros Hn Hd Hs [k [rho [v [y [A1 [_ [A2 [A3 [A4 [A5 [A6 A7]]]]]]]]]]] n.
  exists rho, v, y, (shift_entries rho E). split.
  - split; [auto|]. split; [apply shifted_sh; auto|]. split; [exists k; auto|]. split; [split; auto|]. split; [auto|]. split; [auto|]. rewrite A6. f_equal. rewrite norm2_nm. apply nm_ext. intros i Hi. symmetry.
    apply (atR_tab n (fun i => at_ y i - ip n (at_ v) (at_ y) * at_ v i)%R); auto.
  - rewrite eig_residual_nm. rewrite A5. apply (rqi_math n E (at_ v) (at_ y) (at_ x) rho r delta); auto.
    pose proof (Hs rho k _ v y (shifted_sh n E rho Hn Hd) A2) as B. fold n in B. rewrite residual_nm, norm2_nm in B. red in A1. fold n in A1. rewrite A1, Rmult_1_r in B.
    rewrite (nm_ext n _ (fun i => at_ v i - mv_spec (shift_entries rho E) n (at_ y) i)%R); [exact B|]. intros i Hi. f_equal. symmetry. apply mv_shift; auto.
Qed.
Lemma rqi_final e E x rh delta o : ready e E rh -> full_diagonal (ee_n e) E -> (forall rho, inner_ok e E rho delta) -> erqi e E x rh = Ok o -> let n := ee_n e in
  (exists lam r iter, eo_evalue o = Some lam /\ eo_resid o = Some r /\ eo_iter o = Some iter /\ 1 <= iter <= ee_maxiter e /\
    ((eo_ret o = LIS_SUCCESS /\ (r <= ee_tol e)%R) \/ (eo_ret o = LIS_MAXITER /\ iter = ee_maxiter e /\ (ee_tol e < r)%R)) /\
    norm2 n (eo_x o) = 1%R /\ eo_E o = E /\
    exists rho v y E', rqi_from e E lam r (eo_x o) rho v y E' /\ (norm2 n (eig_residual n E lam (eo_x o)) <= (r + delta * (1 + r)) * Rabs (lam - rho))%R) \/
  (eo_ret o <> LIS_SUCCESS /\ eo_evalue o = None).
Proof.
  intros [H1 [H2 [H3 _]]] Hd Hs Ho n. destruct (safe_ok _ _ _ (erqi_safe e E (fun _ _ => True) (fun _ _ _ _ _ _ _ _ _ _ _ => I) (fun _ _ _ _ _ => I) x rh H1 H2 (fun _ _ => I)) Ho) as [[lam [r [it H]]]|[A B]]; [left|right; auto].
  destruct H as [A1 [A2 [A3 [A4 [A5 [A6 [A7 [_ A8]]]]]]]]. exists lam, r, it. do 7 (split; [auto|]). apply rqi_step_final; auto.
Qed.
Lemma inner0 e E sg k E' v y : inner_ok e E sg 0%R -> shifted_identity (ee_n e) E E' sg -> ee_solve e k E' v = (0, y) -> eqv (ee_n e) (at_ v) (fun i => mv_spec E' (ee_n e) (at_ y) i).
Proof.
  intros Hs H1 H2. pose proof (Hs k E' v y H1 H2) as B. rewrite residual_nm, Rmult_0_l in B.
  pose proof (nm_pos (ee_n e) (fun i => at_ v i - mv_spec E' (ee_n e) (at_ y) i)%R). assert (Z : nm (ee_n e) (fun i => at_ v i - mv_spec E' (ee_n e) (at_ y) i)%R = 0%R) by lra.
  intros i Hi. pose proof (nm_zero _ _ Z i Hi) as Y. cbv beta in Y. lra.
Qed.
(** exact inner solves: rho is the Rayleigh quotient of the iterate *)
Lemma rqi_exact e E x rh K o : ready e E rh -> full_diagonal (ee_n e) E -> (forall rho, inner_ok e E rho 0%R) ->
  (forall u, (norm2 (ee_n e) (image (ee_n e) E u) <= K * norm2 (ee_n e) u)%R) -> erqi e E x rh = Ok o -> let n := ee_n e in
  (exists lam r, eo_evalue o = Some lam /\ eo_resid o = Some r /\ norm2 n (eo_x o) = 1%R /\ lam = rayleigh n E (eo_x o) /\ (norm2 n (eig_residual n E lam (eo_x o)) <= 2 * K * r)%R) \/
  (eo_ret o <> LIS_SUCCESS /\ eo_evalue o = None).
Proof.
  intros [H1 [H2 [H3 _]]] Hd Hs HK Ho n.
  set (P := fun v rho => rho = ip n (at_ v) (fun i => mv_spec E n (at_ v) i)).
  assert (HP : forall k rho v y, unit_v (ee_n e) v -> P v rho -> ee_solve e k (shift_entries rho E) v = (0, y) -> nm (ee_n e) (at_ y) <> 0%R ->
     forall v', unit_v (ee_n e) v' -> eqv (ee_n e) (at_ v') (fun i => (1 / nm (ee_n e) (at_ y) * at_ y i)%R) -> P v' (rho + ip (ee_n e) (at_ v) (at_ y) / (nm (ee_n e) (at_ y) * nm (ee_n e) (at_ y)))%R).
  { intros k rho v y _ _ A2 A3 v' _ A5. fold n in A3, A5 |- *. unfold P. symmetry.
    pose proof (inner0 e E rho k _ v y (Hs rho) (shifted_sh n E rho H3 Hd) A2) as B. fold n in B.
    apply (rqi_rayleigh n E (at_ v) (at_ y) (at_ v') rho); auto. intros i Hi. rewrite B by auto. symmetry. apply mv_shift; auto. }
  assert (HX : forall v v' rho, eqv (ee_n e) (at_ v) (at_ v') -> P v rho -> P v' rho).
  { intros v v' rho Hv Hp. unfold P in *. rewrite Hp. apply ip_ext; auto. intros i Hi. apply mvR_ext; auto. }
  destruct (safe_ok _ _ _ (erqi_safe e E P HP HX x rh H1 H2 (fun _ _ => eq_refl)) Ho) as [[lam [r [it H]]]|[A B]]; [|right; auto].
  destruct H as [A1 [A2 [A3 [A4 [A5 [A6 [A7 [A8 A9]]]]]]]]. left. exists lam, r. fold n in A6. do 3 (split; [auto|]). split; [rewrite rayleigh_ip; exact A8|].
  (* |rayleigh| <= K for a unit vector *)
  assert (RK : forall u, unit_v n u -> (Rabs (ip n (at_ u) (fun i => mv_spec E n (at_ u) i)) <= K)%R).
  { intros u Hu. red in Hu. eapply Rle_trans; [apply cauchy|]. rewrite Hu, Rmult_1_l. pose proof (HK u) as B. rewrite !norm2_nm in B. fold n in B. rewrite Hu, Rmult_1_r in B.
    rewrite (nm_ext n _ (at_ (image n E u))); [exact B|]. intros i Hi. symmetry. apply (atR_tab n (fun i => mv_spec E n (at_ u) i)); auto. }
  destruct A7 as [k [rho [v [y [B1 [B0 [B2 [B3 [B4 [B5 [B6 B7]]]]]]]]]]]. fold n in B1, B3, B4, B5, B6, B7.
  assert (D : (norm2 n (eig_residual n E lam (eo_x o)) <= (r + 0 * (1 + r)) * Rabs (lam - rho))%R).
  { rewrite eig_residual_nm, B5. apply (rqi_math n E (at_ v) (at_ y) (at_ (eo_x o)) rho r 0%R); auto.
    pose proof (inner0 e E rho k _ v y (Hs rho) (shifted_sh n E rho H3 Hd) B2) as B. fold n in B.
    rewrite (nm_ext n _ (fun i => 0 * 0)%R). rewrite nm_scal, Rabs_R0. lra. intros i Hi. rewrite B by auto. rewrite mv_shift by auto. ring. }
  assert (L : (Rabs (lam - rho) <= 2 * K)%R).
  { red in B0. red in A8. pose proof (RK v B1) as K1. pose proof (RK (eo_x o) A6) as K2. rewrite <- B0 in K1. rewrite <- A8 in K2.
    unfold Rminus. eapply Rle_trans; [apply Rabs_triang|]. rewrite Rabs_Ropp. lra. }
  assert (Pr : (0 <= r)%R) by (rewrite B6; unfold Rdiv; apply Rmult_le_pos; [apply nm_pos|apply Rlt_le, Rinv_0_lt_compat, Rabs_pos_lt; auto]).
  eapply Rle_trans; [exact D|]. nra.
Qed.
Lemma cg_final small e E x rh o : ready e E rh -> inner_ok e E (oshift e) 0%R -> ecg small e E x rh = Ok o -> let n := ee_n e in
  (exists lam r iter, eo_evalue o = Some lam /\ eo_resid o = Some r /\ eo_iter o = Some iter /\ 1 <= iter <= ee_maxiter e /\ norm2 n (eo_x o) = 1%R /\
    ((eo_ret o = LIS_SUCCESS /\ (r < ee_tol e)%R /\ lam = rayleigh n E (eo_x o) /\ norm2 n (eig_residual n E lam (eo_x o)) = (r * Rabs (lam - oshift e))%R) \/
     (eo_ret o = LIS_MAXITER /\ iter = ee_maxiter e /\ (ee_tol e <= r)%R)) /\
    eo_E o = E) \/
  (eo_ret o <> LIS_SUCCESS /\ eo_evalue o = None).
Proof.
  intros [H1 [H2 [H3 H4]]] Hs Ho n. destruct (safe_ok _ _ _ (ecg_safe small e E x rh H1 H2 H3 H4) Ho) as [[lam [r [it H]]]|[A [B _]]]; [left|right; auto].
  exists lam, r, it. rewrite eig_residual_nm, rayleigh_ip. destruct H as [A1 [A2 [A3 [A4 [A5 [A6 A7]]]]]]. do 5 (split; [auto|]). split; [|auto]. destruct A6 as [[B1 [B2 B3]]|B]; [left; split; [auto|]; split; [auto|]; apply B3; auto|right; auto].
Qed.
Lemma cr_final e E x rh o : ready e E rh -> ecr e E x rh = Ok o -> let n := ee_n e in
  exists lam r iter z, eo_evalue o = Some lam /\ eo_resid o = Some r /\ eo_iter o = Some iter /\ 1 <= iter <= ee_maxiter e /\ norm2 n (eo_x o) = 1%R /\
    ((eo_ret o = LIS_SUCCESS /\ (r < ee_tol e)%R) \/ (eo_ret o = LIS_MAXITER /\ iter = ee_maxiter e /\ (ee_tol e <= r)%R)) /\
    lam = rayleigh n E (eo_x o) /\ (lam <> oshift e)%R /\ direction n (eo_x o) z /\
    r = (norm2 n (eig_residual n E lam z) / Rabs (lam - oshift e))%R /\
    norm2 n (eig_residual n E lam (eo_x o)) = (r * Rabs (lam - oshift e) / norm2 n z)%R /\ eo_E o = E.
Proof.
  intros [H1 [H2 [H3 H4]]] Ho n. destruct (safe_ok _ _ _ (ecr_safe e E x rh H1 H2 H3 H4) Ho) as [lam [r [it [z [A1 [A2 [A3 [A4 [A5 [A6 [A7 [A8 [A9 [A10 [A11 [A12 A13]]]]]]]]]]]]]]]].
  exists lam, r, it, z. rewrite !eig_residual_nm, rayleigh_ip, norm2_nm. do 8 (split; [auto|]). split; [split; auto|].
  assert (P1 : (0 < Rabs (lam - oshift e))%R) by (apply Rabs_pos_lt; lra).
  split. { fold n in A11 |- *. rewrite A11. field. lra. }
  split; [|auto]. rewrite norm2_nm. fold n in A9, A12 |- *. rewrite <- A12. field. auto.
Qed.
Lemma no_ub e E small x rh : ready e E rh -> epi e E x rh <> UB /\ eii e E x rh <> UB /\ ecg small e E x rh <> UB /\ ecr e E x rh <> UB /\ erqi e E x rh <> UB.
Proof.
  intros [H1 [H2 [H3 H4]]].
  pose proof (epi_safe e E x rh H1 H2 H3 H4) as S1. pose proof (eii_safe e E x rh 0%R H1 H2 H3 H4) as S2. pose proof (ecg_safe small e E x rh H1 H2 H3 H4) as S3.
  pose proof (ecr_safe e E x rh H1 H2 H3 H4) as S4.
  pose proof (erqi_safe e E (fun _ _ => True) (fun _ _ _ _ _ _ _ _ _ _ _ => I) (fun _ _ _ _ _ => I) x rh H1 H2 (fun _ _ => I)) as S5.
  repeat split; intros X; [rewrite X in S1|rewrite X in S2|rewrite X in S3|rewrite X in S4|rewrite X in S5]; exact (match S1 with end) || contradiction.
Qed.
