Require Import ZArith List Bool Lia Reals Lra Field.
From Verif Require Import Base Scalar ScalarReal Spec SpecSolver SpecEsolver SpecSub Krylov RealVec MatvecProof KrylovProof Esolver EsolverProof EsolverProof2 EsolverFinal Gesolver SpecGesolver GesTerms GesProof GesProof2 GesMath.
Import ListNotations.
Open Scope Z_scope.

Lemma gen_at n (A B : Ent) lam x : eqv n (at_ (gen_residual n A B lam x)) (fun i => mv_spec A n (at_ x) i - lam * mv_spec B n (at_ x) i)%R.
Proof. intros i Hi. apply (atR_tab n (fun i => mv_spec A n (at_ x) i - lam * mv_spec B n (at_ x) i)%R); auto. Qed.
Lemma gen_nm n (A B : Ent) lam x : norm2 n (gen_residual n A B lam x) = nm n (fun i => mv_spec A n (at_ x) i - lam * mv_spec B n (at_ x) i)%R.
Proof. rewrite norm2_nm. apply nm_ext, gen_at. Qed.
Lemma minus_nm n u c v : norm2 n (minus_times n u c v) = nm n (fun i => at_ u i - c * at_ v i)%R.
Proof. rewrite norm2_nm. apply nm_ext. intros i Hi. apply (atR_tab n (fun i => at_ u i - c * at_ v i)%R); auto. Qed.
Lemma image_at n (E : Ent) x : eqv n (at_ (image n E x)) (fun i => mv_spec E n (at_ x) i).
Proof. intros i Hi. apply (atR_tab n (fun i => mv_spec E n (at_ x) i)); auto. Qed.
Lemma image_nm n (E : Ent) x : norm2 n (image n E x) = nm n (fun i => mv_spec E n (at_ x) i).
Proof. rewrite norm2_nm. apply nm_ext, image_at. Qed.
Lemma inner_ip n (u v : vec) : inner n u v = ip n (at_ u) (at_ v).
Proof. reflexivity. Qed.
(** a function as a list *)
Definition lst n (f : Z -> R) : vec := map f (zrange 0 n).
Lemma at_lst n f : eqv n (at_ (lst n f)) f.
Proof. intros i Hi. apply (atR_tab n f); auto. Qed.
Lemma bounded_f n (E : Ent) K : bounded_by n E K -> forall h, (nm n (fun i => mv_spec E n h i) <= K * nm n h)%R.
Proof.
  intros H h. specialize (H (lst n h)). rewrite image_nm, norm2_nm, (nm_ext n _ _ (at_lst n h)) in H.
  rewrite (nm_ext n _ (fun i => mv_spec E n h i)) in H; [exact H|]. intros i Hi. apply mvR_ext, at_lst.
Qed.
Lemma nonneg_f n (E : Ent) : nonnegative n E -> forall h, (0 <= ip n h (fun i => mv_spec E n h i))%R.
Proof.
  intros H h. specialize (H (lst n h)). rewrite rayleigh_ip in H. rewrite (ip_ext n _ _ _ (fun i => mv_spec E n h i) (at_lst n h)) in H; [exact H|]. intros i Hi. apply mvR_ext, at_lst.
Qed.
Lemma bounded_pos n (E : Ent) K h : bounded_by n E K -> (nm n h <> 0)%R -> (0 <= K)%R.
Proof.
  intros H Hh. pose proof (bounded_f n E K H h) as B. pose proof (nm_pos n (fun i => mv_spec E n h i)). pose proof (nm_pos n h). destruct (Rle_dec 0 K); auto. exfalso. nra.
Qed.
Lemma exact_eq n (E : Ent) w y : (norm2 n (residual n E w y) <= 0 * norm2 n w)%R -> eqv n (fun i => mv_spec E n (at_ y) i) (at_ w).
Proof.
  intros B. rewrite residual_nm, Rmult_0_l in B. pose proof (nm_pos n (fun i => at_ w i - mv_spec E n (at_ y) i)%R). assert (Z : nm n (fun i => at_ w i - mv_spec E n (at_ y) i)%R = 0%R) by lra.
  intros i Hi. pose proof (nm_zero _ _ Z i Hi) as Y. cbv beta in Y. lra.
Qed.

(** ** PI *)
Lemma gpi_final e A B x rh o : gready e rh -> egpi e A B x rh = Ok o -> let n := ee_n e in let sigma := oshift e in
  (exists lam r iter k v w y, reports o lam r iter /\ verdict_le e o iter r /\ (lam <> sigma)%R /\
     (forall i, 0 <= i < n -> vcomp w i = vcomp (gen_residual n A B sigma v) i) /\ inner n v w = 1%R /\ ee_solve e k B w = (0, y) /\
     (lam - sigma)%R = inner n w y /\ r = (norm2 n (minus_times n y (lam - sigma) v) / Rabs (lam - sigma))%R /\
     direction n (eo_x o) y /\ norm2 n (eo_x o) = 1%R /\ same_matrix n A (eo_E o)) \/ gave_up o.
Proof.
  intros Hr Ho n sg. destruct (safe_ok _ _ _ (egpi_safe e A B x rh Hr) Ho) as [(k & v & w & y & th & r & it & A1 & A2 & A3 & A4 & A5 & A6 & A7 & A8 & A9 & A10 & A11 & A12)|G]; [left|right; exact G].
  exists (th + sg)%R, r, it, k, v, w, y. replace (th + sg - sg)%R with th by ring. split; [exact A7|]. split; [exact A8|]. split; [intros X; apply A5; lra|]. split.
  { intros i Hi. change (at_ w i = at_ (gen_residual n A B sg v) i). rewrite gen_at by auto. rewrite A1 by auto. apply mv_do_g; auto. }
  split; [exact A2|]. split; [exact A3|]. split; [exact A4|]. split; [rewrite minus_nm; exact A6|]. split; [split; [exact A9|exact A10]|]. split; [exact A11|exact A12].
Qed.
Lemma sqrt_bound a K : (0 <= a -> a * a <= K -> a <= sqrt K)%R.
Proof. intros Ha H. rewrite <- (sqrt_square a Ha). apply sqrt_le_1_alt. exact H. Qed.
Lemma gpi_pair e A B x rh o K C : gready e rh -> egpi e A B x rh = Ok o -> solves_with e (eq B) 0%R -> shifted_by (ee_n e) A B (oshift e) C ->
  symmetric (ee_n e) C -> nonnegative (ee_n e) C -> bounded_by (ee_n e) C K -> let n := ee_n e in
  (exists lam r iter, reports o lam r iter /\ verdict_le e o iter r /\ norm2 n (eo_x o) = 1%R /\ (norm2 n (gen_residual n A B lam (eo_x o)) <= K * sqrt K * r)%R) \/ gave_up o.
Proof.
  intros Hr Ho Hs HC SC NC BC n. destruct (safe_ok _ _ _ (egpi_safe e A B x rh Hr) Ho) as [(k & v & w & y & th & r & it & A1 & A2 & A3 & A4 & A5 & A6 & A7 & A8 & A9 & A10 & A11 & A12)|G]; [left|right; exact G].
  fold n in HC, SC, NC, BC. set (sg := oshift e) in *. exists (th + sg)%R, r, it. split; [exact A7|]. split; [exact A8|]. split; [exact A11|]. rewrite gen_nm. fold n in A1, A2, A4, A6, A9, A10, A11, A12.
  assert (W : eqv n (at_ w) (fun i => mv_spec C n (at_ v) i)).
  { intros i Hi. rewrite A1 by auto. rewrite mv_do_g by auto. symmetry. apply shifted_mv; auto. }
  assert (Pr : (0 <= r)%R) by (rewrite A6; unfold Rdiv; apply Rmult_le_pos; [apply nm_pos|apply Rlt_le, Rinv_0_lt_compat, Rabs_pos_lt; auto]).
  assert (PK : (0 <= K)%R) by (apply (bounded_pos n C K (at_ y)); auto).
  assert (Bw : (nm n (at_ w) <= sqrt K)%R).
  { apply sqrt_bound; [apply nm_pos|]. pose proof (image_form n C (at_ v) K SC (nonneg_f n C NC) (bounded_f n C K BC)) as X. rewrite (nm_ext n _ _ W).
    eapply Rle_trans; [exact X|]. rewrite (ip_ext n (at_ v) (at_ v) _ (at_ w)); [rewrite A2; lra|intros i Hi; auto|intros i Hi; symmetry; apply W; auto]. }
  pose proof (gpi_math n C B (at_ v) (at_ w) (at_ y) (at_ (eo_x o)) th r K W A2 A4 A5 A9 A6 (exact_eq n B w y (Hs k B w y eq_refl A3)) A10 (bounded_f n C K BC)) as M.
  rewrite (nm_ext n _ (fun i => mv_spec C n (at_ (eo_x o)) i - th * mv_spec B n (at_ (eo_x o)) i)%R).
  - eapply Rle_trans; [exact M|]. pose proof (sqrt_pos K). replace (K * sqrt K * r)%R with (K * r * sqrt K)%R by ring. apply Rmult_le_compat_l; [apply Rmult_le_pos; auto|exact Bw].
  - intros i Hi. rewrite (shifted_mv n sg A B C _ i HC Hi). ring.
Qed.

(** ** II *)
Lemma gii_final e A B x rh o : gready e rh -> egii e A B x rh = Ok o -> let n := ee_n e in let sigma := oshift e in
  (exists lam r iter k v w y C, reports o lam r iter /\ verdict_le e o iter r /\ (lam <> sigma)%R /\
     (forall i, 0 <= i < n -> vcomp w i = vcomp (image n B v) i) /\ inner n v w = 1%R /\ shifted_by n A B sigma C /\ ee_solve e k C w = (0, y) /\
     (lam - sigma)%R = (1 / inner n w y)%R /\ r = (norm2 n (minus_times n y (inner n w y) v) / Rabs (inner n w y))%R /\
     direction n (eo_x o) y /\ norm2 n (eo_x o) = 1%R /\ same_matrix n A (eo_E o)) \/ gave_up o.
Proof.
  intros Hr Ho n sg. destruct (safe_ok _ _ _ (egii_safe e A B x rh Hr) Ho) as [(k & v & w & y & th & r & it & A1 & A2 & A3 & A4 & A5 & A6 & A7 & A8 & A9 & A10 & A11 & A12)|G]; [left|right; exact G].
  exists (1 / th + sg)%R, r, it, k, v, w, y, (do_gshift n sg A B). change (inner n w y) with (ip n (at_ w) (at_ y)). replace (1 / th + sg - sg)%R with (1 / th)%R by ring. fold n in A4. rewrite <- A4.
  split; [exact A7|]. split; [exact A8|]. split; [intros X; assert (1 / th = 0)%R as Y by lra; unfold Rdiv in Y; rewrite Rmult_1_l in Y; exact (Rinv_neq_0_compat th A5 Y)|]. split.
  { intros i Hi. change (at_ w i = at_ (image n B v) i). rewrite image_at by auto. apply A1; auto. }
  split; [exact A2|]. split; [apply shifted_do_g|]. split; [exact A3|]. split; [reflexivity|]. split; [rewrite minus_nm; exact A6|]. split; [split; [exact A9|exact A10]|]. split; [exact A11|exact A12].
Qed.
Lemma gii_pair e A B x rh o K delta : gready e rh -> egii e A B x rh = Ok o -> (0 <= delta)%R -> solves_with e (shifted_by (ee_n e) A B (oshift e)) delta ->
  symmetric (ee_n e) B -> nonnegative (ee_n e) B -> bounded_by (ee_n e) B K -> let n := ee_n e in
  (exists lam r iter, reports o lam r iter /\ verdict_le e o iter r /\ norm2 n (eo_x o) = 1%R /\ (norm2 n (gen_residual n A B lam (eo_x o)) <= (K * sqrt K * r + delta * K) * Rabs (lam - oshift e))%R) \/ gave_up o.
Proof.
  intros Hr Ho Hdl Hs SB NB BB n. destruct (safe_ok _ _ _ (egii_safe e A B x rh Hr) Ho) as [(k & v & w & y & th & r & it & A1 & A2 & A3 & A4 & A5 & A6 & A7 & A8 & A9 & A10 & A11 & A12)|G]; [left|right; exact G].
  fold n in SB, NB, BB. set (sg := oshift e) in *. exists (1 / th + sg)%R, r, it. split; [exact A7|]. split; [exact A8|]. split; [exact A11|]. rewrite gen_nm. fold n in A1, A2, A4, A6, A9, A10, A11, A12. set (C := do_gshift n sg A B).
  assert (HC : shifted_by n A B sg C) by apply shifted_do_g.
  assert (Pr : (0 <= r)%R) by (rewrite A6; unfold Rdiv; apply Rmult_le_pos; [apply nm_pos|apply Rlt_le, Rinv_0_lt_compat, Rabs_pos_lt; auto]).
  assert (PK : (0 <= K)%R) by (apply (bounded_pos n B K (at_ y)); auto).
  assert (Bw : (nm n (at_ w) <= sqrt K)%R).
  { apply sqrt_bound; [apply nm_pos|]. pose proof (image_form n B (at_ v) K SB (nonneg_f n B NB) (bounded_f n B K BB)) as X. rewrite (nm_ext n _ _ A1).
    eapply Rle_trans; [exact X|]. rewrite (ip_ext n (at_ v) (at_ v) _ (at_ w)); [rewrite A2; lra|intros i Hi; auto|intros i Hi; symmetry; apply A1; auto]. }
  pose proof (Hs k C w y HC A3) as Hd. rewrite residual_nm, norm2_nm in Hd. fold n in Hd.
  pose proof (gii_math n C B (at_ v) (at_ w) (at_ y) (at_ (eo_x o)) th r K (delta * nm n (at_ w))%R A1 A2 A4 A5 A9 A6 Hd A10 (bounded_f n B K BB)) as M.
  replace (1 / th + sg - sg)%R with (1 / th)%R by ring.
  rewrite (nm_ext n _ (fun i => mv_spec C n (at_ (eo_x o)) i - 1 / th * mv_spec B n (at_ (eo_x o)) i)%R).
  - eapply Rle_trans; [exact M|]. apply Rmult_le_compat_r; [apply Rabs_pos|]. pose proof (sqrt_pos K) as S1. pose proof (sqrt_sqrt K PK) as S2. pose proof (nm_pos n (at_ w)) as S3. set (a := nm n (at_ w)) in *. set (q := sqrt K) in *.
    assert (a * a <= K)%R by (rewrite <- S2; apply Rmult_le_compat; auto). assert (K * r * a <= K * r * q)%R by (apply Rmult_le_compat_l; [apply Rmult_le_pos; auto|exact Bw]). nra.
  - intros i Hi. rewrite (shifted_mv n sg A B C _ i HC Hi). ring.
Qed.

(** ** RQI *)
Lemma grq_x (n : Z) (v' y x : vec) e2 : (0 < e2)%R -> (nm n (at_ v') <> 0)%R -> eqv n (at_ v') (fun i => 1 / sqrt e2 * at_ y i)%R -> eqv n (at_ x) (fun i => 1 / nm n (at_ v') * at_ v' i)%R ->
  (nm n (at_ y) <> 0)%R /\ eqv n (at_ x) (fun i => 1 / nm n (at_ y) * at_ y i)%R.
Proof.
  intros He Hv Hvy Hx. assert (Q : (0 < sqrt e2)%R) by (apply sqrt_lt_R0; auto). assert (N : nm n (at_ v') = (1 / sqrt e2 * nm n (at_ y))%R).
  { rewrite (nm_ext n _ _ Hvy), nm_scal, Rabs_pos_eq; [reflexivity|apply Rlt_le, Rdiv_lt_0_compat; lra]. }
  assert (Ny : (nm n (at_ y) <> 0)%R) by (intros X; apply Hv; rewrite N, X; ring). split; [exact Ny|]. intros i Hi. rewrite Hx by auto. rewrite Hvy by auto. rewrite N. field. split; lra.
Qed.
Lemma grq_final e A B x rh o : gready e rh -> egrqi e A B x rh = Ok o -> let n := ee_n e in
  (exists lam r iter k rho v w y C, reports o lam r iter /\ verdict_le e o iter r /\
     (forall i, 0 <= i < n -> vcomp w i = vcomp (image n B v) i) /\ ((iter = 1 /\ norm2 n v = 1%R) \/ inner n v w = 1%R) /\ shifted_by n A B rho C /\ ee_solve e k C w = (0, y) /\
     lam = (rho + inner n w y / rayleigh n B y)%R /\ (0 < rayleigh n B y)%R /\ r = (1 / Rabs (inner n w y))%R /\ (inner n w y <> 0)%R /\
     direction n (eo_x o) y /\ norm2 n (eo_x o) = 1%R /\ same_matrix n A (eo_E o)) \/ gave_up o.
Proof.
  intros Hr Ho n. destruct (safe_ok _ _ _ (egrqi_safe e A B x rh Hr) Ho) as [(lam & r & it & v' & R1 & R2 & (k & rho & v & w & y & C & S1 & S2 & S3 & S4 & S5 & S6 & S7 & S8 & S9) & R4 & R5 & R6 & R7)|G]; [left|right; exact G].
  fold n in S1, S2, S3, S5, S6, S7, S8, S9, R4, R5, R6, R7. exists lam, r, it, k, rho, v, w, y, C. rewrite rayleigh_ip. destruct (grq_x n v' y (eo_x o) _ S6 R4 S9 R5) as [D1 D2].
  split; [exact R1|]. split; [exact R2|]. split; [intros i Hi; change (at_ w i = at_ (image n B v) i); rewrite image_at by auto; apply S2; auto|]. split; [exact S3|]. split; [exact S1|]. split; [exact S4|].
  split; [exact S7|]. split; [exact S6|]. split; [exact S8|]. split; [exact S5|]. split; [split; [exact D1|exact D2]|]. split; [exact R6|exact R7].
Qed.
Lemma grq_exact e A B x rh o : gready e rh -> egrqi e A B x rh = Ok o -> (forall rho, solves_with e (shifted_by (ee_n e) A B rho) 0%R) -> let n := ee_n e in
  (exists lam r iter, reports o lam r iter /\ verdict_le e o iter r /\ norm2 n (eo_x o) = 1%R /\ (rayleigh n B (eo_x o) <> 0)%R /\ lam = (rayleigh n A (eo_x o) / rayleigh n B (eo_x o))%R /\
     (forall K, symmetric n B -> nonnegative n B -> bounded_by n B K -> norm2 n (gen_residual n A B lam (eo_x o)) <= K * Rmax 1 K * r)%R) \/ gave_up o.
Proof.
  intros Hr Ho Hs n. destruct (safe_ok _ _ _ (egrqi_safe e A B x rh Hr) Ho) as [(lam & r & it & v' & R1 & R2 & (k & rho & v & w & y & C & S1 & S2 & S3 & S4 & S5 & S6 & S7 & S8 & S9) & R4 & R5 & R6 & R7)|G]; [left|right; exact G].
  fold n in S1, S2, S3, S5, S6, S7, S8, S9, R4, R5, R6, R7. destruct (grq_x n v' y (eo_x o) _ S6 R4 S9 R5) as [D1 D2]. fold n in D1, D2. exists lam, r, it. split; [exact R1|]. split; [exact R2|]. split; [exact R6|]. rewrite !rayleigh_ip.
  pose proof (exact_eq n C w y (Hs rho k C w y S1 S4)) as X. fold n in X.
  assert (Y : eqv n (fun i => mv_spec A n (at_ y) i - rho * mv_spec B n (at_ y) i)%R (at_ w)) by (intros i Hi; rewrite <- (X i Hi); symmetry; apply shifted_mv; auto).
  assert (Y' : eqv n (fun i => mv_spec A n (at_ y) i - rho * mv_spec B n (at_ y) i)%R (fun i => mv_spec B n (at_ v) i)) by (intros i Hi; rewrite (Y i Hi); apply S2; auto).
  assert (N1 : (1 / nm n (at_ y) <> 0)%R) by (unfold Rdiv; rewrite Rmult_1_l; apply Rinv_neq_0_compat; auto).
  destruct (grq_rayleigh n A B (at_ v) (at_ y) (at_ (eo_x o)) rho _ ltac:(apply Rgt_not_eq; exact S6) N1 Y' D2) as [Q1 Q2]. split; [exact Q2|]. split.
  { apply Rmult_eq_reg_r with (ip n (at_ (eo_x o)) (fun i => mv_spec B n (at_ (eo_x o)) i)); [|exact Q2]. unfold Rdiv. rewrite Rmult_assoc, Rinv_l, Rmult_1_r by exact Q2. rewrite Q1, S7. f_equal. f_equal. f_equal.
    apply ip_ext; [exact S2|intros i Hi; auto]. }
  intros K SB NB BB. rewrite gen_nm, S7. assert (PK : (0 <= K)%R) by (apply (bounded_pos n B K (at_ y)); auto).
  assert (Pr : (0 <= r)%R) by (rewrite S8; apply Rlt_le, Rdiv_lt_0_compat; [lra|apply Rabs_pos_lt; exact S5]).
  eapply Rle_trans; [apply (grq_math n A B (at_ v) (at_ w) (at_ y) (at_ (eo_x o)) rho r K (ip n (at_ v) (at_ w))); auto; [apply nonneg_f; auto|apply bounded_f; auto]|].
  assert (Gm : (ip n (at_ v) (at_ w) <= Rmax 1 K)%R).
  { destruct S3 as [[_ U]|U]; [|rewrite U; apply Rmax_l]. eapply Rle_trans; [|apply Rmax_r]. eapply Rle_trans; [apply Rle_abs|]. eapply Rle_trans; [apply cauchy|]. red in U. rewrite U, Rmult_1_l.
    rewrite (nm_ext n _ _ S2). pose proof (bounded_f n B K BB (at_ v)) as Z. rewrite U, Rmult_1_r in Z. exact Z. }
  apply Rmult_le_compat_r; [exact Pr|]. apply Rmult_le_compat_l; auto.
Qed.

(** ** CG and CR *)
Lemma val_unshift n e A B sg z lam r : n = ee_n e -> gcg_val e (do_gshift n sg A B) B z (lam - sg)%R r -> (lam <> sg)%R /\ (ip n (fun i => mv_spec B n z i) (fun i => mv_spec B n z i) <> 0)%R /\
  lam = (ip n (fun i => mv_spec A n z i) (fun i => mv_spec B n z i) / ip n (fun i => mv_spec B n z i) (fun i => mv_spec B n z i))%R /\
  nm n (fun i => mv_spec A n z i - lam * mv_spec B n z i)%R = (r * Rabs (lam - sg))%R.
Proof.
  intros -> (H1 & H2 & H3 & H4). set (n := ee_n e) in *. split; [intros X; apply H1; lra|]. split; [exact H2|]. split.
  - rewrite (ip_ext n (fun i => mv_spec (do_gshift n sg A B) n z i) (fun i => 1 * mv_spec A n z i + (- sg) * mv_spec B n z i)%R _ (fun i => mv_spec B n z i)) in H3; [|intros i Hi; rewrite mv_do_g by auto; ring|intros i Hi; auto].
    rewrite ip_lin in H3. change (ip n (mv_spec B n z) (fun i => mv_spec B n z i)) with (ip n (fun i => mv_spec B n z i) (fun i => mv_spec B n z i)) in H3. change (ip n (mv_spec A n z) (fun i => mv_spec B n z i)) with (ip n (fun i => mv_spec A n z i) (fun i => mv_spec B n z i)) in H3.
    set (b := ip n (fun i => mv_spec B n z i) (fun i => mv_spec B n z i)) in *. set (a := ip n (fun i => mv_spec A n z i) (fun i => mv_spec B n z i)) in *.
    replace ((1 * a + - sg * b) / b)%R with (a / b - sg)%R in H3 by (field; exact H2). lra.
  - rewrite H4. apply nm_ext. intros i Hi. rewrite mv_do_g by auto. ring.
Qed.
Lemma gcg_final small e A B x rh o : gready e rh -> egcg small e A B x rh = Ok o -> let n := ee_n e in let x0 := if ee_ones e then set_all n s1 else x in
  (exists lam r iter, reports o lam r iter /\ verdict_lt e o iter r /\ direction n (eo_x o) x0 /\ norm2 n (eo_x o) = 1%R /\ same_matrix n A (eo_E o) /\
     (solves_with e (shifted_by n A B (oshift e)) 0%R -> exists z, (lam <> oshift e)%R /\ lam = (inner n (image n A z) (image n B z) / inner n (image n B z) (image n B z))%R /\
        norm2 n (gen_residual n A B lam z) = (r * Rabs (lam - oshift e))%R /\ (iter = 1 -> forall i, 0 <= i < n -> vcomp z i = vcomp (eo_x o) i))) \/ gave_up o.
Proof.
  intros Hr Ho n x0. destruct (safe_ok _ _ _ (egcg_safe small e A B x rh Hr) Ho) as [(lam & r & it & R1 & R2 & R3 & R4 & R5 & R6 & R7)|G]; [left|right; exact G].
  exists lam, r, it. split; [exact R1|]. split; [exact R2|]. split; [split; [exact R3|exact R4]|]. split; [exact R5|]. split; [exact R7|]. intros Hs. destruct (R6 Hs) as (z & V & Hz). apply (val_unshift n) in V; [|reflexivity]. destruct V as (V1 & V2 & V3 & V4).
  exists (lst n z). split; [exact V1|]. rewrite !inner_ip, gen_nm.
  assert (IA : forall M, eqv n (at_ (image n M (lst n z))) (fun i => mv_spec M n z i)) by (intros M i Hi; rewrite image_at by auto; apply mvR_ext, at_lst).
  rewrite (ip_ext n _ _ _ _ (IA A) (IA B)), (ip_ext n _ _ _ _ (IA B) (IA B)). split; [exact V3|]. split.
  - rewrite <- V4. apply nm_ext. intros i Hi. rewrite (mvR_ext n A _ _ i (at_lst n z)), (mvR_ext n B _ _ i (at_lst n z)). reflexivity.
  - intros H1 i Hi. change (at_ (lst n z) i = at_ (eo_x o) i). rewrite (at_lst n z i Hi). apply Hz; auto.
Qed.
Lemma gcr_final e A B x rh o : gready e rh -> egcr e A B x rh = Ok o -> let n := ee_n e in
  exists lam r iter z, reports o lam r iter /\ verdict_lt e o iter r /\ norm2 n (eo_x o) = 1%R /\ direction n (eo_x o) z /\ (lam <> oshift e)%R /\
    lam = (inner n (image n A (eo_x o)) (image n B (eo_x o)) / inner n (image n B (eo_x o)) (image n B (eo_x o)))%R /\
    norm2 n (gen_residual n A B lam z) = (r * Rabs (lam - oshift e))%R /\ norm2 n (gen_residual n A B lam (eo_x o)) = (r * Rabs (lam - oshift e) / norm2 n z)%R /\ same_matrix n A (eo_E o).
Proof.
  intros Hr Ho n. destruct (safe_ok _ _ _ (egcr_safe e A B x rh Hr) Ho) as (lam & r & it & z & R1 & R2 & R3 & V & R4 & R5 & R6). fold n in V, R4, R5.
  apply (val_unshift n) in V; [|reflexivity]. destruct V as (V1 & V2 & V3 & V4). exists lam, r, it, z. split; [exact R1|]. split; [exact R2|]. split; [exact R3|]. split; [split; [exact R4|exact R5]|]. split; [exact V1|].
  set (c := (1 / nm n (at_ z))%R) in *. assert (Hc : (0 < c)%R) by (pose proof (nm_pos n (at_ z)); apply Rdiv_lt_0_compat; lra).
  assert (IA : forall M, eqv n (at_ (image n M (eo_x o))) (fun i => c * mv_spec M n (at_ z) i)%R) by (intros M i Hi; rewrite image_at by auto; rewrite (mvR_ext n M _ _ i R5); apply mvR_scal).
  rewrite !inner_ip, (ip_ext n _ _ _ _ (IA A) (IA B)), (ip_ext n _ _ _ _ (IA B) (IA B)), !ip_scal, !ip_scal_r, !gen_nm, norm2_nm. split.
  { assert (X : forall a b : R, (b <> 0)%R -> (a / b = c * (c * a) / (c * (c * b)))%R) by (intros a b Hb; field; split; [exact Hb|lra]).
    etransitivity; [exact V3|]. exact (X (ip n (fun i => mv_spec A n (at_ z) i) (fun i => mv_spec B n (at_ z) i)) (ip n (fun i => mv_spec B n (at_ z) i) (fun i => mv_spec B n (at_ z) i)) V2). }
  split; [exact V4|]. split; [|exact R6]. rewrite <- V4. rewrite (nm_ext n _ (fun i => c * (mv_spec A n (at_ z) i - lam * mv_spec B n (at_ z) i))%R).
  - rewrite nm_scal, Rabs_pos_eq by lra. unfold c. field. exact R4.
  - intros i Hi. rewrite (mvR_ext n A _ _ i R5), (mvR_ext n B _ _ i R5), !mvR_scal. ring.
Qed.
Lemma gno_ub e A B small x rh : gready e rh -> egpi e A B x rh <> UB /\ egii e A B x rh <> UB /\ egrqi e A B x rh <> UB /\ egcg small e A B x rh <> UB /\ egcr e A B x rh <> UB.
Proof.
  intros Hr. assert (G : forall X (m : res X) P, safe m P -> m <> UB) by (intros X m P H E; rewrite E in H; exact H).
  split; [apply (G _ _ _ (egpi_safe e A B x rh Hr))|]. split; [apply (G _ _ _ (egii_safe e A B x rh Hr))|]. split; [apply (G _ _ _ (egrqi_safe e A B x rh Hr))|]. split; [apply (G _ _ _ (egcg_safe small e A B x rh Hr))|apply (G _ _ _ (egcr_safe e A B x rh Hr))].
Qed.
Lemma gen_scaled n (A B : Ent) mu x z : direction n x z -> norm2 n (gen_residual n A B mu x) = (1 / norm2 n z * norm2 n (gen_residual n A B mu z))%R.
Proof.
  intros [D1 D2]. rewrite !gen_nm. rewrite norm2_nm in D1 |- *. assert (P : (0 < 1 / nm n (at_ z))%R) by (pose proof (nm_pos n (at_ z)) as Q; apply Rdiv_lt_0_compat; [lra|destruct Q as [Q|Q]; [exact Q|exfalso; apply D1; symmetry; exact Q]]).
  assert (D : eqv n (at_ x) (fun i => 1 / nm n (at_ z) * at_ z i)%R) by (intros i Hi; rewrite <- norm2_nm; apply D2; auto).
  rewrite (nm_ext n _ (fun i => 1 / nm n (at_ z) * (mv_spec A n (at_ z) i - mu * mv_spec B n (at_ z) i))%R).
  - rewrite nm_scal, Rabs_pos_eq by lra. reflexivity.
  - intros i Hi. rewrite (mvR_ext n A _ _ i D), (mvR_ext n B _ _ i D), !mvR_scal. ring.
Qed.
Lemma gcg_vector small e A B x rh o : gready e rh -> egcg small e A B x rh = Ok o -> let n := ee_n e in let x0 := if ee_ones e then set_all n s1 else x in
  (forall mu, norm2 n (gen_residual n A B mu x0) <> 0%R) -> forall mu, eo_evalue o <> None -> norm2 n (gen_residual n A B mu (eo_x o)) <> 0%R.
Proof.
  intros Hr Ho n x0 Hx mu Hev. destruct (gcg_final small e A B x rh o Hr Ho) as [(lam & r & it & _ & _ & D & _)|[_ G]]; [|contradiction].
  fold n x0 in D. rewrite (gen_scaled n A B mu _ x0 D). apply Rmult_integral_contrapositive. split; [|apply Hx]. unfold Rdiv. rewrite Rmult_1_l. apply Rinv_neq_0_compat. apply D.
Qed.
