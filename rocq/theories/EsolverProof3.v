Require Import ZArith List Bool Lia Reals Lra Field.
From Verif Require Import Base Scalar ScalarReal Spec SpecSolver SpecDiag SpecEsolver Krylov MatvecProof KrylovProof DiagProof2 RealVec Esolver EsolverTerms EsolverProof EsolverProof2.
Import ListNotations.
Open Scope Z_scope.

Lemma unit_scaled n (v u : vec) : (nm n (at_ v) <> 0)%R -> eqv n (at_ u) (fun i => 1 / nm n (at_ v) * at_ v i)%R -> unit_v n u.
Proof.
  intros Hn X. unfold unit_v. rewrite (nm_ext _ _ _ X), nm_scal. rewrite Rabs_pos_eq. field; auto.
  pose proof (nm_pos n (at_ v)). apply Rlt_le, Rdiv_lt_0_compat; lra.
Qed.
Section Cg.
Variables (small : list R -> list R -> R * R * R) (e : eenv R) (E : Ent).
Let n := ee_n e.
Let A (v : vec) (i : Z) : R := mv_spec E n (at_ v) i.
(** the first inner solve was exact *)
Variable Ex : Prop.
Definition cg_I (M iter : Z) (s : cst (T:=R)) : Prop := zlen (c_rh s) = M + 2 /\ unit_v n (c_x s) /\ (Ex -> eqv n (at_ (c_Ax s)) (A (c_x s)) /\ eqv n (at_ (c_Ap s)) (A (c_p s))) /\
  (0 < iter -> exists lam r, c_lambda s = Some lam /\ c_resid s = Some r /\ (ee_tol e <= r)%R).
Definition cg_S (M iter : Z) (s : cst (T:=R)) : Prop := unit_v n (c_x s) /\
  exists lam r, c_lambda s = Some lam /\ c_resid s = Some r /\ (r < ee_tol e)%R /\ (lam <> 0)%R /\ (Ex -> lam = ip n (at_ (c_x s)) (A (c_x s)) /\
    nm n (fun i => A (c_x s) i - lam * at_ (c_x s) i)%R = (r * Rabs lam)%R).
Lemma A_lin u a x b y : eqv n (at_ u) (fun i => a * at_ x i + b * at_ y i)%R -> forall i, A u i = (a * A x i + b * A y i)%R.
Proof. intros H i. unfold A. rewrite (mvR_ext n E _ _ i H). apply mvR_lin. Qed.
Lemma ecg_body_safe M iter s : 0 <= iter < M -> cg_I M iter s ->
  safe (ecg_body small e E (iter + 1) s) (fun c => match c with ENext s => cg_I M (iter + 1) s | EStop s => cg_S M (iter + 1) s | EFail _ _ => False end).
Proof.
  intros Hi [Hl [Hx [HE _]]]. destruct s as [x p Ax Ap l0 r0 rh]. cbn [c_x c_p c_Ax c_Ap c_lambda c_resid c_rh] in *.
  unfold ecg_body. cbn [c_x c_p c_Ax c_Ap c_lambda c_resid c_rh]. fold n. change (dot n x Ax) with (ip n (at_ x) (at_ Ax)). set (lam := ip n (at_ x) (at_ Ax)).
  apply safe_bind, safe_divz. intros Hlam. change (nrm2 n (axpyz n (sopp s1 / lam)%R Ax x)) with (nm n (at_ (axpyz n (- (1) / lam)%R Ax x))).
  set (r := nm n (at_ (axpyz n (- (1) / lam)%R Ax x))).
  apply safe_bind, safe_history; [lia|]. intros rh' Hrh.
  assert (Hr : Ex -> nm n (fun i => A x i - lam * at_ x i)%R = (r * Rabs lam)%R).
  { intros HX. destruct (HE HX) as [HAx _]. unfold r. rewrite Rmult_comm, <- (Rabs_Ropp lam), <- nm_scal. apply nm_ext. intros i Hi'. rewrite (at_axpyz (S:=ScalarR)) by auto. cbn. rewrite HAx by auto. field; auto. }
  destruct (sleb (ee_tol e) r) eqn:El; cbn [negb].
  2:{ apply slebR' in El. cbn [safe]. split; [exact Hx|]. exists lam, r. cbn [c_x c_p c_Ax c_Ap c_lambda c_resid c_rh]. do 3 (split; [auto|]).
      split; [auto|]. intros HX. destruct (HE HX) as [HAx _]. split; [unfold lam; apply ip_ext; [intros i Hi'; auto|exact HAx]|auto]. }
  apply slebR in El. apply safe_bind, safe_normalize. intros w Hw0 Hw _. destruct (small _ _) as [[v0 v1] v2].
  set (w2 := axpy n v2 p (scale n v0 w)). set (Aw2 := axpy n v2 Ap (scale n v0 (matvec n E w))).
  assert (H2 : eqv n (at_ w2) (fun i => v0 * at_ w i + v2 * at_ p i)%R).
  { intros i Hi'. unfold w2. rewrite (at_axpy (S:=ScalarR)) by auto. rewrite (at_scale (S:=ScalarR)) by auto. reflexivity. }
  assert (HA2 : Ex -> eqv n (at_ Aw2) (A w2)).
  { intros HX i Hi'. destruct (HE HX) as [_ HAp]. unfold Aw2. rewrite (at_axpy (S:=ScalarR)) by auto. rewrite (at_scale (S:=ScalarR)) by auto. rewrite (A_lin _ _ _ _ _ H2), HAp by auto.
    unfold matvec. rewrite atR_tab by auto. reflexivity. }
  set (x3 := xpay n w2 v1 x). set (Ax3 := xpay n Aw2 v1 Ax).
  assert (H3 : eqv n (at_ x3) (fun i => 1 * at_ w2 i + v1 * at_ x i)%R).
  { intros i Hi'. unfold x3. rewrite (at_xpay (S:=ScalarR)) by auto. cbn. ring. }
  assert (HA3 : Ex -> eqv n (at_ Ax3) (A x3)).
  { intros HX i Hi'. destruct (HE HX) as [HAx _]. unfold Ax3. rewrite (at_xpay (S:=ScalarR)) by auto. rewrite (A_lin _ _ _ _ _ H3), HAx, HA2 by auto. cbn. ring. }
  apply safe_bind, safe_divz. intros Hn3. apply safe_bind, safe_divz. intros Hn2. cbn [safe].
  change (nrm2 n x3) with (nm n (at_ x3)) in *. 
  assert (Hs : forall c v Av, eqv n (at_ Av) (A v) -> eqv n (at_ (scale n c Av)) (A (scale n c v))).
  { intros c v Av Hv i Hi'. rewrite (at_scale (S:=ScalarR)) by auto. rewrite Hv by auto.
    rewrite (A_lin (scale n c v) c v 0%R v); [cbn; ring|]. intros j Hj. rewrite (at_scale (S:=ScalarR)) by auto. cbn. ring. }
  split; [cbn [c_rh]; lia|]. cbn [c_x c_p c_Ax c_Ap c_lambda c_resid c_rh]. split.
  { apply (unit_scaled n x3); auto. intros i Hi'. apply (at_scale (S:=ScalarR)); auto. }
  split.
  { intros HX. split; [apply Hs; auto|]. apply Hs. intros i Hi'. rewrite (at_copy (S:=ScalarR)) by auto. rewrite HA2 by auto. symmetry. unfold A. apply mvR_ext. intros j Hj. apply (at_copy (S:=ScalarR)); auto. }
  intros _. exists lam, r. auto.
Qed.
End Cg.
Definition cg_post (e : eenv R) (E0 : Ent) (o : eout R) : Prop :=
  let n := ee_n e in let sg := oshift e in
  (exists lam r iter, eo_evalue o = Some lam /\ eo_resid o = Some r /\ eo_iter o = Some iter /\ 1 <= iter <= ee_maxiter e /\ unit_v n (eo_x o) /\
    ((eo_ret o = LIS_SUCCESS /\ (r < ee_tol e)%R /\ (inner_ok e E0 sg 0%R -> lam = ip n (at_ (eo_x o)) (fun i => mv_spec E0 n (at_ (eo_x o)) i) /\
       nm n (fun i => mv_spec E0 n (at_ (eo_x o)) i - lam * at_ (eo_x o) i)%R = (r * Rabs (lam - sg))%R)) \/
     (eo_ret o = LIS_MAXITER /\ iter = ee_maxiter e /\ (ee_tol e <= r)%R)) /\
    eo_E o = E0) \/
  (eo_ret o <> 0 /\ eo_evalue o = None /\ eo_E o = do_shift sg E0).
Lemma ecg_safe small e E0 x rh : 1 <= ee_maxiter e -> zlen rh = ee_maxiter e + 2 -> no_dup_pos E0 -> (oshift e = 0%R \/ full_diagonal (ee_n e) E0) ->
  safe (ecg small e E0 x rh) (cg_post e E0).
Proof.
  intros Hm Hl Hn Hd. unfold ecg. set (n := ee_n e). set (sg := oshift e). set (E := do_shift sg E0).
  apply safe_bind, safe_normalize. intros x1 _ Hx1 _. destruct (ee_solve e 0 E x1) as [err p] eqn:Es.
  destruct (err =? 0) eqn:Ee; cbn [negb].
  2:{ cbn. right. split; [apply Z.eqb_neq; auto|]. split; reflexivity. }
  apply Z.eqb_eq in Ee. subst err.
  set (Ex := inner_ok e E0 sg 0%R).
  assert (Hp : Ex -> eqv n (at_ x1) (fun i => mv_spec E n (at_ p) i)).
  { intros Hsol. pose proof (Hsol 0 E x1 p (shifted_do n E0 sg Hn Hd) Es) as B. fold n in B. rewrite residual_nm, Rmult_0_l in B.
    pose proof (nm_pos n (fun i => at_ x1 i - mv_spec E n (at_ p) i)%R). assert (Z : nm n (fun i => at_ x1 i - mv_spec E n (at_ p) i)%R = 0%R) by lra.
    intros i Hi. pose proof (nm_zero _ _ Z i Hi) as Y. cbv beta in Y. lra. }
  assert (HI : cg_I e E Ex (ee_maxiter e) 0 (mkC x1 p (matvec n E x1) (copy n x1) None None rh)).
  { split; [auto|]. split; [exact Hx1|]. split; [|lia]. intros HX. split; [intros i Hi; apply atR_tab; auto|]. intros i Hi. cbn [c_Ap c_p]. rewrite (at_copy (S:=ScalarR)) by auto. apply Hp; auto. }
  apply safe_bind. eapply safe_mono.
  - apply (eiterate_safe (cg_I e E Ex (ee_maxiter e)) (cg_S e E Ex (ee_maxiter e)) (fun _ _ _ => False) (ecg_body small e E) (ee_maxiter e)).
    + intros iter s Hi H. apply ecg_body_safe; auto.
    + lia.
    + rewrite Z2Nat.id by lia. lia.
    + exact HI.
  - intros [[[fl ret] it] s] [[_ [-> [-> [C1 [C2 [C3 C5]]]]]]|[[_ [-> [Hit [C1 [lam [r [X1 [X2 [X3 [X5 X46]]]]]]]]]]|[_ [_ []]]]].
    + destruct C5 as [lam [r [X1 [X2 X3]]]]; [lia|]. rewrite X1, X2. cbn. left. exists (lam + sg)%R, r, (ee_maxiter e). do 3 (split; [reflexivity|]). split; [lia|]. split; [exact C2|].
      split; [right; auto|]. apply undo_do.
    + rewrite X1, X2. cbn. left. exists (lam + sg)%R, r, it. do 3 (split; [reflexivity|]). split; [lia|]. cbn [eo_x]. fold n in C1, X46 |- *. split; [exact C1|]. split; [|apply undo_do].
      assert (Hmv : eqv n (fun i => mv_spec E n (at_ (c_x s)) i) (fun i => mv_spec E0 n (at_ (c_x s)) i - sg * at_ (c_x s) i)%R) by (intros i Hi; apply mv_do_shift; auto).
      left. split; [reflexivity|]. split; [auto|]. intros Hsol. destruct (X46 Hsol) as [X4 X6]. split.
      * rewrite X4. rewrite (ip_ext n _ (at_ (c_x s)) _ (fun i => 1 * mv_spec E0 n (at_ (c_x s)) i + (- sg) * at_ (c_x s) i)%R); [|intros i Hi; auto|intros i Hi; rewrite Hmv by auto; ring].
        rewrite ip_lin_r, <- (nm_sq n (at_ (c_x s))). red in C1. rewrite C1. change (fun i : Z => mv_spec E0 n (at_ (c_x s)) i) with (mv_spec E0 n (at_ (c_x s))). ring.
      * fold sg. replace (lam + sg - sg)%R with lam by ring. rewrite <- X6. apply nm_ext. intros i Hi. rewrite Hmv by auto. ring.
Qed.

(** ** CR *)
Section Cr.
Variables (e : eenv R) (E : Ent).
Let n := ee_n e.
Definition cr_good (s : dst (T:=R)) (r : R) : Prop := let z := d_x s in let lam := d_lambda s in
  d_resid s = Some r /\ (nm n (at_ z) <> 0)%R /\ (lam <> 0)%R /\
  lam = (ip n (at_ z) (fun i => mv_spec E n (at_ z) i) / (nm n (at_ z) * nm n (at_ z)))%R /\
  r = (nm n (fun i => mv_spec E n (at_ z) i - lam * at_ z i) / Rabs lam)%R.
Definition cr_I (M iter : Z) (s : dst (T:=R)) : Prop := zlen (d_rh s) = M + 2 /\ (0 < iter -> exists r, cr_good s r /\ (ee_tol e <= r)%R).
Definition cr_S (M iter : Z) (s : dst (T:=R)) : Prop := exists r, cr_good s r /\ (r < ee_tol e)%R.
Lemma ecr_body_safe M iter s : 0 <= iter < M -> cr_I M iter s ->
  safe (ecr_body e E (iter + 1) s) (fun c => match c with ENext s => cr_I M (iter + 1) s | EStop s => cr_S M (iter + 1) s | EFail _ _ => False end).
Proof.
  intros Hi [Hl _]. destruct s as [x p r Ap lam r0 rh]. unfold ecr_body. cbn [d_x d_p d_r d_Ap d_lambda d_resid d_rh] in *. fold n.
  apply safe_bind, safe_divz. intros _. set (z := axpy n _ p x). 
  apply safe_bind, safe_divz. intros Hnz. change (nrm2 n z) with (nm n (at_ z)) in *.
  assert (Hnz' : (nm n (at_ z) <> 0)%R) by (intros X; apply Hnz; cbn; rewrite X; ring).
  set (l := (dot n z (matvec n E z) / smul (nm n (at_ z)) (nm n (at_ z)))%R).
  assert (Hy : eqv n (at_ (matvec n E z)) (fun i => mv_spec E n (at_ z) i)) by (intros i Hi'; apply atR_tab; auto).
  apply safe_bind, safe_divz. intros _. apply safe_bind, safe_divz. intros Hla. apply safe_bind, safe_history; [lia|]. intros rh' Hrh. cbn [safe].
  match goal with |- context [(nrm2 n ?a / _)%R] => assert (Hr : nrm2 n a = nm n (fun i => mv_spec E n (at_ z) i - l * at_ z i)%R) end.
  { rewrite nrm2_nm. rewrite (nm_ext n _ (fun i => (-1) * (mv_spec E n (at_ z) i - l * at_ z i))%R).
    - rewrite nm_scal. replace (Rabs (-1)) with 1%R by (rewrite <- (Rabs_Ropp (-1)), Rabs_pos_eq; lra). ring.
    - intros i Hi'. rewrite (at_scale (S:=ScalarR)) by auto. rewrite (at_axpyz (S:=ScalarR)) by auto. rewrite Hy by auto. cbn. fold l. ring. }
  rewrite Hr. set (rr := (nm n (fun i => mv_spec E n (at_ z) i - l * at_ z i) / sabs l)%R).
  assert (G : forall a b c, cr_good (mkD z a b c l (Some rr) rh') rr).
  { intros a b c. split; [reflexivity|]. cbn [d_x d_lambda]. split; [auto|]. split; [intros X; apply Hla; cbn; fold l; rewrite X; apply Rabs_R0|]. split; [|reflexivity].
    unfold l. rewrite dot_ip. f_equal. apply ip_ext; [intros i Hi'; auto|exact Hy]. }
  destruct (sleb (ee_tol e) rr) eqn:El; cbn [negb].
  - apply slebR in El. split; [cbn [d_rh]; lia|]. intros _. exists rr. split; auto.
  - apply slebR' in El. exists rr. split; auto.
Qed.
End Cr.
Definition cr_post (e : eenv R) (E0 : Ent) (o : eout R) : Prop :=
  let n := ee_n e in let sg := oshift e in
  exists lam r iter z, eo_evalue o = Some lam /\ eo_resid o = Some r /\ eo_iter o = Some iter /\ 1 <= iter <= ee_maxiter e /\ unit_v n (eo_x o) /\
    ((eo_ret o = LIS_SUCCESS /\ (r < ee_tol e)%R) \/ (eo_ret o = LIS_MAXITER /\ iter = ee_maxiter e /\ (ee_tol e <= r)%R)) /\
    lam = ip n (at_ (eo_x o)) (fun i => mv_spec E0 n (at_ (eo_x o)) i) /\ (lam <> sg)%R /\
    (nm n (at_ z) <> 0)%R /\ eqv n (at_ (eo_x o)) (fun i => 1 / nm n (at_ z) * at_ z i)%R /\
    nm n (fun i => mv_spec E0 n (at_ z) i - lam * at_ z i)%R = (r * Rabs (lam - sg))%R /\
    (nm n (fun i => mv_spec E0 n (at_ (eo_x o)) i - lam * at_ (eo_x o) i) * nm n (at_ z))%R = (r * Rabs (lam - sg))%R /\
    eo_E o = E0.
Lemma ecr_safe e E0 x rh : 1 <= ee_maxiter e -> zlen rh = ee_maxiter e + 2 -> no_dup_pos E0 -> (oshift e = 0%R \/ full_diagonal (ee_n e) E0) ->
  safe (ecr e E0 x rh) (cr_post e E0).
Proof.
  intros Hm Hl Hn Hd. unfold ecr. set (n := ee_n e). set (sg := oshift e). set (E := do_shift sg E0).
  apply safe_bind, safe_normalize. intros x1 _ Hx1 _. apply safe_bind. eapply safe_mono.
  - apply (eiterate_safe (cr_I e E (ee_maxiter e)) (cr_S e E 0) (fun _ _ _ => False) (ecr_body e E) (ee_maxiter e)).
    + intros iter s Hi H. eapply safe_mono; [apply ecr_body_safe; [exact Hi|exact H]|]. intros [a|a|q a]; cbn; auto.
    + lia.
    + rewrite Z2Nat.id by lia. lia.
    + split; [cbn; auto|lia].
  - intros [[[fl ret] it] s] H.
    assert (G : 1 <= it <= ee_maxiter e /\ exists r, cr_good e E s r /\ ((ret = LIS_SUCCESS /\ (r < ee_tol e)%R) \/ (ret = LIS_MAXITER /\ it = ee_maxiter e /\ (ee_tol e <= r)%R))).
    { destruct H as [[_ [-> [-> [C1 C2]]]]|[[_ [-> [Hit [r [G Hr]]]]]|[_ [_ []]]]].
      - destruct C2 as [r [G Hr]]; [lia|]. split; [lia|]. exists r. split; [auto|]. auto.
      - split; [lia|]. exists r. split; auto. }
    clear H. destruct G as [Hit [r [[Hr [Hz [Hl0 [Hlam Hrr]]]] Hret]]]. fold n in Hz, Hlam, Hrr. rewrite Hr. cbn [get bind].
    apply safe_bind, safe_normalize. intros w _ Hw Hw'. cbn [safe].
    set (z := d_x s) in *. set (l := d_lambda s) in *.
    assert (Hmv : forall u, eqv n (fun i => mv_spec E n (at_ u) i) (fun i => mv_spec E0 n (at_ u) i - sg * at_ u i)%R) by (intros u i Hi; apply mv_do_shift; auto).
    assert (Hz2 : nm n (fun i => mv_spec E0 n (at_ z) i - (l + sg) * at_ z i)%R = (r * Rabs (l + sg - sg))%R).
    { replace (l + sg - sg)%R with l by ring. rewrite Hrr. pose proof (Rabs_pos_lt l Hl0). unfold Rdiv. rewrite Rmult_assoc, Rinv_l, Rmult_1_r by lra.
      apply nm_ext. intros i Hi. rewrite Hmv by auto. ring. }
    exists (l + sg)%R, r, it, z. fold n sg. cbn [eo_evalue eo_resid eo_iter eo_x eo_ret eo_E].
    do 3 (split; [reflexivity|]). split; [auto|]. split; [exact Hw|]. split; [exact Hret|]. split.
    { rewrite Hlam. rewrite (ip_ext n (at_ w) (fun i => 1 / nm n (at_ z) * at_ z i)%R (fun i => mv_spec E0 n (at_ w) i) (fun i => 1 / nm n (at_ z) * (1 * mv_spec E n (at_ z) i + sg * at_ z i))%R).
      - rewrite ip_scal, ip_scal_r, ip_lin_r, <- (nm_sq n (at_ z)). change (fun i : Z => mv_spec E n (at_ z) i) with (mv_spec E n (at_ z)). field; auto.
      - exact Hw'.
      - intros i Hi. rewrite (mvR_ext n E0 _ _ i Hw'), mvR_scal. pose proof (Hmv z i Hi) as B. cbv beta in B. rewrite B. f_equal. ring. }
    split; [intros X; apply Hl0; lra|]. split; [auto|]. split; [exact Hw'|]. split; [exact Hz2|]. split; [|apply undo_do].
    rewrite <- Hz2. rewrite (scaled_residual n E0 (at_ w) (at_ z) _ (l + sg) Hw').
    pose proof (nm_pos n (at_ z)). rewrite Rabs_pos_eq by (apply Rlt_le, Rdiv_lt_0_compat; lra). field; auto.
Qed.
