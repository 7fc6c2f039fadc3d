Require Import ZArith List Bool Lia Reals Lra Field.
From Verif Require Import Base Scalar ScalarReal Spec SpecSolver SpecDiag SpecEsolver Krylov MatvecProof KrylovProof RealVec Esolver EsolverTerms EsolverProof EsolverProof2 EsolverProof3 Gesolver SpecGesolver GesTerms GesProof.
Import ListNotations.
Open Scope Z_scope.

(** ** RQI *)
Section Rqi.
Variables (e : eenv R) (E0 F : Ent).
Let n := ee_n e.
Definition grq_step (iter : Z) (v' : vec) (rho' r : R) : Prop := exists k rho v w y E1, shifted_by n E0 F rho E1 /\ eqv n (at_ w) (fun i => mv_spec F n (at_ v) i) /\
  ((iter = 1 /\ unit_v n v) \/ ip n (at_ v) (at_ w) = 1%R) /\ ee_solve e k E1 w = (0, y) /\
  let th := ip n (at_ w) (at_ y) in let e2 := ip n (at_ y) (fun i => mv_spec F n (at_ y) i) in
  (th <> 0)%R /\ (0 < e2)%R /\ rho' = (rho + th / e2)%R /\ r = (1 / Rabs th)%R /\ eqv n (at_ v') (fun i => 1 / sqrt e2 * at_ y i)%R.
Definition grq_base (M iter : Z) (s : gst R) : Prop := zlen (g_rh s) = M + 2 /\ same_matrix n E0 (g_E s) /\ eqv n (at_ (g_w s)) (fun i => mv_spec F n (at_ (g_v s)) i) /\
  ((iter = 0 /\ unit_v n (g_v s)) \/ ip n (at_ (g_v s)) (at_ (g_w s)) = 1%R).
Definition grq_I (M iter : Z) (s : gst R) : Prop := grq_base M iter s /\ (0 < iter -> exists r, g_resid s = Some r /\ (ee_tol e < r)%R /\ grq_step iter (g_v s) (g_rho s) r).
Definition grq_S (M iter : Z) (s : gst R) : Prop := grq_base M iter s /\ exists r, g_resid s = Some r /\ (r <= ee_tol e)%R /\ grq_step iter (g_v s) (g_rho s) r.
Definition grq_F (err iter : Z) (s : gst R) : Prop := err <> 0.
Lemma shifted_same rho (E E1 : Ent) : same_matrix n E0 E -> shifted_by n E F rho E1 -> shifted_by n E0 F rho E1.
Proof. intros H G i j Hi Hj. rewrite G by auto. rewrite H by auto. reflexivity. Qed.
Lemma egrqi_body_safe M iter s : 0 <= iter < M -> grq_I M iter s ->
  safe (egrqi_body e F (iter + 1) s) (fun c => match c with ENext s => grq_I M (iter + 1) s | EStop s => grq_S M (iter + 1) s | EFail err s => grq_F err (iter + 1) s end).
Proof.
  intros Hi [(Hl & HE & Hw & Hn) _]. destruct s as [v w E rho r0 rh]. unfold egrqi_body. cbn [g_v g_w g_E g_rho g_resid g_rh] in *. fold n.
  set (E1 := gshift n rho E F). assert (H1 : shifted_by n E F rho E1) by apply coef_gshift.
  destruct (ee_solve e (iter + 1) E1 w) as [err y] eqn:Es.
  destruct (err =? 0) eqn:Ee; cbn [negb]; [|cbn; red; apply Z.eqb_neq; auto]. apply Z.eqb_eq in Ee. subst err.
  change (dot n w y) with (ip n (at_ w) (at_ y)). set (th := ip n (at_ w) (at_ y)).
  assert (HB : dot n (matvec n F y) y = ip n (at_ y) (fun i => mv_spec F n (at_ y) i)).
  { rewrite dot_ip, ip_sym. apply ip_ext; [intros i Hi'; auto|intros i Hi'; unfold matvec; apply atR_tab; auto]. }
  rewrite HB. set (e2 := ip n (at_ y) (fun i => mv_spec F n (at_ y) i)).
  apply safe_bind, safe_sqrtz. intros He0. apply safe_bind, safe_divz. intros Hq.
  pose proof (sqrt_sqrt e2 He0) as Sq. assert (He2 : (0 < e2)%R) by (rewrite <- Sq; pose proof (sqrt_pos e2); nra).
  change (smul (sqrt e2) (sqrt e2)) with (sqrt e2 * sqrt e2)%R. rewrite Sq.
  apply safe_bind, safe_divz. intros _. apply safe_bind, safe_divz. intros Ht.
  apply safe_bind, safe_history; [lia|]. intros rh' Hrh. cbn [safe].
  assert (Ht0 : (th <> 0)%R) by (intros X; apply Ht; change (Rabs th = 0%R); rewrite X; apply Rabs_R0).
  set (v' := copy n (scale n (s1 / sqrt e2)%R y)). set (w' := scale n (s1 / sqrt e2)%R (matvec n F y)).
  assert (Hv' : eqv n (at_ v') (fun i => 1 / sqrt e2 * at_ y i)%R).
  { intros i Hi'. unfold v'. rewrite (at_copy (S:=ScalarR)) by auto. apply (at_scale (S:=ScalarR)); auto. }
  assert (Hw'0 : eqv n (at_ w') (fun i => 1 / sqrt e2 * mv_spec F n (at_ y) i)%R).
  { intros i Hi'. unfold w'. rewrite (at_scale (S:=ScalarR)) by auto. unfold matvec. rewrite atR_tab by auto. reflexivity. }
  assert (Hw' : eqv n (at_ w') (fun i => mv_spec F n (at_ v') i)).
  { intros i Hi'. rewrite Hw'0 by auto. rewrite (mvR_ext n F _ _ i Hv'), mvR_scal. reflexivity. }
  set (r := (s1 / sabs th)%R). set (rho' := sadd rho (th / e2)%R).
  assert (Bs : forall rr, grq_base M (iter + 1) (mkG v' w' (gshift n (sopp rho) E1 F) rho' rr rh')).
  { intros rr. split; [cbn; lia|]. split; [cbn [g_E]; apply (gshift_back n rho E0 F E1), (shifted_same rho E E1 HE H1)|]. split; [exact Hw'|]. right. cbn [g_v g_w].
    rewrite (ip_ext n _ _ _ _ Hv' Hw'0), ip_scal, ip_scal_r. assert (Z0 : (1 / sqrt e2 * (1 / sqrt e2 * (sqrt e2 * sqrt e2)) = 1)%R) by (field; exact Hq). rewrite Sq in Z0. exact Z0. }
  assert (St : grq_step (iter + 1) v' rho' r).
  { exists (iter + 1), rho, v, w, y, E1. split; [exact (shifted_same rho E E1 HE H1)|]. split; [exact Hw|]. split; [destruct Hn as [[-> Hn]|Hn]; [left; auto|right; auto]|]. split; [exact Es|].
    cbv zeta. fold th e2. split; [auto|]. split; [auto|]. split; [reflexivity|]. split; [reflexivity|exact Hv']. }
  destruct (sleb r (ee_tol e)) eqn:El.
  - apply slebR in El. split; [apply Bs|]. exists r. split; [reflexivity|]. split; [auto|exact St].
  - apply slebR' in El. split; [apply Bs|]. intros _. exists r. split; [reflexivity|]. split; [auto|exact St].
Qed.
Definition grq_post (o : eout R) : Prop :=
  (exists lam r iter v', reports o lam r iter /\ verdict_le e o iter r /\ grq_step iter v' lam r /\ (nm n (at_ v') <> 0)%R /\ eqv n (at_ (eo_x o)) (fun i => 1 / nm n (at_ v') * at_ v' i)%R /\ unit_v n (eo_x o) /\ same_matrix n E0 (eo_E o)) \/ gave_up o.
Lemma egrqi_safe x rh : gready e rh -> safe (egrqi e E0 F x rh) grq_post.
Proof.
  intros [Hm Hl]. unfold egrqi. fold n. apply safe_bind, safe_normalize. intros v1 _ Hv1 _. apply safe_bind, safe_divz. intros _. set (rho := (_ / _)%R).
  apply safe_bind. eapply safe_mono.
  - apply (eiterate_safe (grq_I (ee_maxiter e)) (grq_S (ee_maxiter e)) grq_F (egrqi_body e F) (ee_maxiter e)).
    + intros iter s Hi H. apply egrqi_body_safe; auto.
    + lia.
    + rewrite Z2Nat.id by lia. lia.
    + split; [|lia]. split; [exact Hl|]. split; [intros i j _ _; reflexivity|]. split; [intros i Hi; cbn [g_w g_v]; unfold matvec; apply atR_tab; auto|left; auto].
  - intros [[[fl ret] it] s] H.
    assert (G : (fl = true /\ ret <> 0) \/ (fl = false /\ same_matrix n E0 (g_E s) /\ 1 <= it <= ee_maxiter e /\ exists r, g_resid s = Some r /\ grq_step it (g_v s) (g_rho s) r /\
       ((ret = LIS_SUCCESS /\ (r <= ee_tol e)%R) \/ (ret = LIS_MAXITER /\ it = ee_maxiter e /\ (ee_tol e < r)%R)))).
    { destruct H as [[Hf [A [B [C1 C2]]]]|[[Hf [A [B [C1 C2]]]]|[Hf [_ C]]]]; [right|right|left; auto].
      - destruct C2 as [r [X [Y W]]]; [lia|]. destruct C1 as (_ & C1 & _). split; [auto|]. split; [auto|]. split; [lia|]. exists r. auto 10.
      - destruct C2 as [r [X [Y W]]]. destruct C1 as (_ & C1 & _). split; [auto|]. split; [auto|]. split; [lia|]. exists r. auto 10. }
    clear H. destruct G as [[-> Hret]|(-> & HE & Hit & r & Hr & St & Hret)].
    { right. split; [exact Hret|reflexivity]. }
    rewrite Hr. cbn [get bind]. apply safe_bind, safe_normalize. intros w Hw0 Hw Hw'. cbn [safe].
    left. exists (g_rho s), r, it, (g_v s). split; [repeat split|]. split; [split; [exact Hit|exact Hret]|]. split; [exact St|]. split; [exact Hw0|]. split; [exact Hw'|]. split; [exact Hw|exact HE].
Qed.
End Rqi.

(** ** CG: Ax, Bx, Ap, Bp follow some z and u; x itself never changes *)
Section Cg.
Variables (small : list R -> list R -> R * R * R) (e : eenv R) (E F : Ent) (x1 : vec).
Let n := ee_n e.
Let A (v : Z -> R) (i : Z) : R := mv_spec E n v i.
Let B (v : Z -> R) (i : Z) : R := mv_spec F n v i.
Variable Ex : Prop.
Definition gcg_val (z : Z -> R) (lam r : R) : Prop := (lam <> 0)%R /\ (ip n (B z) (B z) <> 0)%R /\ lam = (ip n (A z) (B z) / ip n (B z) (B z))%R /\
  (r * Rabs lam)%R = nm n (fun i => A z i - lam * B z i)%R.
Definition gcg_base (M iter : Z) (s : gcst R) : Prop := zlen (gc_rh s) = M + 2 /\ unit_v n (gc_x s) /\ eqv n (at_ (gc_x s)) (at_ x1).
Definition gcg_I (M iter : Z) (s : gcst R) : Prop := gcg_base M iter s /\
  (Ex -> exists z u, eqv n (at_ (gc_Ax s)) (A z) /\ eqv n (at_ (gc_Bx s)) (B z) /\ eqv n (at_ (gc_Ap s)) (A u) /\ eqv n (at_ (gc_Bp s)) (B u) /\ (iter = 0 -> eqv n z (at_ x1))) /\
  (0 < iter -> exists lam r, gc_lambda s = Some lam /\ gc_resid s = Some r /\ (ee_tol e <= r)%R /\ (Ex -> exists z, gcg_val z lam r /\ (iter = 1 -> eqv n z (at_ x1)))).
Definition gcg_S (M iter : Z) (s : gcst R) : Prop := gcg_base M iter s /\
  exists lam r, gc_lambda s = Some lam /\ gc_resid s = Some r /\ (r < ee_tol e)%R /\ (Ex -> exists z, gcg_val z lam r /\ (iter = 1 -> eqv n z (at_ x1))).
Lemma mvR_comb (M : Ent) a b c f g h i : mv_spec M n (fun j => a * f j + b * g j + c * h j)%R i = (a * mv_spec M n f i + b * mv_spec M n g i + c * mv_spec M n h i)%R.
Proof.
  rewrite (mvR_ext n M _ (fun j => 1 * (a * f j + b * g j) + c * h j)%R) by (intros j Hj; ring). rewrite (mvR_lin n M 1 c (fun j => a * f j + b * g j)%R h), (mvR_lin n M a b f g). ring.
Qed.
Lemma egcg_body_safe M iter s : 0 <= iter < M -> gcg_I M iter s ->
  safe (egcg_body small e E F (iter + 1) s) (fun c => match c with ENext s => gcg_I M (iter + 1) s | EStop s => gcg_S M (iter + 1) s | EFail _ _ => False end).
Proof.
  intros Hi [(Hl & Hu & Hx) [HE _]]. destruct s as [x p Ax Ap Bx Bp l0 r0 rh]. cbn [gc_x gc_p gc_Ax gc_Ap gc_Bx gc_Bp gc_lambda gc_resid gc_rh] in *.
  unfold egcg_body. cbn [gc_x gc_p gc_Ax gc_Ap gc_Bx gc_Bp gc_lambda gc_resid gc_rh]. fold n.
  apply safe_bind, safe_divz. intros HBB. set (lam := (dot n Ax Bx / dot n Bx Bx)%R). apply safe_bind, safe_divz. intros Hlam. set (m := (sopp s1 / lam)%R).
  set (r := nrm2 n (axpyz n m Ax Bx)). apply safe_bind, safe_history; [lia|]. intros rh' Hrh.
  assert (V : Ex -> exists z, gcg_val z lam r /\ (iter + 1 = 1 -> eqv n z (at_ x1))).
  { intros HX. destruct (HE HX) as (z & u & H1 & H2 & _ & _ & H5). exists z. split; [|intros; apply H5; lia].
    split; [exact Hlam|]. rewrite dot_ip, (ip_ext n _ _ _ _ H2 H2) in HBB. split; [exact HBB|]. split; [unfold lam; rewrite !dot_ip, (ip_ext n _ _ _ _ H1 H2), (ip_ext n _ _ _ _ H2 H2); reflexivity|].
    unfold r. rewrite nrm2_nm, Rmult_comm, <- (Rabs_Ropp lam), <- nm_scal. apply nm_ext. intros i Hi'. rewrite (at_axpyz (S:=ScalarR)) by auto. unfold m. cbn. rewrite H1, H2 by auto. field. exact Hlam. }
  destruct (sleb (ee_tol e) r) eqn:El; cbn [negb].
  2:{ apply slebR' in El. cbn [safe]. split; [repeat split; auto; cbn; lia|]. exists lam, r. auto. }
  apply slebR in El. apply safe_bind, safe_normalize. intros w _ Hw _. destruct (small _ _) as [[v0 v1] v2].
  apply safe_bind, safe_divz. intros Hn3. apply safe_bind, safe_divz. intros Hn2. cbn [safe].
  change (nrm2 n x) with (nm n (at_ x)). red in Hu. rewrite Hu.
  split.
  { split; [cbn; lia|]. cbn [gc_x]. assert (X : eqv n (at_ (scale n (s1 / 1)%R x)) (at_ x)) by (intros i Hi'; rewrite (at_scale (S:=ScalarR)) by auto; cbn; field).
    split; [unfold unit_v; rewrite (nm_ext _ _ _ X); exact Hu|]. intros i Hi'. rewrite X by auto. apply Hx; auto. }
  split.
  { intros HX. destruct (HE HX) as (z & u & H1 & H2 & H3 & H4 & H5). set (c := (s1 / nrm2 n p)%R).
    exists (fun i => v0 * at_ w i + v2 * u i + v1 * z i)%R, (fun i => (c * v0) * at_ w i + (c * v2) * u i + 0 * z i)%R. cbn [gc_x gc_p gc_Ax gc_Ap gc_Bx gc_Bp].
    unfold A, B in *. split; [|split; [|split; [|split; [|lia]]]].
    - intros i Hi'. rewrite mvR_comb. rewrite (at_scale (S:=ScalarR)), (at_xpay (S:=ScalarR)), (at_axpy (S:=ScalarR)), (at_scale (S:=ScalarR)) by auto. unfold matvec. rewrite atR_tab by auto. rewrite H1, H3 by auto. cbn. field.
    - intros i Hi'. rewrite mvR_comb. rewrite (at_scale (S:=ScalarR)), (at_xpay (S:=ScalarR)), (at_axpy (S:=ScalarR)), (at_scale (S:=ScalarR)) by auto. unfold matvec. rewrite atR_tab by auto. rewrite H2, H4 by auto. cbn. field.
    - intros i Hi'. rewrite mvR_comb. rewrite (at_scale (S:=ScalarR)), (at_copy (S:=ScalarR)), (at_axpy (S:=ScalarR)), (at_scale (S:=ScalarR)) by auto. unfold matvec. rewrite atR_tab by auto. rewrite H3 by auto. cbn. ring.
    - intros i Hi'. rewrite mvR_comb. rewrite (at_scale (S:=ScalarR)), (at_copy (S:=ScalarR)), (at_axpy (S:=ScalarR)), (at_scale (S:=ScalarR)) by auto. unfold matvec. rewrite atR_tab by auto. rewrite H4 by auto. cbn. ring. }
  intros _. exists lam, r. auto.
Qed.
End Cg.
(** z and lam, r in terms of the matrix shifted *)
Definition gcg_post (e : eenv R) (E0 F : Ent) (x0 : vec) (o : eout R) : Prop :=
  let n := ee_n e in let sg := oshift e in let E := do_gshift n sg E0 F in
  (exists lam r iter, reports o lam r iter /\ verdict_lt e o iter r /\ (nm n (at_ x0) <> 0)%R /\ eqv n (at_ (eo_x o)) (fun i => 1 / nm n (at_ x0) * at_ x0 i)%R /\ unit_v n (eo_x o) /\
     (solves_with e (shifted_by n E0 F sg) 0%R -> exists z, gcg_val e E F z (lam - sg)%R r /\ (iter = 1 -> eqv n z (at_ (eo_x o)))) /\ same_matrix n E0 (eo_E o)) \/ gave_up o.
Lemma egcg_safe small e (E0 F : Ent) x rh : gready e rh -> safe (egcg small e E0 F x rh) (gcg_post e E0 F (if ee_ones e then set_all (ee_n e) s1 else x)).
Proof.
  intros [Hm Hl]. unfold egcg. set (n := ee_n e). set (sg := oshift e). set (E := do_gshift n sg E0 F). set (x0 := if ee_ones e then set_all n s1 else x).
  apply safe_bind, safe_normalize. intros x1 Hx0 Hx1 Hx1'. destruct (ee_solve e 0 E x1) as [err p] eqn:Es.
  destruct (err =? 0) eqn:Ee; cbn [negb].
  2:{ right. split; [apply Z.eqb_neq; auto|reflexivity]. }
  apply Z.eqb_eq in Ee. subst err. set (Ex := solves_with e (shifted_by n E0 F sg) 0%R).
  assert (Hp : Ex -> eqv n (at_ x1) (fun i => mv_spec E n (at_ p) i)).
  { intros Hsol. pose proof (Hsol 0 E x1 p (shifted_do_g n sg E0 F) Es) as B. fold n in B. rewrite residual_nm, Rmult_0_l in B.
    pose proof (nm_pos n (fun i => at_ x1 i - mv_spec E n (at_ p) i)%R). assert (Z : nm n (fun i => at_ x1 i - mv_spec E n (at_ p) i)%R = 0%R) by lra.
    intros i Hi. pose proof (nm_zero _ _ Z i Hi) as Y. cbv beta in Y. lra. }
  apply safe_bind. eapply safe_mono.
  - apply (eiterate_safe (gcg_I e E F x1 Ex (ee_maxiter e)) (gcg_S e E F x1 Ex (ee_maxiter e)) (fun _ _ _ => False) (egcg_body small e E F) (ee_maxiter e)).
    + intros iter s Hi H. apply egcg_body_safe; auto.
    + lia.
    + rewrite Z2Nat.id by lia. lia.
    + split; [split; [exact Hl|]; split; [exact Hx1|intros i Hi; reflexivity]|]. split; [|lia]. intros HX. exists (at_ x1), (at_ p). cbn [gc_Ax gc_Bx gc_Ap gc_Bp]. fold n.
      split; [intros i Hi; apply atR_tab; auto|]. split; [intros i Hi; apply atR_tab; auto|]. split; [intros i Hi; rewrite (at_copy (S:=ScalarR)) by auto; apply Hp; auto|]. split; [intros i Hi; apply atR_tab; auto|intros _ i Hi; reflexivity].
  - intros [[[fl ret] it] s] H.
    assert (G : unit_v n (gc_x s) /\ eqv n (at_ (gc_x s)) (at_ x1) /\ 1 <= it <= ee_maxiter e /\ exists lam r, gc_lambda s = Some lam /\ gc_resid s = Some r /\
       ((ret = LIS_SUCCESS /\ (r < ee_tol e)%R) \/ (ret = LIS_MAXITER /\ it = ee_maxiter e /\ (ee_tol e <= r)%R)) /\ (Ex -> exists z, gcg_val e E F z lam r /\ (it = 1 -> eqv n z (at_ x1)))).
    { destruct H as [[Hf [A [B [(_ & C1 & C2) [_ C3]]]]]|[[Hf [A [B [(_ & C1 & C2) C3]]]]|[Hf [_ []]]]].
      - destruct C3 as (lam & r & X1 & X2 & X3 & X4); [lia|]. split; [auto|]. split; [auto|]. split; [lia|]. exists lam, r. auto 10.
      - destruct C3 as (lam & r & X1 & X2 & X3 & X4). split; [auto|]. split; [auto|]. split; [lia|]. exists lam, r. auto 10. }
    clear H. destruct G as (G1 & G2 & Hit & lam & r & X1 & X2 & Hret & HV). rewrite X1, X2. cbn [get bind safe]. left. exists (lam + sg)%R, r, it. fold n sg E.
    split; [repeat split|]. split; [split; [exact Hit|exact Hret]|]. split; [exact Hx0|]. cbn [eo_x eo_E]. split; [intros i Hi; rewrite G2 by auto; apply Hx1'; auto|]. split; [exact G1|]. split; [|apply undo_do_g].
    intros HX. destruct (HV HX) as (z & V & Hz). exists z. replace (lam + sg - sg)%R with lam by ring. split; [exact V|]. intros H1 i Hi. rewrite G2 by auto. apply Hz; auto.
Qed.

(** ** CR *)
Section Cr.
Variables (e : eenv R) (E F : Ent).
Let n := ee_n e.
Definition gcr_good (s : gdst R) (r : R) : Prop := gd_resid s = Some r /\ gcg_val e E F (at_ (gd_x s)) (gd_lambda s) r.
Definition gcr_I (M iter : Z) (s : gdst R) : Prop := zlen (gd_rh s) = M + 2 /\ (0 < iter -> exists r, gcr_good s r /\ (ee_tol e <= r)%R).
Definition gcr_S (M iter : Z) (s : gdst R) : Prop := exists r, gcr_good s r /\ (r < ee_tol e)%R.
Lemma egcr_body_safe M iter s : 0 <= iter < M -> gcr_I M iter s ->
  safe (egcr_body e E F (iter + 1) s) (fun c => match c with ENext s => gcr_I M (iter + 1) s | EStop s => gcr_S M (iter + 1) s | EFail _ _ => False end).
Proof.
  intros Hi [Hl _]. destruct s as [x p r Ap Bp lam r0 rh]. unfold egcr_body. cbn [gd_x gd_p gd_r gd_Ap gd_Bp gd_lambda gd_resid gd_rh] in *. fold n.
  apply safe_bind, safe_divz. intros _. set (z := axpy n _ p x). 
  apply safe_bind, safe_divz. intros HBB.
  assert (HA : eqv n (at_ (matvec n E z)) (fun i => mv_spec E n (at_ z) i)) by (intros i Hi'; apply atR_tab; auto).
  assert (HB : eqv n (at_ (matvec n F z)) (fun i => mv_spec F n (at_ z) i)) by (intros i Hi'; apply atR_tab; auto).
  set (l := (_ / _)%R).
  apply safe_bind, safe_divz. intros _. apply safe_bind, safe_divz. intros Hla. apply safe_bind, safe_history; [lia|]. intros rh' Hrh. cbn [safe].
  match goal with |- context [(nrm2 n ?a / _)%R] => assert (Hr : nrm2 n a = nm n (fun i => mv_spec E n (at_ z) i - l * mv_spec F n (at_ z) i)%R) end.
  { rewrite nrm2_nm. rewrite (nm_ext n _ (fun i => (-1) * (mv_spec E n (at_ z) i - l * mv_spec F n (at_ z) i))%R).
    - rewrite nm_scal. replace (Rabs (-1)) with 1%R by (rewrite <- (Rabs_Ropp (-1)), Rabs_pos_eq; lra). ring.
    - intros i Hi'. rewrite (at_scale (S:=ScalarR)) by auto. rewrite (at_axpyz (S:=ScalarR)) by auto. rewrite HA, HB by auto. cbn. fold l. ring. }
  rewrite Hr. set (rr := (nm n (fun i => mv_spec E n (at_ z) i - l * mv_spec F n (at_ z) i) / sabs l)%R).
  assert (Hl0 : (l <> 0)%R) by (intros X; apply Hla; cbn; fold l; rewrite X; apply Rabs_R0).
  assert (G : forall a b c d, gcr_good (mkGD z a b c d l (Some rr) rh') rr).
  { intros a b c d. split; [reflexivity|]. cbn [gd_x gd_lambda]. split; [auto|]. fold n. rewrite dot_ip, (ip_ext n _ _ _ _ HB HB) in HBB. split; [exact HBB|]. split.
    - unfold l. rewrite !dot_ip. rewrite (ip_ext n _ _ _ _ HA HB), (ip_ext n _ _ _ _ HB HB). reflexivity.
    - unfold rr. cbn. field. apply Rabs_no_R0; auto. }
  destruct (sleb (ee_tol e) rr) eqn:El; cbn [negb].
  - apply slebR in El. split; [cbn [gd_rh]; lia|]. intros _. exists rr. split; [apply G|exact El].
  - apply slebR' in El. exists rr. split; [apply G|exact El].
Qed.
End Cr.
Definition gcr_post (e : eenv R) (E0 F : Ent) (o : eout R) : Prop :=
  let n := ee_n e in let sg := oshift e in
  exists lam r iter z, reports o lam r iter /\ verdict_lt e o iter r /\ unit_v n (eo_x o) /\ gcg_val e (do_gshift n sg E0 F) F (at_ z) (lam - sg)%R r /\
    (nm n (at_ z) <> 0)%R /\ eqv n (at_ (eo_x o)) (fun i => 1 / nm n (at_ z) * at_ z i)%R /\ same_matrix n E0 (eo_E o).
Lemma egcr_safe e (E0 F : Ent) x rh : gready e rh -> safe (egcr e E0 F x rh) (gcr_post e E0 F).
Proof.
  intros [Hm Hl]. unfold egcr. set (n := ee_n e). set (sg := oshift e). set (E := do_gshift n sg E0 F).
  apply safe_bind, safe_normalize. intros x1 _ Hx1 _. apply safe_bind, safe_divz. intros _. apply safe_bind. eapply safe_mono.
  - apply (eiterate_safe (gcr_I e E F (ee_maxiter e)) (gcr_S e E F 0) (fun _ _ _ => False) (egcr_body e E F) (ee_maxiter e)).
    + intros iter s Hi H. eapply safe_mono; [apply egcr_body_safe; [exact Hi|exact H]|]. intros [a|a|q a]; cbn; auto.
    + lia.
    + rewrite Z2Nat.id by lia. lia.
    + split; [cbn; auto|lia].
  - intros [[[fl ret] it] s] H.
    assert (G : 1 <= it <= ee_maxiter e /\ exists r, gcr_good e E F s r /\ ((ret = LIS_SUCCESS /\ (r < ee_tol e)%R) \/ (ret = LIS_MAXITER /\ it = ee_maxiter e /\ (ee_tol e <= r)%R))).
    { destruct H as [[_ [-> [-> [C1 C2]]]]|[[_ [-> [Hit [r [G Hr]]]]]|[_ [_ []]]]].
      - destruct C2 as [r [G Hr]]; [lia|]. split; [lia|]. exists r. split; [auto|]. auto.
      - split; [lia|]. exists r. split; auto. }
    clear H. destruct G as [Hit [r [[Hr HV] Hret]]]. rewrite Hr. cbn [get bind].
    apply safe_bind, safe_normalize. intros w Hw0 Hw Hw'. cbn [safe]. exists (gd_lambda s + sg)%R, r, it, (gd_x s). fold n sg E. split; [repeat split|]. split; [split; [exact Hit|exact Hret]|]. split; [exact Hw|].
    replace (gd_lambda s + sg - sg)%R with (gd_lambda s) by ring. split; [exact HV|]. split; [exact Hw0|]. split; [exact Hw'|apply undo_do_g].
Qed.
