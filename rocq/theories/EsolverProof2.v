Require Import ZArith List Bool Lia Reals Lra Field.
From Verif Require Import Base Scalar ScalarReal Spec SpecSolver SpecDiag SpecEsolver Krylov MatvecProof KrylovProof DiagProof2 RealVec Esolver EsolverTerms EsolverProof.
Import ListNotations.
Open Scope Z_scope.

(** ** arithmetic *)
Section Math.
Open Scope R_scope.
Variables (n : Z) (E : list (entry R)).
Let A (f : Z -> R) (i : Z) : R := mv_spec E n f i.
Lemma nm_sub_le f g : nm n (fun i => f i - g i) <= nm n f + nm n g.
Proof.
  rewrite (nm_ext n (fun i => f i - g i) (fun i => f i + -1 * g i)) by (intros i Hi; ring).
  eapply Rle_trans; [apply triangle|]. rewrite nm_scal. replace (Rabs (-1)) with 1 by (rewrite <- (Rabs_Ropp (-1)), Rabs_pos_eq; lra). lra.
Qed.
Lemma scaled_residual (x y : Z -> R) c lam : eqv n x (fun i => c * y i) ->
  nm n (fun i => A x i - lam * x i) = Rabs c * nm n (fun i => A y i - lam * y i).
Proof.
  intros H. rewrite <- nm_scal. apply nm_ext. intros i Hi. unfold A. rewrite (mvR_ext n E x _ i H), mvR_scal, (H i Hi). ring.
Qed.
Lemma ii_math (v y x : Z -> R) th sg r d : nm n v = 1 -> th = ip n v y -> th <> 0 -> nm n y <> 0 ->
  nm n (fun i => v i - (A y i - sg * y i)) <= d ->
  r = nm n (fun i => y i - th * v i) / Rabs th -> eqv n x (fun i => 1 / nm n y * y i) ->
  nm n (fun i => A x i - (1 / th + sg) * x i) <= (r + d) * Rabs (1 / th).
Proof.
  intros Hv Hth H0 Hy Hd Hr Hx. rewrite (scaled_residual x y _ _ Hx).
  pose proof (nm_pos n y) as Py. pose proof (Rabs_pos_lt th H0) as Pt.
  assert (B : nm n (fun i => A y i - (1 / th + sg) * y i) <= r + d).
  { rewrite (nm_ext n _ (fun i => (- (1 / th)) * (y i - th * v i) - (v i - (A y i - sg * y i)))) by (intros i Hi; field; auto).
    eapply Rle_trans; [apply nm_sub_le|]. rewrite nm_scal, Rabs_Ropp. unfold Rdiv at 1. rewrite Rmult_1_l, Rabs_inv.
    rewrite Hr. unfold Rdiv. lra. }
  assert (C : Rabs th <= nm n y) by (rewrite Hth; eapply Rle_trans; [apply cauchy|rewrite Hv; lra]).
  pose proof (nm_pos n (fun i => A y i - (1 / th + sg) * y i)) as P.
  rewrite Rabs_pos_eq by (apply Rlt_le, Rdiv_lt_0_compat; lra).
  unfold Rdiv at 3. rewrite Rmult_1_l, Rabs_inv. unfold Rdiv. rewrite Rmult_1_l.
  assert (/ nm n y <= / Rabs th) by (apply Rinv_le_contravar; auto).
  assert (0 < / nm n y) by (apply Rinv_0_lt_compat; lra).
  rewrite Rmult_comm. unfold Rdiv in B, P. apply Rmult_le_compat; lra.
Qed.
Lemma rqi_math (v y x : Z -> R) rho r d :
  let th := nm n y in let dvy := ip n v y in let lam := rho + dvy / (th * th) in
  nm n v = 1 -> th <> 0 -> dvy <> 0 ->
  nm n (fun i => v i - (A y i - rho * y i)) <= d ->
  r = nm n (fun i => y i - dvy * v i) / Rabs dvy -> eqv n x (fun i => 1 / th * y i) ->
  nm n (fun i => A x i - lam * x i) <= (r + d * (1 + r)) * Rabs (lam - rho).
Proof.
  intros th dvy lam Hv Ht0 Hd0 Hd Hr Hx. rewrite (scaled_residual x y _ _ Hx).
  pose proof (nm_pos n y) as Py. fold th in Py. pose proof (Rabs_pos_lt dvy Hd0) as Pd.
  assert (Pt : 0 < th) by lra.
  assert (Sq1 : nm n (fun i => v i - dvy / (th * th) * y i) * nm n (fun i => v i - dvy / (th * th) * y i) = 1 - dvy * dvy / (th * th)).
  { rewrite nm_sq. rewrite (ip_ext n _ (fun i => 1 * v i + (- (dvy / (th * th))) * y i) _ (fun i => 1 * v i + (- (dvy / (th * th))) * y i)) by (intros i Hi; ring).
    rewrite ip_sq, <- (nm_sq n v), <- (nm_sq n y), Hv. fold th. change (ip n v y) with dvy. field; auto. }
  assert (Sq2 : nm n (fun i => y i - dvy * v i) * nm n (fun i => y i - dvy * v i) = th * th - dvy * dvy).
  { rewrite nm_sq. rewrite (ip_ext n _ (fun i => 1 * y i + (- dvy) * v i) _ (fun i => 1 * y i + (- dvy) * v i)) by (intros i Hi; ring).
    rewrite ip_sq, <- (nm_sq n v), <- (nm_sq n y), Hv, (ip_sym n y v). fold th. change (ip n v y) with dvy. ring. }
  assert (Eq : nm n (fun i => v i - dvy / (th * th) * y i) = nm n (fun i => y i - dvy * v i) / th).
  { apply Rsqr_inj; [apply nm_pos|unfold Rdiv; apply Rmult_le_pos; [apply nm_pos|apply Rlt_le, Rinv_0_lt_compat; auto]|].
    unfold Rsqr. rewrite Sq1. replace (nm n (fun i => y i - dvy * v i) / th * (nm n (fun i => y i - dvy * v i) / th)) with (nm n (fun i => y i - dvy * v i) * nm n (fun i => y i - dvy * v i) / (th * th)) by (field; auto).
    rewrite Sq2. field; auto. }
  assert (Pr : 0 <= r) by (rewrite Hr; unfold Rdiv; apply Rmult_le_pos; [apply nm_pos|apply Rlt_le, Rinv_0_lt_compat; auto]).
  assert (Hr' : nm n (fun i => y i - dvy * v i) = r * Rabs dvy) by (rewrite Hr; field; lra).
  assert (B : nm n (fun i => A y i - lam * y i) <= r * Rabs dvy / th + d).
  { rewrite (nm_ext n _ (fun i => (v i - dvy / (th * th) * y i) - (v i - (A y i - rho * y i)))) by (intros i Hi; unfold lam; ring).
    eapply Rle_trans; [apply nm_sub_le|]. rewrite Eq, Hr'. lra. }
  assert (Hlr : Rabs (lam - rho) = Rabs dvy / (th * th)).
  { unfold lam. replace (rho + dvy / (th * th) - rho) with (dvy / (th * th)) by ring. unfold Rdiv. rewrite Rabs_mult, Rabs_inv, (Rabs_pos_eq (th * th)) by nra. reflexivity. }
  rewrite Hlr, Rabs_pos_eq by (apply Rlt_le, Rdiv_lt_0_compat; lra).
  assert (Hd1 : 0 <= d) by (eapply Rle_trans; [apply nm_pos|exact Hd]).
  (* th <= |dvy| (1 + r) *)
  assert (Hth : th <= Rabs dvy * (1 + r)).
  { apply Rsqr_incr_0_var; [|apply Rmult_le_pos; lra]. unfold Rsqr. rewrite Hr' in Sq2.
    assert (dvy * dvy = Rabs dvy * Rabs dvy) by (rewrite <- Rabs_mult, Rabs_pos_eq; nra). nra. }
  apply Rle_trans with (1 / th * (r * Rabs dvy / th + d)).
  { apply Rmult_le_compat_l; auto. apply Rlt_le, Rdiv_lt_0_compat; lra. }
  apply Rmult_le_reg_r with (th * th); [nra|].
  replace (1 / th * (r * Rabs dvy / th + d) * (th * th)) with (r * Rabs dvy + d * th) by (field; auto).
  replace ((r + d * (1 + r)) * (Rabs dvy / (th * th)) * (th * th)) with (r * Rabs dvy + d * (Rabs dvy * (1 + r))) by (field; auto). nra.
Qed.
Lemma rqi_rayleigh (v y x : Z -> R) rho : let th := nm n y in
  th <> 0 -> (forall i, (0 <= i < n)%Z -> A y i - rho * y i = v i) -> eqv n x (fun i => 1 / th * y i) ->
  ip n x (A x) = rho + ip n v y / (th * th).
Proof.
  intros th H0 Hs Hx. rewrite (ip_ext n x (fun i => 1 / th * y i) (A x) (fun i => 1 / th * (1 * v i + rho * y i))).
  - rewrite ip_scal, ip_scal_r, ip_lin_r, <- (nm_sq n y), (ip_sym n y v). fold th. field; auto.
  - exact Hx.
  - intros i Hi. unfold A. rewrite (mvR_ext n E x _ i Hx), mvR_scal. specialize (Hs i Hi). unfold A in Hs. f_equal. lra.
Qed.
End Math.

(** ** II *)
Section Ii.
Variables (e : eenv R) (E : Ent).
Let n := ee_n e.
Definition ii_good (s : pst (T:=R)) : Prop := exists k v y th, unit_v n v /\ ee_solve e k E v = (0, y) /\ th = ip n (at_ v) (at_ y) /\ (th <> 0)%R /\
  eqv n (at_ (fst (fst (fst s)))) (at_ y) /\ snd (fst (fst s)) = Some th /\ snd (fst s) = Some (nm n (fun i => at_ y i - th * at_ v i) / Rabs th)%R.
Definition ii_I (M : Z) (iter : Z) (s : pst (T:=R)) : Prop := zlen (snd s) = M + 2 /\ (0 < iter -> ii_good s /\ exists r, snd (fst s) = Some r /\ (ee_tol e < r)%R).
Definition ii_S (M : Z) (iter : Z) (s : pst (T:=R)) : Prop := zlen (snd s) = M + 2 /\ ii_good s /\ exists r, snd (fst s) = Some r /\ (r <= ee_tol e)%R.
Definition ii_F (err : Z) (iter : Z) (s : pst (T:=R)) : Prop := err <> 0.
Lemma eii_body_safe M iter s : 0 <= iter < M -> ii_I M iter s ->
  safe (eii_body e E (iter + 1) s) (fun c => match c with ENext s => ii_I M (iter + 1) s | EStop s => ii_S M (iter + 1) s | EFail err s => ii_F err (iter + 1) s end).
Proof.
  intros Hi [Hl _]. destruct s as [[[v0 t0] r0] rh]. cbn [snd fst] in *. unfold eii_body. apply safe_bind, safe_normalize. intros v Hv0 Hv _.
  fold n in Hv0, Hv |- *. destruct (ee_solve e (iter + 1) E v) as [err y] eqn:Es.
  destruct (err =? 0) eqn:Ee; cbn [negb]; [|cbn; red; apply Z.eqb_neq; auto]. apply Z.eqb_eq in Ee. subst err.
  apply safe_bind, safe_divz. intros Ht. rewrite nrm_axpyz.
  apply safe_bind, safe_history; [lia|]. intros rh' Hrh. cbn [safe].
  set (th := dot n v y) in *.
  assert (Hth0 : (th <> 0)%R) by (intros X; apply Ht; change (Rabs th = 0%R); rewrite X; apply Rabs_R0).
  set (r := (nm n (fun i => at_ y i - th * at_ v i) / sabs th)%R).
  assert (G : ii_good (copy n y, Some th, Some r, rh')).
  { exists (iter + 1), v, y, th. cbn [fst snd]. split; auto. split; auto. split; auto. split; auto. split; [|split; reflexivity]. intros i Hi'. apply (at_copy (S:=ScalarR)); auto. }
  destruct (sleb r (ee_tol e)) eqn:El.
  - apply slebR in El. split; [cbn; lia|]. split; [exact G|]. exists r. split; [reflexivity|auto].
  - apply slebR' in El. split; [cbn; lia|]. intros _. split; [exact G|]. exists r. split; [reflexivity|auto].
Qed.
End Ii.
Lemma shifted_do n (E : Ent) sg : no_dup_pos E -> (sg = 0%R \/ full_diagonal n E) -> shifted_identity n E (do_shift sg E) sg.
Proof.
  intros Hn Hd i j Hi. unfold do_shift. destruct (seqb sg s0) eqn:Es.
  - apply seqbR in Es. rewrite Es. destruct (i =? j); auto. cbn. ring.
  - destruct Hd as [Hd|Hd]; [rewrite Hd in Es; assert (X : seqb 0%R (s0 : R) = true) by (apply seqbR; reflexivity); congruence|].
    pose proof (coef_shift ScalarR_ring sg E Hn i j) as C. change (map (shift_e sg) E) with (shift_entries sg E) in C. rewrite C, (Hd i Hi), andb_true_r. reflexivity.
Qed.
Lemma shifted_sh n (E : Ent) sg : no_dup_pos E -> full_diagonal n E -> shifted_identity n E (shift_entries sg E) sg.
Proof.
  intros Hn Hd i j Hi. pose proof (coef_shift ScalarR_ring sg E Hn i j) as C. change (map (shift_e sg) E) with (shift_entries sg E) in C. rewrite C, (Hd i Hi), andb_true_r. reflexivity.
Qed.
Lemma residual_nm n (E : Ent) v y : norm2 n (residual n E v y) = nm n (fun i => at_ v i - mv_spec E n (at_ y) i)%R.
Proof. rewrite norm2_nm. apply nm_ext. intros i Hi. unfold residual. apply (atR_tab n (fun i => at_ v i - mv_spec E n (at_ y) i)%R); auto. Qed.

Definition ii_post (e : eenv R) (E0 : Ent) (delta : R) (o : eout R) : Prop :=
  let n := ee_n e in let sg := oshift e in
  (exists lam r iter, eo_evalue o = Some lam /\ eo_resid o = Some r /\ eo_iter o = Some iter /\ 1 <= iter <= ee_maxiter e /\
    ((eo_ret o = LIS_SUCCESS /\ (r <= ee_tol e)%R) \/ (eo_ret o = LIS_MAXITER /\ iter = ee_maxiter e /\ (ee_tol e < r)%R)) /\
    unit_v n (eo_x o) /\ (inner_ok e E0 sg delta -> nm n (fun i => mv_spec E0 n (at_ (eo_x o)) i - lam * at_ (eo_x o) i) <= (r + delta) * Rabs (lam - sg))%R /\
    eo_E o = E0) \/
  (eo_ret o <> 0 /\ eo_evalue o = None /\ eo_E o = do_shift sg E0).
Lemma eii_safe e E0 x rh delta : 1 <= ee_maxiter e -> zlen rh = ee_maxiter e + 2 -> no_dup_pos E0 -> (oshift e = 0%R \/ full_diagonal (ee_n e) E0) ->
  safe (eii e E0 x rh) (ii_post e E0 delta).
Proof.
  intros Hm Hl Hn Hd. unfold eii. set (n := ee_n e). set (sg := oshift e). set (E := do_shift sg E0). set (v0 := if ee_ones e then set_all n s1 else x).
  apply safe_bind. eapply safe_mono.
  - apply (eiterate_safe (ii_I e E (ee_maxiter e)) (ii_S e E (ee_maxiter e)) ii_F (eii_body e E) (ee_maxiter e)).
    + intros iter s Hi HI. apply eii_body_safe; auto.
    + lia.
    + rewrite Z2Nat.id by lia. lia.
    + split; [cbn; auto|lia].
  - intros [[[fl ret] it] [[[v th'] r'] rh']] H.
    assert (G : (fl = true /\ ret <> 0) \/ (fl = false /\ ii_good e E (v, th', r', rh') /\ 1 <= it <= ee_maxiter e /\ exists r, r' = Some r /\
       ((ret = LIS_SUCCESS /\ (r <= ee_tol e)%R) \/ (ret = LIS_MAXITER /\ it = ee_maxiter e /\ (ee_tol e < r)%R)))).
    { destruct H as [[Hf [A [B C]]]|[[Hf [A [B C]]]|[Hf [_ C]]]]; [right|right|left; auto].
      - destruct C as [C1 C2]. destruct C2 as [G [r [X Y]]]; [lia|]. cbn [snd fst] in *. split; [auto|]. split; [auto|]. split; [lia|]. exists r. split; auto.
      - destruct C as [C1 [G [r [X Y]]]]. cbn [snd fst] in *. split; [auto|]. split; [auto|]. split; [lia|]. exists r. split; auto. }
    clear H. destruct G as [[-> Hret]|[-> [[k [u [y [th [Hu [Hs [Hth [Hth0 [Hv [X1 X2]]]]]]]]]] [Hit [r [Hr Hret]]]]]].
    { cbn. right. split; [auto|]. split; reflexivity. }
    cbn [fst snd] in *. fold n in Hu, Hth, Hv, X2.
    rewrite Hr, X1. cbn [get bind]. apply safe_bind, safe_divz. intros _. apply safe_bind, safe_normalize. intros w Hw0 Hw Hw'. cbn [safe].
    left. exists (1 / th + sg)%R, r, it. fold n sg.
    split; [reflexivity|]. split; [reflexivity|]. split; [reflexivity|]. split; [auto|]. split; [exact Hret|]. split; [exact Hw|]. split; [|apply undo_do].
    intros Hsol. cbn [eo_x]. replace (1 / th + sg - sg)%R with (1 / th)%R by ring. rewrite Hr in X2. injection X2 as X2.
    apply (ii_math n E0 (at_ u) (at_ y)); auto.
    + rewrite (nm_ext n _ _ Hv) in Hw0. exact Hw0.
    + pose proof (Hsol k E u y (shifted_do n E0 sg Hn Hd) Hs) as B. fold n in B. rewrite residual_nm, norm2_nm in B. red in Hu. rewrite Hu, Rmult_1_r in B.
      rewrite (nm_ext n _ (fun i => at_ u i - mv_spec E n (at_ y) i)%R); [exact B|]. intros i Hi. f_equal. symmetry. apply mv_do_shift; auto.
    + intros i Hi. rewrite Hw' by auto. rewrite (nm_ext n _ _ Hv). rewrite Hv by auto. reflexivity.
Qed.

(** ** RQI *)
Section Rqi.
Variables (e : eenv R) (E : Ent).
Let n := ee_n e.
(** what is known about rho in every state *)
Variable P : vec -> R -> Prop.
(** the step that produced v', rho', r from v and rho *)
Definition rqi_step (v' : vec) (rho' r : R) : Prop := exists k rho v y, unit_v n v /\ P v rho /\ ee_solve e k (shift_entries rho E) v = (0, y) /\
  let th := nm n (at_ y) in let d := ip n (at_ v) (at_ y) in
  (th <> 0)%R /\ (d <> 0)%R /\ rho' = (rho + d / (th * th))%R /\ r = (nm n (fun i => at_ y i - d * at_ v i) / Rabs d)%R /\ eqv n (at_ v') (fun i => 1 / th * at_ y i)%R.
Definition rqi_I (M iter : Z) (s : rst (T:=R)) : Prop := let '(v, E', rho, r, rh) := s in
  zlen rh = M + 2 /\ unit_v n v /\ E' = E /\ P v rho /\ (0 < iter -> exists r0, r = Some r0 /\ (ee_tol e < r0)%R /\ rqi_step v rho r0).
Definition rqi_S (M iter : Z) (s : rst (T:=R)) : Prop := let '(v, E', rho, r, rh) := s in
  zlen rh = M + 2 /\ unit_v n v /\ E' = E /\ P v rho /\ exists r0, r = Some r0 /\ (r0 <= ee_tol e)%R /\ rqi_step v rho r0.
Definition rqi_F (err iter : Z) (s : rst (T:=R)) : Prop := err <> 0.
Hypothesis HP : forall k rho v y, unit_v n v -> P v rho -> ee_solve e k (shift_entries rho E) v = (0, y) -> (nm n (at_ y) <> 0)%R ->
  forall v', unit_v n v' -> eqv n (at_ v') (fun i => 1 / nm n (at_ y) * at_ y i)%R -> P v' (rho + ip n (at_ v) (at_ y) / (nm n (at_ y) * nm n (at_ y)))%R.
Lemma erqi_body_safe M iter s : 0 <= iter < M -> rqi_I M iter s ->
  safe (erqi_body e (iter + 1) s) (fun c => match c with ENext s => rqi_I M (iter + 1) s | EStop s => rqi_S M (iter + 1) s | EFail err s => rqi_F err (iter + 1) s end).
Proof.
  intros Hi. destruct s as [[[[v E'] rho] r0] rh]. intros [Hl [Hv [-> [HPv _]]]]. unfold erqi_body. fold n.
  destruct (ee_solve e (iter + 1) (shift_entries rho E) v) as [err y] eqn:Es.
  destruct (err =? 0) eqn:Ee; cbn [negb]; [|cbn; red; apply Z.eqb_neq; auto]. apply Z.eqb_eq in Ee. subst err.
  rewrite shift_back. change (nrm2 n y) with (nm n (at_ y)). change (dot n v y) with (ip n (at_ v) (at_ y)).
  set (th := nm n (at_ y)). set (d := ip n (at_ v) (at_ y)).
  apply safe_bind, safe_divz. intros Ht2. rewrite nrm_axpyz. apply safe_bind, safe_divz. intros Hd. apply safe_bind, safe_divz. intros Ht.
  apply safe_bind, safe_history; [lia|]. intros rh' Hrh. cbn [safe].
  assert (Hd0 : (d <> 0)%R) by (intros X; apply Hd; change (Rabs d = 0%R); rewrite X; apply Rabs_R0).
  set (v' := copy n (scale n (1 / th)%R y)).
  assert (Hv' : eqv n (at_ v') (fun i => 1 / th * at_ y i)%R).
  { intros i Hi'. unfold v'. rewrite (at_copy (S:=ScalarR)) by auto. apply (at_scale (S:=ScalarR)); auto. }
  assert (Hu' : unit_v n v').
  { unfold unit_v. rewrite (nm_ext _ _ _ Hv'), nm_scal. fold th. rewrite Rabs_pos_eq. field; auto. pose proof (nm_pos n (at_ y)). fold th in H. apply Rlt_le, Rdiv_lt_0_compat; lra. }
  set (r := (nm n (fun i => at_ y i - d * at_ v i) / sabs d)%R).
  assert (St : rqi_step v' (rho + d / (th * th))%R r).
  { exists (iter + 1), rho, v, y. split; [auto|]. split; [auto|]. split; [auto|]. cbv zeta. split; [auto|]. split; [auto|]. split; [reflexivity|]. split; [reflexivity|auto]. }
  assert (HP' : P v' (rho + d / (th * th))%R) by (apply (HP (iter + 1) rho v y); auto).
  destruct (sleb r (ee_tol e)) eqn:El.
  - apply slebR in El. split; [cbn; lia|]. split; [auto|]. split; [auto|]. split; [exact HP'|]. exists r. split; [reflexivity|]. split; auto.
  - apply slebR' in El. split; [cbn; lia|]. split; [auto|]. split; [auto|]. split; [exact HP'|]. intros _. exists r. split; [reflexivity|]. split; auto.
Qed.
Definition rqi_done (o : eout R) : Prop :=
  (exists lam r iter, eo_evalue o = Some lam /\ eo_resid o = Some r /\ eo_iter o = Some iter /\ 1 <= iter <= ee_maxiter e /\
    ((eo_ret o = LIS_SUCCESS /\ (r <= ee_tol e)%R) \/ (eo_ret o = LIS_MAXITER /\ iter = ee_maxiter e /\ (ee_tol e < r)%R)) /\
    unit_v n (eo_x o) /\ rqi_step (eo_x o) lam r /\ P (eo_x o) lam /\ eo_E o = E) \/
  (eo_ret o <> 0 /\ eo_evalue o = None).
Hypothesis HPext : forall v v' rho, eqv n (at_ v) (at_ v') -> P v rho -> P v' rho.
Lemma erqi_safe x rh : 1 <= ee_maxiter e -> zlen rh = ee_maxiter e + 2 ->
  (forall v, unit_v n v -> P v (ip n (at_ v) (fun i => mv_spec E n (at_ v) i))) -> safe (erqi e E x rh) rqi_done.
Proof.
  intros Hm Hl HP0. unfold erqi. fold n. apply safe_bind, safe_normalize. intros v1 _ Hv1 _.
  assert (HI : rqi_I (ee_maxiter e) 0 (v1, E, dot n v1 (matvec n E v1), None, rh)).
  { split; [auto|]. split; [auto|]. split; [auto|]. split; [|lia]. rewrite dot_ip.
    rewrite (ip_ext n _ (at_ v1) _ (fun i => mv_spec E n (at_ v1) i)); [apply HP0; auto|intros i Hi; auto|intros i Hi; apply atR_tab; auto]. }
  apply safe_bind. eapply safe_mono.
  - apply (eiterate_safe (rqi_I (ee_maxiter e)) (rqi_S (ee_maxiter e)) rqi_F (erqi_body e) (ee_maxiter e)).
    + intros iter s Hi H. apply erqi_body_safe; auto.
    + lia.
    + rewrite Z2Nat.id by lia. lia.
    + exact HI.
  - intros [[[fl ret] it] [[[[v E'] rho] r'] rh']] H.
    assert (G : (fl = true /\ ret <> 0) \/ (fl = false /\ unit_v n v /\ E' = E /\ P v rho /\ 1 <= it <= ee_maxiter e /\ exists r, r' = Some r /\ rqi_step v rho r /\
       ((ret = LIS_SUCCESS /\ (r <= ee_tol e)%R) \/ (ret = LIS_MAXITER /\ it = ee_maxiter e /\ (ee_tol e < r)%R)))).
    { destruct H as [[Hf [A [B C]]]|[[Hf [A [B C]]]|[Hf [_ C]]]]; [right|right|left; auto].
      - destruct C as [C1 [C2 [C3 [C4 C5]]]]. destruct C5 as [r [X [Y W]]]; [lia|]. do 4 (split; [auto|]). split; [lia|]. exists r. split; [auto|]. split; [auto|]. auto 10.
      - destruct C as [C1 [C2 [C3 [C4 C5]]]]. destruct C5 as [r [X [Y W]]]. do 4 (split; [auto|]). split; [lia|]. exists r. split; [auto|]. split; [auto|]. auto 10. }
    clear H. destruct G as [[-> Hret]|[-> [Hu [-> [HPv [Hit [r [-> [St Hret]]]]]]]]].
    { cbn. right. split; [auto|reflexivity]. }
    cbn [get bind]. apply safe_bind, safe_normalize. intros w Hw0 Hw Hw'. cbn [safe].
    assert (Hwv : eqv n (at_ v) (at_ w)) by (intros i Hi; rewrite Hw' by auto; red in Hu; rewrite Hu; field).
    left. exists rho, r, it. split; [reflexivity|]. split; [reflexivity|]. split; [reflexivity|]. split; [auto|]. split; [exact Hret|]. split; [exact Hw|]. split.
    + destruct St as [k [rho0 [u [y [S1 [S1' [S2 [S3 [S4 [S5 [S6 S7]]]]]]]]]]]. exists k, rho0, u, y. do 3 (split; [auto|]). cbv zeta. do 4 (split; [auto|]).
      intros i Hi. cbn [eo_x]. rewrite <- Hwv by auto. apply S7; auto.
    + split; [|reflexivity]. apply (HPext v); auto.
Qed.
End Rqi.
