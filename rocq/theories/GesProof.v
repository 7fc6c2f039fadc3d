Require Import ZArith List Bool Lia Reals Lra Field.
From Verif Require Import Base Scalar ScalarReal Spec SpecSolver SpecDiag SpecEsolver Krylov MatvecProof KrylovProof DiagProof2 DiagProof3 PreconProof RealVec Esolver EsolverTerms EsolverProof EsolverProof2 EsolverProof3 Gesolver SpecGesolver GesTerms SainvMath.
Import ListNotations.
Open Scope Z_scope.

(** ** the shift *)
Lemma coef_gshift n sg (E F : Ent) : shifted_by n E F sg (gshift n sg E F).
Proof.
  intros i j Hi Hj. unfold gshift. rewrite (coef_flat_map ScalarR_ring). rewrite (sum_one ScalarR_ring _ 0 n i Hi).
  - apply (coef_eq ScalarR_ring).
    + unfold no_dup_pos. rewrite map_map. cbn [fst]. apply FinFun.Injective_map_NoDup; [intros a b X; injection X; auto|apply NoDup_zrange].
    + apply in_map_iff. exists j. split; [reflexivity|apply In_zrange; auto].
  - intros k Hk Nk. apply coef_absent. intros H. apply in_map_iff in H. destruct H as (x & X & H). apply in_map_iff in H. destruct H as (b & <- & _). cbn in X. injection X as X1 X2. lia.
Qed.
Lemma shifted_mv n sg (E F G : Ent) f i : shifted_by n E F sg G -> 0 <= i < n -> mv_spec G n f i = (mv_spec E n f i - sg * mv_spec F n f i)%R.
Proof.
  intros H Hi. unfold mv_spec. replace (ssum (map (fun j => smul (coef E i j) (f j)) (zrange 0 n)) - sg * ssum (map (fun j => smul (coef F i j) (f j)) (zrange 0 n)))%R
    with (ssum (map (fun j => smul (coef E i j) (f j)) (zrange 0 n)) + (- sg) * ssum (map (fun j => smul (coef F i j) (f j)) (zrange 0 n)))%R by ring.
  change Rmult with (@smul R ScalarR). rewrite <- (ssum_map_mul_l ScalarR_ring). change Rplus with (@sadd R ScalarR). rewrite <- (ssum_map_add ScalarR_ring).
  apply ssum_map_ext. intros j Hj. apply In_zrange in Hj. rewrite H by lia. cbn. ring.
Qed.
Lemma shifted_do_g n sg (E F : Ent) : shifted_by n E F sg (do_gshift n sg E F).
Proof.
  unfold do_gshift. destruct (seqb sg s0) eqn:X; [|apply coef_gshift]. apply seqbR in X. intros i j Hi Hj. rewrite X. cbn. ring.
Qed.
Lemma gshift_back n sg (E F G : Ent) : shifted_by n E F sg G -> same_matrix n E (gshift n (sopp sg) G F).
Proof. intros H i j Hi Hj. rewrite (coef_gshift n (sopp sg) G F i j Hi Hj), (H i j Hi Hj). cbn. ring. Qed.
Lemma undo_do_g n sg (E F : Ent) : same_matrix n E (undo_gshift n sg (do_gshift n sg E F) F).
Proof.
  unfold undo_gshift, do_gshift. destruct (seqb sg s0); [intros i j _ _; reflexivity|]. apply gshift_back, coef_gshift.
Qed.
Lemma mv_do_g n sg (E F : Ent) f i : 0 <= i < n -> mv_spec (do_gshift n sg E F) n f i = (mv_spec E n f i - sg * mv_spec F n f i)%R.
Proof. intros Hi. apply shifted_mv; auto. apply shifted_do_g. Qed.

Lemma safe_sqrtz (a : R) (Q : R -> Prop) : ((0 <= a)%R -> Q (sqrt a)) -> safe (sqrtz a) Q.
Proof. intros H. unfold sqrtz. destruct (sleb s0 a) eqn:X; cbn [safe]; [|reflexivity]. apply H. apply slebR in X. exact X. Qed.

(** ** PI and II: one body, the two matrices exchanged *)
Section Gi.
Variables (e : eenv R) (G H : Ent).
Let n := ee_n e.
Definition gi_good (s : pst (T:=R)) : Prop := exists k v w y th, eqv n (at_ w) (fun i => mv_spec G n (at_ v) i) /\ ip n (at_ v) (at_ w) = 1%R /\ ee_solve e k H w = (0, y) /\
  th = ip n (at_ w) (at_ y) /\ (th <> 0)%R /\
  eqv n (at_ (fst (fst (fst s)))) (at_ y) /\ snd (fst (fst s)) = Some th /\ snd (fst s) = Some (nm n (fun i => at_ y i - th * at_ v i) / Rabs th)%R.
Definition gi_I (M iter : Z) (s : pst (T:=R)) : Prop := zlen (snd s) = M + 2 /\ (0 < iter -> gi_good s /\ exists r, snd (fst s) = Some r /\ (ee_tol e < r)%R).
Definition gi_S (M iter : Z) (s : pst (T:=R)) : Prop := zlen (snd s) = M + 2 /\ gi_good s /\ exists r, snd (fst s) = Some r /\ (r <= ee_tol e)%R.
Definition gi_F (err : Z) (iter : Z) (s : pst (T:=R)) : Prop := err <> 0.
Lemma gi_body_safe M iter s : 0 <= iter < M -> gi_I M iter s ->
  safe (egpi_body e G H (iter + 1) s) (fun c => match c with ENext s => gi_I M (iter + 1) s | EStop s => gi_S M (iter + 1) s | EFail err s => gi_F err (iter + 1) s end).
Proof.
  intros Hi [Hl _]. destruct s as [[[v0 t0] r0] rh]. cbn [snd fst] in *. unfold egpi_body. apply safe_bind, safe_normalize. intros u _ Hu _.
  fold n in Hu |- *. apply safe_bind, safe_sqrtz. intros He0. apply safe_bind, safe_divz. intros He. set (c := (s1 / _)%R).
  set (v := scale n c u). set (w := scale n c (matvec n G u)).
  assert (Hv : eqv n (at_ v) (fun i => c * at_ u i)%R) by (intros i Hi'; apply (at_scale (S:=ScalarR)); auto).
  assert (Hw0 : eqv n (at_ w) (fun i => c * mv_spec G n (at_ u) i)%R).
  { intros i Hi'. unfold w. rewrite (at_scale (S:=ScalarR)) by auto. unfold matvec. rewrite atR_tab by auto. reflexivity. }
  assert (Hw : eqv n (at_ w) (fun i => mv_spec G n (at_ v) i)).
  { intros i Hi'. rewrite Hw0 by auto. rewrite (mvR_ext n G _ _ i Hv), mvR_scal. reflexivity. }
  assert (Hvw : ip n (at_ v) (at_ w) = 1%R).
  { rewrite (ip_ext n _ _ _ _ Hv Hw0), ip_scal, ip_scal_r.
    set (a := ip n (at_ u) (fun i => mv_spec G n (at_ u) i)).
    assert (Ha : dot n u (matvec n G u) = a) by (rewrite dot_ip; apply ip_ext; [intros i Hi'; auto|intros i Hi'; unfold matvec; apply atR_tab; auto]).
    assert (Hc : c = (1 / sqrt a)%R) by (unfold c; rewrite Ha; reflexivity). rewrite Ha in He0, He.
    pose proof (sqrt_sqrt a He0) as Sq. change (c * (c * a) = 1)%R. rewrite <- Sq at 1. rewrite Hc. field. exact He. }
  destruct (ee_solve e (iter + 1) H w) as [err y] eqn:Es.
  destruct (err =? 0) eqn:Ee; cbn [negb]; [|cbn; red; apply Z.eqb_neq; auto]. apply Z.eqb_eq in Ee. subst err.
  apply safe_bind, safe_divz. intros Ht. rewrite nrm_axpyz.
  apply safe_bind, safe_history; [lia|]. intros rh' Hrh. cbn [safe].
  set (th := dot n w y) in *.
  assert (Hth0 : (th <> 0)%R) by (intros X; apply Ht; change (Rabs th = 0%R); rewrite X; apply Rabs_R0).
  set (r := (nm n (fun i => at_ y i - th * at_ v i) / sabs th)%R).
  assert (G0 : gi_good (copy n y, Some th, Some r, rh')).
  { exists (iter + 1), v, w, y, th. cbn [fst snd]. do 5 (split; [auto|]). split; [|split; reflexivity]. intros i Hi'. apply (at_copy (S:=ScalarR)); auto. }
  destruct (sleb r (ee_tol e)) eqn:El.
  - apply slebR in El. split; [cbn; lia|]. split; [exact G0|]. exists r. split; [reflexivity|auto].
  - apply slebR' in El. split; [cbn; lia|]. intros _. split; [exact G0|]. exists r. split; [reflexivity|auto].
Qed.
End Gi.
Lemma egii_body_eq (e : eenv R) (E F : Ent) iter s : egii_body e E F iter s = egpi_body e F E iter s.
Proof.
  destruct s as [[[v t] r] rh]. unfold egii_body, egpi_body. destruct (normalize _ v) as [u| |]; cbn [bind]; try reflexivity.
  rewrite (dot_ip _ (matvec _ _ _) u), ip_sym, <- dot_ip. reflexivity.
Qed.
Lemma eiterate_ext {A} (b b' : Z -> A -> res (ector A)) : (forall i s, b i s = b' i s) -> forall f i s, eiterate f i b s = eiterate f i b' s.
Proof. intros H. induction f as [|f IH]; intros i s; cbn [eiterate]; [reflexivity|]. rewrite H. destruct (b' (i + 1) s) as [[ | | ]| |]; cbn [bind]; auto. Qed.

(** the loop, for both *)
Lemma gi_loop e (G H : Ent) v0 rh : gready e rh ->
  safe (eiterate (Z.to_nat (ee_maxiter e)) 0 (egpi_body e G H) (v0, None, None, rh)) (fun '(fl, ret, it, s) =>
    (fl = true /\ ret <> 0) \/ (fl = false /\ gi_good e G H s /\ 1 <= it <= ee_maxiter e /\ exists r, snd (fst s) = Some r /\
       ((ret = LIS_SUCCESS /\ (r <= ee_tol e)%R) \/ (ret = LIS_MAXITER /\ it = ee_maxiter e /\ (ee_tol e < r)%R)))).
Proof.
  intros [Hm Hl]. eapply safe_mono.
  - apply (eiterate_safe (gi_I e G H (ee_maxiter e)) (gi_S e G H (ee_maxiter e)) gi_F (egpi_body e G H) (ee_maxiter e)).
    + intros iter s Hi HI. apply gi_body_safe; auto.
    + lia.
    + rewrite Z2Nat.id by lia. lia.
    + split; [cbn; auto|lia].
  - intros [[[fl ret] it] s] [[Hf [A [B C]]]|[[Hf [A [B C]]]|[Hf [_ C]]]]; [right|right|left; auto].
    + destruct C as [C1 C2]. destruct C2 as [G0 [r [X Y]]]; [lia|]. split; [auto|]. split; [auto|]. split; [lia|]. exists r. split; auto.
    + destruct C as [C1 [G0 [r [X Y]]]]. split; [auto|]. split; [auto|]. split; [lia|]. exists r. split; auto.
Qed.

(** what a run of either returns: th is theta, [lam th] the reported eigenvalue *)
Definition gi_post (e : eenv R) (G H E0 : Ent) (f : R -> R) (o : eout R) : Prop := let n := ee_n e in
  (exists k v w y th r iter, eqv n (at_ w) (fun i => mv_spec G n (at_ v) i) /\ ip n (at_ v) (at_ w) = 1%R /\ ee_solve e k H w = (0, y) /\
     th = ip n (at_ w) (at_ y) /\ (th <> 0)%R /\ r = (nm n (fun i => at_ y i - th * at_ v i) / Rabs th)%R /\
     reports o (f th) r iter /\ verdict_le e o iter r /\ (nm n (at_ y) <> 0)%R /\ eqv n (at_ (eo_x o)) (fun i => 1 / nm n (at_ y) * at_ y i)%R /\ unit_v n (eo_x o) /\ same_matrix n E0 (eo_E o)) \/
  gave_up o.
Lemma egpi_safe e (E0 F : Ent) x rh : gready e rh -> safe (egpi e E0 F x rh) (gi_post e (do_gshift (ee_n e) (oshift e) E0 F) F E0 (fun th => th + oshift e)%R).
Proof.
  intros Hr. unfold egpi. set (n := ee_n e). set (sg := oshift e). set (E := do_gshift n sg E0 F). set (v0 := if ee_ones e then set_all n s1 else x).
  apply safe_bind. eapply safe_mono; [apply gi_loop; exact Hr|].
  intros [[[fl ret] it] [[[v th'] r'] rh']] [[-> Hret]|(-> & (k & u & w & y & th & A1 & A2 & A3 & A4 & A5 & A6 & A7 & A8) & Hit & r & Hr' & Hret)].
  - right. split; [exact Hret|reflexivity].
  - cbn [fst snd] in *. rewrite A7, Hr'. rewrite Hr' in A8. injection A8 as A8. cbn [get bind]. apply safe_bind, safe_normalize. intros z Hz0 Hz Hz'. cbn [safe].
    fold n in A1, A2, A4, A6, A8. left. exists k, u, w, y, th, r, it. fold n. do 6 (split; [auto|]). split; [repeat split|]. split; [split; [exact Hit|exact Hret]|].
    assert (Ny : nm n (at_ v) = nm n (at_ y)) by (apply nm_ext; exact A6). rewrite Ny in Hz0, Hz'.
    split; [exact Hz0|]. split; [|split; [exact Hz|apply undo_do_g]]. intros i Hi. cbn [eo_x]. rewrite Hz' by exact Hi. rewrite A6 by exact Hi. reflexivity.
Qed.
Lemma egii_safe e (E0 F : Ent) x rh : gready e rh -> safe (egii e E0 F x rh) (gi_post e F (do_gshift (ee_n e) (oshift e) E0 F) E0 (fun th => 1 / th + oshift e)%R).
Proof.
  intros Hr. unfold egii. set (n := ee_n e). set (sg := oshift e). set (E := do_gshift n sg E0 F). set (v0 := if ee_ones e then set_all n s1 else x).
  rewrite (eiterate_ext _ _ (egii_body_eq e E F)).
  apply safe_bind. eapply safe_mono; [apply gi_loop; exact Hr|].
  intros [[[fl ret] it] [[[v th'] r'] rh']] [[-> Hret]|(-> & (k & u & w & y & th & A1 & A2 & A3 & A4 & A5 & A6 & A7 & A8) & Hit & r & Hr' & Hret)].
  - right. split; [exact Hret|reflexivity].
  - cbn [fst snd] in *. rewrite A7, Hr'. rewrite Hr' in A8. injection A8 as A8. cbn [get bind]. apply safe_bind, safe_divz. intros _. apply safe_bind, safe_normalize. intros z Hz0 Hz Hz'. cbn [safe].
    fold n in A1, A2, A4, A6, A8. left. exists k, u, w, y, th, r, it. fold n. do 6 (split; [auto|]). split; [repeat split|]. split; [split; [exact Hit|exact Hret]|].
    assert (Ny : nm n (at_ v) = nm n (at_ y)) by (apply nm_ext; exact A6). rewrite Ny in Hz0, Hz'.
    split; [exact Hz0|]. split; [|split; [exact Hz|apply undo_do_g]]. intros i Hi. cbn [eo_x]. rewrite Hz' by exact Hi. rewrite A6 by exact Hi. reflexivity.
Qed.
