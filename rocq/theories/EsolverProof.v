Require Import ZArith List Bool Lia Reals Lra.
From Verif Require Import Base Scalar ScalarReal Spec SpecSolver SpecDiag SpecEsolver Krylov MatvecProof KrylovProof DiagProof2 RealVec Esolver.
Import ListNotations.
Open Scope Z_scope.

Notation Ent := (list (entry R)).
Notation vec := (list R).
Notation mvR := (fun n E x i => mv_spec (T:=R) E n (at_ x) i).

(** ** the model's operations as functions *)
Lemma nrm2_nm n (v : vec) : nrm2 n v = nm n (at_ v).
Proof. reflexivity. Qed.
Lemma norm2_nm n (v : vec) : norm2 n v = nm n (at_ v).
Proof. reflexivity. Qed.
Lemma dot_ip n (u v : vec) : dot n u v = ip n (at_ u) (at_ v).
Proof. reflexivity. Qed.
Lemma atR_tab n (f : Z -> R) i : 0 <= i < n -> at_ (tab n f) i = f i.
Proof. apply (at_tab (S:=ScalarR)). Qed.
Lemma mvR_lin n E a b f g i : mv_spec (T:=R) E n (fun j => a * f j + b * g j)%R i = (a * mv_spec E n f i + b * mv_spec E n g i)%R.
Proof.
  unfold mv_spec. change (@ssum R ScalarR) with (@ssum R ScalarR).
  rewrite <- (ssum_map_mul_l ScalarR_ring a), <- (ssum_map_mul_l ScalarR_ring b). 
  change Rplus with (@sadd R ScalarR). rewrite <- (ssum_map_add ScalarR_ring).
  apply ssum_map_ext. intros j _. cbn. ring.
Qed.
Lemma mvR_ext n (E : Ent) f g i : eqv n f g -> mv_spec E n f i = mv_spec E n g i.
Proof. intros H. apply ssum_map_ext. intros j Hj. apply In_zrange in Hj. rewrite H by lia. reflexivity. Qed.
Lemma mvR_scal n E a f i : mv_spec (T:=R) E n (fun j => a * f j)%R i = (a * mv_spec E n f i)%R.
Proof.
  unfold mv_spec. rewrite <- (ssum_map_mul_l ScalarR_ring a). apply ssum_map_ext. intros j _. cbn. ring.
Qed.

(** ** the shift *)
Lemma delta_sum n (c : R) (f : Z -> R) i : 0 <= i < n -> ssum (map (fun j => if i =? j then c * f j else 0)%R (zrange 0 n)) = (c * f i)%R.
Proof.
  intros Hi. rewrite (zrange_app 0 i n) by lia. rewrite (zrange_cons i n) by lia. rewrite map_app, (ssum_app ScalarR_ring). cbn [map ssum].
  rewrite Z.eqb_refl. rewrite (ssum_map_ext (S:=ScalarR) _ (fun _ => 0%R) (zrange 0 i)), (ssum_map_ext (S:=ScalarR) _ (fun _ => 0%R) (zrange (i+1) n)).
  - change 0%R with (@s0 R ScalarR). rewrite !(ssum_map_zero ScalarR_ring). cbn. ring.
  - intros j Hj. apply In_zrange in Hj. rewrite (proj2 (Z.eqb_neq i j)) by lia. reflexivity.
  - intros j Hj. apply In_zrange in Hj. rewrite (proj2 (Z.eqb_neq i j)) by lia. reflexivity.
Qed.
Lemma mv_shift n (E : Ent) sigma f i : no_dup_pos E -> full_diagonal n E -> 0 <= i < n ->
  mv_spec (shift_entries sigma E) n f i = (mv_spec E n f i - sigma * f i)%R.
Proof.
  intros Hn Hd Hi. rewrite <- (delta_sum n sigma f i Hi). unfold mv_spec.
  assert (X : forall a b, (a - b = a + (-1) * b)%R) by (intros; ring). rewrite X. change Rmult with (@smul R ScalarR) at 2.
  rewrite <- (ssum_map_mul_l ScalarR_ring). change Rplus with (@sadd R ScalarR). rewrite <- (ssum_map_add ScalarR_ring).
  apply ssum_map_ext. intros j Hj. pose proof (coef_shift ScalarR_ring sigma E Hn i j) as C.
  change (map (shift_e sigma) E) with (shift_entries sigma E) in C. rewrite C, (Hd i Hi), andb_true_r.
  destruct (i =? j); cbn; ring.
Qed.
Lemma shift_back sigma (E : Ent) : shift_entries (sopp sigma) (shift_entries sigma E) = E.
Proof.
  unfold shift_entries. rewrite map_map. rewrite <- (map_id E) at 2. apply map_ext. intros [[i j] v]. unfold erow, ecol, eval; cbn.
  destruct (i =? j); auto. f_equal. ring.
Qed.
Lemma undo_do sigma (E : Ent) : undo_shift sigma (do_shift sigma E) = E.
Proof. unfold undo_shift, do_shift. destruct (seqb sigma s0); auto. apply shift_back. Qed.
Lemma seqbR (a b : R) : seqb a b = true <-> a = b.
Proof. apply ScalarR_eqb. Qed.
Lemma mv_do_shift n (E : Ent) sigma f i : no_dup_pos E -> (sigma = 0%R \/ full_diagonal n E) -> 0 <= i < n ->
  mv_spec (do_shift sigma E) n f i = (mv_spec E n f i - sigma * f i)%R.
Proof.
  intros Hn Hd Hi. unfold do_shift. destruct (seqb sigma s0) eqn:Es.
  - apply seqbR in Es. rewrite Es. cbn. ring.
  - destruct Hd as [Hd|Hd]; [|apply mv_shift; auto]. rewrite Hd in Es. exfalso. assert (X : seqb 0%R (s0 : R) = true) by (apply seqbR; reflexivity). congruence.
Qed.

(** ** running the loop *)
Lemma safe_ok {A} (m : res A) Q a : safe m Q -> m = Ok a -> Q a.
Proof. intros H ->. exact H. Qed.
Lemma safe_bind {A B} (m : res A) (k : A -> res B) Q : safe m (fun a => safe (k a) Q) -> safe (bind m k) Q.
Proof. destruct m; cbn; auto. Qed.
Lemma safe_mono {A} (m : res A) (P Q : A -> Prop) : safe m P -> (forall a, P a -> Q a) -> safe m Q.
Proof. destruct m; cbn; auto. Qed.
Lemma safe_divz (a b : R) (Q : R -> Prop) : ((b <> 0)%R -> Q (a / b)%R) -> safe (divz a b) Q.
Proof.
  intros H. unfold divz. destruct (seqb b s0) eqn:E; cbn; auto. apply H. intros X. apply seqbR in X. change (s0:R) with 0%R in E. congruence.
Qed.
Lemma safe_history (e : eenv R) iter r rh (Q : vec -> Prop) : 0 <= iter < zlen rh -> (forall rh', zlen rh' = zlen rh -> Q rh') -> safe (history e iter r rh) Q.
Proof.
  intros Hi H. unfold history. destruct (ee_mem e); cbn; auto. rewrite wr_ok by auto. cbn. apply H. apply zlen_zupd.
Qed.
Definition unit_v n (v : vec) := nm n (at_ v) = 1%R.
Lemma safe_normalize n v (Q : vec -> Prop) : (forall u, (nm n (at_ v) <> 0)%R -> unit_v n u -> eqv n (at_ u) (fun i => (1 / nm n (at_ v)) * at_ v i)%R -> Q u) -> safe (normalize n v) Q.
Proof.
  intros H. unfold normalize. apply safe_bind, safe_divz. intros Hn. change (nrm2 n v) with (nm n (at_ v)) in *. cbn.
  assert (X : eqv n (at_ (scale n (1 / nm n (at_ v))%R v)) (fun i => (1 / nm n (at_ v)) * at_ v i)%R) by (intros i Hi; apply (at_scale (S:=ScalarR)); auto).
  apply H; auto. unfold unit_v. rewrite (nm_ext _ _ _ X), nm_scal. rewrite Rabs_pos_eq. field; auto.
  pose proof (nm_pos n (at_ v)). apply Rlt_le, Rdiv_lt_0_compat; lra.
Qed.
Lemma eiterate_safe {A} (I : Z -> A -> Prop) (Qs : Z -> A -> Prop) (Qf : Z -> Z -> A -> Prop) body M :
  (forall iter s, 0 <= iter < M -> I iter s -> safe (body (iter + 1) s) (fun c => match c with ENext s => I (iter + 1) s | EStop s => Qs (iter + 1) s | EFail err s => Qf err (iter + 1) s end)) ->
  forall fuel iter s, 0 <= iter -> iter + Z.of_nat fuel = M -> I iter s ->
  safe (eiterate fuel iter body s) (fun '(fail, ret, it, s) => (fail = false /\ ret = LIS_MAXITER /\ it = M /\ I it s) \/ (fail = false /\ ret = LIS_SUCCESS /\ iter < it <= M /\ Qs it s) \/ (fail = true /\ iter < it <= M /\ Qf ret it s)).
Proof.
  intros Hb. induction fuel as [|f IH]; intros iter s Hi Hm HI.
  - cbn. left. rewrite Nat2Z.inj_0, Z.add_0_r in Hm. subst. split; [reflexivity|]. auto.
  - cbn [eiterate]. rewrite Nat2Z.inj_succ in Hm. apply safe_bind. eapply safe_mono; [apply Hb; auto; lia|].
    intros [s'|s'|err s'] Hs; cbn.
    + eapply safe_mono; [apply IH; [lia|lia|exact Hs]|]. intros [[[fl ret] it] s2] [X|[X|X]]; [left|right;left|right;right]; auto.
      * destruct X as [X [X' [Y Z0]]]. repeat (split; auto); lia.
      * destruct X as [X [Y Z0]]. repeat (split; auto); lia.
    + right; left. split; [reflexivity|]. split; [reflexivity|]. split; [lia|auto].
    + right; right. split; [reflexivity|]. split; [lia|auto].
Qed.

(** the quantities of one iteration of PI *)
Definition resid_at n (v y : vec) (th : R) : R := (nm n (fun i => at_ y i - th * at_ v i) / Rabs th)%R.
Lemma nrm_axpyz n th (v y : vec) : nrm2 n (axpyz n (sopp th) v y) = nm n (fun i => at_ y i - th * at_ v i)%R.
Proof. rewrite nrm2_nm. apply nm_ext. intros i Hi. rewrite (at_axpyz (S:=ScalarR)) by auto. cbn. ring. Qed.
Lemma slebR (a b : R) : sleb a b = true <-> (a <= b)%R.
Proof. cbn. destruct (Rle_dec a b); split; intros; auto; discriminate. Qed.
Lemma slebR' (a b : R) : sleb a b = false <-> (b < a)%R.
Proof. cbn. destruct (Rle_dec a b); split; intros; try lra; try reflexivity; discriminate. Qed.

(** ** PI *)
Section Pi.
Variables (e : eenv R) (E : Ent).
Let n := ee_n e.
Definition pi_good (s : pst (T:=R)) : Prop := exists v th, unit_v n v /\ th = ip n (at_ v) (fun i => mv_spec E n (at_ v) i) /\ (th <> 0)%R /\
  eqv n (at_ (fst (fst (fst s)))) (fun i => mv_spec E n (at_ v) i) /\ snd (fst (fst s)) = Some th /\ snd (fst s) = Some (nm n (fun i => mv_spec E n (at_ v) i - th * at_ v i) / Rabs th)%R.
Definition pi_I (M : Z) (iter : Z) (s : pst (T:=R)) : Prop := zlen (snd s) = M + 2 /\ (0 < iter -> pi_good s /\ exists r, snd (fst s) = Some r /\ (ee_tol e < r)%R).
Definition pi_S (M : Z) (iter : Z) (s : pst (T:=R)) : Prop := zlen (snd s) = M + 2 /\ pi_good s /\ exists r, snd (fst s) = Some r /\ (r <= ee_tol e)%R.
Lemma epi_body_safe M iter s : 0 <= iter < M -> pi_I M iter s ->
  safe (epi_body e E (iter + 1) s) (fun c => match c with ENext s => pi_I M (iter + 1) s | EStop s => pi_S M (iter + 1) s | EFail _ _ => False end).
Proof.
  intros Hi [Hl _]. destruct s as [[[v0 t0] r0] rh]. cbn [snd fst] in *. unfold epi_body. apply safe_bind, safe_normalize. intros v Hv0 Hv _.
  fold n in Hv0, Hv |- *.
  apply safe_bind, safe_divz. intros Ht. rewrite nrm_axpyz.
  apply safe_bind, safe_history; [lia|]. intros rh' Hrh. cbn [safe].
  set (th := dot n v (matvec n E v)) in *.
  assert (Hy : eqv n (at_ (matvec n E v)) (fun i => mv_spec E n (at_ v) i)) by (intros i Hi'; apply atR_tab; auto).
  assert (Hth : th = ip n (at_ v) (fun i => mv_spec E n (at_ v) i)) by (unfold th; rewrite dot_ip; apply ip_ext; [intros i Hi'; auto|auto]).
  assert (Hth0 : (th <> 0)%R) by (intros X; apply Ht; change (Rabs th = 0%R); rewrite X; apply Rabs_R0).
  assert (Hr : nm n (fun i => at_ (matvec n E v) i - th * at_ v i)%R = nm n (fun i => mv_spec E n (at_ v) i - th * at_ v i)%R) by (apply nm_ext; intros i Hi'; rewrite Hy by auto; reflexivity).
  rewrite Hr. set (r := (nm n (fun i => mv_spec E n (at_ v) i - th * at_ v i) / sabs th)%R).
  assert (G : pi_good (copy n (matvec n E v), Some th, Some r, rh')).
  { exists v, th. cbn [fst snd]. split; auto. split; auto. split; auto. split; [|split; reflexivity]. intros i Hi'. rewrite (at_copy (S:=ScalarR)) by auto. apply Hy; auto. }
  destruct (sleb r (ee_tol e)) eqn:El.
  - apply slebR in El. split; [cbn; lia|]. split; [exact G|]. exists r. split; [reflexivity|auto].
  - apply slebR' in El. split; [cbn; lia|]. intros _. split; [exact G|]. exists r. split; [reflexivity|auto].
Qed.
End Pi.

Definition pi_post (e : eenv R) (E0 : Ent) (o : eout R) : Prop :=
  let n := ee_n e in let sg := oshift e in
  exists v lam r iter, unit_v n v /\ lam = ip n (at_ v) (fun i => mv_spec E0 n (at_ v) i) /\ (lam <> sg)%R /\
    r = (nm n (fun i => mv_spec E0 n (at_ v) i - lam * at_ v i) / Rabs (lam - sg))%R /\
    eo_evalue o = Some lam /\ eo_resid o = Some r /\ eo_iter o = Some iter /\ 1 <= iter <= ee_maxiter e /\
    ((eo_ret o = LIS_SUCCESS /\ (r <= ee_tol e)%R) \/ (eo_ret o = LIS_MAXITER /\ iter = ee_maxiter e /\ (ee_tol e < r)%R)) /\
    unit_v n (eo_x o) /\ (exists z, (nm n (at_ z) <> 0)%R /\ eqv n (at_ z) (fun i => mv_spec E0 n (at_ v) i - sg * at_ v i)%R /\ eqv n (at_ (eo_x o)) (fun i => 1 / nm n (at_ z) * at_ z i)%R) /\
    eo_E o = E0 /\ zlen (eo_rh o) = ee_maxiter e + 2.
Lemma epi_safe e E0 x rh : 1 <= ee_maxiter e -> zlen rh = ee_maxiter e + 2 -> no_dup_pos E0 -> (oshift e = 0%R \/ full_diagonal (ee_n e) E0) ->
  safe (epi e E0 x rh) (pi_post e E0).
Proof.
  intros Hm Hl Hn Hd. unfold epi. set (n := ee_n e). set (sg := oshift e). set (E := do_shift sg E0). set (v0 := if ee_ones e then set_all n s1 else x).
  apply safe_bind. eapply safe_mono.
  - apply (eiterate_safe (pi_I e E (ee_maxiter e)) (pi_S e E (ee_maxiter e)) (fun _ _ _ => False) (epi_body e E) (ee_maxiter e)).
    + intros iter s Hi HI. apply epi_body_safe; auto.
    + lia.
    + rewrite Z2Nat.id by lia. lia.
    + split; [cbn; auto|lia].
  - intros [[[fl ret] it] [[[v th'] r'] rh']] H.
    assert (G : pi_good e E (v, th', r', rh') /\ zlen rh' = ee_maxiter e + 2 /\ 1 <= it <= ee_maxiter e /\ exists r, r' = Some r /\
       ((ret = LIS_SUCCESS /\ (r <= ee_tol e)%R) \/ (ret = LIS_MAXITER /\ it = ee_maxiter e /\ (ee_tol e < r)%R))).
    { destruct H as [[_ [A [B C]]]|[[_ [A [B C]]]|[_ [_ []]]]].
      - destruct C as [C1 C2]. destruct C2 as [G [r [X Y]]]; [lia|]. cbn [snd fst] in *. split; [auto|]. split; [auto|]. split; [lia|]. exists r. split; auto.
      - destruct C as [C1 [G [r [X Y]]]]. cbn [snd fst] in *. split; [auto|]. split; [auto|]. split; [lia|]. exists r. split; auto. }
    clear H. destruct G as [[u [th [Hu [Hth [Hth0 [Hv [X1 X2]]]]]]] [Hlr [Hit [r [Hr Hret]]]]]. cbn [fst snd] in *. fold n in Hu, Hth, Hv, X2.
    rewrite Hr, X1. cbn [get bind]. apply safe_bind, safe_normalize. intros w Hw0 Hw Hw'. cbn [safe].
    assert (Hmv : eqv n (fun i => mv_spec E n (at_ u) i) (fun i => mv_spec E0 n (at_ u) i - sg * at_ u i)%R) by (intros i Hi; apply mv_do_shift; auto).
    assert (Hlam : (th + sg)%R = ip n (at_ u) (fun i => mv_spec E0 n (at_ u) i)).
    { rewrite Hth. rewrite (ip_ext n _ (at_ u) _ (fun i => 1 * mv_spec E0 n (at_ u) i + (- sg) * at_ u i)%R); [|intros i Hi; auto|intros i Hi; rewrite Hmv by auto; ring].
      rewrite ip_lin_r, <- (nm_sq n (at_ u)), Hu.
      change (fun i : Z => mv_spec E0 n (at_ u) i) with (mv_spec E0 n (at_ u)). ring. }
    exists u, (th + sg)%R, r, it. fold n. fold sg.
    split; [auto|]. split; [auto|]. split; [lra|].
    split. { rewrite Hr in X2. injection X2 as ->. replace (th + sg - sg)%R with th by ring. f_equal. apply nm_ext. intros i Hi. rewrite Hmv by auto. ring. }
    split; [reflexivity|]. split; [reflexivity|]. split; [reflexivity|]. split; [auto|].
    split; [cbn [eo_ret]; exact Hret|]. split; [exact Hw|]. split.
    { exists v. split; [auto|]. split; [|auto]. intros i Hi. rewrite Hv by auto. apply Hmv; auto. }
    split; [apply undo_do|auto].
Qed.
