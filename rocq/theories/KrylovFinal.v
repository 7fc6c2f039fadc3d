Require Import ZArith List Bool Lia Ring.
From Verif Require Import Base Scalar Spec SpecSolver Krylov Krylov2 MatvecProof KrylovProof.
Import ListNotations.
Open Scope Z_scope.

Section P.
Context {T : Type} {S : Scalar T}.
Hypothesis RT : is_ring S.
Let RT' : @ring_theory T s0 s1 sadd smul ssub sopp (@eq T) := RT.
Add Ring Tr : RT'.
Notation env' := (env (T:=T)).
Notation vec := (vect (T:=T)).
Variables (e : env') (x : vec) (rh : list T).
Hypothesis Hm : 0 <= e_maxiter e.
Hypothesis Hrh : zlen rh = e_maxiter e + 2.
Hypothesis HZ : zeros_ok e x.

Ltac fin rr P ok :=
  eapply (solver_ok RT e rr P); auto; try (unfold X; lia); [|intros; apply ok; exact RT].
Ltac red1 := cbv [upd Z.eqb Pos.eqb X].
Ltac startn := intros bn tol W HR HW; cbn; split; [exact HR|exact I].

Lemma lis_cg_ok : safe (lis_cg e x rh) (sol_ok e x rh).
Proof. fin 2 (noinv (T:=T) (L:=T)) (@cg_ok). startn. Qed.
Lemma lis_cocg_ok : safe (lis_cocg e x rh) (sol_ok e x rh).
Proof. fin 2 (noinv (T:=T) (L:=T)) (@cg_ok). startn. Qed.
Lemma lis_bicg_ok : safe (lis_bicg e x rh) (sol_ok e x rh).
Proof. fin 0 (noinv (T:=T) (L:=T)) (@bicg_ok). startn. Qed.
Lemma lis_cgs_ok : safe (lis_cgs e x rh) (sol_ok e x rh).
Proof. fin 0 (noinv (T:=T) (L:=T)) (@cgs_ok). startn. Qed.
Lemma lis_crs_ok : safe (lis_crs e x rh) (sol_ok e x rh).
Proof. fin 0 (noinv (T:=T) (L:=T)) (@crs_ok). startn. Qed.
Lemma lis_bicgstab_ok : safe (lis_bicgstab e x rh) (sol_ok e x rh).
Proof. fin 1 (noinv (T:=T) (L:=T*T*T)) (@bicgstab_ok). startn. Qed.
Lemma lis_bicrstab_ok : safe (lis_bicrstab e x rh) (sol_ok e x rh).
Proof. fin 1 (noinv (T:=T) (L:=T)) (@bicrstab_ok). startn. Qed.
Lemma lis_cr_ok : safe (lis_cr e x rh) (sol_ok e x rh).
Proof.
  fin 2 (fun (_ : Z) W (_ : unit) => isA e 3 1 W) (@cr_ok).
  intros bn tol W HR HW. cbn. split; [exact HR|]. intros i Hi. red1. apply at_matvec; auto.
Qed.
Lemma lis_cocr_ok : safe (lis_cocr e x rh) (sol_ok e x rh).
Proof.
  fin 2 (fun (_ : Z) W (_ : unit) => isA e 3 1 W) (@cr_ok).
  intros bn tol W HR HW. cbn. split; [exact HR|]. intros i Hi. red1. apply at_matvec; auto.
Qed.
Lemma lis_bicr_ok : safe (lis_bicr e x rh) (sol_ok e x rh).
Proof.
  fin 0 (fun (_ : Z) W (_ : T) => isA e 4 6 W) (@bicr_ok).
  intros bn tol W HR HW. cbn. split; [exact HR|]. intros i Hi. red1. rewrite at_matvec by auto. symmetry. apply mv_copy; auto.
Qed.
Lemma lis_bicgsafe_ok : safe (lis_bicgsafe e x rh) (sol_ok e x rh).
Proof.
  fin 1 (fun it W (_ : T * T) => safeinv e it W) (@bicgsafe_ok).
  intros bn tol W HR HW. cbn. split; [exact HR|]. split; [|split].
  - intros i Hi. red1. rewrite at_copy by auto. rewrite at_matvec by auto. symmetry. apply mv_copy; auto.
  - intros i Hi. red1. apply at_matvec; auto.
  - intros C; congruence.
Qed.
Lemma lis_bicrsafe_ok : safe (lis_bicrsafe e x rh) (sol_ok e x rh).
Proof.
  fin 1 (fun it W (_ : T * T) => safeinv e it W) (@bicrsafe_ok).
  intros bn tol W HR HW. cbn. split; [exact HR|]. split; [|split].
  - intros i Hi. red1. rewrite at_copy by auto. rewrite at_matvec by auto. symmetry. apply mv_copy; auto.
  - intros i Hi. red1. apply at_matvec; auto.
  - intros C; congruence.
Qed.
Lemma lis_gpbicg_ok : safe (lis_gpbicg e x rh) (sol_ok e x rh).
Proof.
  fin 1 (fun it W (l : T * T) => gpinv e it W (fst l)) (@gpbicg_ok).
  intros bn tol W HR HW. cbn. split; [exact HR|]. intros C; congruence.
Qed.
Lemma lis_gpbicr_ok : safe (lis_gpbicr e x rh) (sol_ok e x rh).
Proof.
  fin 1 (fun it W (l : T * T) => gpinv e it W (fst l)) (@gpbicg_ok).
  intros bn tol W HR HW. cbn. split; [exact HR|]. intros C; congruence.
Qed.
(** *** Orthomin *)
Variable m : Z.
Hypothesis Hrs : 0 <= m.
Definition oinv (_ : Z) (W : Z -> vec) (ds : list T) : Prop :=
  zlen ds = m + 1 /\ forall j, 0 <= j <= m -> isA e (2 + j) (m + 3 + j) W.
Lemma wp_safe {A} (r : res A) Q : wp r Q -> safe r Q.
Proof. destruct r; simpl; auto; contradiction. Qed.
Lemma upd_eq (W : Z -> vec) k v : upd W k v k = v.
Proof. unfold upd. rewrite Z.eqb_refl. reflexivity. Qed.
Lemma upd_neq (W : Z -> vec) k v j : j <> k -> upd W k v j = W j.
Proof. intros. unfold upd. destruct (j =? k) eqn:E; [apply Z.eqb_eq in E; lia|reflexivity]. Qed.
Ltac upds := repeat (rewrite ?upd_eq; rewrite ?upd_neq by (unfold X in *; lia)).
Lemma orthomin_ok bn tol : body_ok e bn tol 0 oinv (orthomin_body m e bn tol).
Proof.
  intros it [W0 nr0 rh0] ds Hit Hz Hr Hh Hn (D1 & D2). cbn [k_W k_nrm k_rh] in *.
  cbv beta delta [orthomin_body]. cbv zeta beta. cbv iota beta.
  set (ip := Z.rem (it - 1) (m + 1)).
  assert (Hip : 0 <= ip <= m).
  { unfold ip. rewrite Z.rem_mod_nonneg by lia. pose proof (Z.mod_pos_bound (it - 1) (m + 1)). lia. }
  do 3 (apply safe_lt; cbv beta).
  set (W1 := upd (upd (upd _ _ _) _ _) _ _).
  assert (A1 : forall j, 0 <= j <= m -> isA e (2 + j) (m + 3 + j) W1).
  { intros j Hj i Hi. unfold W1. cbn [k_W]. destruct (Z.eq_dec j ip) as [->|Hne]; upds.
    - rewrite at_matvec by auto. reflexivity.
    - apply D2; auto. }
  assert (A2 : W1 0 = W0 0) by (unfold W1; cbn [k_W]; upds; reflexivity).
  assert (A3 : W1 X = W0 X) by (unfold W1; cbn [k_W]; upds; reflexivity).
  apply safe_bind. apply wp_safe.
  apply (for_wp' (fun _ W => (forall j, 0 <= j <= m -> isA e (2 + j) (m + 3 + j) W) /\ W 0 = W0 0 /\ W X = W0 X)); [lia|auto| |].
  { intros l W Hl (I1 & I2 & I3).
    set (ip0 := Z.rem (ip + m + 1 - l) (m + 1)).
    assert (Hip0 : 0 <= ip0 <= m /\ ip0 <> ip).
    { unfold ip0. rewrite Z.rem_mod_nonneg by lia. pose proof (Z.mod_pos_bound (ip + m + 1 - l) (m + 1)). split; [lia|].
      intros C. pose proof (Z.div_mod (ip + m + 1 - l) (m + 1) ltac:(lia)) as DM. rewrite C in DM.
      assert (DM' : m + 1 - l = (m + 1) * ((ip + m + 1 - l) / (m + 1))) by lia. clear DM. revert DM'.
      generalize ((ip + m + 1 - l) / (m + 1)). intros q DM. destruct (Z_le_gt_dec q 0); nia. }
    wrd (@s0 T S); [lia|]. unfold lt. cbn [wp].
    set (be := smul _ _). split; [|split].
    - intros j Hj i Hi. destruct (Z.eq_dec j ip) as [->|Hne]; upds.
      + rewrite at_axpy by auto. rewrite (mv_axpy RT). rewrite (I1 ip Hip i Hi). f_equal. f_equal.
        apply I1; auto; lia.
      + apply I1; auto.
    - upds. auto.
    - upds. auto. }
  intros W (I1 & I2 & I3).
  assert (HD : wp (for_down (m - 1) 1 (fun l ds => d <- rd ds (l - 1);; wr ds l d) ds) (fun ds' => zlen ds' = m + 1)).
  { destruct (Z.eq_dec m 0) as [->|Hm0]; [exact D1|].
    apply (ford_wp' (fun _ d => zlen d = m + 1)); [lia|auto| |auto].
    intros l d Hl Hd. wrd (@s0 T S); [lia|]. wwr; [lia|]. len; lia. }
  destruct (for_down (m - 1) 1 _ ds) as [ds1| |]; try contradiction HD. cbn [wp] in HD. cbn [bind].
  apply safe_lt; cbv beta. set (d0 := dot _ _ _). rewrite wr_ok by lia. cbn [bind].
  destruct (seqb d0 s0).
  { cbn. split; [apply rh_refl|]. split; [|right; auto]. intros v Hv. cbn [k_W]. rewrite I3. apply Hh. exact Hv. }
  apply safe_divz. intros d1. rewrite wr_ok by (len; lia). cbn [bind].
  apply safe_lt; cbv beta. set (al := smul _ _).
  do 3 (apply safe_lt; cbv beta).
  apply safe_check; [cbn [k_rh]; lia|]. intros rh' E1 E2. cbn [k_rh] in E1. cbv beta iota.
  set (W2 := upd (upd (upd W X _) _ _) _ _).
  assert (R : resid_ok e (W2 0) (W2 X)).
  { intros i Hi. unfold W2. upds. rewrite at_axpy, (mv_axpy RT) by auto. rewrite I2, I3.
    rewrite (Hr i Hi), (I1 ip Hip i Hi). ring. }
  assert (HO : honest e bn (mkK W2 (Some (get_residual e bn (W2 0))) rh')) by (apply honest_intro; exact R).
  destruct (sleb (get_residual e bn (W2 0)) tol) eqn:EL; cbv [safe body_post]; cbn [k_rh k_W k_nrm].
  - split; [exact E1|]. split; [exact HO|]. left. split; [reflexivity|]. eexists. split; [reflexivity|]. split; [exact EL|exact E2].
  - split; [exact E1|]. split; [exact R|]. split; [exact HO|]. split.
    { eexists. split; [reflexivity|]. split; [exact EL|exact E2]. }
    split; [len; lia|]. intros j Hj i Hi. unfold W2. upds. apply I1; auto.
Qed.

Lemma lis_orthomin_ok ds : zlen ds = m + 1 -> safe (lis_orthomin m ds e x rh) (sol_ok e x rh).
Proof.
  intros Hds. eapply (solver_ok RT e 0 oinv); auto; try (unfold X; lia); [|intros; apply orthomin_ok].
  intros bn tol W HR HW. cbn. split; [exact HR|]. split; [exact Hds|].
  intros j Hj i Hi. upds. rewrite !HW by (unfold X; lia). rewrite at_set_all by auto. symmetry. apply (mv_zero RT).
  intros; apply at_set_all; auto.
Qed.

End P.
