Require Import ZArith List Bool Lia Ring Field.
From Verif Require Import Base Scalar Spec SpecSolver Krylov Krylov2 Solve SpecSolve MatvecProof KrylovProof KrylovFinal.
Import ListNotations.
Open Scope Z_scope.

Section P.
Context {T : Type} {S : Scalar T}.
Hypothesis FT : is_field S.
Hypothesis EQ : eqb_ok S.
Lemma RT : is_ring S. Proof. exact (F_R FT). Qed.
Let RT' : @ring_theory T s0 s1 sadd smul ssub sopp (@eq T) := RT.
Add Ring Tr : RT'.
Notation vec := (vect (T:=T)).

Lemma norm2_ext n (u v : list T) : (forall i, 0 <= i < n -> vcomp u i = vcomp v i) -> norm2 n u = norm2 n v.
Proof. intros H. unfold norm2. f_equal. apply ssum_map_ext. intros i Hi. apply In_zrange in Hi. rewrite H by lia. reflexivity. Qed.
Lemma norm1_ext n (u v : list T) : (forall i, 0 <= i < n -> vcomp u i = vcomp v i) -> norm1 n u = norm1 n v.
Proof. intros H. unfold norm1. apply ssum_map_ext. intros i Hi. apply In_zrange in Hi. rewrite H by lia. reflexivity. Qed.
Lemma measured_ext conv n b b' r0 r0' r r' :
  (forall i, 0 <= i < n -> vcomp b i = vcomp (S:=S) b' i) -> (forall i, 0 <= i < n -> vcomp r0 i = vcomp (S:=S) r0' i) ->
  (forall i, 0 <= i < n -> vcomp r i = vcomp (S:=S) r' i) -> measured conv n b r0 r = measured conv n b' r0' r'.
Proof. intros A B C. unfold measured. rewrite (norm2_ext n b b' A), (norm2_ext n r0 r0' B), (norm2_ext n r r' C), (norm1_ext n r r' C). reflexivity. Qed.
Lemma residual_at n E b (x : list T) i : 0 <= i < n -> vcomp (residual n E b x) i = ssub (vcomp b i) (mv_spec E n (vcomp x) i).
Proof. intros. apply (at_tab n (fun i => ssub (vcomp b i) (mv_spec E n (vcomp x) i))); auto. Qed.
Lemma mv_spec_ext (E : list (entry T)) n f g i : (forall j, 0 <= j < n -> f j = g j) -> mv_spec E n f i = mv_spec E n g i.
Proof. intros H. unfold mv_spec. apply ssum_map_ext. intros j Hj. apply In_zrange in Hj. rewrite H by lia. reflexivity. Qed.
Lemma residual_ext n E b (x y : list T) : (forall i, 0 <= i < n -> vcomp x i = vcomp y i) -> residual n E b x = residual n E b y.
Proof.
  intros H. unfold residual. apply map_ext_in. intros i Hi. apply In_zrange in Hi. f_equal. apply mv_spec_ext. auto.
Qed.
Lemma rel_mul a b : smul a (if seqb b s0 then s1 else sdiv s1 b) = rel a b.
Proof.
  unfold rel. destruct (seqb b s0) eqn:E; [ring|]. symmetry. apply (Fdiv_def FT a b).
Qed.

(** the outcome of a solver in terms of the specification *)
Definition sol_spec (conv n : Z) (E : list (entry T)) (b x0 : list T) (tol tolw : T) (mem : bool) (maxiter : Z)
    (rh : list T) (ret iter : Z) (nrm : option T) (x rh' : list T) : Prop :=
  let r0 := residual n E b x0 in
  let first := initial_measure conv n b r0 in
  if sleb first (sabs tol) then ret = LIS_SUCCESS /\ iter = 1 /\ nrm = Some first /\ x = x0 /\ rh' = rh
  else (forall v, nrm = Some v -> v = measured conv n b r0 (residual n E b x)) /\
    let B := bound conv n tol tolw b in
    zlen rh' = zlen rh /\ 1 <= iter <= maxiter + 1 /\
    (forall j, j < 1 \/ iter < j -> znth s0 rh' j = znth s0 rh j) /\
    (mem = true -> forall j, 1 <= j < iter -> sleb (znth s0 rh' j) B = false) /\ (mem = false -> rh' = rh) /\
    (ret = LIS_SUCCESS /\ iter <= maxiter /\ (exists v, nrm = Some v /\ sleb v B = true /\ (mem = true -> znth s0 rh' iter = v)) \/
     ret = LIS_BREAKDOWN /\ iter <= maxiter /\ (iter = 1 \/ exists v, nrm = Some v /\ sleb v B = false) \/
     ret = LIS_MAXITER /\ iter = maxiter + 1 /\
       (iter = 1 \/ exists v, nrm = Some v /\ sleb v B = false /\ (mem = true -> znth s0 rh' (iter - 1) = v))).

Lemma sol_ok_spec e x rh o : zeros_ok e x -> e_conv e = 0 \/ e_conv e = 1 \/ e_conv e = 2 -> sol_ok e x rh o ->
  sol_spec (e_conv e) (e_n e) (e_E e) (e_b e) x (e_tol e) (e_tolw e) (e_mem e) (e_maxiter e) rh
    (o_ret o) (o_iter o) (o_resid o) (o_x o) (o_rh o).
Proof.
  intros HZ HC H. pose proof (initial_resid RT e x HZ) as HI. unfold sol_ok in H. unfold get_initial_residual in *. 
  set (p := if e_zeros e then _ else _) in *.
  assert (HP : forall i, 0 <= i < e_n e -> vcomp p i = vcomp (residual (e_n e) (e_E e) (e_b e) x) i).
  { intros i Hi. rewrite residual_at by auto. destruct HC as [C|[C|C]]; rewrite C in HI; apply (HI i Hi). }
  assert (E2 : nrm2 (e_n e) p = norm2 (e_n e) (residual (e_n e) (e_E e) (e_b e) x)) by (apply norm2_ext; exact HP).
  assert (E1 : nrm1 (e_n e) p = norm1 (e_n e) (residual (e_n e) (e_E e) (e_b e) x)) by (apply norm1_ext; exact HP).
  unfold sol_spec, initial_measure, measured, bound. rewrite E1, E2 in H.
  change (nrm2 (e_n e) (e_b e)) with (norm2 (e_n e) (e_b e)) in H.
  change (nrm1 (e_n e) (e_b e)) with (norm1 (e_n e) (e_b e)) in H.
  unfold outcome, get_residual, tres in H.
  destruct HC as [C|[C|C]]; rewrite C in *; cbn [Z.eqb Pos.eqb orb] in *; rewrite rel_mul in H;
    (match type of H with context [sleb ?a ?b] => destruct (sleb a b) end; [exact H|]).
  - destruct H as (V & H). split; [|exact H]. intros v Hv. rewrite (V v Hv). rewrite rel_mul. reflexivity.
  - destruct H as (V & H). split; [|exact H]. intros v Hv. rewrite (V v Hv). rewrite rel_mul. reflexivity.
  - exact H.
Qed.

(** ** lis_solve *)
Lemma execute_ok o e x rh : In (s_solver o) krylov_list -> (s_solver o = 8 -> 0 <= s_restart o) ->
  0 <= e_maxiter e -> zlen rh = e_maxiter e + 2 -> zeros_ok e x -> safe (execute o e x rh) (sol_ok e x rh).
Proof.
  intros HK HR Hm Hrh HZ. unfold execute.
  cbn [krylov_list In] in HK.
  repeat (destruct HK as [HK|HK]; [rewrite <- HK in *|]); try contradiction.
  - apply lis_cg_ok; auto; apply RT.
  - apply lis_bicg_ok; auto; apply RT.
  - apply lis_cgs_ok; auto; apply RT.
  - apply lis_bicgstab_ok; auto; apply RT.
  - apply lis_gpbicg_ok; auto; apply RT.
  - apply lis_orthomin_ok; auto; try apply RT. unfold tab, zlen. rewrite map_length.
    pose proof (zlen_zrange 0 (s_restart o + 1)) as HL. unfold zlen in HL. specialize (HR eq_refl). lia.
  - apply lis_bicgsafe_ok; auto; apply RT.
  - apply lis_cr_ok; auto; apply RT.
  - apply lis_bicr_ok; auto; apply RT.
  - apply lis_crs_ok; auto; apply RT.
  - apply lis_bicrstab_ok; auto; apply RT.
  - apply lis_gpbicr_ok; auto; apply RT.
  - apply lis_bicrsafe_ok; auto; apply RT.
  - apply lis_cocg_ok; auto; apply RT.
  - apply lis_cocr_ok; auto; apply RT.
Qed.

Definition guess (o : opts (T:=T)) (n : Z) (x : list T) : list T := if s_zeros o then zeros n else copy n x.
Definition rh_init (o : opts (T:=T)) : list T := zupd (tab (s_maxiter o + 2) (s_junk o)) 0 s1.

Lemma scale_diag_ok sym n E : 0 <= n -> safe (scale_diag sym n E) (fun d => is_scaling (if sym : bool then 2 else 1) n E d).
Proof.
  intros Hn. unfold scale_diag.
  assert (G : forall f d0, zlen d0 = n -> forall k, Z.of_nat f = n - k -> 0 <= k ->
    (forall i, 0 <= i < k -> let a := coef E i i in let q := if sym then ssqrt (sabs a) else a in q <> s0 /\ vcomp d0 i = sdiv s1 q) ->
    safe (for_n f k (fun i d => let a := coef E i i in q <- divz s1 (if sym then ssqrt (sabs a) else a);; wr d i q) d0)
      (fun d => forall i, 0 <= i < n -> let a := coef E i i in let q := if sym then ssqrt (sabs a) else a in q <> s0 /\ vcomp d i = sdiv s1 q)).
  { intros f; induction f as [|f IH]; intros d0 HL k Hk Hk0 H; cbn [for_n].
    - simpl. intros i Hi. apply H. lia.
    - cbv zeta. unfold divz. destruct (seqb (if sym then ssqrt (sabs (coef E k k)) else coef E k k) s0) eqn:EZ; [reflexivity|].
      cbn [bind]. rewrite wr_ok by lia. cbn [bind]. apply IH; [len; lia|lia|lia|].
      intros i Hi. cbv zeta. destruct (Z.eq_dec i k) as [->|Hne].
      + split. { intros C. apply EQ in C. congruence. } unfold vcomp. rewrite znth_zupd, Z.eqb_refl by lia. reflexivity.
      + specialize (H i ltac:(lia)). cbv zeta in H. destruct H as (H1 & H2). split; [exact H1|].
        unfold vcomp. rewrite znth_zupd by lia. destruct (i =? k) eqn:E'; [apply Z.eqb_eq in E'; lia|exact H2]. }
  unfold for_. rewrite Z.sub_0_r. eapply safe_mono.
  - apply G; [|lia|lia|intros; lia]. unfold set_all, tab, zlen. rewrite map_length. pose proof (zlen_zrange 0 n) as HL. unfold zlen in HL. lia.
  - intros d H _ i Hi. specialize (H i Hi). destruct sym; exact H.
Qed.

(** entries of the matrix the solver works with: D A (1), D A D (2) *)
Definition scaled_system (sc n : Z) (E : list (entry T)) (b d : list T) : list (entry T) * list T :=
  if sc =? 0 then (E, b) else (scale_entries (sc =? 2) d E, pmul n b d).

Lemma safe_ok {A} (a : A) (Q : A -> Prop) : Q a -> safe (Ok a) Q.
Proof. auto. Qed.
Lemma lis_solve_gen o n E b x : 0 <= n -> valid o ->
  safe (lis_solve o n E b x) (fun v => exists d y,
    is_scaling (eff_scale o) n E d /\
    v_ret v = LIS_SUCCESS /\
    v_x v = (if eff_scale o =? 2 then pmul n y d else copy n y) /\
    (v_E v, v_b v) = scaled_system (eff_scale o) n E b d /\
    sol_spec (s_conv o) n (v_E v) (v_b v) (guess o n x) (s_tol o) (s_tolw o) (s_mem o) (s_maxiter o) (rh_init o)
      (v_status v) (v_iter v) (v_resid v) y (v_rh v)).
Proof.
  intros Hn (V1 & V2 & V3 & V4 & V5 & V6 & V7 & V8). unfold lis_solve.
  assert (B1 : (s_precon o <? 0) || (s_precon o >? 10) = false).
  { apply orb_false_iff. split; [apply Z.ltb_ge; lia|rewrite Z.gtb_ltb; apply Z.ltb_ge; lia]. }
  rewrite B1, V4. cbn [Z.eqb negb].
  assert (B2 : (s_solver o <? 1) || (s_solver o >? 25) = false /\ (10 <=? s_solver o) && (s_solver o <=? 12) = false /\ conv_null (s_solver o) = false /\ s_solver o <> 12 /\ (s_solver o =? 9) = false /\ (s_solver o =? 20) = false /\ (s_solver o =? 5) = false).
  { clear - V1. cbn [krylov_list In] in V1. repeat (destruct V1 as [V1|V1]; [rewrite <- V1; cbn; repeat split; lia|]). contradiction. }
  destruct B2 as (B2 & B3 & B4 & B4' & B9 & B20 & B05). rewrite B2, B3, B4.
  assert (B5 : (s_maxiter o <? 0) = false) by (apply Z.ltb_ge; lia). rewrite B5, andb_false_r.
  assert (B6 : check_params o = 0).
  { unfold check_params. rewrite B9, B20, B05. destruct (s_solver o =? 8) eqn:C8; cbn [andb orb].
    - apply Z.eqb_eq in C8. destruct (s_restart o <? 0) eqn:C9; [apply Z.ltb_lt in C9; specialize (V6 C8); lia|].
      rewrite C8. reflexivity.
    - destruct (s_solver o =? 12) eqn:C12; [apply Z.eqb_eq in C12; lia|reflexivity]. }
  rewrite B6. cbn [Z.eqb negb]. destruct (s_precon o =? 5) eqn:B7; [apply Z.eqb_eq in B7; lia|].
  cbn [andb orb negb]. fold (eff_scale o).
  assert (HL : zlen (tab (s_maxiter o + 2) (s_junk o)) = s_maxiter o + 2).
  { unfold tab, zlen. rewrite map_length. pose proof (zlen_zrange 0 (s_maxiter o + 2)) as HL. unfold zlen in HL. lia. }
  rewrite wr_ok by lia. cbn [bind]. fold (rh_init o).
  assert (HG : (if s_zeros o then set_all n s0 else copy n x) = guess o n x) by (unfold guess; destruct (s_zeros o); reflexivity).
  rewrite HG.
  assert (MAIN : forall d, is_scaling (eff_scale o) n E d ->
    forall E' b', (E', b') = scaled_system (eff_scale o) n E b d ->
    safe (r <- execute o (mkEnv n E' b' (s_psolve o) (s_psolveh o) (s_maxiter o) (s_conv o) (s_tol o) (s_tolw o) (s_zeros o) (s_mem o) (s_shadow o)) (guess o n x) (rh_init o);;
      Ok (mkSolved LIS_SUCCESS (o_ret r) (o_iter r) (o_resid r) (if eff_scale o =? 2 then pmul n (o_x r) d else copy n (o_x r)) (o_rh r) E' b'))
     (fun v => exists d y, is_scaling (eff_scale o) n E d /\ v_ret v = LIS_SUCCESS /\
       v_x v = (if eff_scale o =? 2 then pmul n y d else copy n y) /\ (v_E v, v_b v) = scaled_system (eff_scale o) n E b d /\
       sol_spec (s_conv o) n (v_E v) (v_b v) (guess o n x) (s_tol o) (s_tolw o) (s_mem o) (s_maxiter o) (rh_init o)
         (v_status v) (v_iter v) (v_resid v) y (v_rh v))).
  { intros d Hd E' b' HE. set (e := mkEnv _ _ _ _ _ _ _ _ _ _ _ _).
    assert (HZ : zeros_ok e (guess o n x)).
    { intros Hz i Hi. unfold guess. cbn [e e_zeros] in Hz. rewrite Hz. apply (at_tab n (fun _ => s0)). exact Hi. }
    apply safe_bind. eapply safe_mono.
    - apply execute_ok; [exact V1|exact V6|exact V5| |exact HZ].
      change (zlen (rh_init o) = s_maxiter o + 2). unfold rh_init. len.
    - intros r Hr. apply safe_ok. exists d, (o_x r). cbn [v_ret v_x v_E v_b v_status v_iter v_resid v_rh].
      split; [exact Hd|]. split; [reflexivity|]. split; [reflexivity|]. split; [exact HE|].
      apply (sol_ok_spec e (guess o n x) (rh_init o) r HZ V7 Hr). }
  destruct (Z.eq_dec (eff_scale o) 0) as [C0|C0].
  - rewrite C0 in *. cbn [Z.eqb negb bind]. apply (MAIN (set_all n s0)); [intros C; congruence|reflexivity].
  - apply Z.eqb_neq in C0. rewrite C0. cbn [negb].
    assert (HS := scale_diag_ok (eff_scale o =? 2) n E Hn).
    destruct (scale_diag (eff_scale o =? 2) n E) as [d| |]; cbn [bind]; [|exact HS|exact HS]. cbn [safe] in HS.
    assert (HS' : is_scaling (eff_scale o) n E d).
    { clear - HS C0. intros _ i Hi. destruct (eff_scale o =? 2); apply HS; auto; discriminate. }
    apply MAIN; [exact HS'|]. unfold scaled_system. rewrite C0. reflexivity.
Qed.

(** ** scaled systems *)
Lemma coef_scale sym d (E : list (entry T)) i j :
  coef (scale_entries sym d E) i j = smul (coef E i j) (if sym then smul (at_ d i) (at_ d j) else at_ d i).
Proof.
  unfold coef, scale_entries. induction E as [|[[i' j'] a] E IH]; [destruct sym; cbn; ring|].
  cbn [map filter].
  change (at_ij i j (i', j', if sym then smul (smul a (at_ d i')) (at_ d j') else smul a (at_ d i'))) with ((i' =? i) && (j' =? j)).
  change (at_ij i j (i', j', a)) with ((i' =? i) && (j' =? j)).
  destruct ((i' =? i) && (j' =? j)) eqn:C; [|exact IH].
  apply andb_true_iff in C. destruct C as [C1 C2]. apply Z.eqb_eq in C1, C2. subst.
  cbn [map ssum fold_right]. change (fold_right sadd s0 ?l) with (ssum l). rewrite IH. unfold eval. cbn [snd]. destruct sym; ring.
Qed.
Lemma mv_scale_jac d E n (y : Z -> T) i : mv_spec (scale_entries false d E) n y i = smul (at_ d i) (mv_spec E n y i).
Proof.
  unfold mv_spec. rewrite <- (ssum_map_mul_l RT). apply ssum_map_ext. intros j _. rewrite coef_scale. ring.
Qed.
Lemma mv_scale_sym d E n (y : Z -> T) i : mv_spec (scale_entries true d E) n y i = smul (at_ d i) (mv_spec E n (fun j => smul (at_ d j) (y j)) i).
Proof.
  unfold mv_spec. rewrite <- (ssum_map_mul_l RT). apply ssum_map_ext. intros j _. rewrite coef_scale. ring.
Qed.
Lemma dmul_at n d v i : 0 <= i < n -> vcomp (dmul n d v) i = smul (vcomp d i) (vcomp v i).
Proof. intros. apply (at_tab n (fun i => smul (vcomp d i) (vcomp v i))); auto. Qed.
Lemma pmul_at n u v i : 0 <= i < n -> vcomp (pmul n u v) i = smul (vcomp u i) (vcomp v i).
Proof. intros. apply (at_tab n (fun i => smul (vcomp u i) (vcomp v i))); auto. Qed.
Lemma copy_at n v i : 0 <= i < n -> vcomp (copy n v) i = vcomp (S:=S) v i.
Proof. intros. apply (at_tab n (at_ v)); auto. Qed.

Lemma measured_eq conv n b b' r0 r0' r r' : (conv = 0 \/ conv = 1 \/ conv = 2) ->
  (forall i, 0 <= i < n -> vcomp b i = vcomp (S:=S) b' i) -> (forall i, 0 <= i < n -> vcomp r0 i = vcomp (S:=S) r0' i) ->
  (forall i, 0 <= i < n -> vcomp r i = vcomp (S:=S) r' i) -> measured conv n b r0 r = measured conv n b' r0' r'.
Proof. intros _. apply measured_ext. Qed.
Lemma bound_ext conv n tol tolw b b' : (forall i, 0 <= i < n -> vcomp b i = vcomp (S:=S) b' i) -> bound conv n tol tolw b = bound conv n tol tolw b'.
Proof. intros H. unfold bound. rewrite (norm1_ext n b b' H). reflexivity. Qed.
Lemma initial_ext conv n b b' r0 r0' :
  (forall i, 0 <= i < n -> vcomp b i = vcomp (S:=S) b' i) -> (forall i, 0 <= i < n -> vcomp r0 i = vcomp (S:=S) r0' i) ->
  initial_measure conv n b r0 = initial_measure conv n b' r0'.
Proof. intros A B. unfold initial_measure. rewrite (measured_ext conv n b b' r0 r0' r0 r0' A B B), (norm1_ext n r0 r0' B), (norm1_ext n b b' A). reflexivity. Qed.

(** *** the theorems of Properties_Solver.v, in one statement: what the caller sees *)
Definition seen (o : opts (T:=T)) (n : Z) (E : list (entry T)) (b x d : list T) (v : solved (T:=T)) : Prop :=
  let W := weight (eff_scale o) n d in
  let r0 := residual n E b (start_x (eff_scale o) (s_zeros o) n d x) in
  let r := residual n E b (v_x v) in
  let first := initial_measure (s_conv o) n (W b) (W r0) in
  let B := bound (s_conv o) n (s_tol o) (s_tolw o) (W b) in
  v_ret v = LIS_SUCCESS /\ zlen (v_rh v) = s_maxiter o + 2 /\ znth s0 (v_rh v) 0 = s1 /\
  if sleb first (sabs (s_tol o)) then
    v_status v = LIS_SUCCESS /\ v_iter v = 1 /\ v_resid v = Some first /\
    (forall i, 0 <= i < n -> vcomp (v_x v) i = vcomp (start_x (eff_scale o) (s_zeros o) n d x) i)
  else (forall q, v_resid v = Some q -> q = measured (s_conv o) n (W b) (W r0) (W r)) /\
    1 <= v_iter v <= s_maxiter o + 1 /\
    (s_mem o = true -> forall j, 1 <= j < v_iter v -> sleb (znth s0 (v_rh v) j) B = false) /\
    (v_status v = LIS_SUCCESS /\ v_iter v <= s_maxiter o /\
       (exists q, v_resid v = Some q /\ sleb q B = true /\ (s_mem o = true -> znth s0 (v_rh v) (v_iter v) = q)) \/
     v_status v = LIS_BREAKDOWN /\ v_iter v <= s_maxiter o /\ (v_iter v = 1 \/ exists q, v_resid v = Some q /\ sleb q B = false) \/
     v_status v = LIS_MAXITER /\ v_iter v = s_maxiter o + 1 /\
       (v_iter v = 1 \/ exists q, v_resid v = Some q /\ sleb q B = false /\ (s_mem o = true -> znth s0 (v_rh v) (v_iter v - 1) = q))).

Lemma residual_scaled sc n E b d y i E' b' : 0 <= i < n -> sc = 0 \/ sc = 1 \/ sc = 2 -> (E', b') = scaled_system sc n E b d ->
  vcomp (residual n E' b' y) i = vcomp (weight sc n d (residual n E b (if sc =? 2 then dmul n d y else y))) i.
Proof.
  intros Hi HS HE. unfold scaled_system, weight in *. destruct HS as [->|[->| ->]]; cbn [Z.eqb Pos.eqb] in *; inversion HE; subst.
  - reflexivity.
  - rewrite dmul_at, !residual_at, pmul_at, mv_scale_jac by auto. unfold vcomp, at_. ring.
  - rewrite dmul_at, !residual_at, pmul_at, mv_scale_sym by auto.
    rewrite (mv_spec_ext E n (vcomp (dmul n d y)) (fun j => smul (at_ d j) (vcomp y j))); [unfold vcomp, at_; ring|].
    intros j Hj. apply dmul_at; auto.
Qed.

Lemma eff_range (o : opts (T:=T)) : valid o -> eff_scale o = 0 \/ eff_scale o = 1 \/ eff_scale o = 2.
Proof.
  intros (_ & _ & _ & _ & _ & _ & _ & V). unfold eff_scale. destruct ((s_scale o =? 1) && (s_solver o =? 1)); auto.
Qed.
Lemma lis_solve_seen o n E b x : 0 <= n -> valid o ->
  safe (lis_solve o n E b x) (fun v => exists d, is_scaling (eff_scale o) n E d /\ seen o n E b x d v).
Proof.
  intros Hn HV. eapply safe_mono; [apply lis_solve_gen; auto|].
  intros v (d & y & S1 & S2 & S3 & S4 & S5). exists d. split; [exact S1|]. unfold seen.
  pose proof (eff_range o HV) as HS.
  set (sc := eff_scale o) in *. set (W := weight sc n d).
  assert (Eb : forall i, 0 <= i < n -> vcomp (v_b v) i = vcomp (W b) i).
  { intros i Hi. unfold W, weight, scaled_system in *. destruct (sc =? 0); injection S4 as HE Hb; rewrite Hb; [reflexivity|].
    rewrite dmul_at, pmul_at by auto. unfold vcomp. ring. }
  assert (Ex : forall i, 0 <= i < n -> vcomp (v_x v) i = vcomp (if sc =? 2 then dmul n d y else y) i).
  { intros i Hi. rewrite S3. destruct (sc =? 2); [rewrite dmul_at, pmul_at by auto; unfold vcomp; ring|apply copy_at; auto]. }
  assert (Er : forall i, 0 <= i < n -> vcomp (residual n (v_E v) (v_b v) y) i = vcomp (W (residual n E b (v_x v))) i).
  { intros i Hi. rewrite (residual_scaled sc n E b d y i _ _ Hi HS S4).
    rewrite (residual_ext n E b (v_x v) _ Ex). reflexivity. }
  assert (Eg : forall i, 0 <= i < n -> vcomp (guess o n x) i = vcomp (if s_zeros o then zeros n else x) i).
  { intros i Hi. unfold guess. destruct (s_zeros o); [reflexivity|apply copy_at; auto]. }
  assert (Es : forall i, 0 <= i < n -> vcomp (if sc =? 2 then dmul n d (guess o n x) else guess o n x) i = vcomp (start_x sc (s_zeros o) n d x) i).
  { intros i Hi. unfold start_x. destruct (sc =? 2); [rewrite !dmul_at by auto; f_equal|]; apply Eg; auto. }
  assert (Er0 : forall i, 0 <= i < n -> vcomp (residual n (v_E v) (v_b v) (guess o n x)) i = vcomp (W (residual n E b (start_x sc (s_zeros o) n d x))) i).
  { intros i Hi. rewrite (residual_scaled sc n E b d (guess o n x) i _ _ Hi HS S4).
    rewrite (residual_ext n E b _ _ Es). reflexivity. }
  unfold sol_spec in S5. cbv zeta in *.
  rewrite (initial_ext (s_conv o) n _ _ _ _ Eb Er0) in S5.
  rewrite (bound_ext (s_conv o) n (s_tol o) (s_tolw o) _ _ Eb) in S5.
  assert (HV5 : 0 <= s_maxiter o) by apply HV.
  assert (HL : zlen (rh_init o) = s_maxiter o + 2).
  { unfold rh_init. len. }
  assert (H0 : znth s0 (rh_init o) 0 = s1).
  { unfold rh_init in *. rewrite znth_zupd; [reflexivity|]. split; [lia|]. revert HL. len. }
  split; [exact S2|]. 
  destruct (sleb _ (sabs (s_tol o))) eqn:EA.
  - destruct S5 as (A1 & A2 & A3 & A4 & A5). rewrite A5. split; [exact HL|]. split; [exact H0|].
    split; [exact A1|]. split; [exact A2|]. split; [exact A3|]. intros i Hi. rewrite Ex by auto. rewrite A4. apply Es. auto.
  - destruct S5 as (A1 & A2 & A3 & A4 & A5 & A6 & A7). split; [lia|]. split; [rewrite A4 by lia; exact H0|].
    split; [|split; [exact A3|split; [exact A5|exact A7]]].
    intros q Hq. rewrite (A1 q Hq). apply measured_ext; auto.
Qed.
End P.
