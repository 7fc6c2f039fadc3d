(** C52 at the level of lis_solve. *)
Require Import ZArith List Bool Lia Field Field_theory Reals Lra.
From Verif Require Import Base Scalar ScalarReal Spec SpecSolver Krylov Krylov2 Solve SpecSolve KrylovProof SolveProof SolverFinal TermProof SpecTerm.
Import ListNotations.
Open Scope Z_scope.

Section G.
Context {T : Type} {S : Scalar T}.
Hypothesis FT : is_field S.
Hypothesis EQ : eqb_ok S.
Let RT : is_ring S := F_R FT.
Let FT' : @field_theory T s0 s1 sadd smul ssub sopp sdiv (fun x => sdiv s1 x) (@eq T) := FT.
Add Field F : FT'.
Notation vec := (vect (T:=T)).

Lemma lis_solve_okm st (o : opts (T:=T)) n E b x (Q : Z -> Z -> Prop) : 0 <= n -> valid o ->
  (eff_scale o <> 0 -> okm st (scale_diag (eff_scale o =? 2) n E) (fun _ => True)) ->
  (forall d E' b', is_scaling (eff_scale o) n E d -> (E', b') = scaled_system (eff_scale o) n E b d ->
    forall x0 rh, zlen rh = s_maxiter o + 2 ->
    okm st (execute o (mkEnv n E' b' (s_psolve o) (s_psolveh o) (s_maxiter o) (s_conv o) (s_tol o) (s_tolw o) (s_zeros o) (s_mem o) (s_shadow o)) x0 rh)
      (fun r => Q (o_ret r) (o_iter r))) ->
  okm st (lis_solve o n E b x) (fun v => Q (v_status v) (v_iter v)).
Proof.
  intros Hn (V1 & V2 & V3 & V4 & V5 & V6 & V7 & V8) HD HE. unfold lis_solve.
  assert (B1 : (s_precon o <? 0) || (s_precon o >? 10) = false).
  { apply orb_false_iff. split; [apply Z.ltb_ge; lia|rewrite Z.gtb_ltb; apply Z.ltb_ge; lia]. }
  rewrite B1, V4. cbn [Z.eqb negb].
  assert (B2 : (s_solver o <? 1) || (s_solver o >? 25) = false /\ (10 <=? s_solver o) && (s_solver o <=? 12) = false /\ conv_null (s_solver o) = false /\ s_solver o <> 12 /\ (s_solver o =? 9) = false /\ (s_solver o =? 20) = false /\ (s_solver o =? 5) = false).
  { clear - V1. cbn [krylov_list In] in V1. repeat (destruct V1 as [V1|V1]; [rewrite <- V1; cbn; repeat split; lia|]). contradiction. }
  destruct B2 as (B2 & B3 & B4 & B4' & B9 & B20 & B05). rewrite B2, B3, B4.
  assert (B5 : (s_maxiter o <? 0) = false) by (apply Z.ltb_ge; lia). rewrite B5, andb_false_r.
  assert (B6 : check_params o = 0).
  { unfold check_params. rewrite B9, B20, B05. destruct (s_solver o =? 8) eqn:C8; cbn [andb orb].
    - apply Z.eqb_eq in C8. destruct (s_restart o <? 0) eqn:C9; [apply Z.ltb_lt in C9; specialize (V6 C8); lia|].
      rewrite C8. reflexivity.
    - destruct (s_solver o =? 12) eqn:C12; [apply Z.eqb_eq in C12; lia|reflexivity]. }
  rewrite B6. cbn [Z.eqb negb]. destruct (s_precon o =? 5) eqn:B7; [apply Z.eqb_eq in B7; lia|].
  cbn [andb orb negb]. fold (eff_scale o).
  assert (HL : zlen (tab (s_maxiter o + 2) (s_junk o)) = s_maxiter o + 2).
  { unfold tab, zlen. rewrite map_length. pose proof (zlen_zrange 0 (s_maxiter o + 2)) as HL. unfold zlen in HL. lia. }
  rewrite wr_ok by lia. cbn [bind].
  assert (HL' : zlen (zupd (tab (s_maxiter o + 2) (s_junk o)) 0 s1) = s_maxiter o + 2) by len.
  destruct (Z.eq_dec (eff_scale o) 0) as [C0|C0].
  - rewrite C0 in *. cbn [Z.eqb negb bind]. apply okm_bind.
    eapply okm_mono; [apply (HE (set_all n s0)); [intros C; congruence|reflexivity|exact HL']|]. intros r Hr. exact Hr.
  - specialize (HD C0). apply Z.eqb_neq in C0. rewrite C0. cbn [negb].
    assert (HS := scale_diag_ok EQ (eff_scale o =? 2) n E Hn).
    destruct (scale_diag (eff_scale o =? 2) n E) as [d| |]; cbn [bind]; [|exact HD|exact HD]. cbn [safe] in HS.
    assert (HS' : is_scaling (eff_scale o) n E d).
    { clear - HS C0. intros _ i Hi. destruct (eff_scale o =? 2); apply HS; auto; discriminate. }
    apply okm_bind. eapply okm_mono; [apply (HE d); [exact HS'|unfold scaled_system; rewrite C0; reflexivity|exact HL']|]. intros r Hr. exact Hr.
Qed.

(** adjoints *)
Lemma dot_matvec (ip : T -> T) n E u v : 
  ssum (map (fun i => smul (ip (at_ u i)) (at_ (matvec n E v) i)) (zrange 0 n)) =
  ssum (map (fun j => smul (ssum (map (fun i => smul (ip (at_ u i)) (coef E i j)) (zrange 0 n))) (at_ v j)) (zrange 0 n)).
Proof.
  transitivity (ssum (map (fun i => ssum (map (fun j => smul (smul (ip (at_ u i)) (coef E i j)) (at_ v j)) (zrange 0 n))) (zrange 0 n))).
  - apply ssum_map_ext. intros i Hi. apply In_zrange in Hi. unfold matvec. rewrite at_tab by lia. unfold mv_spec.
    rewrite <- (ssum_map_mul_l RT). apply ssum_map_ext. intros; ring.
  - rewrite (ssum_exchange RT). apply ssum_map_ext. intros j Hj. rewrite (ssum_map_mul_r RT). reflexivity.
Qed.
Lemma adj_matvech n E u v (HC : conj_ok S) : dot n u (matvec n E v) = dot n (matvech n E u) v.
Proof.
  unfold dot. rewrite (dot_matvec sconj). apply ssum_map_ext. intros j Hj. apply In_zrange in Hj. f_equal.
  unfold matvech. rewrite at_tab by lia. unfold mvh_spec. rewrite (conj_sum HC), map_map. apply ssum_map_ext.
  intros i _. destruct HC as (_ & H2 & H3 & _). rewrite H2, H3. ring.
Qed.
Lemma adj_hermitian n E u v (HC : conj_ok S) : hermitian n E -> dot n u (matvec n E v) = dot n (matvec n E u) v.
Proof.
  intros HH. unfold dot. rewrite (dot_matvec sconj). apply ssum_map_ext. intros j Hj. apply In_zrange in Hj. f_equal.
  unfold matvec. rewrite at_tab by lia. unfold mv_spec. rewrite (conj_sum HC), map_map. apply ssum_map_ext.
  intros i Hi. apply In_zrange in Hi. destruct HC as (_ & H2 & H3 & _). rewrite H2, (HH i j) by lia. ring.
Qed.
Lemma adj_symmetric n E u v : symmetric n E -> nhdot n u (matvec n E v) = nhdot n (matvec n E u) v.
Proof.
  intros HH. unfold nhdot. rewrite (dot_matvec (fun a => a)). apply ssum_map_ext. intros j Hj. apply In_zrange in Hj. f_equal.
  unfold matvec. rewrite at_tab by lia. unfold mv_spec. apply ssum_map_ext.
  intros i Hi. apply In_zrange in Hi. rewrite (HH i j) by lia. ring.
Qed.

(** every matrix: CG (Hermitian), COCG (symmetric), BiCG, BiCR stop *)
Lemma finite (o : opts (T:=T)) n E b x P Q v : 0 <= n -> conj_ok S -> valid o -> s_scale o = 0 -> n + 2 <= s_maxiter o ->
  (forall k w, s_psolve o k w = P w) -> (forall k w, s_psolveh o k w = Q w) ->
  (s_solver o = 1 /\ hermitian n E /\ adjoint (inner n) P P \/ s_solver o = 24 /\ symmetric n E /\ adjoint (bilinear n) P P \/
   (s_solver o = 2 \/ s_solver o = 15) /\ adjoint (inner n) P Q) ->
  lis_solve o n E b x = Ok v -> (v_status v = LIS_SUCCESS \/ v_status v = LIS_BREAKDOWN) /\ 1 <= v_iter v <= n + 2.
Proof.
  intros Hn HC HV Hsc HM HP HQ HH Hv.
  assert (G : okm false (lis_solve o n E b x) (fun v => good_stop false (v_status v) /\ 1 <= v_iter v <= n + 2)).
  { apply (lis_solve_okm false o n E b x (fun s i => good_stop false s /\ 1 <= i <= n + 2)); auto.
    - intros C. exfalso. apply C. unfold eff_scale. rewrite Hsc. reflexivity.
    - intros d E' b' _ HE x0 rh Hrh. 
      assert (HE0 : E' = E) by (unfold scaled_system, eff_scale in HE; rewrite Hsc in HE; cbn [Z.eqb Pos.eqb andb] in HE; congruence).
      subst E'. set (e := mkEnv _ _ _ _ _ _ _ _ _ _ _ _). unfold execute.
      destruct HH as [(Hs & HA & HPP)|[(Hs & HA & HPP)|([Hs|Hs] & HPP)]]; rewrite Hs.
      + eapply okm_mono; [apply (lis_cg_term FT EQ false e dot sconj P x0 rh (form_dot FT n HC)); auto; try (intros C; discriminate)|].
        * intros u w. apply (adj_hermitian n E u w HC HA).
        * unfold start_good. destruct (get_initial_residual e x0) as [[[[? ?] ?] ?] ?]. intros _ C; discriminate.
        * cbn [e e_n]. intros r (R1 & R2). split; [auto|lia].
      + eapply okm_mono; [apply (lis_cg_term FT EQ false e nhdot (fun a => a) P x0 rh (form_nhdot FT n)); auto; try (intros C; discriminate)|].
        * intros u w. apply (adj_symmetric n E u w HA).
        * unfold start_good. destruct (get_initial_residual e x0) as [[[[? ?] ?] ?] ?]. intros _ C; discriminate.
        * cbn [e e_n]. intros r (R1 & R2). split; [auto|lia].
      + eapply okm_mono; [apply (lis_bicg_term FT EQ false e P Q x0 rh HC); auto; try (intros C; discriminate)|].
        * intros u w. apply (adj_matvech n E u w HC).
        * unfold start_good. destruct (get_initial_residual e x0) as [[[[? ?] ?] ?] ?]. intros _ C; discriminate.
        * cbn [e e_n e_maxiter]. lia.
        * cbn [e e_n]. intros r (R1 & R2). split; [auto|lia].
      + eapply okm_mono; [apply (lis_bicr_term FT EQ false e P Q x0 rh HC); auto; try (intros C; discriminate)|].
        * intros u w. apply (adj_matvech n E u w HC).
        * unfold start_good. destruct (get_initial_residual e x0) as [[[[? ?] ?] ?] ?]. intros _ C; discriminate.
        * cbn [e e_n e_maxiter]. lia.
        * cbn [e e_n]. intros r (R1 & R2). split; [auto|lia]. }
  rewrite Hv in G. cbn [okm] in G. destruct G as ([G|(_ & G)] & G'); auto.
Qed.
End G.

(** *** the reals *)
Local Open Scope R_scope.
Local Open Scope Z_scope.
Lemma ScalarR_conj : conj_ok ScalarR.
Proof. repeat split. Qed.
Lemma zero_or_nonzero n (v : list R) : (forall i, 0 <= i < n -> vcomp v i = 0%R) \/ nonzero n v.
Proof.
  assert (H : forall k : nat, (forall i, 0 <= i < Z.of_nat k -> vcomp v i = 0%R) \/ exists i, 0 <= i < Z.of_nat k /\ vcomp v i <> 0%R).
  { induction k as [|k IH]; [left; intros; lia|]. destruct IH as [IH|(i & Hi & H)]; [|right; exists i; split; [lia|auto]].
    destruct (Req_EM_T (vcomp v (Z.of_nat k)) 0) as [E|E].
    - left. intros i Hi. destruct (Z.eq_dec i (Z.of_nat k)) as [->|]; [auto|apply IH; lia].
    - right. exists (Z.of_nat k). split; [lia|auto]. }
  destruct (H (Z.to_nat n)) as [H0|(i & Hi & H0)]; [left; intros; apply H0; lia|right; exists i; split; [lia|auto]].
Qed.
Lemma sum_zero (f : Z -> R) n : (forall i, 0 <= i < n -> f i = 0%R) -> ssum (map f (zrange 0 n)) = 0%R.
Proof.
  intros H. transitivity (ssum (map (fun _ : Z => (s0 : R)) (zrange 0 n))); [|apply (ssum_map_zero ScalarR_ring)].
  apply ssum_map_ext. intros i Hi. apply In_zrange in Hi. apply H. lia.
Qed.
Lemma dot_nonzero n (u v : list R) : dot n u v <> 0%R -> nonzero n u.
Proof.
  intros H. destruct (zero_or_nonzero n u) as [Z0|]; auto. exfalso. apply H. apply sum_zero. intros i Hi.
  change (vcomp u i * vcomp v i = 0)%R. rewrite Z0 by auto. ring.
Qed.
Lemma sum_nonneg (f : Z -> R) l : (forall i, (0 <= f i)%R) -> (0 <= ssum (map f l))%R.
Proof. intros H. induction l as [|a l IH]; cbn [map ssum]; [apply Rle_refl|]. pose proof (H a). apply Rplus_le_le_0_compat; auto. Qed.
Lemma sleb_R a b : @sleb R ScalarR a b = false -> (b < a)%R.
Proof. cbn [sleb ScalarR]. destruct (Rle_dec a b); [discriminate|]. intros _. lra. Qed.
Lemma resid_zero e bn (r : list R) : (forall i, 0 <= i < e_n e -> vcomp r i = 0%R) -> get_residual e bn r = 0%R.
Proof.
  intros H. unfold get_residual. destruct (e_conv e =? 2).
  - unfold nrm1. apply sum_zero. intros i Hi. change (Rabs (vcomp r i) = 0%R). rewrite H by auto. apply Rabs_R0.
  - unfold nrm2. assert (E : dot (e_n e) r r = 0%R).
    { apply sum_zero. intros i Hi. change (vcomp r i * vcomp r i = 0)%R. rewrite H by auto. ring. }
    rewrite E. change (sqrt 0 * bn = 0)%R. rewrite sqrt_0. ring.
Qed.
Lemma start_good_R (e : env (T:=R)) x P : (0 <= e_tol e)%R -> (0 <= e_tolw e)%R -> pos_def (e_n e) P ->
  start_good true e x (fun r => dot (e_n e) r (P r) <> 0%R).
Proof.
  intros Ht Hw HP. unfold start_good.
  assert (NN : (0 <= nrm1 (e_n e) (e_b e))%R) by (apply sum_nonneg; intros; apply Rabs_pos).
  assert (POS : forall r, nonzero (e_n e) r -> dot (e_n e) r (P r) <> 0%R).
  { intros r Hr. specialize (HP r Hr). change (inner (e_n e) r (P r) <> 0%R). lra. }
  assert (ZP : forall conv : Z, forall p : list R, (forall i, 0 <= i < e_n e -> vcomp p i = 0%R) -> nrm2 (e_n e) p = 0%R /\ nrm1 (e_n e) p = 0%R).
  { intros _ p Hp. split.
    - unfold nrm2. replace (dot (e_n e) p p) with 0%R; [apply sqrt_0|]. symmetry. apply sum_zero. intros i Hi.
      change (vcomp p i * vcomp p i = 0)%R. rewrite Hp by auto. ring.
    - apply sum_zero. intros i Hi. change (Rabs (vcomp p i) = 0%R). rewrite Hp by auto. apply Rabs_R0. }
  assert (RES : forall bn tol r, (0 <= tol)%R -> sleb (get_residual e bn r) tol = false -> dot (e_n e) r (P r) <> 0%R).
  { intros bn tol r Htol H. apply POS. destruct (zero_or_nonzero (e_n e) r) as [Z0|]; auto. exfalso.
    apply sleb_R in H. rewrite (resid_zero e bn r Z0) in H. lra. }
  assert (INI : forall (a c : R) p, a = nrm2 (e_n e) p \/ a = nrm1 (e_n e) p -> sleb (smul a c) (sabs (e_tol e)) = false -> dot (e_n e) p (P p) <> 0%R).
  { intros a c p Ha H. apply POS. destruct (zero_or_nonzero (e_n e) p) as [Z0|]; auto. exfalso.
    apply sleb_R in H. destruct (ZP 0 p Z0) as (Z1 & Z2). assert (A0 : a = 0%R) by (destruct Ha; congruence).
    rewrite A0 in H. change (Rabs (e_tol e) < 0 * c)%R in H. pose proof (Rabs_pos (e_tol e)). lra. }
  unfold get_initial_residual. set (p := if e_zeros e then _ else _).
  destruct (e_conv e =? 0) eqn:C0; [|destruct (e_conv e =? 1) eqn:C1]; intros Hacc _; (split; [|intros r; apply RES]).
  - eapply INI; [left; reflexivity|exact Hacc].
  - auto.
  - eapply INI; [left; reflexivity|exact Hacc].
  - auto.
  - eapply INI; [right; reflexivity|exact Hacc].
  - change (0 <= nrm1 (e_n e) (e_b e) * e_tolw e + e_tol e)%R. apply Rplus_le_le_0_compat; auto. apply Rmult_le_pos; auto.
Qed.
Lemma sum_delta (f : Z -> R) n i : 0 <= i < n -> (forall j, 0 <= j < n -> j <> i -> f j = 0%R) -> ssum (map f (zrange 0 n)) = f i.
Proof.
  intros Hi H. rewrite (zrange_app 0 i n) by lia. rewrite (zrange_cons i n) by lia. rewrite map_app, (ssum_app ScalarR_ring). cbn [map ssum].
  rewrite (ssum_map_ext f (fun _ => s0)) by (intros q Hq; apply In_zrange in Hq; apply H; lia).
  rewrite (ssum_map_ext f (fun _ => s0) (zrange (i + 1) n)) by (intros q Hq; apply In_zrange in Hq; apply H; lia). rewrite !(ssum_map_zero ScalarR_ring).
  change (0 + (f i + 0) = f i)%R. ring.
Qed.
Definition unit_vec (n i : Z) : list R := tab n (fun j => if j =? i then 1%R else 0%R).
Lemma diag_positive n (E : list (entry R)) i : pos_def n (times n E) -> 0 <= i < n -> (0 < coef E i i)%R.
Proof.
  intros HP Hi. assert (U : forall j, 0 <= j < n -> vcomp (unit_vec n i) j = if j =? i then 1%R else 0%R) by (intros; apply (at_tab n); auto).
  specialize (HP (unit_vec n i)). unfold nonzero in HP.
  assert (H1 : (0 < inner n (unit_vec n i) (times n E (unit_vec n i)))%R).
  { apply HP. exists i. split; [auto|]. rewrite U, Z.eqb_refl by auto. lra. }
  unfold inner in H1. rewrite (sum_delta _ n i Hi) in H1.
  - change (0 < vcomp (unit_vec n i) i * vcomp (times n E (unit_vec n i)) i)%R in H1. rewrite U, Z.eqb_refl in H1 by auto.
    assert (E2 : vcomp (times n E (unit_vec n i)) i = coef E i i).
    { change (at_ (tab n (mv_spec E n (vcomp (unit_vec n i)))) i = coef E i i). rewrite at_tab by auto. unfold mv_spec. rewrite (sum_delta _ n i Hi).
      - rewrite U, Z.eqb_refl by auto. change (coef E i i * 1 = coef E i i)%R. ring.
      - intros j Hj Hne. rewrite U by auto. apply Z.eqb_neq in Hne. rewrite Hne. change (coef E i j * 0 = 0)%R. ring. }
    rewrite E2 in H1. lra.
  - intros j Hj Hne. rewrite U by auto. apply Z.eqb_neq in Hne. rewrite Hne. change (0 * vcomp (times n E (unit_vec n i)) j = 0)%R. ring.
Qed.
Lemma scale_diag_R sym n (E : list (entry R)) : 0 <= n -> (forall i, 0 <= i < n -> (0 < coef E i i)%R) -> okm true (scale_diag sym n E) (fun _ => True).
Proof.
  intros Hn HD. assert (W : wp (scale_diag sym n E) (fun _ => True)).
  { unfold scale_diag. apply (for_wp' (fun _ d => zlen d = n)).
    - lia.
    - unfold set_all, tab, zlen. rewrite map_length. pose proof (zlen_zrange 0 n) as HL. unfold zlen in HL. lia.
    - intros i d Hi HL. cbv zeta. specialize (HD i Hi). rewrite (divz_ok ScalarR_eqb).
      + cbn [bind]. rewrite wr_ok by lia. cbn [wp]. len.
      + destruct sym; [|cbn [s0 ScalarR]; lra].
        change (sqrt (Rabs (coef E i i)) <> 0)%R. rewrite Rabs_pos_eq by lra. pose proof (sqrt_lt_R0 _ HD). lra.
    - auto. }
  destruct (scale_diag sym n E); cbn [wp okm] in *; auto; contradiction.
Qed.

Lemma spd_success (o : opts (T:=R)) n E b x P : 0 <= n <= s_maxiter o -> valid o -> In (s_solver o) [1;2;14;15;24;25] -> eff_scale o <> 1 ->
  (0 <= s_tol o)%R -> (0 <= s_tolw o)%R -> s_shadow o = None ->
  (forall k w, s_psolve o k w = P w) -> (forall k w, s_psolveh o k w = P w) ->
  symmetric n E -> pos_def n (times n E) -> adjoint (inner n) P P -> pos_def n P ->
  exists v, lis_solve o n E b x = Ok v /\ v_status v = LIS_SUCCESS /\ 1 <= v_iter v <= Z.max 1 n.
Proof.
  intros Hn HV Hs Hsc Ht Hw Hsh HP HPh HSy HPos HPP HPp.
  assert (G : okm true (lis_solve o n E b x) (fun v => good_stop true (v_status v) /\ 1 <= v_iter v <= Z.max 1 n)).
  { apply (lis_solve_okm ScalarR_eqb true o n E b x (fun s i => good_stop true s /\ 1 <= i <= Z.max 1 n)); auto; [lia| |].
    - intros _. apply scale_diag_R; [lia|]. intros i Hi. apply (diag_positive n E i HPos Hi).
    - intros d E' b' Hd HE x0 rh Hrh. set (e := mkEnv _ _ _ _ _ _ _ _ _ _ _ _). unfold execute.
      assert (S1 : symmetric n E' /\ pos_def n (times n E')).
      { unfold scaled_system in HE. destruct (Z.eq_dec (eff_scale o) 0) as [C0|C0]; [rewrite C0 in HE; cbn [Z.eqb] in HE; inversion HE; subst; auto|].
        assert (C2 : eff_scale o = 2) by (pose proof (eff_range o HV); lia).
        specialize (Hd C0). rewrite C2 in HE, Hd. cbn [Z.eqb Pos.eqb] in HE, Hd. inversion HE; subst E' b'.
        assert (D0 : forall i, 0 <= i < n -> vcomp d i <> 0%R).
        { intros i Hi. specialize (Hd i Hi). cbv zeta in Hd. destruct Hd as (D1 & D2). rewrite D2.
          change (1 / ssqrt (sabs (coef E i i)) <> 0)%R. unfold Rdiv. rewrite Rmult_1_l. apply Rinv_neq_0_compat. exact D1. }
        split.
        - intros i j Hi Hj. rewrite !(coef_scale ScalarR_field). rewrite (HSy i j Hi Hj).
          change (coef E j i * (at_ d i * at_ d j) = coef E j i * (at_ d j * at_ d i))%R. ring.
        - intros v (k & Hk & Hv). specialize (HPos (dmul n d v)).
          assert (NZ : nonzero n (dmul n d v)).
          { exists k. split; [auto|]. rewrite dmul_at by auto. apply Rmult_integral_contrapositive_currified; auto. }
          specialize (HPos NZ). replace (inner n v (times n (scale_entries true d E) v)) with (inner n (dmul n d v) (times n E (dmul n d v))); [exact HPos|].
          unfold inner. apply ssum_map_ext. intros i Hi. apply In_zrange in Hi. rewrite dmul_at by lia.
          assert (TA : forall EE u, vcomp (times n EE u) i = mv_spec EE n (vcomp u) i) by (intros; apply (at_tab n (mv_spec EE n (vcomp u))); lia).
          rewrite !TA. rewrite (mv_scale_sym ScalarR_field).
          rewrite (mv_spec_ext E n (vcomp (dmul n d v)) (fun j => smul (at_ d j) (vcomp v j)) i) by (intros; apply dmul_at; auto).
          change (vcomp d i * vcomp v i * mv_spec E n (fun j => smul (at_ d j) (vcomp v j)) i = vcomp v i * (vcomp d i * mv_spec E n (fun j => smul (at_ d j) (vcomp v j)) i))%R. ring. }
      destruct S1 as (HSy' & HPos').
      assert (HH : hermitian n E') by exact HSy'.
      assert (HA : forall u v, dot n u (matvec n E' v) = dot n (matvec n E' u) v) by (intros u v; apply (adj_hermitian ScalarR_field n E' u v ScalarR_conj HH)).
      assert (HA' : forall u v, dot n u (matvec n E' v) = dot n (matvech n E' u) v) by (intros u v; apply (adj_matvech ScalarR_field n E' u v ScalarR_conj)).
      assert (HS2 : forall p r : list R, dot n p r <> 0%R -> dot n p (matvec n E' p) <> 0%R).
      { intros p r Hp. apply dot_nonzero in Hp. specialize (HPos' p Hp). change (inner n p (times n E' p) <> 0%R). lra. }
      assert (HS3 : forall p r : list R, dot n p r <> 0%R -> dot n p (P p) <> 0%R).
      { intros p r Hp. apply dot_nonzero in Hp. specialize (HPp p Hp). change (inner n p (P p) <> 0%R). lra. }
      assert (HSG : start_good true e x0 (fun r => dot n r (P r) <> 0%R)) by (apply start_good_R; auto).
      assert (CG : okm true (solver e 2 (cg_start e) (cg_body dot e) x0 rh) (fun r => good_stop true (o_ret r) /\ 1 <= o_iter r <= Z.max 1 n)).
      { apply (lis_cg_term ScalarR_field ScalarR_eqb true e dot (fun a => a) P x0 rh); auto; [exact (form_dot ScalarR_field n ScalarR_conj)|cbn [e e_n]; lia|cbn [e e_n e_maxiter]; lia]. }
      assert (CR : okm true (solver e 2 (cr_start e) (cr_body dot e) x0 rh) (fun r => good_stop true (o_ret r) /\ 1 <= o_iter r <= Z.max 1 n)).
      { apply (lis_cr_term ScalarR_field ScalarR_eqb e dot P x0 rh ScalarR_conj); auto; cbn [e e_n e_maxiter]; lia. }
      cbn [In] in Hs. repeat (destruct Hs as [Hs|Hs]; [rewrite <- Hs|]); [| | | | | |contradiction].
      + exact CG.
      + apply (lis_bicg_term ScalarR_field ScalarR_eqb true e P P x0 rh ScalarR_conj); auto; cbn [e e_n e_maxiter]; lia.
      + exact CR.
      + apply (lis_bicr_term ScalarR_field ScalarR_eqb true e P P x0 rh ScalarR_conj); auto; cbn [e e_n e_maxiter]; lia.
      + exact CG.
      + exact CR. }
  destruct (lis_solve o n E b x) as [v| |]; cbn [okm] in G; [|destruct G; discriminate|contradiction].
  exists v. split; [reflexivity|]. destruct G as ([G|(C & _)] & G'); [auto|discriminate].
Qed.

(** tolerance 0: the exact solution *)
Lemma sum_sq_zero (f : Z -> R) n : ssum (map (fun i => (f i * f i)%R) (zrange 0 n)) = 0%R -> forall i, 0 <= i < n -> f i = 0%R.
Proof.
  intros H i Hi. rewrite (zrange_app 0 i n), (zrange_cons i n) in H by lia. rewrite map_app, (ssum_app ScalarR_ring) in H. cbn [map ssum] in H.
  pose proof (sum_nonneg (fun i => (f i * f i)%R) (zrange 0 i) (fun i => Rle_0_sqr (f i))).
  pose proof (sum_nonneg (fun i => (f i * f i)%R) (zrange (i + 1) n) (fun i => Rle_0_sqr (f i))).
  pose proof (Rle_0_sqr (f i)) as H3. unfold Rsqr in H3.
  change (ssum (map (fun i => (f i * f i)%R) (zrange 0 i)) + (f i * f i + ssum (map (fun i => (f i * f i)%R) (zrange (i + 1) n))) = 0)%R in H.
  apply Rsqr_0_uniq. unfold Rsqr. lra.
Qed.
Lemma norm2_zero n (v : list R) : (norm2 n v <= 0)%R -> forall i, 0 <= i < n -> vcomp v i = 0%R.
Proof.
  intros H. apply sum_sq_zero. 
  assert (N0 : (0 <= ssum (map (fun i => (vcomp v i * vcomp v i)%R) (zrange 0 n)))%R) by (apply sum_nonneg; intros; apply Rle_0_sqr).
  change (sqrt (ssum (map (fun i => (vcomp v i * vcomp v i)%R) (zrange 0 n))) <= 0)%R in H.
  apply sqrt_eq_0; [exact N0|]. pose proof (sqrt_pos (ssum (map (fun i => (vcomp v i * vcomp v i)%R) (zrange 0 n)))). lra.
Qed.
Lemma rel_zero n (u w : list R) : (rel (norm2 n u) (norm2 n w) <= 0)%R -> (norm2 n u <= 0)%R.
Proof.
  intros H. unfold rel in H. destruct (seqb (norm2 n w) s0) eqn:E; [exact H|].
  assert (Hw : norm2 n w <> 0%R).
  { intros Z. assert (Y : seqb (norm2 n w) s0 = true) by (apply ScalarR_eqb; exact Z). rewrite Y in E. discriminate. }
  assert (P1 : (0 <= norm2 n w)%R) by apply sqrt_pos. assert (P2 : (0 <= norm2 n u)%R) by apply sqrt_pos.
  change (norm2 n u / norm2 n w <= 0)%R in H.
  assert (E2 : (norm2 n u = norm2 n u / norm2 n w * norm2 n w)%R) by (field; auto).
  rewrite E2. assert (0 < norm2 n w)%R by lra. nra.
Qed.
Lemma spd_exact (o : opts (T:=R)) n E b x P : 0 <= n <= s_maxiter o -> valid o -> In (s_solver o) [1;2;14;15;24;25] -> s_scale o = 0 ->
  s_tol o = 0%R -> (0 <= s_tolw o)%R -> s_conv o = 0 \/ s_conv o = 1 -> s_shadow o = None ->
  (forall k w, s_psolve o k w = P w) -> (forall k w, s_psolveh o k w = P w) ->
  symmetric n E -> pos_def n (times n E) -> adjoint (inner n) P P -> pos_def n P ->
  exists v, lis_solve o n E b x = Ok v /\ v_status v = LIS_SUCCESS /\ v_iter v <= Z.max 1 n /\
    forall i, 0 <= i < n -> mv_spec E n (vcomp (v_x v)) i = vcomp b i.
Proof.
  intros Hn HV Hs Hsc Ht Hw Hcv Hsh HP HPh HSy HPos HPP HPp.
  destruct (spd_success o n E b x P) as (v & Hv & Hst & Hit); auto; try lra.
  { unfold eff_scale. rewrite Hsc. cbn. lia. }
  exists v. split; [auto|]. split; [auto|]. split; [lia|].
  destruct (true_residual ScalarR_field ScalarR_eqb o n E b x v) as (q & _ & Hq & Em); auto; try lia.
  { rewrite Ht. apply Rabs_R0. }
  assert (Hq' : (q <= 0)%R) by (rewrite Ht in Hq; cbn [sleb ScalarR] in Hq; destruct (Rle_dec q 0); [auto|discriminate]).
  assert (NZ : (norm2 n (residual n E b (v_x v)) <= 0)%R).
  { rewrite Em in Hq'. unfold measured in Hq'. destruct Hcv as [C|C]; rewrite C in Hq'; cbn [Z.eqb] in Hq'; apply rel_zero in Hq'; exact Hq'. }
  intros i Hi. pose proof (norm2_zero n _ NZ i Hi) as R0. rewrite residual_at in R0 by auto.
  change (vcomp b i - mv_spec E n (vcomp (v_x v)) i = 0)%R in R0. lra.
Qed.
