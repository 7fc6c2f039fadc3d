(** Proofs for the hybrid preconditioner (Hybrid.v). *)
Require Import ZArith List Bool Lia Field Ring.
From Verif Require Import Base Scalar Spec SpecSolver Krylov Krylov2 Krylov3 Gmres Solve SpecSolve KrylovProof KrylovFinal SolveProof StationaryProof Hybrid.
Import ListNotations.
Open Scope Z_scope.

Section P.
Context {T : Type} {S : Scalar T} (FT : is_field S) (EQ : eqb_ok S).
Notation vec := (vect (T:=T)).

Lemma hyb_rh (o : opts (T:=T)) : 0 <= s_maxiter o -> zlen (tab (s_maxiter o + 2) (s_junk o)) = s_maxiter o + 2.
Proof. intros H. unfold tab, zlen. rewrite map_length. pose proof (zlen_zrange 0 (s_maxiter o + 2)) as HL. unfold zlen in HL. lia. Qed.

Lemma hyb_create (om : T) id (h : hopts (T:=T)) : 0 <= h_maxiter h -> 1 <= h_solver h <= 25 -> 0 <= h_precon h < 11 + h_registered h -> h_pcreate h = 0 ->
  exists i, create_hybrid om id h = Ok (LIS_SUCCESS, Some i) /\ i_opts i = mkOpts (h_solver h) (h_precon h) (h_maxiter h) 0 (h_tol h) s0 (h_zeros h) false 0
             (h_restart h) om 0 (h_psolve h) (h_psolveh h) None (h_junk h) (h_ell h) id (h_rand h).
Proof.
  intros H1 H2 H3 H4. unfold create_hybrid, inner_precon_create.
  rewrite (proj2 (Z.ltb_ge (h_maxiter h + 2) 0)) by lia.
  rewrite (proj2 (Z.ltb_ge (h_precon h) 0)) by lia. rewrite Z.geb_leb, (proj2 (Z.leb_gt _ (h_precon h))) by lia. cbn [orb bind]. rewrite H4. cbn [Z.eqb negb].
  rewrite (proj2 (Z.ltb_ge (h_solver h) 1)) by lia. rewrite Z.gtb_ltb, (proj2 (Z.ltb_ge _ (h_solver h))) by lia. cbn [orb].
  eexists. split; reflexivity.
Qed.

(** the starting vector of the inner solver *)
Definition hyb_start (zs : bool) (n : Z) (B : list T) : list T := if zs then zeros n else B.

Lemma run_inner_ok (o : opts (T:=T)) n E B : 0 <= n -> In (s_solver o) krylov_list -> (s_solver o = 8 -> 0 <= s_restart o) ->
  0 <= s_maxiter o -> s_conv o = 0 -> sabs (s_tol o) = s_tol o ->
  safe (run_inner o n E B) (fun y => y_ret y = LIS_SUCCESS /\
    (y_inner y = LIS_SUCCESS -> exists q, y_resid y = Some q /\ sleb q (s_tol o) = true /\
       q = rel (norm2 n (residual n E B (y_X y))) (norm2 n (residual n E B (hyb_start (s_zeros o) n B)))) /\
    (y_inner y = LIS_SUCCESS \/ y_inner y = LIS_BREAKDOWN \/ y_inner y = LIS_MAXITER)).
Proof.
  intros Hn HK HR HM HC HT. unfold run_inner. set (xx := if s_zeros o then _ else _). set (e := mkEnv n E B _ _ _ _ _ _ _ _ _). set (rh := tab _ _).
  assert (HZ : zeros_ok e xx). { intros H i Hi. cbn [e e_zeros e_n] in *. unfold xx. rewrite H. apply at_set_all. exact Hi. }
  apply safe_bind. eapply safe_mono; [apply (execute_ok FT o e xx rh HK HR HM (hyb_rh o HM) HZ)|].
  intros r Hr. apply (sol_ok_spec FT e xx rh r HZ) in Hr; [|cbn [e e_conv]; auto]. cbn [safe y_ret y_inner y_resid y_X].
  unfold sol_spec in Hr. cbn [e e_n e_E e_b e_conv e_tol e_tolw e_mem e_maxiter] in Hr. rewrite HC, HT in Hr.
  unfold initial_measure, measured, bound in Hr. cbn [Z.eqb orb] in Hr.
  assert (X0 : residual n E B xx = residual n E B (hyb_start (s_zeros o) n B)).
  { apply (residual_ext n E B). intros i Hi. unfold xx, hyb_start. destruct (s_zeros o); [|apply copy_at; exact Hi].
    unfold vcomp, zeros, set_all, tab. rewrite !(znth_map _ 0) by (rewrite ?zlen_zrange; lia). reflexivity. }
  assert (X1 : residual n E B (copy n (o_x r)) = residual n E B (o_x r)) by (apply (residual_ext n E B); intros i Hi; apply copy_at; exact Hi).
  rewrite X1, <- X0. split; [reflexivity|].
  destruct (sleb (rel (norm2 n (residual n E B xx)) (norm2 n (residual n E B xx))) (s_tol o)) eqn:EL.
  - destruct Hr as (R1 & R2 & R3 & R4 & _). rewrite R1, R4. split; [|auto]. intros _. eexists. split; [exact R3|]. split; [exact EL|reflexivity].
  - destruct Hr as (V & _ & _ & _ & _ & _ & Hr). split.
    + intros HS. destruct Hr as [(_ & _ & v & H1 & H2 & _)|[(C & _)|(C & _)]].
      * exists v. split; [exact H1|]. split; [exact H2|]. apply V. exact H1.
      * rewrite C in HS. discriminate.
      * rewrite C in HS. discriminate.
    + destruct Hr as [(C & _)|[(C & _)|(C & _)]]; auto.
Qed.

(** an inner stationary solver *)
Lemma run_inner_stat (o : opts (T:=T)) n E B : 0 <= n -> s_solver o = 10 \/ s_solver o = 11 \/ s_solver o = 12 ->
  (forall k w i, 0 <= i < n -> vcomp (s_psolve o k w) i = vcomp w i) -> 0 <= s_maxiter o ->
  safe (run_inner o n E B) (fun y => y_ret y = LIS_SUCCESS /\
    (y_inner y = LIS_SUCCESS -> exists xp q, y_resid y = Some q /\ sleb q (s_tol o) = true /\
       q = rel (norm2 n (residual n E B xp)) (norm2 n B) /\ is_update (s_solver o) (s_omega o) n E B xp (y_X y))).
Proof.
  intros Hn HK HN HM. unfold run_inner. set (xx := if s_zeros o then _ else _). set (e := mkEnv n E B _ _ _ _ _ _ _ _ _). set (rh := tab _ _).
  assert (Hrh : zlen rh = e_maxiter e + 2) by (apply hyb_rh; exact HM).
  assert (NP : no_precon e) by (intros k w i Hi; apply HN; exact Hi).
  assert (HX : safe (execute o e xx rh) (stat_final (s_solver o) (s_omega o) e rh)).
  { unfold execute. destruct HK as [-> |[-> | ->]].
    - apply (jacobi_final FT EQ); auto.
    - apply safe_bind. eapply safe_mono; [apply (gs_final FT EQ e xx rh (s_omega o)); auto|]. intros [r w] H. exact H.
    - apply safe_bind. eapply safe_mono; [apply (sor_final FT EQ e xx rh (s_omega o)); auto|]. intros [r w] H. exact H. }
  apply safe_bind. eapply safe_mono; [exact HX|]. intros r (_ & _ & _ & HF). cbn [safe y_ret y_inner y_resid y_X].
  split; [reflexivity|]. intros HS. destruct (HF ltac:(auto)) as (xp & q & H1 & H2 & H3 & H4 & _).
  exists xp, q. split; [exact H1|]. split; [exact (H4 HS)|]. split; [exact H3|].
  unfold is_update in *. cbv zeta in *. intros i Hi. specialize (H2 i Hi). cbn [e e_n e_E e_b] in H2.
  assert (CX : forall j, 0 <= j < n -> vcomp (copy n (o_x r)) j = vcomp (o_x r) j).
  { intros j Hj. apply at_copy. exact Hj. }
  rewrite CX by auto. rewrite <- H2. f_equal. destruct (s_solver o =? 10); [reflexivity|].
  apply ssum_map_ext. intros j Hj. apply In_zrange in Hj. rewrite CX by lia. reflexivity.
Qed.
End P.
