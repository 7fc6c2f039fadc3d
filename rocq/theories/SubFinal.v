Require Import ZArith List Bool Lia Reals Lra.
From Verif Require Import Base Scalar ScalarReal Spec SpecSolver SpecDiag SpecEsolver Krylov MatvecProof KrylovProof DiagProof2 RealVec Esolver EsolverTerms EsolverProof EsolverProof2 EsolverProof3 EsolverFinal EsolverSub ConvertExact EsiProof EsubTerms.
Import ListNotations.
Open Scope Z_scope.

Lemma si_power_final e jv E x rh o : sready e E rh -> esi e IPower 1 jv E x rh = Ok o -> let n := ee_n e in let sigma := ee_shift e in
  exists v lam r iter z, norm2 n v = 1%R /\ lam = rayleigh n E v /\ (lam <> sigma)%R /\
    r = (norm2 n (eig_residual n E lam v) / Rabs (lam - sigma))%R /\
    znth None (so_evalue o) 0 = Some lam /\ znth None (so_resid o) 0 = Some r /\ znth None (so_iter o) 0 = Some iter /\ 1 <= iter <= ee_maxiter e /\
    ((r < ee_tol e)%R \/ (iter = ee_maxiter e /\ (ee_tol e <= r)%R)) /\ so_ret o = LIS_SUCCESS /\
    norm2 n (so_x o) = 1%R /\ direction n (so_x o) z /\ (forall i, 0 <= i < n -> vcomp z i = vcomp (eig_residual n E sigma v) i) /\ so_E o = E.
Proof.
  intros (H1 & H2 & H3 & H4) Ho n sg. destruct (safe_ok _ _ _ (esi_one e IPower jv E x rh H1 H2 ltac:(congruence)) Ho) as [(u & y & th & r & it & A1 & A2 & A3 & A4 & A5 & A6 & A7 & A8 & A9 & A10 & A11 & A12 & A13 & A14 & A15)|[_ C]]; [|congruence].
  cbn [inner_res] in A2. fold n sg in A1, A3, A5, A6, A7, A8, A9.
  assert (Hmv : eqv n (at_ y) (fun i => mv_spec E n (at_ u) i - sg * at_ u i)%R).
  { intros i Hi. rewrite A2. transitivity (mv_spec (do_shift sg E) n (at_ u) i); [|apply mv_do_shift; auto]. apply (atR_tab n (fun i => mv_spec (do_shift sg E) n (at_ u) i)); auto. }
  assert (Hlam : (th + sg)%R = ip n (at_ u) (fun i => mv_spec E n (at_ u) i)).
  { rewrite A3. rewrite (ip_ext n _ (at_ u) _ (fun i => 1 * mv_spec E n (at_ u) i + (- sg) * at_ u i)%R); [|intros i Hi; auto|intros i Hi; rewrite Hmv by auto; ring].
    rewrite ip_lin_r, <- (nm_sq n (at_ u)), A1. change (fun i : Z => mv_spec E n (at_ u) i) with (mv_spec E n (at_ u)). ring. }
  exists u, (th + sg)%R, r, it, y. rewrite eig_residual_nm, rayleigh_ip, !norm2_nm.
  split; [exact A1|]. split; [exact Hlam|]. split; [lra|].
  split. { rewrite A6. replace (th + sg - sg)%R with th by ring. f_equal. apply nm_ext. intros i Hi. rewrite Hmv by auto. ring. }
  do 6 (split; [auto|]). split; [exact A7|]. split; [split; [rewrite norm2_nm; exact A5|rewrite norm2_nm; exact A8]|]. split; [|exact A15].
  intros i Hi. change (at_ y i = at_ (eig_residual n E sg u) i). rewrite Hmv by auto. symmetry. apply (atR_tab n (fun i => mv_spec E n (at_ u) i - sg * at_ u i)%R); auto.
Qed.
Lemma si_inverse_final e jv E x rh delta o : sready e E rh -> inner_ok e E (ee_shift e) delta -> esi e IInverse 1 jv E x rh = Ok o -> let n := ee_n e in
  (exists lam r iter, znth None (so_evalue o) 0 = Some lam /\ znth None (so_resid o) 0 = Some r /\ znth None (so_iter o) 0 = Some iter /\ 1 <= iter <= ee_maxiter e /\
    ((r < ee_tol e)%R \/ (iter = ee_maxiter e /\ (ee_tol e <= r)%R)) /\ so_ret o = LIS_SUCCESS /\
    norm2 n (so_x o) = 1%R /\ (norm2 n (eig_residual n E lam (so_x o)) <= (r + delta) * Rabs (lam - ee_shift e))%R /\ so_E o = E) \/
  so_ret o <> LIS_SUCCESS.
Proof.
  intros (H1 & H2 & H3 & H4) Hsol Ho n. destruct (safe_ok _ _ _ (esi_one e IInverse jv E x rh H1 H2 ltac:(congruence)) Ho) as [(u & y & th & r & it & A1 & (k & A2) & A3 & A4 & A5 & A6 & A7 & A8 & A9 & A10 & A11 & A12 & A13 & A14 & A15)|[C _]]; [left|right; exact C].
  fold n in A1, A3, A5, A6, A7, A8, A9. set (sg := ee_shift e) in *.
  exists (1 / th + sg)%R, r, it. rewrite eig_residual_nm, norm2_nm. do 7 (split; [auto|]). split; [|exact A15].
  replace (1 / th + sg - sg)%R with (1 / th)%R by ring. apply (ii_math n E (at_ u) (at_ y)); auto.
  pose proof (Hsol k _ u y (shifted_do n E sg H3 H4) A2) as B. fold n in B. rewrite residual_nm, norm2_nm in B. red in A1. rewrite A1, Rmult_1_r in B.
  rewrite (nm_ext n _ (fun i => at_ u i - mv_spec (do_shift sg E) n (at_ y) i)%R); [exact B|]. intros i Hi. f_equal. symmetry. apply mv_do_shift; auto.
Qed.

(** ** another inner eigensolver: the switch has no case for it *)
Lemma divz_ok (a b : R) : (b <> 0)%R -> divz a b = Ok (a / b)%R.
Proof. intros H. unfold divz. destruct (seqb b s0) eqn:Es; [apply seqbR in Es; contradiction|reflexivity]. Qed.
Lemma nm_ones n : 1 <= n -> (nm n (at_ (set_all n (s1 : R))) <> 0)%R.
Proof.
  intros Hn C. pose proof (nm_zero n _ C 0 ltac:(lia)) as X. pose proof (atR_tab n (fun _ => 1%R) 0 ltac:(lia)) as Y. change (at_ (set_all n (s1 : R)) 0 = 1%R) in Y. lra.
Qed.
Lemma normalize_ones n : 1 <= n -> exists u, normalize n (set_all n (s1 : R)) = Ok u /\ unit_v n u.
Proof.
  intros Hn. assert (E0 : normalize n (set_all n (s1 : R)) = Ok (scale n (1 / nm n (at_ (set_all n (s1 : R)))) (set_all n (s1 : R)))%R).
  { unfold normalize. rewrite divz_ok by exact (nm_ones n Hn). reflexivity. }
  eexists. split; [exact E0|].
  assert (S : safe (normalize n (set_all n (s1 : R))) (fun u => unit_v n u)) by (apply safe_normalize; auto). exact (safe_ok _ _ _ S E0).
Qed.
Lemma si_other_final e jv E x rh : 1 <= ee_n e -> 1 <= ee_maxiter e -> zlen rh = ee_maxiter e + 2 -> (0 < ee_tol e)%R ->
  exists o, esi e IOther 1 jv E x rh = Ok o /\ so_ret o = LIS_SUCCESS /\ znth None (so_evalue o) 0 = Some 1%R /\ znth None (so_resid o) 0 = None /\ so_E o = E /\ znth None (so_iter o) 0 = Some 1.
Proof.
  intros Hn Hm Hl Ht. unfold esi. set (n := ee_n e) in *. destruct (normalize_ones n Hn) as (r & Hr & Ur). rewrite Hr. cbn [bind].
  assert (LV : zlen (alloc (1 + 2) jv) = 3) by (apply zlen_alloc; lia).
  change (Z.to_nat 1) with 1%nat. cbn [esi_loop]. change (0 + 1) with 1. unfold esi_mode. cbn [l_v l_r l_rh l_evalue l_resid l_iter l_evec]. fold n.
  rewrite (wr_ok (alloc (1 + 2) jv)) by lia. cbn [bind]. set (v := zupd (alloc (1 + 2) jv) 1 (copy n r)).
  assert (Lv : zlen v = 3) by (unfold v; rewrite zlen_zupd; exact LV). assert (Lv1 : 1 < zlen v) by lia. assert (V1 : znth [] v 1 = copy n r) by (apply znth_zupd_eq; lia).
  assert (Uc : eqv n (at_ (copy n r)) (at_ r)) by (intros i Hi; apply (at_copy (S:=ScalarR)); auto).
  assert (D : dot n (copy n r) r = 1%R) by (rewrite dot_ip, (ip_ext n _ (at_ r) _ (at_ r)) by (auto; intros i Hi; auto); rewrite <- nm_sq; red in Ur; rewrite Ur; ring).
  assert (N : nrm2 n r = 1%R) by exact Ur.
  assert (B : exists v' r' rh', esi_body e IOther (do_shift (ee_shift e) E) 1 1 (v, r, None, None, rh) = Ok (EStop (v', r', Some 1%R, Some 0%R, rh')) /\ zlen v' = 3).
  { unfold esi_body. fold n. unfold reorth. rewrite for_empty by lia. cbn [bind].
    match goal with |- context [bind ?a _] => change a with (@rd (list R) v 1) end. rewrite (rd_ok []) by (split; [lia|exact Lv1]). cbn [bind Z.eqb negb]. rewrite V1.
    rewrite D, N. rewrite nrm_axpyz. rewrite (nm_ext n _ (fun _ => 0 * 0)%R) by (intros i Hi; rewrite Uc by exact Hi; ring). rewrite nm_scal, Rabs_R0, Rmult_0_l.
    rewrite divz_ok by (change (Rabs 1 <> 0)%R; rewrite Rabs_R1; lra). cbn [bind]. rewrite divz_ok by lra. cbn [bind].
    rewrite wr_ok by (split; [lia|exact Lv1]). cbn [bind]. change (sabs 1%R) with (Rabs 1). rewrite Rabs_R1. unfold Rdiv at 1. rewrite Rmult_0_l.
    assert (Hh : exists rh', history e 1 0%R rh = Ok rh') by (unfold history; destruct (ee_mem e); [rewrite wr_ok by lia|]; eexists; reflexivity). destruct Hh as (rh' & ->). cbn [bind].
    replace (sleb (ee_tol e) (0 / 1)%R) with false by (symmetry; apply slebR'; lra). cbn [negb].
    replace (0 / 1)%R with 0%R by lra.
    do 3 eexists. split; [reflexivity|]. rewrite zlen_zupd. exact Lv. }
  destruct B as (v' & r' & rh' & HB & Lv').
  replace (Z.to_nat (ee_maxiter e)) with (Datatypes.S (Z.to_nat (ee_maxiter e - 1))) by lia. cbn [eiterate]. change (0 + 1) with 1. 
  match goal with |- context [bind ?a _] => match a with context [esi_body] => idtac end end.
  rewrite HB. cbn [bind Z.eqb andb Z.leb Z.compare].
  rewrite wr_ok by (vm_compute; split; congruence). cbn [bind]. rewrite (rd_ok []) by lia. cbn [bind]. rewrite wr_ok by (vm_compute; split; congruence). change ((1 =? 1)%positive && (1 <=? 1)) with true. cbn [bind l_evec Z.eqb negb].
  rewrite (rd_ok None) by (vm_compute; split; congruence).
  match goal with |- context [Ok (znth None ?l 0)] => change (znth None l 0) with (Some (copy n (znth [] v' 1))) end. cbn [bind get].
  eexists. split; [reflexivity|]. cbn. split; [reflexivity|]. split; [reflexivity|]. split; [reflexivity|]. split; [apply undo_do|reflexivity].
Qed.
