(** C62: the eigensolvers that use a subspace: lis_esi, lis_eli, lis_eai (exact real arithmetic).
    Terms: EsubTerms.v, SpecSub.v. *)
Require Import ZArith List Bool Lia Reals Lra.
From Verif Require Import Base Scalar ScalarReal Spec SpecSolver SpecDiag SpecEsolver SpecSub Krylov Esolver EsolverTerms EsolverSub EsubTerms SubFinal LanFinal SubFinal2 EaiNever.
From Verif Require EsiProof LanProof ArnProof.
Import ListNotations.
Open Scope Z_scope.

(** ** Subspace iteration with one vector, inner method power iteration.  As C47_power_iteration, except that the return value is
    LIS_SUCCESS whether or not the tolerance was met *)
Theorem C62_subspace_power : forall e jv E x rh o, sready e E rh -> esi e IPower 1 jv E x rh = Ok o -> let n := ee_n e in let sigma := ee_shift e in
  exists v lam r iter z, norm2 n v = 1%R /\ lam = rayleigh n E v /\ (lam <> sigma)%R /\
    r = (norm2 n (eig_residual n E lam v) / Rabs (lam - sigma))%R /\
    znth None (so_evalue o) 0 = Some lam /\ znth None (so_resid o) 0 = Some r /\ znth None (so_iter o) 0 = Some iter /\ 1 <= iter <= ee_maxiter e /\
    ((r < ee_tol e)%R \/ (iter = ee_maxiter e /\ (ee_tol e <= r)%R)) /\ so_ret o = LIS_SUCCESS /\
    norm2 n (so_x o) = 1%R /\ direction n (so_x o) z /\ (forall i, 0 <= i < n -> vcomp z i = vcomp (eig_residual n E sigma v) i) /\ so_E o = E.
Proof. exact si_power_final. Qed.
Print Assumptions C62_subspace_power.

(** inner method inverse iteration, inner solves with relative residual at most delta *)
Theorem C62_subspace_inverse : forall e jv E x rh delta o, sready e E rh -> inner_ok e E (ee_shift e) delta -> esi e IInverse 1 jv E x rh = Ok o -> let n := ee_n e in
  (exists lam r iter, znth None (so_evalue o) 0 = Some lam /\ znth None (so_resid o) 0 = Some r /\ znth None (so_iter o) 0 = Some iter /\ 1 <= iter <= ee_maxiter e /\
    ((r < ee_tol e)%R \/ (iter = ee_maxiter e /\ (ee_tol e <= r)%R)) /\ so_ret o = LIS_SUCCESS /\
    norm2 n (so_x o) = 1%R /\ (norm2 n (eig_residual n E lam (so_x o)) <= (r + delta) * Rabs (lam - ee_shift e))%R /\ so_E o = E) \/
  so_ret o <> LIS_SUCCESS.
Proof. exact si_inverse_final. Qed.
Print Assumptions C62_subspace_inverse.

(** no access outside an array, nothing read before it is written *)
Theorem C62_subspace_no_undefined_behaviour : forall e ni jv E x rh, 1 <= ee_maxiter e -> zlen rh = ee_maxiter e + 2 -> ni <> IOther -> esi e ni 1 jv E x rh <> UB.
Proof. intros e ni jv E x rh H1 H2 H3 C. pose proof (EsiProof.esi_one e ni jv E x rh H1 H2 H3) as S. rewrite C in S. exact S. Qed.
Print Assumptions C62_subspace_no_undefined_behaviour.

(** ** Lanczos: the array whose eigenvalues are taken holds V^T A V, V orthonormal, but of order ss-1 at most *)
Theorem C62_lanczos_array_partial : forall e E ss jv t, symmetric (ee_n e) E -> 2 <= ss -> lanczos e ss jv E = Ok t -> lanczos_array e E ss t.
Proof. intros e E ss jv t HS H2. exact (LanProof.lanczos_wl e E ss HS jv H2 t). Qed.
Print Assumptions C62_lanczos_array_partial.
Theorem C62_lanczos_array_safe : forall e ss jv (E : list (entry R)), 1 <= ss -> lanczos e ss jv E <> UB.
Proof. exact lanczos_safe. Qed.
Print Assumptions C62_lanczos_array_safe.

(** every eigenpair lis_eli returns with -rval false and inverse iteration inside: the i-th is computed as in C47_inverse_iteration from the
    i-th diagonal element of the array lis_array_qr leaves, the matrix is as before *)
Theorem C62_lanczos_pairs : forall tq maxit e ss jv jx jq jrh E x rh o, 1 <= ss -> 1 <= ee_maxiter e -> no_dup_pos E -> full_diagonal (ee_n e) E -> all_ok e ->
  eli tq maxit eii false e ss jv jx jq jrh E x rh = Ok o ->
  exists t t' q r it er theta, lanczos e ss jv E = Ok t /\ Gs.lis_array_qr tq maxit ss t (alloc (ss * ss) jq) (alloc (ss * ss) jq) jq = Ok (t', q, r, it, er) /\
    (forall i, 0 <= i < ss -> znth None theta i = Some (znth 0%R t' (i * ss + i))) /\ pairs_ok e E ss theta o.
Proof. exact eli_refined. Qed.
Print Assumptions C62_lanczos_pairs.

(** ** Arnoldi: whenever the array is computed at all, it holds V^T A V, V orthonormal with A V_m within tol of span V *)
Theorem C62_arnoldi_array_partial : forall e E ss jv h, 1 <= ss -> arnoldi e ss jv E = Ok h -> arnoldi_array e E ss h.
Proof. intros e E ss jv h H1. exact (ArnProof.arnoldi_wl e E ss jv H1 h). Qed.
Print Assumptions C62_arnoldi_array_partial.

(** ** What does not hold *)
(** "lis_esi computes ss eigenpairs": the second start vector is the first eigenvector made orthogonal to itself, the zero vector.
    For every matrix and ss >= 2 no run returns LIS_SUCCESS in exact arithmetic (it divides by theta = 0) *)
Theorem C62_subspace_second_vector_refuted : forall e ni ss jv E x rh o, ni <> IOther -> 2 <= ss -> esi e ni ss jv E x rh = Ok o -> so_ret o <> LIS_SUCCESS /\ ni = IInverse.
Proof. exact EsiProof.esi_many. Qed.
Print Assumptions C62_subspace_second_vector_refuted.

(** the return value is LIS_SUCCESS after maxiter iterations with a residual above the tolerance: a case *)
Section Ex.
Open Scope R_scope.
Definition dE : list (entry R) := [(0%Z, 0%Z, 1); (1%Z, 1%Z, 1); (2%Z, 2%Z, 3); (3%Z, 3%Z, 3)].
Definition dsolve (k : Z) (E : list (entry R)) (v : list R) : Z * list R :=
  if seqb (coef E 0 0 * coef E 1 1 * coef E 2 2 * coef E 3 3) 0 then (1%Z, v)
  else (0%Z, [vcomp v 0 / coef E 0 0; vcomp v 1 / coef E 1 1; vcomp v 2 / coef E 2 2; vcomp v 3 / coef E 3 3]).
Definition de : eenv R := mkEE 4%Z 1%Z (1/100) 0 0 false true dsolve (fun _ r => r).
Definition drh : list R := [1; 0; 0].
Definition djv : Z -> list R := fun _ => [].
Definition hvec : list R := [1/2; 1/2; 1/2; 1/2].
Ltac ev := cbv -[Rplus Rmult Ropp Rminus Rdiv Rinv sqrt Rabs Req_EM_T Rle_dec IZR dsolve].
Ltac v4 := ev; apply f_equal2; [field|apply f_equal2; [field|apply f_equal2; [field|apply f_equal2; [field|reflexivity]]]].
Lemma dE_dup : no_dup_pos dE.
Proof. repeat constructor; cbn; intuition congruence. Qed.
Lemma dE_diag : full_diagonal 4 dE.
Proof. intros i Hi. assert (i = 0 \/ i = 1 \/ i = 2 \/ i = 3)%Z as [-> | [-> | [-> | ->]]] by lia; reflexivity. Qed.
Example dE_ready : sready de dE drh.
Proof. split; [cbn; lia|]. split; [reflexivity|]. split; [exact dE_dup|left; reflexivity]. Qed.
Lemma divz_R (a b : R) : b <> 0 -> divz a b = Ok (a / b).
Proof. intros H. unfold divz. cbn. destruct (Req_EM_T b 0); [contradiction|reflexivity]. Qed.
Lemma nrm_ones : nrm2 4 (set_all 4 s1) = 2.
Proof. ev. match goal with |- sqrt ?a = 2 => replace a with (2 * 2) by ring end. apply sqrt_square. lra. Qed.
Lemma norm_ones : normalize 4 (set_all 4 s1) = Ok hvec.
Proof. unfold normalize. rewrite nrm_ones, divz_R by lra. cbn [bind]. match goal with |- Ok ?a = Ok ?b => assert (X : a = b) by (unfold hvec; v4); rewrite X; reflexivity end. Qed.
Lemma no_shift : do_shift 0 dE = dE.
Proof. unfold do_shift. assert (X : seqb 0 (s0 : R) = true) by (apply ScalarR_eqb; reflexivity). rewrite X. reflexivity. Qed.
Lemma sqrt_nz a : 0 < a -> sqrt a <> 0.
Proof. intros H X. apply sqrt_lt_R0 in H. lra. Qed.
(** one power iteration step from (1,1,1,1)/2: eigenvalue 2, residual 1/2, tolerance 1/100, LIS_SUCCESS *)
Lemma ex_si_power : exists o, esi de IPower 1 djv dE [] drh = Ok o /\ so_ret o = LIS_SUCCESS /\ znth None (so_evalue o) 0 = Some 2 /\ znth None (so_resid o) 0 = Some (1/2).
Proof.
  unfold esi. cbn [ee_n de ee_shift]. rewrite norm_ones. cbn [bind]. rewrite no_shift.
  change (Z.to_nat 1) with 1%nat. cbn [esi_loop]. unfold esi_mode. cbn [l_v l_r l_rh l_evalue l_resid l_iter l_evec ee_n de ee_maxiter]. change (0 + 1)%Z with 1%Z.
  change (wr (alloc (1 + 2) djv) 1 (copy 4 hvec)) with (Ok [[]; hvec; []]). cbn [bind]. change (Z.to_nat 1) with 1%nat. cbn [eiterate]. change (0 + 1)%Z with 1%Z.
  unfold esi_body. cbn [ee_n de]. unfold reorth. rewrite for_empty by lia. cbn [bind]. change (rd [[]; hvec; []] 1) with (Ok hvec). cbn [bind Z.eqb negb].
  assert (X : matvec 4 dE hvec = [1/2; 1/2; 3/2; 3/2]) by v4. rewrite X; clear X.
  assert (X : dot 4 hvec [1/2; 1/2; 3/2; 3/2] = 2) by (ev; field). rewrite X; clear X.
  assert (X : axpyz 4 (sopp 2) hvec [1/2; 1/2; 3/2; 3/2] = [-1/2; -1/2; 1/2; 1/2]) by v4. rewrite X; clear X.
  assert (X : nrm2 4 [-1/2; -1/2; 1/2; 1/2] = 1). { ev. match goal with |- sqrt ?a = 1 => replace a with (1 * 1) by field end. apply sqrt_square. lra. }
  rewrite X; clear X. rewrite divz_R by (cbn; apply Rabs_no_R0; lra). cbn [bind].
  assert (N : nrm2 4 [1/2; 1/2; 3/2; 3/2] <> 0) by (ev; apply sqrt_nz; lra). rewrite divz_R by exact N. cbn [bind].
  set (w := copy 4 _). change (wr [[]; hvec; []] 1 w) with (Ok [[]; hvec; []] : res (list (list R))) || change (wr [[]; hvec; []] 1 w) with (Ok [[]; w; []]). cbn [bind].
  unfold history. cbn [ee_mem de Z.eqb]. change (1 =? 1)%positive with true. cbv iota.
  match goal with |- context [wr drh 1 ?r] => change (wr drh 1 r) with (Ok [1; r; 0]) end. cbn [bind].
  assert (X : (1 / sabs 2)%R = 1/2) by (change (sabs 2) with (Rabs 2); rewrite Rabs_pos_eq; lra). rewrite X; clear X.
  assert (X : sleb (ee_tol de) (1/2) = true) by (cbn; destruct (Rle_dec (1/100) (1/2)); [reflexivity|lra]). rewrite X; clear X. cbn [negb bind].
  change ((1 =? 1)%positive && (1 <=? 1)%Z)%bool with true. cbv iota.
  eexists. split; [cbv -[Rplus Rmult Ropp Rminus Rdiv Rinv sqrt Rabs Req_EM_T Rle_dec IZR dE w undo_shift]; reflexivity|]. cbn. split; [reflexivity|]. split; [|reflexivity]. f_equal. ring.
Qed.
Theorem C62_subspace_status_refuted : exists e jv E x rh o r, sready e E rh /\ esi e IPower 1 jv E x rh = Ok o /\ so_ret o = LIS_SUCCESS /\ znth None (so_resid o) 0 = Some r /\ ee_tol e < r.
Proof.
  destruct ex_si_power as (o & H1 & H2 & _ & H4). exists de, djv, dE, [], drh, o, (1/2). split; [exact dE_ready|]. split; [exact H1|]. split; [exact H2|]. split; [exact H4|]. cbn. lra.
Qed.
Print Assumptions C62_subspace_status_refuted.

(** an inner eigensolver other than power or inverse iteration (-ie 3 ... accepted by the option parser): nothing is computed, LIS_SUCCESS,
    eigenvalue 1, no residual *)
Theorem C62_subspace_other_refuted : forall e jv E x rh, (1 <= ee_n e)%Z -> (1 <= ee_maxiter e)%Z -> zlen rh = (ee_maxiter e + 2)%Z -> 0 < ee_tol e ->
  exists o, esi e IOther 1 jv E x rh = Ok o /\ so_ret o = LIS_SUCCESS /\ znth None (so_evalue o) 0 = Some 1 /\ znth None (so_resid o) 0 = None.
Proof. intros e jv E x rh H1 H2 H3 H4. destruct (si_other_final e jv E x rh H1 H2 H3 H4) as (o & A & B & C & D & _). exists o. auto. Qed.
Print Assumptions C62_subspace_other_refuted.

(** "lis_eli computes the ss Ritz values": the loop stops one vector early, and the last diagonal entry given to lis_array_qr is 0.  For a symmetric
    positive definite matrix it is not the last entry of V^T A V for any orthonormal V *)
Theorem C62_lanczos_ritz_refuted : forall e ss jv E t (W : Z -> Z -> R), symmetric (ee_n e) E -> positive_definite (ee_n e) E -> (2 <= ss)%Z -> lanczos e ss jv E = Ok t ->
  orthonormal (ee_n e) 1 (ss + 1) W -> znth 0 t ((ss - 1) * ss + (ss - 1)) <> ipR (ee_n e) (W ss) (imageR (ee_n e) E (W ss)).
Proof. exact lan_ritz. Qed.
Print Assumptions C62_lanczos_ritz_refuted.
(** with the default -ss 1 lis_eli reads past the end of the 1 by 1 array (element 1, lis_array.c:1168), for every matrix *)
Theorem C62_lanczos_default_refuted : forall tq maxit run rval e jv jx jq jrh E x rh, 0 < tq -> eli tq (S maxit) run rval e 1 jv jx jq jrh E x rh = UB.
Proof. exact eli_default. Qed.
Print Assumptions C62_lanczos_default_refuted.
(** lis_eai accesses its array h out of bounds for every matrix, every ss and either -rval: it writes h[ss*ss] unless some A v_j is
    within tol of the span before, and then reads h[ss+(ss-1)*ss] *)
Theorem C62_arnoldi_refuted : forall tq maxit run rval e ss jv jx jq jrh E x rh, 0 < tq -> (1 <= ee_n e)%Z -> (1 <= ss)%Z -> 0 < ee_tol e ->
  eai tq maxit run rval e ss jv jx jq jrh E x rh = UB.
Proof. exact eai_ub. Qed.
Print Assumptions C62_arnoldi_refuted.

(** ** Cases meeting the hypotheses *)
(** inverse iteration inside lis_esi, shift 0 *)
Lemma mv4 (E : list (entry R)) f i : mv_spec E 4 f i = coef E i 0 * f 0%Z + (coef E i 1 * f 1%Z + (coef E i 2 * f 2%Z + (coef E i 3 * f 3%Z + 0))).
Proof. reflexivity. Qed.
Example ex_inverse : exists o, esi de IInverse 1 djv dE [] drh = Ok o /\ so_ret o = LIS_SUCCESS.
Proof.
  unfold esi. cbn [ee_n de ee_shift]. rewrite norm_ones. cbn [bind]. rewrite no_shift.
  change (Z.to_nat 1) with 1%nat. cbn [esi_loop]. unfold esi_mode. cbn [l_v l_r l_rh l_evalue l_resid l_iter l_evec ee_n de ee_maxiter]. change (0 + 1)%Z with 1%Z.
  change (wr (alloc (1 + 2) djv) 1 (copy 4 hvec)) with (Ok [[]; hvec; []]). cbn [bind]. change (Z.to_nat 1) with 1%nat. cbn [eiterate]. change (0 + 1)%Z with 1%Z.
  unfold esi_body. cbn [ee_n de]. unfold reorth. rewrite for_empty by lia. cbn [bind]. change (rd [[]; hvec; []] 1) with (Ok hvec). cbn [bind ee_solve de].
  assert (X : dsolve 1 dE hvec = (0%Z, [1/2; 1/2; 1/6; 1/6])).
  { unfold dsolve. assert (Y : seqb (coef dE 0 0 * coef dE 1 1 * coef dE 2 2 * coef dE 3 3) 0 = false).
    { destruct (seqb _ _) eqn:C; [|reflexivity]. apply ScalarR_eqb in C. cbv -[Rplus Rmult IZR] in C. lra. }
    rewrite Y. apply f_equal. v4. }
  rewrite X; clear X. cbn [Z.eqb negb].
  assert (X : dot 4 hvec [1/2; 1/2; 1/6; 1/6] = 2/3) by (ev; field). rewrite X; clear X.
  rewrite divz_R by (cbn; apply Rabs_no_R0; lra). cbn [bind].
  assert (N : nrm2 4 [1/2; 1/2; 1/6; 1/6] <> 0) by (ev; apply sqrt_nz; lra). rewrite divz_R by exact N. cbn [bind].
  set (w := copy 4 _). change (wr [[]; hvec; []] 1 w) with (Ok [[]; w; []]). cbn [bind].
  unfold history. cbn [ee_mem de Z.eqb]. change (1 =? 1)%positive with true. cbv iota.
  match goal with |- context [wr drh 1 ?r] => change (wr drh 1 r) with (Ok [1; r; 0]) end. cbn [bind].
  destruct (negb (sleb _ _)); cbn [bind get]; change ((1 =? 1)%positive && (1 <=? 1)%Z)%bool with true; cbv iota.
  all: rewrite divz_R by lra.
  all: eexists; split; [cbv -[Rplus Rmult Ropp Rminus Rdiv Rinv sqrt Rabs Req_EM_T Rle_dec IZR dE w undo_shift]; reflexivity|reflexivity].
Qed.
Example dsolve_exact : inner_ok de dE (ee_shift de) 0.
Proof.
  intros k E' v y HE Hs. rewrite Rmult_0_l. change (ee_n de) with 4%Z in *. cbn [ee_solve de] in Hs. unfold dsolve in Hs.
  destruct (seqb _ _) eqn:Ed; [discriminate|]. injection Hs as <-.
  assert (D : coef E' 0 0 * coef E' 1 1 * coef E' 2 2 * coef E' 3 3 <> 0) by (intros X; apply ScalarR_eqb in X; cbn in X, Ed; congruence).
  assert (D0 : coef E' 0 0 <> 0) by (intros X; apply D; rewrite X; ring). assert (D1 : coef E' 1 1 <> 0) by (intros X; apply D; rewrite X; ring).
  assert (D2 : coef E' 2 2 <> 0) by (intros X; apply D; rewrite X; ring). assert (D3 : coef E' 3 3 <> 0) by (intros X; apply D; rewrite X; ring).
  assert (Z0 : forall i j, (0 <= i < 4)%Z -> (0 <= j < 4)%Z -> i <> j -> coef E' i j = 0).
  { intros i j Hi Hj Hd. rewrite (HE i j Hi). destruct (Z.eqb_spec i j); [contradiction|].
    assert (i = 0 \/ i = 1 \/ i = 2 \/ i = 3)%Z as [-> | [-> | [-> | ->]]] by lia; assert (j = 0 \/ j = 1 \/ j = 2 \/ j = 3)%Z as [-> | [-> | [-> | ->]]] by lia; try contradiction; ev; ring. }
  assert (R0 : forall i, (0 <= i < 4)%Z -> vcomp (residual 4 E' v [vcomp v 0 / coef E' 0 0; vcomp v 1 / coef E' 1 1; vcomp v 2 / coef E' 2 2; vcomp v 3 / coef E' 3 3]) i = 0).
  { intros i Hi. unfold residual, vcomp. rewrite (znth_map _ 0%Z) by (rewrite zlen_zrange; lia). rewrite znth_zrange by lia. rewrite mv4.
    replace (0 + i)%Z with i by lia. assert (i = 0 \/ i = 1 \/ i = 2 \/ i = 3)%Z as [-> | [-> | [-> | ->]]] by lia; 
    rewrite ?(Z0 0%Z 1%Z), ?(Z0 0%Z 2%Z), ?(Z0 0%Z 3%Z), ?(Z0 1%Z 0%Z), ?(Z0 1%Z 2%Z), ?(Z0 1%Z 3%Z), ?(Z0 2%Z 0%Z), ?(Z0 2%Z 1%Z), ?(Z0 2%Z 3%Z), ?(Z0 3%Z 0%Z), ?(Z0 3%Z 1%Z), ?(Z0 3%Z 2%Z) by (clear; lia); cbv -[Rplus Rmult Ropp Rminus Rdiv Rinv coef IZR nth]; cbn [nth]; field; auto. }
  unfold norm2, inner. change (zrange 0 4) with [0; 1; 2; 3]%Z. cbn [map]. rewrite !R0 by lia. cbn. replace (0 * 0 + (0 * 0 + (0 * 0 + (0 * 0 + 0)))) with 0 by ring. rewrite sqrt_0. lra.
Qed.
(** Lanczos, n = 4, ss = 2 *)
Example dE_sym : symmetric 4 dE.
Proof.
  intros i j Hi Hj. assert (i = 0 \/ i = 1 \/ i = 2 \/ i = 3)%Z as [-> | [-> | [-> | ->]]] by lia; assert (j = 0 \/ j = 1 \/ j = 2 \/ j = 3)%Z as [-> | [-> | [-> | ->]]] by lia; reflexivity.
Qed.
Example dE_pos : positive_definite 4 dE.
Proof.
  intros f (i & Hi & Hf). unfold ipR, imageR. change (zrange 0 4) with [0; 1; 2; 3]%Z. cbn [map]. rewrite !mv4. cbv -[Rplus Rmult IZR Rlt].
  match goal with |- 0 < ?a => replace a with (f 0%Z * f 0%Z + f 1%Z * f 1%Z + 3 * (f 2%Z * f 2%Z) + 3 * (f 3%Z * f 3%Z)) by ring end.
  pose proof (Rle_0_sqr (f 0%Z)). pose proof (Rle_0_sqr (f 1%Z)). pose proof (Rle_0_sqr (f 2%Z)). pose proof (Rle_0_sqr (f 3%Z)). unfold Rsqr in *.
  pose proof (Rlt_0_sqr _ Hf) as P. unfold Rsqr in P. assert (i = 0 \/ i = 1 \/ i = 2 \/ i = 3)%Z as [-> | [-> | [-> | ->]]] by lia; lra.
Qed.
Example ex_lanczos : exists t, lanczos de 2 djv dE = Ok t /\ znth 0 t 0 = 2.
Proof.
  unfold lanczos. cbn [ee_n de]. rewrite nrm_ones.
  match goal with |- context [for_ 0 (2 * 2) ?f ?a] => assert (X : for_ 0 (2 * 2) f a = Ok [0; 0; 0; 0]) by reflexivity; rewrite X; clear X end. cbn [bind].
  change (Z.to_nat (2 - 1)) with 1%nat. cbn [lan_loop]. unfold lan_step. cbn [ee_n de]. change (0 + 1)%Z with 1%Z.
  match goal with |- context [wr ?a 1 (copy 4 (set_all 4 s1))] => change (wr a 1 (copy 4 (set_all 4 s1))) with (Ok [[0; 0; 0; 0]; [1; 1; 1; 1]; []]) end. cbn [bind].
  change (1 =? 1)%Z with true. cbv iota. rewrite divz_R by lra. cbn [bind]. change (rd [[0; 0; 0; 0]; [1; 1; 1; 1]; []] 1) with (Ok [1; 1; 1; 1]). cbn [bind].
  assert (X : scale 4 (s1 / 2) [1; 1; 1; 1] = hvec) by (unfold hvec; v4). rewrite X; clear X.
  change (wr [[0; 0; 0; 0]; [1; 1; 1; 1]; []] 1 hvec) with (Ok [[0; 0; 0; 0]; hvec; []]). cbn [bind]. change (rd [[0; 0; 0; 0]; hvec; []] 1) with (Ok hvec). cbn [bind].
  assert (X : matvec 4 dE hvec = [1/2; 1/2; 3/2; 3/2]) by v4. rewrite X; clear X.
  assert (X : dot 4 hvec [1/2; 1/2; 3/2; 3/2] = 2) by (ev; field). rewrite X; clear X.
  change (wr [0; 0; 0; 0] ((1 - 1) * 2 + 1 - 1) 2) with (Ok [2; 0; 0; 0]). cbn [bind]. unfold reorth. rewrite for_empty by lia. cbn [bind].
  set (b := nrm2 4 _). change (wr [2; 0; 0; 0] ((1 - 1) * 2 + 1) b) with (Ok [2; b; 0; 0]). cbn [bind].
  destruct (negb _); cbn [bind]; [eexists; split; reflexivity|]. change (wr [2; b; 0; 0] (1 * 2 + 1 - 1) b) with (Ok [2; b; b; 0]). cbn [bind]. eexists; split; reflexivity.
Qed.
Definition unitv (k i : Z) : R := if (k =? i + 1)%Z then 1 else 0.
Example unit_ortho : orthonormal 4 1 3 unitv.
Proof.
  intros a b Ha Hb. assert (a = 1 \/ a = 2)%Z as [-> | ->] by lia; assert (b = 1 \/ b = 2)%Z as [-> | ->] by lia; cbv -[Rplus Rmult IZR]; ring.
Qed.
(** 3 I, n = 4, ss = 2: the Lanczos and the Arnoldi loops stop after one vector *)
Definition tE : list (entry R) := [(0%Z, 0%Z, 3); (1%Z, 1%Z, 3); (2%Z, 2%Z, 3); (3%Z, 3%Z, 3)].
Definition te : eenv R := mkEE 4%Z 1%Z (1/100) 0 0 false true (fun _ _ v => (0%Z, copy 4 v)) (fun _ r => r).
Example tE_ok : no_dup_pos tE /\ full_diagonal 4 tE.
Proof. split; [repeat constructor; cbn; intuition congruence|]. intros i Hi. assert (i = 0 \/ i = 1 \/ i = 2 \/ i = 3)%Z as [-> | [-> | [-> | ->]]] by lia; reflexivity. Qed.
Example te_ok : all_ok te.
Proof. intros k E v. reflexivity. Qed.
Lemma t_mv : matvec 4 tE hvec = [3/2; 3/2; 3/2; 3/2].
Proof. unfold hvec. v4. Qed.
Lemma t_dot : dot 4 hvec [3/2; 3/2; 3/2; 3/2] = 3.
Proof. unfold hvec. ev. field. Qed.
Lemma t_sub : axpy 4 (sopp 3) hvec [3/2; 3/2; 3/2; 3/2] = [0; 0; 0; 0].
Proof. unfold hvec. v4. Qed.
Lemma t_zero : nrm2 4 [0; 0; 0; 0] = 0.
Proof. ev. match goal with |- sqrt ?a = 0 => replace a with 0 by ring end. exact sqrt_0. Qed.
Lemma t_stop : negb (sleb (1/100) (sabs 0)) = true.
Proof. cbn. rewrite Rabs_R0. destruct (Rle_dec (1/100) 0); [lra|reflexivity]. Qed.
Example ex_arnoldi : arnoldi te 2 djv tE = Ok [3; 0; 0; 0].
Proof.
  unfold arnoldi. cbn [ee_n te]. rewrite norm_ones. cbn [bind]. change (wr (alloc (2 + 1) djv) 0 hvec) with (Ok [hvec; []; []]). cbn [bind].
  match goal with |- context [for_ 0 (2 * 2) ?f ?a] => assert (X : for_ 0 (2 * 2) f a = Ok [0; 0; 0; 0]) by reflexivity; rewrite X; clear X end. cbn [bind].
  change (Z.to_nat 2) with 2%nat. cbn [arn_loop]. unfold arn_step at 1. cbn [ee_n te ee_tol]. change (-1 + 1)%Z with 0%Z. change (rd [hvec; []; []] 0) with (Ok hvec). cbn [bind]. rewrite t_mv.
  unfold for_. change (Z.to_nat (0 + 1 - 0)) with 1%nat. cbn [for_n]. change (rd [hvec; []; []] 0) with (Ok hvec). cbn [bind]. rewrite t_dot, t_sub.
  change (wr [0; 0; 0; 0] (0 + 0 * 2) 3) with (Ok [3; 0; 0; 0]). cbn [bind]. rewrite t_zero. change (wr [3; 0; 0; 0] (0 + 1 + 0 * 2) 0) with (Ok [3; 0; 0; 0]). cbn [bind]. rewrite t_stop. reflexivity.
Qed.
Lemma t_lanczos : lanczos te 2 djv tE = Ok [3; 0; 0; 0].
Proof.
  unfold lanczos. cbn [ee_n te]. rewrite nrm_ones.
  match goal with |- context [for_ 0 (2 * 2) ?f ?a] => assert (X : for_ 0 (2 * 2) f a = Ok [0; 0; 0; 0]) by reflexivity; rewrite X; clear X end. cbn [bind].
  change (Z.to_nat (2 - 1)) with 1%nat. cbn [lan_loop]. unfold lan_step. cbn [ee_n te ee_tol]. change (0 + 1)%Z with 1%Z.
  match goal with |- context [wr ?a 1 (copy 4 (set_all 4 s1))] => change (wr a 1 (copy 4 (set_all 4 s1))) with (Ok [[0; 0; 0; 0]; [1; 1; 1; 1]; []]) end. cbn [bind].
  change (1 =? 1)%Z with true. cbv iota. rewrite divz_R by lra. cbn [bind]. change (rd [[0; 0; 0; 0]; [1; 1; 1; 1]; []] 1) with (Ok [1; 1; 1; 1]). cbn [bind].
  assert (X : scale 4 (s1 / 2) [1; 1; 1; 1] = hvec) by (unfold hvec; v4). rewrite X; clear X.
  change (wr [[0; 0; 0; 0]; [1; 1; 1; 1]; []] 1 hvec) with (Ok [[0; 0; 0; 0]; hvec; []]). cbn [bind]. change (rd [[0; 0; 0; 0]; hvec; []] 1) with (Ok hvec). cbn [bind].
  rewrite t_mv, t_dot, t_sub.
  change (wr [0; 0; 0; 0] ((1 - 1) * 2 + 1 - 1) 3) with (Ok [3; 0; 0; 0]). cbn [bind]. unfold reorth. rewrite for_empty by lia. cbn [bind]. rewrite t_zero.
  change (wr [3; 0; 0; 0] ((1 - 1) * 2 + 1) 0) with (Ok [3; 0; 0; 0]). cbn [bind]. rewrite t_stop. reflexivity.
Qed.
Lemma t_qr : exists q r k err, Gs.lis_array_qr (1/1000) 1 2 [3; 0; 0; 0] [0; 0; 0; 0] [0; 0; 0; 0] (fun _ => 0) = Ok ([3; 0; 0; 0], q, r, k, err).
Proof.
  unfold Gs.lis_array_qr. cbn [Gs.qr_loop].
  assert (C : Gs.lis_array_cgs (1/1000) 2 [3; 0; 0; 0] [0; 0; 0; 0] [0; 0; 0; 0] (fun _ => 0) = Ok ([1; 0; 0; 0], [3; 0; 0; 0])).
  { unfold Gs.lis_array_cgs, Gs.clear, Gs.column, Gs.nrm2, for_.
    cbv -[Rle_dec Rmult Rplus Rminus sqrt Rabs IZR Rdiv Req_EM_T].
    match goal with |- context [sqrt ?a] => replace a with (3 * 3) by ring end. rewrite sqrt_square by lra.
    destruct (Rle_dec (1 / 1000) 3); [|lra].
    destruct (Req_EM_T 3 0); [lra|]. replace (3 / 3) with 1 by field. replace (0 / 3) with 0 by field. cbv -[Rle_dec Rmult Rplus Rminus sqrt Rabs IZR Rdiv Req_EM_T].
    match goal with |- context [sqrt ?a] => replace a with 0 by ring end. rewrite sqrt_0. destruct (Rle_dec _ _); [lra|].
    repeat match goal with |- context [?a + ?b] => progress (ring_simplify (a + b)) end. reflexivity. }
  rewrite C. cbn [bind].
  match goal with |- context [for_ 0 2 ?f [3; 0; 0; 0]] => assert (X : for_ 0 2 f [3; 0; 0; 0] = Ok [3; 0; 0; 0]) end.
  { cbv -[Rmult Rplus IZR]. repeat match goal with |- context [?a + ?b] => progress (ring_simplify (a + b)) end. reflexivity. }
  rewrite X. cbn [bind]. change (rd [3; 0; 0; 0] 1) with (Ok 0). cbn [bind].
  assert (Y : Gs.sltb (sabs 0) (1/1000) = true) by (unfold Gs.sltb; cbn; rewrite Rabs_R0; destruct (Rle_dec (1/1000) 0); [lra|reflexivity]).
  rewrite Y. do 4 eexists. reflexivity.
Qed.
Lemma t_eii th E x : exists lam v rh E', eii (sub_env te th) E x [1; 0; 0] = Ok (mkEO LIS_SUCCESS (Some 1%Z) (Some 0) (Some lam) v [1; rh; 0] E').
Proof.
  unfold eii. cbn [ee_n ee_ones ee_maxiter te sub_env]. change (Z.to_nat 1) with 1%nat. cbn [eiterate]. unfold eii_body. cbn [ee_n te sub_env]. rewrite norm_ones. cbn [bind ee_solve te sub_env Z.eqb negb].
  change (copy 4 hvec) with hvec. assert (X : dot 4 hvec hvec = 1) by (unfold hvec; ev; field). rewrite X; clear X.
  assert (X : axpyz 4 (sopp 1) hvec hvec = [0; 0; 0; 0]) by (unfold hvec; v4). rewrite X; clear X. rewrite t_zero. change (sabs 1) with (Rabs 1). rewrite Rabs_R1. rewrite divz_R by lra. replace (0 / 1) with 0 by field. cbn [bind].
  unfold history. cbn [ee_mem te sub_env]. change (0 + 1)%Z with 1%Z. change (wr [1; 0; 0] 1 0) with (Ok [1; 0; 0]). cbn [bind ee_tol te sub_env].
  assert (X : sleb 0 (1/100) = true) by (cbn; destruct (Rle_dec 0 (1/100)); [reflexivity|lra]). rewrite X; clear X. cbn [bind get]. rewrite divz_R by lra. cbn [bind].
  change (copy 4 hvec) with hvec. assert (N : normalize 4 hvec = Ok (scale 4 (1 / nrm2 4 hvec) hvec)). { unfold normalize. rewrite divz_R; [reflexivity|]. unfold hvec. ev. apply sqrt_nz. lra. }
  rewrite N. do 4 eexists. reflexivity.
Qed.
Lemma t_es th E x : exists lam v rh E', esolve eii (sub_env te th) E x (fun _ => 0) = Ok (LIS_SUCCESS, lam, mkEO LIS_SUCCESS (Some 1%Z) (Some 0) (Some lam) v [1; rh; 0] E').
Proof.
  unfold esolve. match goal with |- context [eii _ E ?a ?b] => set (x0 := a); change b with [1; 0; 0] end. destruct (t_eii th E x0) as (lam & v & rh & E' & ->). cbn [bind eo_evalue]. exists lam, v, rh, E'. reflexivity.
Qed.
Example ex_eli : exists o, eli (1/1000) 1 eii false te 2 djv djv (fun _ => 0) (fun _ => 0) tE [] drh = Ok o.
Proof.
  unfold eli. rewrite t_lanczos. cbn [bind]. change (alloc (2 * 2) (fun _ : Z => 0)) with [0; 0; 0; 0]. destruct t_qr as (q & r & k & err & ->). cbn [bind].
  change (diag_of 2 [3; 0; 0; 0] (evalue0 2)) with (Ok [Some 3; Some 0; None; None] : res (list (option R))). cbn [bind].
  unfold refine, for_. change (Z.to_nat (2 - 0)) with 2%nat. cbn [for_n].
  assert (A1 : exists ev2 rs it ec h E', refine_step eii te djv (fun _ => 0) 0 ([Some 3; Some 0; None; None], none_of 2, none_of 2, none_of 2, drh, tE) = Ok (ev2 :: [Some 0; None; None], rs :: [None; None; None], it :: [None; None; None], Some ec :: [None; None; None], h, E')).
  { unfold refine_step. change (rd [Some 3; Some 0; None; None] 0) with (Ok (Some 3)). cbn [bind get]. destruct (t_es 3 tE (djv 0%Z)) as (l1 & v1 & h1 & E1 & ->). do 6 eexists. reflexivity. }
  destruct A1 as (e1 & r1 & i1 & c1 & h1 & E1 & ->). cbn [bind]. change (0 + 1)%Z with 1%Z.
  unfold refine_step. change (rd (e1 :: [Some 0; None; None]) 1) with (Ok (Some 0)). cbn [bind get]. destruct (t_es 0 E1 (djv 1%Z)) as (l2 & v2 & h2 & E2 & ->). eexists. reflexivity.
Qed.
End Ex.
