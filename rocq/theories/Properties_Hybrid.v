(** C60: the hybrid preconditioner (Hybrid.v), for every field of scalars (exact arithmetic),
    every matrix, vector, inner solver of krylov_list, inner preconditioner, tolerance and iteration limit. *)
Require Import ZArith List Bool Lia QArith Qcanon.
From Verif Require Import Base Scalar ScalarReal Spec SpecSolver Krylov Krylov2 Krylov3 Gmres Solve SpecSolve KrylovProof Hybrid SpecHybrid HybridProof.
Import ListNotations.
Open Scope Z_scope.

(** the preconditioner is created with the options of the outer solver *)
Theorem C60_hybrid_create T (S : Scalar T) (om : T) id (h : hopts (T:=T)) : hybrid_ok h ->
  exists i, create_hybrid om id h = Ok (LIS_SUCCESS, Some i) /\ s_solver (i_opts i) = h_solver h /\
    s_maxiter (i_opts i) = h_maxiter h /\ s_tol (i_opts i) = h_tol h /\ s_restart (i_opts i) = h_restart h /\ s_ell (i_opts i) = h_ell h.
Proof.
  intros (H1 & H2 & H3 & H4 & _). destruct (hyb_create om id h H4 H1 H2 H3) as (i & E1 & E2).
  exists i. rewrite E2. split; [exact E1|]. repeat split.
Qed.
Print Assumptions C60_hybrid_create.
(** applying it never accesses memory out of bounds, and whenever the inner solver ends with
    LIS_SUCCESS, X solves A X = B up to the tolerance of -hybrid_tol *)
Theorem C60_hybrid_psolve T (S : Scalar T) (FT : is_field S) (EQ : eqb_ok S) (om : T) id (h : hopts (T:=T)) i n E B :
  0 <= n -> hybrid_ok h -> In (h_solver h) krylov_list -> sabs (h_tol h) = h_tol h ->
  create_hybrid om id h = Ok (LIS_SUCCESS, Some i) ->
  match psolve_hybrid (Some i) n E B with
  | Ok y => y_ret y = LIS_SUCCESS /\ (y_inner y = LIS_SUCCESS -> solved_to n E (h_tol h) (start_vector (h_zeros h) n B) B (y_X y))
  | Err c => c = DIV_BY_ZERO
  | UB => False
  end.
Proof.
  intros Hn (H1 & H2 & H3 & H4 & H5) HK HT HC. destruct (hyb_create om id h H4 H1 H2 H3) as (i' & E1 & E2).
  rewrite E1 in HC. injection HC as ->. cbn [psolve_hybrid].
  pose proof (run_inner_ok FT (i_opts i) n E B Hn) as G. rewrite E2 in G |- *. cbn [s_solver s_restart s_maxiter s_conv s_tol s_zeros] in G.
  specialize (G HK (fun _ => H5) H4 eq_refl HT). unfold safe in G. destruct (run_inner _ n E B) as [y|c|]; [|exact G|exact G].
  destruct G as (G1 & G2 & _). split; [exact G1|]. intros HS. destruct (G2 HS) as (q & _ & G3 & ->). exact G3.
Qed.
Print Assumptions C60_hybrid_psolve.
(** with Jacobi (10), Gauss-Seidel (11) or SOR (12, the default) inside: X is one update of an iterate
    that meets the tolerance.  Missing from the full claim: SOR runs with the library's default
    coefficient om, not with -hybrid_omega (C60_omega_ignored_refuted). *)
Theorem C60_hybrid_stationary_partial T (S : Scalar T) (FT : is_field S) (EQ : eqb_ok S) (om : T) id (h : hopts (T:=T)) i n E B :
  0 <= n -> hybrid_ok h -> 10 <= h_solver h <= 12 -> (forall k w j, 0 <= j < n -> vcomp (h_psolve h k w) j = vcomp w j) ->
  create_hybrid om id h = Ok (LIS_SUCCESS, Some i) ->
  match psolve_hybrid (Some i) n E B with
  | Ok y => y_ret y = LIS_SUCCESS /\ (y_inner y = LIS_SUCCESS ->
      exists xp, sleb (rel (norm2 n (residual n E B xp)) (norm2 n B)) (h_tol h) = true /\ is_update (h_solver h) om n E B xp (y_X y))
  | Err c => c = DIV_BY_ZERO
  | UB => False
  end.
Proof.
  intros Hn (H1 & H2 & H3 & H4 & H5) HK HN HC. destruct (hyb_create om id h H4 H1 H2 H3) as (i' & E1 & E2).
  rewrite E1 in HC. injection HC as ->. cbn [psolve_hybrid].
  pose proof (run_inner_stat FT EQ (i_opts i) n E B Hn) as G. rewrite E2 in G |- *. cbn [s_solver s_psolve s_maxiter s_tol s_omega] in G.
  specialize (G ltac:(lia) HN H4). unfold safe in G. destruct (run_inner _ n E B) as [y|c|]; [|exact G|exact G].
  destruct G as (G1 & G2). split; [exact G1|]. intros HS. destruct (G2 HS) as (xp & q & _ & G3 & -> & G4). exists xp. split; assumption.
Qed.
Print Assumptions C60_hybrid_stationary_partial.

(** *** examples and counterexamples over the rationals *)
Definition q (a : Z) (d : positive) : Qc := Q2Qc (a # d).
(** -hybrid_i s -hybrid_maxiter m -hybrid_tol t -hybrid_omega w, inner preconditioner ps *)
Definition hyb (s m : Z) (t w : Qc) (zs : bool) (ps : list Qc -> list Qc) : hopts (T:=Qc) :=
  mkHopts s m t w 2 40 0 zs 0 0 (fun _ => ps) (fun _ => ps) (fun _ => q 7 1) (fun _ => q 7 1).
Lemma hyb_ok s m t w zs ps : 1 <= s <= 25 -> 0 <= m -> hybrid_ok (hyb s m t w zs ps).
Proof. intros Hs Hm. unfold hybrid_ok, hyb. cbn [h_solver h_precon h_registered h_pcreate h_maxiter h_restart]. lia. Qed.
(** the default values of params[OMEGA] and options[IDRS_RESTART]: 1.9 and 2 *)
Definition om0 := q 19 10.
Definition apply_hybrid (h : hopts (T:=Qc)) (hc : bool) n E B : res (applied (T:=Qc)) :=
  match create_hybrid om0 2 h with Ok (0, p) => if hc then psolveh_hybrid p n E B else psolve_hybrid p n E B | Ok (c, _) => Err c | Err c => Err c | UB => UB end.
Definition E2 : list (entry Qc) := [(0, 0, q 2 1); (0, 1, q 1 1); (1, 0, q 1 1); (1, 1, q 2 1)].
Definition U2 : list (entry Qc) := [(0, 0, q 1 1); (0, 1, q 1 1); (1, 1, q 1 1)].
Definition yes (m : res (applied (T:=Qc))) (f : applied (T:=Qc) -> bool) : bool := match m with Ok v => f v | _ => false end.
(** inner CG solves ((2 1)(1 2)) X = (3,0) exactly in two iterations *)
Example C60_applies : yes (apply_hybrid (hyb 1 5 (q 1 1000) (q 3 2) true (fun v => v)) false 2 E2 [q 3 1; q 0 1]) (fun y =>
    (y_inner y =? LIS_SUCCESS) && seqb (vcomp (y_X y) 0) (q 2 1) && seqb (vcomp (y_X y) 1) (q (-1) 1)) = true
  /\ hybrid_ok (hyb 1 5 (q 1 1000) (q 3 2) true (fun v => v)) /\ In 1 krylov_list.
Proof. split; [vm_compute; reflexivity|]. split; [apply hyb_ok; lia|cbn; auto]. Qed.
Example C60_applies_sor : yes (apply_hybrid (hyb 12 25 (q 1 2) (q 3 2) true (fun v => v)) false 2 [(0, 0, q 2 1); (1, 1, q 2 1)] [q 2 1; q 4 1]) (fun y =>
    (y_inner y =? LIS_SUCCESS) && negb (seqb (vcomp (y_X y) 0) (q 0 1))) = true.
Proof. vm_compute. reflexivity. Qed.

(** the application reports success even if the inner solver did not converge *)
Theorem C60_failure_dropped_refuted : exists (h : hopts (T:=Qc)) n E B y,
  hybrid_ok h /\ In (h_solver h) krylov_list /\ apply_hybrid h false n E B = Ok y /\ y_ret y = LIS_SUCCESS /\
  ~ solved_to n E (h_tol h) (start_vector (h_zeros h) n B) B (y_X y).
Proof.
  exists (hyb 1 1 (q 1 1000) (q 3 2) true (fun v => v)), 2, E2, [q 3 1; q 0 1]. eexists. split; [apply hyb_ok; lia|]. split; [cbn; auto|].
  split; [vm_compute; reflexivity|]. split; [reflexivity|]. vm_compute. discriminate.
Qed.
Print Assumptions C60_failure_dropped_refuted.
(** applying the conjugate transpose solves A X = B instead of A^H X = B *)
Theorem C60_transpose_refuted : exists (h : hopts (T:=Qc)) n E B y,
  hybrid_ok h /\ In (h_solver h) krylov_list /\ apply_hybrid h true n E B = Ok y /\ y_inner y = LIS_SUCCESS /\
  solved_to n E (h_tol h) (start_vector (h_zeros h) n B) B (y_X y) /\
  ~ solved_to n (conj_transposed E) (h_tol h) (start_vector (h_zeros h) n B) B (y_X y).
Proof.
  exists (hyb 2 5 (q 1 1000) (q 3 2) true (fun v => v)), 2, U2, [q 1 1; q 1 1]. eexists. split; [apply hyb_ok; lia|]. split; [cbn; auto|].
  split; [vm_compute; reflexivity|]. split; [reflexivity|]. split; [vm_compute; reflexivity|]. vm_compute. discriminate.
Qed.
Print Assumptions C60_transpose_refuted.
(** -hybrid_omega has no effect on any inner solver, SOR included *)
Theorem C60_omega_ignored_refuted T (S : Scalar T) (om : T) id w1 w2 s m t l r p zs g pc ps psh ju ra n E B :
  let h w := mkHopts (T:=T) s m t w l r p zs g pc ps psh ju ra in
  forall c1 c2 i1 i2, create_hybrid om id (h w1) = Ok (c1, i1) -> create_hybrid om id (h w2) = Ok (c2, i2) ->
  c1 = c2 /\ psolve_hybrid i1 n E B = psolve_hybrid i2 n E B.
Proof.
  intros h c1 c2 i1 i2. unfold create_hybrid, h, inner_precon_create. cbn [h_solver h_maxiter h_tol h_w h_ell h_restart h_precon h_zeros h_registered h_pcreate h_psolve h_psolveh h_junk h_rand].
  destruct (m + 2 <? 0); [intros A1 A2; injection A1 as <- <-; injection A2 as <- <-; auto|].
  destruct ((p <? 0) || (p >=? 11 + g)); [discriminate|]. cbn [bind].
  destruct (negb (pc =? 0)); [intros A1 A2; injection A1 as <- <-; injection A2 as <- <-; auto|].
  destruct ((s <? 1) || (s >? 25)); [discriminate|]. intros A1 A2. injection A1 as <- <-. injection A2 as <- <-. auto.
Qed.
Print Assumptions C60_omega_ignored_refuted.
(** ... although SOR with 1.5 and SOR with 1.9 are different *)
Example C60_omega_matters : yes (match create_hybrid (q 19 10) 2 (hyb 12 1 (q 1 1000) (q 3 2) true (fun v => v)) with Ok (_, p) => psolve_hybrid p 1 [(0, 0, q 1 1)] [q 1 1] | _ => UB end)
    (fun y => seqb (vcomp (y_X y) 0) (q 19 10)) = true /\
  yes (match create_hybrid (q 3 2) 2 (hyb 12 1 (q 1 1000) (q 3 2) true (fun v => v)) with Ok (_, p) => psolve_hybrid p 1 [(0, 0, q 1 1)] [q 1 1] | _ => UB end)
    (fun y => seqb (vcomp (y_X y) 0) (q 3 2)) = true.
Proof. split; vm_compute; reflexivity. Qed.
(** the options of the inner solver are not checked: an inner solver number outside 1..25 calls
    through a NULL or out-of-table pointer; a negative iteration limit is "created" successfully and
    crashes when applied *)
Theorem C60_unchecked_options_refuted :
  (forall s, s < 1 \/ 25 < s -> forall t w zs ps, create_hybrid om0 2 (hyb s 25 t w zs ps) = UB) /\
  (forall s m t w zs ps, m < -2 -> exists p, create_hybrid om0 2 (hyb s m t w zs ps) = Ok (LIS_SUCCESS, p) /\ forall n E B, psolve_hybrid p n E B = UB).
Proof.
  split.
  - intros s Hs t w zs ps. unfold create_hybrid, inner_precon_create, hyb. cbn [h_solver h_maxiter h_precon h_registered h_pcreate].
    cbn [Z.ltb Z.geb Z.compare Z.add Pos.add orb bind Z.eqb negb]. rewrite (Z.gtb_ltb s 25).
    destruct (Z.ltb_spec s 1) as [L|L]; [reflexivity|]. destruct (Z.ltb_spec 25 s) as [L'|L']; [reflexivity|lia].
  - intros s m t w zs ps Hm. exists None. split; [|reflexivity]. unfold create_hybrid, hyb. cbn [h_maxiter].
    rewrite (proj2 (Z.ltb_lt (m + 2) 0)) by lia. reflexivity.
Qed.
Print Assumptions C60_unchecked_options_refuted.
