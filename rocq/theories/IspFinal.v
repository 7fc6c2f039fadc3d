(** C59: final statements. *)
Require Import ZArith List Bool Lia Ring Permutation.
From Verif Require Import Base Items Scalar Spec SpecIlu SpecSplit Split Matvec MatvecFinal Precon SainvMath SpecIsp Isp IspApply AddsProof IspCreate.
Import ListNotations.
Open Scope Z_scope.

Lemma wp_exists {X} (r : res X) (Q : X -> Prop) : wp r Q -> exists x, r = Ok x /\ Q x.
Proof. destruct r as [x| |]; cbn; try contradiction. intros H. exists x. auto. Qed.

Section P.
Context {T : Type} {S : Scalar T}.
Hypothesis RT : is_ring S.
Let RT' : @ring_theory T s0 s1 sadd smul ssub sopp (@eq T) := RT.
Add Ring TrIsFin : RT'.

Lemma is_psolve_final (A : split T) w m x y : split_ok A -> sp_np A = sp_n A -> 0 <= m -> sp_n A <= zlen x -> sp_n A <= zlen y ->
  exists y', psolve_is w m A x y = Ok y' /\ zlen y' = zlen y /\ forall i, 0 <= i < sp_n A -> znth s0 y' i = mat_vec 0 (sp_n A) (one_minus_s w m (csr_entries (sp_U A))) (znth s0 x) i.
Proof. intros. apply wp_exists. apply (psolve_is_wp RT); auto. Qed.
Lemma is_psolveh_final (A : split T) w m x y : conj_ok S -> sconj w = w -> split_ok A -> sp_np A = sp_n A -> 0 <= m -> sp_n A <= zlen x -> sp_n A <= zlen y ->
  exists y', psolveh_is w m A x y = Ok y' /\ zlen y' = zlen y /\ forall i, 0 <= i < sp_n A -> znth s0 y' i = mat_vech 0 (sp_n A) (one_minus_s w m (csr_entries (sp_U A))) (znth s0 x) i.
Proof. intros. apply wp_exists. apply (psolveh_is_wp RT); auto. Qed.

Lemma is_create_final jl ju ji jli jui jlv juv jd jb jp jx jv w m (A : split T) b : split_ok A -> sp_np A = sp_n A -> 0 <= m -> no_dup_pos (csr_entries (sp_L A)) -> no_dup_pos (csr_entries (sp_U A)) -> sp_n A <= zlen b ->
  exists P pb, create_is jl ju ji jli jui jlv juv jd jb jp jx jv w m A b = Ok (P, pb) /\ csr_ok P /\ csr_n P = sp_n A /\ csr_np P = sp_n A /\ zlen pb = sp_n A /\
    let a := coef (split_entries A) in let n := sp_n A in let E := csr_entries (sp_U A) in
    (forall i c, 0 <= i < n -> 0 <= c < n -> coef (csr_entries P) i c =
       ssub (if i =? c then a i i else smul (a i i) (a i c)) (smul w (ssum (map (fun e => smul (eval e) (a (ecol e) c)) (lead m E i))))) /\
    (forall i, 0 <= i < n -> znth s0 pb i = ssub (smul (a i i) (znth s0 b i)) (smul w (ssum (map (fun e => smul (eval e) (znth s0 b (ecol e))) (lead m E i))))).
Proof.
  intros HA Hsq Hm HL HU Hb. destruct (wp_exists _ _ (create_is_wp RT A m HA Hsq Hm HL HU w b Hb jl ju ji jli jui jlv juv jd jb jp jx jv)) as ([P pb] & E & H1 & H2 & H3 & H4 & H5 & H6).
  exists P, pb. split; [exact E|]. split; [exact H1|]. split; [exact H2|]. split; [exact H3|]. split; [exact H4|]. cbv zeta. split; [exact H5|exact H6].
Qed.
Lemma is_system_final jl ju ji jli jui jlv juv jd jb jp jx jv w m (A : split T) b : split_ok A -> sp_np A = sp_n A -> 0 <= m -> no_dup_pos (csr_entries (sp_L A)) -> no_dup_pos (csr_entries (sp_U A)) -> sp_n A <= zlen b ->
  (forall i, 0 <= i < sp_n A -> coef (split_entries A) i i = s1) ->
  exists P pb, create_is jl ju ji jli jui jlv juv jd jb jp jx jv w m A b = Ok (P, pb) /\
    let a := coef (split_entries A) in let n := sp_n A in let M := one_minus_s w m (csr_entries (sp_U A)) in
    (forall i c, 0 <= i < n -> 0 <= c < n -> coef (csr_entries P) i c = mat_mul 0 n M a i c) /\
    (forall i, 0 <= i < n -> znth s0 pb i = mat_vec 0 n M (znth s0 b) i) /\
    (forall i, 0 <= i < n -> M i i = s1 /\ forall c, c < i -> M i c = s0) /\
    forall x, (forall i, 0 <= i < n -> mat_vec 0 n (coef (csr_entries P)) x i = znth s0 pb i) <-> (forall i, 0 <= i < n -> mat_vec 0 n a x i = znth s0 b i).
Proof.
  intros HA Hsq Hm HL HU Hb Hd0. assert (Hd : forall i, 0 <= i < sp_n A -> znth s0 (sp_D A) i = s1) by (intros i Hi; rewrite <- (a_diag RT A HA i Hi); auto).
  destruct (wp_exists _ _ (create_is_wp RT A m HA Hsq Hm HL HU w b Hb jl ju ji jli jui jlv juv jd jb jp jx jv)) as ([P pb] & E & H1 & H2 & H3 & H4 & H5 & H6).
  exists P, pb. split; [exact E|]. cbv zeta. split; [|split; [|split]].
  - intros i c Hi Hc. rewrite (H5 i c Hi Hc). apply (Pis_unit RT); auto.
  - intros i Hi. rewrite (H6 i Hi). apply (bis_unit RT); auto.
  - intros i Hi. split; [apply (M_diag RT); auto|]. intros c Hc. apply (M_low RT); auto.
  - intros x. rewrite <- (same_solutions RT A m HA Hsq w b Hd x). split; intros H i Hi; specialize (H i Hi).
    + rewrite <- (H6 i Hi), <- H. apply mv_extM. intros c Hc. symmetry. apply H5; auto.
    + rewrite (H6 i Hi), <- H. apply mv_extM. intros c Hc. apply H5; auto.
Qed.

Lemma adds_final n (M a : Z -> Z -> T) inner mvf iter b x w : 0 <= n -> multiplies n inner M -> multiplies n mvf a -> 0 <= iter -> n <= zlen b -> zlen x = n -> zlen w = n ->
  exists x', psolve_adds inner mvf n n iter b x w = Ok x' /\ zlen x' = n /\ (forall i, 0 <= i < n -> znth s0 x' i = mat_vec 0 n (refined n M a (Z.to_nat iter)) (znth s0 b) i) /\
    forall i, 0 <= i < n -> ssub (znth s0 b i) (mat_vec 0 n a (znth s0 x') i) = Nat.iter (Datatypes.S (Z.to_nat iter)) (defect n M a) (znth s0 b) i.
Proof.
  intros Hn HM Ha Hi Hb Hx Hw. destruct (wp_exists _ _ (psolve_adds_wp RT n M a inner mvf iter b x w Hn HM Ha Hi Hb Hx Hw)) as (x' & E & Lx & H).
  exists x'. split; [exact E|]. split; [exact Lx|]. split; [exact H|]. intros i Hii. rewrite <- (refined_residual RT n M a (Z.to_nat iter) (znth s0 b) i Hii). f_equal. apply mv_ext. exact H.
Qed.
Lemma addsh_final n (M a : Z -> Z -> T) inner mvf iter b x w : conj_ok S -> 0 <= n -> multiplies n inner (adjoint M) -> multiplies n mvf (adjoint a) -> 0 <= iter -> n <= zlen b -> zlen x = n -> zlen w = n ->
  exists x', psolveh_adds inner mvf n n iter b x w = Ok x' /\ zlen x' = n /\ forall i, 0 <= i < n -> znth s0 x' i = mat_vech 0 n (refined n M a (Z.to_nat iter)) (znth s0 b) i.
Proof.
  intros HC Hn HM Ha Hi Hb Hx Hw. destruct (wp_exists _ _ (psolve_adds_wp RT n (adjoint M) (adjoint a) inner mvf iter b x w Hn HM Ha Hi Hb Hx Hw)) as (x' & E & Lx & H).
  exists x'. split; [exact E|]. split; [exact Lx|]. intros i Hii. rewrite (H i Hii). change (mat_vech 0 n (refined n M a (Z.to_nat iter)) (znth s0 b) i) with (mat_vec 0 n (adjoint (refined n M a (Z.to_nat iter))) (znth s0 b) i).
  apply mv_extM. intros c Hc. apply (refined_adjoint RT n HC); auto.
Qed.

(** Jacobi inside, CSR matrix *)
Lemma jacobi_multiplies n (d : list T) : 0 <= n -> zlen d = n -> multiplies n (psolve_jacobi n d) (fun i c => if i =? c then znth s0 d i else s0).
Proof.
  intros Hn Hd r w Hr Hw. apply wp_exists. unfold psolve_jacobi.
  apply (for_wp' (fun q w => zlen w = n /\ forall i, 0 <= i < q -> znth s0 w i = smul (znth s0 r i) (znth s0 d i))); [lia|split; [auto|intros; lia]| |].
  - intros i x Hi [Lx Hx]. wrd s0; [lia|]. wrd s0; [lia|]. rewrite wr_ok by lia. cbn [wp]. split; [len|]. intros q Hq. rewrite znth_zupd by lia. destruct (Z.eqb_spec q i) as [->|]; [auto|]. apply Hx. lia.
  - intros x [Lx Hx]. split; [auto|]. intros i Hi. rewrite (Hx i Hi). unfold mat_vec. rewrite (SainvMath.sum_one RT _ 0 n i Hi).
    + rewrite Z.eqb_refl. apply (Rmul_comm RT).
    + intros q Hq Hne. destruct (Z.eqb_spec i q); [congruence|]. ring.
Qed.
Lemma csr_multiplies (A : csr T) : csr_ok A -> csr_np A = csr_n A -> multiplies (csr_n A) (matvec_csr A) (coef (csr_entries A)).
Proof.
  intros HA Hsq r w Hr Hw. destruct (matvec_csr_final RT A r w HA) as (y & E & L & H); [lia|lia|]. exists y. split; [auto|]. split; [lia|]. intros i Hi. rewrite (H i Hi), Hsq. reflexivity.
Qed.
Lemma adds_jacobi_final (A : csr T) d iter b x w : csr_ok A -> csr_np A = csr_n A -> zlen d = csr_n A -> 0 <= iter -> csr_n A <= zlen b -> zlen x = csr_n A -> zlen w = csr_n A ->
  let n := csr_n A in let M := fun i c : Z => if i =? c then znth s0 d i else s0 in let a := coef (csr_entries A) in
  exists x', psolve_adds (psolve_jacobi n d) (matvec_csr A) n n iter b x w = Ok x' /\ zlen x' = n /\ (forall i, 0 <= i < n -> znth s0 x' i = mat_vec 0 n (refined n M a (Z.to_nat iter)) (znth s0 b) i) /\
    forall i, 0 <= i < n -> ssub (znth s0 b i) (mat_vec 0 n a (znth s0 x') i) = Nat.iter (Datatypes.S (Z.to_nat iter)) (defect n M a) (znth s0 b) i.
Proof.
  intros HA Hsq Hd Hi Hb Hx Hw. cbv zeta. assert (0 <= csr_n A) by (destruct HA as [[H _] _]; auto). apply adds_final; auto. apply jacobi_multiplies; auto. apply csr_multiplies; auto.
Qed.
End P.
