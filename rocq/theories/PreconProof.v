Require Import ZArith List Bool Lia Ring Field.
From Verif Require Import Base Items Scalar Spec Diag SpecDiag DiagProof2 Split SpecSplit SplitProof SplitProof2 SpecIlu IluFinal Precon SpecPrecon.
Import ListNotations.
Open Scope Z_scope.

Section P.
Context {T : Type} {S : Scalar T}.
Hypothesis RT : is_ring S.
Let RT' : @ring_theory T s0 s1 sadd smul ssub sopp (@eq T) := RT.
Add Ring TrPre : RT'.

Lemma map_vec_wp n (f : Z -> T -> T) (b x : list T) (body : Z -> list T -> res (list T)) :
  0 <= n <= zlen x -> (forall i x', 0 <= i < n -> zlen x' = zlen x -> (znth s0 x' i = znth s0 x i) -> wp (body i x') (fun y => y = zupd x' i (f i (znth s0 x i)))) ->
  exists x', for_ 0 n body x = Ok x' /\ zlen x' = zlen x /\ (forall i, n <= i -> znth s0 x' i = znth s0 x i) /\ forall i, 0 <= i < n -> znth s0 x' i = f i (znth s0 x i).
Proof.
  intros Hn Hb. apply wp_inv. apply (for_wp' (fun i y => zlen y = zlen x /\ (forall r, 0 <= r < i -> znth s0 y r = f r (znth s0 x r)) /\ forall r, i <= r -> znth s0 y r = znth s0 x r)); [lia| | |].
  - split; [auto|]. split; [intros; lia|auto].
  - intros i y Hi (L & H1 & H2). refine (wp_mono _ _ _ (Hb i y Hi L (H2 i ltac:(lia))) _). cbv beta. intros y' ->. split; [len|]. split.
    + intros r Hr. rewrite znth_zupd by lia. destruct (Z.eqb_spec r i) as [->|]; [auto|apply H1; lia].
    + intros r Hr. rewrite znth_zupd_neq by lia. apply H2; lia.
  - intros y (L & H1 & H2). auto.
Qed.

Lemma psolve_none_final n (b x : list T) : 0 <= n -> n <= zlen b -> n <= zlen x ->
  exists x', psolve_none n b x = Ok x' /\ zlen x' = zlen x /\ (forall i, n <= i -> znth s0 x' i = znth s0 x i) /\ forall i, 0 <= i < n -> znth s0 x' i = znth s0 b i.
Proof. intros Hn Hb Hx. apply (map_vec_wp n (fun i _ => znth s0 b i) b); [lia|]. intros i x' Hi L E. wrd s0; [lia|]. apply wp_wr; [lia|]. auto. Qed.

Section J.
Hypothesis FT : is_field S.
Lemma sinv (x : T) : x <> s0 -> smul x (sdiv s1 x) = s1.
Proof. intros H. rewrite (Rmul_comm RT). apply (Finv_l FT). auto. Qed.

Lemma jac_id (c y : T) : c <> s0 -> smul c (smul y (sdiv s1 c)) = y.
Proof. intros H. transitivity (smul (smul c (sdiv s1 c)) y); [ring|]. rewrite sinv by auto. ring. Qed.
Lemma jac_idh (HC : conj_ok S) (c y : T) : c <> s0 -> smul (sconj c) (smul y (sconj (sdiv s1 c))) = y.
Proof. intros H. transitivity (smul (smul (sconj c) (sconj (sdiv s1 c))) y); [ring|]. rewrite <- (conj_mul HC), sinv by auto. rewrite (conj_1 HC). ring. Qed.

Lemma create_jacobi_wp jd (A : csr T) : csr_ok A -> no_dup_pos (csr_entries A) ->
  exists d, create_jacobi jd A = Ok d /\ zlen d = csr_n A /\ forall i, 0 <= i < csr_n A -> znth s0 d i = sdiv s1 (coef (csr_entries A) i i).
Proof.
  intros HA Hu. pose proof HA as ((Hn & _) & _). unfold create_jacobi.
  destruct (get_diagonal_csr_wp RT A (alloc (csr_n A) jd) HA ltac:(rewrite zlen_alloc; lia) Hu) as (d & E & L & V). rewrite E. cbn [bind].
  rewrite zlen_alloc in L by lia.
  destruct (map_vec_wp (csr_n A) (fun i v => sdiv s1 v) d d (fun i d => v <- rd d i ;; wr d i (sdiv s1 v)) ltac:(lia)) as (d' & E' & L' & _ & V').
  - intros i x' Hi L' E'. wrd s0; [lia|]. apply wp_wr; [lia|]. rewrite E'. auto.
  - exists d'. split; auto. split; [lia|]. intros i Hi. rewrite V' by auto. rewrite V by auto. auto.
Qed.

Lemma diag_mat_vec n a (x : Z -> T) i : 0 <= i < n -> mat_vec 0 n (diag_part a) x i = smul (a i i) (x i).
Proof.
  intros Hi. unfold mat_vec. rewrite (sum_at RT _ 0 n i); [unfold diag_part; rewrite Z.eqb_refl; auto|auto|]. intros q Hq Hne. unfold diag_part. destruct (Z.eqb_spec i q); [lia|ring].
Qed.
Lemma diag_mat_vech n a (x : Z -> T) (HC : conj_ok S) i : 0 <= i < n -> mat_vech 0 n (diag_part a) x i = smul (sconj (a i i)) (x i).
Proof.
  intros Hi. unfold mat_vech. rewrite (sum_at RT _ 0 n i); [unfold diag_part; rewrite Z.eqb_refl; auto|auto|]. intros q Hq Hne. unfold diag_part. destruct (Z.eqb_spec q i); [lia|rewrite (conj_0 HC); ring].
Qed.

Lemma jacobi_final jd (A : csr T) : csr_ok A -> no_dup_pos (csr_entries A) -> (forall i, 0 <= i < csr_n A -> coef (csr_entries A) i i <> s0) ->
  exists d, create_jacobi jd A = Ok d /\ forall b x, csr_n A <= zlen b -> csr_n A <= zlen x ->
    (exists x', psolve_jacobi (csr_n A) d b x = Ok x' /\ zlen x' = zlen x /\ (forall i, csr_n A <= i -> znth s0 x' i = znth s0 x i) /\
       forall i, 0 <= i < csr_n A -> mat_vec 0 (csr_n A) (diag_part (coef (csr_entries A))) (znth s0 x') i = znth s0 b i) /\
    (conj_ok S -> exists x', psolveh_jacobi (csr_n A) d b x = Ok x' /\ zlen x' = zlen x /\ (forall i, csr_n A <= i -> znth s0 x' i = znth s0 x i) /\
       forall i, 0 <= i < csr_n A -> mat_vech 0 (csr_n A) (diag_part (coef (csr_entries A))) (znth s0 x') i = znth s0 b i).
Proof.
  intros HA Hu Hd. pose proof HA as ((Hn & _) & _). destruct (create_jacobi_wp jd A HA Hu) as (d & E & L & V). exists d. split; auto. intros b x Hb Hx. split.
  - destruct (map_vec_wp (csr_n A) (fun i _ => smul (znth s0 b i) (znth s0 d i)) b x (fun i x => bi <- rd b i ;; di <- rd d i ;; wr x i (smul bi di)) ltac:(lia)) as (x' & E' & L' & O' & V').
    + intros i x' Hi L' E'. wrd s0; [lia|]. wrd s0; [lia|]. apply wp_wr; [lia|]. auto.
    + exists x'. split; auto. split; auto. split; auto. intros i Hi. rewrite diag_mat_vec by auto. rewrite V', V by auto. apply jac_id; auto.
  - intros HC. destruct (map_vec_wp (csr_n A) (fun i _ => smul (znth s0 b i) (sconj (znth s0 d i))) b x (fun i x => bi <- rd b i ;; di <- rd d i ;; wr x i (smul bi (sconj di))) ltac:(lia)) as (x' & E' & L' & O' & V').
    + intros i x' Hi L' E'. wrd s0; [lia|]. wrd s0; [lia|]. apply wp_wr; [lia|]. auto.
    + exists x'. split; auto. split; auto. split; auto. intros i Hi. rewrite diag_mat_vech by auto. rewrite V', V by auto. apply jac_idh; auto.
Qed.

(** *** SSOR *)
(** (F G) x = F (G x) and (F G)^H x = G^H (F^H x) *)
Lemma mat_vec_mul lo hi (F G : Z -> Z -> T) x i : mat_vec lo hi (mat_mul lo hi F G) x i = mat_vec lo hi F (mat_vec lo hi G x) i.
Proof.
  unfold mat_vec, mat_mul. rewrite (ssum_map_ext _ (fun j => ssum (map (fun k => smul (smul (F i k) (G k j)) (x j)) (zrange lo hi)))).
  - rewrite (ssum_exchange RT). apply ssum_map_ext. intros k _. rewrite <- (ssum_map_mul_l RT). apply ssum_map_ext. intros j _. ring.
  - intros j _. rewrite <- (ssum_map_mul_r RT). auto.
Qed.
Lemma mat_vech_mul (HC : conj_ok S) lo hi (F G : Z -> Z -> T) x i : mat_vech lo hi (mat_mul lo hi F G) x i = mat_vech lo hi G (mat_vech lo hi F x) i.
Proof.
  unfold mat_vech, mat_mul. rewrite (ssum_map_ext _ (fun j => ssum (map (fun k => smul (smul (sconj (F j k)) (sconj (G k i))) (x j)) (zrange lo hi)))).
  - rewrite (ssum_exchange RT). apply ssum_map_ext. intros k _. rewrite <- (ssum_map_mul_l RT). apply ssum_map_ext. intros j _. ring.
  - intros j _. rewrite (conj_sum HC). rewrite <- (ssum_map_mul_r RT). apply ssum_map_ext. intros k _. rewrite (conj_mul HC). auto.
Qed.
Lemma mat_vec_ext lo hi (F G : Z -> Z -> T) x y i : (forall j, lo <= j < hi -> F i j = G i j) -> (forall j, lo <= j < hi -> x j = y j) -> mat_vec lo hi F x i = mat_vec lo hi G y i.
Proof. intros H1 H2. unfold mat_vec. apply ssum_map_ext. intros j Hj. apply In_zrange in Hj. rewrite H1, H2 by auto. auto. Qed.
Lemma mat_vech_ext lo hi (F G : Z -> Z -> T) x y i : (forall j, lo <= j < hi -> F j i = G j i) -> (forall j, lo <= j < hi -> x j = y j) -> mat_vech lo hi F x i = mat_vech lo hi G y i.
Proof. intros H1 H2. unfold mat_vech. apply ssum_map_ext. intros j Hj. apply In_zrange in Hj. rewrite H1, H2 by auto. auto. Qed.
Lemma mat_vec_scale lo hi (F : Z -> Z -> T) x i (d : T) : smul d (mat_vec lo hi F x i) = mat_vec lo hi (fun r c => smul d (F r c)) x i.
Proof. unfold mat_vec. rewrite <- (ssum_map_mul_l RT). apply ssum_map_ext. intros; ring. Qed.

Lemma coef_filter (p : entry T -> bool) E i j b : (forall e : entry T, erow e = i -> ecol e = j -> p e = b) -> coef (filter p E) i j = if b then coef E i j else s0.
Proof.
  intros H. unfold coef. induction E as [|e E IH]; cbn [filter map ssum]; [destruct b; auto|].
  destruct (at_ij i j e) eqn:Ea.
  - unfold at_ij in Ea. apply andb_true_iff in Ea as [E1 E2]. apply Z.eqb_eq in E1, E2. rewrite (H e E1 E2). destruct b; cbn [filter map ssum]; [|auto].
    unfold at_ij at 1. rewrite E1, E2, !Z.eqb_refl. cbn [andb map ssum]. rewrite IH. auto.
  - destruct (p e); cbn [filter map ssum]; [rewrite Ea|]; auto.
Qed.
Lemma coef_app E F i j : coef (E ++ F) i j = sadd (coef E i j) (coef F i j).
Proof. unfold coef. rewrite filter_app, map_app, (ssum_app RT). auto. Qed.
Lemma coef_diag n (d : list T) i j : 0 <= i < n -> coef (diag_entries n d) i j = if i =? j then znth s0 d i else s0.
Proof.
  intros Hi. unfold diag_entries. unfold coef.
  assert (E : forall l, ssum (map eval (filter (at_ij i j) (map (fun i0 => (i0, i0, znth s0 d i0) : entry T) l))) = ssum (map (fun k => if (k =? i) && (i =? j) then znth s0 d k else s0) l)).
  { induction l as [|k l IH]; cbn [filter map ssum]; auto. unfold at_ij at 1. unfold erow, ecol. cbn [fst snd].
    rewrite (Z.eqb_sym k i) in *. destruct (Z.eqb_spec k i) as [->|Hk].
    - rewrite Z.eqb_refl. cbn [andb]. destruct (i =? j); cbn [map ssum]; [unfold eval at 1; cbn [snd]; rewrite IH; auto|rewrite IH; ring].
    - destruct (Z.eqb_spec i k); [lia|]. cbn [andb map ssum]. rewrite IH. ring. }
  rewrite E. rewrite (sum_at RT _ 0 n i); [rewrite Z.eqb_refl; auto|auto|]. intros q Hq Hne. destruct (Z.eqb_spec q i); [lia|auto].
Qed.

Section SS.
Variable A : csr T.
Hypothesis HA : csr_ok A.
Hypothesis Hu : no_dup_pos (csr_entries A).
Hypothesis Hdg : forall i, 0 <= i < csr_n A -> has_diag (csr_entries A) i = true.
Hypothesis Hsq : csr_np A = csr_n A.
Local Notation n := (csr_n A).
Local Notation a := (coef (csr_entries A)).
Variable w : T.
Hypothesis Hw : w <> s0.
Hypothesis Hnz : forall i, 0 <= i < n -> a i i <> s0.

Lemma smul_nz (x y : T) : x <> s0 -> y <> s0 -> smul x y <> s0.
Proof. intros Hx Hy E. apply Hy. rewrite <- (Rmul_1_l RT y). rewrite <- (sinv x Hx). transitivity (smul (sdiv s1 x) (smul x y)); [ring|]. rewrite E. ring. Qed.
Lemma inv_nz (x : T) : x <> s0 -> sdiv s1 x <> s0.
Proof. intros Hx E. apply (F_1_neq_0 FT). rewrite <- (sinv x Hx), E. ring. Qed.
Lemma div_def (x y : T) : sdiv x y = smul x (sdiv s1 y).
Proof. rewrite (Fdiv_def FT x y), (Fdiv_def FT s1 y). ring. Qed.

Lemma smul_cancel (x y z : T) : x <> s0 -> smul x y = smul x z -> y = z.
Proof. intros Hx E. rewrite <- (Rmul_1_l RT y), <- (Rmul_1_l RT z), <- (sinv x Hx). transitivity (smul (sdiv s1 x) (smul x y)); [ring|]. rewrite E. ring. Qed.
Lemma inv_inv (x : T) : x <> s0 -> sdiv s1 (sdiv s1 x) = x.
Proof. intros Hx. pose proof (inv_nz x Hx) as Hi. apply (smul_cancel (sdiv s1 x)); auto. rewrite (sinv _ Hi). rewrite (Rmul_comm RT). symmetry. apply sinv; auto. Qed.

Variable P : split T.
Hypothesis HP : split_ok P.
Hypothesis HPn : sp_n P = n.
Hypothesis HPnp : sp_np P = n.
Hypothesis HL : csr_entries (sp_L P) = filter lower (csr_entries A).
Hypothesis HU : csr_entries (sp_U P) = filter upper (csr_entries A).
(** the diagonal scaled by w *)
Variable D' : list T.
Hypothesis HD'l : n <= zlen D'.
Hypothesis HD' : forall i, 0 <= i < n -> znth s0 D' i = smul w (a i i).
Variable wd : list T.
Hypothesis Hwl : n <= zlen wd.
Hypothesis Hwd : forall i, 0 <= i < n -> smul (znth s0 D' i) (znth s0 wd i) = s1.
Let P' := mkSplit (sp_n P) (sp_np P) (sp_L P) D' (sp_U P).
Lemma P'_ok : split_ok P'.
Proof. unfold split_ok, P' in *. cbn [sp_n sp_np sp_L sp_D sp_U]. destruct HP as (H1 & H2 & H3 & H4 & H5 & H6 & H7 & H8 & H9). do 8 (split; [auto|]). lia. Qed.
Lemma P'_inv : inverse_diag P' wd.
Proof. unfold inverse_diag, P'. cbn [sp_n sp_D]. split; [lia|]. rewrite HPn. auto. Qed.

Lemma coef_DL i j : 0 <= i < n -> coef (DL P') i j = ssor_left (sdiv s1 w) a i j.
Proof.
  intros Hi. unfold DL, P'. cbn [sp_n sp_L sp_D]. rewrite coef_app, HL, HPn, coef_diag by auto. rewrite (coef_filter _ _ i j (j <? i)) by (intros e <- <-; reflexivity).
  unfold ssor_left. destruct (Z.eqb_spec i j) as [->|Hne].
  - rewrite Z.ltb_irrefl. rewrite HD' by auto. rewrite (div_def (a j j)). rewrite inv_inv by auto. ring.
  - destruct (j <? i); ring.
Qed.
Lemma coef_DU i j : 0 <= i < n -> coef (DU P') i j = smul (znth s0 D' i) (ssor_right (sdiv s1 w) a i j).
Proof.
  intros Hi. unfold DU, P'. cbn [sp_n sp_U sp_D]. rewrite coef_app, HU, HPn, coef_diag by auto. rewrite (coef_filter _ _ i j (i <? j)) by (intros e <- <-; reflexivity).
  unfold ssor_right. destruct (Z.eqb_spec i j) as [->|Hne].
  - rewrite Z.ltb_irrefl. ring.
  - destruct (i <? j); [|ring]. rewrite HD' by auto.
    transitivity (smul (smul (smul w (sdiv s1 w)) (smul (a i i) (sdiv s1 (a i i)))) (a i j)); [|ring]. rewrite !sinv by auto. ring.
Qed.

Lemma ssor_solve b x : n <= zlen b -> n <= zlen x ->
  exists x', solve_ssor P wd b x = Ok x' /\ zlen x' = zlen x /\ forall i, 0 <= i < n -> mat_vec 0 n (ssor_matrix n (sdiv s1 w) a) (znth s0 x') i = znth s0 b i.
Proof.
  intros Hb Hx. destruct (solve_ssor_final RT P' wd b x P'_ok P'_inv) as (x' & z & E & L & H1 & H2); [unfold P'; cbn; congruence|unfold P'; cbn; lia|unfold P'; cbn; lia|].
  exists x'. split; [exact E|]. split; auto. intros i Hi. unfold ssor_matrix. rewrite mat_vec_mul.
  change (sp_n P') with (sp_n P) in *. change (sp_D P') with D' in H2. rewrite HPn in *. rewrite <- H1 by auto. unfold mv_spec.
  change (ssum (map (fun j => smul (coef (DL P') i j) (z j)) (zrange 0 n))) with (mat_vec 0 n (coef (DL P')) z i).
  symmetry. apply mat_vec_ext; [intros j Hj; apply coef_DL; auto|]. intros j Hj. specialize (H2 j Hj).
  apply (smul_cancel (znth s0 D' j)); [rewrite HD' by auto; apply smul_nz; auto|]. rewrite <- H2. rewrite mat_vec_scale. unfold mv_spec, mat_vec. apply ssum_map_ext. intros k Hk. rewrite coef_DU by auto. auto.
Qed.
Lemma ssor_solveh (HC : conj_ok S) b : n <= zlen b ->
  exists x', solveh_ssor P wd b = Ok x' /\ zlen x' = zlen b /\ forall i, 0 <= i < n -> mat_vech 0 n (ssor_matrix n (sdiv s1 w) a) (znth s0 x') i = znth s0 b i.
Proof.
  intros Hb. destruct (solveh_ssor_final RT HC P' wd b P'_ok P'_inv) as (x' & z & E & L & H1 & H2); [unfold P'; cbn; lia|].
  exists x'. split; [exact E|]. split; auto. intros i Hi. unfold ssor_matrix. rewrite mat_vech_mul by auto.
  change (sp_n P') with (sp_n P) in *. change (sp_D P') with D' in H2. rewrite HPn in *. rewrite <- H1 by auto.
  transitivity (mat_vech 0 n (ssor_right (sdiv s1 w) a) (fun j => smul (sconj (znth s0 D' j)) (z j)) i).
  - apply mat_vech_ext; auto. intros j Hj. rewrite <- H2 by auto. unfold mvh_spec, mat_vech. apply ssum_map_ext. intros k Hk. apply In_zrange in Hk. rewrite coef_DL by auto. auto.
  - unfold mvh_spec, mat_vech. apply ssum_map_ext. intros k Hk. apply In_zrange in Hk. rewrite coef_DU by auto. rewrite (conj_mul HC). ring.
Qed.
End SS.

Lemma create_ssor_wp jlp jli jlv jup jui juv jd w (A : csr T) : csr_ok A -> no_dup_pos (csr_entries A) -> csr_np A = csr_n A ->
  (forall i, 0 <= i < csr_n A -> has_diag (csr_entries A) i = true) -> (forall i, 0 <= i < csr_n A -> coef (csr_entries A) i i <> s0) -> w <> s0 ->
  exists A', create_ssor jlp jli jlv jup jui juv jd w (mkPmat A None None) = Ok A' /\ forall b x, csr_n A <= zlen b -> csr_n A <= zlen x ->
    (exists x', psolve_ssor A' b x = Ok x' /\ zlen x' = zlen x /\
       forall i, 0 <= i < csr_n A -> mat_vec 0 (csr_n A) (ssor_matrix (csr_n A) (sdiv s1 w) (coef (csr_entries A))) (znth s0 x') i = znth s0 b i) /\
    (conj_ok S -> exists x', psolveh_ssor A' b = Ok x' /\ zlen x' = zlen b /\
       forall i, 0 <= i < csr_n A -> mat_vech 0 (csr_n A) (ssor_matrix (csr_n A) (sdiv s1 w) (coef (csr_entries A))) (znth s0 x') i = znth s0 b i).
Proof.
  intros HA Hu Hsq Hdg Hnz Hw. pose proof HA as ((Hn & _) & _).
  destruct (split_final RT jlp jli jlv jup jui juv jd A HA Hu) as (P & EP & HP & Pn & Pnp & PL & PU & PD).
  assert (HDl : csr_n A <= zlen (sp_D P)) by (rewrite <- Pn; apply HP).
  destruct (map_vec_wp (sp_n P) (fun _ v => smul w v) (sp_D P) (sp_D P) (fun i d => v <- rd d i ;; wr d i (smul w v)) ltac:(lia)) as (D' & ED' & LD' & _ & VD').
  { intros i x' Hi L' E'. wrd s0; [lia|]. apply wp_wr; [lia|]. rewrite E'. auto. }
  assert (VD : forall i, 0 <= i < csr_n A -> znth s0 D' i = smul w (coef (csr_entries A) i i)) by (intros i Hi; rewrite VD' by lia; rewrite PD; auto).
  destruct (diag_inverse_wp RT FT (sp_n P) D' ltac:(lia)) as (wd & Ewd & Lwd & Vwd).
  { intros i Hi. rewrite VD by lia. apply smul_nz; auto. apply Hnz; lia. }
  exists (mkPmat A (Some P) (Some wd)). split.
  { unfold create_ssor. cbn [pm_split pm_wd pm_csr]. rewrite EP. cbn [bind]. rewrite ED'. cbn [bind]. rewrite Ewd. reflexivity. }
  intros b x Hb Hx. unfold psolve_ssor, psolveh_ssor. cbn [pm_split pm_wd]. rewrite Pn in *. split.
  - apply (ssor_solve A w Hw Hnz P HP Pn ltac:(lia) PL PU D' ltac:(lia) VD wd ltac:(lia) Vwd b x Hb Hx).
  - intros HC. apply (ssor_solveh A w Hw Hnz P HP Pn ltac:(lia) PL PU D' ltac:(lia) VD wd ltac:(lia) Vwd HC b Hb).
Qed.
End J.
End P.
