(** I+S and additive Schwarz: applying the preconditioner. *)
Require Import ZArith List Bool Lia Ring.
From Verif Require Import Base Items Scalar Spec SpecIlu SpecSplit SplitProof Unblk CscProof SainvStep Split Matvec MatvecProof SpecSainv SainvMath Isp SpecIsp.
Import ListNotations.
Open Scope Z_scope.

Section P.
Context {T : Type} {S : Scalar T}.
Hypothesis RT : is_ring S.
Let RT' : @ring_theory T s0 s1 sadd smul ssub sopp (@eq T) := RT.
Add Ring TrIsA : RT'.

Lemma filter_rows (A : csr T) i : 0 <= i < csr_n A -> filter (fun e => erow e =? i) (csr_entries A) = rowE A i.
Proof.
  intros Hi. rewrite csr_entries_rows. rewrite <- flat_map_filter. rewrite (Unblk.flat_map_only _ 0 (csr_n A) i Hi).
  - apply filter_all. intros e He. apply rowE_row in He. apply Z.eqb_eq. auto.
  - intros q Hq Hne. apply filter_none. intros e He. apply rowE_row in He. apply Z.eqb_neq. congruence.
Qed.
Lemma firstn_zrange k lo hi : 0 <= k -> firstn (Z.to_nat k) (zrange lo hi) = zrange lo (Z.min (lo + k) hi).
Proof.
  intros Hk. destruct (Z.le_gt_cases lo hi) as [H|H].
  - destruct (Z.le_gt_cases (lo + k) hi) as [H1|H1].
    + rewrite Z.min_l by lia. rewrite (zrange_app lo (lo + k) hi) by lia. rewrite firstn_app. assert (E : length (zrange lo (lo + k)) = Z.to_nat k) by (pose proof (zlen_zrange lo (lo + k)); unfold zlen in *; lia).
      rewrite E, Nat.sub_diag. cbn [firstn]. rewrite app_nil_r. apply firstn_all2. lia.
    + rewrite Z.min_r by lia. apply firstn_all2. pose proof (zlen_zrange lo hi); unfold zlen in *; lia.
  - rewrite !zrange_empty by lia. apply firstn_nil.
Qed.
Lemma lead_row m (A : csr T) i : 0 <= m -> 0 <= i < csr_n A ->
  lead m (csr_entries A) i = map (fun k => (i, znth 0 (csr_index A) k, znth s0 (csr_value A) k) : entry T) (zrange (znth 0 (csr_ptr A) i) (Z.min (znth 0 (csr_ptr A) i + m) (znth 0 (csr_ptr A) (i + 1)))).
Proof. intros Hm Hi. unfold lead. rewrite filter_rows by auto. unfold rowE. rewrite firstn_map. f_equal. apply firstn_zrange. auto. Qed.

Lemma lead_in m (E : list (entry T)) i (e : entry T) : In e (lead m E i) -> In e E /\ erow e = i.
Proof.
  unfold lead. intros H. assert (H' : In e (filter (fun e => erow e =? i) E)).
  { rewrite <- (firstn_skipn (Z.to_nat m) (filter _ E)). apply in_or_app. auto. }
  apply filter_In in H'. destruct H' as [H1 H2]. split; auto. apply Z.eqb_eq; auto.
Qed.
(** sum over the leading entries = sum over the columns *)
Lemma lead_sum m (E : list (entry T)) i n (f : Z -> T) : (forall e, In e E -> 0 <= ecol e < n) ->
  ssum (map (fun e => smul (eval e) (f (ecol e))) (lead m E i)) = ssum (map (fun c => smul (coef (lead m E i) i c) (f c)) (zrange 0 n)).
Proof.
  intros H. symmetry. change (mv_spec (lead m E i) n f i = ssum (map (fun e => smul (eval e) (f (ecol e))) (lead m E i))).
  rewrite (mv_spec_mvE RT). apply mvE_all. intros e He. apply lead_in in He. tauto.
  intros e He _. apply H. apply lead_in in He. tauto.
Qed.
Lemma one_minus_vec alpha m (E : list (entry T)) i n (x : Z -> T) : 0 <= i < n -> (forall e, In e E -> 0 <= ecol e < n) ->
  mat_vec 0 n (one_minus_s alpha m E) x i = ssub (x i) (smul alpha (ssum (map (fun e => smul (eval e) (x (ecol e))) (lead m E i)))).
Proof.
  intros Hi H. unfold mat_vec, one_minus_s. rewrite (lead_sum m E i n x H). rewrite <- (ssum_map_mul_l RT). rewrite <- (sum_delta RT x 0 n i Hi). rewrite <- (sum_sub RT).
  apply ssum_map_ext. intros j _. unfold delta. ring.
Qed.

Section A.
Variables (A : split T) (w : T) (m : Z).
Hypothesis HA : split_ok A.
Hypothesis Hsq : sp_np A = sp_n A.
Hypothesis Hm : 0 <= m.
Let n := sp_n A.
Let U := sp_U A.
Lemma U_ok : csr_ok U /\ csr_n U = n /\ csr_np U = n.
Proof using HA Hsq. unfold U, n. destruct HA as (_ & _ & _ & _ & H1 & H2 & H3 & _). rewrite H3, Hsq. auto. Qed.
Lemma U_pos i : 0 <= i < n -> let us := znth 0 (csr_ptr U) i in let n2 := Z.min (us + m) (znth 0 (csr_ptr U) (i + 1)) in
  0 <= i < zlen (csr_ptr U) /\ 0 <= i + 1 < zlen (csr_ptr U) /\ us <= n2 /\
  forall j, us <= j < n2 -> 0 <= j < zlen (csr_index U) /\ 0 <= j < zlen (csr_value U) /\ 0 <= znth 0 (csr_index U) j < n.
Proof using HA Hsq Hm.
  intros Hi. destruct U_ok as [H [En Enp]]. pose proof H as [HP [_ [Hnz [Hli [Hlv Hix]]]]]. pose proof HP as [_ [HL [H0 Hmono]]]. rewrite En in *. cbv zeta.
  assert (M : forall a b, 0 <= a <= b -> b <= n -> znth 0 (csr_ptr U) a <= znth 0 (csr_ptr U) b).
  { intros a b Hab Hb. exact (ptr_ok_mono n (csr_ptr U) a b HP Hab Hb). }
  pose proof (Hmono i ltac:(lia)). pose proof (M 0 i ltac:(lia) ltac:(lia)). pose proof (M (i + 1) n ltac:(lia) ltac:(lia)).
  split; [lia|]. split; [lia|]. split; [lia|]. intros j Hj. split; [lia|]. split; [lia|]. rewrite <- Enp. apply Hix. lia.
Qed.
Lemma U_cols e : In e (csr_entries U) -> 0 <= ecol e < n.
Proof using HA Hsq. destruct U_ok as [H [En Enp]]. intros He. pose proof (CscProof.csr_in_shape U H e He). lia. Qed.

Lemma psolve_is_wp x y : n <= zlen x -> n <= zlen y ->
  wp (psolve_is w m A x y) (fun y' => zlen y' = zlen y /\ forall i, 0 <= i < n -> znth s0 y' i = mat_vec 0 n (one_minus_s w m (csr_entries U)) (znth s0 x) i).
Proof using RT HA Hsq Hm.
  intros Hx Hy. destruct U_ok as [HU [En Enp]]. assert (Hn : 0 <= n) by (destruct HU as [[H _] _]; lia). unfold psolve_is. fold U n. cbv zeta.
  apply (for_wp' (fun q y' => zlen y' = zlen y /\ forall i, 0 <= i < q -> znth s0 y' i = mat_vec 0 n (one_minus_s w m (csr_entries U)) (znth s0 x) i)); [lia|split; [auto|intros; lia]| |auto].
  intros i z Hi [Hz IH]. destruct (U_pos i Hi) as (H1 & H2 & H3 & H4). wrd 0; [lia|]. wrd 0; [lia|]. apply wp_bind.
  apply (for_sum RT (fun j => smul (znth s0 (csr_value U) j) (znth s0 x (znth 0 (csr_index U) j)))).
  - intros j t Hj. destruct (H4 j Hj) as (K1 & K2 & K3). rewrite (rd_ok 0) by lia. cbn [bind]. rewrite (rd_ok s0) by lia. cbn [bind]. rewrite (rd_ok s0) by lia. reflexivity.
  - wrd s0; [lia|]. rewrite wr_ok by lia. cbn [wp]. split; [len|]. intros c Hc. rewrite znth_zupd by lia. destruct (Z.eqb_spec c i) as [Ec|Ec]; [|apply IH; lia]. subst c.
    rewrite (one_minus_vec w m (csr_entries U) i n (znth s0 x) Hi U_cols). rewrite (lead_row m U i Hm) by lia. rewrite map_map. cbn [eval ecol fst snd]. ring.
Qed.

Lemma sub_loop (js je : Z) (al : T) (y : list T) : 0 <= n <= zlen y -> js <= je -> (forall j, js <= j < je -> 0 <= j < zlen (csr_index U) /\ 0 <= j < zlen (csr_value U) /\ 0 <= znth 0 (csr_index U) j < n) ->
  wp (for_ js je (fun j y => jj <- rd (csr_index U) j ;; v <- rd (csr_value U) j ;; y0 <- rd y jj ;; wr y jj (ssub y0 (smul (smul w (sconj v)) al))) y)
     (fun y' => zlen y' = zlen y /\ forall c, 0 <= c < zlen y -> znth s0 y' c = ssub (znth s0 y c) (smul w (smul (ssum (map (fun j => if znth 0 (csr_index U) j =? c then sconj (znth s0 (csr_value U) j) else s0) (zrange js je))) al))).
Proof using RT.
  intros Hy Hle H. apply (for_wp' (fun q y' => zlen y' = zlen y /\ forall c, 0 <= c < zlen y -> znth s0 y' c = ssub (znth s0 y c) (smul w (smul (ssum (map (fun j => if znth 0 (csr_index U) j =? c then sconj (znth s0 (csr_value U) j) else s0) (zrange js q))) al)))); [lia| | |auto].
  - split; [auto|]. intros c Hc. rewrite zrange_empty by lia. cbn. ring.
  - intros j z Hj [Hz IH]. destruct (H j Hj) as (K1 & K2 & K3). wrd 0; [lia|]. wrd s0; [lia|]. wrd s0; [lia|]. rewrite wr_ok by lia. cbn [wp]. split; [len|].
    intros c Hc. rewrite znth_zupd by lia. rewrite zrange_snoc by lia. rewrite map_app, (ssum_app RT). cbn [map ssum]. rewrite (Z.eqb_sym (znth 0 (csr_index U) j) c).
    destruct (Z.eqb_spec c (znth 0 (csr_index U) j)) as [Ec|Ec]; [rewrite <- Ec|]; rewrite IH by lia; ring.
Qed.
Lemma psolveh_is_wp x y : conj_ok S -> sconj w = w -> n <= zlen x -> n <= zlen y ->
  wp (psolveh_is w m A x y) (fun y' => zlen y' = zlen y /\ forall i, 0 <= i < n -> znth s0 y' i = mat_vech 0 n (one_minus_s w m (csr_entries U)) (znth s0 x) i).
Proof using RT HA Hsq Hm.
  intros HC Hw Hx Hy. destruct U_ok as [HU [En Enp]]. assert (Hn : 0 <= n) by (destruct HU as [[H _] _]; lia). unfold psolveh_is. fold U n. cbv zeta. rewrite Hsq. fold n. apply wp_bind.
  apply (for_wp' (fun q y' => zlen y' = zlen y /\ forall i, 0 <= i < q -> znth s0 y' i = znth s0 x i)); [lia|split; [auto|intros; lia]| |].
  { intros i z Hi [Hz IH]. wrd s0; [lia|]. rewrite wr_ok by lia. cbn [wp]. split; [len|]. intros c Hc. rewrite znth_zupd by lia. destruct (Z.eqb_spec c i) as [Ec|Ec]; [subst c; auto|apply IH; lia]. }
  intros y1 [Hy1 H1].
  set (f := fun c i : Z => smul (sconj (coef (lead m (csr_entries U) i) i c)) (znth s0 x i)).
  apply (for_wp' (fun q y' => zlen y' = zlen y /\ forall c, 0 <= c < n -> znth s0 y' c = ssub (znth s0 x c) (smul w (ssum (map (f c) (zrange 0 q)))))); [lia| | |].
  - split; [auto|]. intros c Hc. rewrite H1 by auto. rewrite zrange_empty by lia. cbn. ring.
  - intros i z Hi [Hz IH]. destruct (U_pos i Hi) as (K1 & K2 & K3 & K4). wrd s0; [lia|]. wrd 0; [lia|]. wrd 0; [lia|].
    eapply wp_mono; [apply sub_loop; [lia|exact K3|exact K4]|]. intros z' [Hz' IH']. split; [lia|]. intros c Hc. rewrite IH' by lia. rewrite IH by lia. rewrite zrange_snoc by lia. rewrite map_app, (ssum_app RT). cbn [map ssum]. unfold f at 3.
    assert (E : sconj (coef (lead m (csr_entries U) i) i c) = ssum (map (fun j => if znth 0 (csr_index U) j =? c then sconj (znth s0 (csr_value U) j) else s0) (zrange (znth 0 (csr_ptr U) i) (Z.min (znth 0 (csr_ptr U) i + m) (znth 0 (csr_ptr U) (i + 1)))))).
    { rewrite (SainvStep.coef_if RT). rewrite (lead_row m U i Hm) by lia. rewrite map_map. destruct HC as (C1 & C2 & C3 & C4 & C5).
      generalize (zrange (znth 0 (csr_ptr U) i) (Z.min (znth 0 (csr_ptr U) i + m) (znth 0 (csr_ptr U) (i + 1)))). intros l. induction l as [|k l IHl]; [exact C4|]. cbn [map ssum]. rewrite C1, IHl. f_equal. unfold at_ij. cbn [erow ecol eval fst snd]. rewrite Z.eqb_refl. cbn [andb]. destruct (znth 0 (csr_index U) k =? c); auto. }
    rewrite E. ring.
  - intros z [Hz IH]. split; [auto|]. intros c Hc. rewrite IH by auto. unfold mat_vech, one_minus_s. rewrite <- (ssum_map_mul_l RT). rewrite <- (sum_delta RT (znth s0 x) 0 n c Hc) at 1. rewrite <- (sum_sub RT). apply ssum_map_ext. intros i _. unfold f, delta.
    destruct HC as (C1 & C2 & C3 & C4 & C5). assert (Csub : forall a b : T, sconj (ssub a b) = ssub (sconj a) (sconj b)).
    { intros a b. replace (ssub a b) with (sadd a (sopp b)) by ring. rewrite C1. assert (Hopp : sconj (sopp b) = sopp (sconj b)). { assert (E0 : sadd (sconj (sopp b)) (sconj b) = s0) by (rewrite <- C1; replace (sadd (sopp b) b) with (@s0 T S) by ring; exact C4). transitivity (ssub (sadd (sconj (sopp b)) (sconj b)) (sconj b)); [ring|]. rewrite E0. ring. } rewrite Hopp. ring. }
    rewrite Csub, C2, Hw. rewrite (Z.eqb_sym i c). destruct (c =? i); [rewrite C5|rewrite C4]; ring.
Qed.
End A.
End P.
