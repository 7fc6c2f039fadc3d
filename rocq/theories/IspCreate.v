(** I+S: the matrix and the right hand side built by lis_precon_create_is_csr. *)
Require Import ZArith List Bool Lia Permutation Ring.
From Verif Require Import Base Items Scalar Spec SpecSplit Split SplitProof PreconProof Fmt DiagProof2 JadProof SainvMath SainvStep IlutFinal SpecIlu SpecIsp Isp IspApply AddsProof IspCount IspFill IspFill2.
Import ListNotations.
Open Scope Z_scope.

Section P.
Context {T : Type} {S : Scalar T}.
Hypothesis RT : is_ring S.
Let RT' : @ring_theory T s0 s1 sadd smul ssub sopp (@eq T) := RT.
Add Ring TrIsC : RT'.
Variables (A : split T) (m : Z).
Hypothesis HA : split_ok A.
Hypothesis Hsq : sp_np A = sp_n A.
Hypothesis Hm : 0 <= m.
Hypothesis HL : no_dup_pos (csr_entries (sp_L A)).
Hypothesis HU : no_dup_pos (csr_entries (sp_U A)).
Notation n := (sp_n A).
Variables (w : T) (b : list T).
Hypothesis Hb : n <= zlen b.
Notation a := (coef (split_entries A)).

(** *** the sums *)
Lemma acc_app (P Q : list (Z * T)) c : acc (P ++ Q) c = sadd (acc P c) (acc Q c).
Proof using RT. unfold acc. rewrite map_app, (ssum_app RT). reflexivity. Qed.
Lemma acc_flat {X} (f : X -> list (Z * T)) l c : acc (flat_map f l) c = ssum (map (fun x => acc (f x) c) l).
Proof using RT. induction l as [|x l IH]; [reflexivity|]. cbn [flat_map map ssum]. rewrite acc_app, IH. reflexivity. Qed.
Lemma acc_rowB (B : csr T) v r c : 0 <= r < csr_n B -> acc (rowB B v r) c = smul v (coef (csr_entries B) r c).
Proof using RT.
  intros Hr. rewrite (csr_line RT B r c Hr). unfold line, acc, rowB, itemsB. rewrite map_map. rewrite <- (ssum_map_mul_l RT). apply ssum_map_ext. intros k _. cbn [fst snd]. destruct (znth 0 (csr_index B) k =? c); ring.
Qed.
Lemma split_coef (P : split T) r c : 0 <= r < sp_n P -> coef (split_entries P) r c = sadd (coef (csr_entries (sp_L P)) r c) (sadd (if r =? c then znth s0 (sp_D P) r else s0) (coef (csr_entries (sp_U P)) r c)).
Proof using RT. intros Hr. unfold split_entries. rewrite !(coef_app RT). rewrite (coef_diag RT) by auto. reflexivity. Qed.
Lemma acc_rowA v jj c : 0 <= jj < n -> acc (rowA A v jj) c = smul v (a jj c).
Proof using RT HA.
  intros Hj. destruct HA as (H1 & H2 & H3 & H4 & H5 & H6 & H7 & H8 & H9). unfold rowA. rewrite !acc_app, !acc_rowB by lia. rewrite split_coef by auto. unfold acc at 1. cbn [map ssum fst snd]. destruct (jj =? c); ring.
Qed.
Lemma coef_zero (E : list (entry T)) r c : (forall e, In e E -> erow e = r -> ecol e = c -> False) -> coef E r c = s0.
Proof using RT. intros H. apply (DiagProof2.coef_absent). intros Hin. apply in_map_iff in Hin. destruct Hin as (e & E1 & He). apply (H e He); unfold erow, ecol; rewrite E1; auto. Qed.
(** L and U contribute only below / above the diagonal *)
Lemma low_zero (P : split T) r c : split_ok P -> r <= c -> coef (csr_entries (sp_L P)) r c = s0.
Proof using RT. intros (_ & _ & _ & H & _) Hc. apply coef_zero. intros e He E1 E2. specialize (H e He). lia. Qed.
Lemma up_zero (P : split T) r c : split_ok P -> c <= r -> coef (csr_entries (sp_U P)) r c = s0.
Proof using RT. intros (_ & _ & _ & _ & _ & _ & _ & H & _) Hc. apply coef_zero. intros e He E1 E2. specialize (H e He). lia. Qed.
Lemma a_diag r : 0 <= r < n -> a r r = znth s0 (sp_D A) r.
Proof using RT HA. intros Hr. rewrite split_coef by auto. rewrite Z.eqb_refl, (low_zero A), (up_zero A) by (auto; lia). ring. Qed.
Lemma a_off r c : 0 <= r < n -> r <> c -> sadd (coef (csr_entries (sp_L A)) r c) (coef (csr_entries (sp_U A)) r c) = a r c.
Proof using RT. intros Hr Hne. rewrite split_coef by auto. destruct (Z.eqb_spec r c); [contradiction|]. ring. Qed.

(** the new matrix and right hand side *)
Definition Pis (i c : Z) : T :=
  ssub (if i =? c then a i i else smul (a i i) (a i c)) (smul w (ssum (map (fun e => smul (eval e) (a (ecol e) c)) (lead m (csr_entries (sp_U A)) i)))).
Definition bis (i : Z) : T :=
  ssub (smul (a i i) (znth s0 b i)) (smul w (ssum (map (fun e => smul (eval e) (znth s0 b (ecol e))) (lead m (csr_entries (sp_U A)) i)))).
Lemma npos_sum i (f : Z -> T) : 0 <= i < n -> ssum (map (fun ja => smul (mult A w ja) (f (znth 0 (csr_index (sp_U A)) ja))) (npos A m i)) = sopp (smul w (ssum (map (fun e => smul (eval e) (f (ecol e))) (lead m (csr_entries (sp_U A)) i)))).
Proof using RT HA Hm.
  intros Hi. destruct HA as (H1 & H2 & H3 & H4 & H5 & H6 & H7 & H8 & H9). rewrite lead_row by lia. rewrite map_map. unfold npos, mult, eval, ecol. cbn [fst snd].
  rewrite <- (ssum_map_mul_l RT). match goal with |- ?x = sopp ?y => assert (E : x = smul (sopp s1) y); [|rewrite E; ring] end. rewrite <- (ssum_map_mul_l RT). apply ssum_map_ext. intros k _. ring.
Qed.
Lemma acc_PR i c : 0 <= i < n -> sadd (if i =? c then a i i else s0) (acc (PR A m w i) c) = Pis i c.
Proof using RT HA Hsq Hm.
  intros Hi. unfold PR. rewrite !acc_app, acc_flat. destruct HA as (H1 & H2 & H3 & H4 & H5 & H6 & H7 & H8 & H9). rewrite !acc_rowB by lia.
  rewrite (ssum_map_ext (fun ja => acc (rowA A (mult A w ja) (znth 0 (csr_index (sp_U A)) ja)) c) (fun ja => smul (mult A w ja) (a (znth 0 (csr_index (sp_U A)) ja) c))).
  - rewrite (npos_sum i (fun q => a q c) Hi). unfold Pis. rewrite <- (a_diag i Hi). destruct (Z.eqb_spec i c) as [E|E].
    + rewrite <- E. rewrite (low_zero A), (up_zero A) by (auto; lia). ring.
    + rewrite <- (a_off i c Hi E). ring.
  - intros ja Hja. destruct (npos_in A m HA Hsq i ja Hi Hja). apply acc_rowA. lia.
Qed.
Lemma new_b_is i : 0 <= i < n -> sadd (smul (znth s0 (sp_D A) i) (znth s0 b i)) (new_b A m w b i) = bis i.
Proof using RT HA Hm. intros Hi. unfold new_b, bis. rewrite (npos_sum i (znth s0 b) Hi), (a_diag i Hi). ring. Qed.

(** *** the loop over the rows *)
Lemma line_is_ext ix v ix' v' k0 k1 side (f : Z -> T) : (forall p, k0 <= p < k1 -> znth 0 ix' p = znth 0 ix p /\ znth s0 v' p = znth s0 v p) -> line_is A ix v k0 k1 side f -> line_is A ix' v' k0 k1 side f.
Proof using.
  intros H [H1 H2]. split.
  - intros p Hp. destruct (H p Hp) as [-> _]. auto.
  - intros c Hc Hs. rewrite <- (H2 c Hc Hs). apply sum_ext. intros p Hp. destruct (H p Hp) as [-> ->]. reflexivity.
Qed.
Lemma counted_ptr f p : (forall i, 0 <= f i) -> 0 <= n -> counted A f p -> ptr_ok n p.
Proof using. intros Hf Hn (H1 & H2 & H3). unfold ptr_ok. repeat match goal with |- _ /\ _ => split end; auto; try lia. intros i Hi. specialize (Hf i). rewrite H3; lia. Qed.
Lemma zlen_pos {X} (l : list X) : 0 <= zlen l.
Proof using. unfold zlen. lia. Qed.

Lemma csr_of_lines lp ix v nz side : 0 <= n -> ptr_ok n lp -> znth 0 lp n = nz -> nz = zlen ix -> nz = zlen v -> (forall r, 0 <= r < n -> exists f, line_is A ix v (znth 0 lp r) (znth 0 lp (r + 1)) (fun c => side r c) f) ->
  csr_ok (mkCsr n n nz lp ix v) /\ forall e, In e (csr_entries (mkCsr n n nz lp ix v)) -> side (erow e) (ecol e).
Proof using.
  intros Hn HP Hnz Hix Hv Hl. split.
  - unfold csr_ok. cbn [csr_n csr_np csr_nnz csr_ptr csr_index csr_value]. repeat match goal with |- _ /\ _ => split end; auto; try lia. 
    all: intros k Hkk; destruct (JadProof.ptr_find n lp k HP ltac:(lia)) as (r & Hr & Hk); destruct (Hl r Hr) as (f & [G _]); destruct (G k Hk); lia.
  - intros e He. unfold csr_entries in He. cbn [csr_n csr_ptr csr_index csr_value] in He. apply in_flat_map in He. destruct He as (r & Hr & He). apply In_zrange in Hr. apply in_map_iff in He. destruct He as (k & <- & Hk). apply In_zrange in Hk. unfold erow, ecol. cbn [fst snd]. destruct (Hl r Hr) as (f & [G _]). apply G. auto.
Qed.

Lemma create_is_wp jl ju ji jli jui jlv juv jd jb jp jx jv :
  wp (create_is jl ju ji jli jui jlv juv jd jb jp jx jv w m A b) (fun '(P, pb) => csr_ok P /\ csr_n P = n /\ csr_np P = n /\ zlen pb = n /\
    (forall i c, 0 <= i < n -> 0 <= c < n -> coef (csr_entries P) i c = Pis i c) /\ (forall i, 0 <= i < n -> znth s0 pb i = bis i)).
Proof using RT HA Hsq Hm HL HU Hb.
  assert (Hn : 0 <= n) by (destruct HA as (H & E & _); destruct H as [[H _] _]; lia).
  assert (HD : n <= zlen (sp_D A)) by (destruct HA as (_ & _ & _ & _ & _ & _ & _ & _ & H); auto).
  unfold create_is. apply wp_bind. eapply wp_mono; [apply (is_count_wp A m HA Hsq Hm HL HU)|]. intros [lp up] [CL CU].
  pose proof (counted_ptr _ _ (fun i => zlen_pos _) Hn CL) as PL. pose proof (counted_ptr _ _ (fun i => zlen_pos _) Hn CU) as PU.
  pose proof CL as (LL & _). pose proof CU as (LU & _).
  wrd 0; [lia|]. wrd 0; [lia|]. set (nl := znth 0 lp n). set (nu := znth 0 up n).
  assert (MLn : forall r, 0 <= r <= n -> 0 <= znth 0 lp r <= nl) by (intros r Hr; pose proof (ptr_ok_mono n lp 0 r PL ltac:(lia) ltac:(lia)); pose proof (ptr_ok_mono n lp r n PL ltac:(lia) ltac:(lia)); pose proof PL as (_ & _ & Z0 & _); unfold nl; lia).
  assert (MUn : forall r, 0 <= r <= n -> 0 <= znth 0 up r <= nu) by (intros r Hr; pose proof (ptr_ok_mono n up 0 r PU ltac:(lia) ltac:(lia)); pose proof (ptr_ok_mono n up r n PU ltac:(lia) ltac:(lia)); pose proof PU as (_ & _ & Z0 & _); unfold nu; lia).
  pose proof (MLn n ltac:(lia)). pose proof (MUn n ltac:(lia)).
  apply wp_bind. apply (for_wp' (fun q d => zlen d = n /\ forall r, 0 <= r < q -> znth s0 d r = znth s0 (sp_D A) r)); [lia| | |].
  { split; [apply zlen_alloc; lia|intros; lia]. }
  { intros r d Hr [Ld Hd]. wrd s0; [lia|]. rewrite wr_ok by lia. cbn [wp]. split; [len|]. intros r' Hr'. rewrite znth_zupd by lia. destruct (Z.eqb_spec r' r) as [->|]; [auto|]. apply Hd. lia. }
  intros d [Ld Hd]. apply wp_bind.
  apply (for_wp' (fun q '(s, pb) => clear A (f_iw s) /\ (zlen (t_ix (f_L s)) = nl /\ zlen (t_v (f_L s)) = nl /\ zlen (t_ix (f_U s)) = nu /\ zlen (t_v (f_U s)) = nu /\ zlen (f_d s) = n /\ zlen pb = n) /\
    (forall r, 0 <= r < q -> line_is A (t_ix (f_L s)) (t_v (f_L s)) (znth 0 lp r) (znth 0 lp (r + 1)) (fun c => c < r) (acc (PR A m w r))) /\
    (forall r, 0 <= r < q -> line_is A (t_ix (f_U s)) (t_v (f_U s)) (znth 0 up r) (znth 0 up (r + 1)) (fun c => r < c) (acc (PR A m w r))) /\
    (forall r, 0 <= r < q -> znth s0 (f_d s) r = Pis r r) /\ (forall r, q <= r < n -> znth s0 (f_d s) r = znth s0 (sp_D A) r) /\
    (forall r, 0 <= r < q -> znth s0 pb r = bis r))); [lia| | |].
  - cbn [f_iw f_L f_U f_d t_ix t_v]. rewrite !zlen_alloc by lia. repeat match goal with |- _ /\ _ => split end; auto; try (intros; lia).
    + split; [apply zlen_alloc; lia|]. intros c Hc. rewrite znth_alloc by lia. reflexivity.
  - intros i [s pb] Hi (Hc & (K1 & K2 & K3 & K4 & K5 & K6) & IL & IU & ID & ID' & IB). apply wp_bind.
    pose proof (MLn i ltac:(lia)). pose proof (MUn i ltac:(lia)). pose proof (MLn (i + 1) ltac:(lia)). pose proof (MUn (i + 1) ltac:(lia)).
    eapply wp_mono; [apply (fill_row_wp RT A m HA Hsq Hm HL HU w b Hb lp up i s Hi CL CU Hc); lia|].
    intros [s' t] (Hc' & (J1 & J2 & J3 & J4 & J5) & FL & FU & LL' & LU' & D1 & D2 & Et). wwr; [lia|]. cbn [wp].
    split; [exact Hc'|]. split; [repeat match goal with |- _ /\ _ => split end; len|].
    split; [|split; [|split; [|split]]].
    + intros r Hr. destruct (Z.eq_dec r i) as [->|Hne]; [exact LL'|]. apply (line_is_ext (t_ix (f_L s)) (t_v (f_L s))); [|apply IL; lia]. intros p Hp. apply FL. pose proof (MLn r ltac:(lia)). pose proof (ptr_ok_mono n lp (r + 1) i PL ltac:(lia) ltac:(lia)). lia.
    + intros r Hr. destruct (Z.eq_dec r i) as [->|Hne]; [exact LU'|]. apply (line_is_ext (t_ix (f_U s)) (t_v (f_U s))); [|apply IU; lia]. intros p Hp. apply FU. pose proof (MUn r ltac:(lia)). pose proof (ptr_ok_mono n up (r + 1) i PU ltac:(lia) ltac:(lia)). lia.
    + intros r Hr. destruct (Z.eq_dec r i) as [->|Hne]; [|rewrite D1 by lia; apply ID; lia]. rewrite D2, ID' by lia. rewrite <- (acc_PR i i Hi), Z.eqb_refl, (a_diag i Hi). reflexivity.
    + intros r Hr. rewrite D1 by lia. apply ID'. lia.
    + intros r Hr. rewrite znth_zupd by lia. destruct (Z.eqb_spec r i) as [->|Hne]; [rewrite Et; apply new_b_is; auto|apply IB; lia].
  - intros [s pb] (Hc & (K1 & K2 & K3 & K4 & K5 & K6) & IL & IU & ID & _ & IB).
    set (P' := mkSplit n n (mkCsr n n nl lp (t_ix (f_L s)) (t_v (f_L s))) (f_d s) (mkCsr n n nu up (t_ix (f_U s)) (t_v (f_U s)))).
    destruct (csr_of_lines lp (t_ix (f_L s)) (t_v (f_L s)) nl (fun r c => c < r) Hn PL eq_refl) as [OL1 OL2]; [lia|lia|intros r Hr; eexists; apply IL; auto|].
    destruct (csr_of_lines up (t_ix (f_U s)) (t_v (f_U s)) nu (fun r c => r < c) Hn PU eq_refl) as [OU1 OU2]; [lia|lia|intros r Hr; eexists; apply IU; auto|].
    assert (HP : split_ok P') by (unfold split_ok, P', strictly_lower, strictly_upper; cbn [sp_L sp_U sp_D sp_n sp_np csr_n csr_np]; repeat match goal with |- _ /\ _ => split end; auto; lia).
    apply wp_bind. eapply wp_mono; [apply (merge_wp jp jx jv P' HP)|]. intros B (B1 & B2 & B3 & B4). cbn [wp]. split; [exact B1|]. split; [exact B2|]. split; [exact B3|]. split; [auto|]. split; [|exact IB].
    intros i c Hi Hc'. rewrite (coef_perm RT _ _ i c B4). rewrite (split_coef P' i c Hi). rewrite <- (acc_PR i c Hi).
    assert (GL : c < i -> coef (csr_entries (sp_L P')) i c = acc (PR A m w i) c) by (intros Hlt; rewrite (csr_line RT) by (cbn; lia); exact (proj2 (IL i Hi) c Hc' Hlt)).
    assert (GU : i < c -> coef (csr_entries (sp_U P')) i c = acc (PR A m w i) c) by (intros Hlt; rewrite (csr_line RT) by (cbn; lia); exact (proj2 (IU i Hi) c Hc' Hlt)).
    destruct (Z.lt_trichotomy c i) as [Hlt|[Heq|Hgt]].
    + rewrite (GL Hlt), (up_zero P') by (auto; lia). destruct (Z.eqb_spec i c); [lia|]. ring.
    + rewrite (low_zero P'), (up_zero P') by (auto; lia). rewrite Heq, Z.eqb_refl. unfold P'. cbn [sp_D]. rewrite (ID i Hi). rewrite <- (acc_PR i i Hi), Z.eqb_refl. ring.
    + rewrite (GU Hgt), (low_zero P') by (auto; lia). destruct (Z.eqb_spec i c); [lia|]. ring.
Qed.

(** *** unit diagonal: P = (I - alpha S) A *)
Hypothesis Hdiag : forall i, 0 <= i < n -> znth s0 (sp_D A) i = s1.
Notation M := (one_minus_s w m (csr_entries (sp_U A))).
Lemma U_range e : In e (csr_entries (sp_U A)) -> 0 <= ecol e < n.
Proof using HA Hsq. intros He. pose proof (U_cols A HA Hsq e He). lia. Qed.
Lemma Pis_unit i c : 0 <= i < n -> Pis i c = mat_mul 0 n M a i c.
Proof using RT HA Hsq Hdiag.
  intros Hi. change (mat_mul 0 n M a i c) with (mat_vec 0 n M (fun k => a k c) i). rewrite (one_minus_vec RT w m _ i n (fun k => a k c) Hi U_range). unfold Pis. rewrite (a_diag i Hi), (Hdiag i Hi). destruct (Z.eqb_spec i c) as [E|]; [rewrite <- E, (a_diag i Hi), (Hdiag i Hi)|]; ring.
Qed.
Lemma bis_unit i : 0 <= i < n -> bis i = mat_vec 0 n M (znth s0 b) i.
Proof using RT HA Hsq Hdiag. intros Hi. rewrite (one_minus_vec RT w m _ i n (znth s0 b) Hi U_range). unfold bis. rewrite (a_diag i Hi), (Hdiag i Hi). ring. Qed.
(** I - alpha S is unit upper triangular *)
Lemma M_diag i : M i i = s1.
Proof using RT HA. unfold one_minus_s. rewrite Z.eqb_refl. rewrite coef_zero; [ring|]. intros e He E1 E2. apply lead_in in He. destruct HA as (_ & _ & _ & _ & _ & _ & _ & H & _). specialize (H e (proj1 He)). lia. Qed.
Lemma M_low i c : c < i -> M i c = s0.
Proof using RT HA. intros Hc. unfold one_minus_s. destruct (Z.eqb_spec i c); [lia|]. rewrite coef_zero; [ring|]. intros e He E1 E2. apply lead_in in He. destruct HA as (_ & _ & _ & _ & _ & _ & _ & H & _). specialize (H e (proj1 He)). lia. Qed.
Lemma M_inj (z : Z -> T) : (forall i, 0 <= i < n -> mat_vec 0 n M z i = s0) -> forall i, 0 <= i < n -> z i = s0.
Proof using RT HA.
  intros H. assert (G : forall k : nat, forall i, 0 <= i < n -> n - Z.of_nat k <= i -> z i = s0).
  { induction k as [|k IH]; intros i Hi Hk; [lia|]. specialize (H i Hi). unfold mat_vec in H. rewrite (sum_one RT _ 0 n i Hi) in H.
    - rewrite M_diag in H. rewrite <- H. ring.
    - intros q Hq Hne. destruct (Z.lt_ge_cases q i); [rewrite M_low by auto; ring|]. rewrite (IH q) by lia. ring. }
  intros i Hi. apply (G (Z.to_nat n) i Hi). lia.
Qed.
Lemma same_solutions (x : Z -> T) : (forall i, 0 <= i < n -> mat_vec 0 n Pis x i = bis i) <-> (forall i, 0 <= i < n -> mat_vec 0 n a x i = znth s0 b i).
Proof using RT HA Hsq Hdiag.
  assert (E : forall i, 0 <= i < n -> ssub (mat_vec 0 n Pis x i) (bis i) = mat_vec 0 n M (fun k => ssub (mat_vec 0 n a x k) (znth s0 b k)) i).
  { intros i Hi. rewrite (AddsProof.mv_sub RT). rewrite <- (bis_unit i Hi). f_equal. rewrite <- (AddsProof.mv_mm RT). apply AddsProof.mv_extM. intros c Hc. apply Pis_unit; auto. }
  split; intros H i Hi.
  - assert (Z0 : ssub (mat_vec 0 n a x i) (znth s0 b i) = s0).
    { apply (M_inj (fun k => ssub (mat_vec 0 n a x k) (znth s0 b k))); auto. intros q Hq. rewrite <- (E q Hq), (H q Hq). ring. }
    replace (mat_vec 0 n a x i) with (sadd (ssub (mat_vec 0 n a x i) (znth s0 b i)) (znth s0 b i)) by ring. rewrite Z0. ring.
  - assert (Z0 : ssub (mat_vec 0 n Pis x i) (bis i) = s0).
    { rewrite (E i Hi). unfold mat_vec at 1. apply (sum_zero RT). intros q Hq. rewrite (H q Hq). ring. }
    replace (mat_vec 0 n Pis x i) with (sadd (ssub (mat_vec 0 n Pis x i) (bis i)) (bis i)) by ring. rewrite Z0. ring.
Qed.
End P.
