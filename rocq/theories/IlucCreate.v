(** The Crout factorisation of a split matrix. *)
Require Import ZArith List Bool Lia Ring Permutation.
From Verif Require IspCreate IlutFinal Items Fmt.
From Verif Require Import Base Scalar Spec SpecSplit SpecIlu SpecIluc Sort SortProof ConvFinal Csc Split SplitProof DiagProof2 Ilu IluProof IluProof2 Ilut IlutRow SainvMath SainvStep Iluc IlucLists IlucAcc IlucElim IlucDrop IlucStep.
Import ListNotations.
Open Scope Z_scope.

Section P.
Context {T : Type} {S : Scalar T}.
Hypothesis RT : is_ring S.
Let RT' : @ring_theory T s0 s1 sadd smul ssub sopp (@eq T) := RT.
Add Ring TrIlucC : RT'.
Hypothesis Hswo : strict_weak_order (sltb (T:=T)).

Lemma csr_input (B : csr T) n : csr_ok B -> csr_n B = n -> csr_np B = n -> strictly_upper (csr_entries B) -> no_dup_pos (csr_entries B) ->
  input n (csr_ptr B) (csr_index B) (csr_value B).
Proof using.
  intros HB Hn Hnp HU HD k Hk. pose proof HB as ((P0 & P1 & P2 & P3) & H1 & H2 & H3 & H4 & H5).
  assert (Hp : forall j, znth 0 (csr_ptr B) k <= j < znth 0 (csr_ptr B) (k + 1) -> 0 <= j < csr_nnz B) by (intros j Hj; apply (csr_pos B k); auto; lia).
  assert (Hlast : znth 0 (csr_ptr B) (k + 1) <= csr_nnz B).
  { rewrite <- H2. apply (Items.ptr_ok_mono (csr_n B) (csr_ptr B) (k + 1) (csr_n B)); [split; auto|lia|lia]. }
  assert (H0 : 0 <= znth 0 (csr_ptr B) k).
  { pose proof (Items.ptr_ok_mono (csr_n B) (csr_ptr B) 0 k ltac:(split; auto) ltac:(lia) ltac:(lia)). lia. }
  split; [lia|]. split; [split; [exact H0|apply P3; lia]|]. split; [lia|]. split; [lia|]. split.
  - intros j Hj. specialize (H5 j (Hp j Hj)). split; [|lia].
    assert (HI : In (k, znth 0 (csr_index B) j, znth s0 (csr_value B) j) (csr_entries B)).
    { unfold csr_entries. apply in_flat_map. exists k. split; [apply In_zrange; lia|]. apply in_map_iff. exists j. split; [reflexivity|]. apply In_zrange. exact Hj. }
    exact (HU _ HI).
  - intros a b Ha Hb E. apply (csr_pos_unique B k); auto. lia.
Qed.

Definition swp (e : entry T) : entry T := (ecol e, erow e, eval e).
Definition csc_as_csr (B : csc T) : csr T := mkCsr (csc_np B) (csc_n B) (csc_nnz B) (csc_ptr B) (csc_index B) (csc_value B).
Lemma csc_as_csr_entries (B : csc T) : csr_entries (csc_as_csr B) = map swp (csc_entries B).
Proof using. unfold csr_entries, csc_entries, csc_as_csr. cbn [csr_n csr_ptr csr_index csr_value]. rewrite !flat_map_concat_map, concat_map, map_map. f_equal. apply map_ext. intros c. rewrite map_map. reflexivity. Qed.


Lemma create_iluc_wp J JV tol gamma lfil (A : split T) : split_ok A -> sp_np A = sp_n A -> no_dup_pos (csr_entries (sp_L A)) -> no_dup_pos (csr_entries (sp_U A)) -> 0 <= lfil ->
  let n := sp_n A in let a := coef (split_entries A) in
  wp (create_iluc J JV tol gamma lfil A) (fun F =>
    zlen (fa_L F) = n /\ zlen (fa_Lv F) = n /\ zlen (fa_U F) = n /\ zlen (fa_Uv F) = n /\ zlen (fa_D F) = n /\
    exists d, forall k, 0 <= k < n -> znth s0 (fa_D F) k = sdiv s1 (d k) /\ crout_step n lfil tol gamma a (fa_L F) (fa_Lv F) (fa_U F) (fa_Uv F) d k).
Proof.
  intros HA Hsq HDL HDU Hlf n a. pose proof HA as (L1 & L2 & L3 & L4 & U1 & U2 & U3 & U4 & D1).
  assert (Hn0 : 0 <= n). { destruct U1 as ((P & _) & _). rewrite U2 in P. exact P. }
  unfold create_iluc. fold n. apply wp_bind.
  destruct (csr2csc_final (J 1) (J 2) (J 3) (JV 1) (sp_L A) L1) as (AL & EAL & C1 & C2 & C3 & C4 & C5 & _). rewrite EAL. apply wp_ok.
  assert (IU : input n (csr_ptr (sp_U A)) (csr_index (sp_U A)) (csr_value (sp_U A))) by (apply csr_input; auto; unfold n; lia).
  assert (IL : input n (csc_ptr AL) (csc_index AL) (csc_value AL)).
  { change (input n (csr_ptr (csc_as_csr AL)) (csr_index (csc_as_csr AL)) (csr_value (csc_as_csr AL))). apply csr_input.
    - destruct C1 as (Q1 & Q2 & Q3 & Q4 & Q5 & Q6). unfold csr_ok, csc_as_csr. cbn [csr_n csr_np csr_nnz csr_ptr csr_index csr_value]. split; [exact Q1|]. split; [lia|]. auto.
    - cbn. unfold n. lia.
    - cbn. unfold n. lia.
    - intros e He. rewrite csc_as_csr_entries in He. apply in_map_iff in He as (e' & <- & He). unfold swp, erow, ecol. cbn [fst snd].
      apply L4. eapply Permutation_in; [exact C5|exact He].
    - unfold no_dup_pos in *. rewrite csc_as_csr_entries, map_map. unfold swp. cbn [fst].
      assert (EM : forall l : list (entry T), map (fun x => (ecol x, erow x)) l = map (fun p : Z * Z => (snd p, fst p)) (map fst l)) by (intros l; rewrite map_map; reflexivity).
      rewrite EM. apply FinFun.Injective_map_NoDup; [intros [x1 x2] [y1 y2] E; cbn in E; congruence|].
      eapply Permutation_NoDup; [apply Permutation_map; symmetry; exact C5|exact HDL]. }
  wbind. apply (for_wp' (fun i q => let '(D, zl, wl, zc, wc) := q in zlen D = n /\ zlen zl = n /\ zlen wl = n /\ zlen zc = n /\ zlen wc = n /\
     forall j, 0 <= j < i -> znth s0 D j = smul gamma (znth s0 (sp_D A) j) /\ znth 0 zl j = -1 /\ znth 0 wl j = -1 /\ znth 0 zc j = 0 /\ znth 0 wc j = 0)).
  { exact Hn0. }
  { rewrite !zlen_alloc by lia. do 5 (split; [reflexivity|]). intros; lia. }
  { intros i [[[[D zl] wl] zc] wc] Hi (E1 & E2 & E3 & E4 & E5 & E6). wrd s0; [unfold n in *; lia|]. wwr; [lia|]. wwr; [lia|]. wwr; [lia|]. wwr; [lia|]. wwr; [lia|]. apply wp_ok.
    rewrite !zlen_zupd. do 5 (split; [assumption|]). intros j Hj. destruct (Z.eq_dec j i) as [->|N]; [rewrite !znth_zupd_eq by lia; auto|rewrite !znth_zupd_neq by lia; apply E6; lia]. }
  intros [[[[D zl] wl] zc] wc] (E1 & E2 & E3 & E4 & E5 & E6). cbv zeta. wbind.
  set (aU := line (csr_ptr (sp_U A)) (csr_index (sp_U A)) (csr_value (sp_U A))). set (aL := line (csc_ptr AL) (csc_index AL) (csc_value AL)).
  set (aD := fun j => smul gamma (znth s0 (sp_D A) j)).
  apply (for_wp' (fun k q => inv n lfil tol aU aL aD k q)).
  { exact Hn0. }
  { unfold inv. cbn [c_L c_Lv c_U c_Uv c_D c_z c_w c_zl c_wl c_tmp w_c]. unfold math, wok. cbn [w_v w_ix w_c]. rewrite !zlen_alloc by lia.
    assert (LI : forall pc pl, zlen pc = n -> zlen pl = n -> (forall j, 0 <= j < n -> znth 0 pl j = -1) -> lists n 0 (0 - 1) (alloc n (fun _ => [])) pc pl []).
    { intros pc pl H1 H2 H3. split; [exact H1|]. split; [exact H2|]. split; [intros; lia|]. split; [constructor|]. split; [intros i []|]. exists (fun _ => []). intros j Hj. cbn [chain].
      split; [rewrite H3 by lia; lia|]. split; [constructor|]. intros i. split; [intros []|intros (? & _); lia]. }
    split; [|split; [|split; [|split; [|split; [|reflexivity]]]]].
    - do 4 (split; [reflexivity|]). split; [exact E1|]. split; [intros; lia|]. intros j Hj. destruct (E6 j Hj) as (-> & _). unfold df. rewrite zrange_empty by lia. cbn [map ssum]. unfold aD. ring.
    - do 2 (split; [reflexivity|]). split; [exact E4|]. intros j Hj. apply E6. exact Hj.
    - do 2 (split; [reflexivity|]). split; [exact E5|]. intros j Hj. apply E6. exact Hj.
    - apply LI; auto. intros j Hj. apply E6. exact Hj.
    - apply LI; auto. intros j Hj. apply E6. exact Hj. }
  { intros k q Hk HI. apply (iluc_step_wp RT Hswo n lfil tol aU aL aD); auto. }
  intros q (HM & _). apply wp_ok. cbn [fa_L fa_Lv fa_U fa_Uv fa_D].
  destruct HM as (M1 & M2 & M3 & M4 & M5 & M6 & _). do 5 (split; [assumption|]).
  set (Lx := c_L q) in *. set (Lv := c_Lv q) in *. set (Ux := c_U q) in *. set (Uv := c_Uv q) in *.
  (* the input functions are the matrix *)
  assert (EU : forall k j, 0 <= k < n -> k < j -> aU k j = a k j).
  { intros k j Hk Hj. unfold aU, a. rewrite <- (csr_line RT (sp_U A) k j) by lia. rewrite (IspCreate.split_coef RT) by exact Hk. rewrite (IspCreate.low_zero RT A) by (auto; lia).
    destruct (Z.eqb_spec k j); [lia|]. ring. }
  assert (EL : forall k j, 0 <= k < n -> k < j < n -> aL k j = a j k).
  { intros k j Hk Hj. unfold aL, a. rewrite <- (csc_line RT AL j k) by lia. rewrite (Fmt.coef_perm RT _ _ j k C5). rewrite (IspCreate.split_coef RT) by (fold n; lia). rewrite (IspCreate.up_zero RT A) by (auto; lia).
    destruct (Z.eqb_spec j k); [lia|]. ring. }
  assert (ED : forall k, 0 <= k < n -> aD k = smul gamma (a k k)).
  { intros k Hk. unfold aD, a. rewrite (IspCreate.split_coef RT) by exact Hk. rewrite (IspCreate.up_zero RT A), (IspCreate.low_zero RT A), Z.eqb_refl by (auto; lia). f_equal. ring. }
  set (red := reduced a (unit_lower_c Lx Lv) (upper_r Ux Uv)).
  assert (ZR : forall k j, 0 <= k < n -> k < j < n -> zf aU Lx Lv Ux Uv k j = red k k j).
  { intros k j Hk Hj. unfold zf, red, reduced. rewrite EU by lia. f_equal. apply sum_ext. intros t Ht. unfold unit_lower_c, upper_r, fel. destruct (Z.eqb_spec t k); [lia|reflexivity]. }
  assert (WR : forall k j, 0 <= k < n -> k < j < n -> wf aL Lx Lv Ux Uv k j = red k j k).
  { intros k j Hk Hj. unfold wf, red, reduced. rewrite EL by lia. f_equal. apply sum_ext. intros t Ht. unfold unit_lower_c, upper_r, fel. destruct (Z.eqb_spec t j); [lia|]. apply (Rmul_comm RT). }
  exists (fun k => df aU aL aD Lx Lv Ux Uv (c_D q) k k). intros k Hk. destruct (M6 k Hk) as (F1 & F2 & F3). split; [exact F1|].
  assert (KP : forall f g ix v, rowspec n lfil k (smul (sabs (df aU aL aD Lx Lv Ux Uv (c_D q) k k)) tol) f g ix v -> kept lfil k n (smul (sabs (df aU aL aD Lx Lv Ux Uv (c_D q) k k)) tol) f ix /\ v = map (fun c => g (f c)) ix).
  { intros f g ix v (R1 & R2 & R3 & R4 & R5). split; [|exact R2].
    assert (BG : forall c, big (smul (sabs (df aU aL aD Lx Lv Ux Uv (c_D q) k k)) tol) f c = true <-> sleb (sabs (f c)) (smul (sabs (df aU aL aD Lx Lv Ux Uv (c_D q) k k)) tol) = false).
    { intros c. unfold big, sltb. apply negb_true_iff. }
    split; [apply IlutFinal.increasing_NoDup; exact R1|]. split; [exact R3|]. split.
    - intros c Hc. destruct (R4 c Hc) as (G1 & G2). split; [exact G1|]. apply BG. exact G2.
    - intros Hl c Hc H1 H2. apply R5; auto. apply BG. exact H2. }
  assert (KE : forall thr f f' ix, (forall c, k < c < n -> f c = f' c) -> kept lfil k n thr f ix -> kept lfil k n thr f' ix).
  { intros thr f f' ix H (R1 & R2 & R3 & R4). split; [exact R1|]. split; [exact R2|]. split.
    - intros c Hc. destruct (R3 c Hc) as (G1 & G2). split; [exact G1|]. rewrite <- H by exact G1. exact G2.
    - intros Hl c Hc H1 H2. apply R4; auto; rewrite H by exact Hc; assumption. }
  destruct (KP _ _ _ _ F2) as (K1 & V1). destruct (KP _ _ _ _ F3) as (K2 & V2).
  unfold crout_step. fold red. cbv zeta. split; [|split; [|split; [|split]]].
  - unfold df at 1. rewrite ED by exact Hk. f_equal. apply sum_ext. intros m Hm. rewrite ZR, WR by lia. destruct (M6 m ltac:(lia)) as (-> & _). reflexivity.
  - eapply KE; [|exact K1]. intros c Hc. apply ZR; lia.
  - rewrite V1. apply map_ext_in. intros c Hc. apply ZR; [exact Hk|]. apply K1. exact Hc.
  - eapply KE; [|exact K2]. intros c Hc. apply WR; lia.
  - rewrite V2. apply map_ext_in. intros c Hc. rewrite WR; [rewrite F1; reflexivity|exact Hk|]. apply K2. exact Hc.
Qed.
End P.
