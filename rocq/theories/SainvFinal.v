(** SAINV: applying the preconditioner, and the final statements. *)
Require Import ZArith List Bool Lia Ring Field Reals Lra.
From Verif Require Import Base Items Scalar ScalarReal Spec SpecIlu SpecIlut SpecSainv SainvMath Csc Sainv SainvRow SainvStep SainvLoop.
Import ListNotations.
Open Scope Z_scope.

Section P.
Context {T : Type} {S : Scalar T}.
Hypothesis RT : is_ring S.
Let RT' : @ring_theory T s0 s1 sadd smul ssub sopp (@eq T) := RT.
Add Ring TrSaiF : RT'.

Lemma rat_sum_f (h : T -> T) (g : Z -> T) n nz ix v : h s0 = s0 -> distinct nz ix -> (forall k, 0 <= k < nz -> 0 <= znth 0 ix k < n) ->
  ssum (map (fun k => smul (h (znth s0 v k)) (g (znth 0 ix k))) (zrange 0 nz)) = ssum (map (fun c => smul (h (rat nz ix v c)) (g c)) (zrange 0 n)).
Proof.
  intros Hh Hd Hr. symmetry. rewrite (ssum_map_ext _ (fun c => ssum (map (fun k => if znth 0 ix k =? c then smul (h (znth s0 v k)) (g c) else s0) (zrange 0 nz)))).
  - rewrite (ssum_exchange RT). apply sum_ext. intros k Hk. rewrite (sum_one RT _ 0 n (znth 0 ix k)); [rewrite Z.eqb_refl; auto|auto|].
    intros q _ Hne. destruct (Z.eqb_spec (znth 0 ix k) q); auto. congruence.
  - intros c _. rewrite <- (rat_map RT nz ix v h c Hd Hh). rewrite <- (ssum_map_mul_r RT). apply ssum_map_ext. intros k _. destruct (znth 0 ix k =? c); ring.
Qed.

Section V.
Variable n np : Z.
Hypothesis Hnp : 0 <= n <= np.
Hypothesis Hc0 : sconj s0 = s0 :> T.
Lemma matvech_wp (M : ilum T) (b y : list T) : mok n M -> n <= zlen b -> zlen y = np ->
  wp (matvech_ilu n M b y) (fun y' => zlen y' = np /\ forall i, 0 <= i < n -> znth s0 y' i = ssum (map (fun c => smul (sconj (at_ M i c)) (znth s0 b c)) (zrange 0 n))).
Proof using RT Hnp Hc0.
  intros HM Hb Hy. pose proof HM as [[L1 [L2 [L3 L4]]] HR]. unfold matvech_ilu.
  apply (for_wp' (fun q y => zlen y = np /\ forall i, 0 <= i < q -> znth s0 y i = ssum (map (fun c => smul (sconj (at_ M i c)) (znth s0 b c)) (zrange 0 n)))); [lia| | |].
  - split; [auto|intros; lia].
  - intros i z Hi [Hz H]. specialize (HR i Hi). unfold getrow, rowok in HR. destruct HR as [Rn [Ri [Rv [Rr Rd]]]]. wrd 0; [lia|]. apply wp_bind.
    set (nz := znth 0 (m_nnz M) i) in *. set (ix := znth [] (m_ix M) i) in *. set (v := znth [] (m_v M) i) in *.
    apply (for_wp' (fun k t => t = ssum (map (fun k => smul (sconj (znth s0 v k)) (znth s0 b (znth 0 ix k))) (zrange 0 k)))); [lia| | |].
    + reflexivity.
    + intros k t Hk ->. apply (wp_rd2 0); [lia|fold ix; lia|]. apply (wp_rd2 s0); [lia|fold v; lia|]. fold ix v. pose proof (Rr k Hk). wrd s0; [lia|]. cbn [wp]. rewrite zrange_snoc by lia. rewrite map_app, (ssum_app RT). cbn [map ssum]. ring.
    + intros t ->. rewrite wr_ok by lia. cbn [wp]. split; [len|]. intros c Hc. rewrite znth_zupd by lia. destruct (Z.eqb_spec c i) as [->|]; [|apply H; lia].
      rewrite (rat_sum_f sconj (znth s0 b) n nz ix v) by (auto; intros k Hk; specialize (Rr k Hk); lia). reflexivity.
  - intros z H. exact H.
Qed.
Lemma matvec_wp (M : ilum T) (x y : list T) : mok n M -> n <= zlen x -> zlen y = np ->
  wp (matvec_ilu n np M x y) (fun y' => zlen y' = np /\ forall c, 0 <= c < np -> znth s0 y' c = ssum (map (fun i => smul (at_ M i c) (znth s0 x i)) (zrange 0 n))).
Proof using RT Hnp.
  intros HM Hx Hy. pose proof HM as [[L1 [L2 [L3 L4]]] HR]. unfold matvec_ilu. apply wp_bind.
  apply (for_wp' (fun q y => zlen y = np /\ forall c, 0 <= c < q -> znth s0 y c = s0)); [lia| | |].
  - split; [auto|intros; lia].
  - intros i z Hi [Hz H]. rewrite wr_ok by lia. cbn [wp]. split; [len|]. intros c Hc. rewrite znth_zupd by lia. destruct (Z.eqb_spec c i); auto. apply H; lia.
  - intros y1 [Hy1 H0]. apply (for_wp' (fun q y => zlen y = np /\ forall c, 0 <= c < np -> znth s0 y c = ssum (map (fun i => smul (at_ M i c) (znth s0 x i)) (zrange 0 q)))); [lia| | |].
    + split; [auto|]. intros c Hc. rewrite H0 by auto. reflexivity.
    + intros i z Hi [Hz H]. specialize (HR i Hi). unfold getrow, rowok in HR. destruct HR as [Rn [Ri [Rv [Rr Rd]]]]. wrd 0; [lia|].
      set (nz := znth 0 (m_nnz M) i) in *. set (ix := znth [] (m_ix M) i) in *. set (v := znth [] (m_v M) i) in *.
      apply (for_wp' (fun k y => zlen y = np /\ forall c, 0 <= c < np -> znth s0 y c = sadd (znth s0 z c) (smul (ssum (map (fun k => if znth 0 ix k =? c then znth s0 v k else s0) (zrange 0 k))) (znth s0 x i)))); [lia| | |].
      * split; [auto|]. intros c Hc. cbn. ring.
      * intros k w Hk [Hw Hv]. apply (wp_rd2 0); [lia|fold ix; lia|]. apply (wp_rd2 s0); [lia|fold v; lia|]. fold ix v. pose proof (Rr k Hk). wrd s0; [lia|]. wrd s0; [lia|]. rewrite wr_ok by lia. cbn [wp]. split; [len|].
        intros c Hc. rewrite znth_zupd by lia. rewrite zrange_snoc by lia. rewrite map_app, (ssum_app RT). cbn [map ssum]. rewrite (Z.eqb_sym (znth 0 ix k) c). destruct (Z.eqb_spec c (znth 0 ix k)) as [->|]; [rewrite (Hv (znth 0 ix k)) by lia; ring|rewrite Hv by auto; ring].
      * intros w [Hw Hv]. split; [auto|]. intros c Hc. rewrite Hv by auto. rewrite H by auto. rewrite zrange_snoc by lia. rewrite map_app, (ssum_app RT). cbn [map ssum].
        change (ssum (map (fun k => if znth 0 ix k =? c then znth s0 v k else s0) (zrange 0 nz))) with (at_ M i c). ring.
    + intros w H. exact H.
Qed.

Lemma scale_wp (g : T -> T) (x d t : list T) : zlen x = np -> n <= zlen d -> n <= zlen t ->
  wp (for_ 0 n (fun i t => xv <- rd x i ;; dv <- rd d i ;; wr t i (smul xv (g dv))) t) (fun t' => n <= zlen t' /\ forall i, 0 <= i < n -> znth s0 t' i = smul (znth s0 x i) (g (znth s0 d i))).
Proof using RT Hnp.
  intros Hx Hd Ht. apply (for_wp' (fun q t => n <= zlen t /\ forall i, 0 <= i < q -> znth s0 t i = smul (znth s0 x i) (g (znth s0 d i)))); [lia| | |].
  - split; [auto|intros; lia].
  - intros i z Hi [Hz H]. wrd s0; [lia|]. wrd s0; [lia|]. rewrite wr_ok by lia. cbn [wp]. split; [len|]. intros c Hc. rewrite znth_zupd by lia. destruct (Z.eqb_spec c i) as [->|]; auto. apply H; lia.
  - intros z H. exact H.
Qed.

Hypothesis Hcadd : forall x y : T, sconj (sadd x y) = sadd (sconj x) (sconj y).
Hypothesis Hcmul : forall x y : T, sconj (smul x y) = smul (sconj x) (sconj y).
Hypothesis Hcc : forall x : T, sconj (sconj x) = x.
Lemma conj_sum {A} (f : A -> T) l : sconj (ssum (map f l)) = ssum (map (fun x => sconj (f x)) l).
Proof using Hc0 Hcadd. induction l as [|x l IH]; cbn [map ssum]; [auto|]. rewrite Hcadd, IH. auto. Qed.

Lemma psolve_wp (W Z_ : ilum T) (d b x t : list T) : mok n W -> mok n Z_ -> n <= zlen d -> n <= zlen b -> zlen x = np -> n <= zlen t ->
  wp (psolve_sainv n np W Z_ d b x t) (fun y => zlen y = np /\ forall c, 0 <= c < np -> znth s0 y c = mat_vec 0 n (sainv_mat n (at_ W) (at_ Z_) (znth s0 d)) (znth s0 b) c).
Proof using RT Hnp Hc0.
  intros HW HZ Hd Hb Hx Ht. unfold psolve_sainv. apply wp_bind. eapply wp_mono; [apply (matvech_wp W b x); auto|]. intros x1 [Hx1 E1].
  apply wp_bind. eapply wp_mono; [apply (scale_wp (fun v => v) x1 d t); auto|]. intros t1 [Ht1 E2].
  eapply wp_mono; [apply (matvec_wp Z_ t1 x1); auto|]. intros y [Hy E3]. split; [auto|]. intros c Hc. rewrite E3 by auto. unfold mat_vec, sainv_mat.
  rewrite (ssum_map_ext (fun j => smul (ssum (map (fun i => smul (smul (at_ Z_ i c) (znth s0 d i)) (sconj (at_ W i j))) (zrange 0 n))) (znth s0 b j)) (fun j => ssum (map (fun i => smul (smul (smul (at_ Z_ i c) (znth s0 d i)) (sconj (at_ W i j))) (znth s0 b j)) (zrange 0 n)))) by (intros; rewrite (ssum_map_mul_r RT); auto).
  rewrite (ssum_exchange RT). apply sum_ext. intros i Hi. rewrite E2, E1 by auto.
  transitivity (smul (smul (at_ Z_ i c) (znth s0 d i)) (ssum (map (fun c0 => smul (sconj (at_ W i c0)) (znth s0 b c0)) (zrange 0 n)))); [ring|]. rewrite <- (ssum_map_mul_l RT). apply ssum_map_ext. intros; ring.
Qed.
Lemma psolveh_wp (W Z_ : ilum T) (d b x t : list T) : mok n W -> mok n Z_ -> n <= zlen d -> n <= zlen b -> zlen x = np -> n <= zlen t ->
  wp (psolveh_sainv n np W Z_ d b x t) (fun y => zlen y = np /\ forall c, 0 <= c < np -> znth s0 y c = mat_vech 0 n (sainv_mat n (at_ W) (at_ Z_) (znth s0 d)) (znth s0 b) c).
Proof using RT Hnp Hc0 Hcadd Hcmul Hcc.
  intros HW HZ Hd Hb Hx Ht. unfold psolveh_sainv. apply wp_bind. eapply wp_mono; [apply (matvech_wp Z_ b x); auto|]. intros x1 [Hx1 E1].
  apply wp_bind. eapply wp_mono; [apply (scale_wp sconj x1 d t); auto|]. intros t1 [Ht1 E2].
  eapply wp_mono; [apply (matvec_wp W t1 x1); auto|]. intros y [Hy E3]. split; [auto|]. intros c Hc. rewrite E3 by auto. unfold mat_vech, sainv_mat.
  rewrite (ssum_map_ext (fun j => smul (sconj (ssum (map (fun i => smul (smul (at_ Z_ i j) (znth s0 d i)) (sconj (at_ W i c))) (zrange 0 n)))) (znth s0 b j)) (fun j => ssum (map (fun i => smul (smul (smul (sconj (at_ Z_ i j)) (sconj (znth s0 d i))) (at_ W i c)) (znth s0 b j)) (zrange 0 n)))).
  - rewrite (ssum_exchange RT). apply sum_ext. intros i Hi. rewrite E2, E1 by auto.
    transitivity (smul (smul (at_ W i c) (sconj (znth s0 d i))) (ssum (map (fun c0 => smul (sconj (at_ Z_ i c0)) (znth s0 b c0)) (zrange 0 n)))); [ring|]. rewrite <- (ssum_map_mul_l RT). apply ssum_map_ext. intros; ring.
  - intros j _. rewrite conj_sum, <- (ssum_map_mul_r RT). apply ssum_map_ext. intros i _. rewrite !Hcmul, Hcc. ring.
Qed.
End V.

Lemma mok_rows n (M : ilum T) : mok n M -> rows_ok n (m_nnz M) (m_ix M) (m_v M).
Proof using.
  intros [[L1 [L2 [L3 L4]]] HR]. split; [auto|]. split; [auto|]. split; [auto|]. intros i Hi. specialize (HR i Hi). unfold getrow, rowok in HR. destruct HR as [Rn [Ri [Rv [Rr Rd]]]]. rewrite Ri, Rv. split; [auto|]. split; [auto|]. split; auto.
Qed.

Lemma keep0 tol (m : Z -> T) i : keep_above tol m i s0 = s0.
Proof using. unfold keep_above. destruct (sleb _ tol); auto. Qed.

Lemma sainv_final jp jc ji jv tol (A : csr T) : conj_ok S -> total_order S -> csr_ok A -> 10 <= csr_n A ->
  exists W Z_ d m, create_sainv jp jc ji jv tol A = Ok (W, Z_, d) /\
    let n := csr_n A in let np := csr_np A in
    let w := rows_at (m_nnz W) (m_ix W) (m_v W) in let z := rows_at (m_nnz Z_) (m_ix Z_) (m_v Z_) in
    rows_ok n (m_nnz W) (m_ix W) (m_v W) /\ rows_ok n (m_nnz Z_) (m_ix Z_) (m_v Z_) /\ zlen d = np /\
    (forall i, 0 <= i < n -> row_max (csr_entries A) i (m i)) /\
    biconjugation (keep_above tol m) n (coef (csr_entries A)) w z (znth s0 d) /\
    (forall j c, 0 <= j < n -> j <= c < n -> w j c = delta j c /\ z j c = delta j c) /\
    forall b x t, n <= zlen b -> zlen x = np -> n <= zlen t ->
      (exists y, psolve_sainv n np W Z_ d b x t = Ok y /\ zlen y = np /\ forall c, 0 <= c < np -> znth s0 y c = mat_vec 0 n (sainv_mat n w z (znth s0 d)) (znth s0 b) c) /\
      (exists y, psolveh_sainv n np W Z_ d b x t = Ok y /\ zlen y = np /\ forall c, 0 <= c < np -> znth s0 y c = mat_vech 0 n (sainv_mat n w z (znth s0 d)) (znth s0 b) c).
Proof using RT.
  intros HC HO HA Hn. pose proof (create_wp RT jp jc ji jv tol A HA Hn) as H. destruct (create_sainv jp jc ji jv tol A) as [[[W Z_] d]| |] eqn:E; try contradiction. cbn [wp] in H.
  destruct H as [HW [HZ [Hd HB]]]. assert (Hnp : 0 <= csr_n A <= csr_np A) by (destruct HA as [_ [H _]]; lia).
  destruct HC as [C1 [C2 [C3 [C4 _]]]].
  exists W, Z_, d, (rmx A). split; [reflexivity|]. cbv zeta. split; [apply mok_rows; auto|]. split; [apply mok_rows; auto|]. split; [auto|].
  split; [intros i Hi; apply rmx_ok; auto|]. split; [exact HB|]. split.
  - intros j c Hj Hc. split; [apply (biconj_unit RT (csr_n A) (keep_above tol (rmx A)) (coef (csr_entries A)) _ (at_ Z_) (znth s0 d)); auto; intros; apply keep0|].
    apply (biconj_unit RT (csr_n A) (keep_above tol (rmx A)) (tr (coef (csr_entries A))) _ (at_ W) (znth s0 d)); auto; [intros; apply keep0|]. apply (biconj_tr RT). exact HB.
  - intros b x t Hb Hx Ht. split.
    + pose proof (psolve_wp (csr_n A) (csr_np A) Hnp C4 W Z_ d b x t HW HZ ltac:(lia) Hb Hx Ht) as G. destruct (psolve_sainv _ _ _ _ _ _ _ _) as [y| |]; try contradiction. exists y. split; [auto|exact G].
    + pose proof (psolveh_wp (csr_n A) (csr_np A) Hnp C4 C1 C2 C3 W Z_ d b x t HW HZ ltac:(lia) Hb Hx Ht) as G. destruct (psolveh_sainv _ _ _ _ _ _ _ _) as [y| |]; try contradiction. exists y. split; [auto|exact G].
Qed.

(** nothing dropped: the preconditioner is the inverse *)
Lemma biconj_ext_keep n (a W Z_ : Z -> Z -> T) d keep : (forall i t, 0 <= i < n -> keep i t = t) -> biconjugation keep n a W Z_ d -> biconjugation (fun _ t => t) n a W Z_ d.
Proof using.
  intros Hk H j Hj. destruct (H j Hj) as [Hd Hr]. split; [auto|]. intros c Hc. destruct (Hr c Hc) as [H1 H2]. rewrite H1, H2 at 1. split; (f_equal; apply ssum_map_ext; intros i Hi; apply In_zrange in Hi; apply Hk; lia).
Qed.
Lemma sainv_mat_apply n (W Z_ : Z -> Z -> T) d (b : Z -> T) c : (forall x : T, sconj x = x) ->
  mat_vec 0 n (sainv_mat n W Z_ d) b c = ssum (map (fun i => smul (Z_ i c) (smul (d i) (ssum (map (fun k => smul (W i k) (b k)) (zrange 0 n))))) (zrange 0 n)).
Proof using RT.
  intros Hc. unfold mat_vec, sainv_mat.
  rewrite (ssum_map_ext _ (fun j => ssum (map (fun i => smul (smul (smul (Z_ i c) (d i)) (sconj (W i j))) (b j)) (zrange 0 n)))) by (intros; rewrite (ssum_map_mul_r RT); auto).
  rewrite (ssum_exchange RT). apply ssum_map_ext. intros i _. rewrite <- (ssum_map_mul_l RT). rewrite <- (ssum_map_mul_l RT). apply ssum_map_ext. intros k _. rewrite Hc. ring.
Qed.
Lemma sainv_mat_h n (W Z_ : Z -> Z -> T) d (b : Z -> T) c : (forall x : T, sconj x = x) ->
  mat_vech 0 n (sainv_mat n W Z_ d) b c = mat_vec 0 n (sainv_mat n Z_ W d) b c.
Proof using RT. intros Hc. unfold mat_vec, mat_vech, sainv_mat. apply ssum_map_ext. intros j _. rewrite Hc. f_equal. apply ssum_map_ext. intros i _. rewrite !Hc. ring. Qed.
Lemma sainv_exact n (a W Z_ : Z -> Z -> T) d keep (b : Z -> T) : is_field S -> (forall x : T, sconj x = x) -> (forall i t, 0 <= i < n -> keep i t = t) -> biconjugation keep n a W Z_ d ->
  (forall i, 0 <= i < n -> bilinear n a (W i) (Z_ i) <> s0) -> forall y,
  ((forall c, 0 <= c < n -> y c = mat_vec 0 n (sainv_mat n W Z_ d) b c) -> forall r, 0 <= r < n -> mat_vec 0 n a y r = b r) /\
  ((forall c, 0 <= c < n -> y c = mat_vech 0 n (sainv_mat n W Z_ d) b c) -> forall r, 0 <= r < n -> mat_vech 0 n a y r = b r).
Proof using RT.
  intros FD Hc Hk HB Hp y. apply biconj_ext_keep in HB; [|auto]. split; intros Hy r Hr.
  - rewrite <- (biconj_inverse RT n FD a W Z_ d b HB Hp r Hr). unfold mat_vec at 1, right_mul. apply sum_ext. intros c Hcr. rewrite Hy by auto. rewrite sainv_mat_apply by auto. auto.
  - assert (HB' := biconj_tr RT n _ _ _ _ _ HB). assert (Hp' : forall i, 0 <= i < n -> bilinear n (tr a) (Z_ i) (W i) <> s0) by (intros i Hi; rewrite (bil_tr RT); auto).
    rewrite <- (biconj_inverse RT n FD (tr a) Z_ W d b HB' Hp' r Hr). unfold mat_vech at 1, right_mul. apply sum_ext. intros c Hcr. rewrite Hy by auto. rewrite sainv_mat_h by auto. rewrite sainv_mat_apply by auto. rewrite Hc. auto.
Qed.
End P.

(** *** real matrices *)
Local Open Scope R_scope.
Lemma keep_zero_tol (E : list (entry R)) i m (t : R) : row_max E i m -> m <> 0 -> keep_above 0 (fun _ => m) i t = t.
Proof.
  intros [_ [H0 _]] Hm. unfold keep_above. cbn [sleb smul sabs sdiv s0 s1 ScalarR] in *. destruct (Rle_dec 0 m) as [Hle|]; [|discriminate].
  destruct (Rle_dec (Rabs t * (1 / m)) 0) as [H|H]; auto. destruct (Req_dec t 0) as [->|Ht]; auto. exfalso.
  assert (0 < Rabs t) by (apply Rabs_pos_lt; auto). assert (0 < 1 / m) by (apply Rdiv_lt_0_compat; lra). assert (0 < Rabs t * (1 / m)) by (apply Rmult_lt_0_compat; auto). lra.
Qed.

Lemma R_total_order : total_order ScalarR.
Proof.
  split; cbn [sleb ScalarR].
  - intros x y. destruct (Rle_dec x y); [auto|]. destruct (Rle_dec y x); [auto|lra].
  - intros x y z H1 H2. destruct (Rle_dec x y); [|discriminate]. destruct (Rle_dec y z); [|discriminate]. destruct (Rle_dec x z); [auto|lra].
Qed.
Lemma R_conj_ok : conj_ok ScalarR.
Proof. repeat split. Qed.

Lemma row_max_pos (A : csr R) i m : (0 <= i < csr_n A)%Z -> positive_definite (csr_n A) (coef (csr_entries A)) -> row_max (csr_entries A) i m -> m <> 0.
Proof.
  intros Hi Hpd [_ [_ Hm]] ->.
  assert (Hz : forall c, coef (csr_entries A) i c = 0).
  { intros c. rewrite (coef_if ScalarR_ring). rewrite (ssum_map_ext _ (fun _ => 0)). apply (ssum_map_zero ScalarR_ring). intros e He. unfold at_ij. destruct (Z.eqb_spec (erow e) i) as [E|E]; [|reflexivity]. destruct (ecol e =? c)%Z; [|reflexivity].
    cbn [andb]. specialize (Hm e He E). cbn [sleb sabs ScalarR] in Hm. destruct (Rle_dec (Rabs (eval e)) 0) as [H|H]; [|discriminate]. pose proof (Rabs_pos (eval e)). assert (H2 : Rabs (eval e) = 0) by lra. destruct (Req_dec (eval e) 0) as [H3|H3]; [auto|]. apply Rabs_no_R0 in H3. contradiction. }
  specialize (Hpd (fun c => delta i c)). assert (H0 : bilinear (csr_n A) (coef (csr_entries A)) (fun c => delta i c) (fun c => delta i c) = 0).
  { unfold bilinear. rewrite (sum_delta ScalarR_ring (right_mul (csr_n A) (coef (csr_entries A)) (fun c => delta i c)) 0 (csr_n A) i Hi). unfold right_mul. apply (sum_zero ScalarR_ring). intros q _. rewrite Hz. cbn [smul s0 ScalarR]. ring. }
  rewrite H0 in Hpd. assert (0 < 0); [|lra]. apply Hpd. exists i. split; [auto|]. unfold delta. rewrite Z.eqb_refl. cbn. lra.
Qed.

Lemma sainv_real jp jc ji jv (A : csr R) : csr_ok A -> (10 <= csr_n A)%Z -> positive_definite (csr_n A) (coef (csr_entries A)) ->
  exists W Z_ d, create_sainv jp jc ji jv 0 A = Ok (W, Z_, d) /\ forall b x t, (csr_n A <= zlen b)%Z -> zlen x = csr_np A -> (csr_n A <= zlen t)%Z ->
    (exists y, psolve_sainv (csr_n A) (csr_np A) W Z_ d b x t = Ok y /\ forall r, (0 <= r < csr_n A)%Z -> mat_vec 0 (csr_n A) (coef (csr_entries A)) (znth 0 y) r = znth 0 b r) /\
    (exists y, psolveh_sainv (csr_n A) (csr_np A) W Z_ d b x t = Ok y /\ forall r, (0 <= r < csr_n A)%Z -> mat_vech 0 (csr_n A) (coef (csr_entries A)) (znth 0 y) r = znth 0 b r).
Proof.
  intros HA Hn Hpd. destruct (sainv_final ScalarR_ring jp jc ji jv 0 A R_conj_ok R_total_order HA Hn) as [W [Z_ [d [m [E H]]]]]. cbv zeta in H. destruct H as [_ [_ [_ [Hm [HB [_ HS]]]]]].
  exists W, Z_, d. split; [auto|]. intros b x t Hb Hx Ht. destruct (HS b x t Hb Hx Ht) as [[y [Ey [_ Hy]]] [y' [Ey' [_ Hy']]]].
  assert (Hnp : (csr_n A <= csr_np A)%Z) by (destruct HA as [_ [H _]]; exact H).
  assert (Hk : forall i t, (0 <= i < csr_n A)%Z -> keep_above 0 m i t = t).
  { intros i v Hi. exact (keep_zero_tol (csr_entries A) i (m i) v (Hm i Hi) (row_max_pos A i (m i) Hi Hpd (Hm i Hi))). }
  set (w := rows_at (m_nnz W) (m_ix W) (m_v W)) in *. set (z := rows_at (m_nnz Z_) (m_ix Z_) (m_v Z_)) in *.
  assert (Hp : forall i, (0 <= i < csr_n A)%Z -> bilinear (csr_n A) (coef (csr_entries A)) (w i) (z i) <> 0).
  { apply (biconj_pivots ScalarR_ring (csr_n A) ScalarR_field _ w z (znth s0 d)); [exact R1_neq_R0|exact (biconj_ext_keep _ _ _ _ _ _ Hk HB)|]. intros v Hv c Hc. destruct (Req_dec (v c) 0) as [|Hne]; [auto|]. exfalso. assert (0 < bilinear (csr_n A) (coef (csr_entries A)) v v) by (apply Hpd; exists c; auto). rewrite Hv in H. cbn in H. lra. }
  split; [exists y|exists y']; (split; [auto|]); intros r Hr.
  - refine (proj1 (sainv_exact ScalarR_ring _ _ _ _ _ _ (znth s0 b) ScalarR_field (fun _ => eq_refl) Hk HB Hp (znth s0 y)) _ r Hr). intros c Hc. apply Hy. lia.
  - refine (proj2 (sainv_exact ScalarR_ring _ _ _ _ _ _ (znth s0 b) ScalarR_field (fun _ => eq_refl) Hk HB Hp (znth s0 y')) _ r Hr). intros c Hc. apply Hy'. lia.
Qed.

(** n < 10: the very first assignment W->value[0][0] is outside the array *)
Lemma sainv_small {T} {S : Scalar T} jp jc ji jv tol (A : csr T) : csr_ok A -> (0 < csr_n A < 10)%Z -> create_sainv jp jc ji jv tol A = UB.
Proof.
  intros HA Hn. unfold create_sainv. cbv zeta. assert (E0 : (csr_n A / 10 = 0)%Z) by (apply Z.div_small; lia). rewrite E0.
  destruct (ConvFinal.csr2csc_final jp jc jc (jv 0%Z) A HA) as [B [EB _]]. rewrite EB. cbn [bind].
  assert (G : wp (for_ 0 (csr_n A) (fun i ww => wr ww i 0%Z) (alloc (csr_n A) jp)) (fun _ => True)).
  { apply (for_wp' (fun i ww => zlen ww = csr_n A)); [lia|rewrite zlen_alloc; lia| |auto]. intros i w Hi Hl. rewrite wr_ok by lia. cbn [wp]. len. }
  destruct (for_ 0 (csr_n A) _ _) as [ww| |]; try contradiction. cbn [bind].
  assert (EU : sainv_unit (csr_n A) (ilu_premalloc jp ji jv 0 (csr_n A)) = UB).
  { unfold sainv_unit, for_. destruct (Z.to_nat (csr_n A - 0)) as [|k] eqn:EK; [lia|]. cbn [for_n].
    assert (ER : wr2 (m_v (ilu_premalloc jp ji jv 0 (csr_n A))) 0 0 s1 = UB).
    { unfold wr2, ilu_premalloc. cbn [m_v]. rewrite (rd_ok []).
      - cbn [bind]. rewrite (znth_map _ 0%Z []) by (rewrite zlen_zrange; lia). reflexivity.
      - unfold zlen. rewrite map_length. change (0 <= 0 < zlen (zrange 0 (csr_n A)))%Z. rewrite zlen_zrange; lia. }
    rewrite ER. reflexivity. }
  rewrite EU. reflexivity.
Qed.
