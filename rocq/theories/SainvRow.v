(** SAINV: subtracting a multiple of one sparse row from another. *)
Require Import ZArith List Bool Lia Ring.
From Verif Require Import Base Scalar Spec SpecIlu SpecSainv SainvMath Sainv.
Import ListNotations.
Open Scope Z_scope.

Section P.
Context {T : Type} {S : Scalar T}.
Hypothesis RT : is_ring S.
Let RT' : @ring_theory T s0 s1 sadd smul ssub sopp (@eq T) := RT.
Add Ring TrSaiR : RT'.

(** *** one row *)
Definition rat (nz : Z) (ix : list Z) (v : list T) (c : Z) : T := ssum (map (fun k => if znth 0 ix k =? c then znth s0 v k else s0) (zrange 0 nz)).
Definition at_ (M : ilum T) (i c : Z) : T := rows_at (m_nnz M) (m_ix M) (m_v M) i c.
Lemma at_rat M i c : at_ M i c = rat (znth 0 (m_nnz M) i) (znth [] (m_ix M) i) (znth [] (m_v M) i) c.
Proof. reflexivity. Qed.

Definition distinct (nz : Z) (ix : list Z) : Prop := forall k k', 0 <= k < nz -> 0 <= k' < nz -> znth 0 ix k = znth 0 ix k' -> k = k'.

Lemma rat_in nz ix v p : distinct nz ix -> 0 <= p < nz -> rat nz ix v (znth 0 ix p) = znth s0 v p.
Proof.
  intros Hd Hp. unfold rat. rewrite (sum_one RT _ 0 nz p) by (auto; intros q Hq Hne; destruct (Z.eqb_spec (znth 0 ix q) (znth 0 ix p)); auto; exfalso; apply Hne; auto).
  rewrite Z.eqb_refl. auto.
Qed.
Lemma rat_out nz ix v c : (forall p, 0 <= p < nz -> znth 0 ix p <> c) -> rat nz ix v c = s0.
Proof. intros H. apply (sum_zero RT). intros q Hq. destruct (Z.eqb_spec (znth 0 ix q) c); auto. exfalso; apply (H q); auto. Qed.
Lemma rat_case nz ix v c : distinct nz ix -> (exists p, 0 <= p < nz /\ znth 0 ix p = c /\ rat nz ix v c = znth s0 v p) \/ ((forall p, 0 <= p < nz -> znth 0 ix p <> c) /\ rat nz ix v c = s0).
Proof.
  intros Hd. destruct (existsb (fun p => znth 0 ix p =? c) (zrange 0 nz)) eqn:E.
  - left. apply existsb_exists in E. destruct E as [p [Hp Hc]]. apply In_zrange in Hp. apply Z.eqb_eq in Hc. exists p. split; [auto|]. split; [auto|]. rewrite <- Hc. apply rat_in; auto.
  - right. assert (H : forall p, 0 <= p < nz -> znth 0 ix p <> c).
    { intros p Hp Hc. rewrite <- not_true_iff_false in E. apply E. apply existsb_exists. exists p. split; [apply In_zrange; lia|apply Z.eqb_eq; auto]. }
    split; [auto|]. apply rat_out; auto.
Qed.
(** a function applied to the values (f 0 = 0) *)
Lemma rat_map nz ix v (f : T -> T) c : distinct nz ix -> f s0 = s0 -> ssum (map (fun k => if znth 0 ix k =? c then f (znth s0 v k) else s0) (zrange 0 nz)) = f (rat nz ix v c).
Proof.
  intros Hd Hf. destruct (rat_case nz ix v c Hd) as [[p [Hp [Hc E]]]|[H E]]; rewrite E.
  - rewrite (sum_one RT _ 0 nz p) by (auto; intros q Hq Hne; destruct (Z.eqb_spec (znth 0 ix q) c); auto; exfalso; apply Hne; apply Hd; auto; congruence).
    rewrite <- Hc, Z.eqb_refl. auto.
  - rewrite Hf. apply (sum_zero RT). intros q Hq. destruct (Z.eqb_spec (znth 0 ix q) c); auto. exfalso; apply (H q); auto.
Qed.
Lemma rat_upd nz ix v p t c : 0 <= p < nz -> nz <= zlen v -> rat nz ix (zupd v p (ssub (znth s0 v p) t)) c = ssub (rat nz ix v c) (if znth 0 ix p =? c then t else s0).
Proof.
  intros Hp Hv. unfold rat. transitivity (ssub (ssum (map (fun k => if znth 0 ix k =? c then znth s0 v k else s0) (zrange 0 nz))) (ssum (map (fun k => if k =? p then (if znth 0 ix p =? c then t else s0) else s0) (zrange 0 nz)))).
  - rewrite <- (sum_sub RT). apply (sum_ext). intros q Hq. rewrite znth_zupd by lia. destruct (Z.eqb_spec q p) as [Eq|Eq]; [rewrite Eq|]; [destruct (znth 0 ix p =? c); ring|destruct (znth 0 ix q =? c); ring].
  - f_equal. rewrite (sum_one RT _ 0 nz p) by (auto; intros q Hq Hne; destruct (Z.eqb_spec q p); auto; lia). rewrite Z.eqb_refl. auto.
Qed.
Lemma rat_snoc nz ix v c0 t c : 0 <= nz < zlen ix -> zlen v = zlen ix -> rat (nz + 1) (zupd ix nz c0) (zupd v nz t) c = sadd (rat nz ix v c) (if c0 =? c then t else s0).
Proof.
  intros Hn Hv. unfold rat. rewrite zrange_snoc by lia. rewrite map_app, (ssum_app RT). cbn [map ssum]. rewrite !znth_zupd_eq by lia.
  f_equal; [|ring]. apply sum_ext. intros q Hq. rewrite !znth_zupd_neq by lia. auto.
Qed.
Lemma rat_ext nz ix v ix' v' c : (forall k, 0 <= k < nz -> znth 0 ix' k = znth 0 ix k /\ znth s0 v' k = znth s0 v k) -> rat nz ix' v' c = rat nz ix v c.
Proof. intros H. apply sum_ext. intros q Hq. destruct (H q Hq) as [-> ->]. auto. Qed.

Lemma zlen_grow {B} nnz (j : Z -> B) a : zlen a <= nnz -> zlen (grow nnz j a) = nnz.
Proof.
  intros H. unfold grow. assert (E : firstn (Z.to_nat nnz) a = a) by (apply firstn_all2; unfold zlen in H; lia).
  rewrite E. unfold zlen. rewrite app_length, map_length. assert (E2 : zlen (zrange (zlen a) nnz) = nnz - zlen a) by (rewrite zlen_zrange by lia; lia). unfold zlen in *. lia.
Qed.
Lemma znth_grow {B} d nnz (j : Z -> B) a k : 0 <= k < zlen a -> zlen a <= nnz -> znth d (grow nnz j a) k = znth d a k.
Proof.
  intros Hk H. unfold grow. assert (E : firstn (Z.to_nat nnz) a = a) by (apply firstn_all2; unfold zlen in H; lia).
  rewrite E, znth_app by lia. destruct (Z.ltb_spec k (zlen a)); auto. lia.
Qed.

(** *** rows of the matrix *)
Definition row := (Z * Z * list Z * list T)%type.
Definition getrow (M : ilum T) (r : Z) : row := (znth 0 (m_nnz M) r, znth 0 (m_ma M) r, znth [] (m_ix M) r, znth [] (m_v M) r).
Definition rowok (r : Z) (w : row) : Prop := let '(nz, ma, ix, v) := w in
  0 <= nz <= ma /\ zlen ix = ma /\ zlen v = ma /\ (forall k, 0 <= k < nz -> 0 <= znth 0 ix k <= r) /\ distinct nz ix.
Definition lens (n : Z) (M : ilum T) : Prop := zlen (m_nnz M) = n /\ zlen (m_ma M) = n /\ zlen (m_ix M) = n /\ zlen (m_v M) = n.
Definition mok (n : Z) (M : ilum T) : Prop := lens n M /\ forall r, 0 <= r < n -> rowok r (getrow M r).

Lemma rd2_ok {B} (d : B) a i k : 0 <= i < zlen a -> 0 <= k < zlen (znth [] a i) -> rd2 a i k = Ok (znth d (znth [] a i) k).
Proof. intros Hi Hk. unfold rd2. rewrite (rd_ok []) by auto. cbn [bind]. apply rd_ok; auto. Qed.
Lemma wr2_ok {B} a i k (v : B) : 0 <= i < zlen a -> 0 <= k < zlen (znth [] a i) -> wr2 a i k v = Ok (zupd a i (zupd (znth [] a i) k v)).
Proof. intros Hi Hk. unfold wr2. rewrite (rd_ok []) by auto. cbn [bind]. rewrite wr_ok by auto. cbn [bind]. apply wr_ok; auto. Qed.
Lemma wp_rd2 {A B} (d : B) a i k (f : B -> res A) Q : 0 <= i < zlen a -> 0 <= k < zlen (znth [] a i) -> wp (f (znth d (znth [] a i) k)) Q -> wp (bind (rd2 a i k) f) Q.
Proof. intros Hi Hk H. rewrite (rd2_ok d) by auto. exact H. Qed.
Lemma wp_wr2 {A B} a i k (v : B) (f : _ -> res A) Q : 0 <= i < zlen a -> 0 <= k < zlen (znth [] a i) -> wp (f (zupd a i (zupd (znth [] a i) k v))) Q -> wp (bind (wr2 a i k v) f) Q.
Proof. intros Hi Hk H. rewrite wr2_ok by auto. exact H. Qed.

Variables (n annz : Z) (nrm tol : T) (ji : Z -> Z -> Z) (jv : Z -> Z -> T).
Hypothesis Hann : 1 <= annz.
Definition kp (t : T) : T := if sainv_keep nrm tol t then t else s0.
Lemma kp0 : kp s0 = s0.
Proof using. unfold kp. destruct (sainv_keep nrm tol s0); auto. Qed.

(** the marks of the first nz columns of ix *)
Definition marked (nz : Z) (ix ww : list Z) : Prop :=
  zlen ww = n /\ forall c, 0 <= c < n -> (exists p, 0 <= p < nz /\ znth 0 ix p = c /\ znth 0 ww c = p + 1) \/ (znth 0 ww c = 0 /\ forall p, 0 <= p < nz -> znth 0 ix p <> c).
Definition cleared (ww : list Z) : Prop := zlen ww = n /\ forall c, 0 <= c < n -> znth 0 ww c = 0.

Lemma mark_wp M j ww : mok n M -> 0 <= j < n -> cleared ww ->
  wp (for_ 0 (znth 0 (m_nnz M) j) (fun k ww => c <- rd2 (m_ix M) j k ;; wr ww c (k + 1)) ww) (marked (znth 0 (m_nnz M) j) (znth [] (m_ix M) j)).
Proof.
  intros [[L1 [L2 [L3 L4]]] HM] Hj [Hw Hc]. specialize (HM j Hj). unfold getrow, rowok in HM. destruct HM as [Hn [Hi [Hv [Hr Hd]]]].
  apply (for_wp' (fun k ww => marked k (znth [] (m_ix M) j) ww)); [lia| | |auto].
  - split; [auto|]. intros c Hc'. right. split; [auto|intros; lia].
  - intros k w Hk [Hwl Hm]. apply (wp_rd2 0); [lia|lia|]. specialize (Hr k Hk). rewrite wr_ok by lia. cbn [wp]. split; [len|].
    intros c Hc'. rewrite znth_zupd by lia. destruct (Z.eqb_spec c (znth 0 (znth [] (m_ix M) j) k)) as [E|E].
    + left. exists k. split; [lia|]. split; [auto|lia].
    + destruct (Hm c Hc') as [[p [Hp [Hpc Hpw]]]|[H0 Hno]]; [left; exists p; repeat split; auto; lia|right]. split; [auto|]. intros p Hp Hpc. destruct (Z.eq_dec p k) as [->|]; [congruence|]. apply (Hno p); auto; lia.
Qed.

Lemma clear_wp M j ww : mok n M -> 0 <= j < n -> zlen ww = n -> (forall c, 0 <= c < n -> znth 0 ww c = 0 \/ exists p, 0 <= p < znth 0 (m_nnz M) j /\ znth 0 (znth [] (m_ix M) j) p = c) ->
  wp (for_ 0 (znth 0 (m_nnz M) j) (fun k ww => c <- rd2 (m_ix M) j k ;; wr ww c 0) ww) cleared.
Proof.
  intros [[L1 [L2 [L3 L4]]] HM] Hj Hw Hc. specialize (HM j Hj). unfold getrow, rowok in HM. destruct HM as [Hn [Hi [Hv [Hr Hd]]]].
  apply (for_wp' (fun k ww => zlen ww = n /\ forall c, 0 <= c < n -> znth 0 ww c = 0 \/ exists p, k <= p < znth 0 (m_nnz M) j /\ znth 0 (znth [] (m_ix M) j) p = c)); [lia| | |].
  - split; auto.
  - intros k w Hk [Hwl Hm]. apply (wp_rd2 0); [lia|lia|]. specialize (Hr k Hk). rewrite wr_ok by lia. cbn [wp]. split; [len|].
    intros c Hc'. rewrite znth_zupd by lia. destruct (Z.eqb_spec c (znth 0 (znth [] (m_ix M) j) k)) as [E|E]; [left; auto|].
    destruct (Hm c Hc') as [H|[p [Hp Hpc]]]; [left; auto|right]. exists p. split; [|auto]. destruct (Z.eq_dec p k); [subst; congruence|lia].
  - intros w [Hwl Hm]. split; [auto|]. intros c Hc'. destruct (Hm c Hc') as [H|[p [Hp _]]]; [auto|lia].
Qed.

(** *** one entry *)
Definition entry_result (M M' : ilum T) (j : Z) (w : row) : Prop :=
  lens n M' /\ (forall r, 0 <= r < n -> r <> j -> getrow M' r = getrow M r) /\ getrow M' j = w.

Lemma entry_wp M i j ww ik dd nz0 : mok n M -> 0 <= i < n -> 0 <= j < n -> i <> j -> zlen ww = n -> 0 <= ik < znth 0 (m_nnz M) i ->
  nz0 <= znth 0 (m_nnz M) j ->
  (let c := znth 0 (znth [] (m_ix M) i) ik in (exists p, 0 <= p < nz0 /\ znth 0 (znth [] (m_ix M) j) p = c /\ znth 0 ww c = p + 1) \/ (znth 0 ww c = 0 /\ forall p, 0 <= p < znth 0 (m_nnz M) j -> znth 0 (znth [] (m_ix M) j) p <> c)) ->
  (znth 0 (znth [] (m_ix M) i) ik <= j) ->
  wp (sainv_entry ji jv annz nrm tol dd i j ww ik M) (fun M' => mok n M' /\ (forall r, 0 <= r < n -> r <> j -> getrow M' r = getrow M r) /\
     (forall c, at_ M' j c = ssub (at_ M j c) (if znth 0 (znth [] (m_ix M) i) ik =? c then kp (smul dd (znth s0 (znth [] (m_v M) i) ik)) else s0)) /\
     znth 0 (m_nnz M) j <= znth 0 (m_nnz M') j /\
     (forall p, 0 <= p < znth 0 (m_nnz M) j -> znth 0 (znth [] (m_ix M') j) p = znth 0 (znth [] (m_ix M) j) p) /\
     (forall p, znth 0 (m_nnz M) j <= p < znth 0 (m_nnz M') j -> znth 0 (znth [] (m_ix M') j) p = znth 0 (znth [] (m_ix M) i) ik)).
Proof.
  intros [[L1 [L2 [L3 L4]]] HM] Hi Hj Hij Hw Hik Hnz0 Hcase Hle.
  pose proof (HM i Hi) as Ri. unfold getrow, rowok in Ri. destruct Ri as [In_ [Ii [Iv [Ir Id]]]].
  pose proof (HM j Hj) as Rj. unfold getrow, rowok in Rj. destruct Rj as [Jn [Ji [Jv [Jr Jd]]]].
  cbv zeta in Hcase. unfold sainv_entry. apply (wp_rd2 0); [lia|lia|]. pose proof (Ir ik Hik) as Hc.
  set (c := znth 0 (znth [] (m_ix M) i) ik) in *. wrd 0; [lia|]. apply (wp_rd2 s0); [lia|lia|]. cbv zeta.
  set (t := smul dd (znth s0 (znth [] (m_v M) i) ik)).
  assert (Hkp : kp t = if sainv_keep nrm tol t then t else s0) by reflexivity.
  assert (Hsame : sainv_keep nrm tol t = false -> forall x, at_ M j x = ssub (at_ M j x) (if c =? x then kp t else s0)).
  { intros E x. rewrite Hkp, E. destruct (c =? x); ring. }
  destruct Hcase as [[p [Hp [Hpc Hpw]]]|[H0 Hno]].
  - rewrite Hpw. destruct (Z.eqb_spec (p + 1) 0); [lia|]. cbn [negb]. destruct (sainv_keep nrm tol t) eqn:E.
    + replace (p + 1 - 1) with p by lia. apply (wp_rd2 s0); [lia|lia|]. apply wp_wr2; [lia|lia|]. cbn [wp m_nnz m_ma m_ix m_v].
      assert (HJ : znth [] (zupd (m_v M) j (zupd (znth [] (m_v M) j) p (ssub (znth s0 (znth [] (m_v M) j) p) t))) j = zupd (znth [] (m_v M) j) p (ssub (znth s0 (znth [] (m_v M) j) p) t)) by (apply znth_zupd_eq; lia).
      assert (HO : forall r, 0 <= r < n -> r <> j -> getrow (mkIlum (m_nnz M) (m_ma M) (m_ix M) (zupd (m_v M) j (zupd (znth [] (m_v M) j) p (ssub (znth s0 (znth [] (m_v M) j) p) t)))) r = getrow M r).
      { intros r Hr Hne. unfold getrow. cbn [m_nnz m_ma m_ix m_v]. rewrite (znth_zupd_neq []) by lia. auto. }
      repeat match goal with |- _ /\ _ => split end; cbn [m_nnz m_ma m_ix m_v]; auto; try lia; try (len).
      * split; [repeat split; cbn [m_nnz m_ma m_ix m_v]; len|]. intros r Hr. destruct (Z.eq_dec r j) as [->|Hne]; [|rewrite HO by auto; auto].
        unfold getrow, rowok. cbn [m_nnz m_ma m_ix m_v]. rewrite HJ. repeat match goal with |- _ /\ _ => split end; auto; try lia; try len.
      * intros x. rewrite !at_rat. cbn [m_nnz m_ix m_v]. rewrite HJ. rewrite rat_upd by lia. rewrite Hpc, Hkp. auto.
    + cbn [wp]. repeat match goal with |- _ /\ _ => split end; auto; try lia. split; [repeat split; auto|auto].
  - rewrite H0. cbn [Z.eqb negb]. destruct (sainv_keep nrm tol t) eqn:E.
    + wrd 0; [lia|]. wrd 0; [lia|]. apply wp_bind.
      set (nz := znth 0 (m_nnz M) j) in *. set (ma := znth 0 (m_ma M) j) in *.
      assert (G : wp (if nz =? ma then mas <- wr (m_ma M) j (ma + annz) ;; ilu_realloc ji jv j (ma + annz) (mkIlum (m_nnz M) mas (m_ix M) (m_v M)) else Ok M)
        (fun M1 => lens n M1 /\ m_nnz M1 = m_nnz M /\ (forall r, 0 <= r < n -> r <> j -> getrow M1 r = getrow M r) /\ nz < znth 0 (m_ma M1) j /\ zlen (znth [] (m_ix M1) j) = znth 0 (m_ma M1) j /\ zlen (znth [] (m_v M1) j) = znth 0 (m_ma M1) j /\
           forall k, 0 <= k < nz -> znth 0 (znth [] (m_ix M1) j) k = znth 0 (znth [] (m_ix M) j) k /\ znth s0 (znth [] (m_v M1) j) k = znth s0 (znth [] (m_v M) j) k)).
      { destruct (Z.eqb_spec nz ma) as [Em|Em].
        - wwr; [lia|]. unfold ilu_realloc. cbn [m_nnz m_ma m_ix m_v]. wrd (@nil Z); [lia|]. wwr; [lia|]. wrd (@nil T); [lia|]. wwr; [lia|].
          cbn [wp]. unfold lens, getrow. cbn [m_nnz m_ma m_ix m_v]. rewrite !znth_zupd_eq by lia. rewrite !zlen_grow by lia. rewrite !zlen_zupd.
          repeat match goal with |- _ /\ _ => split end; auto; try lia.
          + intros r Hr Hne. rewrite !znth_zupd_neq by lia. auto.
          + intros k Hk. rewrite !znth_grow by lia. auto.
        - cbn [wp]. repeat match goal with |- _ /\ _ => split end; auto; try lia. repeat split; auto. }
      eapply wp_mono; [exact G|]. clear G. intros M1 [[K1 [K2 [K3 K4]]] [En [HO [Hlt [Hi1 [Hv1 Hext]]]]]].
      assert (Erow : getrow M1 i = getrow M i) by (apply HO; auto). unfold getrow in Erow. injection Erow as E1 E2 E3 E4.
      apply (wp_rd2 0); [lia|rewrite E3; lia|]. rewrite E3. fold c.
      apply wp_wr2; [lia|lia|]. apply wp_wr2; [lia|lia|]. rewrite En. wwr; [lia|]. cbn [wp].
      set (M2 := mkIlum _ _ _ _).
      assert (R2 : getrow M2 j = (nz + 1, znth 0 (m_ma M1) j, zupd (znth [] (m_ix M1) j) nz c, zupd (znth [] (m_v M1) j) nz (sopp t))).
      { unfold getrow, M2. cbn [m_nnz m_ma m_ix m_v]. rewrite !znth_zupd_eq by lia. auto. }
      assert (O2 : forall r, 0 <= r < n -> r <> j -> getrow M2 r = getrow M r).
      { intros r Hr Hne. rewrite <- (HO r) by auto. unfold getrow, M2. cbn [m_nnz m_ma m_ix m_v]. rewrite !znth_zupd_neq by lia. rewrite En. auto. }
      assert (Lens : lens n M2) by (unfold lens, M2; cbn [m_nnz m_ma m_ix m_v]; rewrite !zlen_zupd; auto).
      assert (Q1 : znth 0 (m_nnz M2) j = nz + 1) by (exact (f_equal (fun w : row => fst (fst (fst w))) R2)).
      assert (Q3 : znth [] (m_ix M2) j = zupd (znth [] (m_ix M1) j) nz c) by (exact (f_equal (fun w : row => snd (fst w)) R2)).
      assert (Q4 : znth [] (m_v M2) j = zupd (znth [] (m_v M1) j) nz (sopp t)) by (exact (f_equal (fun w : row => snd w) R2)).
      assert (Hix : forall k, 0 <= k < nz -> znth 0 (zupd (znth [] (m_ix M1) j) nz c) k = znth 0 (znth [] (m_ix M) j) k).
      { intros k Hk. rewrite znth_zupd_neq by lia. apply Hext; auto. }
      assert (Hlast : znth 0 (zupd (znth [] (m_ix M1) j) nz c) nz = c) by (apply znth_zupd_eq; lia).
      split; [split; [exact Lens|]|split; [exact O2|]].
      * intros r Hr. destruct (Z.eq_dec r j) as [->|Hne]; [|rewrite O2 by auto; auto]. rewrite R2. unfold rowok. rewrite !zlen_zupd.
        split; [lia|]. split; [auto|]. split; [auto|]. split.
        -- intros k Hk. destruct (Z.eq_dec k nz) as [->|]; [rewrite Hlast; lia|rewrite Hix by lia; apply Jr; lia].
        -- intros k k' Hk Hk'. destruct (Z.eq_dec k nz) as [->|Hn1]; destruct (Z.eq_dec k' nz) as [->|Hn2]; auto; rewrite ?Hlast; rewrite ?Hix by lia; intros Heq.
           ++ exfalso. apply (Hno k'); auto; lia.
           ++ exfalso. apply (Hno k); auto; lia.
           ++ apply Jd; auto; lia.
      * rewrite Q1, Q3. split; [|split; [lia|]].
        -- intros x. rewrite !at_rat. rewrite Q1, Q3, Q4. rewrite rat_snoc by lia. rewrite (rat_ext nz (znth [] (m_ix M) j) (znth [] (m_v M) j)) by auto. fold nz. rewrite Hkp. destruct (c =? x); ring.
        -- split; [exact Hix|]. intros p Hp. replace p with nz by lia. exact Hlast.
    + cbn [wp]. repeat match goal with |- _ /\ _ => split end; auto; try lia. split; [repeat split; auto|auto].
Qed.

(** *** one row: row j -= kept part of dd * row i *)
Lemma axpy_wp M ww i j dd : mok n M -> 0 <= i < j -> j < n -> cleared ww ->
  wp (sainv_axpy ji jv annz nrm tol dd i j (M, ww)) (fun p => mok n (fst p) /\ cleared (snd p) /\ (forall r, 0 <= r < n -> r <> j -> getrow (fst p) r = getrow M r) /\
     forall c, at_ (fst p) j c = ssub (at_ M j c) (kp (smul dd (at_ M i c)))).
Proof.
  intros HM Hij Hj Hc. unfold sainv_axpy. pose proof HM as [[L1 [L2 [L3 L4]]] HR].
  wrd 0; [lia|]. apply wp_bind. eapply wp_mono; [apply mark_wp; auto; lia|]. intros ww1 [Hw1 Hm1].
  wrd 0; [lia|]. apply wp_bind.
  pose proof (HR i ltac:(lia)) as Ri. unfold getrow, rowok in Ri. destruct Ri as [In_ [Ii [Iv [Ir Id]]]].
  pose proof (HR j ltac:(lia)) as Rj. unfold getrow, rowok in Rj. destruct Rj as [Jn [Ji [Jv [Jr Jd]]]].
  set (nz0 := znth 0 (m_nnz M) j) in *. set (nzi := znth 0 (m_nnz M) i) in *.
  set (ixi := znth [] (m_ix M) i) in *. set (vi := znth [] (m_v M) i) in *. set (ixj := znth [] (m_ix M) j) in *.
  eapply wp_mono.
  - apply (for_wp' (fun ik M' => mok n M' /\ (forall r, 0 <= r < n -> r <> j -> getrow M' r = getrow M r) /\
       (forall c, at_ M' j c = ssub (at_ M j c) (ssum (map (fun q => if znth 0 ixi q =? c then kp (smul dd (znth s0 vi q)) else s0) (zrange 0 ik)))) /\
       nz0 <= znth 0 (m_nnz M') j /\ (forall p, 0 <= p < nz0 -> znth 0 (znth [] (m_ix M') j) p = znth 0 ixj p) /\
       (forall p, nz0 <= p < znth 0 (m_nnz M') j -> exists q, 0 <= q < ik /\ znth 0 (znth [] (m_ix M') j) p = znth 0 ixi q /\ znth 0 ww1 (znth 0 ixi q) = 0)) 0 nzi); [lia| | |].
    + split; [auto|]. split; [auto|]. split; [intros c; cbn; ring|]. split; [fold nz0; lia|]. split; [auto|]. fold nz0. intros; lia.
    + intros ik M' Hik [HM' [HO [Hat [Hnz [Hpre Hnew]]]]]. pose proof (HO i ltac:(lia) ltac:(lia)) as Ei. unfold getrow in Ei. injection Ei as E1 E2 E3 E4.
      eapply wp_mono; [apply (entry_wp M' i j ww1 ik dd nz0); [auto|lia|lia|lia|auto|rewrite E1; exact Hik|exact Hnz|rewrite E3|rewrite E3]|].
      * fold ixi. cbv zeta. pose proof (Ir ik Hik) as Hcr. destruct (Hm1 (znth 0 ixi ik) ltac:(lia)) as [[p [Hp [Hpc Hpw]]]|[H0 Hno]].
        -- left. exists p. split; [auto|]. rewrite Hpre by auto. auto.
        -- right. split; [auto|]. intros p Hp. destruct (Z.lt_ge_cases p nz0); [rewrite Hpre by lia; apply Hno; lia|].
           destruct (Hnew p ltac:(lia)) as [q [Hq [Hqe _]]]. rewrite Hqe. intros Heq. apply Id in Heq; lia.
      * fold ixi. specialize (Ir ik Hik). lia.
      * intros M2 [HM2 [HO2 [Hat2 [Hnz2 [Hpre2 Hnew2]]]]]. rewrite E3, E4 in Hat2. rewrite E3 in Hnew2. fold ixi vi in Hat2. fold ixi in Hnew2.
        split; [auto|]. split; [intros r Hr Hne; rewrite HO2 by auto; auto|]. split.
        -- intros c. rewrite Hat2, Hat, zrange_snoc by lia. rewrite map_app, (ssum_app RT). cbn [map ssum]. ring.
        -- split; [lia|]. split; [intros p Hp; rewrite Hpre2 by lia; auto|]. intros p Hp. destruct (Z.lt_ge_cases p (znth 0 (m_nnz M') j)) as [Hlt|Hge].
           ++ destruct (Hnew p ltac:(lia)) as [q [Hq [Hqe Hqw]]]. exists q. split; [lia|]. rewrite Hpre2 by lia. auto.
           ++ exists ik. split; [lia|]. split; [apply Hnew2; lia|]. destruct (Hm1 (znth 0 ixi ik)) as [[p' [Hp' [Hpc Hpw]]]|[H0 _]]; [specialize (Ir ik Hik); lia| |auto].
              exfalso. destruct HM2 as [_ HR2]. specialize (HR2 j ltac:(lia)). unfold getrow, rowok in HR2. destruct HR2 as [_ [_ [_ [_ D2]]]].
              assert (p = p'); [|lia]. apply D2; try lia. rewrite (Hnew2 p) by lia. rewrite (Hpre2 p') by lia. rewrite Hpre by lia. auto.
    + intros M' H. exact H.
  - intros M' [HM' [HO [Hat [Hnz [Hpre Hnew]]]]]. pose proof HM' as [[L1' [L2' [L3' L4']]] _]. wrd 0; [lia|]. apply wp_bind. eapply wp_mono; [apply clear_wp; auto; try lia|].
    + intros c Hc'. destruct (Hm1 c Hc') as [[p [Hp [Hpc Hpw]]]|[H0 _]]; [right|left; auto]. exists p. split; [lia|]. rewrite Hpre by auto. auto.
    + intros ww' Hww'. cbn [wp fst snd]. split; [auto|]. split; [auto|]. split; [auto|]. intros c. rewrite Hat. f_equal. rewrite (rat_map nzi ixi vi (fun x => kp (smul dd x)) c Id).
      * reflexivity.
      * replace (smul dd s0) with s0 by ring. apply kp0.
Qed.
End P.
