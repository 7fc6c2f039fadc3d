(** SAINV: one step of the loop over the columns. *)
Require Import ZArith List Bool Lia Ring Permutation.
From Verif Require Import Base Items Scalar Spec SpecIlu SpecIlut SpecSainv SainvMath Sainv SainvRow IluProof.
Import ListNotations.
Open Scope Z_scope.

Section P.
Context {T : Type} {S : Scalar T}.
Hypothesis RT : is_ring S.
Let RT' : @ring_theory T s0 s1 sadd smul ssub sopp (@eq T) := RT.
Add Ring TrSaiS : RT'.

(** *** coefficients as sums over a line *)
Definition line (ptr idx : list Z) (val : list T) (r c : Z) : T :=
  ssum (map (fun k => if znth 0 idx k =? c then znth s0 val k else s0) (zrange (znth 0 ptr r) (znth 0 ptr (r + 1)))).
Lemma coef_if (E : list (entry T)) i j : coef E i j = ssum (map (fun e => if at_ij i j e then eval e else s0) E).
Proof. unfold coef. induction E as [|e E IH]; [reflexivity|]. cbn [filter map ssum]. destruct (at_ij i j e); cbn [map ssum]; rewrite IH; auto. ring. Qed.
Lemma csr_line (A : csr T) i c : 0 <= i < csr_n A -> coef (csr_entries A) i c = line (csr_ptr A) (csr_index A) (csr_value A) i c.
Proof.
  intros Hi. rewrite coef_if. unfold csr_entries. rewrite (ssum_flat_map RT). rewrite (sum_one RT _ 0 (csr_n A) i); auto.
  - rewrite map_map. unfold line. apply ssum_map_ext. intros k _. unfold at_ij, erow, ecol, eval. cbn [fst snd]. rewrite Z.eqb_refl. auto.
  - intros q Hq Hne. rewrite map_map. rewrite (ssum_map_ext _ (fun _ => s0)). apply (ssum_map_zero RT). intros k _. unfold at_ij, erow, ecol, eval. cbn [fst snd]. destruct (Z.eqb_spec q i); [lia|auto].
Qed.
Lemma csc_line (A : csc T) i c : 0 <= c < csc_np A -> coef (csc_entries A) i c = line (csc_ptr A) (csc_index A) (csc_value A) c i.
Proof.
  intros Hi. rewrite coef_if. unfold csc_entries. rewrite (ssum_flat_map RT). rewrite (sum_one RT _ 0 (csc_np A) c); auto.
  - rewrite map_map. unfold line. apply ssum_map_ext. intros k _. unfold at_ij, erow, ecol, eval. cbn [fst snd]. rewrite Z.eqb_refl, andb_true_r. auto.
  - intros q Hq Hne. rewrite map_map. rewrite (ssum_map_ext _ (fun _ => s0)). apply (ssum_map_zero RT). intros k _. unfold at_ij, erow, ecol, eval. cbn [fst snd]. destruct (Z.eqb_spec q c); [lia|]. rewrite andb_false_r. auto.
Qed.

Lemma rat_sum (f : Z -> T) n nz ix v : (forall k, 0 <= k < nz -> 0 <= znth 0 ix k < n) ->
  ssum (map (fun k => smul (f (znth 0 ix k)) (znth s0 v k)) (zrange 0 nz)) = ssum (map (fun c => smul (f c) (rat nz ix v c)) (zrange 0 n)).
Proof.
  intros Hr. unfold rat. symmetry.
  rewrite (ssum_map_ext _ (fun c => ssum (map (fun k => if znth 0 ix k =? c then smul (f c) (znth s0 v k) else s0) (zrange 0 nz)))).
  - rewrite (ssum_exchange RT). apply sum_ext. intros k Hk. rewrite (sum_one RT _ 0 n (znth 0 ix k)); [rewrite Z.eqb_refl; auto|auto|].
    intros q _ Hne. destruct (Z.eqb_spec (znth 0 ix k) q); auto. congruence.
  - intros c _. rewrite <- (ssum_map_mul_l RT). apply ssum_map_ext. intros k _. destruct (znth 0 ix k =? c); ring.
Qed.

(** *** accumulating with marks *)
Definition acc (P : list (Z * T)) (c : Z) : T := ssum (map (fun e => if fst e =? c then snd e else s0) P).
Lemma acc_snoc P jj v c : acc (P ++ [(jj, v)]) c = sadd (acc P c) (if jj =? c then v else s0).
Proof. unfold acc. rewrite map_app, (ssum_app RT). cbn [map ssum fst snd]. ring. Qed.
Lemma acc_out P c : ~ In c (map fst P) -> acc P c = s0.
Proof.
  intros H. unfold acc. rewrite (ssum_map_ext _ (fun _ => s0)). apply (ssum_map_zero RT). intros [a b] Hx. cbn [fst snd]. destruct (Z.eqb_spec a c); auto. subst. exfalso. apply H. apply in_map_iff. exists (c, b). auto.
Qed.

Variable n : Z.
Definition marks (i : Z) (w : wrow T) : Prop :=
  zlen (r_ww w) = n /\ zlen (r_il w) = n /\ 0 <= r_cl w <= n /\
  (forall k, 0 <= k < r_cl w -> i < znth 0 (r_il w) k < n) /\ distinct (r_cl w) (r_il w) /\
  (forall c, 0 <= c < n -> (exists k, 0 <= k < r_cl w /\ znth 0 (r_il w) k = c) \/ (znth 0 (r_ww w) c = 0 /\ forall k, 0 <= k < r_cl w -> znth 0 (r_il w) k <> c)) /\
  (forall k, 0 <= k < r_cl w -> znth 0 (r_ww w) (znth 0 (r_il w) k) <> 0).
Definition Inv (i : Z) (chk : Z -> Prop) (P : list (Z * T)) (w : wrow T) : Prop :=
  marks i w /\ zlen (r_l w) = n /\ (forall c, 0 <= c < n -> chk c -> znth s0 (r_l w) c = acc P c) /\
  (forall c, i < c < n -> In c (map fst P) -> exists k, 0 <= k < r_cl w /\ znth 0 (r_il w) k = c).

Lemma sainv_mark_wp i w jj : 0 <= i -> marks i w -> i < jj < n ->
  wp (sainv_mark jj w) (fun w' => marks i w' /\ r_l w' = r_l w /\ (exists k, 0 <= k < r_cl w' /\ znth 0 (r_il w') k = jj) /\
    forall c, (exists k, 0 <= k < r_cl w /\ znth 0 (r_il w) k = c) -> exists k, 0 <= k < r_cl w' /\ znth 0 (r_il w') k = c).
Proof.
  intros Hi0 HM Hj. pose proof HM as [Hw [Hil [Hcl [Hr [Hd [Hc Hne]]]]]]. unfold sainv_mark. wrd 0; [lia|]. destruct (Z.eqb_spec (znth 0 (r_ww w) jj) 0) as [E|E].
  - assert (Hno : forall k, 0 <= k < r_cl w -> znth 0 (r_il w) k <> jj) by (intros k Hk Hx; apply (Hne k Hk); rewrite Hx; auto).
    assert (Hlt : r_cl w < n).
    { assert (r_cl w + 1 - 0 <= n - 0); [|lia]. apply (inj_bound (fun k => if k =? r_cl w then jj else znth 0 (r_il w) k) 0 (r_cl w + 1) 0 n); try lia.
      - intros p Hp. destruct (Z.eqb_spec p (r_cl w)); [lia|]. specialize (Hr p ltac:(lia)). lia.
      - intros p q Hp Hq. destruct (Z.eqb_spec p (r_cl w)); destruct (Z.eqb_spec q (r_cl w)); intros Hx; try lia.
        + exfalso. apply (Hno q); [lia|auto].
        + exfalso. apply (Hno p); [lia|auto].
        + apply Hd; lia. }
    wwr; [lia|]. wwr; [lia|]. cbn [wp r_l r_ww r_il r_cl].
    assert (Hkeep : forall k, 0 <= k < r_cl w -> znth 0 (zupd (r_il w) (r_cl w) jj) k = znth 0 (r_il w) k) by (intros; apply znth_zupd_neq; lia).
    assert (Hlast : znth 0 (zupd (r_il w) (r_cl w) jj) (r_cl w) = jj) by (apply znth_zupd_eq; lia).
    split; [|split; [auto|split]].
    + unfold marks. cbn [r_l r_ww r_il r_cl]. rewrite !zlen_zupd. split; [auto|]. split; [auto|]. split; [lia|]. split; [|split; [|split]].
      * intros k Hk. destruct (Z.eq_dec k (r_cl w)) as [->|]; [rewrite Hlast; lia|rewrite Hkeep by lia; apply Hr; lia].
      * intros k k' Hk Hk'. destruct (Z.eq_dec k (r_cl w)) as [->|]; destruct (Z.eq_dec k' (r_cl w)) as [->|]; auto; rewrite ?Hlast; rewrite ?Hkeep by lia; intros Hx.
        -- exfalso. apply (Hno k'); [lia|auto].
        -- exfalso. apply (Hno k); [lia|auto].
        -- apply Hd; lia.
      * intros c Hc'. destruct (Z.eq_dec c jj) as [->|Hcj]; [left; exists (r_cl w); split; [lia|auto]|].
        destruct (Hc c Hc') as [[k [Hk Hkc]]|[H0 Hk]]; [left; exists k; split; [lia|rewrite Hkeep by lia; auto]|right].
        split; [rewrite znth_zupd_neq by lia; auto|]. intros k Hk'. destruct (Z.eq_dec k (r_cl w)) as [->|]; [rewrite Hlast; auto|rewrite Hkeep by lia; apply Hk; lia].
      * intros k Hk. destruct (Z.eq_dec k (r_cl w)) as [->|]; [rewrite Hlast, znth_zupd_eq by lia; lia|]. rewrite Hkeep by lia. rewrite znth_zupd_neq; [apply Hne; lia|lia|apply Hno; lia].
    + exists (r_cl w). split; [lia|auto].
    + intros c [k [Hk Hkc]]. exists k. split; [lia|]. rewrite Hkeep by lia. auto.
  - cbn [wp]. split; [auto|]. split; [auto|]. split; [|auto]. destruct (Hc jj ltac:(lia)) as [H|[H _]]; [auto|congruence].
Qed.

Lemma unmark_wp i w : marks i w -> 0 <= i -> wp (sainv_unmark w) (fun w' => r_l w' = r_l w /\ r_il w' = r_il w /\ r_cl w' = r_cl w /\ cleared n (r_ww w')).
Proof.
  intros [Hw [Hil [Hcl [Hr [Hd [Hc Hne]]]]]] Hi. unfold sainv_unmark. apply wp_bind.
  apply (for_wp' (fun k ww => zlen ww = n /\ forall c, 0 <= c < n -> znth 0 ww c = 0 \/ exists p, k <= p < r_cl w /\ znth 0 (r_il w) p = c)); [lia| | |].
  - split; [auto|]. intros c Hc'. destruct (Hc c Hc') as [[k [Hk Hx]]|[H _]]; [right; exists k; auto|left; auto].
  - intros k ww Hk [Hl Hm]. wrd 0; [lia|]. specialize (Hr k Hk). rewrite wr_ok by lia. cbn [wp]. split; [len|]. intros c Hc'. rewrite znth_zupd by lia.
    destruct (Z.eqb_spec c (znth 0 (r_il w) k)) as [E|E]; [left; auto|]. destruct (Hm c Hc') as [H|[p [Hp Hx]]]; [left; auto|right]. exists p. split; [|auto]. destruct (Z.eq_dec p k); [subst; congruence|lia].
  - intros ww [Hl Hm]. cbn [wp r_l r_il r_cl r_ww]. split; [auto|]. split; [auto|]. split; [auto|]. split; [auto|]. intros c Hc'. destruct (Hm c Hc') as [H|[p [Hp _]]]; [auto|lia].
Qed.

(** *** l = A z_i, u = w_i^T A *)
Definition scan_ok (i : Z) (chk : Z -> Prop) (f : Z -> T) (w : wrow T) : Prop :=
  zlen (r_l w) = n /\ zlen (r_il w) = n /\ cleared n (r_ww w) /\ 0 <= r_cl w <= n /\
  (forall c, 0 <= c < n -> chk c -> znth s0 (r_l w) c = f c) /\
  (forall k, 0 <= k < r_cl w -> i < znth 0 (r_il w) k < n) /\ distinct (r_cl w) (r_il w) /\
  (forall c, i < c < n -> (exists k, 0 <= k < r_cl w /\ znth 0 (r_il w) k = c) \/ f c = s0).

Definition items (ptr idx : list Z) (val : list T) (ix : list Z) (v : list T) (k : Z) : list (Z * T) :=
  map (fun j => (znth 0 idx j, smul (znth s0 val j) (znth s0 v k))) (zrange (znth 0 ptr (znth 0 ix k)) (znth 0 ptr (znth 0 ix k + 1))).
Lemma acc_items ptr idx val ix v nz c : (forall k, 0 <= k < nz -> 0 <= znth 0 ix k < n) ->
  acc (flat_map (items ptr idx val ix v) (zrange 0 nz)) c = ssum (map (fun q => smul (line ptr idx val q c) (rat nz ix v q)) (zrange 0 n)).
Proof.
  intros Hr. unfold acc. rewrite (ssum_flat_map RT). rewrite <- (rat_sum (fun q => line ptr idx val q c) n nz ix v Hr). apply sum_ext. intros k Hk. unfold items. rewrite map_map. cbn [fst snd]. unfold line. rewrite <- (ssum_map_mul_r RT).
  apply ssum_map_ext. intros j _. destruct (znth 0 idx j =? c); ring.
Qed.

Lemma sainv_l_wp (B : csc T) (M : ilum T) i ww il : mok n M -> csc_ok B -> csc_n B = n -> 0 <= i < n -> cleared n ww -> zlen il = n ->
  wp (sainv_l n B M i ww il) (scan_ok i (fun c => i < c) (fun r => right_mul n (coef (csc_entries B)) (at_ M i) r)).
Proof.
  intros HM HB Hn Hi Hw Hil. pose proof HM as [[L1 [L2 [L3 L4]]] HR]. specialize (HR i Hi). unfold getrow, rowok in HR. destruct HR as [Rn [Ri [Rv [Rr Rd]]]].
  destruct HB as [HP [B1 [B2 [B3 [B4 B5]]]]]. pose proof (fun i j => ptr_ok_mono _ _ i j HP) as Mono. destruct HP as [P0 [P1 [P2 P3]]]. 
  unfold sainv_l. wrd 0; [lia|]. apply wp_bind. set (nz := znth 0 (m_nnz M) i) in *. set (ix := znth [] (m_ix M) i) in *. set (v := znth [] (m_v M) i) in *.
  set (IT := items (csc_ptr B) (csc_index B) (csc_value B) ix v).
  apply (for_wp' (fun k w => Inv i (fun c => i < c) (flat_map IT (zrange 0 k)) w)); [lia| | |].
  - split; [|split; [|split]]; cbn [r_l r_ww r_il r_cl].
    + unfold marks. cbn [r_l r_ww r_il r_cl]. destruct Hw as [Hw1 Hw2]. split; [auto|]. split; [auto|]. split; [lia|]. split; [intros; lia|]. split; [intros k k' Hk; lia|]. split; [|intros; lia]. intros c Hc. right. split; [auto|intros; lia].
    + rewrite zlen_alloc; lia.
    + intros c Hc _. rewrite znth_alloc by lia. reflexivity.
    + cbn. intros; contradiction.
  - intros k w Hk HI. apply (wp_rd2 0); [lia|fold ix; lia|]. fold ix. pose proof (Rr k Hk) as Hr. set (ii := znth 0 ix k) in *. wrd 0; [lia|]. wrd 0; [lia|].
    assert (Hp1 : znth 0 (csc_ptr B) ii <= znth 0 (csc_ptr B) (ii + 1)) by (apply P3; lia).
    assert (Hp2 : 0 <= znth 0 (csc_ptr B) ii) by (pose proof (Mono 0 ii ltac:(lia) ltac:(lia)); lia).
    assert (Hp3 : znth 0 (csc_ptr B) (ii + 1) <= csc_nnz B) by (rewrite <- B2; apply Mono; lia).
    apply (for_wp' (fun j w => Inv i (fun c => i < c) (flat_map IT (zrange 0 k) ++ map (fun j => (znth 0 (csc_index B) j, smul (znth s0 (csc_value B) j) (znth s0 v k))) (zrange (znth 0 (csc_ptr B) ii) j)) w)); [auto| | |].
    + rewrite (zrange_empty (znth 0 (csc_ptr B) ii)) by lia. cbn [map]. rewrite app_nil_r. exact HI.
    + intros j w1 Hj HI1. rewrite (zrange_snoc (znth 0 (csc_ptr B) ii) j) by lia. rewrite map_app, app_assoc. cbn [map].
      revert HI1. generalize (flat_map IT (zrange 0 k) ++ map (fun j => (znth 0 (csc_index B) j, smul (znth s0 (csc_value B) j) (znth s0 v k))) (zrange (znth 0 (csc_ptr B) ii) j)). intros P [HMk [Hll [Hacc Hin]]].
      wrd 0; [lia|]. pose proof (B5 j ltac:(lia)) as Hjj. set (jj := znth 0 (csc_index B) j) in *. destruct (Z.ltb_spec i jj) as [Hlt|Hge].
      * wrd s0; [lia|]. apply (wp_rd2 s0); [lia|fold v; lia|]. fold v. wrd s0; [lia|]. wwr; [lia|].
        eapply wp_mono; [apply (sainv_mark_wp i (mkWrow _ (r_ww w1) (r_il w1) (r_cl w1)) jj); [lia|exact HMk|lia]|]. cbn [r_l r_ww r_il r_cl]. intros w2 [HM2 [El [Hex Hpres]]].
        split; [auto|]. split; [rewrite El; len|]. split.
        -- intros c Hc Hic. rewrite El, acc_snoc, znth_zupd by lia. rewrite (Z.eqb_sym jj c). destruct (Z.eqb_spec c jj) as [->|]; [rewrite (Hacc jj) by lia; auto|rewrite Hacc by auto; ring].
        -- intros c Hc Hx. rewrite map_app in Hx. apply in_app_or in Hx. destruct Hx as [Hx|[Hx|[]]]; [apply Hpres; auto|]. cbn [fst] in Hx. rewrite <- Hx. auto.
      * cbn [wp]. split; [auto|]. split; [auto|]. split.
        -- intros c Hc Hic. rewrite acc_snoc. destruct (Z.eqb_spec jj c); [lia|]. rewrite Hacc by auto. ring.
        -- intros c Hc Hx. rewrite map_app in Hx. apply in_app_or in Hx. destruct Hx as [Hx|[Hx|[]]]; [auto|]. cbn [fst] in Hx. lia.
    + intros w1 HI1. rewrite zrange_snoc by lia. rewrite flat_map_app. cbn [flat_map]. rewrite app_nil_r. exact HI1.
  - intros w [HMk [Hll [Hacc Hin]]]. eapply wp_mono; [apply (unmark_wp i w HMk); lia|]. intros w' [E1 [E2 [E3 HC]]]. destruct HMk as [M1 [M2 [M3 [M4 [M5 [M6 M7]]]]]].
    assert (EA : forall c, 0 <= c < n -> acc (flat_map IT (zrange 0 nz)) c = right_mul n (coef (csc_entries B)) (at_ M i) c).
    { intros c Hc. unfold IT. rewrite acc_items by (intros k Hk; specialize (Rr k Hk); lia). unfold right_mul. apply sum_ext. intros q Hq. rewrite csc_line by lia. reflexivity. }
    unfold scan_ok. rewrite E1, E2, E3. split; [auto|]. split; [auto|]. split; [auto|]. split; [auto|]. split; [|split; [auto|split; [auto|]]].
    + intros c Hc Hic. rewrite <- EA by auto. auto.
    + intros c Hc. rewrite <- EA by lia. destruct (in_dec Z.eq_dec c (map fst (flat_map IT (zrange 0 nz)))) as [Hx|Hx]; [left; auto|right; apply acc_out; auto].
Qed.

Lemma sainv_u_wp (A : csr T) (M : ilum T) i ww il : mok n M -> csr_ok A -> csr_n A = n -> 0 <= i < n -> cleared n ww -> zlen il = n ->
  wp (sainv_u n A M i ww il) (scan_ok i (fun c => True) (fun c => left_mul n (coef (csr_entries A)) (at_ M i) c)).
Proof.
  intros HM HA Hn Hi Hw Hil. pose proof HM as [[L1 [L2 [L3 L4]]] HR]. specialize (HR i Hi). unfold getrow, rowok in HR. destruct HR as [Rn [Ri [Rv [Rr Rd]]]].
  destruct HA as [HP [B1 [B2 [B3 [B4 B5]]]]]. pose proof (fun i j => ptr_ok_mono _ _ i j HP) as Mono. destruct HP as [P0 [P1 [P2 P3]]]. 
  unfold sainv_u. wrd 0; [lia|]. apply wp_bind. set (nz := znth 0 (m_nnz M) i) in *. set (ix := znth [] (m_ix M) i) in *. set (v := znth [] (m_v M) i) in *.
  set (IT := items (csr_ptr A) (csr_index A) (csr_value A) ix v).
  apply (for_wp' (fun k w => Inv i (fun c => True) (flat_map IT (zrange 0 k)) w)); [lia| | |].
  - split; [|split; [|split]]; cbn [r_l r_ww r_il r_cl].
    + unfold marks. cbn [r_l r_ww r_il r_cl]. destruct Hw as [Hw1 Hw2]. split; [auto|]. split; [auto|]. split; [lia|]. split; [intros; lia|]. split; [intros k k' Hk; lia|]. split; [|intros; lia]. intros c Hc. right. split; [auto|intros; lia].
    + rewrite zlen_alloc; lia.
    + intros c Hc _. rewrite znth_alloc by lia. reflexivity.
    + cbn. intros; contradiction.
  - intros k w Hk HI. apply (wp_rd2 0); [lia|fold ix; lia|]. fold ix. pose proof (Rr k Hk) as Hr. set (ii := znth 0 ix k) in *. wrd 0; [lia|]. wrd 0; [lia|].
    assert (Hp1 : znth 0 (csr_ptr A) ii <= znth 0 (csr_ptr A) (ii + 1)) by (apply P3; lia).
    assert (Hp2 : 0 <= znth 0 (csr_ptr A) ii) by (pose proof (Mono 0 ii ltac:(lia) ltac:(lia)); lia).
    assert (Hp3 : znth 0 (csr_ptr A) (ii + 1) <= csr_nnz A) by (rewrite <- B2; apply Mono; lia).
    apply (for_wp' (fun j w => Inv i (fun c => True) (flat_map IT (zrange 0 k) ++ map (fun j => (znth 0 (csr_index A) j, smul (znth s0 (csr_value A) j) (znth s0 v k))) (zrange (znth 0 (csr_ptr A) ii) j)) w)); [auto| | |].
    + rewrite (zrange_empty (znth 0 (csr_ptr A) ii)) by lia. cbn [map]. rewrite app_nil_r. exact HI.
    + intros j w1 Hj HI1. rewrite (zrange_snoc (znth 0 (csr_ptr A) ii) j) by lia. rewrite map_app, app_assoc. cbn [map].
      revert HI1. generalize (flat_map IT (zrange 0 k) ++ map (fun j => (znth 0 (csr_index A) j, smul (znth s0 (csr_value A) j) (znth s0 v k))) (zrange (znth 0 (csr_ptr A) ii) j)). intros P [HMk [Hll [Hacc Hin]]].
      wrd 0; [lia|]. pose proof (B5 j ltac:(lia)) as Hjj. set (jj := znth 0 (csr_index A) j) in *. destruct (Z.ltb_spec (n - 1) jj) as [Hbig|Hsm].
      { cbn [wp]. split; [auto|]. split; [auto|]. split.
        -- intros c Hc Hic. rewrite acc_snoc. destruct (Z.eqb_spec jj c); [lia|]. rewrite Hacc by auto. ring.
        -- intros c Hc Hx. rewrite map_app in Hx. apply in_app_or in Hx. destruct Hx as [Hx|[Hx|[]]]; [auto|]. cbn [fst] in Hx. lia. }
      wrd s0; [lia|]. apply (wp_rd2 s0); [lia|fold v; lia|]. fold v. wrd s0; [lia|]. wwr; [lia|]. cbv zeta.
      assert (Hnew : forall c, 0 <= c < n -> znth s0 (zupd (r_l w1) jj (sadd (znth s0 (r_l w1) jj) (smul (znth s0 (csr_value A) j) (znth s0 v k)))) c = acc (P ++ [(jj, smul (znth s0 (csr_value A) j) (znth s0 v k))]) c).
      { intros c Hc. rewrite acc_snoc, znth_zupd by lia. rewrite (Z.eqb_sym jj c). destruct (Z.eqb_spec c jj) as [->|]; [rewrite (Hacc jj) by (auto; lia); auto|rewrite Hacc by auto; ring]. }
      destruct (Z.ltb_spec i jj) as [Hlt|Hge].
      * eapply wp_mono; [apply (sainv_mark_wp i (mkWrow _ (r_ww w1) (r_il w1) (r_cl w1)) jj); [lia|exact HMk|lia]|]. cbn [r_l r_ww r_il r_cl]. intros w2 [HM2 [El [Hex Hpres]]].
        split; [auto|]. split; [rewrite El; len|]. split.
        -- intros c Hc _. rewrite El. apply Hnew; auto.
        -- intros c Hc Hx. rewrite map_app in Hx. apply in_app_or in Hx. destruct Hx as [Hx|[Hx|[]]]; [apply Hpres; auto|]. cbn [fst] in Hx. rewrite <- Hx. auto.
      * cbn [wp]. split; [exact HMk|]. cbn [r_l r_ww r_il r_cl]. split; [len|]. split.
        -- intros c Hc _. apply Hnew; auto.
        -- intros c Hc Hx. rewrite map_app in Hx. apply in_app_or in Hx. destruct Hx as [Hx|[Hx|[]]]; [auto|]. cbn [fst] in Hx. lia.
    + intros w1 HI1. rewrite zrange_snoc by lia. rewrite flat_map_app. cbn [flat_map]. rewrite app_nil_r. exact HI1.
  - intros w [HMk [Hll [Hacc Hin]]]. eapply wp_mono; [apply (unmark_wp i w HMk); lia|]. intros w' [E1 [E2 [E3 HC]]]. destruct HMk as [M1 [M2 [M3 [M4 [M5 [M6 M7]]]]]].
    assert (EA : forall c, 0 <= c < n -> acc (flat_map IT (zrange 0 nz)) c = left_mul n (coef (csr_entries A)) (at_ M i) c).
    { intros c Hc. unfold IT. rewrite acc_items by (intros k Hk; specialize (Rr k Hk); lia). unfold left_mul. apply sum_ext. intros q Hq. rewrite csr_line by lia. rewrite (Rmul_comm RT). reflexivity. }
    unfold scan_ok. rewrite E1, E2, E3. split; [auto|]. split; [auto|]. split; [auto|]. split; [auto|]. split; [|split; [auto|split; [auto|]]].
    + intros c Hc Hic. rewrite <- EA by auto. auto.
    + intros c Hc. rewrite <- EA by lia. destruct (in_dec Z.eq_dec c (map fst (flat_map IT (zrange 0 nz)))) as [Hx|Hx]; [left; auto|right; apply acc_out; auto].
Qed.
End P.
