(** Proofs about Diag2.v: JAD and the ELL shift *)
Require Import ZArith List Bool Lia Permutation Ring.
From Verif Require Import Base Scalar Spec Items Fmt Diag Diag2 SpecDiag DiagProof DiagProof2 JadProof SainvMath IlutFinal.
Import ListNotations.
Open Scope Z_scope.

Section P.
Context {T : Type} {S : Scalar T}.

Lemma In_jad_entries (A : jad T) e : In e (jad_entries A) <-> exists j k, 0 <= j < jad_maxnzr A /\ znth 0 (jad_ptr A) j <= k < znth 0 (jad_ptr A) (j + 1) /\
   e = (znth 0 (jad_perm A) (k - znth 0 (jad_ptr A) j), znth 0 (jad_index A) k, znth s0 (jad_value A) k).
Proof.
  unfold jad_entries. rewrite in_flat_map. split.
  - intros (i & Hi & He). apply in_map_iff in He. destruct He as (k & <- & Hk). apply In_zrange in Hi, Hk. eauto.
  - intros (i & k & Hi & Hk & ->). exists i. split; [apply In_zrange; auto|]. apply in_map_iff. exists k. split; auto. apply In_zrange; auto.
Qed.

(** position p of the value array holds a diagonal entry *)
Definition jmt (A : jad T) (p : Z) : Prop := exists j, 0 <= j < jad_maxnzr A /\ znth 0 (jad_ptr A) j <= p < znth 0 (jad_ptr A) (j + 1) /\
  znth 0 (jad_perm A) (p - znth 0 (jad_ptr A) j) = znth 0 (jad_index A) p.

Lemma NoDup_flat_map_disj {A B} (f : A -> list B) l a b x : NoDup (flat_map f l) -> In a l -> In b l -> a <> b -> In x (f a) -> In x (f b) -> False.
Proof.
  induction l as [|y l IH]; cbn [flat_map In]; intros Hn Ha Hb Hab Hxa Hxb; [contradiction|].
  assert (D : forall u, In u (f y) -> In u (flat_map f l) -> False).
  { intros u Hu1 Hu2. clear -Hn Hu1 Hu2. induction (f y) as [|z m IHm]; cbn in *; [contradiction|]. inversion Hn as [|q r Hq Hr]; subst. destruct Hu1 as [->|Hu1]; [apply Hq; apply in_or_app; auto|auto]. }
  destruct Ha as [->|Ha], Hb as [->|Hb]; [congruence| | |].
  - apply (D x Hxa). apply in_flat_map. eauto.
  - apply (D x Hxb). apply in_flat_map. eauto.
  - apply NoDup_app_remove_l in Hn. eauto.
Qed.
Lemma jmt_inj (A : jad T) p q : no_dup_pos (jad_entries A) -> jmt A p -> jmt A q -> znth 0 (jad_index A) p = znth 0 (jad_index A) q -> p = q.
Proof.
  intros Hu (j & Hj & Hp & E) (j' & Hj' & Hq & E') Ei. unfold no_dup_pos, jad_entries in Hu. rewrite map_flat_map in Hu.
  destruct (Z.eq_dec j j') as [<-|Ne].
  - eapply NoDup_flat_map_in in Hu; [|apply In_zrange; exact Hj]. cbv beta in Hu. rewrite map_map in Hu. cbn [fst] in Hu.
    eapply NoDup_map_inj in Hu; [exact Hu|apply In_zrange; auto|apply In_zrange; auto|]. cbv beta. congruence.
  - exfalso. eapply (NoDup_flat_map_disj _ _ j j' (znth 0 (jad_index A) p, znth 0 (jad_index A) p) Hu); auto; try (apply In_zrange; auto).
    + rewrite map_map. apply in_map_iff. exists p. cbn [fst]. split; [congruence|apply In_zrange; auto].
    + rewrite map_map. apply in_map_iff. exists q. cbn [fst]. split; [congruence|apply In_zrange; auto].
Qed.
Lemma jmt_range (A : jad T) p : jad_ok A -> jmt A p -> 0 <= p < jad_nnz A /\ 0 <= znth 0 (jad_index A) p < jad_n A.
Proof.
  intros HA (j & Hj & Hp & E). pose proof HA as (Hn & Hptr & Hz & Hpl & HP & Hi & Hv & Hx & Hw).
  pose proof (ptr_pos _ _ j Hptr ltac:(lia)). pose proof (ptr_pos _ _ (j + 1) Hptr ltac:(lia)). split; [lia|]. rewrite <- E.
  apply jad_perm_range; auto. specialize (Hw j Hj). lia.
Qed.

Lemma jad_scan_wp {St} (A : jad T) (J : Z -> St -> Prop) act (s : St) (Q : St -> Prop) :
  jad_ok A -> no_dup_pos (jad_entries A) ->
  J 0 s ->
  (forall p s, 0 <= p < jad_nnz A -> ~ jmt A p -> J p s -> J (p + 1) s) ->
  (forall p s, 0 <= p < jad_nnz A -> jmt A p -> J p s -> wp (act p (znth 0 (jad_index A) p) s) (J (p + 1))) ->
  (forall s, J (jad_nnz A) s -> Q s) ->
  wp (jad_scan A act s) Q.
Proof.
  intros HA Hu H0 Hskip Hact HQ. pose proof HA as (Hn & Hptr & Hz & Hpl & HP & Hi & Hv & Hx & Hw). pose proof Hptr as (Hm & Hlp & Hp0 & Hpm).
  pose (C := fun p k => exists l, NoDup l /\ zlen l = jad_n A - k /\ forall q, In q l -> jmt A q /\ q < p).
  assert (Hfin : forall p s, 0 <= p <= jad_nnz A -> C p 0 -> J p s -> J (jad_nnz A) s).
  { intros p s1 Hp (l & Hl & Ll & Hin) HJ.
    assert (G : forall q, p <= q -> ~ jmt A q).
    { intros q Hq Hmq.
      assert (K : le (length (znth 0 (jad_index A) q :: map (znth 0 (jad_index A)) l)) (length (zrange 0 (jad_n A)))).
      { apply NoDup_incl_length.
        - constructor.
          + intro Hc. apply in_map_iff in Hc. destruct Hc as (q' & E & Hq'). destruct (Hin q' Hq') as [M L]. assert (q' = q) by (apply (jmt_inj A); auto). lia.
          + apply NoDup_map_on; auto. intros a b Ha Hb E. apply (jmt_inj A); auto; apply Hin; auto.
        - intros r [<-|Hr]; apply In_zrange; [apply (jmt_range A); auto|]. apply in_map_iff in Hr. destruct Hr as (q' & <- & Hq'). apply (jmt_range A); auto. apply Hin; auto. }
      pose proof (zlen_zrange 0 (jad_n A)) as Lz. unfold zlen in Lz, Ll. cbn [length] in K. rewrite map_length in K. lia. }
    assert (G2 : forall m, 0 <= m -> p + m <= jad_nnz A -> J (p + m) s1).
    { intros m Hm0. pattern m. apply natlike_ind; auto.
      - intros _. replace (p + 0) with p by lia. auto.
      - intros x Hx0 IH Hb. replace (p + Z.succ x) with (p + x + 1) by lia. apply Hskip; [lia|apply G; lia|apply IH; lia]. }
    specialize (G2 (jad_nnz A - p) ltac:(lia)). replace (p + (jad_nnz A - p)) with (jad_nnz A) in G2 by lia. apply G2; lia. }
  unfold jad_scan. wbind.
  apply (for_brk_wp (fun j (st : Z * bool * St) => let '(k, ret, s) := st in ret = false /\ C (znth 0 (jad_ptr A) j) k /\ J (znth 0 (jad_ptr A) j) s)); [lia| | |].
  - rewrite Hp0. split; auto. split; auto. exists []. split; [constructor|]. split; [cbn; lia|intros q []].
  - intros j [[k ret] s1] Hj (-> & HC & HJ). wrd 0; [lia|]. wrd 0; [lia|]. wbind. specialize (Hpm j Hj).
    pose proof (ptr_pos _ _ j Hptr ltac:(lia)). pose proof (ptr_pos _ _ (j + 1) Hptr ltac:(lia)).
    apply (for_brk_wp (fun i (st : Z * bool * St) => let '(k, ret, s) := st in ret = false /\ C i k /\ J i s)); [lia|auto| |].
    + intros i [[k1 ret1] s2] Hi' (-> & HC1 & HJ1). specialize (Hw j Hj). wrd 0; [lia|]. wrd 0; [lia|].
      destruct (Z.eqb_spec (znth 0 (jad_perm A) (i - znth 0 (jad_ptr A) j)) (znth 0 (jad_index A) i)) as [E|E].
      * assert (M : jmt A i) by (exists j; auto). rewrite E. wbind. eapply wp_mono; [apply Hact; auto; lia|]. intros s3 HJ3.
        assert (HC2 : C (i + 1) (k1 - 1)).
        { destruct HC1 as (l & Hl & Ll & Hin). exists (i :: l). split; [constructor; auto; intro Hc; destruct (Hin i Hc); lia|]. split.
          - unfold zlen in *. cbn [length]. lia.
          - intros q [<-|Hq]; [split; [auto|lia]|]. destruct (Hin q Hq). split; [auto|lia]. }
        destruct (Z.eqb_spec (k1 - 1) 0) as [K0|K0]; apply wp_ok; cbn [fst snd].
        -- apply wp_ok. cbn [fst snd]. apply wp_ok. cbn [snd]. apply HQ. apply (Hfin (i + 1)); [lia|rewrite <- K0; auto|auto].
        -- auto.
      * apply wp_ok. cbn [fst snd]. split; auto. split.
        -- destruct HC1 as (l & Hl & Ll & Hin). exists l. split; auto. split; auto. intros q Hq. destruct (Hin q Hq). split; [auto|lia].
        -- apply Hskip; auto; [lia|]. intros (j' & Hj' & Hp' & E'). assert (j' = j) by (apply (ptr_disj (jad_maxnzr A) (jad_ptr A) j' j i); auto). subst j'. auto.
    + intros [[k1 ret1] s2] (-> & HC1 & HJ1). apply wp_ok. cbn [fst snd]. auto.
  - intros [[k ret] s1] (-> & HC & HJ). apply wp_ok. cbn [snd]. apply HQ. rewrite <- Hz. auto.
Qed.

Section Ring.
Hypothesis RT : is_ring S.
Let RT' : @ring_theory T s0 s1 sadd smul ssub sopp (@eq T) := RT.
Add Ring scalar_ring_d3 : RT'.

Lemma get_diagonal_jad_wp (A : jad T) d : jad_ok A -> jad_n A <= zlen d -> no_dup_pos (jad_entries A) ->
  exists d', get_diagonal_jad A d = Ok d' /\ zlen d' = zlen d /\
    forall i, 0 <= i < jad_n A -> znth s0 d' i = if has_diag (jad_entries A) i then coef (jad_entries A) i i else znth s0 d i.
Proof.
  intros HA Hd Hu. pose proof HA as (Hn & Hptr & Hz & Hpl & HP & Hi & Hv & Hx & Hw). apply wp_inv. unfold get_diagonal_jad.
  apply (jad_scan_wp A (fun p d' => zlen d' = zlen d /\ (forall q, jmt A q -> q < p -> znth s0 d' (znth 0 (jad_index A) q) = znth s0 (jad_value A) q) /\
     (forall i, 0 <= i < jad_n A -> (forall q, jmt A q -> q < p -> znth 0 (jad_index A) q <> i) -> znth s0 d' i = znth s0 d i))); auto.
  - split; auto. split; auto. intros q Hq Hq0. destruct (jmt_range A q HA Hq). lia.
  - intros p d1 Hp Hno (L & H1 & H2). split; auto. split.
    + intros q Hq Hq1. apply H1; auto. destruct (Z.eq_dec q p); [congruence|lia].
    + intros i Hi' Hq. apply H2; auto. intros q Hq1 Hq2. apply Hq; auto; lia.
  - intros p d1 Hp Hm (L & H1 & H2). destruct (jmt_range A p HA Hm) as [_ R]. wrd s0; [lia|]. wwr; [lia|]. split; [len|]. split.
    + intros q Hq Hq1. rewrite znth_zupd by lia. destruct (Z.eqb_spec (znth 0 (jad_index A) q) (znth 0 (jad_index A) p)) as [E|E].
      * rewrite (jmt_inj A q p); auto.
      * apply H1; auto. destruct (Z.eq_dec q p); [congruence|lia].
    + intros i Hi' Hq. rewrite znth_zupd by lia. destruct (Z.eqb_spec i (znth 0 (jad_index A) p)) as [E|E].
      * exfalso. apply (Hq p); auto; lia.
      * apply H2; auto. intros q Hq1 Hq2. apply Hq; auto; lia.
  - intros d1 (L & H1 & H2). split; auto. intros i Hi'. destruct (has_diag (jad_entries A) i) eqn:Eh.
    + apply has_diag_In, in_map_iff in Eh. destruct Eh as (e & Ee & He). pose proof He as He'. apply In_jad_entries in He. destruct He as (j & k & Hj & Hk & ->). cbn [fst] in Ee. injection Ee as E1 E2.
      assert (M : jmt A k) by (exists j; repeat split; auto; lia). destruct (jmt_range A k HA M) as [R _]. specialize (H1 k M ltac:(lia)). rewrite E2 in H1. rewrite H1. symmetry. apply (coef_eq RT); auto. rewrite E1, E2 in He'. auto.
    + apply H2; auto. intros q (j & Hj & Hq & E) _ E2. assert (K : has_diag (jad_entries A) i = true); [|congruence]. apply has_diag_In, in_map_iff.
      eexists. split; [|apply In_jad_entries; exists j, q; split; [exact Hj|split; [exact Hq|reflexivity]]]. cbn [fst]. congruence.
Qed.

Lemma shift_diagonal_jad_wp (A : jad T) sigma : jad_ok A -> no_dup_pos (jad_entries A) ->
  exists A', shift_diagonal_jad A sigma = Ok A' /\ jad_ok A' /\ jad_entries A' = map (shift_e sigma) (jad_entries A).
Proof.
  intros HA Hu. pose proof HA as (Hn & Hptr & Hz & Hpl & HP & Hi & Hv & Hx & Hw). apply wp_inv. unfold shift_diagonal_jad. wbind.
  apply (jad_scan_wp A (fun p v => zlen v = zlen (jad_value A) /\ (forall q, jmt A q -> q < p -> znth s0 v q = ssub (znth s0 (jad_value A) q) sigma) /\
     (forall q, ~ (jmt A q /\ q < p) -> znth s0 v q = znth s0 (jad_value A) q))); auto.
  - split; auto. split; auto. intros q Hq Hq0. destruct (jmt_range A q HA Hq). lia.
  - intros p v Hp Hno (L & H1 & H2). split; auto. split.
    + intros q Hq Hq1. apply H1; auto. destruct (Z.eq_dec q p); [congruence|lia].
    + intros q Hq. apply H2. intros [M K]. apply Hq. split; auto; lia.
  - intros p v Hp Hm (L & H1 & H2). apply upd_wp; [lia|]. split; [len|]. split.
    + intros q Hq Hq1. rewrite znth_zupd by lia. destruct (Z.eqb_spec q p) as [->|E].
      * rewrite H2; auto. lia.
      * apply H1; auto; lia.
    + intros q Hq. rewrite znth_zupd by lia. destruct (Z.eqb_spec q p) as [->|E].
      * exfalso. apply Hq. split; auto; lia.
      * apply H2. intros [M K]. apply Hq. split; auto; lia.
  - intros v (L & H1 & H2). apply wp_ok. split.
    + unfold jad_ok; cbn [jad_n jad_np jad_nnz jad_maxnzr jad_perm jad_ptr jad_index jad_value]. rewrite L. auto 20.
    + unfold jad_entries. cbn [jad_maxnzr jad_perm jad_ptr jad_index jad_value]. apply seg_map. intros j k Hj Hk.
      unfold shift_e, erow, ecol, eval; cbn [fst snd]. destruct (Z.eqb_spec (znth 0 (jad_perm A) (k - znth 0 (jad_ptr A) j)) (znth 0 (jad_index A) k)) as [E|E].
      * assert (M : jmt A k) by (exists j; auto). destruct (jmt_range A k HA M). rewrite H1 by (auto; lia). auto.
      * rewrite H2; auto. intros [(j' & Hj' & Hp' & E') _]. assert (j' = j) by (apply (ptr_disj (jad_maxnzr A) (jad_ptr A) j' j k); auto). subst j'. auto.
Qed.

(** ELL *)
Lemma coef_app' (E E' : list (entry T)) i j : coef (E ++ E') i j = sadd (coef E i j) (coef E' i j).
Proof.
  induction E as [|e E IH]; cbn [app]; [rewrite coef_nil; ring|]. rewrite !coef_cons, IH. destruct (at_ij i j e); ring.
Qed.
Lemma coef_flat_map {B} (f : B -> list (entry T)) l i j : coef (flat_map f l) i j = ssum (map (fun b => coef (f b) i j) l).
Proof. induction l as [|b l IH]; cbn [flat_map map ssum]; [reflexivity|]. rewrite coef_app', IH. reflexivity. Qed.
Lemma coef_rows n (c : Z -> Z) (v : Z -> T) i j : 0 <= i < n -> coef (map (fun r => (r, c r, v r)) (zrange 0 n)) i j = if c i =? j then v i else s0.
Proof.
  intros Hi. assert (G : forall lo hi, coef (map (fun r => (r, c r, v r)) (zrange lo hi)) i j = ssum (map (fun r => if (r =? i) && (c r =? j) then v r else s0) (zrange lo hi))).
  { intros lo hi. generalize (zrange lo hi). intros l. induction l as [|r l IH]; cbn [map ssum]; [reflexivity|]. rewrite coef_cons, IH. unfold at_ij, erow, ecol, eval; cbn [fst snd]. destruct ((r =? i) && (c r =? j)); [auto|ring]. }
  rewrite G. rewrite (sum_one RT _ 0 n i); auto.
  - rewrite Z.eqb_refl. auto.
  - intros q Hq Hne. destruct (Z.eqb_spec q i); [congruence|auto].
Qed.
Lemma coef_rows_out n (c : Z -> Z) (v : Z -> T) i j : ~ 0 <= i < n -> coef (map (fun r => (r, c r, v r)) (zrange 0 n)) i j = s0.
Proof.
  intros Hi. apply coef_absent. intro Hc. apply in_map_iff in Hc. destruct Hc as (e & E & He). apply in_map_iff in He. destruct He as (r & <- & Hr). apply In_zrange in Hr. cbn [fst] in E. injection E as E1 E2. lia.
Qed.
Lemma coef_ell (A : ell T) i j : 0 <= i < ell_n A ->
  coef (ell_entries A) i j = ssum (map (fun s => if znth 0 (ell_index A) (s * ell_n A + i) =? j then znth s0 (ell_value A) (s * ell_n A + i) else s0) (zrange 0 (ell_maxnzr A))).
Proof.
  intros Hi. unfold ell_entries. rewrite coef_flat_map. apply ssum_map_ext. intros s _.
  exact (coef_rows (ell_n A) (fun i => znth 0 (ell_index A) (s * ell_n A + i)) (fun i => znth s0 (ell_value A) (s * ell_n A + i)) i j Hi).
Qed.
Lemma sum_change (f g : Z -> T) m p x : 0 <= p < m -> (forall q, 0 <= q < m -> q <> p -> g q = f q) -> g p = ssub (f p) x ->
  ssum (map g (zrange 0 m)) = ssub (ssum (map f (zrange 0 m))) x.
Proof.
  intros Hp Hne He. rewrite (zrange_app 0 p m), (zrange_cons p m) by lia. rewrite !map_app, !(ssum_app RT). cbn [map ssum].
  rewrite (ssum_map_ext g f (zrange 0 p)), (ssum_map_ext g f (zrange (p + 1) m)); [rewrite He; ring| |]; intros q Hq; apply In_zrange in Hq; apply Hne; lia.
Qed.
Lemma shift_diagonal_ell_wp (A : ell T) sigma : ell_ok A ->
  exists A', shift_diagonal_ell A sigma = Ok A' /\ ell_ok A' /\ shifted (ell_entries A) (ell_entries A') sigma.
Proof.
  intros HA. pose proof HA as (Hn & Hm & Hi & Hv & Hx). apply wp_inv. unfold shift_diagonal_ell. cbv zeta. wbind.
  set (n := ell_n A) in *. set (m := ell_maxnzr A) in *.
  pose (first := fun i j => 0 <= j < m /\ znth 0 (ell_index A) (j * n + i) = i /\ forall j', 0 <= j' < j -> znth 0 (ell_index A) (j' * n + i) <> i).
  apply (outer_upd n (fun i k => exists j, first i j /\ k = j * n + i) (fun _ _ a => ssub a sigma)); [lia| | | |].
  - intros i k Hi'. destruct (Z.eq_dec (k mod n) i) as [E|E].
    2:{ right. intros (j & _ & ->). apply E. rewrite Z.add_comm, Z_mod_plus_full. apply Z.mod_small; auto. }
    assert (Dec : first i (k / n) \/ ~ first i (k / n)).
    { unfold first. destruct (Z.le_gt_cases 0 (k / n)); [|right; lia]. destruct (Z.lt_ge_cases (k / n) m); [|right; lia].
      destruct (Z.eq_dec (znth 0 (ell_index A) (k / n * n + i)) i); [|right; tauto].
      assert (G : forall q, 0 <= q -> (forall j', 0 <= j' < q -> znth 0 (ell_index A) (j' * n + i) <> i) \/ ~ (forall j', 0 <= j' < q -> znth 0 (ell_index A) (j' * n + i) <> i)).
      { intros q Hq. pattern q. apply natlike_ind; auto.
        - left. intros; lia.
        - intros x Hx0 [IH|IH].
          + destruct (Z.eq_dec (znth 0 (ell_index A) (x * n + i)) i).
            * right. intro G. apply (G x); [lia|auto].
            * left. intros j' Hj'. destruct (Z.eq_dec j' x) as [->|]; [auto|apply IH; lia].
          + right. intro G. apply IH. intros; apply G; lia. }
      destruct (G (k / n)); [auto|left; tauto|right; tauto]. }
    pose proof (Z.div_mod k n ltac:(lia)) as DM.
    destruct Dec as [F|F]; [left; exists (k / n); split; [auto|lia]|right]. intros (j & Fj & ->). apply F. replace ((j * n + i) / n) with j; auto.
    rewrite Z.div_add_l by lia. rewrite Z.div_small by lia. lia.
  - intros i i' k Hi1 Hi2 (j & _ & ->) (j' & _ & E). destruct (mul_inj n j i j' i'); auto.
  - intros i v Hi' HL.
    apply (for_brk_wp (fun j v' => v' = v /\ forall j', 0 <= j' < j -> znth 0 (ell_index A) (j' * n + i) <> i)); [lia|split; auto; intros; lia| |].
    + intros j v' Hj (-> & Hno). pose proof (mul_range n m j i ltac:(lia) ltac:(lia)). wrd 0; [lia|].
      destruct (Z.eqb_spec i (znth 0 (ell_index A) (j * n + i))) as [E|E].
      * wbind. apply upd_wp; [lia|]. apply wp_ok. cbn [fst snd]. split; [len|]. split; intros k Hk.
        -- destruct Hk as (j' & (F1 & F2 & F3) & ->). assert (j' = j).
           { destruct (Z.lt_trichotomy j j') as [G|[G|G]]; auto; exfalso; [apply (F3 j); [lia|auto]|apply (Hno j'); [lia|auto]]. }
           subst j'. rewrite znth_zupd_eq by lia. auto.
        -- rewrite znth_zupd by lia. destruct (Z.eqb_spec k (j * n + i)); auto. exfalso. apply Hk. exists j. split; auto. split; auto.
      * apply wp_ok. cbn [fst snd]. split; auto. intros j' Hj'. destruct (Z.eq_dec j' j) as [->|]; [auto|apply Hno; lia].
    + intros v' (-> & Hno). split; auto. split; auto. intros k (j & (F1 & F2 & F3) & ->). exfalso. apply (Hno j); auto.
  - intros v' L H1 H2. apply wp_ok. split.
    { unfold ell_ok; cbn [ell_n ell_np ell_maxnzr ell_index ell_value]. rewrite L. auto 10. }
    intros i j. destruct (Z_le_gt_dec 0 i) as [G0|G0]; [destruct (Z_lt_ge_dec i n) as [G1|G1]|].
    2,3: replace (has_diag (ell_entries A) i) with false; [rewrite andb_false_r|]; [|symmetry; apply not_true_is_false; intro Hc; apply has_diag_In, in_map_iff in Hc; destruct Hc as (e & Ee & He); apply In_ell_entries in He; destruct He as (jj & ii & _ & Hii & ->); cbn [fst] in Ee; injection Ee as E1 E2; fold n in Hii; lia].
    2,3: rewrite !coef_absent; auto; intro Hc; apply in_map_iff in Hc; destruct Hc as (e & Ee & He); apply In_ell_entries in He; destruct He as (jj & ii & _ & Hii & ->); cbn [fst] in Ee; injection Ee as E1 E2; cbn [ell_n] in Hii; try fold n in Hii; lia.
    rewrite !coef_ell by (cbn [ell_n]; lia). cbn [ell_n ell_maxnzr ell_index ell_value]. fold n m.
    destruct (Z.eqb_spec i j) as [<-|Ne]; cbn [andb].
    + destruct (has_diag (ell_entries A) i) eqn:Eh.
      * assert (Fx : exists j, first i j).
        { apply has_diag_In, in_map_iff in Eh. destruct Eh as (e & Ee & He). apply In_ell_entries in He. destruct He as (jj & ii & Hjj & Hii & ->). cbn [fst] in Ee. injection Ee as E1 E2. subst ii. fold m in Hjj. fold n in E2, Hii.
          assert (Gx : forall q, 0 <= q -> (exists j, first i j) \/ (forall j', 0 <= j' < q -> j' < m -> znth 0 (ell_index A) (j' * n + i) <> i)).
          { intros q Hq. pattern q. apply natlike_ind; auto.
            - right. intros; lia.
            - intros x Hx0 [IH|IH]; [auto|]. destruct (Z_lt_ge_dec x m).
              + destruct (Z.eq_dec (znth 0 (ell_index A) (x * n + i)) i); [left; exists x; split; [lia|split; auto; intros; apply IH; lia]|].
                right. intros j' Hj' Hm'. destruct (Z.eq_dec j' x) as [->|]; [auto|apply IH; lia].
              + right. intros j' Hj' Hm'. apply IH; lia. }
          destruct (Gx (jj + 1) ltac:(lia)) as [G|G]; auto. exfalso. apply (G jj); auto; lia. }
        destruct Fx as (p & Fp). pose proof Fp as (F1 & F2 & F3).
        apply (sum_change _ _ m p); auto.
        -- intros q Hq Hne. destruct (Z.eqb_spec (znth 0 (ell_index A) (q * n + i)) i); auto. apply H2. intros i' Hi' (j' & Fj & E).
           destruct (mul_inj n q i j' i'); auto; try lia. subst j' i'. destruct Fj as (Q1 & Q2 & Q3). destruct (Z.lt_trichotomy p q) as [G|[G|G]]; [apply (Q3 p); auto; lia|lia|apply (F3 q); auto; lia].
        -- rewrite F2, Z.eqb_refl. apply (H1 i); [lia|]. exists p. auto.
      * apply ssum_map_ext. intros q Hq. apply In_zrange in Hq. destruct (Z.eqb_spec (znth 0 (ell_index A) (q * n + i)) i) as [E|]; auto. exfalso.
        assert (K : has_diag (ell_entries A) i = true); [|congruence]. apply has_diag_In, in_map_iff. eexists. split; [|apply In_ell_entries; exists q, i; split; [exact Hq|split; [fold n; lia|reflexivity]]]. cbn [fst]. fold n. congruence.
    + apply ssum_map_ext. intros q Hq. apply In_zrange in Hq. destruct (Z.eqb_spec (znth 0 (ell_index A) (q * n + i)) j) as [E|]; auto. apply H2. intros i' Hi' (j' & Fj & E').
      destruct (mul_inj n q i j' i'); auto; try lia. subst j' i'. destruct Fj as (Q1 & Q2 & Q3). congruence.
Qed.
End Ring.
End P.
