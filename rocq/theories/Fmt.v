(** Proof library for storage formats: sequential emission into CSR arrays,
    location maps, facts about nz / same_entries / coef. *)
Require Import ZArith List Bool Lia Permutation.
From Verif Require Import Base Scalar Spec Items Csc CscProof.
Import ListNotations.
Open Scope Z_scope.

Section Fmt.
Context {T : Type} {S : Scalar T}.

Definition e0 : entry T := (0, 0, s0).

(** ** nz and same_entries *)
Lemma nz_app (E F : list (entry T)) : nz (E ++ F) = nz E ++ nz F.
Proof. apply filter_app. Qed.

Lemma nz_perm (E F : list (entry T)) : Permutation E F -> Permutation (nz E) (nz F).
Proof. apply Permutation_filter. Qed.

Lemma nz_idem (E : list (entry T)) : nz (nz E) = nz E.
Proof. unfold nz. apply filter_all. intros x Hx. apply filter_In in Hx. apply Hx. Qed.

Lemma same_refl (E : list (entry T)) : same_entries E E.
Proof. apply Permutation_refl. Qed.
Lemma same_sym (E F : list (entry T)) : same_entries E F -> same_entries F E.
Proof. apply Permutation_sym. Qed.
Lemma same_trans (E F G : list (entry T)) : same_entries E F -> same_entries F G -> same_entries E G.
Proof. apply Permutation_trans. Qed.
Lemma same_perm (E F : list (entry T)) : Permutation E F -> same_entries E F.
Proof. apply nz_perm. Qed.
Lemma same_nz (E : list (entry T)) : same_entries (nz E) E.
Proof. unfold same_entries. rewrite nz_idem. apply Permutation_refl. Qed.

Lemma nz_in_shape n np (E : list (entry T)) : in_shape n np E -> in_shape n np (nz E).
Proof. intros H e He. apply filter_In in He. apply H. apply He. Qed.

Lemma NoDup_filter_map {A B} (f : A -> B) p (l : list A) : NoDup (map f l) -> NoDup (map f (filter p l)).
Proof.
  induction l; simpl; intros H; auto. inversion H; subst. destruct (p a); simpl; auto.
  constructor; auto. intros Hin. apply H2. apply in_map_iff in Hin. destruct Hin as (x & E & Hx).
  apply filter_In in Hx. rewrite <- E. apply in_map. apply Hx.
Qed.

Lemma nz_no_dup (E : list (entry T)) : no_dup_pos E -> no_dup_pos (nz E).
Proof. apply NoDup_filter_map. Qed.

Lemma no_dup_perm (E F : list (entry T)) : Permutation E F -> no_dup_pos E -> no_dup_pos F.
Proof. intros HP HN. unfold no_dup_pos in *. apply (Permutation_NoDup (Permutation_map fst HP) HN). Qed.

(** coefficients *)
Lemma coef_same (RT : is_ring S) (HZ : eqb_ok S) (E F : list (entry T)) i j :
  same_entries E F -> coef E i j = coef F i j.
Proof.
  intros H. unfold coef.
  assert (G : forall L : list (entry T), ssum (map eval (filter (at_ij i j) L)) = ssum (map eval (filter (at_ij i j) (nz L)))).
  { intros L. unfold nz. rewrite filter_filter.
    rewrite (filter_ext_in (fun x => nonzero (eval x) && at_ij i j x) (fun x => at_ij i j x && nonzero (eval x)) L)
      by (intros x _; apply (andb_comm (nonzero (eval x)) (at_ij i j x))).
    rewrite <- (filter_filter (fun x => nonzero (eval x)) (at_ij i j)).
    symmetry. apply (ssum_filter RT). intros x _ Hx. unfold nonzero in Hx. apply negb_false_iff in Hx.
    apply HZ in Hx. exact Hx. }
  rewrite (G E), (G F). apply (ssum_perm RT). apply Permutation_map. apply Permutation_filter. exact H.
Qed.

Lemma coef_perm (RT : is_ring S) (E F : list (entry T)) i j : Permutation E F -> coef E i j = coef F i j.
Proof. intros H. unfold coef. apply (ssum_perm RT). apply Permutation_map. apply Permutation_filter. exact H. Qed.

(** ** Emission: write items one after the other into index/value *)
Definition emit_rep (d : list (entry T)) (idx : list Z) (vl : list T) : Prop :=
  forall t, 0 <= t < zlen d -> znth 0 idx t = ecol (znth e0 d t) /\ znth s0 vl t = eval (znth e0 d t).

Lemma emit_nil idx vl : emit_rep [] idx vl.
Proof. intros t Ht. change (zlen []) with 0 in Ht. lia. Qed.

Lemma emit_step d idx vl e :
  emit_rep d idx vl -> zlen d < zlen idx -> zlen d < zlen vl ->
  emit_rep (d ++ [e]) (zupd idx (zlen d) (ecol e)) (zupd vl (zlen d) (eval e)).
Proof.
  intros H Hi Hv t Ht. rewrite zlen_app in Ht. change (zlen [e]) with 1 in Ht. pose proof (zlen_nonneg d).
  rewrite !znth_zupd by lia. destruct (Z.eqb_spec t (zlen d)).
  - subst t. rewrite znth_snoc_last. auto.
  - rewrite znth_snoc_lt by lia. apply H; lia.
Qed.

(** rows emitted in order give exactly the emitted entries *)
Lemma csr_of_emit (g : Z -> list (entry T)) n np nnz ptr index value :
  0 <= n <= np -> in_shape n np (flat_map g (zrange 0 n)) ->
  (forall i e, 0 <= i < n -> In e (g i) -> erow e = i) ->
  n + 1 <= zlen ptr -> (forall r, 0 <= r <= n -> znth 0 ptr r = zlen (flat_map g (zrange 0 r))) ->
  zlen (flat_map g (zrange 0 n)) <= zlen index -> zlen (flat_map g (zrange 0 n)) <= zlen value ->
  emit_rep (flat_map g (zrange 0 n)) index value ->
  let B := mkCsr n np nnz ptr index value in
  csr_entries B = flat_map g (zrange 0 n) /\
  (zlen (flat_map g (zrange 0 n)) = nnz -> csr_ok B).
Proof.
  intros Hn Hsh Hrow Hpl Hptr Hil Hvl HE B. set (total := flat_map g (zrange 0 n)) in *.
  assert (Hpok : ptr_ok n ptr).
  { repeat split; try lia. - rewrite Hptr by lia. rewrite zrange_empty by lia. reflexivity.
    - intros i Hi. rewrite !Hptr by lia. rewrite flat_map_snoc, zlen_app by lia.
      pose proof (zlen_nonneg (g i)). lia. }
  split.
  - unfold csr_entries, B; cbn [csr_n csr_ptr csr_index csr_value]. unfold total.
    apply flat_map_ext_in. intros r Hr. apply In_zrange in Hr. rewrite !Hptr by lia.
    pose proof (flat_map_segment e0 g n r Hr) as FS. fold total in FS.
    rewrite <- FS at 1. apply map_ext_in. intros k Hk.
    assert (Hin : In (znth e0 total k) (g r)) by (rewrite <- FS; apply in_map; auto).
    apply In_zrange in Hk.
    assert (Hkr : 0 <= k < zlen total).
    { pose proof (zlen_nonneg (flat_map g (zrange 0 r))).
      assert (HH : zlen (flat_map g (zrange 0 (r + 1))) <= zlen total).
      { unfold total. rewrite (zrange_app 0 (r + 1) n) by lia. rewrite flat_map_app, zlen_app.
        pose proof (zlen_nonneg (flat_map g (zrange (r + 1) n))). lia. }
      lia. }
    destruct (HE k Hkr) as [-> ->]. apply Hrow in Hin; [|lia].
    destruct (znth e0 total k) as [[a b] c]. unfold erow in Hin; cbn in Hin. subst. reflexivity.
  - intros Hnnz. unfold csr_ok, B; cbn [csr_n csr_np csr_nnz csr_ptr csr_index csr_value].
    split; [auto|]. split; [lia|]. split. { rewrite Hptr by lia. exact Hnnz. }
    split; [lia|]. split; [lia|]. intros k Hk.
    destruct (HE k ltac:(lia)) as [-> _]. apply Hsh. apply znth_In. lia.
Qed.

(** ** Location maps *)
(** the value most recently stored at position p *)
Fixpoint lastval (d : list (entry T)) (p : Z * Z) : T :=
  match d with
  | [] => s0
  | e :: t => if existsb (fun e' => (erow e' =? fst p) && (ecol e' =? snd p)) t then lastval t p
              else if (erow e =? fst p) && (ecol e =? snd p) then eval e else s0
  end.

Lemma pos_eqb (e : entry T) p : (erow e =? fst p) && (ecol e =? snd p) = true <-> fst e = p.
Proof.
  destruct e as [[a b] c], p as [x y]. unfold erow, ecol; cbn. rewrite andb_true_iff, !Z.eqb_eq. split.
  - intros [-> ->]; auto.
  - intros E; inversion E; auto.
Qed.

Lemma lastval_snoc d e p : lastval (d ++ [e]) p = if (erow e =? fst p) && (ecol e =? snd p) then eval e else lastval d p.
Proof.
  induction d as [|x d IH]; cbn [lastval app existsb].
  - destruct ((erow e =? fst p) && (ecol e =? snd p)); auto.
  - rewrite IH. rewrite existsb_app. cbn [existsb]. rewrite orb_false_r.
    destruct ((erow e =? fst p) && (ecol e =? snd p)) eqn:E.
    + rewrite orb_true_r. auto.
    + rewrite orb_false_r. match goal with |- context [existsb ?f d] => destruct (existsb f d) end; auto.
Qed.

Lemma lastval_absent d p : ~ In p (map fst d) -> lastval d p = s0.
Proof.
  induction d as [|e d IH]; intros H; auto. cbn [lastval]. simpl in H.
  match goal with |- context [existsb ?f d] => destruct (existsb f d) eqn:E end.
  - apply existsb_exists in E. destruct E as (x & Hx & E). apply pos_eqb in E. exfalso. apply H. right.
    rewrite <- E. apply in_map; auto.
  - destruct ((erow e =? fst p) && (ecol e =? snd p)) eqn:F; auto. apply pos_eqb in F. exfalso; apply H; auto.
Qed.

Lemma lastval_unique d e : no_dup_pos d -> In e d -> lastval d (fst e) = eval e.
Proof.
  induction d as [|x d IH]; intros HN Hin; [destruct Hin|].
  unfold no_dup_pos in HN. simpl in HN. inversion HN as [|? ? Hni HN']; subst. cbn [lastval].
  destruct Hin as [->|Hin].
  - match goal with |- context [existsb ?f d] => destruct (existsb f d) eqn:E end.
    + apply existsb_exists in E. destruct E as (y & Hy & E). apply pos_eqb in E. exfalso. apply Hni.
      rewrite <- E. apply in_map; auto.
    + assert (F : (erow e =? fst (fst e)) && (ecol e =? snd (fst e)) = true) by (apply pos_eqb; auto). rewrite F. auto.
  - assert (E : existsb (fun e' => (erow e' =? fst (fst e)) && (ecol e' =? snd (fst e))) d = true).
    { apply existsb_exists. exists e. split; auto. apply pos_eqb; auto. }
    rewrite E. apply IH; auto.
Qed.

(** reading back all positions P gives the stored entries and zeros *)
Lemma same_of_positions (HZ : eqb_zero S) (P : list (Z * Z)) (E : list (entry T)) :
  NoDup P -> no_dup_pos E -> (forall e, In e E -> In (fst e) P) ->
  same_entries (map (fun p => (fst p, snd p, lastval E p) : entry T) P) E.
Proof.
  intros HP HE Hin.
  (* P is the positions of E plus the rest *)
  assert (Hdec : forall p q : Z * Z, {p = q} + {p <> q}) by (decide equality; apply Z.eq_dec).
  set (rest := filter (fun p => if in_dec Hdec p (map fst E) then false else true) P).
  assert (HPP : Permutation P (map fst E ++ rest)).
  { apply NoDup_Permutation; auto.
    - assert (HN2 : NoDup rest) by (apply NoDup_filter; auto).
      assert (Hdis : forall p, In p (map fst E) -> ~ In p rest).
      { intros p Hp Hr. unfold rest in Hr. apply filter_In in Hr. destruct Hr as [_ Hr]. destruct (in_dec Hdec p (map fst E)); [discriminate|auto]. }
      revert Hdis. unfold no_dup_pos in HE. generalize (map fst E) HE. induction l; simpl; intros HL Hdis; auto.
      inversion HL; subst. constructor.
      + rewrite in_app_iff. intros [?|?]; [auto|]. eapply Hdis; eauto.
      + apply IHl; auto.
    - intros p. rewrite in_app_iff. split.
      + intros Hp. destruct (in_dec Hdec p (map fst E)) as [Hi|Hn]; auto. right. unfold rest. apply filter_In. split; auto.
        destruct (in_dec Hdec p (map fst E)); [contradiction|auto].
      + intros [Hp|Hp]. * apply in_map_iff in Hp. destruct Hp as (e & <- & He). apply Hin; auto.
        * unfold rest in Hp. apply filter_In in Hp. apply Hp. }
  unfold same_entries.
  rewrite (nz_perm _ _ (Permutation_map _ HPP)). rewrite map_app, nz_app.
  assert (Hr : nz (map (fun p => (fst p, snd p, lastval E p) : entry T) rest) = []).
  { unfold nz. apply filter_none. intros x Hx. apply in_map_iff in Hx. destruct Hx as (p & <- & Hp).
    unfold eval; cbn. rewrite lastval_absent.
    - unfold nonzero. rewrite HZ. reflexivity.
    - unfold rest in Hp. apply filter_In in Hp. destruct Hp as [_ Hp]. destruct (in_dec Hdec p (map fst E)); [discriminate|auto]. }
  rewrite Hr, app_nil_r. rewrite map_map.
  assert (HEE : map (fun x : entry T => (fst (fst x), snd (fst x), lastval E (fst x)) : entry T) E = E).
  { transitivity (map (fun x => x) E); [|apply map_id]. apply map_ext_in. intros e He. rewrite (lastval_unique E e HE He).
    destruct e as [[a b] c]; reflexivity. }
  match goal with |- Permutation (nz ?m) _ => replace m with E by (symmetry; exact HEE) end. apply Permutation_refl.
Qed.

(** the array after storing the entries d one after the other at loc(position) *)
Definition loc_rep (P : list (Z * Z)) (loc : Z * Z -> Z) (d : list (entry T)) (arr : list T) : Prop :=
  forall p, In p P -> znth s0 arr (loc p) = lastval d p.

Lemma loc_step P loc d arr e :
  (forall p q, In p P -> In q P -> loc p = loc q -> p = q) ->
  In (fst e) P -> 0 <= loc (fst e) < zlen arr ->
  loc_rep P loc d arr -> loc_rep P loc (d ++ [e]) (zupd arr (loc (fst e)) (eval e)).
Proof.
  intros Hinj He Hl HR p Hp. rewrite lastval_snoc. rewrite znth_zupd by auto.
  destruct (Z.eqb_spec (loc p) (loc (fst e))) as [E|N].
  - apply Hinj in E; auto. subst p. assert (F : (erow e =? fst (fst e)) && (ecol e =? snd (fst e)) = true) by (apply pos_eqb; auto).
    rewrite F. auto.
  - destruct ((erow e =? fst p) && (ecol e =? snd p)) eqn:F; [|apply HR; auto].
    apply pos_eqb in F. subst p. congruence.
Qed.

(** in-place prefix sum *)
Lemma prefix_self_base {B} (g : Z -> list B) c n ptr (Q : list Z -> Prop) :
  0 <= n -> n + 1 <= zlen ptr -> znth 0 ptr 0 = c ->
  (forall i, 0 <= i < n -> znth 0 ptr (i + 1) = zlen (g i)) ->
  (forall ptr', zlen ptr' = zlen ptr -> (forall r, 0 <= r <= n -> znth 0 ptr' r = c + zlen (flat_map g (zrange 0 r))) -> Q ptr') ->
  wp (for_ 0 n (fun i ptr => a <- rd ptr (i + 1) ;; b <- rd ptr i ;; wr ptr (i + 1) (a + b)) ptr) Q.
Proof.
  intros Hn Hl H0 Hc HQ.
  apply (for_wp' (fun i a => zlen a = zlen ptr /\
     (forall q, 0 <= q <= i -> znth 0 a q = c + zlen (flat_map g (zrange 0 q))) /\
     (forall q, i <= q < n -> znth 0 a (q + 1) = zlen (g q)))); try lia.
  - split; [auto|]. split; intros q Hq; auto. replace q with 0 by lia. rewrite H0.
    change (zlen (flat_map g (zrange 0 0))) with 0. lia.
  - intros i a Hi (La & P1 & P2). wrd 0; [lia|]. wrd 0; [lia|]. wwr; [lia|]. rewrite zlen_zupd.
    split; [auto|]. split; intros q Hq.
    + rewrite znth_zupd by lia. destruct (Z.eqb_spec q (i + 1)); [|apply P1; lia].
      subst q. rewrite flat_map_snoc, zlen_app by lia. rewrite (P1 i), (P2 i) by lia. lia.
    + rewrite znth_zupd_neq by lia. apply P2; lia.
  - intros a (La & P1 & _). apply HQ; auto.
Qed.

Lemma prefix_self {B} (g : Z -> list B) n ptr (Q : list Z -> Prop) :
  0 <= n -> n + 1 <= zlen ptr -> znth 0 ptr 0 = 0 ->
  (forall i, 0 <= i < n -> znth 0 ptr (i + 1) = zlen (g i)) ->
  (forall ptr', zlen ptr' = zlen ptr -> (forall r, 0 <= r <= n -> znth 0 ptr' r = zlen (flat_map g (zrange 0 r))) -> Q ptr') ->
  wp (for_ 0 n (fun i ptr => a <- rd ptr (i + 1) ;; b <- rd ptr i ;; wr ptr (i + 1) (a + b)) ptr) Q.
Proof. intros. apply (prefix_self_base g 0); auto. Qed.

Lemma flat_map_le {B} (g : Z -> list B) i n : 0 <= i <= n -> zlen (flat_map g (zrange 0 i)) <= zlen (flat_map g (zrange 0 n)).
Proof.
  intros H. rewrite (zrange_app 0 i n) by lia. rewrite flat_map_app, zlen_app.
  pose proof (zlen_nonneg (flat_map g (zrange i n))). lia.
Qed.

Lemma prefix_len {B} (d t : list B) : prefix d t -> zlen d <= zlen t.
Proof. intros [r ->]. rewrite zlen_app. pose proof (zlen_nonneg r). lia. Qed.

Lemma zrange_div n j i : 0 < n -> 0 <= i < n -> (j * n + i) / n = j /\ (j * n + i) mod n = i.
Proof. intros. split; [rewrite Z.div_add_l by lia; rewrite Z.div_small by lia; lia|].
  rewrite Z.add_comm, Z.mod_add by lia. apply Z.mod_small; lia. Qed.

Lemma mul_inj n j i j' i' : 0 <= i < n -> 0 <= i' < n -> j * n + i = j' * n + i' -> j = j' /\ i = i'.
Proof.
  intros H H' E. destruct (zrange_div n j i); try lia. destruct (zrange_div n j' i'); try lia.
  rewrite E in *. lia.
Qed.

Lemma mul_range n m j i : 0 <= i < n -> 0 <= j < m -> 0 <= j * n + i < m * n.
Proof. intros. nia. Qed.

(** filling a two-dimensional array with a constant *)
Lemma for2_set {A} (d : A) (c : A) np n arr (Q : list A -> Prop) :
  0 <= np -> 0 <= n -> np * n <= zlen arr ->
  (forall arr', zlen arr' = zlen arr -> (forall k, 0 <= k < np * n -> znth d arr' k = c) -> Q arr') ->
  wp (for_ 0 np (fun j value => for_ 0 n (fun i value => wr value (j * n + i) c) value) arr) Q.
Proof.
  intros Hnp Hn Hl HQ.
  apply (for_wp' (fun j a => zlen a = zlen arr /\ forall k, 0 <= k < j * n -> znth d a k = c)); auto.
  - split; auto. intros; lia.
  - intros j a Hj (La & Ha).
    apply (for_wp' (fun i a => zlen a = zlen arr /\ forall k, 0 <= k < j * n + i -> znth d a k = c)); auto.
    + split; auto. intros; apply Ha; lia.
    + intros i b Hi (Lb & Hb). apply wp_wr; [nia|]. rewrite zlen_zupd. split; auto.
      intros k Hk. rewrite znth_zupd by nia. destruct (Z.eqb_spec k (j * n + i)); auto. apply Hb; lia.
    + intros b (Lb & Hb). split; auto. intros k Hk. apply Hb; lia.
  - intros a (La & Ha). apply HQ; auto.
Qed.

(** loops over items, also when the range is empty *)
Lemma for_items0 {E St} (R : list E -> St -> Prop) (total : list E) (it : Z -> list E) lo hi body done s (Q : St -> Prop) :
  prefix (done ++ flat_map it (zrange lo hi)) total ->
  R done s ->
  (forall i s d, lo <= i < hi -> d = done ++ flat_map it (zrange lo i) ->
     prefix (d ++ it i) total -> R d s -> wp (body i s) (R (d ++ it i))) ->
  (forall s, R (done ++ flat_map it (zrange lo hi)) s -> Q s) ->
  wp (for_ lo hi body s) Q.
Proof.
  intros Hp H0 Hs HQ. destruct (Z.le_gt_cases lo hi).
  - apply (for_items R total it lo hi body done); auto.
  - rewrite for_empty by lia. apply wp_ok. apply HQ. rewrite zrange_empty by lia. cbn. rewrite app_nil_r. auto.
Qed.

Lemma for2_items {E St} (R : list E -> St -> Prop) (it : Z -> Z -> list E) lo hi (a b : Z -> Z) body s (Q : St -> Prop) :
  let total := flat_map (fun j => flat_map (it j) (zrange (a j) (b j))) (zrange lo hi) in
  R [] s ->
  (forall j i s d, lo <= j < hi -> a j <= i < b j -> prefix (d ++ it j i) total -> R d s -> wp (body j i s) (R (d ++ it j i))) ->
  (forall s, R total s -> Q s) ->
  wp (for_ lo hi (fun j s => for_ (a j) (b j) (body j) s) s) Q.
Proof.
  intros total H0 Hs HQ.
  apply (for_items0 R total (fun j => flat_map (it j) (zrange (a j) (b j))) lo hi _ []); auto.
  - apply prefix_refl.
  - intros j s' d Hj _ Hp HR.
    apply (for_items0 R total (it j) (a j) (b j) _ d); auto.
Qed.

(** as [for_items0], when no bound on what has been emitted is needed *)
Lemma for_app {E St} (R : list E -> St -> Prop) (it : Z -> list E) lo hi body d s (Q : St -> Prop) :
  R d s -> (forall i s d, lo <= i < hi -> R d s -> wp (body i s) (R (d ++ it i))) ->
  (forall s, R (d ++ flat_map it (zrange lo hi)) s -> Q s) -> wp (for_ lo hi body s) Q.
Proof.
  intros H0 Hs HQ. apply (for_items0 R (d ++ flat_map it (zrange lo hi)) it lo hi _ d); auto. apply prefix_refl.
Qed.

(** arr[i] = src[i] *)
Lemma for_copy {A} (d : A) lo hi src arr (Q : list A -> Prop) :
  0 <= lo <= hi -> hi <= zlen arr -> hi <= zlen src ->
  (forall arr', zlen arr' = zlen arr ->
     (forall i, lo <= i < hi -> znth d arr' i = znth d src i) ->
     (forall i, 0 <= i < zlen arr -> ~ (lo <= i < hi) -> znth d arr' i = znth d arr i) -> Q arr') ->
  wp (for_ lo hi (fun i a => p <- rd src i ;; wr a i p) arr) Q.
Proof.
  intros Hlo Hhi Hs HQ.
  apply (for_wp' (fun i a => zlen a = zlen arr /\
     (forall k, lo <= k < i -> znth d a k = znth d src k) /\
     (forall k, 0 <= k < zlen arr -> ~ (lo <= k < i) -> znth d a k = znth d arr k))).
  - lia.
  - split; [auto|]. split; intros; auto; lia.
  - intros i a Hi (Hl & H1 & H2). wrd d; [lia|]. apply wp_wr; [lia|]. rewrite zlen_zupd. split; [auto|].
    split; intros k Hk.
    + rewrite znth_zupd by lia. destruct (Z.eqb_spec k i); [congruence|apply H1; lia].
    + intros Hn. rewrite znth_zupd by lia. destruct (Z.eqb_spec k i); [lia|apply H2; lia].
  - intros a (Hl & H1 & H2). apply HQ; auto.
Qed.

(** ptr[i+1] = ptr[i] + cnt[i] *)
Lemma prefix_from {B} (key : B -> Z) total n cnt ptr (Q : list Z -> Prop) :
  0 <= n -> n + 1 <= zlen ptr -> n <= zlen cnt -> znth 0 ptr 0 = 0 ->
  (forall i, 0 <= i < n -> znth 0 cnt i = cntk key i total) ->
  (forall ptr', zlen ptr' = zlen ptr -> (forall r, 0 <= r <= n -> znth 0 ptr' r = start key total r) -> Q ptr') ->
  wp (for_ 0 n (fun i ptr => a <- rd ptr i ;; b <- rd cnt i ;; wr ptr (i + 1) (a + b)) ptr) Q.
Proof.
  intros Hn Hl Hcl H0 Hc HQ.
  apply (for_wp' (fun i a => zlen a = zlen ptr /\ (forall q, 0 <= q <= i -> znth 0 a q = start key total q))); try lia.
  - split; [auto|]. intros q Hq. replace q with 0 by lia. rewrite H0. reflexivity.
  - intros i a Hi (La & P1). wrd 0; [lia|]. wrd 0; [lia|]. wwr; [lia|]. rewrite zlen_zupd.
    split; [auto|]. intros q Hq.
    rewrite znth_zupd by lia. destruct (Z.eqb_spec q (i + 1)); [|apply P1; lia].
    subst q. rewrite start_succ by lia. rewrite (P1 i), Hc by lia. lia.
  - intros a (La & P1). apply HQ; auto.
Qed.

(** ptr[i+1] += ptr[i] on counts kept at i+1 *)
Lemma prefix_self_start {B} (key : B -> Z) total n ptr (Q : list Z -> Prop) :
  0 <= n -> n + 1 <= zlen ptr -> znth 0 ptr 0 = 0 -> count_rep key n 1 total ptr ->
  (forall ptr', zlen ptr' = zlen ptr -> (forall r, 0 <= r <= n -> znth 0 ptr' r = start key total r) -> Q ptr') ->
  wp (for_ 0 n (fun i ptr => a <- rd ptr (i + 1) ;; b <- rd ptr i ;; wr ptr (i + 1) (a + b)) ptr) Q.
Proof.
  intros Hn Hl H0 Hc HQ. apply (prefix_self (fun r => bucket key r total)); auto.
Qed.

End Fmt.
