(** Proof library: loops that process a list of items one by one; bucket
    (counting) sorts; facts about [entries]. *)
Require Import ZArith List Bool Lia Permutation.
From Verif Require Import Base Scalar Spec.
Import ListNotations.
Open Scope Z_scope.

(** ** Lists *)
Lemma flat_map_snoc {B} (f : Z -> list B) lo i :
  lo <= i -> flat_map f (zrange lo (i + 1)) = flat_map f (zrange lo i) ++ f i.
Proof. intros. rewrite zrange_snoc by lia. rewrite flat_map_app. simpl. rewrite app_nil_r; auto. Qed.

Lemma flat_map_split {B} (f : Z -> list B) lo i hi :
  lo <= i < hi ->
  flat_map f (zrange lo hi) = flat_map f (zrange lo i) ++ f i ++ flat_map f (zrange (i + 1) hi).
Proof.
  intros. rewrite (zrange_app lo i hi) by lia. rewrite flat_map_app. f_equal.
  rewrite (zrange_cons i) by lia. reflexivity.
Qed.

Lemma flat_map_ext_in {A B} (f g : A -> list B) l :
  (forall x, In x l -> f x = g x) -> flat_map f l = flat_map g l.
Proof. induction l; simpl; intros; auto. rewrite H by auto. rewrite IHl by auto. auto. Qed.

Lemma flat_map_map {A B C} (f : B -> list C) (g : A -> B) l :
  flat_map f (map g l) = flat_map (fun x => f (g x)) l.
Proof. induction l; simpl; auto. rewrite IHl; auto. Qed.

Lemma map_flat_map {A B C} (f : B -> C) (g : A -> list B) l :
  map f (flat_map g l) = flat_map (fun x => map f (g x)) l.
Proof. induction l; simpl; auto. rewrite map_app, IHl; auto. Qed.

Lemma filter_flat_map {A B} (p : B -> bool) (g : A -> list B) l :
  filter p (flat_map g l) = flat_map (fun x => filter p (g x)) l.
Proof. induction l; simpl; auto. rewrite filter_app, IHl; auto. Qed.

Lemma filter_map {A B} (p : B -> bool) (f : A -> B) l :
  filter p (map f l) = map f (filter (fun x => p (f x)) l).
Proof. induction l; simpl; auto. destruct (p (f a)); simpl; congruence. Qed.

Lemma flat_map_single {A B} (f : A -> B) l : flat_map (fun x => [f x]) l = map f l.
Proof. induction l; simpl; congruence. Qed.

Lemma flat_map_nil {A B} (l : list A) : flat_map (fun _ => @nil B) l = [].
Proof. induction l; simpl; auto. Qed.

Lemma filter_all {A} (p : A -> bool) l : (forall x, In x l -> p x = true) -> filter p l = l.
Proof. induction l; simpl; intros; auto. rewrite H by auto. rewrite IHl by auto. auto. Qed.

Lemma filter_none {A} (p : A -> bool) l : (forall x, In x l -> p x = false) -> filter p l = [].
Proof. induction l; simpl; intros; auto. rewrite H by auto. rewrite IHl by auto. auto. Qed.

Lemma filter_ext_in {A} (p q : A -> bool) l : (forall x, In x l -> p x = q x) -> filter p l = filter q l.
Proof. induction l; simpl; intros; auto. rewrite H by auto. rewrite IHl by auto. auto. Qed.

Lemma filter_filter {A} (p q : A -> bool) l : filter p (filter q l) = filter (fun x => q x && p x) l.
Proof.
  induction l; simpl; auto. destruct (q a) eqn:E; simpl; auto. destruct (p a); congruence.
Qed.

Lemma Permutation_filter {A} (p : A -> bool) l m : Permutation l m -> Permutation (filter p l) (filter p m).
Proof.
  induction 1; simpl; auto.
  - destruct (p x); auto.
  - destruct (p x), (p y); auto. apply perm_swap.
  - etransitivity; eauto.
Qed.

Lemma Permutation_flat_map_ext {A B} (f g : A -> list B) l :
  (forall x, In x l -> Permutation (f x) (g x)) -> Permutation (flat_map f l) (flat_map g l).
Proof.
  induction l; simpl; intros; auto. apply Permutation_app; auto.
Qed.

Lemma Permutation_flat_map {A B} (f : A -> list B) l m :
  Permutation l m -> Permutation (flat_map f l) (flat_map f m).
Proof.
  induction 1; simpl; auto.
  - apply Permutation_app_head; auto.
  - rewrite !app_assoc. apply Permutation_app_tail. apply Permutation_app_comm.
  - etransitivity; eauto.
Qed.

Lemma flat_map_add {A B} (f g : A -> list B) l :
  Permutation (flat_map (fun x => f x ++ g x) l) (flat_map f l ++ flat_map g l).
Proof.
  induction l; simpl; auto. rewrite IHl. rewrite <- !app_assoc. apply Permutation_app_head.
  rewrite !app_assoc. apply Permutation_app_tail. apply Permutation_app_comm.
Qed.

Lemma flat_map_exchange {A B C} (f : A -> B -> list C) la lb :
  Permutation (flat_map (fun a => flat_map (fun b => f a b) lb) la)
              (flat_map (fun b => flat_map (fun a => f a b) la) lb).
Proof.
  induction la; simpl.
  - rewrite flat_map_nil. auto.
  - rewrite IHla. symmetry. apply (flat_map_add (fun b => f a b) (fun b => flat_map (fun a => f a b) la)).
Qed.

Definition prefix {A} (d total : list A) : Prop := exists r, total = d ++ r.

Lemma prefix_refl {A} (l : list A) : prefix l l.
Proof. exists []. rewrite app_nil_r; auto. Qed.

Lemma prefix_app_inv {A} (d e t : list A) : prefix (d ++ e) t -> prefix d t.
Proof. intros [r ->]. exists (e ++ r). rewrite app_assoc; auto. Qed.

(** ** Loops that process items.  [R d s]: the state [s] reflects exactly the
    items [d] processed so far; iteration [i] processes the items [it i]. *)
Lemma for_items {E S} (R : list E -> S -> Prop) (total : list E) (it : Z -> list E) lo hi body done s (Q : S -> Prop) :
  lo <= hi ->
  prefix (done ++ flat_map it (zrange lo hi)) total ->
  R done s ->
  (forall i s d, lo <= i < hi -> d = done ++ flat_map it (zrange lo i) ->
     prefix (d ++ it i) total -> R d s -> wp (body i s) (R (d ++ it i))) ->
  (forall s, R (done ++ flat_map it (zrange lo hi)) s -> Q s) ->
  wp (for_ lo hi body s) Q.
Proof.
  intros Hle Hp H0 Hs HQ.
  apply (for_wp' (fun i s => R (done ++ flat_map it (zrange lo i)) s)); auto.
  - rewrite zrange_empty by lia. simpl. rewrite app_nil_r; auto.
  - intros i s' Hi HR. eapply wp_mono; [eapply Hs; eauto|].
    + destruct Hp as [r Hr]. rewrite (flat_map_split it lo i hi) in Hr by lia.
      eexists. rewrite Hr, <- !app_assoc. reflexivity.
    + cbv beta. intros a Ha. rewrite flat_map_snoc by lia. rewrite app_assoc; auto.
Qed.

(** [ptr_items n ptr f]: the items f i k, k in [ptr[i], ptr[i+1]), row by row *)
Definition ptr_items {E} (n : Z) (ptr : list Z) (f : Z -> Z -> E) : list E :=
  flat_map (fun i => map (f i) (zrange (znth 0 ptr i) (znth 0 ptr (i + 1)))) (zrange 0 n).

Lemma ptr_ok_mono n p i j : ptr_ok n p -> 0 <= i <= j -> j <= n -> znth 0 p i <= znth 0 p j.
Proof.
  intros (Hn & _ & _ & Hm) [Hi Hij] Hj.
  replace j with (i + Z.of_nat (Z.to_nat (j - i))) in * by lia.
  generalize dependent (Z.to_nat (j - i)). intros k. induction k; intros.
  - replace (i + Z.of_nat 0) with i by lia. lia.
  - replace (i + Z.of_nat (S k)) with (i + Z.of_nat k + 1) in * by lia.
    specialize (Hm (i + Z.of_nat k)). lia.
Qed.

Lemma ptr_ok_bounds n p i k :
  ptr_ok n p -> 0 <= i < n -> znth 0 p i <= k < znth 0 p (i + 1) -> 0 <= k < znth 0 p n.
Proof.
  intros H Hi Hk. pose proof (ptr_ok_mono n p 0 i H). pose proof (ptr_ok_mono n p (i + 1) n H).
  destruct H as (_ & _ & Hz & _). lia.
Qed.

Lemma for_list {E S} (R : list E -> S -> Prop) (total : list E) (f : Z -> E) lo hi body done s (Q : S -> Prop) :
  lo <= hi ->
  prefix (done ++ map f (zrange lo hi)) total ->
  R done s ->
  (forall k s d, lo <= k < hi -> d = done ++ map f (zrange lo k) ->
     prefix (d ++ [f k]) total -> R d s -> wp (body k s) (R (d ++ [f k]))) ->
  (forall s, R (done ++ map f (zrange lo hi)) s -> Q s) ->
  wp (for_ lo hi body s) Q.
Proof.
  intros Hle Hp H0 Hs HQ.
  apply (for_items R total (fun k => [f k]) lo hi body done); rewrite ?flat_map_single; try assumption.
Qed.

Lemma for_ptr_items {E S} (R : list E -> S -> Prop) (total : list E) (f : Z -> Z -> E) n ptr body done s (Q : S -> Prop) :
  ptr_ok n ptr ->
  prefix (done ++ ptr_items n ptr f) total ->
  R done s ->
  (forall i k s d, 0 <= i < n -> znth 0 ptr i <= k < znth 0 ptr (i + 1) -> 0 <= k < znth 0 ptr n ->
     prefix (d ++ [f i k]) total -> R d s -> wp (body i k s) (R (d ++ [f i k]))) ->
  (forall s, R (done ++ ptr_items n ptr f) s -> Q s) ->
  wp (for_ptr n ptr body s) Q.
Proof.
  intros Hok Hp H0 Hs HQ. unfold for_ptr. destruct Hok as (Hn & Hl & Hz & Hm) eqn:Eok. clear Eok.
  apply (for_items R total (fun i => map (f i) (zrange (znth 0 ptr i) (znth 0 ptr (i + 1)))) 0 n _ done); try assumption.
  intros i s' d Hi Hd Hpre HR.
  apply wp_bind, (wp_rd 0); [lia|]. apply wp_bind, (wp_rd 0); [lia|].
  apply (for_list R total (f i) _ _ _ d); try assumption; [apply Hm; lia| |trivial].
  intros k s'' d' Hk _ Hpre' HR'. apply Hs; auto.
  eapply ptr_ok_bounds; eauto.
Qed.

Lemma zlen_map_zrange {A} (f : Z -> A) lo hi : lo <= hi -> zlen (map f (zrange lo hi)) = hi - lo.
Proof. intros. rewrite zlen_map, zlen_zrange. lia. Qed.

Lemma zlen_ptr_items {E} n ptr (f : Z -> Z -> E) : ptr_ok n ptr -> zlen (ptr_items n ptr f) = znth 0 ptr n.
Proof.
  intros H. assert (Hn : 0 <= n) by apply H.
  assert (forall m : nat, Z.of_nat m <= n -> zlen (ptr_items (Z.of_nat m) ptr f) = znth 0 ptr (Z.of_nat m)) as G.
  { induction m; intros Hm.
    - unfold ptr_items. rewrite zrange_empty by lia. change (zlen (@nil E)) with 0.
      symmetry. apply H.
    - replace (Z.of_nat (S m)) with (Z.of_nat m + 1) in * by lia.
      unfold ptr_items in *. rewrite flat_map_snoc, zlen_app, IHm by lia.
      rewrite zlen_map_zrange; [lia|]. apply H. lia. }
  specialize (G (Z.to_nat n)). replace (Z.of_nat (Z.to_nat n)) with n in G by lia. apply G; lia.
Qed.

Lemma In_ptr_items {E} n ptr (f : Z -> Z -> E) e :
  ptr_ok n ptr ->
  (In e (ptr_items n ptr f) <->
   exists i k, 0 <= i < n /\ znth 0 ptr i <= k < znth 0 ptr (i + 1) /\ 0 <= k < znth 0 ptr n /\ e = f i k).
Proof.
  intros Hok. unfold ptr_items. rewrite in_flat_map. split.
  - intros (i & Hi & He). apply in_map_iff in He. destruct He as (k & <- & Hk).
    apply In_zrange in Hi. apply In_zrange in Hk. exists i, k. repeat split; try lia;
    eapply (ptr_ok_bounds n ptr i k); eauto; lia.
  - intros (i & k & Hi & Hk & _ & ->). exists i. split; [apply In_zrange; lia|].
    apply in_map. apply In_zrange. lia.
Qed.

(** setting a whole array *)
Lemma for_set {A} (d : A) (f : Z -> A) lo hi arr (Q : list A -> Prop) :
  0 <= lo <= hi -> hi <= zlen arr ->
  (forall arr', zlen arr' = zlen arr ->
     (forall i, lo <= i < hi -> znth d arr' i = f i) ->
     (forall i, 0 <= i < zlen arr -> ~ (lo <= i < hi) -> znth d arr' i = znth d arr i) -> Q arr') ->
  wp (for_ lo hi (fun i a => wr a i (f i)) arr) Q.
Proof.
  intros Hlo Hhi HQ.
  apply (for_wp' (fun i a => zlen a = zlen arr /\
     (forall k, lo <= k < i -> znth d a k = f k) /\
     (forall k, 0 <= k < zlen arr -> ~ (lo <= k < i) -> znth d a k = znth d arr k))).
  - lia.
  - repeat split; auto; intros; lia.
  - intros i a Hi (Hl & H1 & H2). apply wp_wr; [lia|]. rewrite zlen_zupd. split; [auto|].
    split; intros k Hk.
    + rewrite znth_zupd by lia. destruct (Z.eqb_spec k i); [congruence|apply H1; lia].
    + intros Hn. rewrite znth_zupd by lia. destruct (Z.eqb_spec k i); [lia|apply H2; lia].
  - intros a (Hl & H1 & H2). apply HQ; auto.
Qed.

(** ** Buckets *)
Section Bucket.
Context {E : Type} (key : E -> Z).

Definition bucket (r : Z) (d : list E) : list E := filter (fun e => key e =? r) d.
Definition cntk (r : Z) (d : list E) : Z := zlen (bucket r d).
(** number of items in the buckets before r *)
Definition start (d : list E) (r : Z) : Z := zlen (flat_map (fun q => bucket q d) (zrange 0 r)).

Lemma bucket_app r d e : bucket r (d ++ e) = bucket r d ++ bucket r e.
Proof. apply filter_app. Qed.

Lemma bucket_cons_eq e d : bucket (key e) (e :: d) = e :: bucket (key e) d.
Proof. unfold bucket; simpl. rewrite Z.eqb_refl; auto. Qed.

Lemma bucket_cons_neq r e d : key e <> r -> bucket r (e :: d) = bucket r d.
Proof. intros. unfold bucket; simpl. apply Z.eqb_neq in H. rewrite H; auto. Qed.

Lemma cntk_nonneg r d : 0 <= cntk r d.
Proof. apply zlen_nonneg. Qed.

Lemma cntk_app r d e : cntk r (d ++ e) = cntk r d + cntk r e.
Proof. unfold cntk. rewrite bucket_app, zlen_app; auto. Qed.

Lemma cntk_single r e : cntk r [e] = if key e =? r then 1 else 0.
Proof. unfold cntk, bucket; simpl. destruct (key e =? r); reflexivity. Qed.

Lemma cntk_prefix r d total : prefix d total -> cntk r d <= cntk r total.
Proof. intros [x ->]. rewrite cntk_app. pose proof (cntk_nonneg r x). lia. Qed.

Lemma start_0 d : start d 0 = 0.
Proof. reflexivity. Qed.

Lemma start_succ d r : 0 <= r -> start d (r + 1) = start d r + cntk r d.
Proof. intros. unfold start. rewrite flat_map_snoc by lia. rewrite zlen_app. reflexivity. Qed.

Lemma start_mono d r q : 0 <= r <= q -> start d r <= start d q.
Proof.
  intros [H1 H2]. unfold start. rewrite (zrange_app 0 r q) by lia.
  rewrite flat_map_app, zlen_app. pose proof (zlen_nonneg (flat_map (fun q0 => bucket q0 d) (zrange r q))). lia.
Qed.

Lemma start_nonneg d r : 0 <= start d r.
Proof. apply zlen_nonneg. Qed.

Lemma buckets_perm n d :
  (forall e, In e d -> 0 <= key e < n) ->
  Permutation (flat_map (fun r => bucket r d) (zrange 0 n)) d.
Proof.
  induction d as [|e d IH]; intros H.
  - rewrite (flat_map_ext_in _ (fun _ => [])) by (intros; reflexivity).
    rewrite flat_map_nil. constructor.
  - assert (He : 0 <= key e < n) by (apply H; left; auto).
    rewrite (flat_map_split _ 0 (key e) n) by lia.
    rewrite bucket_cons_eq.
    assert (Hd : forall e0, In e0 d -> 0 <= key e0 < n) by (intros; apply H; right; auto).
    specialize (IH Hd).
    rewrite (flat_map_ext_in _ (fun r => bucket r d) (zrange 0 (key e))).
    2:{ intros x Hx. apply In_zrange in Hx. apply bucket_cons_neq. lia. }
    rewrite (flat_map_ext_in _ (fun r => bucket r d) (zrange (key e + 1) n)).
    2:{ intros x Hx. apply In_zrange in Hx. apply bucket_cons_neq. lia. }
    simpl. rewrite <- Permutation_middle. constructor.
    rewrite (flat_map_split (fun r => bucket r d) 0 (key e) n) in IH by lia. exact IH.
Qed.

Lemma start_total n d : (forall e, In e d -> 0 <= key e < n) -> start d n = zlen d.
Proof. intros H. unfold start, zlen. rewrite (Permutation_length (buckets_perm n d H)). auto. Qed.

(** counting phase: [arr[r+o]] is the number of processed items with key r *)
Definition count_rep (n o : Z) (d : list E) (arr : list Z) : Prop :=
  forall r, 0 <= r < n -> znth 0 arr (r + o) = cntk r d.

Lemma count_step n o d arr e :
  count_rep n o d arr -> 0 <= key e < n -> 0 <= o -> key e + o < zlen arr ->
  count_rep n o (d ++ [e]) (zupd arr (key e + o) (znth 0 arr (key e + o) + 1)).
Proof.
  intros H Hk Ho Hl r Hr. rewrite cntk_app, cntk_single.
  rewrite znth_zupd by lia.
  destruct (Z.eqb_spec (r + o) (key e + o)).
  - assert (r = key e) by lia. subst r. rewrite Z.eqb_refl. rewrite H by auto. lia.
  - destruct (Z.eqb_spec (key e) r); [lia|]. rewrite H by auto. lia.
Qed.

(** filling phase *)
Context (pay : E -> Z) {T : Type} (val : E -> T) (t0 : T).

Definition fill_rep (n : Z) (total d : list E) (iw idx : list Z) (vl : list T) : Prop :=
  forall r, 0 <= r < n ->
    znth 0 iw r = start total r + cntk r d /\
    forall t e, 0 <= t < cntk r d -> e = znth e (bucket r d) t ->
      znth 0 idx (start total r + t) = pay e /\ znth t0 vl (start total r + t) = val e.

Lemma fill_room n total d e :
  (forall e, In e total -> 0 <= key e < n) ->
  prefix (d ++ [e]) total ->
  0 <= start total (key e) + cntk (key e) d < zlen total /\
  start total (key e) + cntk (key e) d < start total (key e + 1).
Proof.
  intros Ht Hp.
  assert (He : 0 <= key e < n). { destruct Hp as [x ->]. apply Ht. rewrite !in_app_iff. left; right; left; auto. }
  pose proof (cntk_prefix (key e) _ _ Hp) as Hc. rewrite cntk_app, cntk_single, Z.eqb_refl in Hc.
  pose proof (start_nonneg total (key e)). pose proof (cntk_nonneg (key e) d).
  pose proof (start_succ total (key e)). 
  assert (start total (key e + 1) <= start total n) by (apply start_mono; lia).
  rewrite (start_total n) in H2 by auto. lia.
Qed.

Lemma znth_snoc_last {A} (dflt : A) l x : znth dflt (l ++ [x]) (zlen l) = x.
Proof.
  rewrite znth_app by apply zlen_nonneg. rewrite Z.ltb_irrefl, Z.sub_diag. reflexivity.
Qed.

Lemma znth_snoc_lt {A} (dflt : A) l x i : 0 <= i < zlen l -> znth dflt (l ++ [x]) i = znth dflt l i.
Proof. intros. rewrite znth_app by lia. destruct (Z.ltb_spec i (zlen l)); auto; lia. Qed.

Lemma fill_step n total d iw idx vl e :
  (forall e, In e total -> 0 <= key e < n) ->
  prefix (d ++ [e]) total ->
  n <= zlen iw -> zlen total <= zlen idx -> zlen total <= zlen vl ->
  fill_rep n total d iw idx vl ->
  let p := znth 0 iw (key e) in
  0 <= p < zlen total /\
  fill_rep n total (d ++ [e]) (zupd iw (key e) (p + 1)) (zupd idx p (pay e)) (zupd vl p (val e)).
Proof.
  intros Ht Hp Hiw Hidx Hvl HR p.
  assert (He : 0 <= key e < n). { destruct Hp as [x ->]. apply Ht. rewrite !in_app_iff. left; right; left; auto. }
  pose proof (fill_room n total d e Ht Hp) as [Hr1 Hr2].
  assert (Hpv : p = start total (key e) + cntk (key e) d) by (apply HR; auto).
  split; [lia|].
  intros r Hr. rewrite cntk_app, cntk_single. destruct (HR r Hr) as [H1 H2]. split.
  - rewrite znth_zupd by lia. destruct (Z.eqb_spec r (key e)).
    + subst r. rewrite Z.eqb_refl. lia.
    + destruct (Z.eqb_spec (key e) r); [lia|]. lia.
  - intros t e' Htr He'. rewrite bucket_app in He'.
    destruct (Z.eqb_spec (key e) r).
    + subst r. assert (Hbe : bucket (key e) [e] = [e]) by (unfold bucket; simpl; rewrite Z.eqb_refl; auto).
      rewrite Hbe in He'. destruct (Z.eq_dec t (cntk (key e) d)).
      * subst t. unfold cntk in He' at 1. rewrite znth_snoc_last in He'. subst e'.
        rewrite !znth_zupd by lia. rewrite <- Hpv, Z.eqb_refl. auto.
      * unfold cntk in *. rewrite znth_snoc_lt in He' by lia.
        rewrite !znth_zupd by lia.
        destruct (Z.eqb_spec (start total (key e) + t) p); [lia|]. apply H2; auto. lia.
    + assert (Hbe : bucket r [e] = []) by (unfold bucket; simpl; destruct (Z.eqb_spec (key e) r); [lia|auto]).
      rewrite Hbe, app_nil_r in He'. rewrite !znth_zupd by lia.
      assert (Hne : start total r + t <> p).
      { assert (Hcr : cntk r d <= cntk r total) by (apply cntk_prefix; eapply prefix_app_inv; eauto).
        pose proof (start_succ total r). pose proof (start_succ total (key e)).
        destruct (Z.lt_ge_cases r (key e)).
        - pose proof (start_mono total (r + 1) (key e)). pose proof (cntk_nonneg (key e) d). lia.
        - pose proof (start_mono total (key e + 1) r). lia. }
      destruct (Z.eqb_spec (start total r + t) p); [lia|]. apply H2; auto. lia.
Qed.

Lemma fill_init n total iw idx vl :
  (forall r, 0 <= r < n -> znth 0 iw r = start total r) -> fill_rep n total [] iw idx vl.
Proof.
  intros H r Hr. split.
  - rewrite H by auto. change (cntk r []) with 0. lia.
  - change (cntk r []) with 0. intros; lia.
Qed.

(** after filling, segment r of the output arrays lists bucket r *)
Lemma fill_segment n total iw idx vl r (B : Type) (f : Z -> T -> B) (g : E -> B) :
  fill_rep n total total iw idx vl -> 0 <= r < n ->
  (forall e, In e total -> key e = r -> f (pay e) (val e) = g e) ->
  map (fun k => f (znth 0 idx k) (znth t0 vl k)) (zrange (start total r) (start total (r + 1))) =
  map g (bucket r total).
Proof.
  intros HR Hr Hf. rewrite start_succ by lia.
  destruct (bucket r total) as [|e0 b] eqn:Eb.
  - assert (Hc : cntk r total = 0) by (unfold cntk; rewrite Eb; reflexivity).
    rewrite Hc, zrange_empty by lia. reflexivity.
  - rewrite <- Eb.
    apply (list_ext (g e0)).
    + rewrite !zlen_map, zlen_zrange. pose proof (cntk_nonneg r total). unfold cntk in *. lia.
    + rewrite zlen_map, zlen_zrange. intros t Ht0.
      assert (Ht : 0 <= t < cntk r total) by (pose proof (cntk_nonneg r total); lia).
      rewrite znth_map with (d := 0) by (rewrite zlen_zrange; lia).
      rewrite znth_zrange by lia.
      destruct (HR r Hr) as [_ H2].
      rewrite znth_map with (d := e0) by (unfold cntk in Ht; lia).
      assert (Hin : In (znth e0 (bucket r total) t) (bucket r total)) by (apply znth_In; unfold cntk in Ht; lia).
      apply filter_In in Hin. destruct Hin as [Hin Hk].
      destruct (H2 t (znth e0 (bucket r total) t) Ht) as [-> ->].
      * apply znth_indep. unfold cntk in Ht; lia.
      * apply Hf; auto. apply Z.eqb_eq; auto.
Qed.

End Bucket.

(** ** Positions *)

(** a compressed loop nest visits the positions 0,1,..,ptr[n]-1 in order *)
Lemma for_ptr_pos {S} (I : Z -> S -> Prop) n ptr body s (Q : S -> Prop) :
  ptr_ok n ptr -> I 0 s ->
  (forall i k s, 0 <= i < n -> znth 0 ptr i <= k < znth 0 ptr (i + 1) -> 0 <= k < znth 0 ptr n ->
     I k s -> wp (body i k s) (I (k + 1))) ->
  (forall s, I (znth 0 ptr n) s -> Q s) ->
  wp (for_ptr n ptr body s) Q.
Proof.
  intros Hok H0 Hs HQ. pose proof Hok as (Hn & Hl & Hz & Hm). unfold for_ptr.
  apply (for_wp' (fun i s => I (znth 0 ptr i) s)); auto.
  - rewrite Hz; auto.
  - intros i s' Hi HI. apply wp_bind, (wp_rd 0); [lia|]. apply wp_bind, (wp_rd 0); [lia|].
    apply (for_wp' I); auto.
    intros k s'' Hk HI'. apply Hs; auto. eapply ptr_ok_bounds; eauto.
Qed.

(** the r-th segment of a concatenation *)
Lemma flat_map_segment {B} (d : B) (g : Z -> list B) n r :
  0 <= r < n ->
  map (znth d (flat_map g (zrange 0 n)))
      (zrange (zlen (flat_map g (zrange 0 r))) (zlen (flat_map g (zrange 0 (r + 1))))) = g r.
Proof.
  intros Hr. rewrite (flat_map_split g 0 r n) by lia. rewrite flat_map_snoc by lia. rewrite zlen_app.
  set (a := flat_map g (zrange 0 r)). set (c := flat_map g (zrange (r + 1) n)).
  pose proof (zlen_nonneg a). pose proof (zlen_nonneg (g r)).
  apply (list_ext d).
  - rewrite zlen_map_zrange by lia. lia.
  - rewrite zlen_map_zrange by lia. intros i Hi.
    rewrite znth_map with (d := 0) by (rewrite zlen_zrange; lia).
    rewrite znth_zrange by lia. rewrite znth_app by lia.
    destruct (Z.ltb_spec (zlen a + i) (zlen a)); [lia|].
    replace (zlen a + i - zlen a) with i by lia.
    rewrite znth_app by lia. destruct (Z.ltb_spec i (zlen (g r))); [auto|lia].
Qed.

(** a list sorted by key is the concatenation of its buckets *)
Lemma sorted_buckets {E} (key : E -> Z) n l :
  (forall e, In e l -> 0 <= key e < n) ->
  (forall d p q, 0 <= p <= q -> q < zlen l -> key (znth d l p) <= key (znth d l q)) ->
  flat_map (fun r => bucket key r l) (zrange 0 n) = l.
Proof.
  induction l as [|e t IH]; intros Hk Hs.
  - rewrite (flat_map_ext_in _ (fun _ => [])) by (intros; reflexivity). apply flat_map_nil.
  - assert (He : 0 <= key e < n) by (apply Hk; left; auto).
    assert (Ht : forall x, In x t -> key e <= key x).
    { intros x Hx. destruct (In_znth e t x Hx) as (i & Hi & Ei).
      specialize (Hs e 0 (i + 1)). rewrite zlen_cons in Hs.
      change (znth e (e :: t) 0) with e in Hs.
      replace (znth e (e :: t) (i + 1)) with x in Hs; [apply Hs; lia|].
      rewrite <- Ei. change (e :: t) with ([e] ++ t). rewrite znth_app by lia.
      change (zlen [e]) with 1. destruct (Z.ltb_spec (i + 1) 1); [lia|]. f_equal; lia. }
    assert (IH' : flat_map (fun r => bucket key r t) (zrange 0 n) = t).
    { apply IH; [intros; apply Hk; right; auto|].
      intros d p q Hpq Hq. specialize (Hs d (p + 1) (q + 1)). rewrite zlen_cons in Hs.
      change (e :: t) with ([e] ++ t) in Hs. rewrite !znth_app in Hs by lia.
      change (zlen [e]) with 1 in Hs.
      destruct (Z.ltb_spec (p + 1) 1); [lia|]. destruct (Z.ltb_spec (q + 1) 1); [lia|].
      replace (p + 1 - 1) with p in Hs by lia. replace (q + 1 - 1) with q in Hs by lia. apply Hs; lia. }
    rewrite (flat_map_split _ 0 (key e) n) in IH' by lia.
    rewrite (flat_map_split _ 0 (key e) n) by lia.
    assert (Z0 : forall l', (forall x, In x l' -> key e <= key x) -> flat_map (fun r => bucket key r l') (zrange 0 (key e)) = []).
    { intros l' Hl'. rewrite (flat_map_ext_in _ (fun _ => [])); [apply flat_map_nil|].
      intros r Hr. apply In_zrange in Hr. unfold bucket. apply filter_none. intros x Hx.
      specialize (Hl' x Hx). apply Z.eqb_neq. lia. }
    rewrite Z0 in IH' by auto. rewrite Z0 by (intros x [->|Hx]; [lia|auto]).
    rewrite bucket_cons_eq. simpl. f_equal.
    rewrite (flat_map_ext_in _ (fun r => bucket key r t) (zrange (key e + 1) n)); [exact IH'|].
    intros r Hr. apply In_zrange in Hr. apply bucket_cons_neq. lia.
Qed.
