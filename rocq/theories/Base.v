(** Framework: outcomes, checked arrays, loops.  No code of the library is
    modelled here; the definitions are the (small) language in which the C code
    is transcribed. *)
Require Import ZArith List Bool Lia FinFun.
Import ListNotations.
Open Scope Z_scope.

(** ** Outcomes.  [Ok] normal, [Err c] the C function returned the nonzero
    error code [c], [UB] an out-of-bounds access / other undefined behaviour. *)
Inductive res (A : Type) : Type :=
| Ok (a : A)
| Err (code : Z)
| UB.
Arguments Ok {A} _.
Arguments Err {A} _.
Arguments UB {A}.

Definition bind {A B} (m : res A) (f : A -> res B) : res B :=
  match m with Ok a => f a | Err c => Err c | UB => UB end.

Notation "x <- m ;; k" := (bind m (fun x => k))
  (at level 61, m at next level, right associativity).
Notation "' p <- m ;; k" := (bind m (fun x => let 'p := x in k))
  (at level 61, p pattern, m at next level, right associativity).

(** Error codes, include/lis.h:1051-1062 *)
Definition LIS_SUCCESS : Z := 0.
Definition LIS_ERR_ILL_ARG : Z := 1.
Definition LIS_BREAKDOWN : Z := 2.
Definition LIS_ERR_OUT_OF_MEMORY : Z := 3.
Definition LIS_MAXITER : Z := 4.
Definition LIS_ERR_NOT_IMPLEMENTED : Z := 5.
Definition LIS_ERR_FILE_IO : Z := 6.

(** ** Arrays: lists indexed by Z, every access checked. *)
Definition zlen {A} (l : list A) : Z := Z.of_nat (length l).

Definition rd {A} (a : list A) (i : Z) : res A :=
  if i <? 0 then UB
  else match nth_error a (Z.to_nat i) with Some v => Ok v | None => UB end.

Fixpoint upd_nat {A} (a : list A) (i : nat) (v : A) : list A :=
  match a, i with
  | [], _ => []
  | _ :: t, O => v :: t
  | h :: t, S i' => h :: upd_nat t i' v
  end.

Definition zupd {A} (a : list A) (i : Z) (v : A) : list A :=
  if i <? 0 then a else upd_nat a (Z.to_nat i) v.

Definition wr {A} (a : list A) (i : Z) (v : A) : res (list A) :=
  if (i <? 0) || (zlen a <=? i) then UB else Ok (zupd a i v).

(** Total lookup with a default; only meaningful for indices in range
    (negative indices give the default). *)
Definition znth {A} (d : A) (a : list A) (i : Z) : A :=
  if i <? 0 then d else nth (Z.to_nat i) a d.

(** ** Loops.  [for_ lo hi body s] is  for(i=lo;i<hi;i++) body  *)
Fixpoint for_n {S} (n : nat) (i : Z) (body : Z -> S -> res S) (s : S) : res S :=
  match n with
  | O => Ok s
  | Datatypes.S n' => s' <- body i s ;; for_n n' (i + 1) body s'
  end.

Definition for_ {S} (lo hi : Z) (body : Z -> S -> res S) (s : S) : res S :=
  for_n (Z.to_nat (hi - lo)) lo body s.

(** [for_down hi lo body s] is  for(i=hi;i>=lo;i--) body *)
Fixpoint ford_n {S} (n : nat) (i : Z) (body : Z -> S -> res S) (s : S) : res S :=
  match n with
  | O => Ok s
  | Datatypes.S n' => s' <- body i s ;; ford_n n' (i - 1) body s'
  end.

Definition for_down {S} (hi lo : Z) (body : Z -> S -> res S) (s : S) : res S :=
  ford_n (Z.to_nat (hi - lo + 1)) hi body s.

(** while(cond) body, with fuel; [OUT_OF_FUEL] is an artefact of the model, no
    error code of the library.  Every theorem that uses it shows that the outcome
    is [Ok], i.e. that the fuel suffices (so the C loop terminates). *)
Definition OUT_OF_FUEL : Z := -999.
Fixpoint while_ {S} (fuel : nat) (cond : S -> res bool) (body : S -> res S) (s : S) : res S :=
  match fuel with
  | O => Err OUT_OF_FUEL
  | Datatypes.S f =>
      b <- cond s ;;
      if b : bool then (s' <- body s ;; while_ f cond body s') else Ok s
  end.

(** lis_swap(a[p],a[q],t), src/system/lis_sort.c:61 *)
Definition swap {A} (a : list A) (p q : Z) : res (list A) :=
  x <- rd a p ;; y <- rd a q ;; a <- wr a p y ;; wr a q x.

(** The loop nest  for(i=0;i<n;i++) for(j=ptr[i];j<ptr[i+1];j++) body(i,j)
    used by every routine that walks a compressed format. *)
Definition for_ptr {St} (n : Z) (ptr : list Z) (body : Z -> Z -> St -> res St) (s : St) : res St :=
  for_ 0 n (fun i s =>
    lo <- rd ptr i ;; hi <- rd ptr (i + 1) ;;
    for_ lo hi (body i) s) s.

(** arr[k]++ *)
Definition incr (arr : list Z) (k : Z) : res (list Z) := c <- rd arr k ;; wr arr k (c + 1).

(** Integer ranges [lo, hi) *)
Definition zrange (lo hi : Z) : list Z :=
  map (fun k => lo + Z.of_nat k) (seq 0 (Z.to_nat (hi - lo))).

(** A freshly allocated array of [n] elements with arbitrary contents [j]. *)
Definition alloc {A} (n : Z) (j : Z -> A) : list A := map j (zrange 0 n).

(** ** Weakest preconditions: [wp m Q] says that [m] terminates normally
    (no error code, no undefined behaviour) with a result satisfying [Q]. *)
Definition wp {A} (m : res A) (Q : A -> Prop) : Prop :=
  match m with Ok a => Q a | _ => False end.

Lemma wp_ok {A} (a : A) (Q : A -> Prop) : Q a -> wp (Ok a) Q.
Proof. exact (fun h => h). Qed.

Lemma wp_bind {A B} (m : res A) (f : A -> res B) Q :
  wp m (fun a => wp (f a) Q) -> wp (bind m f) Q.
Proof. destruct m; simpl; auto. Qed.

Lemma wp_mono {A} (m : res A) (P Q : A -> Prop) :
  wp m P -> (forall a, P a -> Q a) -> wp m Q.
Proof. destruct m; simpl; auto. Qed.

Lemma wp_inv {A} (m : res A) Q : wp m Q -> exists a, m = Ok a /\ Q a.
Proof. destruct m; simpl; intros; try contradiction. eauto. Qed.

Lemma wp_intro {A} (m : res A) (Q : A -> Prop) a : m = Ok a -> Q a -> wp m Q.
Proof. intros -> H; exact H. Qed.

Lemma wp_conj {A} (m : res A) (P Q : A -> Prop) : wp m P -> wp m Q -> wp m (fun a => P a /\ Q a).
Proof. destruct m; simpl; auto. Qed.

(** ** Array lemmas *)
Lemma zlen_nonneg {A} (l : list A) : 0 <= zlen l.
Proof. unfold zlen. lia. Qed.

Lemma zlen_nil {A} : zlen (@nil A) = 0. Proof. reflexivity. Qed.
Lemma zlen_cons {A} (x : A) l : zlen (x :: l) = 1 + zlen l.
Proof. unfold zlen; simpl length; lia. Qed.
Lemma zlen_app {A} (l m : list A) : zlen (l ++ m) = zlen l + zlen m.
Proof. unfold zlen; rewrite app_length; lia. Qed.
Lemma zlen_map {A B} (f : A -> B) l : zlen (map f l) = zlen l.
Proof. unfold zlen; rewrite map_length; lia. Qed.
Lemma zlen_repeat {A} (x : A) n : zlen (repeat x n) = Z.of_nat n.
Proof. unfold zlen; rewrite repeat_length; lia. Qed.

Lemma rd_ok {A} (d : A) a i : 0 <= i < zlen a -> rd a i = Ok (znth d a i).
Proof.
  intros [H1 H2]. unfold rd, znth, zlen in *.
  destruct (i <? 0) eqn:E; [apply Z.ltb_lt in E; lia|].
  rewrite (nth_error_nth' a d) by lia. reflexivity.
Qed.

Lemma rd_inv {A} (d : A) a i v : rd a i = Ok v -> 0 <= i < zlen a /\ v = znth d a i.
Proof.
  unfold rd, znth, zlen. destruct (i <? 0) eqn:E; [discriminate|].
  apply Z.ltb_ge in E.
  destruct (nth_error a (Z.to_nat i)) eqn:F; [|discriminate].
  intros H; inversion H; subst. split.
  - assert (nth_error a (Z.to_nat i) <> None) by congruence.
    apply nth_error_Some in H0. lia.
  - symmetry. apply nth_error_nth. exact F.
Qed.

Lemma rd_ub {A} (a : list A) i : ~ (0 <= i < zlen a) -> rd a i = UB.
Proof.
  intros H. unfold rd. destruct (i <? 0) eqn:E; auto. apply Z.ltb_ge in E.
  destruct (nth_error a (Z.to_nat i)) eqn:F; auto.
  assert (nth_error a (Z.to_nat i) <> None) by congruence.
  apply nth_error_Some in H0. unfold zlen in H. lia.
Qed.

Lemma wr_ok {A} (a : list A) i v : 0 <= i < zlen a -> wr a i v = Ok (zupd a i v).
Proof.
  intros [H1 H2]. unfold wr.
  destruct (i <? 0) eqn:E; [apply Z.ltb_lt in E; lia|].
  destruct (zlen a <=? i) eqn:F; [apply Z.leb_le in F; lia|]. reflexivity.
Qed.

Lemma wr_ub {A} (a : list A) i v : ~ (0 <= i < zlen a) -> wr a i v = UB.
Proof.
  intros H. unfold wr.
  destruct (i <? 0) eqn:E; auto. destruct (zlen a <=? i) eqn:F; auto.
  apply Z.ltb_ge in E. apply Z.leb_gt in F. lia.
Qed.

Lemma wr_inv {A} (a a' : list A) i v : wr a i v = Ok a' -> 0 <= i < zlen a /\ a' = zupd a i v.
Proof.
  unfold wr. destruct (i <? 0) eqn:E; simpl; try discriminate.
  destruct (zlen a <=? i) eqn:F; try discriminate.
  intros H; inversion H. apply Z.ltb_ge in E. apply Z.leb_gt in F. auto.
Qed.

Lemma upd_nat_length {A} (a : list A) i v : length (upd_nat a i v) = length a.
Proof. revert i; induction a; destruct i; simpl; auto. Qed.

Lemma zlen_zupd {A} (a : list A) i v : zlen (zupd a i v) = zlen a.
Proof. unfold zupd, zlen. destruct (i <? 0); auto. rewrite upd_nat_length; auto. Qed.

Lemma nth_upd_nat {A} (d : A) a i j v :
  (i < length a)%nat -> nth j (upd_nat a i v) d = if Nat.eqb j i then v else nth j a d.
Proof.
  revert i j; induction a; simpl; intros i j Hi; [lia|].
  destruct i, j; simpl; auto. apply IHa. lia.
Qed.

Lemma znth_zupd {A} (d : A) a i j v :
  0 <= i < zlen a -> znth d (zupd a i v) j = if j =? i then v else znth d a j.
Proof.
  unfold znth, zupd, zlen; intros Hi.
  destruct (i <? 0) eqn:E; [apply Z.ltb_lt in E; lia|].
  destruct (j <? 0) eqn:F.
  - apply Z.ltb_lt in F. destruct (j =? i) eqn:G; auto. apply Z.eqb_eq in G; lia.
  - apply Z.ltb_ge in F. rewrite nth_upd_nat by lia.
    destruct (j =? i) eqn:G.
    + apply Z.eqb_eq in G; subst. rewrite Nat.eqb_refl; auto.
    + apply Z.eqb_neq in G. destruct (Nat.eqb_spec (Z.to_nat j) (Z.to_nat i)); auto. lia.
Qed.

Lemma znth_zupd_eq {A} (d : A) a i v : 0 <= i < zlen a -> znth d (zupd a i v) i = v.
Proof. intros H; rewrite znth_zupd by auto. rewrite Z.eqb_refl; auto. Qed.

Lemma znth_zupd_neq {A} (d : A) a i j v : 0 <= i < zlen a -> j <> i -> znth d (zupd a i v) j = znth d a j.
Proof. intros H N; rewrite znth_zupd by auto. apply Z.eqb_neq in N; rewrite N; auto. Qed.

Lemma znth_indep {A} (d d' : A) a i : 0 <= i < zlen a -> znth d a i = znth d' a i.
Proof.
  unfold znth, zlen. intros H. destruct (i <? 0) eqn:E; [apply Z.ltb_lt in E; lia|].
  apply nth_indep. lia.
Qed.

Lemma list_ext {A} (d : A) (a b : list A) :
  zlen a = zlen b -> (forall i, 0 <= i < zlen a -> znth d a i = znth d b i) -> a = b.
Proof.
  unfold zlen; intros Hl He. apply (nth_ext a b d d); [lia|].
  intros n Hn. specialize (He (Z.of_nat n)). unfold znth in He.
  destruct (Z.of_nat n <? 0) eqn:E; [apply Z.ltb_lt in E; lia|].
  rewrite Nat2Z.id in He. apply He. lia.
Qed.

Lemma znth_app {A} (d : A) a b i :
  0 <= i -> znth d (a ++ b) i = if i <? zlen a then znth d a i else znth d b (i - zlen a).
Proof.
  unfold znth, zlen; intros H. destruct (i <? 0) eqn:E; [apply Z.ltb_lt in E; lia|].
  destruct (i <? Z.of_nat (length a)) eqn:F.
  - apply Z.ltb_lt in F. apply app_nth1. lia.
  - apply Z.ltb_ge in F. destruct (i - Z.of_nat (length a) <? 0) eqn:G; [apply Z.ltb_lt in G; lia|].
    rewrite app_nth2 by lia. f_equal. lia.
Qed.

Lemma znth_map {A B} (f : A -> B) (d : A) (d' : B) a i :
  0 <= i < zlen a -> znth d' (map f a) i = f (znth d a i).
Proof.
  unfold znth, zlen; intros H. destruct (i <? 0) eqn:E; [apply Z.ltb_lt in E; lia|].
  rewrite (nth_indep _ d' (f d)) by (rewrite map_length; lia). apply map_nth.
Qed.

Lemma znth_repeat {A} (d x : A) n i : 0 <= i < Z.of_nat n -> znth d (repeat x n) i = x.
Proof.
  unfold znth; intros H. destruct (i <? 0) eqn:E; [apply Z.ltb_lt in E; lia|].
  rewrite (nth_indep _ d x) by (rewrite repeat_length; lia). apply nth_repeat.
Qed.

Lemma znth_In {A} (d : A) l i : 0 <= i < zlen l -> In (znth d l i) l.
Proof.
  unfold znth, zlen; intros H. destruct (i <? 0) eqn:E; [apply Z.ltb_lt in E; lia|].
  apply nth_In. lia.
Qed.

Lemma In_znth {A} (d : A) l x : In x l -> exists i, 0 <= i < zlen l /\ znth d l i = x.
Proof.
  intros H. destruct (In_nth l x d H) as (n & Hn & E).
  exists (Z.of_nat n). unfold zlen, znth. split; [lia|].
  destruct (Z.of_nat n <? 0) eqn:F; [apply Z.ltb_lt in F; lia|]. rewrite Nat2Z.id; auto.
Qed.

Lemma zupd_zupd_same {A} (a : list A) i v w : zupd (zupd a i v) i w = zupd a i w.
Proof.
  unfold zupd. destruct (i <? 0); auto.
  generalize (Z.to_nat i). induction a; destruct n; simpl; auto. f_equal; auto.
Qed.

Lemma zupd_id {A} (d : A) a i : 0 <= i < zlen a -> zupd a i (znth d a i) = a.
Proof.
  intros H. apply (list_ext d); rewrite zlen_zupd; auto. intros j Hj.
  rewrite znth_zupd by auto. destruct (j =? i) eqn:E; auto. apply Z.eqb_eq in E; subst; auto.
Qed.

(** ** Ranges *)
Lemma zlen_zrange lo hi : zlen (zrange lo hi) = Z.max 0 (hi - lo).
Proof. unfold zlen, zrange. rewrite map_length, seq_length. lia. Qed.

Lemma znth_zrange d lo hi i : 0 <= i < hi - lo -> znth d (zrange lo hi) i = lo + i.
Proof.
  intros H. unfold zrange. rewrite znth_map with (d := O).
  - unfold znth. destruct (i <? 0) eqn:E; [apply Z.ltb_lt in E; lia|].
    rewrite seq_nth by lia. lia.
  - unfold zlen. rewrite seq_length. lia.
Qed.

Lemma In_zrange lo hi x : In x (zrange lo hi) <-> lo <= x < hi.
Proof.
  unfold zrange. rewrite in_map_iff. split.
  - intros (k & E & H). apply in_seq in H. lia.
  - intros H. exists (Z.to_nat (x - lo)). split; [lia|]. apply in_seq. lia.
Qed.

Lemma zrange_empty lo hi : hi <= lo -> zrange lo hi = [].
Proof. intros H. unfold zrange. replace (Z.to_nat (hi - lo)) with O by lia. reflexivity. Qed.

Lemma zrange_cons lo hi : lo < hi -> zrange lo hi = lo :: zrange (lo + 1) hi.
Proof.
  intros H. unfold zrange.
  replace (Z.to_nat (hi - lo)) with (S (Z.to_nat (hi - (lo + 1)))) by lia.
  simpl. f_equal; [lia|]. rewrite <- seq_shift, map_map. apply map_ext. intros; lia.
Qed.

Lemma zrange_app lo mid hi : lo <= mid <= hi -> zrange lo hi = zrange lo mid ++ zrange mid hi.
Proof.
  intros H. unfold zrange.
  replace (Z.to_nat (hi - lo)) with (Z.to_nat (mid - lo) + Z.to_nat (hi - mid))%nat by lia.
  rewrite seq_app, map_app. f_equal. simpl.
  replace (seq (Z.to_nat (mid - lo)) (Z.to_nat (hi - mid)))
    with (map (fun k => (Z.to_nat (mid - lo) + k)%nat) (seq 0 (Z.to_nat (hi - mid)))).
  - rewrite map_map. apply map_ext. intros. lia.
  - generalize (Z.to_nat (mid - lo)) (Z.to_nat (hi - mid)). intros a b.
    clear. revert a. induction b; intros; simpl; auto. rewrite Nat.add_0_r. f_equal.
    rewrite <- (IHb (S a)). rewrite <- seq_shift, map_map. apply map_ext. intros; lia.
Qed.

Lemma zrange_snoc lo hi : lo <= hi -> zrange lo (hi + 1) = zrange lo hi ++ [hi].
Proof.
  intros H. rewrite (zrange_app lo hi (hi + 1)) by lia.
  rewrite (zrange_cons hi) by lia. rewrite (zrange_empty (hi + 1)) by lia. reflexivity.
Qed.

Lemma NoDup_zrange lo hi : NoDup (zrange lo hi).
Proof.
  unfold zrange. apply FinFun.Injective_map_NoDup; [intros a b; lia|apply seq_NoDup].
Qed.

Lemma zrange_shift lo hi k : zrange (lo + k) (hi + k) = map (fun x => x + k) (zrange lo hi).
Proof.
  unfold zrange. rewrite map_map. replace (hi + k - (lo + k)) with (hi - lo) by lia.
  apply map_ext. intros; lia.
Qed.

Lemma zlen_alloc {A} n (j : Z -> A) : 0 <= n -> zlen (alloc n j) = n.
Proof. intros H. unfold alloc. rewrite zlen_map, zlen_zrange. lia. Qed.

Lemma znth_alloc {A} d n (j : Z -> A) i : 0 <= i < n -> znth d (alloc n j) i = j i.
Proof.
  intros H. unfold alloc. rewrite znth_map with (d := 0).
  - rewrite znth_zrange by lia. f_equal; lia.
  - rewrite zlen_zrange. lia.
Qed.

(** Every list is the table of its elements *)
Lemma list_table {A} (d : A) l : l = map (znth d l) (zrange 0 (zlen l)).
Proof.
  apply (list_ext d).
  - rewrite zlen_map, zlen_zrange. pose proof (zlen_nonneg l). lia.
  - intros i Hi. rewrite znth_map with (d := 0) by (rewrite zlen_zrange; lia).
    rewrite znth_zrange by lia. f_equal; lia.
Qed.

(** ** Loop rules *)
Lemma for_n_wp {S} (I : Z -> S -> Prop) body n lo s :
  I lo s ->
  (forall i s, lo <= i < lo + Z.of_nat n -> I i s -> wp (body i s) (I (i + 1))) ->
  wp (for_n n lo body s) (I (lo + Z.of_nat n)).
Proof.
  revert lo s. induction n; intros lo s H0 Hs.
  - simpl. replace (lo + 0) with lo by lia. exact H0.
  - cbn [for_n]. apply wp_bind. eapply wp_mono; [apply Hs; [lia|exact H0]|].
    intros s' Hs'. replace (lo + Z.of_nat (Datatypes.S n)) with (lo + 1 + Z.of_nat n) by lia.
    apply IHn; auto. intros. apply Hs; auto. lia.
Qed.

Lemma for_wp {S} (I : Z -> S -> Prop) lo hi body s :
  lo <= hi -> I lo s ->
  (forall i s, lo <= i < hi -> I i s -> wp (body i s) (I (i + 1))) ->
  wp (for_ lo hi body s) (I hi).
Proof.
  intros H H0 Hs. unfold for_.
  replace (I hi) with (I (lo + Z.of_nat (Z.to_nat (hi - lo)))) by (f_equal; lia).
  apply for_n_wp; auto. intros. apply Hs; auto. lia.
Qed.

Lemma for_wp' {S} (I : Z -> S -> Prop) lo hi body s (Q : S -> Prop) :
  lo <= hi -> I lo s ->
  (forall i s, lo <= i < hi -> I i s -> wp (body i s) (I (i + 1))) ->
  (forall s, I hi s -> Q s) ->
  wp (for_ lo hi body s) Q.
Proof. intros. eapply wp_mono; [eapply for_wp; eauto|auto]. Qed.

Lemma ford_wp' {S} (I : Z -> S -> Prop) hi lo body s (Q : S -> Prop) :
  lo <= hi + 1 -> I hi s ->
  (forall i s, lo <= i <= hi -> I i s -> wp (body i s) (I (i - 1))) ->
  (forall s, I (lo - 1) s -> Q s) ->
  wp (for_down hi lo body s) Q.
Proof.
  intros H H0 Hs HQ. eapply wp_mono; [|exact HQ]. unfold for_down.
  assert (E : lo - 1 = hi - Z.of_nat (Z.to_nat (hi - lo + 1))) by lia.
  rewrite E. assert (Hs' : forall i s, hi - Z.of_nat (Z.to_nat (hi - lo + 1)) < i <= hi -> I i s -> wp (body i s) (I (i - 1))).
  { intros; apply Hs; auto; lia. }
  clear HQ Hs E. revert Hs'. generalize (Z.to_nat (hi - lo + 1)). intros n. clear H. revert hi s H0.
  induction n; intros hi s H0 Hs.
  - simpl. replace (hi - 0) with hi by lia. exact H0.
  - cbn [ford_n]. apply wp_bind. eapply wp_mono; [apply Hs; [lia|exact H0]|].
    intros s' Hs'. replace (hi - Z.of_nat (Datatypes.S n)) with (hi - 1 - Z.of_nat n) by lia.
    apply IHn; auto. intros. apply Hs; auto. lia.
Qed.

(** while rule: invariant [I], measure [m] *)
Lemma while_wp {S} (I : S -> Prop) (m : S -> Z) fuel cond body s (Q : S -> Prop) :
  I s -> m s < Z.of_nat fuel ->
  (forall s, I s -> 0 <= m s /\ wp (cond s) (fun b : bool => if b then wp (body s) (fun s' => I s' /\ m s' < m s) else Q s)) ->
  wp (while_ fuel cond body s) Q.
Proof.
  revert s. induction fuel; intros s HI Hm H.
  - destruct (H s HI). lia.
  - cbn [while_]. apply wp_bind. destruct (H s HI) as [H1 H2]. eapply wp_mono; [exact H2|].
    intros [|] Hb; [|exact Hb]. apply wp_bind. eapply wp_mono; [exact Hb|]. intros s' [HI' Hm'].
    apply IHfuel; auto. lia.
Qed.

Lemma for_empty {S} lo hi (body : Z -> S -> res S) s : hi <= lo -> for_ lo hi body s = Ok s.
Proof. intros. unfold for_. replace (Z.to_nat (hi - lo)) with O by lia. reflexivity. Qed.

Lemma for_step {S} lo hi (body : Z -> S -> res S) s :
  lo < hi -> for_ lo hi body s = bind (body lo s) (fun s' => for_ (lo + 1) hi body s').
Proof.
  intros. unfold for_. replace (Z.to_nat (hi - lo)) with (Datatypes.S (Z.to_nat (hi - (lo + 1)))) by lia.
  reflexivity.
Qed.

Lemma wp_rd {A} (d : A) a i (Q : A -> Prop) : 0 <= i < zlen a -> Q (znth d a i) -> wp (rd a i) Q.
Proof. intros H HQ. rewrite (rd_ok d) by auto. exact HQ. Qed.

Lemma wp_wr {A} (a : list A) i v (Q : list A -> Prop) : 0 <= i < zlen a -> Q (zupd a i v) -> wp (wr a i v) Q.
Proof. intros H HQ. rewrite wr_ok by auto. exact HQ. Qed.

Lemma wp_swap {A} (d : A) a p q (Q : list A -> Prop) :
  0 <= p < zlen a -> 0 <= q < zlen a ->
  (forall a', zlen a' = zlen a ->
     (forall i, znth d a' i = if i =? q then znth d a p else if i =? p then znth d a q else znth d a i) ->
     Q a') ->
  wp (swap a p q) Q.
Proof.
  intros Hp Hq HQ. unfold swap. apply wp_bind, (wp_rd d); [lia|]. apply wp_bind, (wp_rd d); [lia|].
  apply wp_bind, wp_wr; [lia|]. apply wp_wr; [rewrite zlen_zupd; lia|]. apply HQ.
  - rewrite !zlen_zupd; auto.
  - intros i. rewrite znth_zupd by (rewrite zlen_zupd; lia). destruct (i =? q); auto.
    rewrite znth_zupd by lia. auto.
Qed.

Lemma bind_assoc {A B C} (m : res A) (f : A -> res B) (g : B -> res C) :
  bind (bind m f) g = bind m (fun a => bind (f a) g).
Proof. destruct m; reflexivity. Qed.

(** ** Tactics *)
Ltac len := repeat rewrite zlen_zupd in *; try rewrite !zlen_alloc in * by lia; lia.
(** one step of symbolic execution; [d] is the default element for reads *)
Ltac wbind := apply wp_bind.
Ltac wrd d := first [ apply (wp_rd d) | apply wp_bind; apply (wp_rd d) ].
Ltac wwr := first [ apply wp_wr | apply wp_bind; apply wp_wr ].
(** split [znth (zupd ..)] lookups into the two cases *)
Ltac updcase :=
  match goal with
  | |- context [znth ?d (zupd ?a ?i ?v) ?j] =>
      rewrite (znth_zupd d a i j v) by (try len);
      destruct (Z.eqb_spec j i)
  end.
