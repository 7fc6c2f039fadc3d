Require Import ZArith List Bool Lia.
From Verif Require Import Base Omp.
Import ListNotations.
Open Scope Z_scope.

Lemma cell_eqb_spec a b : reflect (a = b) (cell_eqb a b).
Proof.
  unfold cell_eqb. destruct a as [a1 a2], b as [b1 b2]. cbn [fst snd]. destruct (Z.eqb_spec a1 b1), (Z.eqb_spec a2 b2); cbn [andb]; constructor; congruence.
Qed.
Lemma put_same {T} (s : store T) a v : put s a v a = v.
Proof. unfold put. destruct (cell_eqb_spec a a); congruence. Qed.
Lemma put_other {T} (s : store T) a v c : c <> a -> put s a v c = s c.
Proof. unfold put. destruct (cell_eqb_spec c a); congruence. Qed.

Section S.
Context {T : Type}.
Implicit Types (p q : prog T) (s : store T).

Lemma within_seq R W p q : within R W p -> within R W q -> within R W (seq p q).
Proof. intros Hp Hq. induction p; cbn [seq within] in *; [auto| |]; destruct Hp; auto. Qed.
Lemma run_seq p q s : run (seq p q) s = run q (run p s).
Proof. revert s. induction p; intros s; cbn [seq run]; auto. Qed.
Lemma within_mono (R W R' W' : cell -> Prop) p : (forall c, R c -> R' c) -> (forall c, W c -> W' c) -> within R W p -> within R' W' p.
Proof. intros HR HW. induction p; cbn [within]; auto. - intros (H1 & H2). split; auto. - intros (H1 & H2). auto. Qed.

(** a thread changes only W, and its effect on W depends only on R and W *)
Lemma run_frame R W p : within R W p -> forall s c, ~ W c -> run p s c = s c.
Proof.
  induction p; cbn [within run]; auto.
  - intros (H1 & H2) s c Hc. apply H; auto.
  - intros (H1 & H2) s c Hc. rewrite IHp by auto. apply put_other. intros ->. auto.
Qed.
Lemma run_agree R W p : within R W p -> forall s s', (forall c, R c \/ W c -> s c = s' c) -> forall c, W c -> run p s c = run p s' c.
Proof.
  induction p; cbn [within run]; intros Hw s s' Hs c Hc; auto.
  - destruct Hw as (H1 & H2). rewrite (Hs a) by auto. apply H; auto.
  - destruct Hw as (H1 & H2). apply IHp; auto. intros d Hd. unfold put. destruct (cell_eqb_spec d a); auto.
Qed.

(** threads whose writes nobody else reads or writes *)
Definition disjoint_threads (R W : nat -> cell -> Prop) : Prop :=
  forall i j c, i <> j -> W i c -> ~ R j c /\ ~ W j c.

Lemma nth_error_mid {A} (l : list A) x r i :
  nth_error (l ++ x :: r) i = if Nat.eqb i (length l) then Some x else nth_error (l ++ x :: r) i.
Proof.
  destruct (Nat.eqb_spec i (length l)); [|auto]. subst. rewrite nth_error_app2 by lia. rewrite Nat.sub_diag. reflexivity.
Qed.
Lemma nth_error_mid_other {A} (l : list A) x y r i : i <> length l -> nth_error (l ++ x :: r) i = nth_error (l ++ y :: r) i.
Proof.
  intros H. destruct (Nat.lt_ge_cases i (length l)).
  - rewrite !nth_error_app1 by auto. auto.
  - rewrite !nth_error_app2 by lia. destruct (i - length l)%nat eqn:E; [lia|]. reflexivity.
Qed.

(** invariant of an execution started with ps in s0 *)
Definition inv (R W : nat -> cell -> Prop) (ps : list (prog T)) (s0 : store T) (c : list (prog T) * store T) : Prop :=
  length (fst c) = length ps /\
  (forall i p, nth_error (fst c) i = Some p -> within (R i) (W i) p) /\
  (forall i p q, nth_error ps i = Some p -> nth_error (fst c) i = Some q -> forall a, W i a -> run q (snd c) a = run p s0 a) /\
  (forall a, (forall i p, nth_error ps i = Some p -> ~ W i a) -> snd c a = s0 a).

Lemma inv_step R W ps s0 c c' : disjoint_threads R W -> inv R W ps s0 c -> step c c' -> inv R W ps s0 c'.
Proof.
  intros HD (HL & HW & HR & HF) St. inversion St; subst; unfold inv; cbn [fst snd] in *.
  - assert (Hi : nth_error (l ++ Read a k :: r) (length l) = Some (Read a k)) by (rewrite nth_error_mid, Nat.eqb_refl; auto).
    split; [rewrite !app_length in *; cbn [length] in *; auto|].
    split. { intros i p Hp. rewrite nth_error_mid in Hp. destruct (Nat.eqb_spec i (length l)).
      - inversion Hp; subst. pose proof (HW _ _ Hi) as (_ & H). apply H.
      - apply HW. rewrite <- Hp. apply nth_error_mid_other; auto. }
    split; [|auto].
    intros i p q Hp Hq b Hb. rewrite nth_error_mid in Hq. destruct (Nat.eqb_spec i (length l)).
    + inversion Hq; subst. rewrite <- (HR _ _ _ Hp Hi b Hb). reflexivity.
    + apply (HR i); auto. rewrite <- Hq. apply nth_error_mid_other; auto.
  - assert (Hi : nth_error (l ++ Write a v k :: r) (length l) = Some (Write a v k)) by (rewrite nth_error_mid, Nat.eqb_refl; auto).
    pose proof (HW _ _ Hi) as (Wa & Wk).
    split; [rewrite !app_length in *; cbn [length] in *; auto|].
    split. { intros i p Hp. rewrite nth_error_mid in Hp. destruct (Nat.eqb_spec i (length l)).
      - inversion Hp; subst. auto.
      - apply HW. rewrite <- Hp. apply nth_error_mid_other; auto. }
    split.
    + intros i p q Hp Hq b Hb. rewrite nth_error_mid in Hq. destruct (Nat.eqb_spec i (length l)).
      * inversion Hq; subst. rewrite <- (HR _ _ _ Hp Hi b Hb). reflexivity.
      * rewrite nth_error_mid_other with (y := Write a v k) in Hq by auto.
        rewrite <- (HR i p q Hp Hq b Hb). apply (run_agree (R i) (W i)); auto.
        intros d Hd. apply put_other. intros ->. destruct (HD (length l) i a) as (N1 & N2); auto. tauto.
    + intros b Hb. rewrite put_other; [apply HF; auto|]. intros ->.
      destruct (nth_error ps (length l)) as [p|] eqn:E; [apply (Hb _ _ E); auto|].
      apply nth_error_None in E. rewrite <- HL, app_length in E. cbn [length] in E. lia.
Qed.

(** Race-free threads: every execution ends in the same store, in which each thread's
    cells hold what the thread alone would have written. *)
Theorem race_free R W ps s s' : disjoint_threads R W -> (forall i p, nth_error ps i = Some p -> within (R i) (W i) p) ->
  exec ps s s' ->
  (forall i p, nth_error ps i = Some p -> forall a, W i a -> s' a = run p s a) /\
  (forall a, (forall i p, nth_error ps i = Some p -> ~ W i a) -> s' a = s a).
Proof.
  intros HD HW (ds & Hds & St).
  assert (I0 : inv R W ps s (ps, s)).
  { split; [auto|]. split; [auto|]. split; [|auto]. cbn [fst snd]. intros i p q Hp Hq. rewrite Hp in Hq. inversion Hq; subst. auto. }
  assert (I1 : inv R W ps s (ds, s')).
  { revert I0 St. generalize (ps, s). intros c I0 St. remember (ds, s') as c'. induction St; [subst; auto|]. apply IHSt; auto. eapply inv_step; eauto. }
  destruct I1 as (HL & _ & HR & HF). cbn [fst snd] in *. split; [|auto].
  intros i p Hp a Ha. destruct (nth_error ds i) as [q|] eqn:E.
  - rewrite <- (HR _ _ _ Hp E a Ha). rewrite Forall_forall in Hds. rewrite (Hds q) by (eapply nth_error_In; eauto). reflexivity.
  - apply nth_error_None in E. assert (i < length ps)%nat by (apply nth_error_Some; congruence). lia.
Qed.

(** some execution exists: run the threads one after the other *)
Lemma steps_trans (a b c : list (prog T) * store T) : steps a b -> steps b c -> steps a c.
Proof. intros H. induction H; auto. intros. econstructor; eauto. Qed.
Lemma steps_one l p r s : steps (l ++ p :: r, s) (l ++ Done :: r, run p s).
Proof.
  revert s. induction p; intros s; cbn [run].
  - constructor.
  - econstructor; [constructor|]. apply H.
  - econstructor; [constructor|]. apply IHp.
Qed.
Lemma steps_all : forall ps ds s, steps (ds ++ ps, s) (ds ++ map (fun _ => Done) ps, fold_left (fun s p => run p s) ps s).
Proof.
  induction ps as [|p ps IH]; intros ds s; cbn [map fold_left]; [constructor|].
  eapply steps_trans; [apply steps_one|]. specialize (IH (ds ++ [Done]) (run p s)). rewrite <- !app_assoc in IH. exact IH.
Qed.
Theorem serial_exec ps s : exec ps s (run (fold_right seq Done ps) s).
Proof.
  exists (map (fun _ => Done) ps). split; [apply Forall_forall; intros p Hp; apply in_map_iff in Hp; destruct Hp as (? & <- & _); auto|].
  replace (run (fold_right seq Done ps) s) with (fold_left (fun s p => run p s) ps s); [apply (steps_all ps [])|].
  revert s. induction ps as [|p ps IH]; intros s; cbn [fold_left fold_right]; [auto|]. rewrite IH, run_seq. auto.
Qed.

(** *** parallel for *)
Lemma nth_par_for n (body : Z -> prog T) i p : nth_error (par_for n body) i = Some p -> p = body (Z.of_nat i) /\ 0 <= Z.of_nat i < n.
Proof.
  unfold par_for. intros H. assert (L : (i < Z.to_nat n)%nat).
  { assert (X : nth_error (map (fun i => body (Z.of_nat i)) (List.seq 0 (Z.to_nat n))) i <> None) by congruence.
    apply nth_error_Some in X. rewrite map_length, seq_length in X. auto. }
  rewrite nth_error_map in H. rewrite (nth_error_nth' _ 0%nat) in H by (rewrite seq_length; auto). rewrite seq_nth in H by auto.
  cbn in H. inversion H. split; [auto|lia].
Qed.
Lemma par_for_nth n (body : Z -> prog T) i : 0 <= i < n -> nth_error (par_for n body) (Z.to_nat i) = Some (body i).
Proof.
  intros H. unfold par_for. rewrite nth_error_map. rewrite (nth_error_nth' _ 0%nat) by (rewrite seq_length; lia). rewrite seq_nth by lia.
  cbn. f_equal. f_equal. lia.
Qed.

(** iteration i writes only cells of W i, which no other iteration touches *)
Theorem par_for_spec n (body : Z -> prog T) (R W : Z -> cell -> Prop) s s' :
  (forall i, 0 <= i < n -> within (R i) (W i) (body i)) ->
  (forall i j c, 0 <= i < n -> 0 <= j < n -> i <> j -> W i c -> ~ R j c /\ ~ W j c) ->
  exec (par_for n body) s s' ->
  (forall i c, 0 <= i < n -> W i c -> s' c = run (body i) s c) /\
  (forall c, (forall i, 0 <= i < n -> ~ W i c) -> s' c = s c).
Proof.
  intros HW HD HE.
  set (R' := fun i c => 0 <= Z.of_nat i < n /\ R (Z.of_nat i) c). set (W' := fun i c => 0 <= Z.of_nat i < n /\ W (Z.of_nat i) c).
  assert (D' : disjoint_threads R' W').
  { intros i j c Hij (Hi & Hw). split; intros (Hj & H); destruct (HD (Z.of_nat i) (Z.of_nat j) c); auto; lia. }
  assert (HW' : forall i p, nth_error (par_for n body) i = Some p -> within (R' i) (W' i) p).
  { intros i p Hp. apply nth_par_for in Hp. destruct Hp as (-> & Hi). eapply within_mono; [| |apply (HW _ Hi)]; intros c Hc; split; auto. }
  destruct (race_free R' W' _ s s' D' HW' HE) as (H1 & H2). split.
  - intros i c Hi Hc. apply (H1 (Z.to_nat i)); [apply par_for_nth; auto|]. split; rewrite Z2Nat.id by lia; auto.
  - intros c Hc. apply H2. intros i p Hp (Hi & Hw). apply (Hc (Z.of_nat i)); auto.
Qed.

(** the serial loop is one execution *)
Lemma ser_for_exec n (body : Z -> prog T) s : exec (par_for n body) s (run (ser_for n body) s).
Proof. apply serial_exec. Qed.
End S.
