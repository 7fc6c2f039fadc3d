(** n+1 vectors of n components are linearly dependent; a triangular dual system has at
    most n members.  No code of the library. *)
Require Import List Lia Field Field_theory Arith.
From Verif Require Import Scalar.
Import ListNotations.

Section L.
Context {T : Type} {S : Scalar T}.
Hypothesis FT : is_field S.
Hypothesis EQ : eqb_ok S.
Let RT : is_ring S := F_R FT.
Let FT' : @field_theory T s0 s1 sadd smul ssub sopp sdiv (fun x => sdiv s1 x) (@eq T) := FT.
Add Field F : FT'.

Fixpoint comb (cs : list T) (l : list (nat -> T)) (i : nat) : T :=
  match cs, l with c :: cs, v :: l => sadd (smul c (v i)) (comb cs l i) | _, _ => s0 end.

Lemma comb_app cs ds l m i : length cs = length l -> comb (cs ++ ds) (l ++ m) i = sadd (comb cs l i) (comb ds m i).
Proof.
  revert l; induction cs as [|c cs IH]; intros [|v l] H; cbn [app comb length] in *; try discriminate.
  - ring.
  - rewrite IH by lia. ring.
Qed.
Lemma comb_elim (cs : list T) (l : list (nat -> T)) (v : nat -> T) (f : (nat -> T) -> T) i :
  comb cs (map (fun w i => ssub (w i) (smul (f w) (v i))) l) i =
  ssub (comb cs l i) (smul (ssum (map (fun p => smul (fst p) (f (snd p))) (combine cs l))) (v i)).
Proof.
  revert l; induction cs as [|c cs IH]; intros [|w l]; cbn [map comb combine ssum fst snd]; try ring.
  rewrite IH. ring.
Qed.
Lemma find_pivot n (l : list (nat -> T)) :
  (forall v, In v l -> v n = s0) \/ exists l1 v l2, l = l1 ++ v :: l2 /\ v n <> s0.
Proof.
  induction l as [|v l IH]; [left; intros ? []|].
  destruct (seqb (v n) s0) eqn:E.
  - apply EQ in E. destruct IH as [IH|(l1 & w & l2 & -> & H)].
    + left. intros w [<-|H]; auto.
    + right. exists (v :: l1), w, l2. split; auto.
  - right. exists [], v, l. split; [reflexivity|]. intros H. apply EQ in H. congruence.
Qed.
Lemma comb_zero_at n cs l : (forall v, In v l -> v n = s0) -> comb cs l n = s0.
Proof.
  revert l; induction cs as [|c cs IH]; intros [|v l] H; cbn [comb]; auto.
  rewrite IH by (intros; apply H; right; auto). rewrite (H v) by (left; auto). ring.
Qed.

Lemma lin_dep n : forall l : list (nat -> T), n < length l ->
  exists cs, length cs = length l /\ (exists c, In c cs /\ c <> s0) /\ forall i, i < n -> comb cs l i = s0.
Proof.
  induction n as [|n IH]; intros l Hl.
  - exists (map (fun _ => s1) l). rewrite map_length. split; [reflexivity|]. split; [|intros; lia].
    destruct l; [cbn in Hl; lia|]. exists s1. split; [left; reflexivity|]. exact (F_1_neq_0 FT).
  - destruct (find_pivot n l) as [H|(l1 & v & l2 & -> & Hv)].
    + destruct (IH l ltac:(lia)) as (cs & H1 & H2 & H3). exists cs. split; [auto|]. split; [auto|].
      intros i Hi. destruct (Nat.eq_dec i n) as [->|]; [apply comb_zero_at; auto|apply H3; lia].
    + rewrite app_length in Hl. cbn [length] in Hl.
      set (f := fun w : nat -> T => sdiv (w n) (v n)).
      destruct (IH (map (fun w i => ssub (w i) (smul (f w) (v i))) (l1 ++ l2))) as (cs & H1 & (c & H2 & H2') & H3).
      { rewrite map_length, app_length. lia. }
      rewrite map_length, app_length in H1.
      set (c1 := firstn (length l1) cs). set (c2 := skipn (length l1) cs).
      assert (Hc : cs = c1 ++ c2) by (symmetry; apply firstn_skipn).
      assert (L1 : length c1 = length l1) by (unfold c1; rewrite firstn_length; lia).
      assert (L2 : length c2 = length l2) by (unfold c2; rewrite skipn_length; lia).
      set (s := ssum (map (fun p => smul (fst p) (f (snd p))) (combine cs (l1 ++ l2)))) in *.
      exists (c1 ++ sopp s :: c2). split; [rewrite !app_length; cbn [length]; lia|]. split.
      { exists c. split; auto. rewrite Hc in H2. apply in_app_iff in H2. apply in_app_iff. cbn [In]. tauto. }
      assert (E : forall i, comb (c1 ++ sopp s :: c2) (l1 ++ v :: l2) i = comb cs (map (fun w i => ssub (w i) (smul (f w) (v i))) (l1 ++ l2)) i).
      { intros i. rewrite comb_elim. fold s. rewrite Hc, !comb_app by auto. cbn [comb]. ring. }
      intros i Hi. rewrite E. destruct (Nat.eq_dec i n) as [->|]; [|apply H3; lia].
      apply comb_zero_at. intros w Hw. apply in_map_iff in Hw. destruct Hw as (u & <- & _). unfold f. field. auto.
Qed.

Lemma sum0 {A} (f : A -> T) l : (forall x, In x l -> f x = s0) -> ssum (map f l) = s0.
Proof. intros H. transitivity (ssum (map (fun _ : A => s0) l)); [apply ssum_map_ext; auto|apply (ssum_map_zero RT)]. Qed.
(** pairs (v, g), newest first; the functional of each annihilates the older vectors *)
Variable n : nat.
Definition pair_ (g v : nat -> T) : T := ssum (map (fun i => smul (g i) (v i)) (seq 0 n)).
Inductive dual : list ((nat -> T) * (nat -> T)) -> Prop :=
| dual_nil : dual []
| dual_cons v g l : pair_ g v <> s0 -> (forall w, In w (map fst l) -> pair_ g w = s0) -> dual l -> dual ((v, g) :: l).
Lemma pair_comb g cs l : (forall i, i < n -> comb cs l i = s0) ->
  ssum (map (fun p => smul (fst p) (pair_ g (snd p))) (combine cs l)) = s0.
Proof.
  intros H.
  assert (E : ssum (map (fun p => smul (fst p) (pair_ g (snd p))) (combine cs l)) = pair_ g (comb cs l)).
  { clear H. revert l; induction cs as [|c cs IH]; intros [|v l]; cbn [combine map ssum fst snd].
    1,2,3: symmetry; apply sum0; intros; cbn [comb]; ring.
    rewrite IH. unfold pair_. rewrite <- (ssum_map_mul_l RT), <- (ssum_map_add RT). apply ssum_map_ext. intros. cbn [comb]. ring. }
  rewrite E. apply sum0. intros i Hi.
  apply in_seq in Hi. rewrite H by lia. ring.
Qed.
Lemma dual_indep l : dual l -> forall cs, length cs = length l -> (forall i, i < n -> comb cs (map fst l) i = s0) -> forall c, In c cs -> c = s0.
Proof.
  induction 1 as [|v g l Hv Hw Hd IH]; intros [|c cs] Hl Hz d Hin; cbn [length] in Hl; try lia; [destruct Hin|].
  assert (C0 : c = s0).
  { pose proof (pair_comb g _ _ Hz) as P. cbn [map fst combine ssum snd] in P.
    assert (Z0 : ssum (map (fun p => smul (fst p) (pair_ g (snd p))) (combine cs (map fst l))) = s0).
    { apply sum0. intros [a w] Hp.
      apply in_combine_r in Hp. cbn [fst snd]. rewrite Hw by auto. ring. }
    rewrite Z0 in P. assert (E : c = sdiv (sadd (smul c (pair_ g v)) s0) (pair_ g v)) by (field; auto).
    rewrite E, P. field. auto. }
  destruct Hin as [<-|Hin]; auto.
  apply (IH cs); auto.
  intros i Hi. specialize (Hz i Hi). cbn [map fst comb] in Hz. rewrite C0 in Hz. rewrite <- Hz. ring.
Qed.
Lemma dual_length l : dual l -> length l <= n.
Proof.
  intros H. destruct (le_lt_dec (length l) n) as [|Hl]; auto. exfalso.
  destruct (lin_dep n (map fst l)) as (cs & H1 & (c & H2 & H3) & H4); [rewrite map_length; lia|].
  rewrite map_length in H1. apply H3. apply (dual_indep l H cs); auto.
Qed.
End L.
