(** Filling the lines of L and U one after the other *)
Require Import ZArith List Bool Lia Permutation.
From Verif Require Import Base Scalar Spec Items Split SplitFmt TriLines.
Import ListNotations.
Open Scope Z_scope.

Section S.
Context {T : Type} {S : Scalar T}.
Definition seg (ix : list Z) (vl : list T) (lo hi : Z) : list (Z * T) := map (fun k => (znth 0 ix k, znth s0 vl k)) (zrange lo hi).
Lemma seg_ext ix vl ix' vl' lo hi : (forall k, lo <= k < hi -> znth 0 ix' k = znth 0 ix k /\ znth s0 vl' k = znth s0 vl k) -> seg ix' vl' lo hi = seg ix vl lo hi.
Proof. intros H. apply map_ext_in. intros k Hk. apply In_zrange in Hk. destruct (H k Hk) as [-> ->]. reflexivity. Qed.
Lemma seg_snoc ix vl lo hi : lo <= hi -> seg ix vl lo (hi + 1) = seg ix vl lo hi ++ [(znth 0 ix hi, znth s0 vl hi)].
Proof. intros. unfold seg. rewrite zrange_snoc by lia. rewrite map_app. reflexivity. Qed.
Lemma seg_empty ix vl lo : seg ix vl lo lo = []. Proof. unfold seg. rewrite zrange_empty by lia. reflexivity. Qed.

Variable W : Z -> list (Z * T).
Fixpoint offn (m : nat) : Z := match m with O => 0 | Datatypes.S k => offn k + zlen (W (Z.of_nat k)) end.
Definition off (i : Z) : Z := offn (Z.to_nat i).
Lemma off_0 : off 0 = 0. Proof. reflexivity. Qed.
Lemma off_S i : 0 <= i -> off (i + 1) = off i + zlen (W i).
Proof. intros Hi. unfold off. replace (Z.to_nat (i + 1)) with (Datatypes.S (Z.to_nat i)) by lia. cbn [offn]. rewrite Z2Nat.id by lia. reflexivity. Qed.
Lemma off_mono i j : 0 <= i <= j -> off i <= off j.
Proof.
  intros [Hi Hj]. replace j with (i + Z.of_nat (Z.to_nat (j - i))) by lia. induction (Z.to_nat (j - i)) as [|m IH].
  - replace (i + Z.of_nat 0) with i by lia. lia.
  - replace (i + Z.of_nat (Datatypes.S m)) with (i + Z.of_nat m + 1) by lia. rewrite off_S by lia. pose proof (zlen_nonneg (W (i + Z.of_nat m))). lia.
Qed.
Lemma off_nonneg i : 0 <= i -> 0 <= off i.
Proof. intros. rewrite <- off_0. apply off_mono. lia. Qed.

(** lines r < i are complete, line i holds F *)
Definition fill (N base i : Z) (F : list (Z * T)) (st : list Z * list T * Z) : Prop :=
  let '(ix, vl, k) := st in zlen ix = N /\ zlen vl = N /\ k = base + off i + zlen F /\
  seg ix vl (base + off i) k = F /\ forall r, 0 <= r < i -> seg ix vl (base + off r) (base + off (r + 1)) = W r.
Lemma fill_start N base ix vl : zlen ix = N -> zlen vl = N -> fill N base 0 [] (ix, vl, base).
Proof. intros H1 H2. repeat split; auto. - rewrite off_0. cbn. lia. - rewrite off_0. replace (base + 0) with base by lia. apply seg_empty. - intros; lia. Qed.
Lemma fill_emit N base i F st c v (Q : list Z * list T * Z -> Prop) : 0 <= base -> 0 <= i -> fill N base i F st -> base + off i + zlen F < N ->
  (forall st', fill N base i (F ++ [(c, v)]) st' -> (forall p, p < base -> znth 0 (fst (fst st')) p = znth 0 (fst (fst st)) p) -> Q st') -> wp (emit st c v) Q.
Proof.
  destruct st as [[ix vl] k]. intros Hb Hi (H1 & H2 & -> & H3 & H4) Hl HQ. unfold emit. pose proof (zlen_nonneg F). pose proof (off_nonneg i Hi). wwr; [lia|]. wwr; [lia|]. apply wp_ok. apply HQ.
  - split; [len|]. split; [len|]. split; [rewrite zlen_app; cbn; lia|]. split.
    + rewrite seg_snoc by lia. f_equal.
      * etransitivity; [|exact H3]. apply seg_ext. intros k Hk. rewrite !znth_zupd_neq by lia. auto.
      * rewrite !znth_zupd_eq by lia. reflexivity.
    + intros r Hr. rewrite <- (H4 r Hr). pose proof (off_mono (r + 1) i ltac:(lia)). apply seg_ext. intros k Hk. pose proof (off_nonneg r ltac:(lia)). rewrite !znth_zupd_neq by lia. auto.
  - cbn [fst]. intros p Hp. rewrite znth_zupd_neq by lia. reflexivity.
Qed.
Lemma fill_next N base i st : 0 <= i -> fill N base i (W i) st -> fill N base (i + 1) [] st.
Proof.
  destruct st as [[ix vl] k]. intros Hi (H1 & H2 & -> & H3 & H4). unfold fill. rewrite off_S by lia. change (zlen (@nil (Z * T))) with 0. repeat split; auto; try lia.
  - replace (base + (off i + zlen (W i))) with (base + off i + zlen (W i)) by lia. apply seg_empty.
  - intros r Hr. destruct (Z.eq_dec r i) as [->|Hne]; [|apply H4; lia]. rewrite off_S by lia. rewrite Z.add_assoc. exact H3.
Qed.
(** writes below base do not touch the lines *)
Lemma fill_low N base i F ix vl k p v : 0 <= p < base -> base <= N -> 0 <= i -> fill N base i F (ix, vl, k) -> fill N base i F (zupd ix p v, vl, k).
Proof.
  intros Hp HN Hi (H1 & H2 & H3 & H4 & H5). pose proof (off_nonneg i Hi). unfold fill. repeat split; auto.
  - len.
  - etransitivity; [|exact H4]. apply seg_ext. intros q Hq. rewrite znth_zupd_neq by lia. auto.
  - intros r Hr. rewrite <- (H5 r Hr). pose proof (off_nonneg r ltac:(lia)). apply seg_ext. intros q Hq. rewrite znth_zupd_neq by lia. auto.
Qed.
(** counting *)
Lemma fill_pos N base i F st : fill N base i F st -> snd st = base + off i + zlen F.
Proof. destruct st as [[ix vl] k]. intros (_ & _ & H & _). exact H. Qed.
End S.

Section S2.
Context {T : Type} {S : Scalar T}.
(** the items of a line that go below / above the diagonal *)
Definition below (i : Z) (l : list (Z * T)) := filter (fun p => fst p <? i) l.
Definition above (i : Z) (l : list (Z * T)) := filter (fun p => i <? fst p) l.
Lemma below_prefix i d t : prefix d t -> zlen (below i d) <= zlen (below i t).
Proof. intros (r & ->). unfold below. rewrite filter_app, zlen_app. pose proof (zlen_nonneg (filter (fun p : Z * T => fst p <? i) r)). lia. Qed.
Lemma above_prefix i d t : prefix d t -> zlen (above i d) <= zlen (above i t).
Proof. intros (r & ->). unfold above. rewrite filter_app, zlen_app. pose proof (zlen_nonneg (filter (fun p : Z * T => i <? fst p) r)). lia. Qed.
End S2.
