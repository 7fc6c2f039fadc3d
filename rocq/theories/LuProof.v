(** Proofs for lis_array_ge and lis_array_solve: elimination, substitution. *)
Require Import ZArith List Bool Lia Ring Field.
From Verif Require Import Base Scalar SpecArray Array ArrayProof.
From Verif Require Krylov.
Import ListNotations.
Open Scope Z_scope.

(** outcome: normal with Q, or division by zero with D *)
Definition out {A} (m : res A) (Q : A -> Prop) (D : Prop) : Prop :=
  match m with Ok a => Q a | Err c => c = DIV_BY_ZERO /\ D | UB => False end.
Lemma out_bind {A B} (m : res A) (f : A -> res B) (Q : B -> Prop) (D : Prop) : out m (fun a => out (f a) Q D) D -> out (bind m f) Q D.
Proof. destruct m; simpl; auto. Qed.
Lemma out_mono {A} (m : res A) (P Q : A -> Prop) (D D' : Prop) : out m P D -> (forall a, P a -> Q a) -> (D -> D') -> out m Q D'.
Proof. destruct m; simpl; firstorder. Qed.
Lemma wp_out {A} (m : res A) (Q : A -> Prop) D : wp m Q -> out m Q D.
Proof. destruct m; simpl; firstorder. Qed.
Lemma for_out {St} (I : Z -> St -> Prop) lo hi body s (Q : St -> Prop) (D : Prop) : lo <= hi -> I lo s ->
  (forall i s, lo <= i < hi -> I i s -> out (body i s) (I (i + 1)) D) -> (forall s, I hi s -> Q s) -> out (for_ lo hi body s) Q D.
Proof.
  intros H H0 Hs HQ. unfold for_. remember (Z.to_nat (hi - lo)) as f eqn:Ef. revert lo s H H0 Hs Ef.
  induction f as [|f IH]; intros lo s H H0 Hs Ef; cbn [for_n].
  - simpl. apply HQ. replace hi with lo by lia. exact H0.
  - apply out_bind. eapply out_mono; [apply Hs; [lia|exact H0]| |auto]. intros s' H'. apply IH; [lia|exact H'| |lia].
    intros i s'' Hi. apply Hs. lia.
Qed.

Section P.
Context {T : Type} {S : Scalar T}.
Hypothesis FT : is_field S.
Hypothesis EQ : eqb_ok S.
Lemma RT : is_ring S. Proof. exact (F_R FT). Qed.
Let RT' : @ring_theory T s0 s1 sadd smul ssub sopp (@eq T) := RT.
Add Ring Tr : RT'.
Notation Sm := (sum_to_S RT).
Notation S0 := (sum_to_zero RT).

Definition inv (a : T) : T := sdiv s1 a.
Lemma inv_l a : a <> s0 -> smul (inv a) a = s1. Proof. exact (Finv_l FT a). Qed.
Lemma inv_r a : a <> s0 -> smul a (inv a) = s1. Proof. intros H. rewrite (Rmul_comm RT). apply inv_l; auto. Qed.
Lemma inv_nz a : a <> s0 -> inv a <> s0.
Proof. intros H C. pose proof (inv_l a H) as E. rewrite C in E. apply (F_1_neq_0 FT). rewrite <- E. ring. Qed.
Lemma inv_inv a : a <> s0 -> inv (inv a) = a.
Proof.
  intros H. transitivity (smul (inv (inv a)) (smul (inv a) a)); [rewrite inv_l by auto; ring|].
  transitivity (smul (smul (inv (inv a)) (inv a)) a); [ring|]. rewrite inv_l by (apply inv_nz; auto). ring.
Qed.
Lemma mul_cancel a x y : a <> s0 -> smul a x = smul a y -> x = y.
Proof.
  intros H E. transitivity (smul (inv a) (smul a x)).
  - transitivity (smul (smul (inv a) a) x); [rewrite inv_l by auto; ring|ring].
  - rewrite E. transitivity (smul (smul (inv a) a) y); [ring|rewrite inv_l by auto; ring].
Qed.

(** *** square arrays as functions *)
Definition isM (n : Z) (w : list T) (f : Z -> Z -> T) : Prop :=
  n * n <= zlen w /\ forall i j, 0 <= i < n -> 0 <= j < n -> elt w n i j = f i j.
Lemma isM_self n w : n * n <= zlen w -> isM n w (elt w n). Proof. split; auto. Qed.
Lemma isM_ext n w f g : isM n w f -> (forall i j, 0 <= i < n -> 0 <= j < n -> f i j = g i j) -> isM n w g.
Proof. intros (A & B) H. split; [exact A|]. intros. rewrite B by auto. auto. Qed.
Lemma isM_rd n w f i j : isM n w f -> 0 <= i < n -> 0 <= j < n -> rd w (i + j * n) = Ok (f i j).
Proof. intros (A & B) Hi Hj. rewrite (rd_ok s0) by nia. f_equal. apply B; auto. Qed.
Definition upd2 (f : Z -> Z -> T) i j v a b := if (a =? i) && (b =? j) then v else f a b.
Lemma isM_wr n w f i j v : isM n w f -> 0 <= i < n -> 0 <= j < n ->
  wr w (i + j * n) v = Ok (zupd w (i + j * n) v) /\ isM n (zupd w (i + j * n) v) (upd2 f i j v).
Proof.
  intros (A & B) Hi Hj. split; [apply wr_ok; nia|]. split; [rewrite zlen_zupd; exact A|]. intros a b Ha Hb. unfold elt, upd2.
  rewrite znth_zupd by nia. destruct (a + b * n =? i + j * n) eqn:E.
  - apply Z.eqb_eq in E. apply pos_inj in E; [|lia|lia]. destruct E as (-> & ->). rewrite !Z.eqb_refl. reflexivity.
  - apply Z.eqb_neq in E. destruct (a =? i) eqn:E1; destruct (b =? j) eqn:E2; cbn [andb]; try (apply B; auto).
    apply Z.eqb_eq in E1, E2. subst. lia.
Qed.

(** *** elimination *)
Definition step (k : Z) (f : Z -> Z -> T) (i j : Z) : T :=
  let p := inv (f k k) in
  if (i <? k) || (j <? k) then f i j
  else if i =? k then (if j =? k then p else f i j)
  else if j =? k then smul (f i k) p else ssub (f i j) (smul (smul (f i k) p) (f k j)).
Fixpoint stepn (k : nat) (f : Z -> Z -> T) : Z -> Z -> T :=
  match k with O => f | Datatypes.S k' => step (Z.of_nat k') (stepn k' f) end.
Definition F (k : Z) f := stepn (Z.to_nat k) f.
Lemma F_S k f : 0 <= k -> F (k + 1) f = step k (F k f).
Proof. intros. unfold F. replace (Z.to_nat (k + 1)) with (Datatypes.S (Z.to_nat k)) by lia. cbn [stepn]. f_equal. lia. Qed.
Definition pivots (n : Z) (f : Z -> Z -> T) : Prop := forall k, 0 <= k < n -> F k f k k <> s0.

Ltac zb := repeat match goal with
  | |- context [?a =? ?b] => destruct (Z.eqb_spec a b); try subst; try lia
  | |- context [?a <? ?b] => destruct (Z.ltb_spec a b); try lia end; cbn [andb orb]; try reflexivity; try lia.

Lemma eliminate_step n k w f : 0 <= k < n -> isM n w f -> f k k <> s0 ->
  wp (w <- wr w (k + k * n) (inv (f k k)) ;;
    for_ (k + 1) n (fun i w =>
      a <- rd w (i + k * n) ;; d <- rd w (k + k * n) ;;
      let t := smul a d in
      w <- for_ (k + 1) n (fun j w =>
             c <- rd w (i + j * n) ;; e <- rd w (k + j * n) ;;
             wr w (i + j * n) (ssub c (smul t e))) w ;;
      wr w (i + k * n) t) w) (fun w' => isM n w' (step k f) /\ zlen w' = zlen w).
Proof.
  intros Hk HM HP. set (p := inv (f k k)).
  destruct (isM_wr n w f k k p HM Hk Hk) as (E1 & M1). rewrite E1. cbn [bind].
  set (w1 := zupd w (k + k * n) p) in *.
  assert (L1 : zlen w1 = zlen w) by apply zlen_zupd.
  apply (for_wp' (fun i w' => isM n w' (fun a b => if a <? i then step k f a b else upd2 f k k p a b) /\ zlen w' = zlen w)); [lia| | |].
  - split; [|exact L1]. apply (isM_ext _ _ _ _ M1). intros a b Ha Hb. unfold step, upd2. fold p. zb.
  - intros i w2 Hi (M2 & L2). rewrite (isM_rd _ _ _ i k M2) by lia. cbn [bind]. rewrite (isM_rd _ _ _ k k M2) by lia. cbn [bind]. cbv zeta.
    set (t := smul _ _).
    assert (Ht : t = smul (f i k) p).
    { unfold t, upd2, step. fold p. zb. }
    apply wp_bind.
    apply (for_wp' (fun j w' => isM n w' (fun a b => if a <? i then step k f a b else if (a =? i) && (k <? b) && (b <? j) then step k f a b else upd2 f k k p a b) /\ zlen w' = zlen w)); [lia| | |].
    + split; [|exact L2]. apply (isM_ext _ _ _ _ M2). intros a b Ha Hb. zb.
    + intros j w3 Hj (M3 & L3). rewrite (isM_rd _ _ _ i j M3) by lia. cbn [bind]. rewrite (isM_rd _ _ _ k j M3) by lia. cbn [bind].
      set (v := ssub _ _). destruct (isM_wr n w3 _ i j v M3 ltac:(lia) ltac:(lia)) as (E & M4). rewrite E. cbn [wp]. split; [|rewrite zlen_zupd; exact L3].
      apply (isM_ext _ _ _ _ M4). intros a b Ha Hb. cbv beta. unfold upd2 at 1.
      destruct (a =? i) eqn:Ea; destruct (b =? j) eqn:Eb; cbn [andb].
      * apply Z.eqb_eq in Ea, Eb. subst a b.
        assert (Hv : v = step k f i j).
        { unfold v. rewrite Ht. unfold upd2, step. fold p. zb. }
        rewrite Hv. zb.
      * apply Z.eqb_eq in Ea. subst a. apply Z.eqb_neq in Eb. zb.
      * zb.
      * zb.
    + intros w3 (M3 & L3). destruct (isM_wr n w3 _ i k t M3 ltac:(lia) ltac:(lia)) as (E & M4). rewrite E. cbn [wp]. split; [|rewrite zlen_zupd; exact L3].
      apply (isM_ext _ _ _ _ M4). intros a b Ha Hb. cbv beta. unfold upd2 at 1. rewrite Ht. unfold step, upd2. fold p. zb.
  - intros w' (M & L). split; [|exact L]. apply (isM_ext _ _ _ _ M). intros a b Ha Hb. zb.
Qed.

Lemma eliminate_out n w f : 0 <= n -> isM n w f ->
  out (eliminate n w) (fun w' => isM n w' (F n f) /\ pivots n f /\ zlen w' = zlen w) (~ pivots n f).
Proof.
  intros Hn HM. unfold eliminate.
  apply (for_out (fun k w' => isM n w' (F k f) /\ (forall l, 0 <= l < k -> F l f l l <> s0) /\ zlen w' = zlen w)); [lia| | |].
  - split; [exact HM|]. split; [intros; lia|reflexivity].
  - intros k w' Hk (M & P & L). rewrite (isM_rd _ _ _ k k M) by lia. cbn [bind]. unfold Krylov.divz.
    destruct (seqb (F k f k k) s0) eqn:E.
    + cbn [bind out]. split; [reflexivity|]. intros C. apply (C k Hk). apply EQ. exact E.
    + assert (NZ : F k f k k <> s0) by (intros C; apply EQ in C; congruence).
      cbn [bind]. apply wp_out. eapply wp_mono; [apply (eliminate_step n k w' (F k f)); auto|].
      intros w2 (M2 & L2). rewrite F_S by lia. split; [exact M2|]. split; [|lia].
      intros l Hl. destruct (Z.eq_dec l k) as [->|]; [exact NZ|]. apply P. lia.
  - intros w' H. exact H.
Qed.

(** *** what elimination computes: A = L U with L, U stored in F n A *)
Definition Lf (f : Z -> Z -> T) i l := if l <? i then f i l else if l =? i then s1 else s0.
Definition Uf (f : Z -> Z -> T) l j := if l <? j then f l j else if l =? j then inv (f l l) else s0.
Definition lu_inv (n k : Z) (A f : Z -> Z -> T) : Prop :=
  forall i j, 0 <= i < n -> 0 <= j < n ->
    A i j = sadd (sum_to (Z.min k (Z.min i j)) (fun l => smul (f i l) (f l j)))
      (if (j <? i) && (j <? k) then smul (f i j) (inv (f j j)) else if (i =? j) && (i <? k) then inv (f i i) else f i j).
Lemma lu_step n k A f : 0 <= k < n -> f k k <> s0 -> lu_inv n k A f -> lu_inv n (k + 1) A (step k f).
Proof.
  intros Hk HP H i j Hi Hj. rewrite (H i j Hi Hj). set (p := inv (f k k)).
  assert (Same : forall a b, a < k \/ b < k -> step k f a b = f a b) by (intros a b Hab; unfold step; fold p; zb).
  destruct (Z_lt_le_dec (Z.min i j) k) as [C|C].
  - replace (Z.min (k + 1) (Z.min i j)) with (Z.min k (Z.min i j)) by lia.
    f_equal.
    + apply sum_to_ext. intros l Hl. rewrite !Same by lia. reflexivity.
    + destruct (Z.ltb_spec j i), (Z.ltb_spec j k), (Z.ltb_spec j (k + 1)), (Z.eqb_spec i j), (Z.ltb_spec i k), (Z.ltb_spec i (k + 1)); cbn [andb]; try lia; subst; rewrite ?Same by lia; reflexivity.
  - replace (Z.min k (Z.min i j)) with k by lia.
    replace (sum_to k (fun l => smul (f i l) (f l j))) with (sum_to k (fun l => smul (step k f i l) (step k f l j)))
      by (apply sum_to_ext; intros l Hl; rewrite !Same by lia; reflexivity).
    destruct (Z.eq_dec (Z.min i j) k) as [E|E].
    + assert (E' : Z.min i j <= k <= Z.min i j) by lia. clear E. replace (Z.min (k + 1) (Z.min i j)) with k by lia. f_equal.
      destruct (Z.ltb_spec j i), (Z.ltb_spec j k), (Z.ltb_spec j (k + 1)), (Z.eqb_spec i j), (Z.ltb_spec i k), (Z.ltb_spec i (k + 1)); cbn [andb]; try lia.
      * assert (j = k) as -> by lia. unfold step. fold p. zb.
        transitivity (smul (smul p (f k k)) (f i k)); [unfold p; rewrite inv_l by auto; ring|].
        unfold p at 3. rewrite inv_inv by auto. ring.
      * assert (j = k) as -> by lia. assert (i = k) as -> by lia. unfold step. fold p. zb. unfold p. rewrite inv_inv by auto. reflexivity.
      * unfold step. fold p. zb.
    + replace (Z.min (k + 1) (Z.min i j)) with (k + 1) by lia. rewrite Sm by lia.
      destruct (Z.ltb_spec j i), (Z.ltb_spec j k), (Z.ltb_spec j (k + 1)), (Z.eqb_spec i j), (Z.ltb_spec i k), (Z.ltb_spec i (k + 1)); cbn [andb]; try lia;
      set (q := sum_to k _); unfold step; fold p; subst; zb; ring.
Qed.
Lemma lu_F n A : 0 <= n -> pivots n A -> forall k, 0 <= k <= n -> lu_inv n k A (F k A).
Proof.
  intros Hn HP k Hk. replace k with (Z.of_nat (Z.to_nat k)) in * by lia. revert Hk. generalize (Z.to_nat k). intros m. induction m as [|m IH]; intros Hk.
  - intros i j Hi Hj. replace (Z.min (Z.of_nat 0) (Z.min i j)) with 0 by lia. rewrite sum_to_0.
    replace (j <? Z.of_nat 0) with false by (symmetry; apply Z.ltb_ge; lia). replace (i <? Z.of_nat 0) with false by (symmetry; apply Z.ltb_ge; lia).
    rewrite !andb_false_r. change (F (Z.of_nat 0) A) with A. ring.
  - replace (Z.of_nat (Datatypes.S m)) with (Z.of_nat m + 1) in * by lia. rewrite F_S by lia. apply lu_step; [lia|apply HP; lia|apply IH; lia].
Qed.
(** the stored diagonal is not zero *)
Lemma F_keep A k m i j : 0 <= k -> k <= m -> i < k \/ j < k -> F m A i j = F k A i j.
Proof.
  intros Hk Hm H. replace m with (k + Z.of_nat (Z.to_nat (m - k))) by lia. generalize (Z.to_nat (m - k)). intros d. induction d as [|d IH].
  - f_equal. lia.
  - replace (k + Z.of_nat (Datatypes.S d)) with (k + Z.of_nat d + 1) by lia. rewrite F_S by lia. rewrite <- IH. unfold step. zb.
Qed.
Lemma F_diag A n k : 0 <= k < n -> pivots n A -> F n A k k = inv (F k A k k).
Proof.
  intros Hk HP. rewrite (F_keep A (k + 1) n) by lia. rewrite F_S by lia. unfold step. zb.
Qed.
(** sums with a tail of zeros *)
Lemma sum_cut n m (f : Z -> T) : 0 <= m <= n -> (forall i, m <= i < n -> f i = s0) -> sum_to n f = sum_to m f.
Proof.
  intros Hm H. unfold sum_to. rewrite (zrange_app 0 m n) by lia. rewrite map_app, (ssum_app RT).
  rewrite (ssum_map_ext f (fun _ => s0) (zrange m n)) by (intros i Hi; apply In_zrange in Hi; apply H; lia).
  rewrite (ssum_map_zero RT). ring.
Qed.
Lemma lu_product n A : 0 <= n -> pivots n A -> let f := F n A in
  forall i j, 0 <= i < n -> 0 <= j < n -> A i j = sum_to n (fun l => smul (Lf f i l) (Uf f l j)).
Proof.
  intros Hn HP f i j Hi Hj. pose proof (lu_F n A Hn HP n ltac:(lia) i j Hi Hj) as H. fold f in H. rewrite H.
  replace (Z.min n (Z.min i j)) with (Z.min i j) by lia.
  replace (j <? n) with true by (symmetry; apply Z.ltb_lt; lia). replace (i <? n) with true by (symmetry; apply Z.ltb_lt; lia). rewrite !andb_true_r.
  rewrite (sum_cut n (Z.min i j + 1)); [|lia|].
  - rewrite Sm by lia. f_equal.
    + apply sum_to_ext. intros l Hl. unfold Lf, Uf. zb.
    + unfold Lf, Uf. destruct (Z.lt_trichotomy i j) as [C|[C|C]].
      * replace (Z.min i j) with i by lia. zb. ring.
      * subst j. rewrite Z.min_id. zb. ring.
      * replace (Z.min i j) with j by lia. zb.
  - intros l Hl. unfold Lf, Uf. destruct (Z.ltb_spec l i), (Z.eqb_spec l i), (Z.ltb_spec l j), (Z.eqb_spec l j); try lia; ring.
Qed.

(** *** conversely: if A has an LU factorisation, no pivot vanishes *)
Lemma lu_pivot n A L U : 0 <= n -> lu_of n A L U -> forall k, 0 <= k <= n ->
  forall i j, k <= i < n -> k <= j < n -> F k A i j = ssum (map (fun l => smul (L i l) (U l j)) (zrange k n)).
Proof.
  intros Hn (HA & HL & HL1 & HU & HU1) k Hk. replace k with (Z.of_nat (Z.to_nat k)) in * by lia. revert Hk. generalize (Z.to_nat k). intros m. induction m as [|m IH]; intros Hk i j Hi Hj.
  - change (F (Z.of_nat 0) A) with A. apply HA; lia.
  - replace (Z.of_nat (Datatypes.S m)) with (Z.of_nat m + 1) in * by lia. rewrite F_S by lia. set (k' := Z.of_nat m) in *.
    assert (IH' : forall i j, k' <= i < n -> k' <= j < n -> F k' A i j = sadd (smul (L i k') (U k' j)) (ssum (map (fun l => smul (L i l) (U l j)) (zrange (k' + 1) n)))).
    { intros a b Ha Hb. rewrite IH by lia. rewrite (zrange_cons k' n) by lia. reflexivity. }
    assert (Z1 : forall a, k' <= a < n -> ssum (map (fun l => smul (L a l) (U l k')) (zrange (k' + 1) n)) = s0).
    { intros a Ha. rewrite (ssum_map_ext _ (fun _ => s0)); [apply (ssum_map_zero RT)|]. intros l Hl. apply In_zrange in Hl. rewrite HU by lia. ring. }
    assert (Z2 : forall b, k' <= b < n -> ssum (map (fun l => smul (L k' l) (U l b)) (zrange (k' + 1) n)) = s0).
    { intros b Hb. rewrite (ssum_map_ext _ (fun _ => s0)); [apply (ssum_map_zero RT)|]. intros l Hl. apply In_zrange in Hl. rewrite HL by lia. ring. }
    unfold step. replace ((i <? k') || (j <? k')) with false by zb. replace (i =? k') with false by zb. replace (j =? k') with false by zb.
    rewrite !IH' by lia. rewrite !Z1, !Z2 by lia. rewrite HL1 by lia.
    set (u := U k' k'). set (R := ssum _). assert (NZ : u <> s0) by (apply HU1; lia).
    replace (sadd (smul s1 u) s0) with u by ring. replace (sadd (smul (L i k') u) s0) with (smul (L i k') u) by ring.
    transitivity (ssub (sadd (smul (L i k') (U k' j)) R) (smul (smul (smul u (inv u)) (L i k')) (U k' j))); [ring|]. rewrite inv_r by auto. ring.
Qed.
Lemma lu_of_pivots n A L U : 0 <= n -> lu_of n A L U -> pivots n A.
Proof.
  intros Hn H k Hk. rewrite (lu_pivot n A L U Hn H k) by lia. rewrite zrange_cons by lia. cbn [map ssum].
  destruct H as (HA & HL & HL1 & HU & HU1).
  rewrite (ssum_map_ext _ (fun _ => s0)) by (intros l Hl; apply In_zrange in Hl; rewrite HL by lia; ring). rewrite (ssum_map_zero RT). rewrite HL1 by lia.
  intros C. apply (HU1 k Hk). rewrite <- C. ring.
Qed.
Lemma pivots_lu_of n A : 0 <= n -> pivots n A -> lu_of n A (Lf (F n A)) (Uf (F n A)).
Proof.
  intros Hn HP. split; [apply lu_product; auto|]. split; [intros; unfold Lf; zb|]. split; [intros; unfold Lf; zb|]. split; [intros; unfold Uf; zb|].
  intros i Hi. unfold Uf. rewrite Z.ltb_irrefl, Z.eqb_refl. rewrite (F_diag A n i) by auto. rewrite inv_inv by (apply HP; auto). apply HP. auto.
Qed.

(** *** substitution *)
Definition forward_of (n : Z) (f : Z -> Z -> T) (b y : Z -> T) : Prop :=
  forall i, 0 <= i < n -> y i = ssub (b i) (sum_to i (fun j => smul (f i j) (y j))).
Definition backward_of (n : Z) (f : Z -> Z -> T) (y x : Z -> T) : Prop :=
  forall i, 0 <= i < n -> x i = smul (ssub (y i) (ssum (map (fun j => smul (f i j) (x j)) (zrange (i + 1) n)))) (f i i).
Lemma lu_solves n A b y x : 0 <= n -> pivots n A -> forward_of n (F n A) b y -> backward_of n (F n A) y x -> solves n A x b.
Proof.
  intros Hn HP HF HB i Hi. set (f := F n A) in *.
  assert (E1 : sum_to n (fun j => smul (A i j) (x j)) = sum_to n (fun l => smul (Lf f i l) (sum_to n (fun j => smul (Uf f l j) (x j))))).
  { transitivity (sum_to n (fun j => sum_to n (fun l => smul (Lf f i l) (smul (Uf f l j) (x j))))).
    - apply sum_to_ext. intros j Hj. rewrite (lu_product n A Hn HP i j Hi Hj). fold f. unfold sum_to. rewrite <- (ssum_map_mul_r RT). apply ssum_map_ext. intros l _. ring.
    - unfold sum_to. rewrite (ssum_exchange RT). apply ssum_map_ext. intros l _. rewrite (ssum_map_mul_l RT). reflexivity. }
  rewrite E1. clear E1.
  assert (E2 : forall l, 0 <= l < n -> sum_to n (fun j => smul (Uf f l j) (x j)) = y l).
  { intros l Hl. unfold sum_to. rewrite (zrange_app 0 l n) by lia. rewrite map_app, (ssum_app RT).
    rewrite (ssum_map_ext _ (fun _ => s0) (zrange 0 l)) by (intros j Hj; apply In_zrange in Hj; unfold Uf; zb; ring).
    rewrite (ssum_map_zero RT). rewrite (zrange_cons l n) by lia. cbn [map ssum].
    rewrite (ssum_map_ext (fun j => smul (Uf f l j) (x j)) (fun j => smul (f l j) (x j)) (zrange (l + 1) n)) by (intros j Hj; apply In_zrange in Hj; unfold Uf; zb).
    unfold Uf. rewrite Z.ltb_irrefl, Z.eqb_refl. rewrite (HB l Hl) at 1. set (s := ssum _).
    assert (NZ : f l l <> s0) by (unfold f; rewrite (F_diag A n l) by auto; apply inv_nz; apply HP; auto).
    transitivity (sadd (smul (smul (inv (f l l)) (f l l)) (ssub (y l) s)) s); [ring|]. rewrite inv_l by auto. ring. }
  rewrite (sum_to_ext n _ (fun l => smul (Lf f i l) (y l))) by (intros l Hl; rewrite E2 by auto; reflexivity).
  rewrite (sum_cut n (i + 1)) by (try lia; intros l Hl; unfold Lf; zb; ring). rewrite Sm by lia.
  rewrite (sum_to_ext i _ (fun l => smul (f i l) (y l))) by (intros l Hl; unfold Lf; zb).
  unfold Lf. rewrite Z.ltb_irrefl, Z.eqb_refl. set (c := sum_to i _). rewrite (HF i Hi). fold c. ring.
Qed.
(** a matrix with an LU factorisation is injective: solutions are unique *)
Lemma lu_injective n A L U x x' : 0 <= n -> lu_of n A L U -> (forall i, 0 <= i < n -> sum_to n (fun j => smul (A i j) (x j)) = sum_to n (fun j => smul (A i j) (x' j))) ->
  forall i, 0 <= i < n -> x i = x' i.
Proof.
  intros Hn (HA & HL & HL1 & HU & HU1) H.
  set (ux := fun l => sum_to n (fun j => smul (U l j) (x j))). set (ux' := fun l => sum_to n (fun j => smul (U l j) (x' j))).
  assert (E : forall x, forall i, 0 <= i < n -> sum_to n (fun j => smul (A i j) (x j)) = sum_to n (fun l => smul (L i l) (sum_to n (fun j => smul (U l j) (x j))))).
  { intros z i Hi. transitivity (sum_to n (fun j => sum_to n (fun l => smul (L i l) (smul (U l j) (z j))))).
    - apply sum_to_ext. intros j Hj. rewrite (HA i j Hi Hj). unfold sum_to. rewrite <- (ssum_map_mul_r RT). apply ssum_map_ext. intros l _. ring.
    - unfold sum_to. rewrite (ssum_exchange RT). apply ssum_map_ext. intros l _. rewrite (ssum_map_mul_l RT). reflexivity. }
  assert (EU : forall m, forall l, 0 <= l < Z.of_nat m -> l < n -> ux l = ux' l).
  { induction m as [|m IH]; intros l Hl Hl'; [lia|]. destruct (Z.eq_dec l (Z.of_nat m)) as [->|]; [|apply IH; lia]. set (l := Z.of_nat m) in *.
    pose proof (H l ltac:(lia)) as HH. rewrite !E in HH by lia. fold ux in HH. 
    change (sum_to n (fun a => smul (L l a) (ux a)) = sum_to n (fun a => smul (L l a) (ux' a))) in HH.
    rewrite !(sum_cut n (l + 1)) in HH by (try lia; intros a Ha; rewrite HL by lia; ring). rewrite !Sm in HH by lia. rewrite HL1 in HH by lia.
    rewrite (sum_to_ext l (fun a => smul (L l a) (ux a)) (fun a => smul (L l a) (ux' a))) in HH by (intros a Ha; rewrite IH by lia; reflexivity).
    set (c := sum_to l _) in HH. transitivity (ssub (sadd c (smul s1 (ux l))) c); [ring|]. rewrite HH. ring. }
  assert (EX : forall m, forall i, n - Z.of_nat m <= i < n -> 0 <= i -> x i = x' i).
  { induction m as [|m IH]; intros i Hi Hi'; [lia|]. destruct (Z.eq_dec i (n - Z.of_nat m - 1)) as [Ei|]; [|apply IH; lia].
    pose proof (EU (Z.to_nat (i + 1)) i ltac:(lia) ltac:(lia)) as HH. unfold ux, ux', sum_to in HH.
    assert (D : forall z, ssum (map (fun j => smul (U i j) (z j)) (zrange 0 n)) = sadd (smul (U i i) (z i)) (ssum (map (fun j => smul (U i j) (z j)) (zrange (i + 1) n)))).
    { intros z. rewrite (zrange_app 0 i n) by lia. rewrite map_app, (ssum_app RT).
      rewrite (ssum_map_ext _ (fun _ => s0) (zrange 0 i)) by (intros j Hj; apply In_zrange in Hj; rewrite HU by lia; ring).
      rewrite (ssum_map_zero RT). rewrite (zrange_cons i n) by lia. cbn [map ssum]. ring. }
    rewrite !D in HH.
    rewrite (ssum_map_ext (fun j => smul (U i j) (x j)) (fun j => smul (U i j) (x' j)) (zrange (i + 1) n)) in HH by (intros j Hj; apply In_zrange in Hj; rewrite IH by lia; reflexivity).
    apply (mul_cancel (U i i)); [apply HU1; lia|]. set (c := ssum _) in HH. transitivity (ssub (sadd (smul (U i i) (x i)) c) c); [ring|]. rewrite HH. ring. }
  intros i Hi. apply (EX (Z.to_nat n)); lia.
Qed.
End P.
