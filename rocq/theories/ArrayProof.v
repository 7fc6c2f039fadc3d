(** Proofs for the product kernels of Array.v. *)
Require Import ZArith List Bool Lia Ring.
From Verif Require Import Base Scalar SpecArray Array.
Import ListNotations.
Open Scope Z_scope.

Section P.
Context {T : Type} {S : Scalar T}.
Hypothesis RT : is_ring S.
Let RT' : @ring_theory T s0 s1 sadd smul ssub sopp (@eq T) := RT.
Add Ring Tr : RT'.

Definition op_ok (op : Z) : Prop := op = 0 \/ op = 1 \/ op = 2.
Lemma sum_to_0 (f : Z -> T) : sum_to 0 f = s0. Proof. reflexivity. Qed.
Lemma sum_to_S n (f : Z -> T) : 0 <= n -> sum_to (n + 1) f = sadd (sum_to n f) (f n).
Proof. intros. unfold sum_to. rewrite zrange_snoc by lia. rewrite map_app, (ssum_app RT). cbn [map ssum]. ring. Qed.
Lemma sum_to_ext n (f g : Z -> T) : (forall i, 0 <= i < n -> f i = g i) -> sum_to n f = sum_to n g.
Proof. intros H. apply ssum_map_ext. intros i Hi. apply In_zrange in Hi. auto. Qed.
Lemma sum_to_zero n (f : Z -> T) : (forall i, 0 <= i < n -> f i = s0) -> sum_to n f = s0.
Proof. intros H. rewrite (sum_to_ext n f (fun _ => s0) H). apply (ssum_map_zero RT). Qed.

Lemma accumulate_ok n (f : Z -> res T) (g : Z -> T) : 0 <= n -> (forall j, 0 <= j < n -> f j = Ok (g j)) -> accumulate n f = Ok (sum_to n g).
Proof.
  intros Hn H. unfold accumulate.
  assert (W : wp (for_ 0 n (fun j t => v <- f j;; Ok (sadd t v)) s0) (fun t => t = sum_to n g)).
  { apply (for_wp' (fun j t => t = sum_to j g)); [lia|reflexivity| |auto].
    intros j t Hj ->. rewrite H by lia. cbn [bind wp]. symmetry. apply sum_to_S. lia. }
  destruct (wp_inv _ _ W) as (t & E & ->). exact E.
Qed.
Lemma prod_ok a i x j : 0 <= i < zlen a -> 0 <= j < zlen x -> prod a i x j = Ok (smul (znth s0 a i) (znth s0 x j)).
Proof. intros. unfold prod. rewrite (rd_ok s0) by auto. cbn [bind]. rewrite (rd_ok s0) by auto. reflexivity. Qed.
Lemma prodh_ok a i x j : 0 <= i < zlen a -> 0 <= j < zlen x -> prodh a i x j = Ok (smul (sconj (znth s0 a i)) (znth s0 x j)).
Proof. intros. unfold prodh. rewrite (rd_ok s0) by auto. cbn [bind]. rewrite (rd_ok s0) by auto. reflexivity. Qed.
Lemma put_ok op y i t : op_ok op -> 0 <= i < zlen y -> put op y i t = Ok (zupd y i (combine op (znth s0 y i) t)).
Proof.
  intros Ho Hi. unfold put, combine. destruct Ho as [->|[->| ->]]; cbn [Z.eqb Pos.eqb LIS_INS_VALUE LIS_SUB_VALUE].
  - apply wr_ok; auto.
  - rewrite (rd_ok s0) by auto. cbn [bind]. apply wr_ok; auto.
  - rewrite (rd_ok s0) by auto. cbn [bind]. apply wr_ok; auto.
Qed.

(** the general loop of the matrix-vector kernels *)
Lemma rows_loop m op y (f : Z -> res T) (g : Z -> T) : 0 <= m <= zlen y -> op_ok op -> (forall i, 0 <= i < m -> f i = Ok (g i)) ->
  wp (for_ 0 m (fun i y => t <- f i ;; put op y i t) y) (fun y' => zlen y' = zlen y /\
    (forall i, 0 <= i < m -> znth s0 y' i = combine op (znth s0 y i) (g i)) /\ (forall i, m <= i -> znth s0 y' i = znth s0 y i)).
Proof.
  intros Hm Ho Hf.
  apply (for_wp' (fun k y' => zlen y' = zlen y /\
    (forall i, 0 <= i < k -> znth s0 y' i = combine op (znth s0 y i) (g i)) /\ (forall i, k <= i -> znth s0 y' i = znth s0 y i))); [lia| | |auto].
  - split; [reflexivity|]. split; [intros; lia|auto].
  - intros k y' Hk (H1 & H2 & H3). rewrite Hf by lia. cbn [bind]. rewrite put_ok by (auto; lia). cbn [wp].
    rewrite zlen_zupd. split; [exact H1|]. split.
    + intros i Hi. rewrite znth_zupd by lia. destruct (i =? k) eqn:E.
      * apply Z.eqb_eq in E. subst i. rewrite H3 by lia. reflexivity.
      * apply Z.eqb_neq in E. apply H2. lia.
    + intros i Hi. rewrite znth_zupd by lia. destruct (i =? k) eqn:E; [apply Z.eqb_eq in E; lia|]. apply H3. lia.
Qed.

Lemma sum_to_1 (f : Z -> T) : sum_to 1 f = f 0.
Proof. change 1 with (0 + 1) at 1. rewrite sum_to_S by lia. rewrite sum_to_0. ring. Qed.
Lemma sum_to_2 (f : Z -> T) : sum_to 2 f = sadd (f 0) (f 1).
Proof. change 2 with (1 + 1) at 1. rewrite sum_to_S by lia. rewrite sum_to_1. ring. Qed.
Lemma sum_to_3 (f : Z -> T) : sum_to 3 f = sadd (sadd (f 0) (f 1)) (f 2).
Proof. change 3 with (2 + 1) at 1. rewrite sum_to_S by lia. rewrite sum_to_2. ring. Qed.
Ltac fin := rewrite ?sum_to_1, ?sum_to_2, ?sum_to_3; reflexivity.
(** unrolled cases: evaluate the chain of assignments *)
Ltac chain :=
  unfold sum2, sum3;
  repeat (first [rewrite prod_ok by lia | rewrite prodh_ok by lia | rewrite put_ok by (auto; rewrite ?zlen_zupd; lia)]; cbn [bind]).
Ltac pick := repeat (rewrite znth_zupd by (rewrite ?zlen_zupd; lia)).
Ltac numeral_eqb := repeat match goal with |- context [?a =? ?b] => first [replace (a =? b) with true by (symmetry; apply Z.eqb_eq; lia) | replace (a =? b) with false by (symmetry; apply Z.eqb_neq; lia)] end; cbn match.

Theorem matvec_ok n a x y op : 0 <= n -> n * n <= zlen a -> n <= zlen x -> n <= zlen y -> op_ok op ->
  wp (lis_array_matvec n a x y op) (fun y' => zlen y' = zlen y /\
    (forall i, 0 <= i < n -> znth s0 y' i = combine op (znth s0 y i) (sum_to n (fun j => smul (elt a n i j) (znth s0 x j)))) /\
    (forall i, n <= i -> znth s0 y' i = znth s0 y i)).
Proof.
  intros Hn Ha Hx Hy Ho.
  assert (G : wp (for_ 0 n (fun i y => t <- accumulate n (fun j => prod a (i + j * n) x j) ;; put op y i t) y) (fun y' => zlen y' = zlen y /\
    (forall i, 0 <= i < n -> znth s0 y' i = combine op (znth s0 y i) (sum_to n (fun j => smul (elt a n i j) (znth s0 x j)))) /\
    (forall i, n <= i -> znth s0 y' i = znth s0 y i))).
  { apply rows_loop; [lia|auto|]. intros i Hi. apply accumulate_ok; [lia|]. intros j Hj. apply prod_ok; nia. }
  unfold lis_array_matvec. destruct n as [|p|p]; [exact G| |lia].
  destruct p as [p|p|]; [destruct p as [p|p|]; try exact G| destruct p as [p|p|]; try exact G|]; clear G.
  - (* 3 *) chain. cbn [wp]. rewrite !zlen_zupd. split; [reflexivity|]. split.
    + intros i Hi. assert (i = 0 \/ i = 1 \/ i = 2) as [->|[->| ->]] by lia; pick; numeral_eqb; f_equal; fin.
    + intros i Hi. pick. numeral_eqb. reflexivity.
  - (* 2 *) chain. cbn [wp]. rewrite !zlen_zupd. split; [reflexivity|]. split.
    + intros i Hi. assert (i = 0 \/ i = 1) as [->| ->] by lia; pick; numeral_eqb; f_equal; fin.
    + intros i Hi. pick. numeral_eqb. reflexivity.
  - (* 1 *) chain. cbn [wp]. rewrite !zlen_zupd. split; [reflexivity|]. split.
    + intros i Hi. assert (i = 0) as -> by lia; pick; numeral_eqb; f_equal; fin.
    + intros i Hi. pick. numeral_eqb. reflexivity.
Qed.
Theorem matvech_ok n a x y op : 0 <= n -> n * n <= zlen a -> n <= zlen x -> n <= zlen y -> op_ok op ->
  wp (lis_array_matvech n a x y op) (fun y' => zlen y' = zlen y /\
    (forall i, 0 <= i < n -> znth s0 y' i = combine op (znth s0 y i) (sum_to n (fun j => smul (sconj (elt a n j i)) (znth s0 x j)))) /\
    (forall i, n <= i -> znth s0 y' i = znth s0 y i)).
Proof.
  intros Hn Ha Hx Hy Ho.
  assert (G : wp (for_ 0 n (fun i y => t <- accumulate n (fun j => prodh a (i * n + j) x j) ;; put op y i t) y) (fun y' => zlen y' = zlen y /\
    (forall i, 0 <= i < n -> znth s0 y' i = combine op (znth s0 y i) (sum_to n (fun j => smul (sconj (elt a n j i)) (znth s0 x j)))) /\
    (forall i, n <= i -> znth s0 y' i = znth s0 y i))).
  { apply rows_loop; [lia|auto|]. intros i Hi.
    rewrite (accumulate_ok n _ (fun j => smul (sconj (znth s0 a (i * n + j))) (znth s0 x j))); [|lia|intros j Hj; apply prodh_ok; nia].
    f_equal. apply sum_to_ext. intros j Hj. unfold elt. do 3 f_equal. lia. }
  unfold lis_array_matvech. destruct n as [|p|p]; [exact G| |lia].
  destruct p as [p|p|]; [destruct p as [p|p|]; try exact G| destruct p as [p|p|]; try exact G|]; clear G.
  - (* 3 *) chain. cbn [wp]. rewrite !zlen_zupd. split; [reflexivity|]. split.
    + intros i Hi. assert (i = 0 \/ i = 1 \/ i = 2) as [->|[->| ->]] by lia; pick; numeral_eqb; f_equal; fin.
    + intros i Hi. pick. numeral_eqb. reflexivity.
  - (* 2 *) chain. cbn [wp]. rewrite !zlen_zupd. split; [reflexivity|]. split.
    + intros i Hi. assert (i = 0 \/ i = 1) as [->| ->] by lia; pick; numeral_eqb; f_equal; fin.
    + intros i Hi. pick. numeral_eqb. reflexivity.
  - (* 1 *) chain. cbn [wp]. rewrite !zlen_zupd. split; [reflexivity|]. split.
    + intros i Hi. assert (i = 0) as -> by lia; pick; numeral_eqb; f_equal; fin.
    + intros i Hi. pick. numeral_eqb. reflexivity.
Qed.
Theorem matvec_ns_ok m n a lda x y op : 0 <= m -> 0 <= n -> m <= lda -> lda * n <= zlen a -> n <= zlen x -> m <= zlen y -> op_ok op ->
  wp (lis_array_matvec_ns m n a lda x y op) (fun y' => zlen y' = zlen y /\
    (forall i, 0 <= i < m -> znth s0 y' i = combine op (znth s0 y i) (sum_to n (fun j => smul (elt a lda i j) (znth s0 x j)))) /\
    (forall i, m <= i -> znth s0 y' i = znth s0 y i)).
Proof.
  intros Hm Hn Hl Ha Hx Hy Ho. unfold lis_array_matvec_ns.
  replace ((op =? LIS_INS_VALUE) || (op =? LIS_SUB_VALUE) || (op =? LIS_ADD_VALUE)) with true by (destruct Ho as [->|[->| ->]]; reflexivity).
  apply rows_loop; [lia|auto|]. intros i Hi. apply accumulate_ok; [lia|]. intros j Hj. apply prod_ok; nia.
Qed.

(** *** matrix product *)
(** position i+j*ld determines i and j *)
Lemma pos_inj ld i j i' j' : 0 <= i < ld -> 0 <= i' < ld -> i + j * ld = i' + j' * ld -> i = i' /\ j = j'.
Proof. intros H1 H2 H. assert (j = j') by nia. subst. split; [lia|reflexivity]. Qed.

(** column j of c after k terms *)
Lemma matmat_loop_ok l m n a lda b ldb c ldc op : 0 <= l -> 0 <= m -> 0 <= n -> l <= lda -> n <= ldb -> l <= ldc ->
  lda * n <= zlen a -> ldb * m <= zlen b -> ldc * m <= zlen c -> op_ok op ->
  wp (matmat_loop l m n a lda b ldb c ldc op) (fun c' => zlen c' = zlen c /\
    (forall i j, 0 <= i < l -> 0 <= j < m -> elt c' ldc i j = combine op (elt c ldc i j) (sum_to n (fun k => smul (elt a lda i k) (elt b ldb k j)))) /\
    (forall p, (forall i j, 0 <= i < l -> 0 <= j < m -> p <> i + j * ldc) -> znth s0 c' p = znth s0 c p)).
Proof.
  intros Hl Hm Hn La Lb Lc Ha Hb Hc Ho. unfold matmat_loop.
  set (op' := if op =? LIS_INS_VALUE then LIS_ADD_VALUE else op).
  assert (Ho' : op_ok op' /\ op' <> 0) by (unfold op', op_ok in *; destruct Ho as [->|[->| ->]]; cbn [Z.eqb Pos.eqb LIS_INS_VALUE]; unfold LIS_ADD_VALUE; split; auto; discriminate).
  destruct Ho' as (Ho' & Hne).
  (* F r i j: value of c(i,j) after columns < r *)
  set (val := fun i j => combine op (elt c ldc i j) (sum_to n (fun k => smul (elt a lda i k) (elt b ldb k j)))).
  apply (for_wp' (fun r c' => zlen c' = zlen c /\
    (forall i j, 0 <= i < l -> 0 <= j < m -> elt c' ldc i j = if j <? r then val i j else elt c ldc i j) /\
    (forall p, (forall i j, 0 <= i < l -> 0 <= j < m -> p <> i + j * ldc) -> znth s0 c' p = znth s0 c p))); [lia| | |].
  - split; [reflexivity|]. split; [|auto]. intros i j Hi Hj. destruct (j <? 0) eqn:E; [apply Z.ltb_lt in E; lia|reflexivity].
  - intros r c' Hr (H1 & H2 & H3). apply wp_bind.
    set (base := fun i => if op =? LIS_INS_VALUE then s0 else elt c ldc i r).
    apply wp_mono with (P := fun c1 => zlen c1 = zlen c /\
      (forall i j, 0 <= i < l -> 0 <= j < m -> elt c1 ldc i j = if j =? r then base i else elt c' ldc i j) /\
      (forall p, (forall i j, 0 <= i < l -> 0 <= j < m -> p <> i + j * ldc) -> znth s0 c1 p = znth s0 c p)).
    { unfold base. destruct (op =? LIS_INS_VALUE) eqn:Eop.
      - apply (for_wp' (fun q c1 => zlen c1 = zlen c /\
          (forall i j, 0 <= i < l -> 0 <= j < m -> elt c1 ldc i j = if (j =? r) && (i <? q) then s0 else elt c' ldc i j) /\
          (forall p, (forall i j, 0 <= i < l -> 0 <= j < m -> p <> i + j * ldc) -> znth s0 c1 p = znth s0 c p))); [lia| | |].
        + split; [auto|]. split; [|auto]. intros i j Hi Hj. replace (i <? 0) with false by (symmetry; apply Z.ltb_ge; lia). rewrite andb_false_r. reflexivity.
        + intros q c1 Hq (A1 & A2 & A3). rewrite wr_ok by nia. cbn [wp]. rewrite zlen_zupd. split; [auto|]. split.
          * intros i j Hi Hj. unfold elt at 1. rewrite znth_zupd by nia.
            destruct (i + j * ldc =? q + r * ldc) eqn:E.
            -- apply Z.eqb_eq in E. apply pos_inj in E; [|lia|lia]. destruct E as (-> & ->). rewrite Z.eqb_refl.
               replace (q <? q + 1) with true by (symmetry; apply Z.ltb_lt; lia). reflexivity.
            -- apply Z.eqb_neq in E. change (znth s0 c1 (i + j * ldc)) with (elt c1 ldc i j). rewrite A2 by auto.
               destruct (j =? r) eqn:Ej; [|reflexivity]. apply Z.eqb_eq in Ej. subst j. cbn [andb].
               assert (i <> q) by (intros ->; apply E; reflexivity).
               destruct (i <? q) eqn:E1; destruct (i <? q + 1) eqn:E2; try reflexivity; [apply Z.ltb_lt in E1; apply Z.ltb_ge in E2; lia|apply Z.ltb_ge in E1; apply Z.ltb_lt in E2; lia].
          * intros p Hp. rewrite znth_zupd by nia. destruct (p =? q + r * ldc) eqn:E; [apply Z.eqb_eq in E; exfalso; apply (Hp q r); auto; lia|auto].
        + intros c1 (A1 & A2 & A3). split; [auto|]. split; [|auto]. intros i j Hi Hj. rewrite A2 by auto.
          replace (i <? l) with true by (symmetry; apply Z.ltb_lt; lia). rewrite andb_true_r. reflexivity.
      - cbn [wp]. split; [auto|]. split; [|auto]. intros i j Hi Hj. destruct (j =? r) eqn:E; [|reflexivity]. apply Z.eqb_eq in E. subst j.
        rewrite H2 by auto. rewrite Z.ltb_irrefl. reflexivity. }
    intros c1 (B1 & B2 & B3).
    apply (for_wp' (fun k c2 => zlen c2 = zlen c /\
      (forall i j, 0 <= i < l -> 0 <= j < m -> elt c2 ldc i j = if j =? r then combine op' (base i) (sum_to k (fun k => smul (elt a lda i k) (elt b ldb k r))) else elt c' ldc i j) /\
      (forall p, (forall i j, 0 <= i < l -> 0 <= j < m -> p <> i + j * ldc) -> znth s0 c2 p = znth s0 c p))); [lia| | |].
    + split; [auto|]. split; [|auto]. intros i j Hi Hj. rewrite B2 by auto. destruct (j =? r); [|reflexivity].
      rewrite sum_to_0. unfold combine. destruct (op' =? 0) eqn:E; [apply Z.eqb_eq in E; lia|]. destruct (op' =? 1); ring.
    + intros k c2 Hk (C1 & C2 & C3).
      set (G := fun k i => combine op' (base i) (sum_to k (fun k => smul (elt a lda i k) (elt b ldb k r)))) in *.
      apply (for_wp' (fun q c3 => zlen c3 = zlen c /\
        (forall i j, 0 <= i < l -> 0 <= j < m -> elt c3 ldc i j = if j =? r then (if i <? q then G (k + 1) i else G k i) else elt c' ldc i j) /\
        (forall p, (forall i j, 0 <= i < l -> 0 <= j < m -> p <> i + j * ldc) -> znth s0 c3 p = znth s0 c p))); [lia| | |].
      * split; [auto|]. split; [|auto]. intros i j Hi Hj. rewrite C2 by auto. replace (i <? 0) with false by (symmetry; apply Z.ltb_ge; lia). reflexivity.
      * intros q c3 Hq (D1 & D2 & D3). rewrite prod_ok by nia. cbn [bind]. rewrite put_ok by (auto; nia). cbn [wp]. rewrite zlen_zupd. split; [auto|]. split.
        -- intros i j Hi Hj. unfold elt at 1. rewrite znth_zupd by nia.
           destruct (i + j * ldc =? q + r * ldc) eqn:E.
           ++ apply Z.eqb_eq in E. apply pos_inj in E; [|lia|lia]. destruct E as (-> & ->). rewrite Z.eqb_refl.
              replace (q <? q + 1) with true by (symmetry; apply Z.ltb_lt; lia).
              change (znth s0 c3 (q + r * ldc)) with (elt c3 ldc q r). rewrite D2 by (auto; lia). rewrite Z.eqb_refl, Z.ltb_irrefl.
              unfold G. rewrite sum_to_S by lia. fold (elt a lda q k) (elt b ldb k r). unfold combine.
              destruct (op' =? 0) eqn:E0; [apply Z.eqb_eq in E0; lia|]. destruct (op' =? 1); ring.
           ++ apply Z.eqb_neq in E. change (znth s0 c3 (i + j * ldc)) with (elt c3 ldc i j). rewrite D2 by auto.
              destruct (j =? r) eqn:Ej; [|reflexivity]. apply Z.eqb_eq in Ej. subst j.
              assert (i <> q) by (intros ->; apply E; reflexivity).
              destruct (i <? q) eqn:E1; destruct (i <? q + 1) eqn:E2; try reflexivity; [apply Z.ltb_lt in E1; apply Z.ltb_ge in E2; lia|apply Z.ltb_ge in E1; apply Z.ltb_lt in E2; lia].
        -- intros p Hp. rewrite znth_zupd by nia. destruct (p =? q + r * ldc) eqn:E; [apply Z.eqb_eq in E; exfalso; apply (Hp q r); auto; lia|auto].
      * intros c3 (D1 & D2 & D3). split; [auto|]. split; [|auto]. intros i j Hi Hj. rewrite D2 by auto.
        replace (i <? l) with true by (symmetry; apply Z.ltb_lt; lia). reflexivity.
    + intros c2 (C1 & C2 & C3). split; [auto|]. split; [|auto]. intros i j Hi Hj. rewrite C2 by auto.
      destruct (j =? r) eqn:E.
      * apply Z.eqb_eq in E. subst j. replace (r <? r + 1) with true by (symmetry; apply Z.ltb_lt; lia). unfold val, base, op', combine.
        destruct Ho as [->|[->| ->]]; cbn [Z.eqb Pos.eqb LIS_INS_VALUE LIS_ADD_VALUE]; try reflexivity. ring.
      * apply Z.eqb_neq in E. rewrite H2 by auto.
        destruct (j <? r) eqn:E1; destruct (j <? r + 1) eqn:E2; try reflexivity; [apply Z.ltb_lt in E1; apply Z.ltb_ge in E2; lia|apply Z.ltb_ge in E1; apply Z.ltb_lt in E2; lia].
  - intros c' (H1 & H2 & H3). split; [auto|]. split; [|auto]. intros i j Hi Hj. rewrite H2 by auto.
    replace (j <? m) with true by (symmetry; apply Z.ltb_lt; lia). reflexivity.
Qed.
Theorem matmat_ok n a b c op : 0 <= n -> n * n <= zlen a -> n * n <= zlen b -> n * n <= zlen c -> op_ok op ->
  wp (lis_array_matmat n a b c op) (fun c' => zlen c' = zlen c /\
    (forall i j, 0 <= i < n -> 0 <= j < n -> elt c' n i j = combine op (elt c n i j) (sum_to n (fun k => smul (elt a n i k) (elt b n k j)))) /\
    (forall p, n * n <= p -> znth s0 c' p = znth s0 c p)).
Proof.
  intros Hn Ha Hb Hc Ho.
  assert (G : wp (matmat_loop n n n a n b n c n op) (fun c' => zlen c' = zlen c /\
    (forall i j, 0 <= i < n -> 0 <= j < n -> elt c' n i j = combine op (elt c n i j) (sum_to n (fun k => smul (elt a n i k) (elt b n k j)))) /\
    (forall p, n * n <= p -> znth s0 c' p = znth s0 c p))).
  { eapply wp_mono; [apply matmat_loop_ok; auto; lia|]. intros c' (H1 & H2 & H3). split; [auto|]. split; [auto|]. intros p Hp. apply H3. intros; nia. }
  unfold lis_array_matmat. destruct n as [|p|p]; [exact G| |lia].
  destruct p as [p|p|]; [destruct p as [p|p|]; try exact G| destruct p as [p|p|]; try exact G|]; clear G.
  - (* 3 *) chain. cbn [wp]. rewrite !zlen_zupd. split; [reflexivity|]. split.
    + intros i j Hi Hj. assert (i = 0 \/ i = 1 \/ i = 2) as [->|[->| ->]] by lia; assert (j = 0 \/ j = 1 \/ j = 2) as [->|[->| ->]] by lia;
      unfold elt at 1; pick; cbn [Z.add Z.mul Pos.mul Pos.add Pos.succ Z.eqb Pos.eqb]; f_equal; fin.
    + intros p Hp. pick. numeral_eqb. reflexivity.
  - (* 2 *) chain. cbn [wp]. rewrite !zlen_zupd. split; [reflexivity|]. split.
    + intros i j Hi Hj. assert (i = 0 \/ i = 1) as [->| ->] by lia; assert (j = 0 \/ j = 1) as [->| ->] by lia;
      unfold elt at 1; pick; cbn [Z.add Z.mul Pos.mul Pos.add Pos.succ Z.eqb Pos.eqb]; f_equal; fin.
    + intros p Hp. pick. numeral_eqb. reflexivity.
  - (* 1 *) chain. cbn [wp]. rewrite !zlen_zupd. split; [reflexivity|]. split.
    + intros i j Hi Hj. assert (i = 0) as -> by lia; assert (j = 0) as -> by lia;
      unfold elt at 1; pick; cbn [Z.add Z.mul Pos.mul Pos.add Pos.succ Z.eqb Pos.eqb]; f_equal; fin.
    + intros p Hp. pick. numeral_eqb. reflexivity.
Qed.
End P.
