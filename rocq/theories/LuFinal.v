(** lis_array_solve and lis_array_ge: the complete functions. *)
Require Import ZArith List Bool Lia Ring Field.
From Verif Require Import Base Scalar SpecArray Array ArrayProof LuProof.
From Verif Require Krylov.
Import ListNotations.
Open Scope Z_scope.

Section P.
Context {T : Type} {S : Scalar T}.
Hypothesis FT : is_field S.
Hypothesis EQ : eqb_ok S.
Lemma RT : is_ring S. Proof. exact (F_R FT). Qed.
Let RT' : @ring_theory T s0 s1 sadd smul ssub sopp (@eq T) := RT.
Add Ring Tr : RT'.
Notation vz v := (znth s0 v).

Lemma copy_in n a w : 0 <= n -> n * n <= zlen a -> n * n <= zlen w ->
  wp (for_ 0 (n * n) (fun i w => v <- rd a i ;; wr w i v) w) (fun w' => isM n w' (elt a n) /\ zlen w' = zlen w /\ forall p, 0 <= p < n * n -> vz w' p = vz a p).
Proof.
  intros Hn Ha Hw. assert (0 <= n * n) by nia.
  apply (for_wp' (fun k w' => zlen w' = zlen w /\ forall p, 0 <= p < k -> vz w' p = vz a p)); [lia| | |].
  - split; [reflexivity|intros; lia].
  - intros k w' Hk (A & B). rewrite (rd_ok s0) by lia. cbn [bind]. rewrite wr_ok by lia. cbn [wp]. rewrite zlen_zupd. split; [exact A|].
    intros p Hp. rewrite znth_zupd by lia. destruct (Z.eqb_spec p k); [subst; reflexivity|]. apply B. lia.
  - intros w' (A & B). split; [split; [lia|]|auto]. intros i j Hi Hj. unfold elt. apply B. nia.
Qed.
Lemma subx_ok x i w k j : 0 <= i < zlen x -> 0 <= j < zlen x -> 0 <= k < zlen w ->
  subx x i w k j = Ok (zupd x i (ssub (vz x i) (smul (vz w k) (vz x j)))).
Proof. intros. unfold subx. rewrite (rd_ok s0) by auto. cbn [bind]. rewrite prod_ok by auto. cbn [bind]. apply wr_ok; auto. Qed.

Lemma forward_loop n f w b x : 0 <= n -> isM n w f -> n <= zlen b -> n <= zlen x ->
  wp (for_ 0 n (fun i x => v <- rd b i ;; x <- wr x i v ;; for_ 0 i (fun j x => subx x i w (i + j * n) j) x) x)
    (fun y => zlen y = zlen x /\ forward_of n f (vz b) (vz y) /\ forall i, n <= i -> vz y i = vz x i).
Proof.
  intros Hn (Lw & HM) Hb Hx.
  apply (for_wp' (fun k y => zlen y = zlen x /\ (forall i, 0 <= i < k -> vz y i = ssub (vz b i) (sum_to i (fun j => smul (f i j) (vz y j)))) /\ forall i, n <= i -> vz y i = vz x i)); [lia| | |].
  - split; [reflexivity|]. split; [intros; lia|auto].
  - intros k y Hk (L & A & B). rewrite (rd_ok s0) by lia. cbn [bind]. rewrite wr_ok by lia. cbn [bind].
    set (y1 := zupd y k (vz b k)).
    assert (Y1 : forall p, vz y1 p = if p =? k then vz b k else vz y p) by (intros p; apply znth_zupd; lia).
    assert (L1 : zlen y1 = zlen y) by apply zlen_zupd.
    apply (for_wp' (fun q y' => zlen y' = zlen x /\ (forall p, p <> k -> vz y' p = vz y p) /\ vz y' k = ssub (vz b k) (sum_to q (fun j => smul (f k j) (vz y j))))); [lia| | |].
    + split; [lia|]. split; [intros p Hp; rewrite Y1; destruct (Z.eqb_spec p k); [lia|reflexivity]|]. rewrite Y1, Z.eqb_refl. rewrite sum_to_0. ring.
    + intros q y' Hq (A1 & A2 & A3). rewrite subx_ok by nia. cbn [wp]. rewrite zlen_zupd. split; [exact A1|]. split.
      * intros p Hp. rewrite znth_zupd by lia. destruct (Z.eqb_spec p k); [lia|]. auto.
      * rewrite znth_zupd, Z.eqb_refl by lia. rewrite A3, (sum_to_S RT) by lia. change (vz w (k + q * n)) with (elt w n k q). rewrite HM by lia. rewrite A2 by lia. ring.
    + intros y' (A1 & A2 & A3). split; [exact A1|]. split; [|intros i Hi; rewrite A2 by lia; auto].
      intros i Hi. destruct (Z.eq_dec i k) as [->|Hne].
      * rewrite A3. f_equal. apply sum_to_ext. intros j Hj. rewrite (A2 j) by lia. reflexivity.
      * rewrite A2 by lia. rewrite A by lia. f_equal. apply sum_to_ext. intros j Hj. rewrite (A2 j) by lia. reflexivity.
  - intros y H. exact H.
Qed.
Lemma backward_loop n f w y : 0 <= n -> isM n w f -> n <= zlen y ->
  wp (for_down (n - 1) 0 (fun i x => x <- for_ (i + 1) n (fun j x => subx x i w (i + j * n) j) x ;;
             v <- rd x i ;; d <- rd w (i + i * n) ;; wr x i (smul v d)) y)
    (fun x => zlen x = zlen y /\ backward_of n f (vz y) (vz x) /\ forall i, n <= i -> vz x i = vz y i).
Proof.
  intros Hn (Lw & HM) Hy.
  apply (ford_wp' (fun k x => zlen x = zlen y /\ (forall i, k < i < n -> vz x i = smul (ssub (vz y i) (ssum (map (fun j => smul (f i j) (vz x j)) (zrange (i + 1) n)))) (f i i)) /\ (forall i, i <= k \/ n <= i -> vz x i = vz y i))); [lia| | |].
  - split; [reflexivity|]. split; [intros; lia|auto].
  - intros k x Hk (L & A & B). apply wp_bind.
    apply (for_wp' (fun q x' => zlen x' = zlen y /\ (forall p, p <> k -> vz x' p = vz x p) /\ vz x' k = ssub (vz y k) (ssum (map (fun j => smul (f k j) (vz x j)) (zrange (k + 1) q))))); [lia| | |].
    + split; [exact L|]. split; [auto|]. rewrite zrange_empty by lia. cbn [map ssum]. rewrite B by lia. ring.
    + intros q x' Hq (A1 & A2 & A3). rewrite subx_ok by nia. cbn [wp]. rewrite zlen_zupd. split; [exact A1|]. split.
      * intros p Hp. rewrite znth_zupd by lia. destruct (Z.eqb_spec p k); [lia|]. auto.
      * rewrite znth_zupd, Z.eqb_refl by lia. rewrite A3. rewrite zrange_snoc by lia. rewrite map_app, (ssum_app RT). cbn [map ssum].
        change (vz w (k + q * n)) with (elt w n k q). rewrite HM by lia. rewrite A2 by lia. ring.
    + intros x' (A1 & A2 & A3). rewrite (rd_ok s0) by lia. cbn [bind]. rewrite (rd_ok s0) by nia. cbn [bind]. rewrite wr_ok by lia. cbn [wp].
      set (x2 := zupd x' k _).
      assert (X2 : forall p, vz x2 p = if p =? k then smul (vz x' k) (vz w (k + k * n)) else vz x' p) by (intros p; apply znth_zupd; lia).
      split; [unfold x2; rewrite zlen_zupd; exact A1|]. split.
      * intros i Hi. assert (EI : ssum (map (fun j => smul (f i j) (vz x2 j)) (zrange (i + 1) n)) = ssum (map (fun j => smul (f i j) (vz x j)) (zrange (i + 1) n))).
        { apply ssum_map_ext. intros j Hj. apply In_zrange in Hj. rewrite X2. destruct (Z.eqb_spec j k); [lia|]. rewrite A2 by lia. reflexivity. }
        rewrite EI. rewrite X2. destruct (Z.eqb_spec i k) as [->|Hne].
        -- rewrite A3. change (vz w (k + k * n)) with (elt w n k k). rewrite HM by lia. reflexivity.
        -- rewrite A2 by lia. apply A. lia.
      * intros i Hi. rewrite X2. destruct (Z.eqb_spec i k); [lia|]. rewrite A2 by lia. apply B. lia.
  - intros x (A & B & C). split; [exact A|]. split; [intros i Hi; apply B; lia|]. intros i Hi. apply C. lia.
Qed.

(** the specification of lis_array_solve *)
Definition solve_post (n : Z) (a b x w : list T) (r : list T * list T) : Prop :=
  let '(x', w') := r in zlen x' = zlen x /\ zlen w' = zlen w /\ solves n (elt a n) (vz x') (vz b) /\ (forall i, n <= i -> vz x' i = vz x i).
Theorem solve_out n a b x w : 0 <= n -> n * n <= zlen a -> n <= zlen b -> n <= zlen x -> n * n <= zlen w ->
  out (lis_array_solve n a b x w) (fun r => solve_post n a b x w r /\ pivots n (elt a n)) (~ pivots n (elt a n)).
Proof.
  intros Hn Ha Hb Hx Hw. unfold lis_array_solve. apply out_bind. apply wp_out. eapply wp_mono; [apply (copy_in n a w); auto|].
  intros w1 (M1 & L1 & CP).
  assert (G : out (w <- eliminate n w1 ;;
      x <- for_ 0 n (fun i x =>
             v <- rd b i ;; x <- wr x i v ;;
             for_ 0 i (fun j x => subx x i w (i + j * n) j) x) x ;;
      x <- for_down (n - 1) 0 (fun i x =>
             x <- for_ (i + 1) n (fun j x => subx x i w (i + j * n) j) x ;;
             v <- rd x i ;; d <- rd w (i + i * n) ;; wr x i (smul v d)) x ;;
      Ok (x, w)) (fun r => solve_post n a b x w r /\ pivots n (elt a n)) (~ pivots n (elt a n))).
  { apply out_bind. eapply out_mono; [exact (eliminate_out EQ n w1 (elt a n) Hn M1)| |auto]. intros w2 (M2 & P2 & L2).
    apply wp_out. apply wp_bind. eapply wp_mono; [apply forward_loop; eauto|]. intros y (Y1 & Y2 & Y3).
    apply wp_bind. eapply wp_mono; [apply backward_loop; eauto; lia|]. intros x2 (X1 & X2 & X3). cbn [wp]. split; [|exact P2].
    split; [lia|]. split; [lia|]. split; [|intros i Hi; rewrite X3, Y3 by lia; reflexivity].
    apply (lu_solves FT n (elt a n) (vz b) (vz y) (vz x2)); auto. }
  destruct n as [|p|p]; [exact G| |lia]. destruct p as [p|p|]; [exact G|destruct p as [p|p|]; try exact G|]; clear G.
  - (* 2 *)
    assert (HF : forall i j, F 0 (elt a 2) i j = elt a 2 i j) by reflexivity.
    assert (H11 : F 1 (elt a 2) 1 1 = ssub (elt a 2 1 1) (smul (smul (elt a 2 1 0) (inv (elt a 2 0 0))) (elt a 2 0 1))) by reflexivity.
    assert (E : forall q, 0 <= q < 4 -> vz w1 q = vz a q) by (intros q Hq; apply CP; lia).
    rewrite (rd_ok s0) by lia. cbn [bind]. rewrite (E 0) by lia. change (vz a 0) with (elt a 2 0 0).
    set (a00 := elt a 2 0 0) in *. set (a10 := elt a 2 1 0) in *. set (a01 := elt a 2 0 1) in *. set (a11 := elt a 2 1 1) in *.
    unfold Krylov.divz at 1. destruct (seqb a00 s0) eqn:Z0.
    { cbn [bind out]. split; [reflexivity|]. intros C. apply (C 0 ltac:(lia)). apply EQ. exact Z0. }
    assert (N0 : a00 <> s0) by (intros C; apply EQ in C; congruence). fold (inv a00).
    change (sdiv s1 a00) with (inv a00).
    cbn [bind]. rewrite wr_ok by lia. cbn [bind].
    rewrite (rd_ok s0) by (rewrite ?zlen_zupd; lia). cbn [bind]. rewrite (rd_ok s0) by (rewrite ?zlen_zupd; lia). cbn [bind].
    rewrite !znth_zupd by lia. cbn [Z.eqb Pos.eqb]. rewrite (E 1) by lia. change (vz a 1) with a10.
    rewrite wr_ok by (rewrite ?zlen_zupd; lia). cbn [bind].
    rewrite (rd_ok s0) by (rewrite ?zlen_zupd; lia). cbn [bind]. rewrite prod_ok by (rewrite ?zlen_zupd; lia). cbn [bind].
    rewrite !znth_zupd by (rewrite ?zlen_zupd; lia). cbn [Z.eqb Pos.eqb]. rewrite (E 3), (E 2) by lia. change (vz a 3) with a11. change (vz a 2) with a01.
    rewrite wr_ok by (rewrite ?zlen_zupd; lia). cbn [bind].
    rewrite (rd_ok s0) by (rewrite ?zlen_zupd; lia). cbn [bind]. rewrite znth_zupd_eq by (rewrite ?zlen_zupd; lia).
    set (d := ssub a11 (smul (smul a10 (inv a00)) a01)) in *. unfold Krylov.divz at 1. destruct (seqb d s0) eqn:Z1.
    { cbn [bind out]. split; [reflexivity|]. intros C. apply (C 1 ltac:(lia)). rewrite H11. apply EQ. exact Z1. }
    assert (N1 : d <> s0) by (intros C; apply EQ in C; congruence). change (sdiv s1 d) with (inv d).
    cbn [bind]. rewrite wr_ok by (rewrite ?zlen_zupd; lia). cbn [bind].
    set (w4 := zupd (zupd _ _ _) 3 (inv d)).
    assert (L4 : zlen w4 = zlen w1) by (unfold w4; rewrite !zlen_zupd; reflexivity).
    assert (W0 : vz w4 0 = inv a00) by (unfold w4; rewrite !znth_zupd by (rewrite ?zlen_zupd; lia); reflexivity).
    assert (W1 : vz w4 1 = smul a10 (inv a00)) by (unfold w4; rewrite !znth_zupd by (rewrite ?zlen_zupd; lia); reflexivity).
    assert (W2 : vz w4 2 = a01) by (unfold w4; rewrite !znth_zupd by (rewrite ?zlen_zupd; lia); cbn [Z.eqb Pos.eqb]; apply E; lia).
    assert (W3 : vz w4 3 = inv d) by (unfold w4; rewrite !znth_zupd by (rewrite ?zlen_zupd; lia); reflexivity).
    clearbody w4. set (b0 := vz b 0). set (b1 := vz b 1).
    rewrite (rd_ok s0) by lia. cbn [bind]. rewrite wr_ok by lia. cbn [bind]. fold b0.
    rewrite (rd_ok s0) by lia. cbn [bind]. rewrite prod_ok by (rewrite ?zlen_zupd; lia). cbn [bind]. rewrite znth_zupd_eq by lia. rewrite W1. fold b1.
    rewrite wr_ok by (rewrite ?zlen_zupd; lia). cbn [bind].
    rewrite (rd_ok s0) by (rewrite ?zlen_zupd; lia). cbn [bind]. rewrite znth_zupd_eq by (rewrite ?zlen_zupd; lia).
    rewrite (rd_ok s0) by lia. cbn [bind]. rewrite W3. rewrite wr_ok by (rewrite ?zlen_zupd; lia). cbn [bind].
    rewrite subx_ok by (rewrite ?zlen_zupd; lia). cbn [bind]. rewrite W2.
    rewrite (rd_ok s0) by (rewrite ?zlen_zupd; lia). cbn [bind]. rewrite znth_zupd_eq by (rewrite ?zlen_zupd; lia).
    rewrite (rd_ok s0) by lia. cbn [bind]. rewrite W0. rewrite wr_ok by (rewrite ?zlen_zupd; lia). cbn [bind out].
    rewrite !znth_zupd by (rewrite ?zlen_zupd; lia). cbn [Z.eqb Pos.eqb].
    set (x1 := smul (ssub b1 (smul (smul a10 (inv a00)) b0)) (inv d)). set (x0 := smul (ssub b0 (smul a01 x1)) (inv a00)).
    assert (PV : pivots 2 (elt a 2)).
    { intros k Hk. assert (k = 0 \/ k = 1) as [-> | ->] by lia; [exact N0|rewrite H11; exact N1]. }
    split; [|exact PV]. split; [rewrite !zlen_zupd; reflexivity|]. split; [lia|]. split.
    + intros i Hi. rewrite (sum_to_2 RT). rewrite !znth_zupd by (rewrite ?zlen_zupd; lia). cbn [Z.eqb Pos.eqb].
      assert (D1 : smul d x1 = ssub b1 (smul (smul a10 (inv a00)) b0)).
      { unfold x1. transitivity (smul (smul (inv d) d) (ssub b1 (smul (smul a10 (inv a00)) b0))); [ring|]. rewrite (inv_l FT) by auto. ring. }
      assert (D0 : smul a00 x0 = ssub b0 (smul a01 x1)).
      { unfold x0. transitivity (smul (smul (inv a00) a00) (ssub b0 (smul a01 x1))); [ring|]. rewrite (inv_l FT) by auto. ring. }
      assert (i = 0 \/ i = 1) as [-> | ->] by lia.
      * fold a00 a01. rewrite D0. fold b0. ring.
      * fold a10 a11. fold b1. transitivity (sadd (smul (smul a10 (inv a00)) (smul a00 x0)) (smul a11 x1)).
        { transitivity (sadd (smul (smul (inv a00) a00) (smul a10 x0)) (smul a11 x1)); [rewrite (inv_l FT) by auto; ring|ring]. }
        rewrite D0. transitivity (sadd (smul (smul a10 (inv a00)) b0) (smul d x1)); [unfold d; ring|]. rewrite D1. ring.
    + intros i Hi. rewrite !znth_zupd by (rewrite ?zlen_zupd; lia). destruct (Z.eqb_spec i 0); [lia|]. destruct (Z.eqb_spec i 1); [lia|]. reflexivity.
  - (* 1 *)
    rewrite (rd_ok s0) by lia. cbn [bind]. rewrite (rd_ok s0) by lia. cbn [bind]. rewrite (CP 0) by lia. change (vz a 0) with (elt a 1 0 0).
    set (a00 := elt a 1 0 0) in *. unfold Krylov.divz. destruct (seqb a00 s0) eqn:Z0.
    { cbn [bind out]. split; [reflexivity|]. intros C. apply (C 0 ltac:(lia)). apply EQ. exact Z0. }
    assert (N0 : a00 <> s0) by (intros C; apply EQ in C; congruence).
    cbn [bind]. rewrite wr_ok by lia. cbn [bind out]. split.
    + split; [apply zlen_zupd|]. split; [lia|]. split.
      * intros i Hi. rewrite (sum_to_1 RT). assert (i = 0) as -> by lia. rewrite znth_zupd_eq by lia. fold a00.
        rewrite (Fdiv_def FT (vz b 0) a00). change (sdiv s1 a00) with (inv a00).
        transitivity (smul (smul (inv a00) a00) (vz b 0)); [ring|]. rewrite (inv_l FT) by auto. ring.
      * intros i Hi. rewrite znth_zupd_neq by lia. reflexivity.
    + intros k Hk. assert (k = 0) as -> by lia. exact N0.
Qed.

(** *** lis_array_ge *)
Lemma ge_column n f lu a k : 0 <= k < n -> isM n lu f -> n * n <= zlen a ->
  wp (a <- for_ 0 n (fun i a =>
           t <- for_ 0 i (fun j t => p <- prod lu (i + j * n) a (j + k * n) ;; Ok (ssub t p)) (if i =? k then s1 else s0) ;;
           wr a (i + k * n) t) a ;;
    for_down (n - 1) 0 (fun i a =>
      t <- rd a (i + k * n) ;;
      t <- for_ (i + 1) n (fun j t => p <- prod lu (i + j * n) a (j + k * n) ;; Ok (ssub t p)) t ;;
      d <- rd lu (i + i * n) ;;
      wr a (k * n + i) (smul t d)) a)
   (fun a' => zlen a' = zlen a /\ (forall i j, 0 <= i < n -> 0 <= j < n -> j <> k -> elt a' n i j = elt a n i j) /\
      (forall p, n * n <= p -> vz a' p = vz a p) /\
      exists y, forward_of n f (fun i => delta i k) y /\ backward_of n f y (fun i => elt a' n i k)).
Proof.
  intros Hk (Ll & HM) La. apply wp_bind.
  apply (for_wp' (fun r a' => zlen a' = zlen a /\ (forall i j, 0 <= i < n -> 0 <= j < n -> j <> k -> elt a' n i j = elt a n i j) /\ (forall p, n * n <= p -> vz a' p = vz a p) /\
     forall i, 0 <= i < r -> elt a' n i k = ssub (delta i k) (sum_to i (fun j => smul (f i j) (elt a' n j k))))); [lia| | |].
  - split; [reflexivity|]. split; [auto|]. split; [auto|]. intros; lia.
  - intros r a1 Hr (A1 & A2 & A2' & A3). apply wp_bind.
    apply (for_wp' (fun q t => t = ssub (delta r k) (sum_to q (fun j => smul (f r j) (elt a1 n j k))))); [lia| | |].
    + rewrite sum_to_0. unfold delta. destruct (r =? k); ring.
    + intros q t Hq ->. rewrite prod_ok by nia. cbn [bind wp]. rewrite (sum_to_S RT) by lia.
      change (vz lu (r + q * n)) with (elt lu n r q). rewrite HM by lia. change (vz a1 (q + k * n)) with (elt a1 n q k). ring.
    + intros t ->. rewrite wr_ok by nia. cbn [wp]. set (v := ssub _ _). set (a2 := zupd a1 _ v).
      assert (E2 : forall i j, 0 <= i < n -> 0 <= j < n -> elt a2 n i j = if (i =? r) && (j =? k) then v else elt a1 n i j).
      { intros i j Hi Hj. unfold a2, elt. rewrite znth_zupd by nia. destruct (Z.eqb_spec (i + j * n) (r + k * n)) as [E|E].
        - apply pos_inj in E; [|lia|lia]. destruct E as (-> & ->). rewrite !Z.eqb_refl. reflexivity.
        - destruct (Z.eqb_spec i r), (Z.eqb_spec j k); cbn [andb]; try reflexivity. subst. lia. }
      split; [unfold a2; rewrite zlen_zupd; exact A1|]. split; [|split].
      * intros i j Hi Hj Hne. rewrite E2 by auto. destruct (Z.eqb_spec j k); [lia|]. rewrite andb_false_r. auto.
      * intros p Hp. unfold a2. rewrite znth_zupd_neq by nia. auto.
      * intros i Hi. rewrite (sum_to_ext i _ (fun j => smul (f i j) (elt a1 n j k))) by (intros j Hj; rewrite E2 by lia; destruct (Z.eqb_spec j r); [lia|reflexivity]).
        rewrite E2 by lia. rewrite Z.eqb_refl, andb_true_r. destruct (Z.eqb_spec i r) as [->|]; [reflexivity|]. apply A3. lia.
  - intros a1 (A1 & A2 & A2' & A3). set (y := fun i => elt a1 n i k).
    apply (ford_wp' (fun r a' => zlen a' = zlen a /\ (forall i j, 0 <= i < n -> 0 <= j < n -> j <> k -> elt a' n i j = elt a n i j) /\ (forall p, n * n <= p -> vz a' p = vz a p) /\
       (forall i, 0 <= i <= r -> elt a' n i k = y i) /\
       forall i, r < i < n -> elt a' n i k = smul (ssub (y i) (ssum (map (fun j => smul (f i j) (elt a' n j k)) (zrange (i + 1) n)))) (f i i))); [lia| | |].
    + split; [auto|]. split; [auto|]. split; [auto|]. split; [intros; reflexivity|intros; lia].
    + intros r a2 Hr (B1 & B2 & B2' & B3 & B4). rewrite (rd_ok s0) by nia. cbn [bind]. change (vz a2 (r + k * n)) with (elt a2 n r k). rewrite B3 by lia. apply wp_bind.
      apply (for_wp' (fun q t => t = ssub (y r) (ssum (map (fun j => smul (f r j) (elt a2 n j k)) (zrange (r + 1) q))))); [lia| | |].
      * rewrite zrange_empty by lia. cbn [map ssum]. ring.
      * intros q t Hq ->. rewrite prod_ok by nia. cbn [bind wp]. rewrite zrange_snoc by lia. rewrite map_app, (ssum_app RT). cbn [map ssum].
        change (vz lu (r + q * n)) with (elt lu n r q). rewrite HM by lia. change (vz a2 (q + k * n)) with (elt a2 n q k). ring.
      * intros t ->. rewrite (rd_ok s0) by nia. cbn [bind]. change (vz lu (r + r * n)) with (elt lu n r r). rewrite HM by lia.
        replace (k * n + r) with (r + k * n) by lia. rewrite wr_ok by nia. cbn [wp]. set (v := smul _ _). set (a3 := zupd a2 _ v).
        assert (E2 : forall i j, 0 <= i < n -> 0 <= j < n -> elt a3 n i j = if (i =? r) && (j =? k) then v else elt a2 n i j).
        { intros i j Hi Hj. unfold a3, elt. rewrite znth_zupd by nia. destruct (Z.eqb_spec (i + j * n) (r + k * n)) as [E|E].
          - apply pos_inj in E; [|lia|lia]. destruct E as (-> & ->). rewrite !Z.eqb_refl. reflexivity.
          - destruct (Z.eqb_spec i r), (Z.eqb_spec j k); cbn [andb]; try reflexivity. subst. lia. }
        split; [unfold a3; rewrite zlen_zupd; exact B1|]. split; [|split; [|split]].
        -- intros i j Hi Hj Hne. rewrite E2 by auto. destruct (Z.eqb_spec j k); [lia|]. rewrite andb_false_r. auto.
        -- intros p Hp. unfold a3. rewrite znth_zupd_neq by nia. auto.
        -- intros i Hi. rewrite E2 by lia. destruct (Z.eqb_spec i r); [lia|]. apply B3. lia.
        -- intros i Hi. rewrite (ssum_map_ext _ (fun j => smul (f i j) (elt a2 n j k))) by (intros j Hj; apply In_zrange in Hj; rewrite E2 by lia; destruct (Z.eqb_spec j r); [lia|reflexivity]).
           rewrite E2 by lia. rewrite Z.eqb_refl, andb_true_r. destruct (Z.eqb_spec i r) as [->|]; [reflexivity|]. apply B4. lia.
    + intros a' (B1 & B2 & B2' & B3 & B4). split; [exact B1|]. split; [exact B2|]. split; [exact B2'|]. exists y. split.
      * intros i Hi. unfold y. rewrite A3 by lia. reflexivity.
      * intros i Hi. apply B4. lia.
Qed.
Lemma sum_delta n i (g : Z -> T) : 0 <= i < n -> sum_to n (fun j => smul (delta i j) (g j)) = g i.
Proof.
  intros Hi. unfold sum_to. rewrite (zrange_app 0 i n) by lia. rewrite map_app, (ssum_app RT).
  rewrite (ssum_map_ext _ (fun _ => s0) (zrange 0 i)) by (intros j Hj; apply In_zrange in Hj; unfold delta; destruct (Z.eqb_spec i j); [lia|ring]).
  rewrite (ssum_map_zero RT). rewrite zrange_cons by lia. cbn [map ssum].
  rewrite (ssum_map_ext _ (fun _ => s0) (zrange (i + 1) n)) by (intros j Hj; apply In_zrange in Hj; unfold delta; destruct (Z.eqb_spec i j); [lia|ring]).
  rewrite (ssum_map_zero RT). unfold delta. rewrite Z.eqb_refl. ring.
Qed.
Lemma sum_delta_r n i (g : Z -> T) : 0 <= i < n -> sum_to n (fun j => smul (g j) (delta j i)) = g i.
Proof.
  intros Hi. rewrite <- (sum_delta n i g Hi). apply sum_to_ext. intros j Hj. unfold delta. rewrite (Z.eqb_sym j i). destruct (i =? j); ring.
Qed.
(** a right inverse of a matrix with an LU factorisation is a left inverse *)
Lemma right_left n A L U X : 0 <= n -> lu_of n A L U ->
  (forall i k, 0 <= i < n -> 0 <= k < n -> sum_to n (fun j => smul (A i j) (X j k)) = delta i k) -> is_inverse n A X.
Proof.
  intros Hn HLU HR. split; [exact HR|]. intros i k Hi Hk.
  apply (lu_injective FT n A L U (fun i => sum_to n (fun j => smul (X i j) (A j k))) (fun i => delta i k) Hn HLU); [|exact Hi].
  intros r Hr. rewrite (sum_delta_r n k (fun j => A r j) Hk).
  transitivity (sum_to n (fun j => smul (sum_to n (fun l => smul (A r l) (X l j))) (A j k))).
  - transitivity (sum_to n (fun l => sum_to n (fun j => smul (smul (A r l) (X l j)) (A j k)))).
    + apply sum_to_ext. intros l Hl. unfold sum_to. rewrite <- (ssum_map_mul_l RT). apply ssum_map_ext. intros j _. ring.
    + unfold sum_to. rewrite (ssum_exchange RT). apply ssum_map_ext. intros j _. rewrite <- (ssum_map_mul_r RT). reflexivity.
  - rewrite (sum_to_ext n _ (fun j => smul (delta r j) (A j k))) by (intros j Hj; rewrite HR by auto; reflexivity). exact (sum_delta n r (fun j => A j k) Hr).
Qed.
Theorem ge_out n a : 0 <= n -> n * n <= zlen a ->
  out (lis_array_ge n a) (fun a' => zlen a' = zlen a /\ is_inverse n (elt a n) (elt a' n) /\ (forall p, n * n <= p -> vz a' p = vz a p) /\ pivots n (elt a n)) (~ pivots n (elt a n)).
Proof.
  intros Hn Ha. unfold lis_array_ge. apply out_bind. apply wp_out.
  eapply wp_mono; [apply (copy_in n a (alloc (n * n) (fun _ => s0))); auto; rewrite zlen_alloc by nia; lia|].
  intros w1 (M1 & _ & _). apply out_bind. eapply out_mono; [exact (eliminate_out EQ n w1 (elt a n) Hn M1)| |auto]. intros lu (M2 & P2 & L2).
  apply wp_out. set (f := F n (elt a n)) in *.
  apply (for_wp' (fun k a' => zlen a' = zlen a /\ (forall p, n * n <= p -> vz a' p = vz a p) /\
    forall i j, 0 <= i < n -> 0 <= j < k -> sum_to n (fun l => smul (elt a n i l) (elt a' n l j)) = delta i j)); [lia| | |].
  - split; [reflexivity|]. split; [auto|]. intros; lia.
  - intros k a1 Hk (A1 & A2 & A3). eapply wp_mono; [apply (ge_column n f lu a1 k); auto; lia|].
    intros a2 (B1 & B2 & B3 & y & B4 & B5). split; [lia|]. split; [intros p Hp; rewrite B3 by lia; auto|].
    intros i j Hi Hj. destruct (Z.eq_dec j k) as [->|Hne].
    + exact (lu_solves FT n (elt a n) (fun i => delta i k) y (fun l => elt a2 n l k) Hn P2 B4 B5 i Hi).
    + rewrite <- (A3 i j Hi ltac:(lia)). apply sum_to_ext. intros l Hl. rewrite B2 by lia. reflexivity.
  - intros a' (A1 & A2 & A3). split; [exact A1|]. split; [|auto].
    apply (right_left n (elt a n) (Lf f) (Uf f)); auto. apply (pivots_lu_of FT); auto.
Qed.

(** final forms: no LU factorisation is the only cause of failure *)
Theorem solve_final n a b x w : 0 <= n -> n * n <= zlen a -> n <= zlen b -> n <= zlen x -> n * n <= zlen w ->
  (exists x' w', lis_array_solve n a b x w = Ok (x', w') /\ zlen x' = zlen x /\ solves n (elt a n) (vz x') (vz b) /\
      (forall z, solves n (elt a n) z (vz b) -> forall i, 0 <= i < n -> z i = vz x' i) /\ (forall i, n <= i -> vz x' i = vz x i) /\
      exists L U, lu_of n (elt a n) L U) \/
  (lis_array_solve n a b x w = Err DIV_BY_ZERO /\ ~ exists L U, lu_of n (elt a n) L U).
Proof.
  intros Hn Ha Hb Hx Hw. pose proof (solve_out n a b x w Hn Ha Hb Hx Hw) as H. destruct (lis_array_solve n a b x w) as [[x' w']| |]; cbn [out] in H; [| |contradiction].
  - left. destruct H as ((H1 & H2 & H3 & H4) & H5). exists x', w'. split; [reflexivity|]. split; [exact H1|]. split; [exact H3|].
    pose proof (pivots_lu_of FT n (elt a n) Hn H5) as LU. split; [|split; [exact H4|eauto]].
    intros z Hz. apply (lu_injective FT n _ _ _ z (vz x') Hn LU). intros i Hi. rewrite (Hz i Hi), (H3 i Hi). reflexivity.
  - right. destruct H as (-> & H). split; [reflexivity|]. intros (L & U & LU). apply H. exact (lu_of_pivots FT n _ L U Hn LU).
Qed.
Theorem ge_final n a : 0 <= n -> n * n <= zlen a ->
  (exists a', lis_array_ge n a = Ok a' /\ zlen a' = zlen a /\ is_inverse n (elt a n) (elt a' n) /\ (forall p, n * n <= p -> vz a' p = vz a p) /\ exists L U, lu_of n (elt a n) L U) \/
  (lis_array_ge n a = Err DIV_BY_ZERO /\ ~ exists L U, lu_of n (elt a n) L U).
Proof.
  intros Hn Ha. pose proof (ge_out n a Hn Ha) as H. destruct (lis_array_ge n a) as [a'| |]; cbn [out] in H; [| |contradiction].
  - left. destruct H as (H1 & H2 & H3 & H4). exists a'. split; [reflexivity|]. split; [exact H1|]. split; [exact H2|]. split; [exact H3|].
    exists (Lf (F n (elt a n))), (Uf (F n (elt a n))). exact (pivots_lu_of FT n _ Hn H4).
  - right. destruct H as (-> & H). split; [reflexivity|]. intros (L & U & LU). apply H. exact (lu_of_pivots FT n _ L U Hn LU).
Qed.
End P.
