(** lis_matrix_diag_inverse for blocks *)
Require Import ZArith List Bool Lia Permutation Ring Field_theory.
From Verif Require Import Base Scalar Spec SpecArray Items Array LuProof LuFinal BsrSolve SpecBsrSolve BsrTri BsrSplit BsrSplit2 BsrMerge BsrEnd.
Import ListNotations.
Open Scope Z_scope.

Section P.
Context {T : Type} {S : Scalar T}.
Hypothesis RT : is_ring S.
Hypothesis FT : is_field S.
Hypothesis EQ : eqb_ok S.
Let RT' : @ring_theory T s0 s1 sadd smul ssub sopp (@eq T) := RT.
Add Ring scalar_ring_be2 : RT'.

Lemma div_inj b a c u v : 0 <= u < b -> 0 <= v < b -> a * b + u = c * b + v -> a = c /\ u = v.
Proof using. intros. assert (a = c) by nia. subst. lia. Qed.
Lemma pos_inj b i jj ii i' jj' ii' : 0 <= ii < b -> 0 <= jj < b -> 0 <= ii' < b -> 0 <= jj' < b ->
  i * (b * b) + jj * b + ii = i' * (b * b) + jj' * b + ii' -> i = i' /\ jj = jj' /\ ii = ii'.
Proof using.
  intros H1 H2 H3 H4 E. destruct (div_inj b (i * b + jj) (i' * b + jj') ii ii') as [E1 ->]; auto; [lia|].
  destruct (div_inj b i i' jj jj') as [-> ->]; auto.
Qed.
Notation view wd b i := (fun ii jj => znth s0 wd (i * (b * b) + jj * b + ii)).

Lemma inverse_blk_wp n nr b (d : list T) : 0 < n -> 0 < b -> (nr - 1) * b < n <= nr * b -> zlen d = nr * (b * b) ->
  (forall i, 0 <= i < nr -> exists L U, lu_of b (dpad n b d i) L U) ->
  wp (diag_inverse_blk n nr b d) (fun wd => zlen wd = zlen d /\ forall i, 0 <= i < nr -> is_inverse b (dpad n b d i) (view wd b i)).
Proof using RT FT EQ.
  intros Hn Hb Hnr Hd HLU. unfold diag_inverse_blk. cbv zeta. assert (Hnr0 : 0 < nr) by nia.
  destruct (Z.eqb_spec b 1) as [->|Hb1].
  - apply (for_wp' (fun i (w : list T) => zlen w = zlen d /\ forall q, 0 <= q < nr -> znth s0 w q = if q <? i then sdiv s1 (znth s0 d q) else znth s0 d q)); [lia| | |].
    + split; auto. intros q Hq. destruct (Z.ltb_spec q 0); auto; lia.
    + intros i w Hi (L & H). wrd s0; [lia|]. wwr; [lia|]. apply wp_ok. split; [len|]. intros q Hq. rewrite znth_zupd by lia. destruct (Z.eqb_spec q i) as [->|Ne].
      * rewrite H by lia. destruct (Z.ltb_spec i (i + 1)); [|lia]. destruct (Z.ltb_spec i i); [lia|auto].
      * rewrite H by lia. destruct (Z.ltb_spec q (i + 1)); destruct (Z.ltb_spec q i); auto; lia.
    + intros w (L & H). split; auto. intros i Hi. destruct (HLU i Hi) as (Lo & Up & HL). apply (lu_first RT) in HL; [|lia].
      assert (Ed : dpad n 1 d i 0 0 = znth s0 d i). { unfold dpad. destruct (Z.leb_spec n (i * 1 + 0)); [lia|]. cbn [andb]. f_equal. lia. }
      assert (Ew : znth s0 w (i * (1 * 1) + 0 * 1 + 0) = sdiv s1 (znth s0 d i)). { replace (i * (1 * 1) + 0 * 1 + 0) with i by lia. rewrite H by auto. destruct (Z.ltb_spec i nr); auto; lia. }
      assert (Hm : smul (znth s0 d i) (sdiv s1 (znth s0 d i)) = s1). { rewrite Ed in HL. rewrite (Rmul_comm RT). apply (Finv_l FT). auto. }
      split; intros p q Hp Hq; replace p with 0 by lia; replace q with 0 by lia; unfold sum_to; cbn [zrange]; change (zrange 0 1) with [0]; cbn [map ssum]; rewrite Ed, Ew; change (delta 0 0) with (@s1 T S); first [rewrite Hm|rewrite (Rmul_comm RT), Hm]; ring.
  - wbind. set (k := Z.rem n b). set (bs := b * b) in *. assert (Hbs : 0 < bs) by (unfold bs; nia).
    assert (Hk : 0 <= k < b) by (unfold k; apply Z.rem_bound_pos; lia).
    assert (Hnk : k = 0 /\ n = nr * b \/ 0 < k /\ n = (nr - 1) * b + k).
    { unfold k. pose proof (Z.quot_rem n b ltac:(lia)) as Eq. fold k in Eq |- *. set (q := Z.quot n b) in *. destruct (Z.eq_dec k 0); [left|right]; (split; [lia|]).
      - assert (q = nr) by nia. nia.
      - assert (q = nr - 1) by nia. nia. }
    assert (Hidx : forall i jj ii, 0 <= i < nr -> 0 <= jj < b -> 0 <= ii < b -> 0 <= i * bs + jj * b + ii < nr * bs) by (intros; unfold bs; nia).
    (* padding *)
    assert (Hpad : wp (if k =? 0 then Ok d else for_down (b - 1) k (fun i d => wr d (bs * (nr - 1) + i * (b + 1)) s1) d)
       (fun d' => zlen d' = zlen d /\ forall i ii jj, 0 <= i < nr -> 0 <= ii < b -> 0 <= jj < b -> znth s0 d' (i * bs + jj * b + ii) = dpad n b d i ii jj)).
    { destruct (Z.eqb_spec k 0) as [E0|E0].
      - apply wp_ok. split; auto. intros i ii jj Hi Hii Hjj. unfold dpad. destruct (Z.leb_spec n (i * b + ii)); [nia|]. auto.
      - assert (En : n = (nr - 1) * b + k) by lia.
        apply (ford_wp' (fun m (w : list T) => zlen w = zlen d /\ forall i ii jj, 0 <= i < nr -> 0 <= ii < b -> 0 <= jj < b -> znth s0 w (i * bs + jj * b + ii) = if (i =? nr - 1) && (m <? ii) && (ii =? jj) then s1 else znth s0 d (i * bs + jj * b + ii))); [lia| | |].
        + split; auto. intros i ii jj Hi Hii Hjj. destruct (Z.ltb_spec (b - 1) ii); [lia|]. rewrite andb_false_r. auto.
        + intros q w Hq (L & H). pose proof (Hidx (nr - 1) q q ltac:(lia) ltac:(lia) ltac:(lia)) as Hp.
          replace (bs * (nr - 1) + q * (b + 1)) with ((nr - 1) * bs + q * b + q) by ring.
          apply wp_wr; [lia|]. split; [len|]. intros i ii jj Hi Hii Hjj. rewrite znth_zupd by lia.
          destruct (Z.eqb_spec (i * bs + jj * b + ii) ((nr - 1) * bs + q * b + q)) as [E|E].
          * unfold bs in E. apply pos_inj in E; try lia. destruct E as (-> & -> & ->). rewrite !Z.eqb_refl. destruct (Z.ltb_spec (q - 1) q); [auto|lia].
          * rewrite H by auto. destruct (Z.eqb_spec i (nr - 1)) as [->|]; cbn [andb]; auto. destruct (Z.eqb_spec ii jj) as [->|]; [|rewrite !andb_false_r; auto]. rewrite !andb_true_r.
            destruct (Z.ltb_spec q jj); destruct (Z.ltb_spec (q - 1) jj); auto; try lia. exfalso. apply E. replace jj with q by lia. auto.
        + intros w (L & H). split; auto. intros i ii jj Hi Hii Hjj. rewrite H by auto. unfold dpad. fold bs. destruct (Z.eqb_spec i (nr - 1)) as [->|Ne].
          * cbn [andb]. destruct (Z.ltb_spec (k - 1) ii); destruct (Z.leb_spec n ((nr - 1) * b + ii)); auto; lia.
          * cbn [andb]. destruct (Z.leb_spec n (i * b + ii)); [nia|]. auto. }
    eapply wp_mono; [exact Hpad|]. clear Hpad. cbv beta. intros d1 (L1 & H1).
    apply (for_wp' (fun i (w : list T) => zlen w = zlen d /\ (forall r, 0 <= r < i -> is_inverse b (dpad n b d r) (fun ii jj => znth s0 w (r * bs + jj * b + ii))) /\
      forall r ii jj, i <= r < nr -> 0 <= ii < b -> 0 <= jj < b -> znth s0 w (r * bs + jj * b + ii) = dpad n b d r ii jj)); [lia| | |].
    + split; auto. split; [intros; lia|]. intros r ii jj Hr. apply H1; auto.
    + intros i w Hi (L & HI & HR). assert (Hib : 0 <= i * bs /\ i * bs + bs <= nr * bs) by nia.
      wbind. apply (for_wp' (fun m (a : list T) => zlen a = bs /\ forall q, 0 <= q < m -> znth s0 a q = znth s0 w (i * bs + q))); [lia| | |].
      * split; [apply zlen_alloc; lia|intros; lia].
      * intros q a Hq (La & Ha). wrd (@s0 T S); [lia|]. apply wp_wr; [lia|]. split; [len|]. intros p Hp. rewrite znth_zupd by lia. destruct (Z.eqb_spec p q) as [->|]; auto. apply Ha; lia.
      * intros a (La & Ha). wbind.
        assert (Ea : forall ii jj, 0 <= ii < b -> 0 <= jj < b -> elt a b ii jj = dpad n b d i ii jj).
        { intros ii jj Hii Hjj. unfold elt. assert (0 <= ii + jj * b < bs) by (unfold bs; nia). rewrite Ha by auto. rewrite <- HR by (auto; lia). f_equal. ring. }
        destruct (ge_final FT EQ b a ltac:(lia) ltac:(fold bs; lia)) as [(a' & G1 & G2 & G3 & _ & _)|(_ & G)].
        2:{ exfalso. apply G. destruct (HLU i Hi) as (Lo & Up & HL). exists Lo, Up. eapply lu_ext; [|exact HL]. intros; symmetry; apply Ea; auto. }
        rewrite G1. apply wp_ok. eapply wp_mono; [apply memcpy_wp; lia|]. cbv beta. intros w' (L' & K1 & K2). split; [lia|].
        assert (V : forall ii jj, 0 <= ii < b -> 0 <= jj < b -> znth s0 w' (i * bs + jj * b + ii) = elt a' b ii jj).
        { intros ii jj Hii Hjj. assert (0 <= ii + jj * b < bs) by (unfold bs; nia). replace (i * bs + jj * b + ii) with (i * bs + (ii + jj * b)) by ring. rewrite K1 by auto. unfold elt. f_equal. }
        assert (W : forall r ii jj, 0 <= r < nr -> r <> i -> 0 <= ii < b -> 0 <= jj < b -> znth s0 w' (r * bs + jj * b + ii) = znth s0 w (r * bs + jj * b + ii)).
        { intros r ii jj Hr Ne Hii Hjj. apply K2. assert (0 <= jj * b + ii < bs) by (unfold bs; nia). nia. }
        split.
        -- intros r Hr. destruct (Z.eq_dec r i) as [->|Ne].
           ++ eapply inv_ext; [| |exact G3]; [intros; apply Ea; auto|intros; symmetry; apply V; auto].
           ++ eapply inv_ext; [| |apply (HI r); lia]; [auto|]. intros ii jj Hii Hjj. cbv beta. symmetry. apply W; auto; lia.
        -- intros r ii jj Hr Hii Hjj. rewrite W by (auto; lia). apply HR; auto; lia.
    + intros w (L & HI & _). split; auto.
Qed.
End P.
