(** BiCGSTAB(l): r[0] = b - A M x throughout, for a fixed linear preconditioner M. *)
Require Import ZArith List Bool Lia Ring Field.
From Verif Require Import Base Scalar Spec SpecSolver Krylov Krylov3 MatvecProof KrylovProof IdrProof.
Import ListNotations.
Open Scope Z_scope.

Section P.
Context {T : Type} {S : Scalar T}.
Hypothesis FT : is_field S.
Let RT : is_ring S := F_R FT.
Let RT' : @ring_theory T s0 s1 sadd smul ssub sopp (@eq T) := RT.
Add Ring Tr : RT'.
Notation vec := (vect (T:=T)).
Notation sg lo hi f := (ssum (map f (zrange lo hi))).

Lemma sg_snoc lo hi (f : Z -> T) : lo <= hi -> sg lo (hi + 1) f = sadd (sg lo hi f) (f hi).
Proof. intros H. rewrite zrange_snoc by lia. rewrite map_app, (ssum_app RT). cbn [map ssum fold_right]. ring. Qed.
Lemma sg_nil lo hi (f : Z -> T) : hi <= lo -> sg lo hi f = s0.
Proof. intros H. rewrite zrange_empty by lia. reflexivity. Qed.
Lemma sg_ext lo hi (f g : Z -> T) : (forall i, lo <= i < hi -> f i = g i) -> sg lo hi f = sg lo hi g.
Proof. intros H. apply ssum_map_ext. intros i Hi. apply In_zrange in Hi. apply H. lia. Qed.
Lemma sg_cons lo hi (f : Z -> T) : lo < hi -> sg lo hi f = sadd (f lo) (sg (lo + 1) hi f).
Proof. intros H. rewrite zrange_cons by lia. reflexivity. Qed.
(** the triangular identity behind gamma, gamma', gamma'' *)
Lemma triangle m (c P : Z -> T) (tau : Z -> Z -> T) : 1 <= m ->
  sg 1 m (fun j => smul (sadd (c j) (sg (j + 1) m (fun i => smul (tau j i) (c i)))) (P j)) =
  sg 1 m (fun i => smul (c i) (sadd (P i) (sg 1 i (fun j => smul (tau j i) (P j))))).
Proof.
  intros Hm. replace m with (1 + (m - 1)) by lia. generalize (m - 1), (Zle_minus_le_0 _ _ Hm). clear m Hm. intros m Hm. pattern m. apply natlike_ind; [reflexivity| |exact Hm].
  clear m Hm. intros m Hm IH. replace (1 + Z.succ m) with (1 + m + 1) by lia. rewrite sg_snoc by lia. rewrite (sg_snoc 1 (1 + m) (fun i => smul (c i) _)) by lia. rewrite <- IH.
  rewrite (sg_nil (1 + m + 1)) by lia.
  transitivity (sadd (sg 1 (1 + m) (fun j => sadd (smul (sadd (c j) (sg (j + 1) (1 + m) (fun i => smul (tau j i) (c i)))) (P j)) (smul (c (1 + m)) (smul (tau j (1 + m)) (P j))))) (smul (c (1 + m)) (P (1 + m)))).
  - f_equal; [|ring]. apply sg_ext. intros j Hj. rewrite sg_snoc by lia. ring.
  - rewrite (ssum_map_add RT), (ssum_map_mul_l RT). ring.
Qed.

(** *** the method *)
Section E.
Variable e : env (T:=T).
Variables (bn tol : T) (rh0 : list T) (l : Z) (xp : vec).
Variable M : list (entry T).
Notation n := (e_n e).
Hypothesis Hl : 1 <= l.
Hypothesis HM : forall k v i, 0 <= i < n -> at_ (e_psolve e k v) i = mv_spec M n (at_ v) i.
(** A M f *)
Definition B (f : Z -> T) : Z -> T := mv_spec (e_E e) n (mv_spec M n f).
Lemma mvs_ext (E : list (entry T)) f g i : (forall j, 0 <= j < n -> f j = g j) -> mv_spec E n f i = mv_spec E n g i.
Proof. clear HM. intros H. unfold mv_spec. apply ssum_map_ext. intros j Hj. apply In_zrange in Hj. rewrite H by lia. reflexivity. Qed.
Lemma mvs_lin (E : list (entry T)) a c f g i : mv_spec E n (fun j => sadd (smul a (f j)) (smul c (g j))) i = sadd (smul a (mv_spec E n f i)) (smul c (mv_spec E n g i)).
Proof. clear HM. unfold mv_spec. rewrite <- !(ssum_map_mul_l RT), <- (ssum_map_add RT). apply ssum_map_ext. intros j Hj. ring. Qed.
Lemma B_ext f g i : (forall j, 0 <= j < n -> f j = g j) -> B f i = B g i.
Proof. intros H. apply mvs_ext. intros j Hj. apply mvs_ext. exact H. Qed.
Lemma B_lin a c f g i : B (fun j => sadd (smul a (f j)) (smul c (g j))) i = sadd (smul a (B f i)) (smul c (B g i)).
Proof. unfold B. rewrite <- mvs_lin. apply mvs_ext. intros j Hj. apply mvs_lin. Qed.
Lemma B_sum lo hi (c : Z -> T) (F : Z -> Z -> T) i : B (fun j => sg lo hi (fun k => smul (c k) (F k j))) i = sg lo hi (fun k => smul (c k) (B (F k) i)).
Proof.
  induction (zrange lo hi) as [|k L IH].
  - cbn [map ssum fold_right]. rewrite (B_ext _ (fun j => sadd (smul s0 s0) (smul s0 s0))) by (intros; ring). rewrite B_lin. ring.
  - cbn [map ssum fold_right]. change (fold_right sadd s0 ?L) with (ssum L). rewrite <- IH.
    rewrite (B_ext _ (fun j => sadd (smul (c k) (F k j)) (smul s1 (ssum (map (fun k => smul (c k) (F k j)) L))))) by (intros; ring). rewrite B_lin. ring.
Qed.
Definition is (v : vec) (f : Z -> T) : Prop := forall i, 0 <= i < n -> at_ v i = f i.
Lemma is_B k v : is (matvec n (e_E e) (e_psolve e k v)) (B (at_ v)).
Proof. intros i Hi. rewrite at_matvec by auto. apply mvs_ext. intros j Hj. apply HM. exact Hj. Qed.
(** r[0] = b - A M x; r[i+1] = A M r[i] for i < j; the same for u *)
Definition rok (W : Z -> vec) : Prop := is (W (blr 0)) (fun i => ssub (at_ (e_b e) i) (B (at_ (W X)) i)).
Definition chain (b : Z) (j : Z) (W : Z -> vec) : Prop := forall i, 0 <= i < j -> is (W (b + i + 1)) (B (at_ (W (b + i)))).

(** after the return x is M x + xp *)
Lemma exit_x it W i : 0 <= i < n -> at_ (bl_exit e it W X) i = sadd (mv_spec M n (at_ (W X)) i) (at_ (W 1) i).
Proof.
  intros Hi. unfold bl_exit. unfold lt. cbv beta zeta. rewrite upd_s. rewrite at_axpy by auto. rewrite upd_s, at_copy by auto. rewrite upd_s. rewrite HM by auto. rewrite !upd_d by (unfold X; lia). ring.
Qed.
Lemma rok_exit it W : is (W 1) (fun _ => s0) -> rok W -> forall i, 0 <= i < n -> at_ (W (blr 0)) i = at_ (tres e (bl_exit e it W X)) i.
Proof.
  intros HX HR. apply (proj1 (resid_tres e (W (blr 0)) (bl_exit e it W X))). intros i Hi. rewrite (HR i Hi). f_equal. unfold mv, B. apply mvs_ext. intros j Hj. rewrite exit_x by auto. rewrite (HX j Hj). ring.
Qed.

(** *** the BiCG part *)
Definition sizes (s : bst (T:=T)) : Prop := zlen (b_tau s) = (l + 1) * (l + 1) /\ zlen (b_g s) = l + 1 /\ zlen (b_g1 s) = l + 1 /\ zlen (b_g2 s) = l + 1 /\ zlen (b_sg s) = l + 1.
Definition value (k : kst (T:=T)) (it : Z) : Prop :=
  (k_nrm k = None /\ it = 0) \/ exists v, k_nrm k = Some v /\ v = get_residual e bn (k_W k (blr 0)) /\ sleb v tol = false.
Definition binv (it0 j : Z) (s : bst (T:=T)) : Prop :=
  let W := k_W (b_k s) in
  rok W /\ chain 4 j W /\ chain (l + 5) j W /\ is (W 1) (fun _ => s0) /\ sizes s /\ b_iter s = it0 + j /\
  hist e tol (it0 + j + (if j =? l then 0 else 1)) rh0 (k_rh (b_k s)) /\ value (b_k s) (b_iter s).
Definition bend (ret : Z) (s : bst (T:=T)) : Prop :=
  let k := b_k s in
  ret = LIS_SUCCESS /\ (exists v, k_nrm k = Some v /\ v = get_residual e bn (tres e (k_W k X)) /\ wrote e tol (b_iter s) rh0 (k_rh k) v /\ sleb v tol = true) \/
  ret = LIS_BREAKDOWN /\ hist e tol (b_iter s) rh0 (k_rh k) /\
    ((k_nrm k = None /\ b_iter s = 1) \/ exists v, k_nrm k = Some v /\ v = get_residual e bn (tres e (k_W k X)) /\ sleb v tol = false).

Lemma loop_u W0 beta j : 0 <= j <= l ->
  safe (for_ 0 j (fun i W => Ok (upd W (blu l i) (xpay n (W (blr i)) beta (W (blu l i))))) W0)
    (fun W => forall q, W q = if (l + 5 <=? q) && (q <? l + 5 + j) then xpay n (W0 (q - l - 1)) beta (W0 q) else W0 q).
Proof.
  intros Hj. apply (safe_for 0 j _ (fun i W => forall q, W q = if (l + 5 <=? q) && (q <? l + 5 + i) then xpay n (W0 (q - l - 1)) beta (W0 q) else W0 q)); [lia| |].
  - intros q. destruct (Z.leb_spec (l + 5) q), (Z.ltb_spec q (l + 5 + 0)); try lia; reflexivity.
  - intros i W Hi HW. cbn [safe]. intros q. destruct (Z.eq_dec q (blu l i)) as [->|Hq].
    + rewrite upd_s. unfold blu, blr in *. rewrite !HW. 
      destruct (Z.leb_spec (l + 5) (4 + i)); [lia|]. destruct (Z.ltb_spec (l + 5 + i) (l + 5 + i)); [lia|]. destruct (Z.leb_spec (l + 5) (l + 5 + i)); [|lia]. destruct (Z.ltb_spec (l + 5 + i) (l + 5 + (i + 1))); [|lia]. cbn [andb]. f_equal. f_equal. lia.
    + rewrite upd_d by exact Hq. rewrite HW. unfold blu in Hq. destruct (Z.ltb_spec q (l + 5 + i)), (Z.ltb_spec q (l + 5 + (i + 1))); try lia; reflexivity.
Qed.
Lemma loop_r W0 a j : 0 <= j <= l ->
  safe (for_ 0 j (fun i W => Ok (upd W (blr i) (axpy n a (W (blu l (i + 1))) (W (blr i))))) W0)
    (fun W => forall q, W q = if (4 <=? q) && (q <? 4 + j) then axpy n a (W0 (q + l + 2)) (W0 q) else W0 q).
Proof.
  intros Hj. apply (safe_for 0 j _ (fun i W => forall q, W q = if (4 <=? q) && (q <? 4 + i) then axpy n a (W0 (q + l + 2)) (W0 q) else W0 q)); [lia| |].
  - intros q. destruct (Z.leb_spec 4 q), (Z.ltb_spec q (4 + 0)); try lia; reflexivity.
  - intros i W Hi HW. cbn [safe]. intros q. destruct (Z.eq_dec q (blr i)) as [->|Hq].
    + rewrite upd_s. unfold blu, blr in *. rewrite !HW. 
      destruct (Z.ltb_spec (l + 5 + (i + 1)) (4 + i)); [lia|]. destruct (Z.ltb_spec (4 + i) (4 + i)); [lia|]. destruct (Z.leb_spec 4 (4 + i)); [|lia]. destruct (Z.ltb_spec (4 + i) (4 + (i + 1))); [|lia]. rewrite !andb_false_r. cbn [andb]. f_equal. f_equal. lia.
    + rewrite upd_d by exact Hq. rewrite HW. unfold blr in Hq. destruct (Z.ltb_spec q (4 + i)), (Z.ltb_spec q (4 + (i + 1))); try lia; reflexivity.
Qed.

Ltac lw W' :=
  lazymatch goal with
  | |- safe (lt (upd ?W ?k ?v) _) _ =>
      let Hs := fresh "Hs" in let Ho := fresh "Ho" in
      apply safe_lt; cbv beta;
      pose proof (upd_s W k v) as Hs; pose proof (fun j => upd_d W k v j) as Ho;
      generalize dependent (upd W k v); intros W' Hs Ho
  end.
Ltac lv := apply safe_lt; cbv beta.
Ltac look := repeat match goal with
  | Ho : forall j, j <> ?k -> ?W' j = _ |- context [?W' ?a] => rewrite (Ho a) by (unfold X, blr, blu in *; lia)
  | Hs : ?W' ?k = _ |- context [?W' ?k] => rewrite Hs
  end.
Ltac cases := repeat match goal with |- context [(?a <=? ?b)] => destruct (Z.leb_spec a b); try (unfold X in *; lia) | |- context [(?a <? ?b)] => destruct (Z.ltb_spec a b); try (unfold X in *; lia) end; cbn [andb].

Lemma is_lin v a c f g u w : is u f -> is w g -> (forall i, 0 <= i < n -> at_ v i = sadd (smul a (at_ u i)) (smul c (at_ w i))) -> is v (fun i => sadd (smul a (f i)) (smul c (g i))).
Proof. intros Hu Hw H i Hi. rewrite (H i Hi), (Hu i Hi), (Hw i Hi). reflexivity. Qed.
Lemma ret_ok ret W nr rh s it : is (W 1) (fun _ => s0) -> rok W ->
  ret = LIS_SUCCESS /\ (exists v, nr = Some v /\ v = get_residual e bn (W (blr 0)) /\ wrote e tol it rh0 rh v /\ sleb v tol = true) \/
  ret = LIS_BREAKDOWN /\ hist e tol it rh0 rh /\ ((nr = None /\ it = 1) \/ exists v, nr = Some v /\ v = get_residual e bn (W (blr 0)) /\ sleb v tol = false) ->
  safe (bl_ret ret e W nr rh s it) (fun c => match c with Stop ret s' => bend ret s' /\ b_iter s' = it | Next _ => False end).
Proof.
  intros HX HR H. unfold bl_ret. cbn [safe]. split; [|reflexivity]. unfold bend. cbn [b_k b_iter k_nrm k_W k_rh].
  assert (E : get_residual e bn (W (blr 0)) = get_residual e bn (tres e (bl_exit e it W X))) by (apply get_residual_ext; apply rok_exit; auto).
  rewrite <- E. exact H.
Qed.

Lemma step_ok it0 j s : 0 <= it0 -> it0 mod l = 0 -> 0 <= j < l -> (e_mem e = true -> it0 + l < zlen rh0) -> binv it0 j s ->
  safe (bl_step l e bn tol j s) (fun c => match c with Next s => binv it0 (j + 1) s | Stop ret s => bend ret s /\ b_iter s = it0 + j + 1 end).
Proof.
  intros H0 Hmod Hj HL (H1 & H2 & H3 & H4 & H5 & H6 & H7 & H8). destruct (Z.eqb_spec j l) as [Hjl|Hjl]; [lia|].
  unfold bl_step. cbv zeta. rewrite H6. set (W0 := k_W (b_k s)) in *.
  assert (BRK : forall W, W 1 = W0 1 -> W X = W0 X -> W (blr 0) = W0 (blr 0) -> safe (bl_ret LIS_BREAKDOWN e W (k_nrm (b_k s)) (k_rh (b_k s)) s (it0 + j + 1))
     (fun c => match c with Next s => binv it0 (j + 1) s | Stop ret s => bend ret s /\ b_iter s = it0 + j + 1 end)).
  { intros W E1 E2 E3. eapply safe_mono; [apply ret_ok; [rewrite E1; exact H4|unfold rok; rewrite E2, E3; exact H1|]|intros [?|? ?] K; [contradiction|exact K]].
    right. split; [reflexivity|]. split; [exact H7|]. rewrite E3. destruct H8 as [(V1 & V2)|V]; [left; split; [exact V1|lia]|right; exact V]. }
  lv. destruct (seqb _ s0); [apply BRK; reflexivity|]. apply safe_divz. intros q. lv. apply safe_bind.
  eapply safe_mono; [apply loop_u; lia|]. intros W1 HW1. cbv beta.
  lw W2. lw W3. lv.
  assert (E31 : W3 1 = W0 1) by (look; rewrite HW1; cases; reflexivity).
  assert (E3X : W3 X = W0 X) by (look; rewrite HW1; cases; reflexivity).
  assert (E3r : forall i, 0 <= i <= l -> W3 (4 + i) = W0 (4 + i)) by (intros i Hi; look; rewrite HW1; cases; reflexivity).
  assert (E3u : forall i, 0 <= i <= j -> W3 (l + 5 + i) = xpay n (W0 (4 + i)) (sopp (smul (b_alpha s) q)) (W0 (l + 5 + i))).
  { intros i Hi. look. rewrite HW1. cases. f_equal. f_equal. lia. }
  assert (C3u : chain (l + 5) (j + 1) W3).
  { intros i Hi. destruct (Z.eq_dec i j) as [->|Hne].
    - replace (l + 5 + j + 1) with (blu l (j + 1)) by (unfold blu; lia). rewrite Hs0, Hs. look. apply is_B.
    - replace (l + 5 + i + 1) with (l + 5 + (i + 1)) by lia. rewrite !E3u by lia. intros c Hc. rewrite at_xpay by auto.
      pose proof (H2 i ltac:(lia) c Hc) as K1. pose proof (H3 i ltac:(lia) c Hc) as K2. replace (4 + i + 1) with (4 + (i + 1)) in K1 by lia. replace (l + 5 + i + 1) with (l + 5 + (i + 1)) in K2 by lia.
      rewrite K1, K2. rewrite (B_ext (at_ (xpay n (W0 (4 + i)) (sopp (smul (b_alpha s) q)) (W0 (l + 5 + i)))) (fun c => sadd (smul s1 (at_ (W0 (4 + i)) c)) (smul (sopp (smul (b_alpha s) q)) (at_ (W0 (l + 5 + i)) c)))) by (intros; rewrite at_xpay by auto; ring).
      rewrite B_lin. ring. }
  destruct (seqb _ s0); [apply BRK; [exact E31|exact E3X|apply (E3r 0); lia]|]. apply safe_divz. intros alpha. clear HW1 Hs Ho Hs0 Ho0 W1 W2.
  lw W4. apply safe_bind. eapply safe_mono; [apply loop_r; lia|]. intros W5 HW5. cbv beta. lv.
  assert (E51 : W5 1 = W0 1) by (rewrite HW5; cases; look; reflexivity).
  assert (E5X : W5 X = axpy n alpha (W3 (l + 5)) (W0 X)) by (rewrite HW5; cases; look; unfold blu; f_equal; f_equal; lia).
  assert (E5r : forall i, 0 <= i <= j -> W5 (4 + i) = axpy n (sopp alpha) (W3 (l + 5 + i + 1)) (W0 (4 + i))).
  { intros i Hi. rewrite HW5. cases. look. rewrite E3r by lia. f_equal. f_equal. lia. }
  assert (E5u : forall i, 0 <= i <= l -> W5 (l + 5 + i) = W3 (l + 5 + i)) by (intros i Hi; rewrite HW5; cases; look; reflexivity).
  assert (R5 : rok W5).
  { intros c Hc. unfold blr. rewrite (E5r 0), E5X by lia. rewrite at_axpy by auto. change (4 + 0) with (blr 0). rewrite (H1 c Hc). replace (l + 5 + 0 + 1) with (l + 5 + 0 + 1) by lia. rewrite (C3u 0 ltac:(lia) c Hc). replace (l + 5 + 0) with (l + 5) by lia.
    rewrite (B_ext (at_ (axpy n alpha (W3 (l + 5)) (W0 X))) (fun c => sadd (smul s1 (at_ (W0 X) c)) (smul alpha (at_ (W3 (l + 5)) c)))) by (intros; rewrite at_axpy by auto; ring).
    rewrite B_lin. ring. }
  assert (C5r : chain 4 j W5).
  { intros i Hi c Hc. replace (4 + i + 1) with (4 + (i + 1)) by lia. rewrite !E5r by lia. rewrite at_axpy by auto.
    pose proof (H2 i ltac:(lia) c Hc) as K1. replace (4 + i + 1) with (4 + (i + 1)) in K1 by lia. rewrite K1.
    pose proof (C3u (i + 1) ltac:(lia) c Hc) as K2. rewrite K2. replace (l + 5 + (i + 1)) with (l + 5 + i + 1) by lia.
    rewrite (B_ext (at_ (axpy n (sopp alpha) (W3 (l + 5 + i + 1)) (W0 (4 + i)))) (fun c => sadd (smul s1 (at_ (W0 (4 + i)) c)) (smul (sopp alpha) (at_ (W3 (l + 5 + i + 1)) c)))) by (intros; rewrite at_axpy by auto; ring).
    rewrite B_lin. ring. }
  assert (X5 : is (W5 1) (fun _ => s0)) by (rewrite E51; exact H4).
  clear HW5 Hs Ho E31 E3X E3r E3u W4.
  set (v := get_residual e bn (W5 (blr 0))).
  destruct (sleb v tol) eqn:El.
  - rewrite orb_true_r, andb_true_r. apply (safe_write e tol (it0 + j + 1) rh0); [lia|intros Hm; specialize (HL Hm); lia|exact H7|]. intros rh' Hw.
    eapply safe_mono; [apply ret_ok; [exact X5|exact R5|]|intros [?|? ?] K; [contradiction|exact K]]. left. split; [reflexivity|]. exists v. auto.
  - rewrite orb_false_r.
    assert (HH : forall (f : list T -> res (ctl (bst (T:=T)))) Q, (forall rh', hist e tol (it0 + (j + 1) + (if j + 1 =? l then 0 else 1)) rh0 rh' -> safe (f rh') Q) ->
       safe (bind (if e_mem e && negb ((it0 + j + 1) mod l =? 0) then wr (k_rh (b_k s)) (it0 + j + 1) v else Ok (k_rh (b_k s))) f) Q).
    { intros f Q Hf. assert (Em : (it0 + j + 1) mod l = if j + 1 =? l then 0 else j + 1).
      { rewrite <- Z.add_assoc, Z.add_mod, Hmod by lia. rewrite Z.add_0_l, Z.mod_mod by lia. destruct (Z.eqb_spec (j + 1) l) as [->|Hj1]; [apply Z.mod_same; lia|apply Z.mod_small; lia]. }
      rewrite Em. destruct (Z.eqb_spec (j + 1) l) as [E|E].
      - cbn [Z.eqb negb]. rewrite andb_false_r. cbn [bind]. apply Hf. replace (it0 + (j + 1) + 0) with (it0 + j + 1) by lia. exact H7.
      - destruct (Z.eqb_spec (j + 1) 0) as [Hj0|Hj0]; [lia|]. cbn [negb]. rewrite andb_true_r. apply (safe_write e tol (it0 + j + 1) rh0); [lia|intros Hm; specialize (HL Hm); lia|exact H7|]. intros rh' Hw. apply Hf.
        replace (it0 + (j + 1) + 1) with (it0 + j + 1 + 1) by lia. apply (wrote_hist e tol (it0 + j + 1) rh0 rh' v ltac:(lia) Hw El). }
    apply HH. intros rh' Hh. clear HH.
    lw W6. lw W7. cbn [safe]. unfold binv. cbn [b_k b_iter k_W k_rh k_nrm].
    assert (E7 : forall q, q <> 3 -> q <> 4 + (j + 1) -> W7 q = W5 q) by (intros q' Q1 Q2; look; reflexivity).
    split; [unfold rok; rewrite !E7 by (unfold blr, X; lia); exact R5|].
    split; [|split; [|split; [rewrite E7 by lia; exact X5|split; [exact H5|split; [lia|split; [exact Hh|]]]]]].
    + intros i Hi. destruct (Z.eq_dec i j) as [->|Hne].
      * replace (4 + j + 1) with (blr (j + 1)) by (unfold blr; lia). rewrite Hs0, Hs. rewrite E7 by lia. apply is_B.
      * rewrite !E7 by lia. apply C5r. lia.
    + intros i Hi. rewrite !E7 by lia. replace (l + 5 + i + 1) with (l + 5 + (i + 1)) by lia. rewrite !E5u by lia. replace (l + 5 + (i + 1)) with (l + 5 + i + 1) by lia. apply C3u. lia.
    + right. exists v. cbn [k_nrm k_W]. split; [reflexivity|]. split; [rewrite E7 by (unfold blr; lia); reflexivity|exact El].
Qed.

(** *** the minimal residual part *)
Lemma safe_down {A} hi lo (body : Z -> A -> res A) (I : Z -> A -> Prop) a : lo <= hi + 1 -> I hi a ->
  (forall j a, lo <= j <= hi -> I j a -> safe (body j a) (I (j - 1))) -> safe (for_down hi lo body a) (I (lo - 1)).
Proof.
  intros Hl0 H0 HB. unfold for_down.
  assert (G : forall f j a, Z.of_nat f = j - lo + 1 -> j <= hi -> I j a -> safe (ford_n f j body a) (I (lo - 1))).
  { induction f as [|f IH]; intros j a' Hf Hj Hs; cbn [ford_n].
    - replace (lo - 1) with j by lia. exact Hs.
    - apply safe_bind. eapply safe_mono; [apply HB; [lia|exact Hs]|]. intros s2 H2. apply IH; [lia|lia|exact H2]. }
  apply G; [lia|lia|exact H0].
Qed.
Lemma idx i j i' j' : 0 <= j <= l -> 0 <= j' <= l -> i * (l + 1) + j = i' * (l + 1) + j' -> i = i' /\ j = j'.
Proof. clear HM. intros H1 H2 E. assert (i = i') by nia. split; [assumption|]. subst. lia. Qed.
Notation tau_ t i j := (znth s0 t (i * (l + 1) + j)).
Definition ginv (t g1 g : list T) (j : Z) : Prop :=
  zlen g = l + 1 /\ forall q, j < q <= l -> znth s0 g1 q = sadd (znth s0 g q) (sg (q + 1) (l + 1) (fun i => smul (tau_ t q i) (znth s0 g i))).
Lemma gamma_ok t g1 g g2 : zlen t = (l + 1) * (l + 1) -> zlen g1 = l + 1 -> zlen g = l + 1 -> zlen g2 = l + 1 ->
  safe (bl_gamma l t g1 g g2) (fun r => let '(g', g2', om) := r in ginv t g1 g' 0 /\ zlen g2' = l + 1 /\
    forall q, 1 <= q < l -> znth s0 g2' q = sadd (znth s0 g' (q + 1)) (sg (q + 1) l (fun i => smul (tau_ t q i) (znth s0 g' (i + 1))))).
Proof.
  clear HM. intros L1 L2 L3 L4. unfold bl_gamma. cbv zeta. rewrite (rd_ok s0) by lia. cbn [bind]. rewrite wr_ok by lia. cbn [bind]. rewrite (rd_ok s0) by (rewrite zlen_zupd; lia). cbn [bind].
  assert (TI : forall i j, 0 <= i <= l -> 0 <= j <= l -> 0 <= i * (l + 1) + j < zlen t) by (intros i j Hi Hj; rewrite L1; nia).
  apply safe_bind. eapply safe_mono.
  { apply (safe_down (l - 1) 1 _ (fun j g => ginv t g1 g j)); [lia| |].
    - split; [rewrite zlen_zupd; exact L3|]. intros q Hq. replace q with l by lia. rewrite sg_nil by lia. rewrite znth_zupd, Z.eqb_refl by lia. ring.
    - intros j g' Hj (G1 & G2). apply safe_bind. eapply safe_mono.
      { apply (safe_for (j + 1) (l + 1) _ (fun i nu => nu = sg (j + 1) i (fun i => smul (tau_ t j i) (znth s0 g' i)))); [lia|rewrite sg_nil by lia; reflexivity|].
        intros i nu Hi ->. rewrite (rd_ok s0) by (apply TI; lia). cbn [bind]. rewrite (rd_ok s0) by lia. cbn [bind safe]. rewrite sg_snoc by lia. reflexivity. }
      intros nu ->. rewrite (rd_ok s0) by lia. cbn [bind]. rewrite wr_ok by lia. cbn [safe]. split; [rewrite zlen_zupd; exact G1|].
      assert (EX : forall q, j <= q -> sg (q + 1) (l + 1) (fun i => smul (tau_ t q i) (znth s0 (zupd g' j (ssub (znth s0 g1 j) (sg (j + 1) (l + 1) (fun i => smul (tau_ t j i) (znth s0 g' i))))) i)) = sg (q + 1) (l + 1) (fun i => smul (tau_ t q i) (znth s0 g' i))).
      { intros q Hq. apply sg_ext. intros i Hi. rewrite znth_zupd by lia. destruct (Z.eqb_spec i j); [lia|reflexivity]. }
      intros q Hq. rewrite EX by lia. rewrite znth_zupd by lia. destruct (Z.eqb_spec q j) as [->|Hne]; [ring|]. apply G2. lia. }
  intros g' (G1 & G2). cbv beta. apply safe_bind. eapply safe_mono.
  { apply (safe_for 1 l _ (fun j g2 => zlen g2 = l + 1 /\ forall q, 1 <= q < j -> znth s0 g2 q = sadd (znth s0 g' (q + 1)) (sg (q + 1) l (fun i => smul (tau_ t q i) (znth s0 g' (i + 1)))))); [lia|split; [exact L4|intros; lia]|].
    intros j h Hj (K1 & K2). apply safe_bind. eapply safe_mono.
    { apply (safe_for (j + 1) l _ (fun i nu => nu = sg (j + 1) i (fun i => smul (tau_ t j i) (znth s0 g' (i + 1))))); [lia|rewrite sg_nil by lia; reflexivity|].
      intros i nu Hi ->. rewrite (rd_ok s0) by (apply TI; lia). cbn [bind]. rewrite (rd_ok s0) by lia. cbn [bind safe]. rewrite sg_snoc by lia. reflexivity. }
    intros nu ->. rewrite (rd_ok s0) by lia. cbn [bind]. rewrite wr_ok by lia. cbn [safe]. split; [rewrite zlen_zupd; exact K1|].
    intros q Hq. rewrite znth_zupd by lia. destruct (Z.eqb_spec q j) as [->|Hne]; [reflexivity|]. apply K2. lia. }
  intros h (K1 & K2). cbn [safe]. split; [split; [exact G1|exact G2]|]. split; [exact K1|exact K2].
Qed.

Definition kept (s s' : bst (T:=T)) : Prop :=
  b_iter s' = b_iter s /\ k_rh (b_k s') = k_rh (b_k s) /\ k_nrm (b_k s') = k_nrm (b_k s) /\ forall q, q < 5 \/ 4 + l < q -> k_W (b_k s') q = k_W (b_k s) q.
(** r[q] before = r[q] now + sum_{1<=i<m} tau_iq r[i] *)
Definition dec (W0 W : Z -> vec) (t : list T) (q m : Z) : Prop :=
  is (W0 (4 + q)) (fun c => sadd (at_ (W (4 + q)) c) (sg 1 m (fun i => smul (tau_ t i q) (at_ (W (4 + i)) c)))).
Definition oinv (s s' : bst (T:=T)) (j : Z) : Prop :=
  sizes s' /\ kept s s' /\ (forall q, j <= q <= l -> k_W (b_k s') (4 + q) = k_W (b_k s) (4 + q)) /\
  forall q, 1 <= q < j -> dec (k_W (b_k s)) (k_W (b_k s')) (b_tau s') q q.
Lemma orth_l s : sizes s -> safe (bl_orth l e s) (fun s' => oinv s s' (l + 1)).
Proof.
  clear HM. intros HS. unfold bl_orth. cbv zeta. apply (safe_for 1 (l + 1) _ (fun j s' => oinv s s' j)); [lia| |].
  { split; [exact HS|]. split; [split; [|split; [|split]]; auto|]. split; [auto|intros; lia]. }
  intros j s1 Hj (O1 & O2 & O3 & O4). apply safe_bind. eapply safe_mono.
  { apply (safe_for 1 j _ (fun i s' => sizes s' /\ kept s s' /\ (forall q, j < q <= l -> k_W (b_k s') (4 + q) = k_W (b_k s) (4 + q)) /\
      (forall q, 1 <= q < j -> dec (k_W (b_k s)) (k_W (b_k s')) (b_tau s') q q) /\ dec (k_W (b_k s)) (k_W (b_k s')) (b_tau s') j i)); [lia| |].
    - split; [exact O1|]. split; [exact O2|]. split; [intros; apply O3; lia|]. split; [exact O4|]. intros c Hc. rewrite sg_nil by lia. rewrite O3 by lia. ring.
    - intros i s2 Hi ((S1 & S2 & S3 & S4 & S5) & K2 & K3 & K4 & K5). lv. rewrite (rd_ok s0) by lia. cbn [bind]. apply safe_divz. intros nu.
      assert (TI : 0 <= i * (l + 1) + j < zlen (b_tau s2)) by (rewrite S1; nia). rewrite wr_ok by exact TI. cbn [bind].
      set (W2 := k_W (b_k s2)) in *. lw W3. cbn [safe]. unfold sizes, kept. cbn [b_k b_iter b_tau b_g b_g1 b_g2 b_sg k_W k_rh k_nrm]. rewrite zlen_zupd.
      split; [auto 10|]. destruct K2 as (K21 & K22 & K23 & K24). split; [split; [exact K21|split; [exact K22|split; [exact K23|]]]; intros q Hq; look; apply K24; exact Hq|].
      split; [intros q Hq; look; apply K3; exact Hq|].
      assert (TT : forall i' q', 0 <= q' <= l -> (i' <> i \/ q' <> j) -> tau_ (zupd (b_tau s2) (i * (l + 1) + j) nu) i' q' = tau_ (b_tau s2) i' q').
      { intros i' q' Hq' Hd. rewrite znth_zupd by exact TI. destruct (Z.eqb_spec (i' * (l + 1) + q') (i * (l + 1) + j)) as [E|E]; [|reflexivity]. apply idx in E; lia. }
      split.
      + intros q Hq c Hc. look. rewrite (K4 q Hq c Hc). f_equal. apply sg_ext. intros i' Hi'. rewrite TT by lia. look. reflexivity.
      + intros c Hc. rewrite sg_snoc by lia. rewrite znth_zupd by exact TI. rewrite Z.eqb_refl.
        rewrite (sg_ext 1 i _ (fun i' => smul (tau_ (b_tau s2) i' j) (at_ (W2 (4 + i')) c))) by (intros i' Hi'; rewrite TT by lia; look; reflexivity).
        replace (4 + j) with (blr j) by reflexivity. rewrite Hs. rewrite at_axpy by auto. rewrite (Ho (4 + i)) by (unfold blr; lia).
        pose proof (K5 c Hc) as K6. change (4 + j) with (blr j) in K6. fold W2 in K6. rewrite K6. unfold blr. ring. }
  intros s2 ((S1 & S2 & S3 & S4 & S5) & K2 & K3 & K4 & K5). lv. rewrite wr_ok by lia. cbn [bind]. lv. rewrite (rd_ok s0) by (rewrite zlen_zupd; lia). cbn [bind]. apply safe_divz. intros nu.
  rewrite wr_ok by lia. cbn [bind safe]. unfold oinv, sizes, kept. cbn [b_k b_iter b_tau b_g b_g1 b_g2 b_sg k_W k_rh k_nrm]. rewrite !zlen_zupd.
  split; [auto 10|]. split; [exact K2|]. split; [intros q Hq; apply K3; lia|].
  intros q Hq. destruct (Z.eq_dec q j) as [->|Hne]; [exact K5|apply K4; lia].
Qed.

(** *** one pass *)
Lemma sg_shift m (f : Z -> T) : 0 <= m -> sg 0 m (fun i => f (i + 1)) = sg 1 (m + 1) f.
Proof.
  clear HM. intros Hm. pattern m. apply natlike_ind; [reflexivity| |exact Hm]. clear m Hm. intros m Hm IH. unfold Z.succ. rewrite (sg_snoc 0) by lia. rewrite IH. rewrite (sg_snoc 1 (m + 1)) by lia. reflexivity.
Qed.
Definition recorded (s : bst (T:=T)) : Prop :=
  exists v, k_nrm (b_k s) = Some v /\ v = get_residual e bn (k_W (b_k s) (blr 0)) /\ sleb v tol = false /\ (e_mem e = true -> znth s0 (k_rh (b_k s)) (b_iter s) = v).
Lemma pass_ok it0 s : 0 <= it0 -> it0 mod l = 0 -> (e_mem e = true -> it0 + l < zlen rh0) -> binv it0 0 s ->
  safe (bl_pass l e bn tol s) (fun c => match c with Next s => binv (it0 + l) 0 s /\ recorded s | Stop ret s => bend ret s /\ it0 < b_iter s <= it0 + l end).
Proof.
  intros H0 Hmod HL HB. unfold bl_pass. cbv zeta. apply safe_bind.
  set (s1' := mkB (b_k s) _ _ _ _ _ _ _ _ _). assert (HB1 : binv it0 0 s1') by exact HB. generalize dependent s1'. intros s1 HB1. clear HB s.
  eapply safe_mono; [apply (safe_ctl (bl_step l e bn tol) (binv it0) (fun ret s => bend ret s /\ it0 < b_iter s <= it0 + l) l s1); [lia|exact HB1|]|].
  { intros j s Hj Hs. eapply safe_mono; [apply (step_ok it0 j s H0 Hmod Hj HL Hs)|]. intros [s'|ret s'] K; [exact K|]. destruct K as (K1 & K2). split; [exact K1|lia]. }
  clear s1 HB1. intros [s|ret s] HB; [|exact HB]. destruct HB as (H1 & H2 & H3 & H4 & H5 & H6 & H7 & H8). rewrite Z.eqb_refl, Z.add_0_r in H7.
  apply safe_bind. eapply safe_mono; [apply (orth_l s H5)|]. cbv beta. intros s2 ((S1 & S2 & S3 & S4 & S5) & (K1 & K2 & K3 & K4) & O3 & O4). clear O3.
  set (W0 := k_W (b_k s)) in *. set (W2 := k_W (b_k s2)) in *. set (t := b_tau s2) in *. set (g1 := b_g1 s2) in *.
  apply safe_bind. eapply safe_mono; [apply (gamma_ok t g1 (b_g s2) (b_g2 s2) S1 S3 S2 S4)|]. intros [[g g2] om] ((G1 & G2) & G3 & G4).
  rewrite (rd_ok s0) by lia. cbn [bind]. lw W3. rewrite (rd_ok s0) by lia. cbn [bind]. lw W4. rewrite (rd_ok s0) by lia. cbn [bind]. lw W5.
  assert (E5 : forall q, q <> X -> q <> 4 -> q <> l + 5 -> W5 q = W2 q) by (intros q Q1 Q2 Q3; look; reflexivity).
  assert (E5X : is (W5 X) (fun c => sadd (at_ (W0 X) c) (smul (znth s0 g 1) (at_ (W0 4) c)))).
  { intros c Hc. look. rewrite at_axpy by auto. unfold blr. rewrite !K4 by (unfold X; lia). reflexivity. }
  assert (E5r : is (W5 4) (fun c => sadd (at_ (W0 4) c) (smul (sopp (znth s0 g1 l)) (at_ (W2 (4 + l)) c)))).
  { intros c Hc. rewrite (Ho1 4) by (unfold blu; lia). change 4 with (blr 0) at 1. rewrite Hs0. rewrite at_axpy by auto. rewrite !Ho by (unfold blr, X; lia). unfold blr. replace (4 + 0) with 4 by lia. rewrite (K4 4) by lia. reflexivity. }
  clear Hs Ho Hs0 Ho0 Hs1 Ho1 W3 W4.
  apply safe_bind. eapply safe_mono.
  { apply (safe_for 1 l _ (fun j W => (forall q, q <> X -> q <> 4 -> q <> l + 5 -> W q = W2 q) /\
      is (W X) (fun c => sadd (sadd (at_ (W0 X) c) (smul (znth s0 g 1) (at_ (W0 4) c))) (sg 1 j (fun i => smul (znth s0 g2 i) (at_ (W2 (4 + i)) c)))) /\
      is (W 4) (fun c => ssub (sadd (at_ (W0 4) c) (smul (sopp (znth s0 g1 l)) (at_ (W2 (4 + l)) c))) (sg 1 j (fun i => smul (znth s0 g1 i) (at_ (W2 (4 + i)) c)))))); [lia| |].
    - split; [exact E5|]. split; intros c Hc; rewrite sg_nil by lia; [rewrite (E5X c Hc)|rewrite (E5r c Hc)]; ring.
    - intros j W Hj (I1 & I2 & I3). rewrite (rd_ok s0) by lia. cbn [bind]. lw W6. rewrite (rd_ok s0) by lia. cbn [bind]. lw W7. rewrite (rd_ok s0) by lia. cbn [bind]. lw W8. cbn [safe].
      assert (Wj : W (4 + j) = W2 (4 + j)) by (apply I1; unfold X; lia).
      split; [intros q Q1 Q2 Q3; look; apply I1; auto|]. split; intros c Hc; rewrite sg_snoc by lia.
      + rewrite (Ho1 X) by (unfold blr, X; lia). rewrite Hs0, at_axpy by auto. rewrite !Ho by (unfold blu, blr, X; lia). rewrite (I2 c Hc). unfold blr. rewrite Wj. ring.
      + change (W8 4) with (W8 (blr 0)). rewrite Hs1, at_axpy by auto. rewrite !Ho0 by (unfold blr, X; lia). rewrite !Ho by (unfold blu, blr, X; lia). unfold blr. replace (4 + 0) with 4 by lia. rewrite (I3 c Hc), Wj. ring. }
  cbv beta. intros W6 (I1 & I2 & I3). lv.
  assert (R6 : rok W6).
  { intros c Hc. change (blr 0) with 4. rewrite (I3 c Hc).
    assert (EX : forall c, 0 <= c < n -> at_ (W6 X) c = sadd (smul s1 (at_ (W0 X) c)) (smul s1 (sg 0 l (fun i => smul (znth s0 g (i + 1)) (at_ (W0 (4 + i)) c))))).
    { intros c' Hc'. rewrite (I2 c' Hc'). rewrite (sg_cons 0 l) by lia. change (0 + 1) with 1. replace (4 + 0) with 4 by lia.
      assert (TR : sg 1 l (fun i => smul (znth s0 g2 i) (at_ (W2 (4 + i)) c')) = sg 1 l (fun i => smul (znth s0 g (i + 1)) (at_ (W0 (4 + i)) c'))).
      { etransitivity; [|etransitivity; [apply (triangle l (fun i => znth s0 g (i + 1)) (fun i => at_ (W2 (4 + i)) c') (fun j i => tau_ t j i)); lia|]].
        - apply sg_ext. intros q Hq. rewrite (G4 q Hq). reflexivity.
        - apply sg_ext. intros q Hq. cbv beta. f_equal. symmetry. apply (O4 q ltac:(lia) c' Hc'). }
      rewrite TR. ring. }
    rewrite (B_ext _ _ c EX). rewrite B_lin. rewrite (B_sum 0 l (fun i => znth s0 g (i + 1)) (fun i => at_ (W0 (4 + i)))).
    rewrite (sg_ext 0 l _ (fun i => smul (znth s0 g (i + 1)) (at_ (W0 (4 + (i + 1))) c))) by (intros i Hi; rewrite <- (H2 i Hi c Hc); do 3 f_equal; lia).
    rewrite (sg_shift l (fun i => smul (znth s0 g i) (at_ (W0 (4 + i)) c))) by lia.
    assert (TR : sg 1 (l + 1) (fun i => smul (znth s0 g1 i) (at_ (W2 (4 + i)) c)) = sg 1 (l + 1) (fun i => smul (znth s0 g i) (at_ (W0 (4 + i)) c))).
    { etransitivity; [|etransitivity; [apply (triangle (l + 1) (fun i => znth s0 g i) (fun i => at_ (W2 (4 + i)) c) (fun j i => tau_ t j i)); lia|]].
      - apply sg_ext. intros q Hq. rewrite (G2 q ltac:(lia)). reflexivity.
      - apply sg_ext. intros q Hq. cbv beta. f_equal. symmetry. apply (O4 q ltac:(lia) c Hc). }
    rewrite <- TR. rewrite sg_snoc by lia. pose proof (H1 c Hc) as H1c. change (blr 0) with 4 in H1c. rewrite H1c. ring. }
  assert (X6 : is (W6 1) (fun _ => s0)). { rewrite I1 by (unfold X; lia). unfold W2. rewrite K4 by lia. exact H4. }
  rewrite K2. rewrite K1, H6.
  apply (safe_write e tol (it0 + l) rh0); [lia|intros Hm; specialize (HL Hm); lia|exact H7|]. intros rh' Hw.
  set (v := get_residual e bn (W6 (blr 0))) in *.
  destruct (sleb v tol) eqn:El; cbn [safe].
  - split; [|cbn [b_iter]; lia]. left. split; [reflexivity|]. exists v. cbn [b_k b_iter k_nrm k_W k_rh]. split; [reflexivity|]. split; [apply get_residual_ext; apply rok_exit; auto|]. split; [exact Hw|exact El].
  - split.
    + unfold binv. cbn [b_k b_iter k_nrm k_W k_rh]. split; [exact R6|]. split; [intros i Hi; lia|]. split; [intros i Hi; lia|]. split; [exact X6|].
      split; [unfold sizes; cbn [b_tau b_g b_g1 b_g2 b_sg]; auto 10|]. split; [lia|]. destruct (Z.eqb_spec 0 l) as [E0|E0]; [lia|]. split; [replace (it0 + l + 0 + 1) with (it0 + l + 1) by lia; apply (wrote_hist e tol (it0 + l) rh0 rh' v ltac:(lia) Hw El)|].
      right. exists v. auto.
    + exists v. cbn [b_k b_iter k_nrm k_W k_rh]. split; [reflexivity|]. split; [reflexivity|]. split; [exact El|apply Hw].
Qed.
End E.

Ltac lw W' :=
  lazymatch goal with
  | |- safe (lt (upd ?W ?k ?v) _) _ =>
      let Hs := fresh "Hs" in let Ho := fresh "Ho" in
      apply safe_lt; cbv beta;
      pose proof (upd_s W k v) as Hs; pose proof (fun j => upd_d W k v j) as Ho;
      generalize dependent (upd W k v); intros W' Hs Ho
  end.
Ltac lv := apply safe_lt; cbv beta.
Ltac look := repeat match goal with
  | Ho : forall j, j <> ?k -> ?W' j = _ |- context [?W' ?a] => rewrite (Ho a) by (unfold X, blr, blu in *; lia)
  | Hs : ?W' ?k = _ |- context [?W' ?k] => rewrite Hs
  end.
(** *** the complete solver.  [Mx]: the preconditioner applied to the returned vector *)
Definition times_M (n : Z) (M : list (entry T)) (x : vec) : vec := map (fun i => mv_spec M n (at_ x) i) (zrange 0 n).
Definition last_iter (e : env (T:=T)) (l : Z) : Z := (e_maxiter e / l + 1) * l.
Definition bl_sol (e : env (T:=T)) (M : list (entry T)) (l : Z) (x rh : list T) (o : sol (T:=T)) : Prop :=
  let '(p, bn, tol, nr, acc) := get_initial_residual e x in
  let it := o_iter o in
  if acc then o_ret o = LIS_SUCCESS /\ it = 1 /\ o_resid o = Some nr /\ o_x o = x /\ o_rh o = rh
  else 1 <= it <= last_iter e l /\
   (o_ret o = LIS_SUCCESS /\ (exists v, o_resid o = Some v /\ v = get_residual e bn (tres e (o_x o)) /\ wrote e tol it rh (o_rh o) v /\ sleb v tol = true) \/
    o_ret o = LIS_BREAKDOWN /\ hist e tol it rh (o_rh o) /\
      ((o_resid o = None /\ it = 1) \/ exists v, o_resid o = Some v /\ v = get_residual e bn (tres e (o_x o)) /\ sleb v tol = false) \/
    o_ret o = LIS_MAXITER /\ it = last_iter e l /\
      exists v, o_resid o = Some v /\ v = get_residual e bn (tres e (times_M (e_n e) M (o_x o))) /\ wrote e tol it rh (o_rh o) v /\ sleb v tol = false).
Lemma lis_bicgstabl_ok (e : env (T:=T)) M l junk x rh : 1 <= l -> 0 <= e_maxiter e -> zlen rh = e_maxiter e + 2 -> zeros_ok e x ->
  (forall i, 0 <= i < e_n e -> at_ x i = s0) ->
  (forall k v i, 0 <= i < e_n e -> at_ (e_psolve e k v) i = mv_spec M (e_n e) (at_ v) i) ->
  (e_mem e = true -> last_iter e l <= e_maxiter e + 1) ->
  safe (lis_bicgstabl l junk e x rh) (bl_sol e M l x rh).
Proof.
  intros Hl Hm Hrh HZ Hx0 HM HL. unfold lis_bicgstabl, bl_sol. cbv zeta.
  pose proof (initial_resid RT e x HZ) as HI. destruct (get_initial_residual e x) as [[[[p bn] tol] nr] acc]. cbn [fst] in HI. destruct acc; [cbn [safe]; auto 10|].
  lw W1. assert (E1 : W1 (blr 0) = p /\ W1 X = x). { rewrite Hs. split; [reflexivity|]. rewrite Ho by (unfold blr, X; lia). apply upd_s. } clear Hs Ho. destruct E1 as (E1 & E2).
  lw W2. lw W3. lw W4. lw W5.
  assert (F1 : W5 (blr 0) = p) by (look; reflexivity). assert (F2 : W5 X = x) by (look; reflexivity).
  assert (F3 : forall i, 0 <= i < e_n e -> at_ (W5 1) i = s0). { intros i Hi. look. rewrite at_copy by auto. look. apply Hx0. exact Hi. }
  clear Hs Ho Hs0 Ho0 Hs1 Ho1 Hs2 Ho2.
  assert (ZT : forall k f, 0 <= k -> zlen (tab (T:=T) k f) = k) by (intros k f Hk; unfold tab, zlen; rewrite map_length; pose proof (zlen_zrange 0 k) as HQ; unfold zlen in HQ; lia).
  pose proof (Z.div_pos (e_maxiter e) l Hm ltac:(lia)) as D0. pose proof (Z.div_mod (e_maxiter e) l ltac:(lia)) as D1. pose proof (Z.mod_pos_bound (e_maxiter e) l ltac:(lia)) as D2.
  assert (DK : forall k, 0 <= k -> l * k <= e_maxiter e -> l * k + l <= last_iter e l).
  { intros k Hk H. unfold last_iter. assert (k <= e_maxiter e / l) by (apply Z.div_le_lower_bound; lia). nia. }
  set (I := fun s : bst (T:=T) => exists k, 0 <= k /\ binv e bn tol rh l M (l * k) 0 s /\ b_iter s = l * k /\ l * k <= last_iter e l /\ (1 <= k -> recorded e bn tol s)).
  set (Q := fun ret (s : bst (T:=T)) => 1 <= b_iter s <= last_iter e l /\ (bend e bn tol rh ret s \/ ret = LIS_MAXITER /\ b_iter s = last_iter e l /\ recorded e bn tol s /\ rok e M (k_W (b_k s)) /\ hist e tol (b_iter s + 1) rh (k_rh (b_k s)))).
  apply safe_bind. eapply safe_mono.
  { apply (safe_repeat (e_maxiter e) b_iter _ I Q).
    - exists 0. rewrite Z.mul_0_r. split; [lia|]. split; [|split; [reflexivity|split; [unfold last_iter; nia|intros; lia]]].
      unfold binv. cbn [b_k b_iter k_nrm k_W k_rh]. split; [|split; [intros i Hi; lia|split; [intros i Hi; lia|split; [exact F3|split; [|split; [reflexivity|split; [|left; auto]]]]]]].
      + intros i Hi. rewrite F1. rewrite (HI i Hi). f_equal. rewrite F2. unfold B.
        assert (Z1 : forall j, 0 <= j < e_n e -> mv_spec M (e_n e) (at_ x) j = at_ x j).
        { intros j Hj. rewrite Hx0 by auto. transitivity (mv_spec M (e_n e) (fun c => sadd (smul s0 s0) (smul s0 s0)) j); [apply mvs_ext; intros c Hc; rewrite Hx0 by auto; ring|]. rewrite mvs_lin. ring. }
        unfold mv. apply mvs_ext. intros j Hj. symmetry. apply Z1. exact Hj.
      + unfold sizes. cbn [b_tau b_g b_g1 b_g2 b_sg]. rewrite !ZT by nia. auto.
      + destruct (Z.eqb_spec 0 l); [lia|]. apply hist0.
    - cbn [b_iter]. lia.
    - intros s Hs (k & Hk & HB & Hi & Hk2 & _). assert (DK' := DK k Hk ltac:(lia)).
      eapply safe_mono; [apply (pass_ok e bn tol rh l M Hl HM (l * k) s); [nia|rewrite Z.mul_comm; apply Z.mod_mul; lia|intros Em; specialize (HL Em); lia|exact HB]|].
      intros [s'|ret s'] K.
      + destruct K as (K1 & K2). assert (b_iter s' = l * k + l) by (destruct K1 as (_ & _ & _ & _ & _ & K1 & _); lia). split; [|lia]. exists (k + 1). split; [lia|]. replace (l * (k + 1)) with (l * k + l) by lia. auto.
      + destruct K as (K1 & K2). split; [nia|]. left. exact K1.
    - intros s Hs (k & Hk & HB & Hi & Hk2 & HR). assert (K1 : 1 <= k) by nia. specialize (HR K1).
      assert (EL : l * k = last_iter e l). { unfold last_iter in *. assert (e_maxiter e / l < k) by (apply Z.div_lt_upper_bound; lia). nia. }
      split; [nia|]. right. split; [reflexivity|]. split; [lia|]. split; [exact HR|]. destruct HB as (B1 & _ & _ & _ & _ & _ & B7 & _). split; [exact B1|]. destruct (Z.eqb_spec 0 l); [lia|]. rewrite Hi. replace (l * k + 1) with (l * k + 0 + 1) by lia. exact B7. }
  intros [ret s] (Q1 & Q2). cbn [fst snd] in *. cbn [safe o_ret o_iter o_resid o_x o_rh]. split; [exact Q1|].
  destruct Q2 as [[Q2|Q2]|(Q2 & Q3 & (v & V1 & V2 & V3 & V4) & Q5 & Q6)]; [left; exact Q2|right; left; exact Q2|right; right].
  split; [exact Q2|]. split; [exact Q3|]. exists v. split; [exact V1|]. split; [|split; [|exact V3]].
  - rewrite V2. apply get_residual_ext. apply resid_tres. intros i Hi. rewrite (Q5 i Hi). f_equal. unfold B, mv. apply mvs_ext. intros j Hj. symmetry. exact (at_tab (e_n e) (fun i => mv_spec M (e_n e) (at_ (k_W (b_k s) X)) i) j Hj).
  - destruct Q6 as (D3 & D4 & D5 & D6). split; [exact D3|]. split; [intros j Hj; apply D4; lia|]. split; [intros Em j Hj; apply D5; [exact Em|lia]|]. split; [exact D6|exact V4].
Qed.
End P.
