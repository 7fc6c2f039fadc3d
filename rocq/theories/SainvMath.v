(** Biconjugation without dropping gives the inverse. *)
Require Import ZArith List Bool Lia Ring Field.
From Verif Require Import Base Scalar Spec SpecIlu SpecIlut SpecSainv.
Import ListNotations.
Open Scope Z_scope.

Section P.
Context {T : Type} {S : Scalar T}.
Hypothesis RT : is_ring S.
Let RT' : @ring_theory T s0 s1 sadd smul ssub sopp (@eq T) := RT.
Add Ring TrSai : RT'.

Lemma sum_one (f : Z -> T) lo hi p : lo <= p < hi -> (forall q, lo <= q < hi -> q <> p -> f q = s0) -> ssum (map f (zrange lo hi)) = f p.
Proof.
  intros Hp H. rewrite (zrange_app lo p hi), (zrange_cons p hi) by lia. rewrite map_app, (ssum_app RT). cbn [map ssum].
  rewrite (ssum_map_ext f (fun _ => s0) (zrange lo p)), (ssum_map_ext f (fun _ => s0) (zrange (p + 1) hi)), !(ssum_map_zero RT); [ring| |]; intros x Hx; apply In_zrange in Hx; apply H; lia.
Qed.
Lemma sum_zero (f : Z -> T) lo hi : (forall q, lo <= q < hi -> f q = s0) -> ssum (map f (zrange lo hi)) = s0.
Proof. intros H. rewrite (ssum_map_ext f (fun _ => s0)). apply (ssum_map_zero RT). intros x Hx. apply In_zrange in Hx. auto. Qed.
Lemma sum_ext (f g : Z -> T) lo hi : (forall q, lo <= q < hi -> f q = g q) -> ssum (map f (zrange lo hi)) = ssum (map g (zrange lo hi)).
Proof. intros H. apply ssum_map_ext. intros x Hx. apply In_zrange in Hx. auto. Qed.
Lemma sum_delta (f : Z -> T) lo hi p : lo <= p < hi -> ssum (map (fun q => smul (delta p q) (f q)) (zrange lo hi)) = f p.
Proof.
  intros Hp. rewrite (sum_one _ lo hi p); auto.
  - unfold delta. rewrite Z.eqb_refl. ring.
  - intros q Hq Hn. unfold delta. destruct (Z.eqb_spec p q); [lia|ring].
Qed.
Lemma sum_sub {A} (f g : A -> T) l : ssum (map (fun x => ssub (f x) (g x)) l) = ssub (ssum (map f l)) (ssum (map g l)).
Proof. induction l; cbn; [ring|]. rewrite IHl. ring. Qed.

Section N.
Variable n : Z.
Definition tr (a : Z -> Z -> T) (i j : Z) : T := a j i.
Lemma right_tr a w c : right_mul n (tr a) w c = left_mul n a w c.
Proof. unfold right_mul, left_mul, tr. apply ssum_map_ext. intros; ring. Qed.
Lemma left_tr a w c : left_mul n (tr a) w c = right_mul n a w c.
Proof. unfold right_mul, left_mul, tr. apply ssum_map_ext. intros; ring. Qed.
Lemma bil_left a w z : bilinear n a w z = ssum (map (fun c => smul (left_mul n a w c) (z c)) (zrange 0 n)).
Proof.
  unfold bilinear, right_mul, left_mul.
  rewrite (ssum_map_ext _ (fun r => ssum (map (fun c => smul (smul (w r) (a r c)) (z c)) (zrange 0 n)))) by (intros; rewrite <- (ssum_map_mul_l RT); apply ssum_map_ext; intros; ring).
  rewrite (ssum_exchange RT). apply ssum_map_ext. intros c _. rewrite (ssum_map_mul_r RT). reflexivity.
Qed.
Lemma bil_tr a w z : bilinear n (tr a) z w = bilinear n a w z.
Proof. rewrite bil_left. unfold bilinear. apply ssum_map_ext. intros r _. rewrite left_tr. ring. Qed.
Lemma bil_ext a w w' z : (forall c, 0 <= c < n -> w c = w' c) -> bilinear n a w z = bilinear n a w' z.
Proof. intros H. apply sum_ext. intros q Hq. rewrite H by auto. ring. Qed.
Lemma biconj_tr keep a W Z_ d : biconjugation keep n a W Z_ d -> biconjugation keep n (tr a) Z_ W d.
Proof.
  intros H j Hj. destruct (H j Hj) as [Hd Hr]. split; [rewrite bil_tr; exact Hd|]. intros c Hc. destruct (Hr c Hc) as [HW HZ]. split.
  - rewrite HZ. f_equal. apply ssum_map_ext. intros i _. rewrite right_tr. reflexivity.
  - rewrite HW. f_equal. apply ssum_map_ext. intros i _. rewrite left_tr. reflexivity.
Qed.

(** rows are unit upper triangular whatever is dropped *)
Lemma biconj_unit keep a W Z_ d : (forall i, keep i s0 = s0) -> biconjugation keep n a W Z_ d -> forall j c, 0 <= j < n -> j <= c < n -> W j c = delta j c.
Proof.
  intros Hk H j. assert (G : forall m, 0 <= m -> forall j, 0 <= j < m -> j < n -> forall c, j <= c < n -> W j c = delta j c).
  { clear j. intros m Hm. pattern m. apply natlike_ind; auto; clear m Hm; [intros; lia|]. intros m Hm IH j Hj Hn c Hc.
    destruct (H j) as [_ Hr]; [lia|]. destruct (Hr c) as [-> _]; [lia|].
    rewrite sum_zero; [ring|]. intros i Hi. rewrite (IH i) by lia. unfold delta. destruct (Z.eqb_spec i c) as [E|E]; [lia|]. replace (smul _ s0) with s0 by ring. apply Hk. }
  intros c Hj Hc. apply (G (j + 1)); lia.
Qed.

Lemma bil_recur a (u : Z -> T) (e : Z -> T) W z j : (forall c, 0 <= c < n -> u c = ssub (delta j c) (ssum (map (fun i => smul (e i) (W i c)) (zrange 0 j)))) -> 0 <= j < n ->
  bilinear n a u z = ssub (right_mul n a z j) (ssum (map (fun i => smul (e i) (bilinear n a (W i) z)) (zrange 0 j))).
Proof.
  intros Hu Hj. rewrite (bil_ext a u _ z Hu). unfold bilinear.
  rewrite (ssum_map_ext _ (fun r => ssub (smul (delta j r) (right_mul n a z r)) (ssum (map (fun i => smul (e i) (smul (W i r) (right_mul n a z r))) (zrange 0 j))))).
  - rewrite sum_sub, (sum_delta (right_mul n a z)) by auto. f_equal. rewrite (ssum_exchange RT). apply ssum_map_ext. intros i _. rewrite (ssum_map_mul_l RT). reflexivity.
  - intros r _. assert (E : smul (ssum (map (fun i => smul (e i) (W i r)) (zrange 0 j))) (right_mul n a z r) = ssum (map (fun i => smul (e i) (smul (W i r) (right_mul n a z r))) (zrange 0 j))).
    { rewrite <- (ssum_map_mul_r RT). apply ssum_map_ext. intros; ring. } rewrite <- E. ring.
Qed.

Section F.
Hypothesis FD : is_field S.
Lemma half a W Z_ d i : biconjugation (fun _ t => t) n a W Z_ d -> 0 <= i < n -> bilinear n a (W i) (Z_ i) <> s0 ->
  (forall k, 0 <= k < i -> bilinear n a (W k) (Z_ i) = s0) -> forall j, i < j < n -> bilinear n a (W j) (Z_ i) = s0.
Proof.
  intros H Hi Hp Hk. assert (G : forall m, 0 <= m -> forall j, i < j < m -> j < n -> bilinear n a (W j) (Z_ i) = s0).
  { intros m Hm. pattern m. apply natlike_ind; auto; clear m Hm; [intros; lia|]. intros m Hm IH j Hj Hn.
    destruct (H j) as [_ Hr]; [lia|].
    rewrite (bil_recur a (W j) (fun k => smul (right_mul n a (Z_ k) j) (d k)) W (Z_ i) j); [|intros c Hc; apply (Hr c Hc)|lia].
    rewrite (sum_one _ 0 j i); [|lia|].
    - destruct (H i Hi) as [Hd _]. rewrite Hd.
      assert (E : smul (sdiv s1 (bilinear n a (W i) (Z_ i))) (bilinear n a (W i) (Z_ i)) = s1) by (apply (Finv_l FD); exact Hp).
      assert (E2 : smul (smul (right_mul n a (Z_ i) j) (sdiv s1 (bilinear n a (W i) (Z_ i)))) (bilinear n a (W i) (Z_ i)) = smul (right_mul n a (Z_ i) j) s1) by (rewrite <- (Rmul_assoc RT); f_equal; exact E).
      rewrite E2. ring.
    - intros q Hq Hn'. destruct (Z.lt_ge_cases q i); [rewrite Hk by lia; ring|rewrite (IH q) by lia; ring]. }
  intros j Hj. apply (G (j + 1)); lia.
Qed.

Lemma biconj_orth' a W Z_ d m0 : biconjugation (fun _ t => t) n a W Z_ d -> (forall i, 0 <= i < m0 -> i < n -> bilinear n a (W i) (Z_ i) <> s0) ->
  forall i, 0 <= i < m0 -> i < n -> forall j, i < j < n -> bilinear n a (W j) (Z_ i) = s0 /\ bilinear n a (W i) (Z_ j) = s0.
Proof.
  intros H Hp.
  assert (G : forall m, 0 <= m -> m <= m0 -> forall i, 0 <= i < m -> i < n -> forall j, i < j < n -> bilinear n a (W j) (Z_ i) = s0 /\ bilinear n a (W i) (Z_ j) = s0).
  { intros m Hm. pattern m. apply natlike_ind; auto; clear m Hm; [intros; lia|]. intros m Hm IH Hm0 i Hi Hn j Hj. split.
    - apply (half a W Z_ d i H); [lia|apply Hp; lia| |lia]. intros k Hk. refine (proj2 (IH _ k _ _ i _)); lia.
    - rewrite <- bil_tr. apply (half (tr a) Z_ W d i (biconj_tr _ _ _ _ _ H)); [lia|rewrite bil_tr; apply Hp; lia| |lia].
      intros k Hk. rewrite bil_tr. refine (proj1 (IH _ k _ _ i _)); lia. }
  intros i Hi Hn j Hj. apply (G (i + 1)); lia.
Qed.
Lemma biconj_orth a W Z_ d : biconjugation (fun _ t => t) n a W Z_ d -> (forall i, 0 <= i < n -> bilinear n a (W i) (Z_ i) <> s0) ->
  forall i j, 0 <= i < n -> 0 <= j < n -> i <> j -> bilinear n a (W i) (Z_ j) = s0.
Proof.
  intros H Hp. assert (Hp' : forall i, 0 <= i < n -> i < n -> bilinear n a (W i) (Z_ i) <> s0) by auto. pose proof (biconj_orth' a W Z_ d n H Hp') as G.
  intros i j Hi Hj Hne. destruct (Z.lt_ge_cases i j); [refine (proj2 (G i _ _ j _)); lia|refine (proj1 (G j _ _ i _)); lia].
Qed.

(** no pivot vanishes if x^T A x = 0 only for x = 0 *)
Lemma biconj_pivots a W Z_ d : s1 <> s0 :> T -> biconjugation (fun _ t => t) n a W Z_ d ->
  (forall x, bilinear n a x x = s0 -> forall c, 0 <= c < n -> x c = s0) -> forall i, 0 <= i < n -> bilinear n a (W i) (Z_ i) <> s0.
Proof.
  intros H10 H Han. assert (G : forall m, 0 <= m -> forall i, 0 <= i < m -> i < n -> bilinear n a (W i) (Z_ i) <> s0).
  { intros m Hm. pattern m. apply natlike_ind; auto; clear m Hm; [intros; lia|]. intros m Hm IH i Hi Hn.
    assert (HZ : forall c, i <= c < n -> Z_ i c = delta i c) by (intros c Hc; apply (biconj_unit (fun _ t => t) (tr a) Z_ W d); auto; [apply biconj_tr; auto|lia]).
    assert (HW : forall k c, 0 <= k < n -> k <= c < n -> W k c = delta k c) by (intros k c Hk Hc; apply (biconj_unit (fun _ t => t) a W Z_ d); auto).
    assert (HO : forall k, 0 <= k < i -> bilinear n a (W k) (Z_ i) = s0).
    { intros k Hk. refine (proj2 (biconj_orth' a W Z_ d i H _ k Hk _ i _)); try lia. intros q Hq Hqn. apply (IH q); lia. }
    (* e_k^T A z_i = 0 for k < i *)
    assert (HE : forall m', 0 <= m' -> forall k, 0 <= k < m' -> k < i -> right_mul n a (Z_ i) k = s0).
    { intros m' Hm'. pattern m'. apply natlike_ind; auto; clear m' Hm'; [intros; lia|]. intros m' Hm' IH' k Hk Hki.
      rewrite <- (HO k) by lia. unfold bilinear. symmetry. rewrite (sum_one _ 0 n k); [|lia|].
      - rewrite HW by lia. unfold delta. rewrite Z.eqb_refl. ring.
      - intros q Hq Hne. destruct (Z.lt_ge_cases q k).
        + rewrite (IH' q) by lia. ring.
        + rewrite HW by lia. unfold delta. destruct (Z.eqb_spec k q); [lia|ring]. }
    assert (HB : forall w, (forall c, i <= c < n -> w c = delta i c) -> bilinear n a w (Z_ i) = right_mul n a (Z_ i) i).
    { intros w Hw. unfold bilinear. rewrite (sum_one _ 0 n i); [|lia|].
      - rewrite Hw by lia. unfold delta. rewrite Z.eqb_refl. ring.
      - intros q Hq Hne. destruct (Z.lt_ge_cases q i).
        + rewrite (HE (q + 1)) by lia. ring.
        + rewrite Hw by lia. unfold delta. destruct (Z.eqb_spec i q); [lia|ring]. }
    rewrite (HB (W i)) by (intros c Hc; apply HW; lia). rewrite <- (HB (Z_ i)) by auto. intros H0. apply (Han (Z_ i)) with (c := i) in H0; [|lia]. rewrite HZ in H0 by lia. unfold delta in H0. rewrite Z.eqb_refl in H0. auto. }
  intros i Hi. apply (G (i + 1)); lia.
Qed.

Lemma bil_sum_right a w (F : Z -> T) Z_ : bilinear n a w (fun c => ssum (map (fun i => smul (Z_ i c) (F i)) (zrange 0 n))) = ssum (map (fun i => smul (bilinear n a w (Z_ i)) (F i)) (zrange 0 n)).
Proof.
  rewrite bil_left. rewrite (ssum_map_ext _ (fun c => ssum (map (fun i => smul (smul (left_mul n a w c) (Z_ i c)) (F i)) (zrange 0 n)))) by (intros; rewrite <- (ssum_map_mul_l RT); apply ssum_map_ext; intros; ring).
  rewrite (ssum_exchange RT). apply ssum_map_ext. intros i _. rewrite (ssum_map_mul_r RT), bil_left. reflexivity.
Qed.

(** x = sum_i z_i d_i (w_i^T b) solves A x = b *)
Lemma biconj_inverse a W Z_ d (b : Z -> T) : biconjugation (fun _ t => t) n a W Z_ d -> (forall i, 0 <= i < n -> bilinear n a (W i) (Z_ i) <> s0) ->
  forall r, 0 <= r < n -> right_mul n a (fun c => ssum (map (fun i => smul (Z_ i c) (smul (d i) (ssum (map (fun k => smul (W i k) (b k)) (zrange 0 n))))) (zrange 0 n))) r = b r.
Proof.
  intros H Hp. set (y := fun c => ssum _). set (v := fun r => ssub (right_mul n a y r) (b r)).
  assert (E : forall j, 0 <= j < n -> ssum (map (fun r => smul (W j r) (v r)) (zrange 0 n)) = s0).
  { intros j Hj. unfold v. rewrite (ssum_map_ext _ (fun r => ssub (smul (W j r) (right_mul n a y r)) (smul (W j r) (b r)))) by (intros; ring).
    rewrite sum_sub. change (ssum (map (fun r => smul (W j r) (right_mul n a y r)) (zrange 0 n))) with (bilinear n a (W j) y).
    unfold y. rewrite (bil_sum_right a (W j) (fun i => smul (d i) (ssum (map (fun k => smul (W i k) (b k)) (zrange 0 n)))) Z_). rewrite (sum_one _ 0 n j); auto.
    - destruct (H j Hj) as [Hd _]. rewrite Hd.
      assert (E : smul (sdiv s1 (bilinear n a (W j) (Z_ j))) (bilinear n a (W j) (Z_ j)) = s1) by (apply (Finv_l FD); apply Hp; exact Hj).
      set (g := ssum _). transitivity (ssub (smul g (smul (sdiv s1 (bilinear n a (W j) (Z_ j))) (bilinear n a (W j) (Z_ j)))) g); [ring|rewrite E; ring].
    - intros q Hq Hne. rewrite (biconj_orth a W Z_ d H Hp j q) by auto. ring. }
  assert (V : forall m, 0 <= m -> forall r, 0 <= r < m -> r < n -> v r = s0).
  { intros m Hm. pattern m. apply natlike_ind; auto; clear m Hm; [intros; lia|]. intros m Hm IH r Hr Hn.
    rewrite <- (E r) by lia. symmetry. rewrite (sum_one _ 0 n r); [|lia|].
    - rewrite (biconj_unit (fun _ t => t) a W Z_ d) by (auto; lia). unfold delta. rewrite Z.eqb_refl. ring.
    - intros q Hq Hne. destruct (Z.lt_ge_cases q r).
      + rewrite (IH q) by lia. ring.
      + rewrite (biconj_unit (fun _ t => t) a W Z_ d) by (auto; lia). unfold delta. destruct (Z.eqb_spec r q); [lia|ring]. }
  intros r Hr. assert (Hv : v r = s0) by (apply (V (r + 1)); lia). unfold v in Hv.
  transitivity (sadd (ssub (right_mul n a y r) (b r)) (b r)); [ring|]. rewrite Hv. ring.
Qed.
End F.
End N.
End P.
