Require Import ZArith List Bool Lia Permutation.
From Verif Require Import Base Scalar Omp OmpProof Vector SpecVector.
Import ListNotations.
Open Scope Z_scope.

Section S.
Context {T : Type} {S : Scalar T}.

Lemma elementwise n (body : Z -> prog T) z s s' : v_n z = n ->
  (forall i, 0 <= i < n -> within (fun c => snd c = i) (fun c => c = at_ z i) (body i)) ->
  exec (par_for n body) s s' ->
  (forall i, 0 <= i < n -> s' (at_ z i) = run (body i) s (at_ z i)) /\
  (forall c, ~ (fst c = v_arr z /\ 0 <= snd c < v_n z) -> s' c = s c).
Proof.
  intros Hn HW HE. destruct (par_for_spec n body (fun i c => snd c = i) (fun i c => c = at_ z i) s s' HW) as (H1 & H2); auto.
  { intros i j c Hi Hj Hij ->. unfold at_. cbn [snd]. split; [lia|]. intros E. inversion E. lia. }
  split; [intros i Hi; apply H1; auto|]. intros c Hc. apply H2. intros i Hi ->. apply Hc. cbn. lia.
Qed.

Lemma inside_par vs n (body : Z -> prog T) (HW : forall i, 0 <= i < n -> within (fun c => exists v, In v vs /\ fst c = v_arr v /\ 0 <= snd c < v_n v) (fun c => exists v, In v vs /\ fst c = v_arr v /\ 0 <= snd c < v_n v) (body i)) :
  inside vs (par_for n body).
Proof. unfold inside. apply Forall_forall. intros p Hp. apply In_nth_error in Hp. destruct Hp as (i & Hi). apply nth_par_for in Hi. destruct Hi as (-> & Hi). auto. Qed.

Lemma exec_nil (s s' : store T) : exec [] s s' -> forall a, s' a = s a.
Proof.
  intros (ds & _ & St). inversion St as [|c1 c2 c3 H1]; subst; auto. inversion H1 as [l a k r ? E|l a v k r ? E]; destruct l; discriminate.
Qed.

(** invariants of the serial loop *)
Lemma ser_for_inv n (body : Z -> prog T) (P : Z -> store T -> Prop) s : 0 <= n ->
  P 0 s -> (forall i s, 0 <= i < n -> P i s -> P (i + 1) (run (body i) s)) -> P n (run (ser_for n body) s).
Proof.
  intros Hn H0 HS. unfold ser_for, par_for.
  assert (G : forall k st s, (st + k = Z.to_nat n)%nat -> P (Z.of_nat st) s -> P n (run (fold_right seq Done (map (fun i => body (Z.of_nat i)) (List.seq st k))) s)).
  { induction k as [|k IH]; intros st s' Hk Hp; cbn [List.seq map fold_right].
    - cbn [run]. replace n with (Z.of_nat st) by lia. auto.
    - rewrite run_seq. apply IH; [lia|]. replace (Z.of_nat (Datatypes.S st)) with (Z.of_nat st + 1) by lia. apply HS; [lia|auto]. }
  apply G; [lia|auto].
Qed.

(** *** reductions *)
Lemma serial_red_fold (f : Z -> T) op ids t : serial_red f op ids t = fold_left (fun t i => op t (f i)) ids t.
Proof. revert t. induction ids; intros t; cbn [serial_red fold_left]; auto. Qed.

Definition term_ok (term : Z -> (T -> prog T) -> prog T) (f : store T -> Z -> T) : Prop :=
  (forall s i k, run (term i k) s = run (k (f s i)) s) /\
  (forall i k (W : cell -> Prop), (forall v, within (fun c => fst c <> -2) W (k v)) -> within (fun c => fst c <> -2) W (term i k)).

Lemma red_thread_run r term op f ids t s : term_ok term f ->
  run (red_thread r term op ids t) s (vec_tmp r) = fold_left (fun t i => op t (f s i)) ids t.
Proof.
  intros (H1 & _). revert t. induction ids as [|i ids IH]; intros t; cbn [red_thread fold_left run].
  - apply put_same.
  - rewrite H1. apply IH.
Qed.
Lemma red_thread_within r term op f ids t : term_ok term f ->
  within (fun c => fst c <> -2) (fun c => c = vec_tmp r) (red_thread r term op ids t).
Proof.
  intros (_ & H2). revert t. induction ids as [|i ids IH]; intros t; cbn [red_thread within]; auto.
Qed.

Lemma vec_tmp_inj a b : vec_tmp a = vec_tmp b -> a = b.
Proof. unfold vec_tmp. intros E. inversion E. lia. Qed.

Lemma region_spec term op f init team s s' : term_ok term f -> exec (red_region term op init team) s s' ->
  (forall r, 0 <= r < zlen team -> s' (vec_tmp r) = fold_left (fun t i => op t (f s i)) (znth [] team r) (init r)) /\
  (forall r, zlen team <= r -> s' (vec_tmp r) = s (vec_tmp r)).
Proof.
  intros HT HE. unfold red_region in HE.
  assert (NE : forall i p, nth_error (map (fun r => red_thread (Z.of_nat r) term op (nth r team []) (init (Z.of_nat r))) (List.seq 0 (length team))) i = Some p ->
     (i < length team)%nat /\ p = red_thread (Z.of_nat i) term op (nth i team []) (init (Z.of_nat i))).
  { intros i p Hp. assert (L : (i < length team)%nat).
    { assert (X : nth_error (map (fun r => red_thread (Z.of_nat r) term op (nth r team []) (init (Z.of_nat r))) (List.seq 0 (length team))) i <> None) by congruence.
      apply nth_error_Some in X. rewrite map_length, seq_length in X. auto. }
    split; [auto|]. rewrite nth_error_map, (nth_error_nth' _ 0%nat) in Hp by (rewrite seq_length; auto). rewrite seq_nth in Hp by auto. cbn in Hp. inversion Hp. auto. }
  assert (HD : disjoint_threads (fun _ c => fst c <> -2) (fun i c => c = vec_tmp (Z.of_nat i))).
  { intros i j c Hij ->. split; [cbn; lia|]. intros E. apply vec_tmp_inj in E. lia. }
  pose proof (fun HW => race_free _ _ _ s s' HD HW HE) as RF.
  destruct RF as (H1 & H2).
  - intros i p Hp. apply NE in Hp. destruct Hp as (_ & ->). eapply red_thread_within; eauto.
  - split.
    + intros r Hr. assert (Hn : nth_error (map (fun r => red_thread (Z.of_nat r) term op (nth r team []) (init (Z.of_nat r))) (List.seq 0 (length team))) (Z.to_nat r) =
         Some (red_thread r term op (znth [] team r) (init r))).
      { unfold zlen in Hr. rewrite nth_error_map, (nth_error_nth' _ 0%nat) by (rewrite seq_length; lia). rewrite seq_nth by lia. cbn [option_map]. f_equal.
        unfold znth. destruct (Z.ltb_spec r 0); [lia|]. rewrite Nat.add_0_l, Z2Nat.id by lia. auto. }
      rewrite (H1 _ _ Hn) by (rewrite Z2Nat.id by lia; auto). apply (red_thread_run r term op f). auto.
    + intros r Hr. apply H2. intros i p Hp E. apply NE in Hp. destruct Hp as (Hi & _). apply vec_tmp_inj in E. unfold zlen in Hr. lia.
Qed.

Lemma flat_concat (team : list (list Z)) : flat_map (fun r => znth [] team r) (zrange 0 (zlen team)) = concat team.
Proof.
  induction team as [|l t IH] using rev_ind; [reflexivity|].
  rewrite zlen_app. change (zlen [l]) with 1. pose proof (zlen_nonneg t). rewrite zrange_snoc by lia. rewrite flat_map_app, concat_app. cbn [flat_map concat]. rewrite !app_nil_r.
  rewrite znth_app by lia. destruct (Z.ltb_spec (zlen t) (zlen t)); [lia|]. rewrite Z.sub_diag. f_equal.
  rewrite <- IH. rewrite !flat_map_concat_map. f_equal. apply map_ext_in. intros r Hr. apply In_zrange in Hr. rewrite znth_app by lia. destruct (Z.ltb_spec r (zlen t)); [auto|lia].
Qed.

Lemma reduces_sum (RT : is_ring S) term f n team s v : term_ok term f -> distributes n team ->
  reduces term sadd zero_init (zlen team) s0 team s v -> v = ssum (map (f s) (zrange 0 n)).
Proof.
  intros HT HD (s' & HE & ->). destruct (region_spec term sadd f zero_init team s s' HT HE) as (H1 & _). unfold red_collect.
  rewrite (fold_left_ssum RT). unfold distributes in HD. rewrite <- (ssum_perm RT _ _ (Permutation_map (f s) HD)). rewrite <- flat_concat. rewrite (ssum_flat_map RT).
  rewrite (Radd_0_l RT). apply ssum_map_ext. intros r Hr. apply In_zrange in Hr. rewrite H1 by lia. unfold zero_init. rewrite (fold_left_ssum RT). apply (Radd_0_l RT).
Qed.

Lemma serial_sum (RT : is_ring S) f ids : serial_red f sadd ids s0 = ssum (map f ids).
Proof. rewrite serial_red_fold, (fold_left_ssum RT). apply (Radd_0_l RT). Qed.

Lemma dot_term_ok x y : 0 <= v_arr x -> 0 <= v_arr y -> term_ok (dot_term x y) (fun s i => smul (sconj (s (at_ x i))) (s (at_ y i))).
Proof. intros Hx Hy. split; [reflexivity|]. intros i k W HK. cbn. repeat split; auto; lia. Qed.
Lemma nhdot_term_ok x y : 0 <= v_arr x -> 0 <= v_arr y -> term_ok (nhdot_term x y) (fun s i => smul (s (at_ x i)) (s (at_ y i))).
Proof. intros Hx Hy. split; [reflexivity|]. intros i k W HK. cbn. repeat split; auto; lia. Qed.
Lemma sum_term_ok x : 0 <= v_arr x -> term_ok (sum_term x) (fun s i => s (at_ x i)).
Proof. intros Hx. split; [reflexivity|]. intros i k W HK. cbn. repeat split; auto; lia. Qed.
Lemma abs_term_ok x : 0 <= v_arr x -> term_ok (abs_term x) (fun s i => sabs (s (at_ x i))).
Proof. intros Hx. split; [reflexivity|]. intros i k W HK. cbn. repeat split; auto; lia. Qed.

Lemma max_fold (HO : total_order (T:=T)) (f : Z -> T) ids t :
  let v := fold_left (fun t i => max_op t (f i)) ids t in
  sleb t v = true /\ (forall i, In i ids -> sleb (f i) v = true) /\ (v = t \/ exists i, In i ids /\ v = f i).
Proof.
  destruct HO as (TO & TR). assert (RF : forall a : T, sleb a a = true) by (intros a; destruct (TO a a); auto).
  revert t. induction ids as [|i ids IH]; intros t; cbn [fold_left].
  - split; [auto|]. split; [intros ? []|auto].
  - destruct (IH (max_op t (f i))) as (H1 & H2 & H3). cbv zeta.
    set (v := fold_left (fun t0 i0 => max_op t0 (f i0)) ids (max_op t (f i))) in *.
    assert (M : sleb t (max_op t (f i)) = true /\ sleb (f i) (max_op t (f i)) = true /\ (max_op t (f i) = t \/ max_op t (f i) = f i)).
    { unfold max_op. destruct (sleb (f i) t) eqn:E; cbn [negb]; [auto|]. destruct (TO t (f i)); [auto|congruence]. }
    destruct M as (M1 & M2 & M3). split; [eapply TR; eauto|]. split.
    + intros k [<-|Hk]; [eapply TR; eauto|auto].
    + destruct H3 as [H3|(k & Hk & H3)]; [destruct M3 as [M3|M3]; [left; congruence|right; exists i; split; [left; auto|congruence]]|right; exists k; split; [right; auto|auto]].
Qed.

(** *** accessors *)

Lemma list_ext0 (a b : list T) : zlen a = zlen b -> (forall i, 0 <= i < zlen a -> znth s0 a i = znth s0 b i) -> a = b.
Proof. apply list_ext. Qed.

Lemma set_value_spec flag i w v : lvec_ok v ->
  let k := i - (if l_origin v then 1 else 0) in
  (l_is v <= k < l_ie v -> vector_set_value flag i w v = Ok (0, mkLvec (l_is v) (l_ie v) (l_origin v)
      (zupd (l_value v) (k - l_is v) (if flag =? INS then w else sadd (znth s0 (l_value v) (k - l_is v)) w)))) /\
  (~ (l_is v <= k < l_ie v) -> vector_set_value flag i w v = Ok (V_ILL_ARG, v)).
Proof.
  intros (H1 & H2) k. unfold vector_set_value. replace (if l_origin v then i - 1 else i) with k by (subst k; destruct (l_origin v); lia). cbv zeta.
  split; intros Hk.
  - destruct (Z.ltb_spec k (l_is v)); [lia|]. destruct (Z.leb_spec (l_ie v) k); [lia|]. cbn [orb].
    rewrite (rd_ok s0) by lia. cbn [bind]. rewrite wr_ok by lia. reflexivity.
  - destruct (Z.ltb_spec k (l_is v)); [reflexivity|]. destruct (Z.leb_spec (l_ie v) k); [reflexivity|lia].
Qed.

Lemma get_values_spec v start count out : lvec_ok v -> count <= zlen out ->
  let k := start - (if l_origin v then 1 else 0) in
  (l_is v <= k < l_ie v -> k + count <= l_ie v -> 0 <= count ->
     exists out', vector_get_values v start count out = Ok (0, out') /\ zlen out' = zlen out /\
       (forall q, 0 <= q < count -> znth s0 out' q = znth s0 (l_value v) (k - l_is v + q)) /\
       (forall q, count <= q -> znth s0 out' q = znth s0 out q)) /\
  (~ (l_is v <= k < l_ie v) \/ l_ie v < k + count -> vector_get_values v start count out = Ok (V_ILL_ARG, out)).
Proof.
  intros (H1 & H2) Hc k. unfold vector_get_values. replace (if l_origin v then start - 1 else start) with k by (subst k; destruct (l_origin v); lia). cbv zeta.
  split.
  - intros Hk Hkc Hc0. destruct (Z.ltb_spec k (l_is v)); [lia|]. destruct (Z.leb_spec (l_ie v) k); [lia|]. cbn [orb].
    destruct (Z.ltb_spec (l_ie v - l_is v) (k - l_is v + count)); [lia|].
    assert (W : wp (out <- for_ 0 count (fun i out => w <- rd (l_value v) (k - l_is v + i) ;; wr out i w) out ;; Ok (0, out))
       (fun r => fst r = 0 /\ zlen (snd r) = zlen out /\ (forall q, 0 <= q < count -> znth s0 (snd r) q = znth s0 (l_value v) (k - l_is v + q)) /\ (forall q, count <= q -> znth s0 (snd r) q = znth s0 out q))).
    { apply wp_bind. apply (for_wp' (fun i o => zlen o = zlen out /\ (forall q, 0 <= q < i -> znth s0 o q = znth s0 (l_value v) (k - l_is v + q)) /\ (forall q, i <= q -> znth s0 o q = znth s0 out q))); [lia| | |].
      - split; [auto|]. split; [intros; lia|auto].
      - intros i o Hi (L & A & B). wrd s0; [lia|]. apply wp_wr; [lia|]. rewrite zlen_zupd. split; [auto|]. split; intros q Hq; rewrite znth_zupd by lia.
        + destruct (Z.eqb_spec q i); [subst; auto|]. apply A; lia.
        + destruct (Z.eqb_spec q i); [lia|]. apply B; lia.
      - intros o (L & A & B). apply wp_ok. cbn [fst snd]. auto. }
    destruct (wp_inv _ _ W) as ([c o] & E & Hc' & H'). cbn [fst snd] in *. subst c. exists o. auto.
  - intros Hb. destruct (Z.ltb_spec k (l_is v)); [reflexivity|]. destruct (Z.leb_spec (l_ie v) k); [reflexivity|]. cbn [orb].
    destruct (Z.ltb_spec (l_ie v - l_is v) (k - l_is v + count)); [reflexivity|lia].
Qed.

Lemma values_each flag : forall k index value pi pv v, (flag = INS \/ l_origin v = false) -> lvec_ok v -> length index = k -> length value = k -> zlen pi = zlen pv ->
  forall f, (k < f)%nat ->
  values_loop f flag (zlen pi + Z.of_nat k) (zlen pi) (pi ++ index) (pv ++ value) v = set_each flag (combine index value) v.
Proof.
  induction k as [|k IH]; intros index value pi pv v HF HV Hi Hv Hp f Hf; (destruct f as [|f]; [lia|]); cbn [values_loop].
  - destruct index; [|discriminate]. destruct value; [|discriminate]. destruct (Z.ltb_spec (zlen pi) (zlen pi + Z.of_nat 0)); [lia|]. reflexivity.
  - destruct index as [|i index]; [discriminate|]. destruct value as [|w value]; [discriminate|]. destruct (Z.ltb_spec (zlen pi) (zlen pi + Z.of_nat (Datatypes.S k))); [|lia].
    pose proof (zlen_nonneg pi). pose proof (zlen_nonneg index).
    rewrite (rd_ok 0) by (rewrite zlen_app, zlen_cons; lia). cbn [bind]. rewrite znth_app by lia. destruct (Z.ltb_spec (zlen pi) (zlen pi)); [lia|].
    rewrite Z.sub_diag. change (znth 0 (i :: index) 0) with i. cbn [combine set_each].
    destruct (set_value_spec flag i w v HV) as (A & B). cbv zeta in A, B. cbv zeta.
    replace (if l_origin v then if flag =? INS then i - 1 else i + 1 else i) with (i - (if l_origin v then 1 else 0)).
    2: { destruct HF as [->|E]; [|rewrite E; lia]. destruct (l_origin v); cbn; lia. }
    destruct ((i - (if l_origin v then 1 else 0) <? l_is v) || (l_ie v <=? i - (if l_origin v then 1 else 0))) eqn:C.
    + rewrite B; [reflexivity|]. apply orb_prop in C. destruct C as [C|C]; [apply Z.ltb_lt in C|apply Z.leb_le in C]; lia.
    + apply orb_false_elim in C. destruct C as (C1 & C2). apply Z.ltb_ge in C1. apply Z.leb_gt in C2.
      rewrite A by lia. cbn [bind Z.eqb]. pose proof (zlen_nonneg value).
      rewrite (rd_ok s0) by (rewrite zlen_app, zlen_cons; lia). cbn [bind]. rewrite znth_app by lia. destruct (Z.ltb_spec (zlen pi) (zlen pv)); [lia|].
      replace (zlen pi - zlen pv) with 0 by lia. change (znth s0 (w :: value) 0) with w.
      destruct HV as (V1 & V2). rewrite (rd_ok s0) by lia. cbn [bind]. rewrite wr_ok by lia. cbn [bind].
      specialize (IH index value (pi ++ [i]) (pv ++ [w])). rewrite !zlen_app in IH. change (zlen [i]) with 1 in IH. change (zlen [w]) with 1 in IH. rewrite <- !app_assoc in IH. cbn [app] in IH.
      replace (zlen pi + Z.of_nat (Datatypes.S k)) with (zlen pi + 1 + Z.of_nat k) by lia.
      apply IH; cbn in *; try lia; auto. split; [auto|]. cbn [l_value l_is l_ie]. rewrite zlen_zupd. auto.
Qed.

Lemma set_values_each flag index value v : (flag = INS \/ l_origin v = false) -> lvec_ok v -> length value = length index ->
  vector_set_values flag (zlen index) index value v = set_each flag (combine index value) v.
Proof.
  intros HF HV HL. unfold vector_set_values. pose proof (values_each flag (length index) index value [] [] v HF HV eq_refl HL eq_refl (Datatypes.S (Z.to_nat (zlen index)))) as E.
  cbn [app] in E. change (zlen (@nil Z)) with 0 in E. rewrite <- E by (unfold zlen; lia). f_equal.
Qed.

(** *** scatter and gather *)
Lemma zlen_section l a b : a <= b -> zlen (section l a b) = b - a.
Proof. intros. unfold section. unfold zlen. rewrite map_length. fold (zlen (zrange a b)). rewrite zlen_zrange. lia. Qed.
Lemma znth_section l a b k : 0 <= k < b - a -> znth s0 (section l a b) k = znth s0 l (a + k).
Proof. intros H. unfold section. rewrite (znth_map _ 0 s0) by (rewrite zlen_zrange; lia). rewrite znth_zrange by lia. auto. Qed.
Lemma splice_wp (l : list T) a sec (Q : list T -> Prop) : 0 <= a -> a + zlen sec <= zlen l ->
  (forall l', zlen l' = zlen l -> (forall q, a <= q < a + zlen sec -> znth s0 l' q = znth s0 sec (q - a)) -> (forall q, ~ (a <= q < a + zlen sec) -> znth s0 l' q = znth s0 l q) -> Q l') ->
  wp (splice l a sec) Q.
Proof.
  intros Ha Hl HQ. pose proof (zlen_nonneg sec). unfold splice.
  apply (for_wp' (fun k l' => zlen l' = zlen l /\ (forall q, a <= q < a + k -> znth s0 l' q = znth s0 sec (q - a)) /\ (forall q, ~ (a <= q < a + k) -> znth s0 l' q = znth s0 l q))); [lia| | |].
  - split; [auto|]. split; [intros; lia|auto].
  - intros k l' Hk (L & A & B). wrd s0; [lia|]. apply wp_wr; [lia|]. rewrite zlen_zupd. split; [auto|]. split; intros q Hq; rewrite znth_zupd by lia.
    + destruct (Z.eqb_spec q (a + k)); [subst; f_equal; lia|]. apply A; lia.
    + destruct (Z.eqb_spec q (a + k)); [lia|]. apply B; lia.
  - intros l' (L & A & B). apply HQ; auto.
Qed.

Lemma ranges_mono ranges P n p q : ranges_ok ranges P n -> 0 <= p <= q -> q <= P -> znth 0 ranges p <= znth 0 ranges q.
Proof.
  intros (_ & _ & _ & _ & M) Hp Hq. replace q with (p + Z.of_nat (Z.to_nat (q - p))) in * by lia. induction (Z.to_nat (q - p)) as [|k IH].
  - rewrite Z.add_0_r. lia.
  - etransitivity; [apply IH; lia|]. replace (p + Z.of_nat (Datatypes.S k)) with (p + Z.of_nat k + 1) in * by lia. apply M. lia.
Qed.

Lemma scatter_proc_wp root ranges P n p buf v (Q : list T * list T -> Prop) :
  ranges_ok ranges P n -> 0 <= p < P -> zlen root = n -> zlen buf = n -> (p = 0 -> buf = root) -> znth 0 ranges (p + 1) - znth 0 ranges p <= zlen v ->
  (forall buf' v', zlen buf' = n -> zlen v' = zlen v -> (forall k, 0 <= k < znth 0 ranges (p + 1) - znth 0 ranges p -> znth s0 v' k = znth s0 root (znth 0 ranges p + k)) ->
     Q (buf', v')) ->
  wp (scatter_proc root ranges p buf v) Q.
Proof.
  intros HR Hp Hr Hb H0 Hv HQ. pose proof (ranges_mono ranges P n 0 p HR). pose proof (ranges_mono ranges P n p (p + 1) HR). pose proof (ranges_mono ranges P n (p + 1) P HR).
  destruct HR as (RP & RL & R0 & RN & RM). unfold scatter_proc. wrd 0; [lia|]. wrd 0; [lia|].
  destruct (Z.ltb_spec (zlen root) (znth 0 ranges (p + 1))); [lia|]. apply wp_bind.
  set (a := znth 0 ranges p) in *. set (b := znth 0 ranges (p + 1)) in *.
  assert (X : wp (if p =? 0 then Ok buf else splice buf a (section root a b)) (fun buf' => zlen buf' = n /\ forall q, a <= q < b -> znth s0 buf' q = znth s0 root q)).
  { destruct (Z.eqb_spec p 0).
    - apply wp_ok. rewrite <- H0 by auto. auto.
    - apply splice_wp; [lia|rewrite zlen_section by lia; lia|]. intros l L A B. rewrite zlen_section in A by lia. split; [lia|]. intros q Hq. rewrite A by lia. rewrite znth_section by lia. f_equal. lia. }
  eapply wp_mono; [exact X|]. intros buf' (L & A). cbv beta. apply wp_bind.
  apply (for_wp' (fun k v' => zlen v' = zlen v /\ forall q, 0 <= q < k -> znth s0 v' q = znth s0 root (a + q))); [lia| | |].
  - split; [auto|intros; lia].
  - intros k v' Hk (L' & A'). wrd s0; [lia|]. apply wp_wr; [lia|]. rewrite zlen_zupd. split; [auto|]. intros q Hq. rewrite znth_zupd by lia.
    destruct (Z.eqb_spec q k); [subst; rewrite A by lia; f_equal; lia|]. apply A'; lia.
  - intros v' (L' & A'). apply wp_ok. apply HQ; auto.
Qed.

Definition all_len (bufs : list (list T)) (n : Z) : Prop := forall p, 0 <= p < zlen bufs -> zlen (znth [] bufs p) = n.

Lemma scatter_wp ranges P n bufs vs (Q : list (list T) * list (list T) -> Prop) :
  ranges_ok ranges P n -> zlen bufs = P -> zlen vs = P -> all_len bufs n ->
  (forall p, 0 <= p < P -> znth 0 ranges (p + 1) - znth 0 ranges p <= zlen (znth [] vs p)) ->
  (forall bufs' vs', zlen bufs' = P -> zlen vs' = P -> all_len bufs' n -> (forall p, 0 <= p < P -> zlen (znth [] vs' p) = zlen (znth [] vs p)) ->
     (forall p k, 0 <= p < P -> 0 <= k < znth 0 ranges (p + 1) - znth 0 ranges p -> znth s0 (znth [] vs' p) k = znth s0 (znth [] bufs 0) (znth 0 ranges p + k)) -> Q (bufs', vs')) ->
  wp (vector_scatter ranges P bufs vs) Q.
Proof.
  intros HR Lb Lv AL HV HQ. assert (HP : 0 < P) by apply HR. unfold vector_scatter. wrd (@nil T); [lia|].
  apply (for_wp' (fun p bv => zlen (fst bv) = P /\ zlen (snd bv) = P /\ all_len (fst bv) n /\ (forall q, p <= q -> znth [] (fst bv) q = znth [] bufs q /\ znth [] (snd bv) q = znth [] vs q) /\
     (forall q, 0 <= q < P -> zlen (znth [] (snd bv) q) = zlen (znth [] vs q)) /\
     (forall q k, 0 <= q < p -> 0 <= k < znth 0 ranges (q + 1) - znth 0 ranges q -> znth s0 (znth [] (snd bv) q) k = znth s0 (znth [] bufs 0) (znth 0 ranges q + k)))); [lia| | |].
  - cbn [fst snd]. split; [auto|]. split; [auto|]. split; [auto|]. split; [auto|]. split; [auto|intros; lia].
  - intros p [bs ws] Hp (H1 & H2 & H3 & H4 & H5 & H6). cbn [fst snd] in *. wrd (@nil T); [lia|]. wrd (@nil T); [lia|]. apply wp_bind.
    destruct (H4 p ltac:(lia)) as (E1 & E2). rewrite E1, E2.
    eapply (scatter_proc_wp _ _ P n); [exact HR|lia|apply AL; lia|apply AL; lia|intros ->; auto|apply HV; lia|].
    intros buf' v' L1 L2 A. wwr; [lia|]. wwr; [lia|]. apply wp_ok. cbn [fst snd]. rewrite !zlen_zupd. split; [auto|]. split; [auto|].
    split. { intros q Hq. rewrite zlen_zupd in Hq. rewrite znth_zupd by lia. destruct (Z.eqb_spec q p); auto. }
    split. { intros q Hq. rewrite !znth_zupd by lia. destruct (Z.eqb_spec q p); [lia|]. apply H4. lia. }
    split. { intros q Hq. rewrite znth_zupd by lia. destruct (Z.eqb_spec q p); [subst; auto|]. auto. }
    intros q k Hq Hk. rewrite znth_zupd by lia. destruct (Z.eqb_spec q p); [subst; auto|]. apply H6; lia.
  - intros [bs ws] (H1 & H2 & H3 & H4 & H5 & H6). cbn [fst snd] in *. apply HQ; auto.
Qed.

Lemma gather_wp ranges P n bufs vs g (Q : list (list T) -> Prop) :
  ranges_ok ranges P n -> zlen bufs = P -> zlen vs = P -> all_len bufs n -> zlen g = n ->
  (forall p, 0 <= p < P -> znth 0 ranges (p + 1) - znth 0 ranges p <= zlen (znth [] vs p)) ->
  (forall p k, 0 <= p < P -> 0 <= k < znth 0 ranges (p + 1) - znth 0 ranges p -> znth s0 (znth [] vs p) k = znth s0 g (znth 0 ranges p + k)) ->
  (forall bufs', zlen bufs' = P -> (forall p, 0 <= p < P -> znth [] bufs' p = g) -> Q bufs') ->
  wp (vector_gather ranges P bufs vs) Q.
Proof.
  intros HR Lb Lv AL Lg HV HG HQ. assert (HP : 0 < P) by apply HR. unfold vector_gather. apply wp_bind.
  assert (RR : forall p, 0 <= p < P -> 0 <= znth 0 ranges p <= znth 0 ranges (p + 1) /\ znth 0 ranges (p + 1) <= n).
  { intros p Hp. pose proof (ranges_mono ranges P n 0 p HR ltac:(lia) ltac:(lia)). pose proof (ranges_mono ranges P n p (p + 1) HR ltac:(lia) ltac:(lia)). pose proof (ranges_mono ranges P n (p + 1) P HR ltac:(lia) ltac:(lia)).
    destruct HR as (RP & RL & R0 & RN & RM). lia. }
  assert (RL : zlen ranges = P + 1) by apply HR. assert (R0 : znth 0 ranges 0 = 0) by apply HR. assert (RN : znth 0 ranges P = n) by apply HR.
  apply (for_wp' (fun p bs => zlen bs = P /\ all_len bs n /\ (forall q, p <= q -> znth [] bs q = znth [] bufs q) /\
     (forall q k, 0 <= q < p -> znth 0 ranges q <= k < znth 0 ranges (q + 1) -> znth s0 (znth [] bs q) k = znth s0 g k))); [lia| | |].
  - split; [auto|]. split; [auto|]. split; [auto|intros; lia].
  - intros p bs Hp (H1 & H2 & H3 & H4). wrd (@nil T); [lia|]. wrd (@nil T); [lia|]. apply wp_bind. unfold gather_local. wrd 0; [lia|]. wrd 0; [lia|].
    destruct (RR p Hp) as (R1 & R2). pose proof (HV p Hp). pose proof (H2 p ltac:(lia)) as LP.
    apply (for_wp' (fun k b => zlen b = n /\ forall q, znth 0 ranges p <= q < znth 0 ranges p + k -> znth s0 b q = znth s0 g q)); [lia| | |].
    + split; [auto|intros; lia].
    + intros k b Hk (B1 & B2). wrd s0; [lia|]. apply wp_wr; [lia|]. rewrite zlen_zupd. split; [auto|]. intros q Hq. rewrite znth_zupd by lia.
      destruct (Z.eqb_spec q (k + znth 0 ranges p)); [subst; rewrite HG by lia; f_equal; lia|]. apply B2; lia.
    + intros b (B1 & B2). apply wp_wr; [lia|]. rewrite zlen_zupd. split; [auto|].
      split. { intros q Hq. rewrite zlen_zupd in Hq. rewrite znth_zupd by lia. destruct (Z.eqb_spec q p); auto. }
      split. { intros q Hq. rewrite znth_zupd by lia. destruct (Z.eqb_spec q p); [lia|]. apply H3. lia. }
      intros q k Hq Hk. rewrite znth_zupd by lia. destruct (Z.eqb_spec q p); [subst; apply B2; lia|]. apply H4; lia.
  - intros local (H1 & H2 & _ & H4).
    apply (for_wp' (fun p bs => zlen bs = P /\ all_len bs n /\ (forall q, 0 <= q < p -> znth [] bs q = g))); [lia| | |].
    + split; [auto|]. split; [auto|intros; lia].
    + intros p bs Hp (B1 & B2 & B3). wrd (@nil T); [lia|]. apply wp_bind. unfold allgather.
      apply (for_wp' (fun q b => zlen b = n /\ forall k, 0 <= k < znth 0 ranges q -> znth s0 b k = znth s0 g k)); [lia| | |].
      * split; [apply B2; lia|]. intros k Hk. lia.
      * intros q b Hq (C1 & C2). wrd 0; [lia|]. wrd 0; [lia|]. wrd (@nil T); [lia|]. rewrite (H2 q) by lia. destruct (RR q Hq) as (R1 & R2).
        destruct (Z.ltb_spec n (znth 0 ranges (q + 1))); [lia|].
        apply splice_wp; [lia|rewrite zlen_section by lia; lia|]. intros l L A B. rewrite zlen_section in A, B by lia. split; [lia|]. intros k Hk.
        destruct (Z.lt_ge_cases k (znth 0 ranges q)); [rewrite B by lia; apply C2; lia|]. rewrite A by lia. rewrite znth_section by lia.
        replace (znth 0 ranges q + (k - znth 0 ranges q)) with k by lia. apply H4; lia.
      * intros b (C1 & C2). apply wp_wr; [lia|]. rewrite zlen_zupd. split; [auto|].
        split. { intros q Hq. rewrite zlen_zupd in Hq. rewrite znth_zupd by lia. destruct (Z.eqb_spec q p); auto. }
        intros q Hq. rewrite znth_zupd by lia. destruct (Z.eqb_spec q p); [|apply B3; lia]. apply (list_ext s0); [lia|]. intros i Hi. apply C2. lia.
    + intros bs (B1 & B2 & B3). apply HQ; auto.
Qed.

Lemma values2_values flag count value : 0 <= count -> forall f i v, 0 <= i ->
  values2_loop f flag count i value v = values_loop f flag count i (zrange 0 count) value v.
Proof.
  intros Hc. induction f as [|f IH]; intros i v Hi; [reflexivity|]. cbn [values2_loop values_loop].
  destruct (Z.ltb_spec i count); [|reflexivity]. rewrite (rd_ok 0) by (rewrite zlen_zrange; lia). cbn [bind]. rewrite znth_zrange by lia. rewrite Z.add_0_l. cbv zeta.
  destruct (_ || _); [reflexivity|]. destruct (rd value i); cbn [bind]; [|reflexivity|reflexivity].
  destruct (rd (l_value v) _); cbn [bind]; [|reflexivity|reflexivity]. destruct (wr (l_value v) _ _); cbn [bind]; [|reflexivity|reflexivity]. apply IH. lia.
Qed.

(** swap, one iteration after the other *)
Definition swap_body (x y : vec) (i : Z) : prog T :=
  Read (at_ y i) (fun a => Write shared_t a (Read (at_ x i) (fun b => Write (at_ y i) b (Read shared_t (fun c => Write (at_ x i) c Done))))).
Lemma swap_serial x y s : 0 <= v_arr x -> 0 <= v_arr y -> 0 <= v_n x ->
  let s' := run (ser_for (v_n x) (swap_body x y)) s in
  (forall i, 0 <= i < v_n x -> s' (at_ x i) = s (at_ y i) /\ s' (at_ y i) = s (at_ x i)) /\
  (forall c, c <> shared_t -> (forall i, 0 <= i < v_n x -> c <> at_ x i /\ c <> at_ y i) -> s' c = s c).
Proof.
  intros Hx Hy Hn.
  assert (NT : forall v i, 0 <= v_arr v -> at_ v i <> shared_t) by (intros v i Hv E; inversion E; lia).
  assert (G : forall v w i j, i <> j -> at_ v i <> at_ w j) by (intros v w i j Hij E; inversion E; lia).
  apply (ser_for_inv (v_n x) (swap_body x y) (fun k s' => (forall i, 0 <= i < k -> s' (at_ x i) = s (at_ y i) /\ s' (at_ y i) = s (at_ x i)) /\
     (forall c, c <> shared_t -> (forall i, 0 <= i < k -> c <> at_ x i /\ c <> at_ y i) -> s' c = s c))); [auto| |].
  - split; [intros; lia|auto].
  - intros k s' Hk (A & B). unfold swap_body. cbn [run].
    assert (Ex : s' (at_ x k) = s (at_ x k)) by (apply B; [auto|intros; split; apply G; lia]).
    assert (Ey : s' (at_ y k) = s (at_ y k)) by (apply B; [auto|intros; split; apply G; lia]).
    rewrite (put_other _ (at_ y k) _ shared_t) by (intros E; symmetry in E; revert E; apply NT; auto). rewrite put_same.
    rewrite (put_other _ shared_t _ (at_ x k)) by auto. rewrite Ex, Ey. split.
    + intros i Hi. destruct (Z.eq_dec i k) as [->|Hne].
      * split; [apply put_same|]. destruct (Z.eq_dec (v_arr x) (v_arr y)) as [E|E].
        -- assert (EE : at_ y k = at_ x k) by (unfold at_; congruence). rewrite EE. apply put_same.
        -- rewrite put_other by (intros EE; inversion EE; lia). apply put_same.
      * rewrite !put_other by auto. apply A. lia.
    + intros c Hc Hi. destruct (Hi k ltac:(lia)) as (H1 & H2). rewrite !put_other by auto. apply B; [auto|]. intros i Hi'. apply Hi. lia.
Qed.
End S.
