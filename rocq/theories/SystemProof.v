(** Proofs about System.v *)
Require Import ZArith List Bool Lia Permutation.
From Verif Require Import Base Items System SpecSystem.
Import ListNotations.
Open Scope Z_scope.

(** *** partition *)
Definition part_bound (n p id : Z) : Z := n / p * id + Z.min id (n mod p).

Lemma get_isie_eq id p n : 0 < p -> 0 <= n -> 0 <= id -> get_isie id p n = Ok (part_bound n p id, part_bound n p (id + 1)).
Proof.
  intros Hp Hn Hi. unfold get_isie, part_bound. destruct (Z.eqb_spec p 0); [lia|].
  rewrite Z.rem_mod_nonneg, Z.quot_div_nonneg by lia. destruct (Z.ltb_spec id (n mod p)).
  - rewrite !Z.min_l by lia. f_equal. f_equal; ring.
  - rewrite !Z.min_r by lia. f_equal. f_equal; ring.
Qed.

Lemma part_bound_0 n p : 0 < p -> 0 <= n -> part_bound n p 0 = 0.
Proof. intros. unfold part_bound. pose proof (Z.mod_pos_bound n p). lia. Qed.
Lemma part_bound_p n p : 0 < p -> 0 <= n -> part_bound n p p = n.
Proof. intros. unfold part_bound. pose proof (Z.mod_pos_bound n p). rewrite Z.min_r by lia. pose proof (Z.div_mod n p). lia. Qed.
Lemma part_bound_step n p id : 0 < p -> 0 <= n -> 0 <= id -> n / p <= part_bound n p (id + 1) - part_bound n p id <= n / p + 1.
Proof. intros. unfold part_bound. pose proof (Z.mod_pos_bound n p). lia. Qed.
Lemma part_bound_mono n p a b : 0 < p -> 0 <= n -> 0 <= a <= b -> part_bound n p a <= part_bound n p b.
Proof.
  intros Hp Hn H. unfold part_bound. pose proof (Z.div_pos n p Hn Hp).
  assert (n / p * a <= n / p * b) by (apply Z.mul_le_mono_nonneg_l; lia). lia.
Qed.
Lemma find_part (f : Z -> Z) p x : 0 <= p -> f 0 <= x -> x < f p -> exists k, 0 <= k < p /\ f k <= x < f (k + 1).
Proof.
  intros Hp. revert x. pattern p. apply natlike_ind; [| |exact Hp].
  - intros; lia.
  - clear p Hp. intros p Hp IH x H0 H1. unfold Z.succ in *. destruct (Z.lt_ge_cases x (f p)).
    + destruct (IH x H0 H) as (k & Hk & Hx). exists k. split; [lia|auto].
    + exists p. split; [lia|auto].
Qed.

(** *** ranges *)
Definition psum (ln : Z -> Z) (k : Z) : Z := fold_right Z.add 0 (map ln (zrange 0 k)).
Lemma psum_0 ln : psum ln 0 = 0. Proof. reflexivity. Qed.
Lemma fold_add_app l1 l2 : fold_right Z.add 0 (l1 ++ l2) = fold_right Z.add 0 l1 + fold_right Z.add 0 l2.
Proof. induction l1; cbn [app fold_right]; lia. Qed.
Lemma psum_succ ln k : 0 <= k -> psum ln (k + 1) = psum ln k + ln k.
Proof. intros. unfold psum. rewrite zrange_snoc by lia. rewrite map_app, fold_add_app. cbn [map fold_right]. lia. Qed.

Lemma ranges_create_wp nprocs gn ln my (Q : Z * Z * Z * Z * list Z -> Prop) :
  0 < nprocs -> 0 <= gn -> 0 <= my < nprocs -> (forall r, 0 <= r < nprocs -> 0 <= ln r) ->
  let b := if psum ln nprocs =? 0 then part_bound gn nprocs else psum ln in
  (forall tr, zlen tr = nprocs + 1 -> (forall r, 0 <= r <= nprocs -> znth 0 tr r = b r) ->
     Q (b (my + 1) - b my, b nprocs, b my, b (my + 1), tr)) ->
  wp (ranges_create nprocs gn ln my) Q.
Proof.
  intros Hp Hg Hm Hl b HQ. unfold ranges_create. fold (psum ln nprocs). cbv zeta. subst b.
  destruct (Z.eqb_spec (psum ln nprocs) 0).
  - rewrite get_isie_eq by lia. cbn [bind]. apply wp_bind.
    apply (for_wp' (fun i tr => zlen tr = nprocs + 1 /\ forall r, 1 <= r <= i -> znth 0 tr r = part_bound gn nprocs r)); [lia| | |].
    + rewrite zlen_alloc by lia. split; [auto|]. intros; lia.
    + intros i tr Hi (Lt & HT). rewrite get_isie_eq by lia. cbn [bind]. apply wp_wr; [lia|]. rewrite zlen_zupd. split; [auto|].
      intros r Hr. rewrite znth_zupd by lia. destruct (Z.eqb_spec r (i + 1)); [subst; auto|]. apply HT; lia.
    + intros tr (Lt & HT). wwr; [lia|]. apply wp_ok. rewrite (part_bound_p gn nprocs) in HQ by lia.
      apply HQ; [rewrite zlen_zupd; auto|]. intros r Hr. rewrite znth_zupd by lia.
      destruct (Z.eqb_spec r 0); [subst; rewrite part_bound_0; lia|]. apply HT; lia.
  - apply wp_bind.
    apply (for_wp' (fun i tr => zlen tr = nprocs + 1 /\ forall r, 1 <= r <= i -> znth 0 tr r = ln (r - 1))); [lia| | |].
    + rewrite zlen_alloc by lia. split; [auto|]. intros; lia.
    + intros i tr Hi (Lt & HT). apply wp_wr; [lia|]. rewrite zlen_zupd. split; [auto|].
      intros r Hr. rewrite znth_zupd by lia. destruct (Z.eqb_spec r (i + 1)); [subst; f_equal; lia|]. apply HT; lia.
    + intros tr (Lt & HT). wwr; [lia|]. apply wp_bind.
      apply (for_wp' (fun i tr => zlen tr = nprocs + 1 /\ (forall r, 0 <= r <= i -> znth 0 tr r = psum ln r) /\
               forall r, i < r <= nprocs -> znth 0 tr r = ln (r - 1))); [lia| | |].
      * rewrite zlen_zupd. split; [auto|]. split; intros r Hr; rewrite znth_zupd by lia.
        -- replace r with 0 by lia. reflexivity.
        -- destruct (Z.eqb_spec r 0); [lia|]. apply HT; lia.
      * intros i t Hi (L & H1 & H2). wrd 0; [lia|]. wrd 0; [lia|]. apply wp_wr; [lia|]. rewrite zlen_zupd. split; [auto|].
        split; intros r Hr; rewrite znth_zupd by lia.
        -- destruct (Z.eqb_spec r (i + 1)); [|apply H1; lia]. subst r. rewrite psum_succ by lia. rewrite (H1 i), (H2 (i + 1)) by lia.
           replace (i + 1 - 1) with i by lia. lia.
        -- destruct (Z.eqb_spec r (i + 1)); [lia|]. apply H2; lia.
      * intros t (L & H1 & _). wrd 0; [lia|]. wrd 0; [lia|]. wrd 0; [lia|]. apply wp_ok. rewrite !H1 by lia.
        replace (ln my) with (psum ln (my + 1) - psum ln my) by (rewrite psum_succ by lia; lia). apply HQ; auto.
Qed.

(** *** byte swap *)
Lemma bswap_wp k n buf (Q : list Z -> Prop) :
  0 < k -> 0 <= n -> n * k <= zlen buf ->
  (forall buf', zlen buf' = zlen buf ->
     (forall i b, 0 <= i < n -> 0 <= b < k -> znth 0 buf' (i * k + b) = znth 0 buf (i * k + (k - 1 - b))) ->
     (forall q, n * k <= q -> znth 0 buf' q = znth 0 buf q) -> Q buf') ->
  wp (bswap k k n buf) Q.
Proof.
  intros Hk Hn Hl HQ. unfold bswap.
  apply (for_wp' (fun i s => zlen s = zlen buf /\
     (forall i' b, 0 <= i' < i -> 0 <= b < k -> znth 0 s (i' * k + b) = znth 0 buf (i' * k + (k - 1 - b))) /\
     (forall q, i * k <= q -> znth 0 s q = znth 0 buf q))); [lia| | |].
  - split; [auto|]. split; [intros; lia|auto].
  - intros i s Hi (Ls & H1 & H2). assert (Hik : 0 <= i * k /\ i * k + k <= n * k) by nia. apply wp_bind.
    apply (for_wp' (fun b t => zlen t = b /\ forall q, 0 <= q < b -> znth 0 t q = znth 0 s (i * k + q))); [lia| | |].
    + split; [reflexivity|intros; lia].
    + intros b t Hb (Lt & Ht). wrd 0; [lia|]. apply wp_ok. rewrite zlen_app. change (zlen [znth 0 s (i * k + b)]) with 1. split; [lia|].
      intros q Hq. rewrite znth_app by lia. destruct (Z.ltb_spec q (zlen t)); [apply Ht; lia|].
      replace q with b by lia. replace (b - zlen t) with 0 by lia. reflexivity.
    + intros t (Lt & Ht).
      apply (for_wp' (fun b s' => zlen s' = zlen buf /\ (forall q, 0 <= q < b -> znth 0 s' (i * k + q) = znth 0 s (i * k + (k - 1 - q))) /\
          (forall q, q < i * k \/ i * k + b <= q -> znth 0 s' q = znth 0 s q))); [lia| | |].
      * split; [auto|]. split; [intros; lia|auto].
      * intros b s' Hb (Ls' & G1 & G2). wrd 0; [lia|]. apply wp_wr; [lia|]. rewrite zlen_zupd. split; [auto|]. split; intros q Hq; rewrite znth_zupd by lia.
        -- destruct (Z.eqb_spec (i * k + q) (i * k + b)); [|apply G1; lia]. rewrite Ht by lia. f_equal. lia.
        -- destruct (Z.eqb_spec q (i * k + b)); [lia|]. apply G2; lia.
      * intros s' (Ls' & G1 & G2). split; [auto|]. split.
        -- intros i' b Hi' Hb. destruct (Z.eq_dec i' i).
           ++ subst i'. rewrite G1 by lia. apply H2. lia.
           ++ assert (i' * k + k <= i * k) by nia. rewrite G2 by lia. apply H1; lia.
        -- intros q Hq. rewrite G2 by lia. apply H2. lia.
  - intros s (Ls & H1 & H2). apply HQ; auto.
Qed.

Lemma bswap_twice k n buf : 0 < k -> 0 <= n -> n * k <= zlen buf ->
  exists buf', bswap k k n buf = Ok buf' /\ bswap k k n buf' = Ok buf.
Proof.
  intros Hk Hn Hl.
  destruct (wp_inv _ _ (bswap_wp k n buf (fun b' => zlen b' = zlen buf /\
     (forall i b, 0 <= i < n -> 0 <= b < k -> znth 0 b' (i * k + b) = znth 0 buf (i * k + (k - 1 - b))) /\
     (forall q, n * k <= q -> znth 0 b' q = znth 0 buf q)) Hk Hn Hl ltac:(intros; cbv beta; auto 10))) as (b1 & E1 & L1 & A1 & B1).
  exists b1. split; [auto|].
  destruct (wp_inv _ _ (bswap_wp k n b1 (fun b' => zlen b' = zlen b1 /\
     (forall i b, 0 <= i < n -> 0 <= b < k -> znth 0 b' (i * k + b) = znth 0 b1 (i * k + (k - 1 - b))) /\
     (forall q, n * k <= q -> znth 0 b' q = znth 0 b1 q)) Hk Hn ltac:(lia) ltac:(intros; cbv beta; auto 10))) as (b2 & E2 & L2 & A2 & B2).
  rewrite E2. f_equal. apply (list_ext 0); [lia|]. intros q Hq. destruct (Z.lt_ge_cases q (n * k)).
  - pose proof (Z.div_mod q k ltac:(lia)). pose proof (Z.mod_pos_bound q k Hk). pose proof (Z.div_pos q k ltac:(lia) Hk).
    replace q with (q / k * k + q mod k) by lia. assert (q / k < n) by (apply Z.div_lt_upper_bound; lia).
    rewrite A2 by lia. rewrite A1 by lia. f_equal. lia.
  - rewrite B2, B1 by lia. auto.
Qed.

(** *** hash table *)
Definition hash_inv (m : Z -> option Z) (t : hashtable) : Prop :=
  zlen t = HASHTABLE_SIZE /\ forall k, 0 <= k -> chain_find (znth [] t (Z.rem k HASHTABLE_SIZE)) k = m k.

Lemma rem_bound k : 0 <= k -> 0 <= Z.rem k HASHTABLE_SIZE < HASHTABLE_SIZE.
Proof. intros. rewrite Z.rem_mod_nonneg by (auto; reflexivity). apply Z.mod_pos_bound. reflexivity. Qed.

Lemma hash_run_wp : forall ops done t (Q : hashtable -> Prop),
  Forall key_ok ops -> hash_inv (hash_spec done) t ->
  (forall t', hash_inv (hash_spec (done ++ ops)) t' -> Q t') -> wp (hash_run ops t) Q.
Proof.
  induction ops as [|o ops IH]; intros done t Q HF (Lt & HI) HQ.
  - apply wp_ok. apply HQ. rewrite app_nil_r. split; auto.
  - inversion HF; subst. replace (done ++ o :: ops) with ((done ++ [o]) ++ ops) in HQ by (rewrite <- app_assoc; reflexivity).
    destruct o as [k v|]; cbn [hash_run]; apply wp_bind.
    + cbn [key_ok] in H1. pose proof (rem_bound k H1) as Hb. unfold hash_set. wrd (@nil (Z * Z)); [lia|]. apply wp_wr; [lia|].
      apply (IH (done ++ [HSet k v])); auto. split; [rewrite zlen_zupd; auto|].
      intros k' Hk'. unfold hash_spec. rewrite fold_left_app. cbn [fold_left hash_spec_step]. fold (hash_spec done k').
      rewrite znth_zupd by lia. destruct (Z.eqb_spec k k').
      * subst k'. rewrite Z.eqb_refl. cbn [chain_find]. rewrite Z.eqb_refl. reflexivity.
      * destruct (Z.eqb_spec (Z.rem k' HASHTABLE_SIZE) (Z.rem k HASHTABLE_SIZE)) as [E|].
        -- cbn [chain_find]. destruct (Z.eqb_spec k k'); [contradiction|]. rewrite <- E. apply HI; auto.
        -- apply HI; auto.
    + unfold hash_clear. apply (for_wp' (fun i t => zlen t = HASHTABLE_SIZE /\ forall q, 0 <= q < i -> znth [] t q = [])); [discriminate| | |].
      * split; [auto|intros; lia].
      * intros i t' Hi (L & H). apply wp_wr; [lia|]. rewrite zlen_zupd. split; [auto|]. intros q Hq. rewrite znth_zupd by lia. destruct (Z.eqb_spec q i); auto. apply H; lia.
      * intros t' (L & H). apply (IH (done ++ [HClear])); auto. split; [auto|]. intros k Hk. rewrite H by (apply rem_bound; auto).
        unfold hash_spec. rewrite fold_left_app. reflexivity.
Qed.

Lemma hash_history ops : Forall key_ok ops ->
  exists t, hash_run ops hash_create = Ok t /\
    forall k, 0 <= k -> hash_search t k = Ok (hash_spec ops k) /\
      hash_get t k = Ok (match hash_spec ops k with Some v => v | None => 0 end).
Proof.
  intros HF. assert (H0 : hash_inv (hash_spec []) hash_create).
  { split; [apply zlen_alloc; discriminate|]. intros k Hk. unfold hash_create. rewrite znth_alloc by (apply rem_bound; auto). reflexivity. }
  destruct (wp_inv _ _ (hash_run_wp ops [] hash_create (hash_inv (hash_spec ops)) HF H0 ltac:(auto))) as (t & E & Lt & HI).
  exists t. split; [auto|]. intros k Hk. pose proof (rem_bound k Hk).
  assert (ES : hash_search t k = Ok (hash_spec ops k)). { unfold hash_search. rewrite (rd_ok []) by lia. cbn [bind]. rewrite HI; auto. }
  split; [auto|]. unfold hash_get. rewrite ES. reflexivity.
Qed.
