(** Proofs about Diag.v *)
Require Import ZArith List Bool Lia Permutation Ring Field.
From Verif Require Import Base Scalar Spec Items Fmt Diag.
Import ListNotations.
Open Scope Z_scope.

Section P.
Context {T : Type} {S : Scalar T}.

(** ** Loops *)
Lemma brk_nat_wp {A} (I : Z -> A -> Prop) k i body s (Q : A -> Prop) :
  I i s ->
  (forall j s, i <= j < i + Z.of_nat k -> I j s -> wp (body j s) (fun r : bool * A => if fst r then Q (snd r) else I (j + 1) (snd r))) ->
  (forall s, I (i + Z.of_nat k) s -> Q s) -> wp (brk_nat k i body s) Q.
Proof.
  revert i s; induction k; intros i s H0 Hs HQ; cbn [brk_nat].
  - apply wp_ok. apply HQ. replace (i + Z.of_nat 0) with i by lia. auto.
  - apply wp_bind. eapply wp_mono; [apply Hs; [lia|auto]|]. intros [b s'] H. cbn [fst snd] in H.
    destruct b; [apply wp_ok; auto|]. apply IHk; auto.
    + intros; apply Hs; [lia|auto].
    + intros; apply HQ. replace (i + Z.of_nat (Datatypes.S k)) with (i + 1 + Z.of_nat k) by lia. auto.
Qed.
Lemma for_brk_wp {A} (I : Z -> A -> Prop) lo hi body s (Q : A -> Prop) :
  lo <= hi -> I lo s ->
  (forall j s, lo <= j < hi -> I j s -> wp (body j s) (fun r : bool * A => if fst r then Q (snd r) else I (j + 1) (snd r))) ->
  (forall s, I hi s -> Q s) -> wp (for_brk lo hi body s) Q.
Proof.
  intros Hl H0 Hs HQ. unfold for_brk. apply (brk_nat_wp I); auto.
  - intros; apply Hs; [lia|auto].
  - replace (lo + Z.of_nat (Z.to_nat (hi - lo))) with hi by lia. auto.
Qed.

Lemma upd_wp (v : list T) k f (Q : list T -> Prop) : 0 <= k < zlen v -> Q (zupd v k (f (znth s0 v k))) -> wp (upd v k f) Q.
Proof. intros. unfold upd. wrd s0; [auto|]. wwr; auto. Qed.

(** every outer pass i changes exactly the positions k with P i k, to g i k v[k] *)
Definition pass (P : Z -> Prop) (g : Z -> T -> T) (v v' : list T) : Prop :=
  zlen v' = zlen v /\ (forall k, P k -> znth s0 v' k = g k (znth s0 v k)) /\ (forall k, ~ P k -> znth s0 v' k = znth s0 v k).

Lemma outer_upd n (P : Z -> Z -> Prop) (g : Z -> Z -> T -> T) body (v0 : list T) (Q : list T -> Prop) :
  0 <= n ->
  (forall i k, 0 <= i < n -> P i k \/ ~ P i k) ->
  (forall i j k, 0 <= i < n -> 0 <= j < n -> P i k -> P j k -> i = j) ->
  (forall i v, 0 <= i < n -> zlen v = zlen v0 -> wp (body i v) (pass (P i) (g i) v)) ->
  (forall v', zlen v' = zlen v0 -> (forall i k, 0 <= i < n -> P i k -> znth s0 v' k = g i k (znth s0 v0 k)) ->
     (forall k, (forall i, 0 <= i < n -> ~ P i k) -> znth s0 v' k = znth s0 v0 k) -> Q v') ->
  wp (for_ 0 n body v0) Q.
Proof.
  intros Hn Hdec Hd Hb HQ.
  apply (for_wp' (fun i v => zlen v = zlen v0 /\ (forall i' k, 0 <= i' < i -> P i' k -> znth s0 v k = g i' k (znth s0 v0 k)) /\
     (forall k, (forall i', 0 <= i' < i -> ~ P i' k) -> znth s0 v k = znth s0 v0 k))); auto.
  - split; [auto|]. split; intros; [lia|auto].
  - intros i v Hi (L & H1 & H2). eapply wp_mono; [apply Hb; auto|]. intros v' (L' & G1 & G2).
    split; [congruence|]. split.
    + intros i' k Hi' Hp. destruct (Z.eq_dec i' i) as [->|].
      * rewrite G1 by auto. f_equal. apply H2. intros j Hj Hpj. assert (j = i) by (apply (Hd j i k); auto; lia). lia.
      * rewrite G2; [apply H1; auto; lia|]. intro Hc. assert (i = i') by (apply (Hd i i' k); auto; lia). lia.
    + intros k Hk. rewrite G2; [apply H2; intros; apply Hk; lia|apply Hk; lia].
  - intros v (L & H1 & H2). apply HQ; auto.
Qed.

Lemma inner_upd base lo hi (g : Z -> T -> T) body (v0 : list T) (Q : list T -> Prop) :
  (forall i v, lo <= i < hi -> zlen v = zlen v0 -> wp (body i v) (fun v' => 0 <= base + i < zlen v /\ v' = zupd v (base + i) (g (base + i) (znth s0 v (base + i))))) ->
  (forall v', pass (fun k => base + lo <= k < base + hi) g v0 v' -> Q v') ->
  wp (for_ lo hi body v0) Q.
Proof.
  intros Hb HQ. destruct (Z.le_gt_cases lo hi) as [Hl|Hl].
  2:{ rewrite for_empty by lia. apply wp_ok, HQ. split; [auto|]. split; intros; [lia|auto]. }
  apply (for_wp' (fun i v => pass (fun k => base + lo <= k < base + i) g v0 v)); auto.
  - split; [auto|]. split; intros; [lia|auto].
  - intros i v Hi (L & H1 & H2). eapply wp_mono; [apply Hb; auto|]. intros v' (B & ->).
    split; [len|]. split; intros k Hk.
    + rewrite znth_zupd by lia. destruct (Z.eqb_spec k (base + i)); [|apply H1; lia].
      subst k. f_equal. apply H2. lia.
    + rewrite znth_zupd by lia. destruct (Z.eqb_spec k (base + i)); [lia|]. apply H2. lia.
Qed.

Lemma seg_map {B} n (lo hi : Z -> Z) (f f' : Z -> Z -> B) (h : B -> B) :
  (forall i k, 0 <= i < n -> lo i <= k < hi i -> f' i k = h (f i k)) ->
  flat_map (fun i => map (f' i) (zrange (lo i) (hi i))) (zrange 0 n) = map h (flat_map (fun i => map (f i) (zrange (lo i) (hi i))) (zrange 0 n)).
Proof.
  intros H. rewrite map_flat_map. apply flat_map_ext_in. intros i Hi. apply In_zrange in Hi. rewrite map_map. apply map_ext_in.
  intros k Hk. apply In_zrange in Hk. auto.
Qed.

Lemma ptr_disj n p i j k : ptr_ok n p -> 0 <= i < n -> 0 <= j < n ->
  znth 0 p i <= k < znth 0 p (i + 1) -> znth 0 p j <= k < znth 0 p (j + 1) -> i = j.
Proof.
  intros Hp Hi Hj H1 H2. destruct (Z.lt_trichotomy i j) as [H|[H|H]]; auto.
  - pose proof (ptr_ok_mono n p (i + 1) j Hp ltac:(lia) ltac:(lia)). lia.
  - pose proof (ptr_ok_mono n p (j + 1) i Hp ltac:(lia) ltac:(lia)). lia.
Qed.
Lemma ptr_pos n p i : ptr_ok n p -> 0 <= i <= n -> 0 <= znth 0 p i <= znth 0 p n.
Proof.
  intros Hp Hi. pose proof (ptr_ok_mono n p 0 i Hp ltac:(lia) ltac:(lia)).
  pose proof (ptr_ok_mono n p i n Hp ltac:(lia) ltac:(lia)). destruct Hp as (?&?&E&?). lia.
Qed.

(** ** scaling of the stored entries *)
Definition row_scaled (d : list T) (e : entry T) : entry T := (erow e, ecol e, smul (eval e) (znth s0 d (erow e))).
Definition sym_scaled (d : list T) (e : entry T) : entry T :=
  (erow e, ecol e, smul (eval e) (smul (znth s0 d (erow e)) (znth s0 d (ecol e)))).

Section Ring.
Hypothesis RT : is_ring S.
Let RT' : @ring_theory T s0 s1 sadd smul ssub sopp (@eq T) := RT.
Add Ring scalar_ring2 : RT'.

Lemma mul3 a b c : smul (smul a b) c = smul a (smul b c).
Proof. ring. Qed.


(** CSR / CSC: loops over ptr segments *)
Lemma seg_loop n p (g : Z -> Z -> T -> T) (body : Z -> Z -> list T -> res (list T)) (v0 : list T) (Q : list T -> Prop) :
  ptr_ok n p -> znth 0 p n <= zlen v0 ->
  (forall i j v, 0 <= i < n -> znth 0 p i <= j < znth 0 p (i + 1) -> 0 <= j < znth 0 p n -> zlen v = zlen v0 ->
     wp (body i j v) (fun v' => v' = zupd v j (g i j (znth s0 v j)))) ->
  (forall v', zlen v' = zlen v0 -> (forall i k, 0 <= i < n -> znth 0 p i <= k < znth 0 p (i + 1) -> znth s0 v' k = g i k (znth s0 v0 k)) -> Q v') ->
  wp (for_ 0 n (fun i v => js <- rd p i ;; je <- rd p (i + 1) ;; for_ js je (body i) v) v0) Q.
Proof.
  intros Hp HL Hb HQ. pose proof Hp as (Hn & Hlp & _ & Hm).
  apply (outer_upd n (fun i k => znth 0 p i <= k < znth 0 p (i + 1)) g); auto.
  - intros; lia.
  - intros i j k Hi Hj. apply (ptr_disj n); auto.
  - intros i v Hi HLv. wrd 0; [lia|]. wrd 0; [lia|].
    pose proof (ptr_pos n p i Hp ltac:(lia)). pose proof (ptr_pos n p (i + 1) Hp ltac:(lia)).
    apply (inner_upd 0 _ _ (g i)); auto.
    intros j w Hj HLw. eapply wp_mono; [apply Hb; auto; try lia|]. intros v' ->. cbn [Z.add]. split; [lia|auto].
Qed.

Lemma scale_csr_core (A : csr T) d : csr_ok A -> csr_n A <= zlen d ->
  exists A', scale_csr A d = Ok A' /\ csr_entries A' = map (row_scaled d) (csr_entries A) /\ csr_ok A' /\ csr_n A' = csr_n A /\ csr_np A' = csr_np A.
Proof.
  intros (Hp & Hnp & Hz & Hi & Hv & Hx) Hd. apply wp_inv. unfold scale_csr. wbind.
  apply (seg_loop _ _ (fun i _ a => smul a (znth s0 d i))); auto; [lia| |].
  - intros i j v Hi' Hj Hj' HL. wrd s0; [lia|]. apply upd_wp; [lia|auto].
  - intros v' HL H. apply wp_ok. split; [|split; [repeat split; cbn; auto; try apply Hp; try apply Hx; auto; lia|auto]].
    unfold csr_entries. cbn [csr_n csr_ptr csr_index csr_value]. apply seg_map. intros i k Hi' Hk. rewrite (H i k) by auto. reflexivity.
Qed.
Lemma scale_symm_csr_core (A : csr T) d : csr_ok A -> csr_np A <= zlen d ->
  exists A', scale_symm_csr A d = Ok A' /\ csr_entries A' = map (sym_scaled d) (csr_entries A) /\ csr_ok A' /\ csr_n A' = csr_n A /\ csr_np A' = csr_np A.
Proof.
  intros (Hp & Hnp & Hz & Hi & Hv & Hx) Hd. apply wp_inv. unfold scale_symm_csr. wbind.
  apply (seg_loop _ _ (fun i j a => smul (smul a (znth s0 d i)) (znth s0 d (znth 0 (csr_index A) j)))); auto; [lia| |].
  - intros i j v Hi' Hj Hj' HL. wrd s0; [lia|]. wrd 0; [lia|]. pose proof (Hx j ltac:(lia)). wrd s0; [lia|]. apply upd_wp; [lia|auto].
  - intros v' HL H. apply wp_ok. split; [|split; [repeat split; cbn; auto; try apply Hp; try apply Hx; auto; lia|auto]].
    unfold csr_entries. cbn [csr_n csr_ptr csr_index csr_value]. apply seg_map. intros i k Hi' Hk. rewrite (H i k) by auto.
    unfold sym_scaled, erow, ecol, eval; cbn [fst snd]. rewrite mul3. reflexivity.
Qed.
Lemma scale_csc_core (A : csc T) d : csc_ok A -> csc_n A <= zlen d ->
  exists A', scale_csc A d = Ok A' /\ csc_entries A' = map (row_scaled d) (csc_entries A) /\ csc_ok A' /\ csc_n A' = csc_n A /\ csc_np A' = csc_np A.
Proof.
  intros (Hp & Hnp & Hz & Hi & Hv & Hx) Hd. apply wp_inv. unfold scale_csc. wbind.
  apply (seg_loop _ _ (fun i j a => smul a (znth s0 d (znth 0 (csc_index A) j)))); auto; [lia| |].
  - intros i j v Hi' Hj Hj' HL. wrd 0; [lia|]. pose proof (Hx j ltac:(lia)). wrd s0; [lia|]. apply upd_wp; [lia|auto].
  - intros v' HL H. apply wp_ok. split; [|split; [repeat split; cbn; auto; try apply Hp; try apply Hx; auto; lia|auto]].
    unfold csc_entries. cbn [csc_np csc_ptr csc_index csc_value]. apply seg_map. intros i k Hi' Hk. rewrite (H i k) by auto. reflexivity.
Qed.
Lemma scale_symm_csc_core (A : csc T) d : csc_ok A -> csc_np A <= zlen d ->
  exists A', scale_symm_csc A d = Ok A' /\ csc_entries A' = map (sym_scaled d) (csc_entries A) /\ csc_ok A' /\ csc_n A' = csc_n A /\ csc_np A' = csc_np A.
Proof.
  intros (Hp & Hnp & Hz & Hi & Hv & Hx) Hd. apply wp_inv. unfold scale_symm_csc. wbind.
  apply (seg_loop _ _ (fun i j a => smul (smul a (znth s0 d i)) (znth s0 d (znth 0 (csc_index A) j)))); auto; [lia| |].
  - intros i j v Hi' Hj Hj' HL. wrd s0; [lia|]. wrd 0; [lia|]. pose proof (Hx j ltac:(lia)). wrd s0; [lia|]. apply upd_wp; [lia|auto].
  - intros v' HL H. apply wp_ok. split; [|split; [repeat split; cbn; auto; try apply Hp; try apply Hx; auto; lia|auto]].
    unfold csc_entries. cbn [csc_np csc_ptr csc_index csc_value]. apply seg_map. intros i k Hi' Hk. rewrite (H i k) by auto.
    unfold sym_scaled, erow, ecol, eval; cbn [fst snd]. f_equal. ring.
Qed.

(** COO *)
Lemma coo_loop (A : coo T) (g : Z -> T -> T) body (Q : list T -> Prop) : coo_ok A ->
  (forall k v, 0 <= k < coo_nnz A -> zlen v = zlen (coo_value A) -> wp (body k v) (fun v' => v' = zupd v k (g k (znth s0 v k)))) ->
  (forall v', zlen v' = zlen (coo_value A) -> (forall k, 0 <= k < coo_nnz A -> znth s0 v' k = g k (znth s0 (coo_value A) k)) -> Q v') ->
  wp (for_ 0 (coo_nnz A) body (coo_value A)) Q.
Proof.
  intros (Hn & Hz & Hr & Hc & Hv & Hx) Hb HQ. apply (inner_upd 0 _ _ g); auto.
  - intros k v Hk HL. eapply wp_mono; [apply Hb; auto|]. intros v' ->. cbn [Z.add]. split; [lia|auto].
  - intros v' (L & H1 & H2). apply HQ; auto.
Qed.
Lemma scale_coo_core (A : coo T) d : coo_ok A -> coo_n A <= zlen d ->
  exists A', scale_coo A d = Ok A' /\ coo_entries A' = map (row_scaled d) (coo_entries A) /\ coo_ok A' /\ coo_n A' = coo_n A /\ coo_np A' = coo_np A.
Proof.
  intros HA Hd. pose proof HA as (Hn & Hz & Hr & Hc & Hv & Hx). apply wp_inv. unfold scale_coo. wbind.
  apply (coo_loop A (fun k a => smul a (znth s0 d (znth 0 (coo_row A) k)))); auto.
  - intros k v Hk HL. pose proof (Hx k Hk). wrd 0; [lia|]. wrd s0; [lia|]. apply upd_wp; [lia|auto].
  - intros v' HL H. apply wp_ok. split; [|split; [|auto]].
    + unfold coo_entries. cbn [coo_nnz coo_row coo_col coo_value]. rewrite map_map. apply map_ext_in. intros k Hk. apply In_zrange in Hk. rewrite H by auto. reflexivity.
    + unfold coo_ok; cbn [coo_n coo_np coo_nnz coo_row coo_col coo_value]. rewrite HL. auto.
Qed.
Lemma scale_symm_coo_core (A : coo T) d : coo_ok A -> coo_n A <= zlen d ->
  exists A', scale_symm_coo A d = Ok A' /\
    coo_entries A' = map (fun e : entry T => (erow e, ecol e, smul (eval e) (smul (znth s0 d (erow e)) (znth s0 d (erow e)))) : entry T) (coo_entries A).
Proof.
  intros HA Hd. pose proof HA as (Hn & Hz & Hr & Hc & Hv & Hx). apply wp_inv. unfold scale_symm_coo. wbind.
  apply (coo_loop A (fun k a => smul a (smul (znth s0 d (znth 0 (coo_row A) k)) (znth s0 d (znth 0 (coo_row A) k))))); auto.
  - intros k v Hk HL. pose proof (Hx k Hk). wrd 0; [lia|]. wrd 0; [lia|]. wrd s0; [lia|]. wrd s0; [lia|]. apply upd_wp; [lia|auto].
  - intros v' HL H. apply wp_ok.
    unfold coo_entries. cbn [coo_nnz coo_row coo_col coo_value]. rewrite map_map. apply map_ext_in. intros k Hk. apply In_zrange in Hk. rewrite H by auto. reflexivity.
Qed.

(** column-of-n formats: ELL, DNS, DIA *)
Lemma rect_loop n m (lo hi : Z -> Z) (g : Z -> Z -> T -> T) (body : Z -> Z -> list T -> res (list T)) (v0 : list T) (Q : list T -> Prop) :
  0 <= n -> 0 <= m -> n * m <= zlen v0 -> (forall j, 0 <= j < m -> 0 <= lo j /\ hi j <= n) ->
  (forall j i v, 0 <= j < m -> lo j <= i < hi j -> 0 <= i < n -> 0 <= j * n + i < zlen v -> zlen v = zlen v0 ->
     wp (body j i v) (fun v' => v' = zupd v (j * n + i) (g j i (znth s0 v (j * n + i))))) ->
  (forall v', zlen v' = zlen v0 -> (forall j i, 0 <= j < m -> lo j <= i < hi j -> znth s0 v' (j * n + i) = g j i (znth s0 v0 (j * n + i))) -> Q v') ->
  wp (for_ 0 m (fun j v => for_ (lo j) (hi j) (body j) v) v0) Q.
Proof.
  intros Hn Hm HL Hr Hb HQ.
  apply (outer_upd m (fun j k => j * n + lo j <= k < j * n + hi j) (fun j k => g j (k - j * n))); auto.
  - intros; lia.
  - intros i j k Hi Hj H1 H2. pose proof (Hr i Hi). pose proof (Hr j Hj).
    destruct (mul_inj n i (k - i * n) j (k - j * n)); auto; lia.
  - intros j v Hj HLv. apply (inner_upd (j * n) _ _ (fun k => g j (k - j * n))); auto.
    intros i w Hi HLw. pose proof (Hr j Hj). pose proof (mul_range n m j i ltac:(lia) ltac:(lia)).
    eapply wp_mono; [apply Hb; auto; lia|]. intros v' ->. split; [lia|]. replace (j * n + i - j * n) with i by lia. auto.
  - intros v' L H _. apply HQ; auto. intros j i Hj Hi. rewrite (H j) by (auto; lia). replace (j * n + i - j * n) with i by lia. auto.
Qed.
Lemma rect_loop0 n m (g : Z -> Z -> T -> T) (body : Z -> Z -> list T -> res (list T)) (v0 : list T) (Q : list T -> Prop) :
  0 <= n -> 0 <= m -> n * m <= zlen v0 ->
  (forall j i v, 0 <= j < m -> 0 <= i < n -> 0 <= j * n + i < zlen v -> zlen v = zlen v0 ->
     wp (body j i v) (fun v' => v' = zupd v (j * n + i) (g j i (znth s0 v (j * n + i))))) ->
  (forall v', zlen v' = zlen v0 -> (forall j i, 0 <= j < m -> 0 <= i < n -> znth s0 v' (j * n + i) = g j i (znth s0 v0 (j * n + i))) -> Q v') ->
  wp (for_ 0 m (fun j v => for_ 0 n (body j) v) v0) Q.
Proof.
  intros Hn Hm HL Hb HQ. apply (rect_loop n m (fun _ => 0) (fun _ => n) g body); auto. intros; lia.
Qed.

Lemma scale_ell_core (A : ell T) d : ell_ok A -> ell_n A <= zlen d ->
  exists A', scale_ell A d = Ok A' /\ ell_entries A' = map (row_scaled d) (ell_entries A) /\ ell_ok A' /\ ell_n A' = ell_n A /\ ell_np A' = ell_np A.
Proof.
  intros (Hn & Hm & Hi & Hv & Hx) Hd. apply wp_inv. unfold scale_ell. wbind.
  apply (rect_loop0 _ _ (fun j i a => smul a (znth s0 d i))); auto; [lia| |].
  - intros j i v Hj Hi' Hb HL. wrd s0; [lia|]. apply upd_wp; [lia|auto].
  - intros v' HL H. apply wp_ok. split; [|split; [|auto]].
    + unfold ell_entries. cbn [ell_n ell_maxnzr ell_index ell_value].
      apply (seg_map _ (fun _ => 0) (fun _ => ell_n A)). intros j i Hj Hi'. rewrite (H j i) by auto. reflexivity.
    + unfold ell_ok; cbn [ell_n ell_np ell_maxnzr ell_index ell_value]. rewrite HL. auto.
Qed.
Lemma scale_symm_ell_core (A : ell T) d : ell_ok A -> ell_np A <= zlen d ->
  exists A', scale_symm_ell A d = Ok A' /\ ell_entries A' = map (sym_scaled d) (ell_entries A) /\ ell_ok A' /\ ell_n A' = ell_n A /\ ell_np A' = ell_np A.
Proof.
  intros (Hn & Hm & Hi & Hv & Hx) Hd. apply wp_inv. unfold scale_symm_ell. wbind.
  apply (rect_loop0 _ _ (fun j i a => smul a (smul (znth s0 d i) (znth s0 d (znth 0 (ell_index A) (j * ell_n A + i)))))); auto; [lia| |].
  - intros j i v Hj Hi' Hb HL. pose proof (mul_range (ell_n A) (ell_maxnzr A) j i ltac:(lia) ltac:(lia)).
    wrd s0; [lia|]. wrd 0; [lia|]. pose proof (Hx (j * ell_n A + i) ltac:(lia)). wrd s0; [lia|]. apply upd_wp; [lia|auto].
  - intros v' HL H. apply wp_ok. split; [|split; [|auto]].
    + unfold ell_entries. cbn [ell_n ell_maxnzr ell_index ell_value].
      apply (seg_map _ (fun _ => 0) (fun _ => ell_n A)). intros j i Hj Hi'. rewrite (H j i) by auto. reflexivity.
    + unfold ell_ok; cbn [ell_n ell_np ell_maxnzr ell_index ell_value]. rewrite HL. auto.
Qed.
Lemma scale_dns_core (A : dns T) d : dns_ok A -> dns_n A <= zlen d ->
  exists A', scale_dns A d = Ok A' /\ dns_entries A' = map (row_scaled d) (dns_entries A) /\ dns_ok A' /\ dns_n A' = dns_n A /\ dns_np A' = dns_np A.
Proof.
  intros (Hn & Hv) Hd. apply wp_inv. unfold scale_dns. wbind.
  apply (rect_loop0 _ _ (fun j i a => smul a (znth s0 d i))); auto; [lia|lia| |].
  - intros j i v Hj Hi' Hb HL. wrd s0; [lia|]. apply upd_wp; [lia|auto].
  - intros v' HL H. apply wp_ok. split; [|split; [|auto]].
    + unfold dns_entries. cbn [dns_n dns_np dns_value].
      apply (seg_map _ (fun _ => 0) (fun _ => dns_n A)). intros j i Hj Hi'. rewrite (H j i) by auto. reflexivity.
    + unfold dns_ok; cbn [dns_n dns_np dns_value]. rewrite HL. auto.
Qed.
Lemma scale_symm_dns_core (A : dns T) d : dns_ok A -> dns_np A <= zlen d ->
  exists A', scale_symm_dns A d = Ok A' /\ dns_entries A' = map (sym_scaled d) (dns_entries A) /\ dns_ok A' /\ dns_n A' = dns_n A /\ dns_np A' = dns_np A.
Proof.
  intros (Hn & Hv) Hd. apply wp_inv. unfold scale_symm_dns. wbind.
  apply (rect_loop0 _ _ (fun j i a => smul a (smul (znth s0 d i) (znth s0 d j)))); auto; [lia|lia| |].
  - intros j i v Hj Hi' Hb HL. wrd s0; [lia|]. wrd s0; [lia|]. apply upd_wp; [lia|auto].
  - intros v' HL H. apply wp_ok. split; [|split; [|auto]].
    + unfold dns_entries. cbn [dns_n dns_np dns_value].
      apply (seg_map _ (fun _ => 0) (fun _ => dns_n A)). intros j i Hj Hi'. rewrite (H j i) by auto. reflexivity.
    + unfold dns_ok; cbn [dns_n dns_np dns_value]. rewrite HL. auto.
Qed.
Lemma for_ext_in {A} lo hi (f g : Z -> A -> res A) s : (forall i s, lo <= i < hi -> f i s = g i s) -> for_ lo hi f s = for_ lo hi g s.
Proof.
  intros H. unfold for_. assert (G : forall k i s, lo <= i -> i + Z.of_nat k <= Z.max lo hi -> for_n k i f s = for_n k i g s).
  { induction k; intros i s' Hi Hk; cbn [for_n]; auto. rewrite H by lia. destruct (g i s'); cbn [bind]; auto. apply IHk; lia. }
  apply G; lia.
Qed.
Lemma scale_dia_core (A : dia T) d : dia_ok A -> dia_n A <= zlen d ->
  exists A', scale_dia A d = Ok A' /\ dia_entries A' = map (row_scaled d) (dia_entries A) /\ dia_ok A' /\ dia_n A' = dia_n A /\ dia_np A' = dia_np A.
Proof.
  intros (Hn & Hnp & Hm & Hi & Hv) Hd. apply wp_inv. unfold scale_dia. wbind.
  rewrite (for_ext_in 0 _ _ (fun j v => for_ (Z.max 0 (- znth 0 (dia_index A) j)) (Z.min (dia_n A) (dia_n A - znth 0 (dia_index A) j))
     (fun i v => di <- rd d i ;; upd v (j * dia_n A + i) (fun a => smul a di)) v))
    by (intros j v Hj; rewrite (rd_ok 0) by lia; reflexivity).
  apply (rect_loop (dia_n A) (dia_nnd A) (fun j => Z.max 0 (- znth 0 (dia_index A) j)) (fun j => Z.min (dia_n A) (dia_n A - znth 0 (dia_index A) j)) (fun j i a => smul a (znth s0 d i))); auto; [lia|intros; lia| |].
  - intros j i v Hj Hi' Hb Hb2 HL. wrd s0; [lia|]. apply upd_wp; [lia|auto].
  - intros v' HL H. apply wp_ok. split; [|split; [|auto]].
    + unfold dia_entries. cbn [dia_n dia_nnd dia_index dia_value].
      apply seg_map. intros j i Hj Hi'. rewrite (H j i) by auto. reflexivity.
    + unfold dia_ok; cbn [dia_n dia_np dia_nnd dia_index dia_value]. rewrite HL. auto.
Qed.
Lemma scale_symm_dia_core (A : dia T) d : dia_ok A -> dia_np A <= zlen d ->
  exists A', scale_symm_dia A d = Ok A' /\ dia_entries A' = map (sym_scaled d) (dia_entries A) /\ dia_ok A' /\ dia_n A' = dia_n A /\ dia_np A' = dia_np A.
Proof.
  intros (Hn & Hnp & Hm & Hi & Hv) Hd. apply wp_inv. unfold scale_symm_dia. wbind.
  rewrite (for_ext_in 0 _ _ (fun j v => for_ (Z.max 0 (- znth 0 (dia_index A) j)) (Z.min (dia_n A) (dia_n A - znth 0 (dia_index A) j))
     (fun i v => di <- rd d i ;; dj <- rd d (i + znth 0 (dia_index A) j) ;; upd v (j * dia_n A + i) (fun a => smul a (smul di dj))) v))
    by (intros j v Hj; rewrite (rd_ok 0) by lia; reflexivity).
  apply (rect_loop (dia_n A) (dia_nnd A) (fun j => Z.max 0 (- znth 0 (dia_index A) j)) (fun j => Z.min (dia_n A) (dia_n A - znth 0 (dia_index A) j))
     (fun j i a => smul a (smul (znth s0 d i) (znth s0 d (i + znth 0 (dia_index A) j))))); auto; [lia|intros; lia| |].
  - intros j i v Hj Hi' Hb Hb2 HL. wrd s0; [lia|]. wrd s0; [lia|]. apply upd_wp; [lia|auto].
  - intros v' HL H. apply wp_ok. split; [|split; [|auto]].
    + unfold dia_entries. cbn [dia_n dia_nnd dia_index dia_value].
      apply seg_map. intros j i Hj Hi'. rewrite (H j i) by auto. reflexivity.
    + unfold dia_ok; cbn [dia_n dia_np dia_nnd dia_index dia_value]. rewrite HL. auto.
Qed.

(** JAD *)
Lemma jad_perm_range (A : jad T) t : jad_ok A -> 0 <= t < jad_n A -> 0 <= znth 0 (jad_perm A) t < jad_n A.
Proof.
  intros (_ & _ & _ & _ & P & _) Ht. apply In_zrange. eapply Permutation_in; [exact P|]. apply in_map_iff. exists t. split; auto. apply In_zrange; auto.
Qed.
Lemma scale_jad_core (A : jad T) d : jad_ok A -> jad_n A <= zlen d ->
  exists A', scale_jad A d = Ok A' /\ jad_entries A' = map (row_scaled d) (jad_entries A) /\ jad_ok A' /\ jad_n A' = jad_n A /\ jad_np A' = jad_np A.
Proof.
  intros HA Hd. pose proof HA as (Hn & Hp & Hz & Hpl & HP & Hi & Hv & Hx & Hw). apply wp_inv. unfold scale_jad. wbind.
  pose proof Hp as (Hm0 & Hlp & _ & Hm).
  apply (outer_upd _ (fun i k => znth 0 (jad_ptr A) i <= k < znth 0 (jad_ptr A) (i + 1)) (fun j k a => smul a (znth s0 d (znth 0 (jad_perm A) (k - znth 0 (jad_ptr A) j))))); auto.
  - intros; lia.
  - intros i j k Hi' Hj. apply (ptr_disj (jad_maxnzr A)); auto.
  - intros i v Hi' HLv. wrd 0; [lia|]. wrd 0; [lia|].
    pose proof (ptr_pos _ _ i Hp ltac:(lia)). pose proof (ptr_pos _ _ (i + 1) Hp ltac:(lia)).
    apply (inner_upd 0 _ _ (fun k a => smul a (znth s0 d (znth 0 (jad_perm A) (k - znth 0 (jad_ptr A) i))))); auto.
    intros j w Hj HLw. specialize (Hw i Hi'). pose proof (jad_perm_range A (j - znth 0 (jad_ptr A) i) HA ltac:(lia)).
    wrd 0; [lia|]. wrd s0; [lia|]. apply upd_wp; [lia|]. cbn [Z.add]. split; [lia|auto].
  - intros v' HL H _. apply wp_ok. split; [|split; [|auto]].
    + unfold jad_entries. cbn [jad_maxnzr jad_perm jad_ptr jad_index jad_value].
      apply seg_map. intros j i Hj Hi'. rewrite (H j i) by auto. reflexivity.
    + unfold jad_ok; cbn [jad_n jad_np jad_nnz jad_maxnzr jad_perm jad_ptr jad_index jad_value]. rewrite HL. auto.
Qed.
Lemma scale_symm_jad_core (A : jad T) d : jad_ok A -> jad_np A <= zlen d ->
  exists A', scale_symm_jad A d = Ok A' /\ jad_entries A' = map (sym_scaled d) (jad_entries A) /\ jad_ok A' /\ jad_n A' = jad_n A /\ jad_np A' = jad_np A.
Proof.
  intros HA Hd. pose proof HA as (Hn & Hp & Hz & Hpl & HP & Hi & Hv & Hx & Hw). apply wp_inv. unfold scale_symm_jad. wbind.
  pose proof Hp as (Hm0 & Hlp & _ & Hm).
  apply (outer_upd _ (fun i k => znth 0 (jad_ptr A) i <= k < znth 0 (jad_ptr A) (i + 1))
     (fun j k a => smul a (smul (znth s0 d (znth 0 (jad_perm A) (k - znth 0 (jad_ptr A) j))) (znth s0 d (znth 0 (jad_index A) k))))); auto.
  - intros; lia.
  - intros i j k Hi' Hj. apply (ptr_disj (jad_maxnzr A)); auto.
  - intros i v Hi' HLv. wrd 0; [lia|]. wrd 0; [lia|].
    pose proof (ptr_pos _ _ i Hp ltac:(lia)). pose proof (ptr_pos _ _ (i + 1) Hp ltac:(lia)).
    apply (inner_upd 0 _ _ (fun k a => smul a (smul (znth s0 d (znth 0 (jad_perm A) (k - znth 0 (jad_ptr A) i))) (znth s0 d (znth 0 (jad_index A) k))))); auto.
    intros j w Hj HLw. specialize (Hw i Hi'). pose proof (jad_perm_range A (j - znth 0 (jad_ptr A) i) HA ltac:(lia)). pose proof (Hx j ltac:(lia)).
    wrd 0; [lia|]. wrd s0; [lia|]. wrd 0; [lia|]. wrd s0; [lia|]. apply upd_wp; [lia|]. cbn [Z.add]. split; [lia|auto].
  - intros v' HL H _. apply wp_ok. split; [|split; [|auto]].
    + unfold jad_entries. cbn [jad_maxnzr jad_perm jad_ptr jad_index jad_value].
      apply seg_map. intros j i Hj Hi'. rewrite (H j i) by auto. reflexivity.
    + unfold jad_ok; cbn [jad_n jad_np jad_nnz jad_maxnzr jad_perm jad_ptr jad_index jad_value]. rewrite HL. auto.
Qed.

(** MSR: diagonal slots and segments *)
Lemma msr_bounds (A : msr T) i : msr_ok A -> 0 <= i <= msr_n A ->
  msr_n A + 1 <= znth 0 (msr_index A) i <= znth 0 (msr_index A) (msr_n A).
Proof.
  intros (Hn & _ & _ & _ & _ & H0 & Hm & _) Hi.
  assert (G : forall k, 0 <= k -> forall i, 0 <= i -> i + k <= msr_n A -> znth 0 (msr_index A) i <= znth 0 (msr_index A) (i + k)).
  { intros k Hk; pattern k; apply natlike_ind; auto.
    - intros; replace (i0 + 0) with i0 by lia; lia.
    - intros x Hx IH i0 H1 H2. specialize (IH i0 ltac:(lia) ltac:(lia)). specialize (Hm (i0 + x) ltac:(lia)). replace (i0 + Z.succ x) with (i0 + x + 1) by lia. lia. }
  pose proof (G i ltac:(lia) 0 ltac:(lia) ltac:(lia)) as G1. pose proof (G (msr_n A - i) ltac:(lia) i ltac:(lia) ltac:(lia)) as G2.
  replace (0 + i) with i in G1 by lia. replace (i + (msr_n A - i)) with (msr_n A) in G2 by lia. lia.
Qed.
Lemma msr_disj (A : msr T) i j k : msr_ok A -> 0 <= i < msr_n A -> 0 <= j < msr_n A ->
  znth 0 (msr_index A) i <= k < znth 0 (msr_index A) (i + 1) -> znth 0 (msr_index A) j <= k < znth 0 (msr_index A) (j + 1) -> i = j.
Proof.
  intros HA Hi Hj H1 H2. pose proof HA as (Hn & _ & _ & _ & _ & H0 & Hm & _).
  assert (G : forall k, 0 <= k -> forall i, 0 <= i -> i + k <= msr_n A -> znth 0 (msr_index A) i <= znth 0 (msr_index A) (i + k)).
  { intros k0 Hk; pattern k0; apply natlike_ind; auto.
    - intros; replace (i0 + 0) with i0 by lia; lia.
    - intros x Hx IH i0 G1 G2. specialize (IH i0 ltac:(lia) ltac:(lia)). specialize (Hm (i0 + x) ltac:(lia)). replace (i0 + Z.succ x) with (i0 + x + 1) by lia. lia. }
  destruct (Z.lt_trichotomy i j) as [H|[H|H]]; auto.
  - pose proof (G (j - (i + 1)) ltac:(lia) (i + 1) ltac:(lia) ltac:(lia)) as G1. replace (i + 1 + (j - (i + 1))) with j in G1 by lia. lia.
  - pose proof (G (i - (j + 1)) ltac:(lia) (j + 1) ltac:(lia) ltac:(lia)) as G1. replace (j + 1 + (i - (j + 1))) with i in G1 by lia. lia.
Qed.
Lemma msr_scale_loop (A : msr T) (g : Z -> Z -> T -> T) (body : Z -> Z -> list T -> res (list T)) (Q : list T -> Prop) : msr_ok A ->
  (forall i j v, 0 <= i < msr_n A -> znth 0 (msr_index A) i <= j < znth 0 (msr_index A) (i + 1) -> msr_n A < j < znth 0 (msr_index A) (msr_n A) ->
     zlen v = zlen (msr_value A) -> wp (body i j v) (fun v' => v' = zupd v j (g i j (znth s0 v j)))) ->
  (forall v', zlen v' = zlen (msr_value A) -> (forall i, 0 <= i < msr_n A -> znth s0 v' i = s1) ->
     (forall i k, 0 <= i < msr_n A -> znth 0 (msr_index A) i <= k < znth 0 (msr_index A) (i + 1) -> znth s0 v' k = g i k (znth s0 (msr_value A) k)) -> Q v') ->
  wp (for_ 0 (msr_n A) (fun i v => v <- wr v i s1 ;; js <- rd (msr_index A) i ;; je <- rd (msr_index A) (i + 1) ;; for_ js je (body i) v) (msr_value A)) Q.
Proof.
  intros HA Hb HQ. pose proof HA as (Hn & Hz1 & Hz2 & Hi & Hv & H0 & Hm & Ht & Hx). pose proof (msr_bounds A (msr_n A) HA ltac:(lia)) as B0.
  apply (outer_upd _ (fun i k => k = i \/ znth 0 (msr_index A) i <= k < znth 0 (msr_index A) (i + 1)) (fun i k a => if k =? i then s1 else g i k a)); auto; [lia|intros; lia| | |].
  - intros i j k Hi' Hj [->|H1] [E|H2].
    + auto.
    + pose proof (msr_bounds A j HA ltac:(lia)). lia.
    + pose proof (msr_bounds A i HA ltac:(lia)). lia.
    + apply (msr_disj A i j k); auto.
  - intros i v Hi' HL. pose proof (msr_bounds A i HA ltac:(lia)). pose proof (msr_bounds A (i + 1) HA ltac:(lia)).
    wwr; [lia|]. wrd 0; [lia|]. wrd 0; [lia|].
    apply (inner_upd 0 _ _ (g i)).
    + intros j w Hj HLw. rewrite zlen_zupd in HLw. eapply wp_mono; [apply Hb; auto; lia|]. intros v' ->. cbn [Z.add]. split; [lia|auto].
    + intros v' (L & G1 & G2). rewrite zlen_zupd in L. split; [auto|]. split.
      * intros k [->|Hk].
        -- rewrite Z.eqb_refl, G2 by lia. rewrite znth_zupd_eq by lia. auto.
        -- destruct (Z.eqb_spec k i); [lia|]. rewrite G1 by lia. rewrite znth_zupd_neq by lia. auto.
      * intros k Hk. rewrite G2 by lia. rewrite znth_zupd_neq by lia. auto.
  - intros v' HL H _. apply HQ; auto.
    + intros i Hi'. rewrite (H i i) by auto. rewrite Z.eqb_refl. auto.
    + intros i k Hi' Hk. rewrite (H i k) by auto. destruct (Z.eqb_spec k i); auto. pose proof (msr_bounds A i HA ltac:(lia)). lia.
Qed.
Lemma msr_map (A : msr T) v' (h : entry T -> entry T) : msr_ok A ->
  (forall i, 0 <= i < msr_n A -> (i, i, znth s0 v' i) = h (i, i, znth s0 (msr_value A) i)) ->
  (forall i k, 0 <= i < msr_n A -> znth 0 (msr_index A) i <= k < znth 0 (msr_index A) (i + 1) ->
     (i, znth 0 (msr_index A) k, znth s0 v' k) = h (i, znth 0 (msr_index A) k, znth s0 (msr_value A) k)) ->
  msr_entries (mkMsr (msr_n A) (msr_np A) (msr_nnz A) (msr_ndz A) (msr_index A) v') = map h (msr_entries A).
Proof.
  intros HA H1 H2. unfold msr_entries; cbn [msr_n msr_index msr_value]. rewrite map_flat_map. apply flat_map_ext_in. intros i Hi. apply In_zrange in Hi.
  cbn [map]. f_equal; [auto|]. rewrite map_map. apply map_ext_in. intros k Hk. apply In_zrange in Hk. auto.
Qed.
Lemma scale_msr_core (A : msr T) d : msr_ok A -> msr_n A <= zlen d ->
  (forall i, 0 <= i < msr_n A -> smul (znth s0 (msr_value A) i) (znth s0 d i) = s1) ->
  exists A', scale_msr A d = Ok A' /\ msr_entries A' = map (row_scaled d) (msr_entries A) /\ msr_ok A' /\ msr_n A' = msr_n A /\ msr_np A' = msr_np A.
Proof.
  intros HA Hd H1. pose proof HA as (Hn & Hz1 & Hz2 & Hi & Hv & H0 & Hm & Ht & Hx). apply wp_inv. unfold scale_msr. wbind.
  apply (msr_scale_loop A (fun i j a => smul a (znth s0 d i))); auto.
  - intros i j v Hi' Hj Hb HL. wrd s0; [lia|]. apply upd_wp; [lia|auto].
  - intros v' HL G1 G2. apply wp_ok. split; [|split; [|auto]].
    + apply msr_map; auto.
      * intros i Hi'. unfold row_scaled, erow, ecol, eval; cbn [fst snd]. rewrite G1, H1 by auto. auto.
      * intros i k Hi' Hk. rewrite (G2 i k) by auto. reflexivity.
    + unfold msr_ok; cbn [msr_n msr_np msr_nnz msr_ndz msr_index msr_value]. rewrite HL. auto 20.
Qed.
Lemma scale_symm_msr_core (A : msr T) d : msr_ok A -> msr_np A <= zlen d ->
  (forall i, 0 <= i < msr_n A -> smul (znth s0 (msr_value A) i) (smul (znth s0 d i) (znth s0 d i)) = s1) ->
  exists A', scale_symm_msr A d = Ok A' /\ msr_entries A' = map (sym_scaled d) (msr_entries A) /\ msr_ok A' /\ msr_n A' = msr_n A /\ msr_np A' = msr_np A.
Proof.
  intros HA Hd H1. pose proof HA as (Hn & Hz1 & Hz2 & Hi & Hv & H0 & Hm & Ht & Hx). apply wp_inv. unfold scale_symm_msr. wbind.
  apply (msr_scale_loop A (fun i j a => smul (smul a (znth s0 d i)) (znth s0 d (znth 0 (msr_index A) j)))); auto.
  - intros i j v Hi' Hj Hb HL. pose proof (Hx j ltac:(lia)). wrd s0; [lia|]. wrd 0; [lia|]. wrd s0; [lia|]. apply upd_wp; [lia|auto].
  - intros v' HL G1 G2. apply wp_ok. split; [|split; [|auto]].
    + apply msr_map; auto.
      * intros i Hi'. unfold sym_scaled, erow, ecol, eval; cbn [fst snd]. rewrite G1, H1 by auto. auto.
      * intros i k Hi' Hk. rewrite (G2 i k) by auto. unfold sym_scaled, erow, ecol, eval; cbn [fst snd]. rewrite mul3. auto.
    + unfold msr_ok; cbn [msr_n msr_np msr_nnz msr_ndz msr_index msr_value]. rewrite HL. auto 20.
Qed.
End Ring.
End P.
