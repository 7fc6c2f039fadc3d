(** Proofs about Diag2.v: the diagonal of BSR and BSC matrices with square blocks, scaling
    of BSR and VBR matrices *)
Require Import ZArith List Bool Lia Permutation Ring Field.
From Verif Require Import Base Scalar Spec Items Fmt Diag Diag2 SpecDiag SpecDiag2 DiagProof DiagProof2 DiagProof3 DiagProof4.
Import ListNotations.
Open Scope Z_scope.

Section P.
Context {T : Type} {S : Scalar T}.

Lemma In_bsr_entries (A : bsr T) e : In e (bsr_entries A) <-> exists bi bj j i, 0 <= bi < bsr_nr A /\ znth 0 (bsr_bptr A) bi <= bj < znth 0 (bsr_bptr A) (bi + 1) /\
   0 <= j < bsr_bnc A /\ 0 <= i < bsr_bnr A /\
   e = (bi * bsr_bnr A + i, znth 0 (bsr_bindex A) bj * bsr_bnc A + j, znth s0 (bsr_value A) (bj * (bsr_bnr A * bsr_bnc A) + j * bsr_bnr A + i)).
Proof.
  unfold bsr_entries. rewrite in_flat_map. split.
  - intros (bi & Hbi & He). apply In_zrange in Hbi. apply in_flat_map in He. destruct He as (bj & Hbj & He). apply In_zrange in Hbj. apply in_flat_map in He. destruct He as (j & Hj & He). apply In_zrange in Hj.
    apply in_map_iff in He. destruct He as (i & <- & Hi). apply In_zrange in Hi. exists bi, bj, j, i. auto 10.
  - intros (bi & bj & j & i & H1 & H2 & H3 & H4 & ->). exists bi. split; [apply In_zrange; auto|]. apply in_flat_map. exists bj. split; [apply In_zrange; auto|]. apply in_flat_map. exists j. split; [apply In_zrange; auto|].
    apply in_map_iff. exists i. split; auto. apply In_zrange; auto.
Qed.
Lemma In_bsc_entries (A : bsc T) e : In e (bsc_entries A) <-> exists bi bj j i, 0 <= bi < bsc_nc A /\ znth 0 (bsc_bptr A) bi <= bj < znth 0 (bsc_bptr A) (bi + 1) /\
   0 <= j < bsc_bnc A /\ 0 <= i < bsc_bnr A /\
   e = (znth 0 (bsc_bindex A) bj * bsc_bnr A + i, bi * bsc_bnc A + j, znth s0 (bsc_value A) (bj * (bsc_bnr A * bsc_bnc A) + j * bsc_bnr A + i)).
Proof.
  unfold bsc_entries. rewrite in_flat_map. split.
  - intros (bi & Hbi & He). apply In_zrange in Hbi. apply in_flat_map in He. destruct He as (bj & Hbj & He). apply In_zrange in Hbj. apply in_flat_map in He. destruct He as (j & Hj & He). apply In_zrange in Hj.
    apply in_map_iff in He. destruct He as (i & <- & Hi). apply In_zrange in Hi. exists bi, bj, j, i. auto 10.
  - intros (bi & bj & j & i & H1 & H2 & H3 & H4 & ->). exists bi. split; [apply In_zrange; auto|]. apply in_flat_map. exists bj. split; [apply In_zrange; auto|]. apply in_flat_map. exists j. split; [apply In_zrange; auto|].
    apply in_map_iff. exists i. split; auto. apply In_zrange; auto.
Qed.

(** two blocks of one block row do not name the same block column *)
Lemma bsr_block_unique (A : bsr T) bi bj bj' : no_dup_pos (bsr_entries A) -> 0 < bsr_bnr A -> 0 < bsr_bnc A -> 0 <= bi < bsr_nr A ->
  znth 0 (bsr_bptr A) bi <= bj < znth 0 (bsr_bptr A) (bi + 1) -> znth 0 (bsr_bptr A) bi <= bj' < znth 0 (bsr_bptr A) (bi + 1) ->
  znth 0 (bsr_bindex A) bj = znth 0 (bsr_bindex A) bj' -> bj = bj'.
Proof.
  intros Hu Hr Hc Hbi H1 H2 E. destruct (Z.eq_dec bj bj') as [|Ne]; auto. exfalso. unfold no_dup_pos, bsr_entries in Hu. rewrite map_flat_map in Hu.
  eapply NoDup_flat_map_in in Hu; [|apply In_zrange; exact Hbi]. cbv beta in Hu. rewrite map_flat_map in Hu.
  eapply (NoDup_flat_map_disj _ _ bj bj' (bi * bsr_bnr A + 0, znth 0 (bsr_bindex A) bj * bsr_bnc A + 0) Hu); auto; try (apply In_zrange; auto); cbv beta.
  - apply in_map_iff. eexists. split; [|apply in_flat_map; exists 0; split; [apply In_zrange; lia|apply in_map_iff; exists 0; split; [reflexivity|apply In_zrange; lia]]]. reflexivity.
  - apply in_map_iff. eexists. split; [|apply in_flat_map; exists 0; split; [apply In_zrange; lia|apply in_map_iff; exists 0; split; [reflexivity|apply In_zrange; lia]]]. cbn [fst]. congruence.
Qed.
Lemma bsc_block_unique (A : bsc T) bi bj bj' : no_dup_pos (bsc_entries A) -> 0 < bsc_bnr A -> 0 < bsc_bnc A -> 0 <= bi < bsc_nc A ->
  znth 0 (bsc_bptr A) bi <= bj < znth 0 (bsc_bptr A) (bi + 1) -> znth 0 (bsc_bptr A) bi <= bj' < znth 0 (bsc_bptr A) (bi + 1) ->
  znth 0 (bsc_bindex A) bj = znth 0 (bsc_bindex A) bj' -> bj = bj'.
Proof.
  intros Hu Hr Hc Hbi H1 H2 E. destruct (Z.eq_dec bj bj') as [|Ne]; auto. exfalso. unfold no_dup_pos, bsc_entries in Hu. rewrite map_flat_map in Hu.
  eapply NoDup_flat_map_in in Hu; [|apply In_zrange; exact Hbi]. cbv beta in Hu. rewrite map_flat_map in Hu.
  eapply (NoDup_flat_map_disj _ _ bj bj' (znth 0 (bsc_bindex A) bj * bsc_bnr A + 0, bi * bsc_bnc A + 0) Hu); auto; try (apply In_zrange; auto); cbv beta.
  - apply in_map_iff. eexists. split; [|apply in_flat_map; exists 0; split; [apply In_zrange; lia|apply in_map_iff; exists 0; split; [reflexivity|apply In_zrange; lia]]]. reflexivity.
  - apply in_map_iff. eexists. split; [|apply in_flat_map; exists 0; split; [apply In_zrange; lia|apply in_map_iff; exists 0; split; [reflexivity|apply In_zrange; lia]]]. cbn [fst]. congruence.
Qed.
Lemma bsc_nr_nc (A : bsc T) : 0 < bsc_n A -> 0 < bsc_bnr A -> bsc_bnc A = bsc_bnr A -> (bsc_nc A - 1) * bsc_bnc A < bsc_n A <= bsc_nc A * bsc_bnc A -> bsc_nr A = bsc_nc A.
Proof.
  intros Hn Hb E H. unfold bsc_nr. rewrite E in H. assert (Q : (bsc_n A - 1) / bsc_bnr A = bsc_nc A - 1); [|lia].
  symmetry. apply (Z.div_unique _ _ _ (bsc_n A - 1 - (bsc_nc A - 1) * bsc_bnr A)); nia.
Qed.

Section Ring.
Hypothesis RT : is_ring S.
Let RT' : @ring_theory T s0 s1 sadd smul ssub sopp (@eq T) := RT.
Add Ring scalar_ring_d5 : RT'.

Lemma get_diagonal_bsr_wp (A : bsr T) d : bsr_ok A -> bsr_bnc A = bsr_bnr A -> bsr_n A <= zlen d -> no_dup_pos (bsr_entries A) ->
  exists d', get_diagonal_bsr A d = Ok d' /\ zlen d' = zlen d /\
    forall i, 0 <= i < bsr_n A -> znth s0 d' i = if has_diag (bsr_entries A) i then coef (bsr_entries A) i i else znth s0 d i.
Proof.
  intros (Hn & Hnp & Hr & Hc & Hnr & Hp & Hz & Hi & Hv & Hx & Hsh) Eb Hd Hu. unfold get_diagonal_bsr. rewrite Eb.
  apply (get_blocks (bsr_n A) (bsr_nr A) (bsr_bnr A)); auto; rewrite ?Hz; try lia.
  - intros bi bj k Hbi Hbj E Hk.
    assert (In (bi * bsr_bnr A + k, bi * bsr_bnr A + k, znth s0 (bsr_value A) (bj * (bsr_bnr A * bsr_bnr A) + k * bsr_bnr A + k)) (bsr_entries A)) as Hin.
    { apply In_bsr_entries. exists bi, bj, k, k. rewrite Eb, E. auto. }
    split; [|apply (coef_eq RT); auto]. apply has_diag_In, in_map_iff. eexists. split; [|exact Hin]. reflexivity.
  - intros bi k Hbi Hk Hno. apply not_true_is_false. intro Hh. apply has_diag_In, in_map_iff in Hh. destruct Hh as (e & Ee & He). apply In_bsr_entries in He.
    destruct He as (bi' & bj & j & i & H1 & H2 & H3 & H4 & ->). cbn [fst] in Ee. injection Ee as E1 E2. rewrite Eb in *.
    destruct (mul_inj (bsr_bnr A) bi' i bi k) as [-> ->]; auto. destruct (mul_inj (bsr_bnr A) (znth 0 (bsr_bindex A) bj) j bi k) as [E3 _]; auto. apply (Hno bj); auto.
Qed.
Lemma get_diagonal_bsc_wp (A : bsc T) d : bsc_ok A -> bsc_bnc A = bsc_bnr A -> bsc_n A <= zlen d -> no_dup_pos (bsc_entries A) ->
  exists d', get_diagonal_bsc A d = Ok d' /\ zlen d' = zlen d /\
    forall i, 0 <= i < bsc_n A -> znth s0 d' i = if has_diag (bsc_entries A) i then coef (bsc_entries A) i i else znth s0 d i.
Proof.
  intros (Hn & Hnp & Hr & Hc & Hnr & Hp & Hz & Hi & Hv & Hx & Hsh) Eb Hd Hu. unfold get_diagonal_bsc. rewrite bsc_nr_nc by auto. rewrite Eb in *.
  apply (get_blocks (bsc_n A) (bsc_nc A) (bsc_bnr A)); auto; rewrite ?Hz; try lia; auto.
  - intros bi bj k Hbi Hbj E Hk.
    assert (In (bi * bsc_bnr A + k, bi * bsc_bnr A + k, znth s0 (bsc_value A) (bj * (bsc_bnr A * bsc_bnr A) + k * bsc_bnr A + k)) (bsc_entries A)) as Hin.
    { apply In_bsc_entries. exists bi, bj, k, k. rewrite Eb, E. auto. }
    split; [|apply (coef_eq RT); auto]. apply has_diag_In, in_map_iff. eexists. split; [|exact Hin]. reflexivity.
  - intros bi k Hbi Hk Hno. apply not_true_is_false. intro Hh. apply has_diag_In, in_map_iff in Hh. destruct Hh as (e & Ee & He). apply In_bsc_entries in He.
    destruct He as (bi' & bj & j & i & H1 & H2 & H3 & H4 & ->). cbn [fst] in Ee. injection Ee as E1 E2. rewrite Eb in *.
    destruct (mul_inj (bsc_bnr A) bi' j bi k) as [-> ->]; auto. destruct (mul_inj (bsc_bnr A) (znth 0 (bsc_bindex A) bj) i bi k) as [E3 _]; auto. apply (Hno bj); auto.
Qed.

Definition shift_n (n : Z) (sigma : T) (e : entry T) : entry T := (erow e, ecol e, if (erow e =? ecol e) && (erow e <? n) then ssub (eval e) sigma else eval e).
Lemma coef_shift_n n (sigma : T) E : no_dup_pos E -> shifted_n n E (map (shift_n n sigma) E) sigma.
Proof.
  intros Hn i j Hi. rewrite <- (coef_shift RT sigma E Hn i j). induction E as [|e E IH]; cbn [map]; [reflexivity|].
  inversion Hn as [|x l Hx Hl]; subst. rewrite !coef_cons, IH by auto. change (at_ij i j (shift_n n sigma e)) with (at_ij i j e). change (at_ij i j (shift_e sigma e)) with (at_ij i j e).
  destruct (at_ij i j e) eqn:Ea; auto. f_equal. unfold shift_n, shift_e, eval at 1 3; cbn [snd]. apply at_ij_iff in Ea. assert (Er : erow e = i) by (unfold erow; rewrite Ea; auto). rewrite Er.
  replace (i <? n) with true by (symmetry; apply Z.ltb_lt; lia). rewrite andb_true_r. auto.
Qed.
Lemma nz_map_shape n np (h : entry T -> entry T) E : (forall e, erow (h e) = erow e /\ ecol (h e) = ecol e) -> (forall e, In e E -> ~ (0 <= erow e < n /\ 0 <= ecol e < np) -> eval e = s0 -> eval (h e) = s0) ->
  eqb_ok S ->
  in_shape n np (nz E) -> in_shape n np (nz (map h E)).
Proof.
  intros H1 H2 Hz Hs e He. apply filter_In in He. destruct He as [He Hne]. apply in_map_iff in He. destruct He as (e0 & <- & He0).
  destruct (H1 e0) as [-> ->].
  destruct (Z_le_gt_dec 0 (erow e0)), (Z_lt_ge_dec (erow e0) n), (Z_le_gt_dec 0 (ecol e0)), (Z_lt_ge_dec (ecol e0) np); try (split; lia).
  all: apply Hs; apply filter_In; split; auto; unfold nonzero in *; destruct (seqb (eval e0) s0) eqn:Es; auto; apply Hz in Es; apply H2 in Es; [|auto|lia]; apply Hz in Es; rewrite Es in Hne; auto.
Qed.

Lemma blocks_map nr (bptr : list Z) bnr bnc (f f' : Z -> Z -> Z -> Z -> entry T) (h : entry T -> entry T) :
  (forall bi bj j i, 0 <= bi < nr -> znth 0 bptr bi <= bj < znth 0 bptr (bi + 1) -> 0 <= j < bnc -> 0 <= i < bnr -> f' bi bj j i = h (f bi bj j i)) ->
  flat_map (fun bi => flat_map (fun bj => flat_map (fun j => map (fun i => f' bi bj j i) (zrange 0 bnr)) (zrange 0 bnc)) (zrange (znth 0 bptr bi) (znth 0 bptr (bi + 1)))) (zrange 0 nr) =
  map h (flat_map (fun bi => flat_map (fun bj => flat_map (fun j => map (fun i => f bi bj j i) (zrange 0 bnr)) (zrange 0 bnc)) (zrange (znth 0 bptr bi) (znth 0 bptr (bi + 1)))) (zrange 0 nr)).
Proof.
  intros H. rewrite map_flat_map. apply flat_map_ext_in. intros bi Hbi. apply In_zrange in Hbi. rewrite map_flat_map. apply flat_map_ext_in. intros bj Hbj. apply In_zrange in Hbj.
  rewrite map_flat_map. apply flat_map_ext_in. intros j Hj. apply In_zrange in Hj. rewrite map_map. apply map_ext_in. intros i Hi. apply In_zrange in Hi. auto.
Qed.

Lemma shift_diagonal_bsr_wp (A : bsr T) sigma : eqb_ok S -> bsr_ok A -> bsr_bnc A = bsr_bnr A -> no_dup_pos (bsr_entries A) ->
  exists A', shift_diagonal_bsr A sigma = Ok A' /\ bsr_ok A' /\ bsr_entries A' = map (shift_n (bsr_n A) sigma) (bsr_entries A).
Proof.
  intros Hq HA Eb Hu. pose proof HA as (Hn & Hnp & Hr & Hc & Hnr & Hp & Hz & Hi & Hv & Hx & Hsh).
  apply wp_inv. unfold shift_diagonal_bsr. rewrite Eb. wbind.
  apply (shift_blocks (bsr_n A) (bsr_nr A) (bsr_bnr A)); auto; rewrite ?Hz; try lia.
  { intros bi bj bj' Hbi H1 H2 H3. apply (bsr_block_unique A bi); auto. }
  intros v' L H. apply wp_ok.
  assert (EE : bsr_entries (mkBsr (bsr_n A) (bsr_np A) (bsr_bnr A) (bsr_bnr A) (bsr_nr A) (bsr_bnnz A) (bsr_bptr A) (bsr_bindex A) v') = map (shift_n (bsr_n A) sigma) (bsr_entries A)).
  { unfold bsr_entries; cbn [bsr_n bsr_np bsr_bnr bsr_bnc bsr_nr bsr_bnnz bsr_bptr bsr_bindex bsr_value]. rewrite Eb. apply blocks_map. intros bi bj j i Hbi Hbj Hj Hi'.
    rewrite (H bi bj j i) by auto. unfold shift_n, erow, ecol, eval; cbn [fst snd]. f_equal.
    destruct (Z.eqb_spec (znth 0 (bsr_bindex A) bj) bi) as [E1|E1]; cbn [andb].
    - rewrite E1. destruct (Z.eqb_spec i j) as [->|E2]; cbn [andb]; [rewrite Z.eqb_refl; auto|]. destruct (Z.eqb_spec (bi * bsr_bnr A + i) (bi * bsr_bnr A + j)); [lia|auto].
    - destruct (Z.eqb_spec (bi * bsr_bnr A + i) (znth 0 (bsr_bindex A) bj * bsr_bnr A + j)) as [E2|E2]; cbn [andb]; auto.
      destruct (mul_inj (bsr_bnr A) bi i (znth 0 (bsr_bindex A) bj) j); auto. congruence. }
  split; [|exact EE]. unfold bsr_ok. rewrite EE. cbn [bsr_n bsr_np bsr_bnr bsr_bnc bsr_nr bsr_bnnz bsr_bptr bsr_bindex bsr_value]. rewrite Eb in Hv, Hx. rewrite L.
  do 10 (split; [auto|]). apply nz_map_shape; auto. intros e Hin He E0. unfold shift_n, eval at 1; cbn [snd].
  destruct ((erow e =? ecol e) && (erow e <? bsr_n A)) eqn:Ec; auto. apply andb_prop in Ec. destruct Ec as [E1 E2]. apply Z.eqb_eq in E1. apply Z.ltb_lt in E2. rewrite Hnp in He.
  exfalso. apply In_bsr_entries in Hin. destruct Hin as (bi & bj & j & i & H1 & H2 & H3 & H4 & ->). unfold erow, ecol in *; cbn [fst snd] in *. nia.
Qed.
Lemma shift_diagonal_bsc_wp (A : bsc T) sigma : eqb_ok S -> bsc_ok A -> bsc_bnc A = bsc_bnr A -> no_dup_pos (bsc_entries A) ->
  exists A', shift_diagonal_bsc A sigma = Ok A' /\ bsc_ok A' /\ bsc_entries A' = map (shift_n (bsc_n A) sigma) (bsc_entries A).
Proof.
  intros Hq HA Eb Hu. pose proof HA as (Hn & Hnp & Hr & Hc & Hnr & Hp & Hz & Hi & Hv & Hx & Hsh).
  apply wp_inv. unfold shift_diagonal_bsc. rewrite bsc_nr_nc by auto. rewrite Eb. wbind. rewrite Eb in Hnr.
  apply (shift_blocks (bsc_n A) (bsc_nc A) (bsc_bnr A)); auto; rewrite ?Hz; try lia.
  { intros bi bj bj' Hbi H1 H2 H3. apply (bsc_block_unique A bi); auto. }
  intros v' L H. apply wp_ok.
  assert (EE : bsc_entries (mkBsc (bsc_n A) (bsc_np A) (bsc_bnr A) (bsc_bnr A) (bsc_nc A) (bsc_bnnz A) (bsc_bptr A) (bsc_bindex A) v') = map (shift_n (bsc_n A) sigma) (bsc_entries A)).
  { unfold bsc_entries; cbn [bsc_n bsc_np bsc_bnr bsc_bnc bsc_nc bsc_bnnz bsc_bptr bsc_bindex bsc_value]. rewrite Eb. apply blocks_map. intros bi bj j i Hbi Hbj Hj Hi'.
    rewrite (H bi bj j i) by auto. unfold shift_n, erow, ecol, eval; cbn [fst snd]. f_equal.
    destruct (Z.eqb_spec (znth 0 (bsc_bindex A) bj) bi) as [E1|E1]; cbn [andb].
    - rewrite E1. destruct (Z.eqb_spec i j) as [->|E2]; cbn [andb]; [rewrite Z.eqb_refl; auto|]. destruct (Z.eqb_spec (bi * bsc_bnr A + i) (bi * bsc_bnr A + j)); [lia|auto].
    - destruct (Z.eqb_spec (znth 0 (bsc_bindex A) bj * bsc_bnr A + i) (bi * bsc_bnr A + j)) as [E2|E2]; cbn [andb]; auto.
      destruct (mul_inj (bsc_bnr A) (znth 0 (bsc_bindex A) bj) i bi j); auto. congruence. }
  split; [|exact EE]. unfold bsc_ok. rewrite EE. cbn [bsc_n bsc_np bsc_bnr bsc_bnc bsc_nc bsc_bnnz bsc_bptr bsc_bindex bsc_value]. rewrite Eb in Hv. rewrite L.
  do 10 (split; [auto|]). apply nz_map_shape; auto. intros e Hin He E0. unfold shift_n, eval at 1; cbn [snd].
  destruct ((erow e =? ecol e) && (erow e <? bsc_n A)) eqn:Ec; auto. apply andb_prop in Ec. destruct Ec as [E1 E2]. apply Z.eqb_eq in E1. apply Z.ltb_lt in E2. rewrite Hnp in He.
  exfalso. apply In_bsc_entries in Hin. destruct Hin as (bi & bj & j & i & H1 & H2 & H3 & H4 & ->). unfold erow, ecol in *; cbn [fst snd] in *. nia.
Qed.

(** ** scaling: every block is rewritten once *)
Section Done.
Variable P : Z -> Z -> Prop. (* position p belongs to block bj *)
Variable g : Z -> Z -> Z -> T -> T. (* block row, block, position *)
Definition done (D : Z -> Z -> Prop) (v v' : list T) : Prop :=
  zlen v' = zlen v /\ (forall bi bj p, D bi bj -> P bj p -> znth s0 v' p = g bi bj p (znth s0 v p)) /\ (forall p, (forall bi bj, D bi bj -> ~ P bj p) -> znth s0 v' p = znth s0 v p).
Lemma done_none (D : Z -> Z -> Prop) v : (forall bi bj, ~ D bi bj) -> done D v v.
Proof. intros H. split; auto. split; auto. intros bi bj p HD. destruct (H bi bj HD). Qed.
Lemma done_union (D D1 D2 : Z -> Z -> Prop) v v1 v2 :
  (forall bi bj, D2 bi bj <-> D bi bj \/ D1 bi bj) ->
  (forall bi bj bi' bj' p, D bi bj -> D1 bi' bj' -> P bj p -> P bj' p -> False) ->
  done D v v1 -> done D1 v1 v2 -> done D2 v v2.
Proof.
  intros HD Hdj (L & H1 & H2) (L' & G1 & G2). split; [congruence|]. split.
  - intros bi bj p HD2 HP. apply HD in HD2. destruct HD2 as [X|X].
    + rewrite G2; [apply H1; auto|]. intros bi' bj' Y HP'. apply (Hdj bi bj bi' bj' p); auto.
    + rewrite (G1 bi bj) by auto. f_equal. apply H2. intros bi' bj' Y HP'. apply (Hdj bi' bj' bi bj p); auto.
  - intros p Hp. rewrite G2, H2; auto; intros bi bj X; apply (Hp bi bj); apply HD; auto.
Qed.
Lemma rows_done nr bptr (body : Z -> list T -> res (list T)) v0 (Q : list T -> Prop) :
  ptr_ok nr bptr ->
  (forall bj bj' p, 0 <= bj < znth 0 bptr nr -> 0 <= bj' < znth 0 bptr nr -> P bj p -> P bj' p -> bj = bj') ->
  (forall bi v, 0 <= bi < nr -> zlen v = zlen v0 -> wp (body bi v) (done (fun b j => b = bi /\ znth 0 bptr bi <= j < znth 0 bptr (bi + 1)) v)) ->
  (forall v', zlen v' = zlen v0 -> (forall bi bj p, 0 <= bi < nr -> znth 0 bptr bi <= bj < znth 0 bptr (bi + 1) -> P bj p -> znth s0 v' p = g bi bj p (znth s0 v0 p)) -> Q v') ->
  wp (for_ 0 nr body v0) Q.
Proof.
  intros Hp Hdj Hb HQ. pose proof Hp as (Hn & Hlp & Hp0 & Hpm).
  apply (for_wp' (fun bi v => done (fun b j => 0 <= b < bi /\ znth 0 bptr b <= j < znth 0 bptr (b + 1)) v0 v)); auto.
  - apply done_none. intros bi bj (H & _). lia.
  - intros bi v Hbi Hd. eapply wp_mono; [apply Hb; auto; apply Hd|]. intros v' Hd'. eapply done_union; [| |exact Hd|exact Hd'].
    + intros b j. cbv beta. split.
      * intros (H1 & H2). destruct (Z.eq_dec b bi) as [->|]; [right; auto|left; split; [lia|auto]].
      * intros [(H1 & H2)|(-> & H2)]; split; auto; lia.
    + intros b j b' j' p (H1 & H2) (-> & H4) HP HP'. pose proof (ptr_pos _ _ b Hp ltac:(lia)). pose proof (ptr_pos _ _ (b + 1) Hp ltac:(lia)). pose proof (ptr_pos _ _ bi Hp ltac:(lia)). pose proof (ptr_pos _ _ (bi + 1) Hp ltac:(lia)).
      assert (j = j') by (apply (Hdj j j' p); auto; lia). subst j'. assert (b = bi) by (apply (ptr_disj nr bptr b bi j); auto; lia). lia.
  - intros v (L & H1 & _). apply HQ; auto.
Qed.
End Done.

Lemma pass_join a b c g (v v1 v2 : list T) : a <= b <= c -> pass (fun p => a <= p < b) g v v1 -> pass (fun p => b <= p < c) g v1 v2 -> pass (fun p => a <= p < c) g v v2.
Proof.
  intros H (L & H1 & H2) (L' & G1 & G2). split; [congruence|]. split; intros p Hp.
  - destruct (Z.lt_ge_cases p b); [rewrite G2, H1 by lia; auto|rewrite G1, H2 by lia; auto].
  - rewrite G2, H2 by lia. auto.
Qed.
Lemma block_loop base bnr bnc (F : Z -> Z -> T) (body : Z -> Z -> list T -> res (list T)) v0 (Q : list T -> Prop) :
  0 < bnr -> 0 <= bnc -> 0 <= base -> base + bnr * bnc <= zlen v0 ->
  (forall j i v, 0 <= j < bnc -> 0 <= i < bnr -> zlen v = zlen v0 -> 0 <= base + j * bnr + i < zlen v ->
     wp (body j i v) (fun v' => v' = zupd v (base + j * bnr + i) (smul (znth s0 v (base + j * bnr + i)) (F j i)))) ->
  (forall v', pass (fun p => base <= p < base + bnr * bnc) (fun p a => smul a (F ((p - base) / bnr) ((p - base) mod bnr))) v0 v' -> Q v') ->
  wp (for_ 0 bnc (fun j v => for_ 0 bnr (body j) v) v0) Q.
Proof.
  intros Hr Hc Hb HL Hbody HQ. set (g := fun p a => smul a (F ((p - base) / bnr) ((p - base) mod bnr))) in *.
  apply (for_wp' (fun j v => pass (fun p => base <= p < base + j * bnr) g v0 v)); auto.
  - split; auto. split; auto. intros p Hp. lia.
  - intros j v Hj Hpass. pose proof (proj1 Hpass) as L. apply (inner_upd (base + j * bnr) 0 bnr g).
    + intros i w Hi HLw. assert (0 <= base + j * bnr + i < zlen w) by nia. eapply wp_mono; [apply Hbody; auto; congruence|]. intros w' ->. split; [lia|].
      unfold g. replace ((base + j * bnr + i - base) / bnr) with j; [replace ((base + j * bnr + i - base) mod bnr) with i; auto|].
      * replace (base + j * bnr + i - base) with (i + j * bnr) by lia. rewrite Z_mod_plus_full. symmetry. apply Z.mod_small. lia.
      * replace (base + j * bnr + i - base) with (j * bnr + i) by lia. rewrite Z.div_add_l by lia. rewrite Z.div_small by lia. lia.
    + intros v' Hp'. apply (pass_join base (base + j * bnr) (base + (j + 1) * bnr) g v0 v v'); [nia|auto|]. replace (base + (j + 1) * bnr) with (base + j * bnr + bnr) by lia. rewrite Z.add_0_r in Hp'. exact Hp'.
  - intros v Hp. apply HQ. rewrite (Z.mul_comm bnr bnc). exact Hp.
Qed.

Definition bsr_f (symm : bool) (A : bsr T) (d : list T) bi bj j i : T :=
  if symm then smul (znth s0 d (bi * bsr_bnr A + i)) (znth s0 d (znth 0 (bsr_bindex A) bj * bsr_bnc A + j)) else znth s0 d (bi * bsr_bnr A + i).
Lemma scale_bsr_wp symm (A : bsr T) d (Q : bsr T -> Prop) : bsr_ok A -> bsr_nr A * bsr_bnr A <= zlen d ->
  (symm = true -> forall k, 0 <= k < bsr_bnnz A -> znth 0 (bsr_bindex A) k * bsr_bnc A + bsr_bnc A <= zlen d) ->
  (forall v', zlen v' = zlen (bsr_value A) ->
     (forall bi bj j i, 0 <= bi < bsr_nr A -> znth 0 (bsr_bptr A) bi <= bj < znth 0 (bsr_bptr A) (bi + 1) -> 0 <= j < bsr_bnc A -> 0 <= i < bsr_bnr A ->
        let p := bj * (bsr_bnr A * bsr_bnc A) + j * bsr_bnr A + i in znth s0 v' p = smul (znth s0 (bsr_value A) p) (bsr_f symm A d bi bj j i)) ->
     Q (mkBsr (bsr_n A) (bsr_np A) (bsr_bnr A) (bsr_bnc A) (bsr_nr A) (bsr_bnnz A) (bsr_bptr A) (bsr_bindex A) v')) ->
  wp (scale_bsr_ symm A d) Q.
Proof.
  intros HA Hd Hd2 HQ. pose proof HA as (Hn & Hnp & Hr & Hc & Hnr & Hp & Hz & Hi & Hv & Hx & Hsh). pose proof Hp as (Hnr0 & Hlp & Hp0 & Hpm).
  unfold scale_bsr_. wbind. unfold block_scale. set (bs := bsr_bnr A * bsr_bnc A) in *. assert (Hbs : 0 < bs) by (unfold bs; nia).
  pose (P := fun bj p => bj * bs <= p < bj * bs + bs). pose (g := fun bi bj p a => smul a (bsr_f symm A d bi bj ((p - bj * bs) / bsr_bnr A) ((p - bj * bs) mod bsr_bnr A))).
  assert (Pd : forall bj bj' p, P bj p -> P bj' p -> bj = bj').
  { intros bj bj' p H1 H2. unfold P in *. destruct (mul_inj bs bj (p - bj * bs) bj' (p - bj' * bs)); auto; lia. }
  apply (rows_done P g _ (bsr_bptr A)); auto.
  { intros bj bj' p _ _. apply Pd. }
  - intros bi v Hbi HL. wrd 0; [lia|]. wrd 0; [lia|]. pose proof (ptr_pos _ _ bi Hp ltac:(lia)). pose proof (ptr_pos _ _ (bi + 1) Hp ltac:(lia)). specialize (Hpm bi Hbi).
    apply (for_wp' (fun bj w => done P g (fun b j => b = bi /\ znth 0 (bsr_bptr A) bi <= j < bj) v w)); auto.
    + apply done_none. intros b j (_ & H1). lia.
    + intros bj w Hbj Hd0. wbind.
      assert (Gw : forall bjj, (symm = true -> bjj = znth 0 (bsr_bindex A) bj) ->
        wp (for_ 0 (bsr_bnc A) (fun j v => for_ 0 (bsr_bnr A) (fun i v => di <- rd d (bi * bsr_bnr A + i) ;; f <- (if symm then dj <- rd d (bjj * bsr_bnc A + j) ;; Ok (smul di dj) else Ok di) ;;
            upd v (bj * bs + j * bsr_bnr A + i) (fun a => smul a f)) v) w) (done P g (fun b j => b = bi /\ znth 0 (bsr_bptr A) bi <= j < bj + 1) v)).
      { intros bjj Hbjj. apply (block_loop (bj * bs) (bsr_bnr A) (bsr_bnc A) (bsr_f symm A d bi bj)); auto; try lia; [nia| destruct Hd0 as (L & _); fold bs; rewrite L, HL; nia| |].
        - intros j i u Hj Hi' HLu Hb. wrd s0; [nia|]. unfold bsr_f. destruct symm.
          + rewrite Hbjj by auto. specialize (Hd2 eq_refl bj ltac:(lia)). specialize (Hx bj ltac:(lia)). wbind. wrd s0; [nia|]. apply wp_ok. apply upd_wp; auto.
          + wbind. apply wp_ok. apply upd_wp; auto.
        - intros u (L & G1 & G2). fold bs in G1, G2. eapply done_union with (D1 := fun b j => b = bi /\ j = bj); [| |exact Hd0|].
          + intros b j. cbv beta. lia.
          + intros b j b' j' p (-> & H1) (-> & ->) HP HP'. assert (j = bj) by (apply (Pd j bj p); auto). lia.
          + split; auto. split.
            * intros b j p (-> & ->) HP. apply G1. exact HP.
            * intros p Hpp. apply G2. intro HP. apply (Hpp bi bj); auto. }
      destruct symm; [wrd 0; [lia|]; apply (Gw (znth 0 (bsr_bindex A) bj)); auto|apply wp_ok; apply (Gw 0); discriminate].
  - intros v' HL H. apply wp_ok. apply HQ; auto. intros bi bj j i Hbi Hbj Hj Hi'. cbv zeta. rewrite (H bi bj (bj * bs + j * bsr_bnr A + i)); auto; [|unfold P, bs; nia].
    unfold g. replace (bj * bs + j * bsr_bnr A + i - bj * bs) with (j * bsr_bnr A + i) by lia. rewrite Z.div_add_l by lia. rewrite Z.div_small by lia. rewrite Z.add_0_r. rewrite (Z.add_comm (j * _)), Z_mod_plus_full. rewrite Z.mod_small by lia. auto.
Qed.
Lemma scaled_bsr_ok (A : bsr T) v' (h : T -> Z -> Z -> T) : eqb_ok S -> bsr_ok A -> zlen v' = zlen (bsr_value A) -> (forall r c, h s0 r c = s0) ->
  bsr_entries (mkBsr (bsr_n A) (bsr_np A) (bsr_bnr A) (bsr_bnc A) (bsr_nr A) (bsr_bnnz A) (bsr_bptr A) (bsr_bindex A) v') = map (fun e => (erow e, ecol e, h (eval e) (erow e) (ecol e))) (bsr_entries A) ->
  bsr_ok (mkBsr (bsr_n A) (bsr_np A) (bsr_bnr A) (bsr_bnc A) (bsr_nr A) (bsr_bnnz A) (bsr_bptr A) (bsr_bindex A) v').
Proof.
  intros Hq HA L H0 EE. pose proof HA as (Hn & Hnp & Hr & Hc & Hnr & Hp & Hz & Hi & Hv & Hx & Hsh). unfold bsr_ok. rewrite EE. cbn [bsr_n bsr_np bsr_bnr bsr_bnc bsr_nr bsr_bnnz bsr_bptr bsr_bindex bsr_value]. rewrite L.
  do 10 (split; [auto|]). apply nz_map_shape; auto. intros e _ _ E0. unfold eval at 1; cbn [snd]. rewrite E0. apply H0.
Qed.
Lemma scale_bsr_core (A : bsr T) d : eqb_ok S -> bsr_ok A -> bsr_nr A * bsr_bnr A <= zlen d ->
  exists A', scale_bsr A d = Ok A' /\ bsr_entries A' = map (row_scaled d) (bsr_entries A) /\ bsr_ok A' /\ bsr_n A' = bsr_n A.
Proof.
  intros Hq HA Hd. apply wp_inv. apply scale_bsr_wp; auto; [discriminate|]. intros v' L H.
  assert (EE : bsr_entries (mkBsr (bsr_n A) (bsr_np A) (bsr_bnr A) (bsr_bnc A) (bsr_nr A) (bsr_bnnz A) (bsr_bptr A) (bsr_bindex A) v') = map (row_scaled d) (bsr_entries A)).
  { unfold bsr_entries; cbn [bsr_n bsr_np bsr_bnr bsr_bnc bsr_nr bsr_bnnz bsr_bptr bsr_bindex bsr_value]. apply blocks_map. intros bi bj j i Hbi Hbj Hj Hi. rewrite (H bi bj j i) by auto. reflexivity. }
  split; [exact EE|]. split; [|auto]. apply (scaled_bsr_ok A v' (fun a r _ => smul a (znth s0 d r))); auto. intros; ring.
Qed.
Lemma scale_symm_bsr_core (A : bsr T) d : eqb_ok S -> bsr_ok A -> bsr_nr A * bsr_bnr A <= zlen d ->
  (forall k, 0 <= k < bsr_bnnz A -> znth 0 (bsr_bindex A) k * bsr_bnc A + bsr_bnc A <= zlen d) ->
  exists A', scale_symm_bsr A d = Ok A' /\ bsr_entries A' = map (sym_scaled d) (bsr_entries A) /\ bsr_ok A' /\ bsr_n A' = bsr_n A.
Proof.
  intros Hq HA Hd Hd2. apply wp_inv. apply scale_bsr_wp; auto. intros v' L H.
  assert (EE : bsr_entries (mkBsr (bsr_n A) (bsr_np A) (bsr_bnr A) (bsr_bnc A) (bsr_nr A) (bsr_bnnz A) (bsr_bptr A) (bsr_bindex A) v') = map (sym_scaled d) (bsr_entries A)).
  { unfold bsr_entries; cbn [bsr_n bsr_np bsr_bnr bsr_bnc bsr_nr bsr_bnnz bsr_bptr bsr_bindex bsr_value]. apply blocks_map. intros bi bj j i Hbi Hbj Hj Hi. rewrite (H bi bj j i) by auto. reflexivity. }
  split; [exact EE|]. split; [|auto]. apply (scaled_bsr_ok A v' (fun a r c => smul a (smul (znth s0 d r) (znth s0 d c)))); auto. intros; ring.
Qed.

End Ring.
End P.
