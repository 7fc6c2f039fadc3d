(** Proofs about Diag2.v: BSR, BSC and VBR *)
Require Import ZArith List Bool Lia Permutation Ring.
From Verif Require Import Base Scalar Spec Items Fmt Diag Diag2 SpecDiag DiagProof DiagProof2 DiagProof3.
Import ListNotations.
Open Scope Z_scope.

Section P.
Context {T : Type} {S : Scalar T}.

(** ** the scan for diagonal blocks, square blocks *)
Lemma block_scan_wp {St} n nr b bptr bindex act (J : Z -> St -> Prop) (K : Z -> Z -> Z -> St -> Prop) (s : St) (Q : St -> Prop) :
  0 < b -> (nr - 1) * b < n <= nr * b -> ptr_ok nr bptr -> znth 0 bptr nr <= zlen bindex ->
  J 0 s ->
  (forall bi s, 0 <= bi < nr -> J bi s -> (forall bj, znth 0 bptr bi <= bj < znth 0 bptr (bi + 1) -> znth 0 bindex bj <> bi) -> J (bi + 1) s) ->
  (forall bi bj s, 0 <= bi < nr -> J bi s -> znth 0 bptr bi <= bj < znth 0 bptr (bi + 1) -> znth 0 bindex bj = bi -> K bi bj 0 s) ->
  (forall bi bj k s, 0 <= bi < nr -> znth 0 bptr bi <= bj < znth 0 bptr (bi + 1) -> znth 0 bindex bj = bi -> 0 <= k < b -> bi * b + k < n -> K bi bj k s ->
     wp (act (bj * (b * b) + k * b + k) (bi * b + k) s) (K bi bj (k + 1))) ->
  (forall bi bj k s, 0 <= bi < nr -> znth 0 bptr bi <= bj < znth 0 bptr (bi + 1) -> znth 0 bindex bj = bi -> 0 <= k <= b -> (k = b \/ bi * b + k = n) -> K bi bj k s -> J (bi + 1) s) ->
  (forall s, J nr s -> Q s) ->
  wp (block_scan n nr b b bptr bindex act s) Q.
Proof.
  intros Hb Hn Hp Hx H0 Hskip HK Hact Hend HQ. pose proof Hp as (Hnr & Hlp & Hp0 & Hpm). unfold block_scan.
  apply (for_wp' J); auto. intros bi s1 Hbi HJ. wrd 0; [lia|]. wrd 0; [lia|]. wbind.
  pose proof (ptr_pos _ _ bi Hp ltac:(lia)) as R1. pose proof (ptr_pos _ _ (bi + 1) Hp ltac:(lia)) as R2. specialize (Hpm bi Hbi).
  assert (Hrow : bi * b < n) by nia.
  apply (for_brk_wp (fun bj (st : Z * Z * St) => let '(k, i, s) := st in
     (k = 0 /\ i = bi * b /\ s = s1 /\ forall bj', znth 0 bptr bi <= bj' < bj -> znth 0 bindex bj' <> bi) \/
     (0 < k < b /\ i = n /\ bi * b + k = n /\ J (bi + 1) s))); [lia| | |].
  - left. repeat split; auto. intros; lia.
  - intros bj [[k i] s2] Hbj [(-> & -> & -> & Hno)|(Hk & -> & Ek & HJ2)]; wrd 0; try lia; wbind.
    + destruct (Z.eq_dec (znth 0 bindex bj) bi) as [E|E].
      * rewrite E. replace ((bi * b <=? bi * b) && (bi * b <? (bi + 1) * b)) with true
          by (symmetry; apply andb_true_intro; split; [apply Z.leb_le; lia|apply Z.ltb_lt; lia]).
        rewrite Z.mod_mul by lia.
        apply (for_brk_wp (fun j (st : Z * Z * St) => let '(k, i, s) := st in k = j /\ i = bi * b + j /\ 0 <= j <= b /\ i <= n /\ K bi bj j s)); [lia| | |].
        -- repeat split; try lia. apply HK; auto.
        -- intros j [[k i] s2] Hj (-> & -> & _ & Hin & HKj). replace (j <? b) with true by (symmetry; apply Z.ltb_lt; lia). cbn [andb].
           destruct (Z.ltb_spec (bi * b + j) n) as [G|G].
           ++ wbind. eapply wp_mono; [apply Hact; auto|]. intros s3 HK3. apply wp_ok. cbn [fst snd]. repeat split; auto; lia.
           ++ apply wp_ok. cbn [fst snd]. apply wp_ok. cbn [fst snd]. assert (HJ3 : J (bi + 1) s2) by (apply (Hend bi bj j); auto; lia).
              destruct (Z.eqb_spec j b) as [Eb|Eb]; [apply wp_ok; exact HJ3|]. right. repeat split; auto; try lia.
        -- intros [[k i] s2] (-> & -> & _ & Hin & HKj). apply wp_ok. cbn [fst snd]. rewrite Z.eqb_refl. apply wp_ok. cbn [snd]. apply (Hend bi bj b); auto; lia.
      * replace ((znth 0 bindex bj * b <=? bi * b) && (bi * b <? (znth 0 bindex bj + 1) * b)) with false.
        2:{ symmetry. apply not_true_is_false. intro Hc. apply andb_prop in Hc. destruct Hc as [C1 C2]. apply Z.leb_le in C1. apply Z.ltb_lt in C2.
            assert (znth 0 bindex bj <= bi) by (apply (Z.mul_le_mono_pos_r _ _ b); lia). assert (bi < znth 0 bindex bj + 1) by (apply (Z.mul_lt_mono_pos_r b); lia). lia. }
        apply wp_ok. apply wp_ok. cbn [fst snd]. destruct (Z.eqb_spec 0 b); [lia|]. left. repeat split; auto.
        intros bj' Hbj'. destruct (Z.eq_dec bj' bj) as [->|]; [auto|apply Hno; lia].
    + assert (G : forall st : Z * Z * St, st = (k, n, s2) -> wp (Ok (fst (fst st) =? b, st)) (fun r => if fst r then wp (Ok (snd (snd r))) (J (bi + 1)) else
           let '(k0, i, s3) := snd r in (k0 = 0 /\ i = bi * b /\ s3 = s1 /\ (forall bj', znth 0 bptr bi <= bj' < bj + 1 -> znth 0 bindex bj' <> bi)) \/ (0 < k0 < b /\ i = n /\ bi * b + k0 = n /\ J (bi + 1) s3))).
      { intros st ->. apply wp_ok. cbn [fst snd]. destruct (Z.eqb_spec k b); [lia|]. right. auto. }
      destruct ((znth 0 bindex bj * b <=? n) && (n <? (znth 0 bindex bj + 1) * b)); [|apply wp_ok; apply G; auto].
      pose proof (Z.mod_pos_bound n b Hb).
      apply (for_brk_wp (fun j (st : Z * Z * St) => st = (k, n, s2))); [lia|auto| |].
      * intros j st Hj ->. rewrite Z.ltb_irrefl, andb_false_r. apply wp_ok. exact (G (k, n, s2) eq_refl).
      * intros st ->. exact (G (k, n, s2) eq_refl).
  - intros [[k i] s2] [(-> & -> & -> & Hno)|(Hk & -> & Ek & HJ2)]; apply wp_ok; cbn [snd]; auto.
Qed.

(** positions of diagonal elements are distinct *)
Lemma diag_pos_inj b bj k bj' k' : 0 <= k < b -> 0 <= k' < b -> bj * (b * b) + k * b + k = bj' * (b * b) + k' * b + k' -> bj = bj' /\ k = k'.
Proof.
  intros Hk Hk' E. assert (E2 : (bj * b + k) * b + k = (bj' * b + k') * b + k') by lia.
  destruct (mul_inj b (bj * b + k) k (bj' * b + k') k') as [E3 E4]; auto. subst k'. split; [|auto]. destruct (mul_inj b bj k bj' k); auto.
Qed.

Lemma get_blocks n nr b bptr bindex (value d : list T) (E : list (entry T)) :
  0 < b -> (nr - 1) * b < n <= nr * b -> ptr_ok nr bptr -> znth 0 bptr nr <= zlen bindex -> znth 0 bptr nr * (b * b) <= zlen value -> n <= zlen d ->
  (forall bi bj k, 0 <= bi < nr -> znth 0 bptr bi <= bj < znth 0 bptr (bi + 1) -> znth 0 bindex bj = bi -> 0 <= k < b ->
     has_diag E (bi * b + k) = true /\ coef E (bi * b + k) (bi * b + k) = znth s0 value (bj * (b * b) + k * b + k)) ->
  (forall bi k, 0 <= bi < nr -> 0 <= k < b -> (forall bj, znth 0 bptr bi <= bj < znth 0 bptr (bi + 1) -> znth 0 bindex bj <> bi) -> has_diag E (bi * b + k) = false) ->
  exists d', block_scan n nr b b bptr bindex (fun p i d => v <- rd value p ;; wr d i v) d = Ok d' /\ zlen d' = zlen d /\
    forall i, 0 <= i < n -> znth s0 d' i = if has_diag E i then coef E i i else znth s0 d i.
Proof.
  intros Hb Hn Hp Hx Hv Hd H1 H2. apply wp_inv. pose proof Hp as (Hnr & Hlp & Hp0 & Hpm).
  pose (J := fun m (d' : list T) => zlen d' = zlen d /\ (forall i, 0 <= i < Z.min m n -> znth s0 d' i = if has_diag E i then coef E i i else znth s0 d i) /\
     (forall i, m <= i < n -> znth s0 d' i = znth s0 d i)).
  apply (block_scan_wp n nr b bptr bindex _ (fun bi => J (bi * b)) (fun bi bj k => J (bi * b + k))); auto.
  - split; auto. split; intros; [lia|auto].
  - intros bi d1 Hbi (L & G1 & G2) Hno. split; auto. split.
    + intros i Hi. destruct (Z.lt_ge_cases i (bi * b)) as [C|C]; [apply G1; lia|]. rewrite G2 by lia.
      replace i with (bi * b + (i - bi * b)) by lia. rewrite (H2 bi (i - bi * b)); auto; lia.
    + intros i Hi. apply G2. lia.
  - intros bi bj d1 Hbi HJ Hbj E1. replace (bi * b + 0) with (bi * b) by lia. auto.
  - intros bi bj k d1 Hbi Hbj E1 Hk Hkn (L & G1 & G2). pose proof (ptr_pos _ _ bi Hp ltac:(lia)). pose proof (ptr_pos _ _ (bi + 1) Hp ltac:(lia)).
    assert (Hpos : 0 <= bj * (b * b) + k * b + k < zlen value) by nia.
    wrd s0; [lia|]. wwr; [nia|]. split; [len|]. destruct (H1 bi bj k Hbi Hbj E1 Hk) as [D1 D2]. split.
    + intros i Hi. rewrite znth_zupd by nia. destruct (Z.eqb_spec i (bi * b + k)) as [->|]; [rewrite D1, D2; auto|apply G1; lia].
    + intros i Hi. rewrite znth_zupd by nia. destruct (Z.eqb_spec i (bi * b + k)) as [->|]; [lia|apply G2; lia].
  - intros bi bj k d1 Hbi Hbj E1 Hk Hke (L & G1 & G2). split; auto. split; intros i Hi; [apply G1; lia|apply G2; lia].
  - intros d1 (L & G1 & G2). split; auto. intros i Hi. apply G1. lia.
Qed.

Lemma shift_blocks n nr b bptr bindex (value : list T) sigma (Q : list T -> Prop) :
  0 < b -> (nr - 1) * b < n <= nr * b -> ptr_ok nr bptr -> znth 0 bptr nr <= zlen bindex -> znth 0 bptr nr * (b * b) <= zlen value ->
  (forall bi bj bj', 0 <= bi < nr -> znth 0 bptr bi <= bj < znth 0 bptr (bi + 1) -> znth 0 bptr bi <= bj' < znth 0 bptr (bi + 1) -> znth 0 bindex bj = znth 0 bindex bj' -> bj = bj') ->
  (forall v', zlen v' = zlen value ->
     (forall bi bj j i, 0 <= bi < nr -> znth 0 bptr bi <= bj < znth 0 bptr (bi + 1) -> 0 <= j < b -> 0 <= i < b ->
        znth s0 v' (bj * (b * b) + j * b + i) = if (znth 0 bindex bj =? bi) && (i =? j) && (bi * b + i <? n) then ssub (znth s0 value (bj * (b * b) + j * b + i)) sigma else znth s0 value (bj * (b * b) + j * b + i)) -> Q v') ->
  wp (block_scan n nr b b bptr bindex (fun p _ v => upd v p (fun a => ssub a sigma)) value) Q.
Proof.
  intros Hb Hn Hp Hx Hv Hu HQ. pose proof Hp as (Hnr & Hlp & Hp0 & Hpm).
  pose (dg := fun m p => exists bi bj k, 0 <= bi < nr /\ znth 0 bptr bi <= bj < znth 0 bptr (bi + 1) /\ znth 0 bindex bj = bi /\ 0 <= k < b /\ bi * b + k < Z.min m n /\ p = bj * (b * b) + k * b + k).
  pose (J := fun m (v : list T) => zlen v = zlen value /\ (forall p, dg m p -> znth s0 v p = ssub (znth s0 value p) sigma) /\ (forall p, ~ dg m p -> znth s0 v p = znth s0 value p)).
  assert (ext : forall m m' v, (forall p, dg m p <-> dg m' p) -> J m v -> J m' v).
  { intros m m' v Hd (L & G1 & G2). split; auto. split; intros p Hpp; [apply G1|apply G2]; rewrite Hd; auto. }
  assert (rowof : forall bi bj bi' bj' k k', 0 <= bi < nr -> znth 0 bptr bi <= bj < znth 0 bptr (bi + 1) -> 0 <= bi' < nr -> znth 0 bptr bi' <= bj' < znth 0 bptr (bi' + 1) ->
      0 <= k < b -> 0 <= k' < b -> bj * (b * b) + k * b + k = bj' * (b * b) + k' * b + k' -> bi = bi' /\ bj = bj' /\ k = k').
  { intros bi bj bi' bj' k k' A1 A2 A3 A4 A5 A6 A7. destruct (diag_pos_inj b bj k bj' k' A5 A6 A7) as [-> ->]. split; [|auto]. apply (ptr_disj nr bptr bi bi' bj'); auto. }
  apply (block_scan_wp n nr b bptr bindex _ (fun bi => J (bi * b)) (fun bi bj k => J (bi * b + k))); auto.
  - split; auto. split; auto. intros p (bi & bj & k & A1 & A2 & A3 & A4 & A5 & A6). nia.
  - intros bi v Hbi HJ Hno. apply (ext (bi * b)); auto. intros p. split; intros (bi' & bj & k & A1 & A2 & A3 & A4 & A5 & A6); exists bi', bj, k; repeat split; auto; try lia.
    assert (bi' <> bi) by (intro Ec; apply (Hno bj); [rewrite <- Ec; auto|congruence]). assert (bi' < bi) by nia. nia.
  - intros bi bj v Hbi HJ Hbj E1. replace (bi * b + 0) with (bi * b) by lia. auto.
  - intros bi bj k v Hbi Hbj E1 Hk Hkn (L & G1 & G2). pose proof (ptr_pos _ _ bi Hp ltac:(lia)). pose proof (ptr_pos _ _ (bi + 1) Hp ltac:(lia)).
    assert (Hpos : 0 <= bj * (b * b) + k * b + k < zlen value) by nia.
    apply upd_wp; [lia|]. split; [len|]. split; intros p Hpp; rewrite znth_zupd by lia; destruct (Z.eqb_spec p (bj * (b * b) + k * b + k)) as [->|Ne].
    + rewrite G2; auto. intros (bi' & bj' & k' & A1 & A2 & A3 & A4 & A5 & A6). destruct (rowof bi bj bi' bj' k k') as (-> & -> & ->); auto. lia.
    + apply G1. destruct Hpp as (bi' & bj' & k' & A1 & A2 & A3 & A4 & A5 & A6). exists bi', bj', k'. repeat split; auto; try lia.
      destruct (Z.eq_dec (bi' * b + k') (bi * b + k)) as [Ec|Ec]; [|lia]. exfalso. destruct (mul_inj b bi' k' bi k) as [-> ->]; auto.
      apply Ne. rewrite A6. rewrite (Hu bi bj' bj); auto. congruence.
    + exfalso. apply Hpp. exists bi, bj, k. repeat split; auto; lia.
    + apply G2. intros (bi' & bj' & k' & A1 & A2 & A3 & A4 & A5 & A6). apply Hpp. exists bi', bj', k'. repeat split; auto; lia.
  - intros bi bj k v Hbi Hbj E1 Hk Hke HJ. apply (ext (bi * b + k)); auto. intros p. split; intros (bi' & bj' & k' & A1 & A2 & A3 & A4 & A5 & A6); exists bi', bj', k'; repeat split; auto; lia.
  - intros v (L & G1 & G2). apply HQ; auto. intros bi bj j i Hbi Hbj Hj Hi.
    destruct ((znth 0 bindex bj =? bi) && (i =? j) && (bi * b + i <? n)) eqn:C.
    + apply andb_prop in C. destruct C as [C C3]. apply andb_prop in C. destruct C as [C1 C2]. apply Z.eqb_eq in C1, C2. apply Z.ltb_lt in C3. subst j. apply G1. exists bi, bj, i. repeat split; auto; try lia.
    + apply G2. intros (bi' & bj' & k' & A1 & A2 & A3 & A4 & A5 & A6).
      assert (E2 : (bj * b + j) * b + i = (bj' * b + k') * b + k') by lia. destruct (mul_inj b (bj * b + j) i (bj' * b + k') k') as [E3 E4]; auto. subst k'. destruct (mul_inj b bj j bj' i) as [E5 E6]; auto. subst bj' j.
      assert (bi' = bi) by (apply (ptr_disj nr bptr bi' bi bj); auto). rewrite H in A3, A5. rewrite A3, !Z.eqb_refl in C. cbn [andb] in C. apply Z.ltb_ge in C. lia.
Qed.
End P.
