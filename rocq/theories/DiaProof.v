(** Proofs about Dia.v *)
Require Import ZArith List Bool Lia Permutation.
From Verif Require Import Base Scalar Spec Items Sort SortProof Csc CscProof Fmt EllProof DnsProof ConvFinal Dia.
Import ListNotations.
Open Scope Z_scope.

Section DiaProof.
Context {T : Type} {S : Scalar T}.

(** ** lis_matrix_sort_csr *)
Definition seg (A : csr T) (idx : list Z) (vl : list T) (i : Z) : list (Z * T) :=
  map (fun k => (znth 0 idx k, znth s0 vl k)) (zrange (znth 0 (csr_ptr A) i) (znth 0 (csr_ptr A) (i + 1))).

Lemma sort_csr_wp flag (A : csr T) (Q : csr T -> Prop) :
  csr_ok A -> csr_exact A -> (flag = true -> rows_sorted A) ->
  (forall A', csr_ok A' -> csr_exact A' -> rows_sorted A' ->
     csr_n A' = csr_n A -> csr_np A' = csr_np A -> csr_nnz A' = csr_nnz A -> csr_ptr A' = csr_ptr A ->
     Permutation (csr_entries A') (csr_entries A) -> Q A') ->
  wp (sort_csr flag A) Q.
Proof.
  intros Hok Hex Hfl HQ. unfold sort_csr. destruct flag.
  { apply wp_ok. apply HQ; auto. }
  clear Hfl. pose proof Hok as (Hp & Hnp & Hnnz & Hli & Hlv & Hix). pose proof Hp as (Hn & Hlp & Hp0 & Hpm).
  set (n := csr_n A) in *. set (ptr := csr_ptr A) in *.
  apply wp_bind.
  apply (for_wp' (fun i s => zlen (fst s) = zlen (csr_index A) /\ zlen (snd s) = zlen (csr_index A) /\
     (forall q, 0 <= q < n -> Permutation (seg A (fst s) (snd s) q) (seg A (csr_index A) (csr_value A) q)) /\
     (forall q p r, 0 <= q < i -> znth 0 ptr q <= p <= r -> r < znth 0 ptr (q + 1) -> znth 0 (fst s) p <= znth 0 (fst s) r))); auto.
  { cbn [fst snd]. split; auto. split; auto. split; [auto|]. intros; lia. }
  { intros i [ix vl] Hi (Li & Lv & HP & HS). cbn [fst snd] in *. wrd 0; [fold ptr; lia|]. wrd 0; [fold ptr; lia|]. fold ptr.
    pose proof (ptr_ok_mono n ptr (i + 1) n Hp ltac:(lia) ltac:(lia)) as Hm1.
    pose proof (ptr_ok_mono n ptr 0 i Hp ltac:(lia) ltac:(lia)) as Hm0.
    apply (quick1_wp s0 Z.ltb 0); auto using zltb_irrefl, zltb_asym; try lia.
    intros ix' vl' Lv' (Ls & HPs & Hsame & Hsort). cbn [fst snd].
    split; [lia|]. split; [lia|].
    assert (Hrow : forall q, 0 <= q < n -> q <> i -> forall k, znth 0 ptr q <= k < znth 0 ptr (q + 1) -> znth 0 ix' k = znth 0 ix k /\ znth s0 vl' k = znth s0 vl k).
    { intros q Hq Hne k Hk. apply Hsame.
      - pose proof (ptr_ok_bounds n ptr q k Hp Hq Hk). lia.
      - destruct (Z.lt_ge_cases q i).
        + pose proof (ptr_ok_mono n ptr (q + 1) i Hp ltac:(lia) ltac:(lia)). lia.
        + pose proof (ptr_ok_mono n ptr (i + 1) q Hp ltac:(lia) ltac:(lia)). lia. }
    split.
    - intros q Hq. destruct (Z.eq_dec q i) as [->|Hne].
      + rewrite <- (HP i Hi). unfold seg. fold ptr. replace (znth 0 ptr (i + 1) - 1 + 1) with (znth 0 ptr (i + 1)) in HPs by lia. exact HPs.
      + rewrite <- (HP q Hq). unfold seg. fold ptr.
        rewrite (map_ext_in _ (fun k => (znth 0 ix k, znth s0 vl k))); [apply Permutation_refl|].
        intros k Hk. apply In_zrange in Hk. destruct (Hrow q Hq Hne k Hk) as [-> ->]. auto.
    - intros q p r Hq Hpr Hr. destruct (Z.eq_dec q i) as [->|Hne].
      + specialize (Hsort p r ltac:(lia) ltac:(lia)). apply Z.ltb_ge in Hsort. lia.
      + destruct (Hrow q ltac:(lia) Hne p ltac:(lia)) as [-> _]. destruct (Hrow q ltac:(lia) Hne r ltac:(lia)) as [-> _].
        apply (HS q); auto; lia. }
  intros [ix vl] (Li & Lv & HP & HS). cbn [fst snd] in *. apply wp_ok.
  assert (HPE : Permutation (csr_entries (mkCsr n (csr_np A) (csr_nnz A) ptr ix vl)) (csr_entries A)).
  { unfold csr_entries; cbn [csr_n csr_ptr csr_index csr_value]. fold n ptr.
    apply Permutation_flat_map_ext. intros q Hq. apply In_zrange in Hq.
    pose proof (Permutation_map (fun x : Z * T => (q, fst x, snd x)) (HP q Hq)) as HM. unfold seg in HM. rewrite !map_map in HM. exact HM. }
  apply HQ; auto.
  - unfold csr_ok; cbn [csr_n csr_np csr_nnz csr_ptr csr_index csr_value]. fold n ptr.
    split; [auto|]. split; [lia|]. split; [auto|]. split; [lia|]. split; [unfold csr_exact in Hex; lia|].
    (* every position belongs to a row *)
    intros k Hk.
    assert (Hrow : exists q, 0 <= q < n /\ znth 0 ptr q <= k < znth 0 ptr (q + 1)).
    { assert (G : forall m : nat, Z.of_nat m <= n -> k < znth 0 ptr (Z.of_nat m) -> exists q, 0 <= q < n /\ znth 0 ptr q <= k < znth 0 ptr (q + 1)).
      { induction m; intros Hm Hlt. - change (Z.of_nat 0) with 0 in Hlt. lia.
        - destruct (Z.lt_ge_cases k (znth 0 ptr (Z.of_nat m))); [apply IHm; auto; lia|].
          exists (Z.of_nat m). replace (Z.of_nat m + 1) with (Z.of_nat (Datatypes.S m)) by lia. lia. }
      apply (G (Z.to_nat n)); rewrite ?Z2Nat.id; lia. }
    destruct Hrow as (q & Hq & Hkq).
    assert (Hin : In (znth 0 ix k, znth s0 vl k) (seg A (csr_index A) (csr_value A) q)).
    { apply (Permutation_in _ (HP q Hq)). unfold seg. fold ptr. apply in_map_iff. exists k. split; auto. apply In_zrange; auto. }
    unfold seg in Hin. fold ptr in Hin. apply in_map_iff in Hin. destruct Hin as (k' & E & Hk'). apply In_zrange in Hk'. inversion E as [[E1 E2]].
    apply Hix. rewrite <- Hnnz. eapply ptr_ok_bounds; eauto.
  - unfold csr_exact; cbn. lia.
Qed.

(** ** distinct values of a sorted list *)
Definition ustep (acc : list Z) (x : Z) : list Z :=
  if (0 <? zlen acc) && (znth 0 acc (zlen acc - 1) =? x) then acc else acc ++ [x].
Definition uniq (l : list Z) : list Z := fold_left ustep l [].

Lemma uniq_snoc l x : uniq (l ++ [x]) = ustep (uniq l) x.
Proof. unfold uniq. rewrite fold_left_app. reflexivity. Qed.

Lemma uniq_pos l : l <> [] -> 0 < zlen (uniq l).
Proof.
  destruct l using rev_ind; [congruence|]. intros _. rewrite uniq_snoc. unfold ustep.
  destruct ((0 <? zlen (uniq l)) && (znth 0 (uniq l) (zlen (uniq l) - 1) =? x)) eqn:E.
  - apply andb_true_iff in E. destruct E as [E _]. apply Z.ltb_lt in E. auto.
  - rewrite zlen_app. change (zlen [x]) with 1. pose proof (zlen_nonneg (uniq l)). lia.
Qed.

Lemma uniq_last l x : znth 0 (uniq (l ++ [x])) (zlen (uniq (l ++ [x])) - 1) = x.
Proof.
  rewrite uniq_snoc. unfold ustep.
  destruct ((0 <? zlen (uniq l)) && (znth 0 (uniq l) (zlen (uniq l) - 1) =? x)) eqn:E.
  - apply andb_true_iff in E. destruct E as [_ E]. apply Z.eqb_eq in E. auto.
  - rewrite zlen_app. change (zlen [x]) with 1. replace (zlen (uniq l) + 1 - 1) with (zlen (uniq l)) by lia. apply znth_snoc_last.
Qed.

Definition incr_list (D : list Z) : Prop := forall p q, 0 <= p < q -> q < zlen D -> znth 0 D p < znth 0 D q.

Lemma uniq_spec l :
  (forall p q, 0 <= p <= q -> q < zlen l -> znth 0 l p <= znth 0 l q) ->
  incr_list (uniq l) /\ (forall x, In x (uniq l) <-> In x l).
Proof.
  induction l as [|x l IH] using rev_ind; intros Hs.
  - split; [intros p q; change (zlen (uniq [])) with 0; lia|]. intros; split; auto.
  - assert (Hs' : forall p q, 0 <= p <= q -> q < zlen l -> znth 0 l p <= znth 0 l q).
    { intros p q Hpq Hq. specialize (Hs p q Hpq). rewrite zlen_app in Hs. change (zlen [x]) with 1 in Hs.
      rewrite !znth_snoc_lt in Hs by lia. apply Hs; lia. }
    destruct (IH Hs') as [Hinc Hin].
    assert (Hle : forall y, In y l -> y <= x).
    { intros y Hy. destruct (In_znth 0 l y Hy) as (i & Hi & <-). specialize (Hs i (zlen l)). rewrite zlen_app in Hs. change (zlen [x]) with 1 in Hs.
      rewrite znth_snoc_last, znth_snoc_lt in Hs by lia. apply Hs; lia. }
    rewrite uniq_snoc. unfold ustep. set (D := uniq l) in *. pose proof (zlen_nonneg D).
    destruct (Z.ltb_spec 0 (zlen D)); cbn [andb].
    + destruct (Z.eqb_spec (znth 0 D (zlen D - 1)) x) as [E|N].
      * split; auto. intros y. rewrite in_app_iff, Hin. split; auto. intros [?|[<-|[]]]; auto. rewrite <- Hin, <- E. apply znth_In. lia.
      * split.
        -- intros p q Hpq Hq. rewrite zlen_app in Hq. change (zlen [x]) with 1 in Hq. destruct (Z.eq_dec q (zlen D)) as [->|Hn].
           ++ rewrite znth_snoc_last, znth_snoc_lt by lia.
              assert (znth 0 D p <= znth 0 D (zlen D - 1)). { destruct (Z.eq_dec p (zlen D - 1)); [subst; lia|]. specialize (Hinc p (zlen D - 1)). lia. }
              assert (znth 0 D (zlen D - 1) <= x) by (apply Hle, Hin, znth_In; lia). lia.
           ++ rewrite !znth_snoc_lt by lia. apply Hinc; lia.
        -- intros y. rewrite !in_app_iff, Hin. tauto.
    + assert (E : D = []). { destruct D; auto. rewrite zlen_cons in *. pose proof (zlen_nonneg D). lia. }
      rewrite E in *. cbn [app]. split.
      * intros p q Hpq Hq. change (zlen [x]) with 1 in Hq. lia.
      * intros y. rewrite in_app_iff, <- Hin. cbn. tauto.
Qed.

(** position of x in D *)
Fixpoint fpos (D : list Z) (x : Z) : Z := match D with [] => 0 | y :: t => if y =? x then 0 else 1 + fpos t x end.
Lemma fpos_range D x : In x D -> 0 <= fpos D x < zlen D /\ znth 0 D (fpos D x) = x.
Proof.
  induction D as [|y D IH]; [intros []|]. cbn [fpos]. intros H. rewrite zlen_cons. pose proof (zlen_nonneg D).
  destruct (Z.eqb_spec y x). { subst. split; [lia|]. reflexivity. }
  destruct H as [?|H]; [congruence|]. destruct (IH H) as [H1 H2]. split; [lia|].
  change (y :: D) with ([y] ++ D). rewrite znth_app by lia. change (zlen [y]) with 1. destruct (Z.ltb_spec (1 + fpos D x) 1); [lia|].
  replace (1 + fpos D x - 1) with (fpos D x) by lia. auto.
Qed.
Lemma incr_inj D p q : incr_list D -> 0 <= p < zlen D -> 0 <= q < zlen D -> znth 0 D p = znth 0 D q -> p = q.
Proof.
  intros HD Hp Hq E. destruct (Z.lt_trichotomy p q) as [H|[H|H]]; auto.
  - specialize (HD p q). lia.
  - specialize (HD q p). lia.
Qed.
Lemma fpos_nth D k : incr_list D -> 0 <= k < zlen D -> fpos D (znth 0 D k) = k.
Proof.
  intros HD Hk. destruct (fpos_range D (znth 0 D k)) as [H1 H2]; [apply znth_In; auto|]. eapply incr_inj; eauto.
Qed.
Lemma fpos_mono D x y : incr_list D -> In x D -> In y D -> x <= y -> fpos D x <= fpos D y.
Proof.
  intros HD Hx Hy Hle. destruct (fpos_range D x Hx) as [H1 H2], (fpos_range D y Hy) as [H3 H4].
  destruct (Z.le_gt_cases (fpos D x) (fpos D y)); auto. specialize (HD (fpos D y) (fpos D x)). lia.
Qed.

(** ** the positions a DIA matrix covers *)
Definition dia_pos (n nnd : Z) (D : list Z) : list (Z * Z) :=
  flat_map (fun d => map (fun i => (i, i + znth 0 D d)) (zrange (Z.max 0 (- znth 0 D d)) (Z.min n (n - znth 0 D d)))) (zrange 0 nnd).

Lemma In_dia_pos n D i j : incr_list D -> (In (i, j) (dia_pos n (zlen D) D) <-> 0 <= i < n /\ 0 <= j < n /\ In (j - i) D).
Proof.
  intros HD. unfold dia_pos. rewrite in_flat_map. split.
  - intros (d & Hd & H). apply in_map_iff in H. destruct H as (i' & E & Hi). apply In_zrange in Hd. apply In_zrange in Hi. inversion E; subst.
    split; [lia|]. split; [lia|]. replace (i + znth 0 D d - i) with (znth 0 D d) by lia. apply znth_In; auto.
  - intros (Hi & Hj & H). destruct (In_znth 0 D _ H) as (d & Hd & E). exists d. split; [apply In_zrange; auto|].
    apply in_map_iff. exists i. split; [f_equal; lia|]. apply In_zrange. lia.
Qed.

Lemma NoDup_dia_pos n D : incr_list D -> NoDup (dia_pos n (zlen D) D).
Proof.
  intros HD. unfold dia_pos.
  assert (NDapp : forall (X Y : list (Z * Z)), NoDup X -> NoDup Y -> (forall x, In x X -> ~ In x Y) -> NoDup (X ++ Y)).
  { clear. induction X; simpl; intros; auto. inversion H; subst. constructor.
    - rewrite in_app_iff. intros [?|?]; [auto|]. eapply H1; eauto.
    - apply IHX; auto. }
  assert (G : forall l, NoDup l -> (forall d, In d l -> 0 <= d < zlen D) ->
     NoDup (flat_map (fun d => map (fun i => (i, i + znth 0 D d)) (zrange (Z.max 0 (- znth 0 D d)) (Z.min n (n - znth 0 D d)))) l)).
  { induction l as [|d l IH]; simpl; intros HN Hb; [constructor|]. inversion HN; subst. apply NDapp.
    - apply FinFun.Injective_map_NoDup; [intros x y E; inversion E; auto|apply NoDup_zrange].
    - apply IH; auto.
    - intros x Hx Hy. apply in_map_iff in Hx. destruct Hx as (i & <- & _). apply in_flat_map in Hy. destruct Hy as (d' & Hd' & Hy).
      apply in_map_iff in Hy. destruct Hy as (i' & E & _). inversion E; subst. assert (d' = d).
      { apply (incr_inj D); auto. lia. } subst; auto. }
  apply G; [apply NoDup_zrange|]. intros d Hd. apply In_zrange in Hd. auto.
Qed.

Lemma dia_entries_pos (B : dia T) D : incr_list D -> dia_nnd B = zlen D -> (forall k, 0 <= k < zlen D -> znth 0 (dia_index B) k = znth 0 D k) ->
  dia_entries B = map (fun p => (fst p, snd p, znth s0 (dia_value B) (fpos D (snd p - fst p) * dia_n B + fst p)) : entry T) (dia_pos (dia_n B) (zlen D) D).
Proof.
  intros HD Hnnd Hix. unfold dia_entries, dia_pos. rewrite Hnnd, map_flat_map. apply flat_map_ext_in. intros d Hd. apply In_zrange in Hd.
  rewrite Hix by auto. rewrite map_map. apply map_ext. intros i. cbn [fst snd]. replace (i + znth 0 D d - i) with (znth 0 D d) by lia.
  rewrite fpos_nth by auto. reflexivity.
Qed.

Theorem convert_csr2dia_wp (HZ : eqb_zero S) jw ji jv flag (A : csr T) (Q : dia T * csr T -> Prop) :
  csr_ok A -> csr_exact A -> csr_np A = csr_n A -> 0 < csr_nnz A -> (flag = true -> rows_sorted A) -> no_dup_pos (csr_entries A) ->
  (forall B A', dia_ok B -> dia_n B = csr_n A -> csr_ok A' -> Permutation (csr_entries A') (csr_entries A) ->
     same_entries (dia_entries B) (csr_entries A) -> Q (B, A')) ->
  wp (convert_csr2dia jw ji jv flag A) Q.
Proof.
  intros Hok0 Hex0 Hsq Hpos Hfl Hnd0 HQ. unfold convert_csr2dia. cbv zeta.
  apply wp_bind, sort_csr_wp; auto. intros A' Hok Hex Hsort En Enp Ennz Eptr HPA.
  assert (Hnd : no_dup_pos (csr_entries A')) by (eapply no_dup_perm; [apply Permutation_sym; exact HPA|auto]).
  rewrite <- En, <- Ennz. rewrite <- Ennz in Hpos. rewrite <- En, <- Enp in Hsq.
  pose proof Hok as (Hp & Hnp & Hnnz & Hli & Hlv & Hix). pose proof Hp as (Hn & Hlp & Hp0 & Hpm).
  set (n := csr_n A') in *. set (nnz := csr_nnz A') in *. set (ptr := csr_ptr A') in *.
  (* offsets *)
  set (off := fun i k => znth 0 (csr_index A') k - i).
  apply wp_bind.
  apply (for_ptr_pos (fun k w => zlen w = nnz /\ forall i t, 0 <= i < n -> znth 0 ptr i <= t < znth 0 ptr (i + 1) -> t < k -> znth 0 w t = off i t)); auto.
  { rewrite zlen_alloc by lia. split; auto. intros i t Hi Ht Hlt. pose proof (ptr_ok_bounds n ptr i t Hp Hi Ht). lia. }
  { intros i k w Hi Hk Hkn (Lw & Hw). wrd 0; [fold nnz in Hli; lia|]. apply wp_wr; [lia|]. rewrite zlen_zupd. split; auto.
    intros i' t Hi' Ht Hlt. rewrite znth_zupd by lia. destruct (Z.eqb_spec t k); [|apply Hw; auto; lia].
    subst t. assert (i' = i). { destruct (Z.lt_trichotomy i' i) as [Hl|[Hl|Hl]]; auto.
      - pose proof (ptr_ok_mono n ptr (i' + 1) i Hp ltac:(lia) ltac:(lia)). lia.
      - pose proof (ptr_ok_mono n ptr (i + 1) i' Hp ltac:(lia) ltac:(lia)). lia. } subst. reflexivity. }
  fold n ptr nnz in Hnnz. rewrite Hnnz. intros w1 (Lw1 & Hw1).
  destruct (lis_sort_i_final 0 (nnz - 1) w1) as (L & E & (LL & HPL & _ & Hsl)); try lia.
  apply wp_bind. rewrite E. cbn [wp]. clear E.
  rewrite Lw1 in LL.
  replace (nnz - 1 + 1) with nnz in HPL by lia.
  assert (HPL' : Permutation L w1).
  { pose proof (Permutation_map fst HPL) as HM. rewrite !map_map in HM. cbn [fst] in HM.
    rewrite (list_table 0 L), (list_table 0 w1), LL, Lw1. exact HM. }
  assert (HLs : forall p q, 0 <= p <= q -> q < zlen L -> znth 0 L p <= znth 0 L q).
  { intros p q Hpq Hq. specialize (Hsl p q ltac:(lia) ltac:(lia)). apply Z.ltb_ge in Hsl. lia. }
  destruct (uniq_spec L HLs) as [HD HDin]. set (D := uniq L) in *.
  assert (HLcons : L = znth 0 L 0 :: map (znth 0 L) (zrange 1 nnz)).
  { rewrite (list_table 0 L) at 1. rewrite LL. rewrite zrange_cons by lia. reflexivity. }
  assert (Hpre1 : forall d, prefix d L -> d <> [] -> zlen (uniq d) = zlen (uniq d)) by auto. clear Hpre1.
  wrd 0; [lia|].
  (* count *)
  apply wp_bind.
  apply (for_list (fun d s => d <> [] /\ s = (zlen (uniq d), znth 0 (uniq d) (zlen (uniq d) - 1))) L (znth 0 L) 1 nnz _ [znth 0 L 0]); try lia.
  { cbn [app]. rewrite <- HLcons. apply prefix_refl. }
  { split; [discriminate|]. reflexivity. }
  { intros i [nnd k] d Hi _ _ (Hd & Es). inversion Es; subst nnd k. wrd 0; [lia|]. apply wp_ok. split; [destruct d; discriminate|].
    rewrite uniq_snoc. unfold ustep. pose proof (uniq_pos d Hd). destruct (Z.ltb_spec 0 (zlen (uniq d))); [|lia]. cbn [andb].
    destruct (Z.eqb_spec (znth 0 (uniq d) (zlen (uniq d) - 1)) (znth 0 L i)) as [Eq|Ne]; cbn [negb]; auto.
    rewrite zlen_app. change (zlen [_]) with 1. f_equal. replace (zlen (uniq d) + 1 - 1) with (zlen (uniq d)) by lia. rewrite znth_snoc_last. auto. }
  cbn [app]. rewrite <- HLcons. intros [nnd k] (HLne & Es). fold D in Es. inversion Es; subst nnd k. clear Es.
  assert (HDpos : 0 < zlen D) by (apply uniq_pos; auto).
  assert (Hn0 : 0 < n). { destruct (Z.eq_dec n 0); [|lia]. rewrite e in Hnnz. rewrite Hp0 in Hnnz. lia. }
  wrd 0; [lia|]. wwr; [rewrite zlen_alloc by nia; nia|].
  (* index *)
  apply wp_bind.
  apply (for_list (fun d s => let '(j, k, ix) := s in d <> [] /\ j = zlen (uniq d) /\ k = znth 0 (uniq d) (zlen (uniq d) - 1) /\ zlen ix = n * zlen D /\
      forall t, 0 <= t < zlen (uniq d) -> znth 0 ix t = znth 0 (uniq d) t) L (znth 0 L) 1 nnz _ [znth 0 L 0]); try lia.
  { cbn [app]. rewrite <- HLcons. apply prefix_refl. }
  { split; [discriminate|]. rewrite zlen_zupd, zlen_alloc by nia. split; [reflexivity|]. split; [reflexivity|]. split; [reflexivity|].
    intros t Ht. change (zlen (uniq [znth 0 L 0])) with 1 in Ht. replace t with 0 by lia. rewrite znth_zupd_eq by (rewrite zlen_alloc; nia). reflexivity. }
  { intros i [[j k] ix] d Hi _ Hpre (Hd & -> & -> & Lix & Hx). wrd 0; [lia|].
    assert (Hul : zlen (uniq (d ++ [znth 0 L i])) <= zlen D).
    { destruct Hpre as [r Hr]. unfold D. replace (uniq L) with (uniq ((d ++ [znth 0 L i]) ++ r)) by (f_equal; symmetry; exact Hr). generalize (d ++ [znth 0 L i]). intros dd. clear.
      induction r as [|x r IH] using rev_ind; [rewrite app_nil_r; lia|]. rewrite app_assoc, uniq_snoc. unfold ustep.
      destruct ((0 <? zlen (uniq (dd ++ r))) && _); [auto|]. rewrite zlen_app. change (zlen [x]) with 1. lia. }
    rewrite uniq_snoc in Hul. unfold ustep in Hul. pose proof (uniq_pos d Hd). destruct (Z.ltb_spec 0 (zlen (uniq d))); [|lia]. cbn [andb] in Hul.
    destruct (Z.eqb_spec (znth 0 (uniq d) (zlen (uniq d) - 1)) (znth 0 L i)) as [Eq|Ne]; cbn [negb]; auto.
    - apply wp_ok. rewrite uniq_snoc. unfold ustep. destruct (Z.ltb_spec 0 (zlen (uniq d))); [|lia]. cbn [andb].
      apply Z.eqb_eq in Eq. rewrite Eq. split; [destruct d; discriminate|]. auto.
    - rewrite zlen_app in *. change (zlen [_]) with 1 in *. wwr; [nia|]. apply wp_ok. rewrite uniq_snoc. unfold ustep.
      destruct (Z.ltb_spec 0 (zlen (uniq d))); [|lia]. cbn [andb]. apply Z.eqb_neq in Ne. rewrite Ne.
      split; [destruct d; discriminate|]. rewrite zlen_zupd, zlen_app. change (zlen [_]) with 1. split; auto.
      split. { replace (zlen (uniq d) + 1 - 1) with (zlen (uniq d)) by lia. rewrite znth_snoc_last. auto. }
      split; auto. intros t Ht. rewrite znth_zupd by nia. destruct (Z.eqb_spec t (zlen (uniq d))).
      + subst t. rewrite znth_snoc_last. auto.
      + rewrite znth_snoc_lt by lia. apply Hx; lia. }
  cbn [app]. rewrite <- HLcons. intros [[j k] ix] (_ & _ & _ & Lix & Hidx). fold D in Hidx. clear j k.
  (* zero *)
  apply wp_bind, (for_set s0 (fun _ => s0)); rewrite ?zlen_alloc by nia; [nia|nia|].
  intros v0 Lv0 Zv0 _.
  set (P := dia_pos n (zlen D) D). set (loc := fun p : Z * Z => fpos D (snd p - fst p) * n + fst p).
  assert (Hinj : forall p q, In p P -> In q P -> loc p = loc q -> p = q).
  { intros [a b] [c d] H1 H2. apply In_dia_pos in H1; auto. apply In_dia_pos in H2; auto. destruct H1 as (H1 & H1' & H1''), H2 as (H2 & H2' & H2'').
    unfold loc; cbn. intros Eq. apply mul_inj in Eq; auto. destruct Eq as [Eq <-].
    destruct (fpos_range D _ H1'') as [_ F1]. destruct (fpos_range D _ H2'') as [_ F2]. rewrite Eq in F1. f_equal. lia. }
  assert (Hoff : forall i k, 0 <= i < n -> znth 0 ptr i <= k < znth 0 ptr (i + 1) -> In (off i k) D).
  { intros i k Hi Hk. apply HDin. apply (Permutation_in _ (Permutation_sym HPL')).
    pose proof (ptr_ok_bounds n ptr i k Hp Hi Hk). rewrite <- (Hw1 i k Hi Hk) by lia. apply znth_In. lia. }
  assert (Hcol : forall i k, 0 <= i < n -> znth 0 ptr i <= k < znth 0 ptr (i + 1) -> 0 <= znth 0 (csr_index A') k < n).
  { intros i k Hi Hk. pose proof (ptr_ok_bounds n ptr i k Hp Hi Hk). rewrite <- Hsq. apply Hix. fold nnz. lia. }
  assert (HlocB : forall p, In p P -> 0 <= loc p < n * zlen D).
  { intros [a b] H1. apply In_dia_pos in H1; auto. destruct H1 as (H1 & H1' & H1''). destruct (fpos_range D _ H1'') as [F _]. unfold loc; cbn.
    rewrite (Z.mul_comm n). apply mul_range; auto. }
  apply wp_bind.
  apply (for_items (fun d v => zlen v = n * zlen D /\ loc_rep P loc d v) (csr_entries A')
     (fun i => map (fun k => (i, znth 0 (csr_index A') k, znth s0 (csr_value A') k) : entry T) (zrange (znth 0 ptr i) (znth 0 ptr (i + 1)))) 0 n _ []); try lia.
  { apply prefix_refl. }
  { split; [lia|]. intros p Hpp. apply Zv0. apply HlocB; auto. }
  { intros i v d Hi _ Hpre (Lv & HL). fold ptr. wrd 0; [lia|]. wrd 0; [lia|].
    apply wp_bind.
    set (f := fun k => (i, znth 0 (csr_index A') k, znth s0 (csr_value A') k) : entry T) in *.
    apply (for_wp' (fun p s => let '(k, v) := s in zlen v = n * zlen D /\ loc_rep P loc (d ++ map f (zrange (znth 0 ptr i) p)) v /\
        0 <= k < zlen D /\ (p < znth 0 ptr (i + 1) -> k <= fpos D (off i p)))).
    - apply Hpm; auto.
    - rewrite zrange_empty by lia. cbn [map]. rewrite app_nil_r. split; auto. split; auto. split; [lia|]. intros Hlt.
      destruct (fpos_range D (off i (znth 0 ptr i))) as [F _]; [apply Hoff; auto; lia|lia].
    - intros p [k v'] Hpp (Lv' & HL' & Hk & Hkle). specialize (Hkle ltac:(lia)).
      pose proof (ptr_ok_bounds n ptr i p Hp Hi Hpp) as Hpb. pose proof (Hoff i p Hi Hpp) as Hino. destruct (fpos_range D _ Hino) as [F1 F2].
      pose proof (Hcol i p Hi Hpp) as Hc.
      wrd 0; [lia|]. fold (off i p).
      apply wp_bind. apply (while_wp (fun k => 0 <= k <= fpos D (off i p)) (fun k => fpos D (off i p) - k)); [lia|lia|].
      intros k' Hk'. split; [lia|]. wrd 0; [nia|]. apply wp_ok. rewrite Hidx by lia.
      destruct (Z.eqb_spec (off i p) (znth 0 D k')) as [Eq|Ne]; cbn [negb].
      + assert (k' = fpos D (off i p)) by (rewrite Eq, fpos_nth; auto; lia). subst k'.
        wrd s0; [lia|].
        replace (fpos D (off i p) * n + i) with (loc (i, znth 0 (csr_index A') p)) by (unfold loc, off; cbn; reflexivity).
        assert (HinP : In (i, znth 0 (csr_index A') p) P) by (apply In_dia_pos; auto).
        wwr; [rewrite Lv'; apply HlocB; auto|]. apply wp_ok. rewrite zlen_zupd. split; auto. split.
        * rewrite zrange_snoc, map_app, app_assoc by lia. apply (loc_step P loc _ v' (f p)); auto. rewrite Lv'. apply HlocB; auto.
        * split; [lia|]. intros Hlt. apply fpos_mono; auto. { apply Hoff; auto; lia. }
          unfold off. specialize (Hsort i p (p + 1) Hi). fold ptr in Hsort. lia.
      + assert (k' <> fpos D (off i p)) by (intros ->; congruence). apply wp_ok. lia.
    - intros [k v'] (Lv' & HL' & _). apply wp_ok. split; auto. }
  cbn [app]. intros v (Lv & HL). change (flat_map _ (zrange 0 n)) with (csr_entries A') in HL. apply wp_ok.
  apply HQ; auto.
  - unfold dia_ok; cbn. rewrite <- Hsq. fold n. rewrite Lix, Lv. repeat split; auto; nia.
  - apply (same_trans _ (csr_entries A')); [|apply same_perm; exact HPA].
    rewrite (dia_entries_pos _ D); auto. cbn [dia_n dia_value]. fold P.
    rewrite (map_ext_in _ (fun p => (fst p, snd p, lastval (csr_entries A') p) : entry T)).
    + apply (same_of_positions HZ); auto.
      * apply NoDup_dia_pos; auto.
      * intros e He. rewrite csr_entries_items in He. apply In_ptr_items in He; auto. destruct He as (i & k & Hi & Hk & _ & ->). cbn [fst].
        apply In_dia_pos; auto. split; auto. split; [eapply Hcol; eauto|]. apply Hoff; auto.
    + intros p Hpp. rewrite <- HL by auto. reflexivity.
Qed.

(** ** DIA -> CSR *)
Theorem convert_dia2csr_wp jw jp ji jv (A : dia T) (Q : csr T -> Prop) :
  dia_ok A ->
  (forall B, csr_ok B -> csr_n B = dia_n A -> csr_np B = dia_np A ->
     csr_entries B = flat_map (fun r => bucket erow r (nz (dia_entries A))) (zrange 0 (dia_n A)) -> Q B) ->
  wp (convert_dia2csr jw jp ji jv A) Q.
Proof.
  intros Hok HQ. pose proof Hok as (Hn & Hnp & Hm & Li & Lv).
  set (n := dia_n A) in *. set (m := dia_nnd A) in *.
  set (jj := fun j => znth 0 (dia_index A) j).
  set (js := fun j => Z.max 0 (- jj j)). set (je := fun j => Z.min n (n - jj j)).
  set (f := fun j i => (i, i + jj j, znth s0 (dia_value A) (j * n + i)) : entry T).
  set (total := nz (dia_entries A)).
  assert (Htot : total = flat_map (fun j => flat_map (fun i => nz [f j i]) (zrange (js j) (je j))) (zrange 0 m))
    by apply (nz_flat2 f js je).
  assert (Hsh : in_shape n (dia_np A) total).
  { apply nz_in_shape. intros e He. apply in_flat_map in He. destruct He as (j & Hj & He).
    apply in_map_iff in He. destruct He as (i & <- & Hi). apply In_zrange in Hi. unfold erow, ecol; cbn. fold n in Hi. rewrite Hnp. fold n. lia. }
  assert (Hkey : forall e, In e total -> 0 <= erow e < n) by (intros; apply Hsh; auto).
  unfold convert_dia2csr. cbv zeta. fold n m.
  wwr; [rewrite zlen_alloc; lia|].
  apply wp_bind.
  apply (for_wp' (fun i w => zlen w = n + 1 /\ forall q, 0 <= q <= i -> znth 0 w q = 0)); try lia.
  { rewrite zlen_zupd, zlen_alloc by lia. split; auto. intros q Hq. replace q with 0 by lia. apply znth_zupd_eq. rewrite zlen_alloc; lia. }
  { intros i w Hi (Lw & Hw). wwr; [lia|]. rewrite zlen_zupd. split; auto. intros q Hq. rewrite znth_zupd by lia.
    destruct (Z.eqb_spec q (i + 1)); auto. apply Hw; lia. }
  intros w1 (L1 & Z1).
  apply wp_bind.
  apply (for_items0 (fun d w => zlen w = n + 1 /\ znth 0 w 0 = 0 /\ count_rep erow n 1 d w) total
      (fun j => flat_map (fun i => nz [f j i]) (zrange (js j) (je j))) 0 m _ []).
  { cbn [app]. rewrite <- Htot. apply prefix_refl. }
  { split; auto. split; [apply Z1; lia|]. intros r Hr. rewrite Z1 by lia. reflexivity. }
  { intros j w d Hj _ Hpre (Lw & W0 & Hc). wrd 0; [lia|]. change (Z.max 0 (- znth 0 (dia_index A) j)) with (js j). change (Z.min n (n - znth 0 (dia_index A) j)) with (je j).
    apply (for_items0 (fun d w => zlen w = n + 1 /\ znth 0 w 0 = 0 /\ count_rep erow n 1 d w) total (fun i => nz [f j i]) (js j) (je j) _ d); auto.
    intros i w' d' Hi _ _ (Lw' & W0' & Hc'). wrd s0; [unfold js, je in Hi; nia|].
    replace (nz [f j i]) with (if nonzero (znth s0 (dia_value A) (j * n + i)) then [f j i] else []) by reflexivity.
    destruct (nonzero (znth s0 (dia_value A) (j * n + i))).
    - unfold incr. unfold js, je in Hi. wrd 0; [lia|]. apply wp_wr; [lia|]. rewrite zlen_zupd. split; auto. split; [rewrite znth_zupd_neq by lia; auto|].
      apply (count_step erow n 1 d' w' (f j i) Hc'); unfold f, erow; cbn; lia.
    - apply wp_ok. rewrite app_nil_r. auto. }
  cbn [app]. rewrite <- Htot. intros w2 (L2 & W2 & C2).
  apply wp_bind, (prefix_self_start erow total); auto; try lia. intros w3 L3 H3.
  wrd 0; [lia|]. rewrite H3 by lia. rewrite (start_total erow n total Hkey). pose proof (zlen_nonneg total).
  wwr; [rewrite zlen_alloc; lia|].
  apply wp_bind.
  apply (for_wp' (fun i p => zlen p = n + 1 /\ forall q, 0 <= q <= i -> znth 0 p q = start erow total q)); try lia.
  { rewrite zlen_zupd, zlen_alloc by lia. split; auto. intros q Hq. replace q with 0 by lia. rewrite znth_zupd_eq by (rewrite zlen_alloc; lia). reflexivity. }
  { intros i p Hi (Lp & Hp). wrd 0; [lia|]. apply wp_wr; [lia|]. rewrite zlen_zupd. split; auto. intros q Hq. rewrite znth_zupd by lia.
    destruct (Z.eqb_spec q (i + 1)); [subst; apply H3; lia|apply Hp; lia]. }
  intros ptr (Lp & Hptr).
  apply wp_bind.
  set (R := fun d s => let '(w, ix, vl) := s in zlen w = n + 1 /\ zlen ix = zlen total /\ zlen vl = zlen total /\
       fill_rep erow ecol eval s0 n total d w ix vl).
  apply (for_items0 R total (fun j => flat_map (fun i => nz [f j i]) (zrange (js j) (je j))) 0 m _ []).
  { cbn [app]. rewrite <- Htot. apply prefix_refl. }
  { unfold R. rewrite !zlen_alloc by lia. split; [lia|]. split; auto. split; auto. apply fill_init. intros r Hr. apply H3; lia. }
  { intros j s d Hj _ Hpre HR. wrd 0; [lia|]. change (Z.max 0 (- znth 0 (dia_index A) j)) with (js j). change (Z.min n (n - znth 0 (dia_index A) j)) with (je j).
    apply (for_items0 R total (fun i => nz [f j i]) (js j) (je j) _ d); auto.
    intros i [[w ix] vl] d' Hi _ Hp (Lw & Lix & Lvl & HF). wrd s0; [unfold js, je in Hi; nia|].
    replace (nz [f j i]) with (if nonzero (znth s0 (dia_value A) (j * n + i)) then [f j i] else []) in * by reflexivity.
    destruct (nonzero (znth s0 (dia_value A) (j * n + i))).
    - unfold js, je in Hi. pose proof (fill_step erow ecol eval s0 n total d' w ix vl (f j i) Hkey Hp ltac:(lia) ltac:(lia) ltac:(lia) HF) as HS.
      cbv zeta in HS. change (erow (f j i)) with i in HS. destruct HS as [HS1 HS2].
      wrd 0; [lia|]. wwr; [lia|]. wwr; [lia|]. wwr; [lia|]. apply wp_ok. unfold R. rewrite !zlen_zupd. split; [auto|]. split; [auto|]. split; [auto|]. exact HS2.
    - apply wp_ok. rewrite app_nil_r. unfold R. auto. }
  cbn [app]. rewrite <- Htot. intros [[w ix] vl] (Lw & Lix & Lvl & HF). apply wp_ok.
  eapply (csr_of_fill n (dia_np A) (zlen total) total ptr) in HF; auto; try lia.
  cbv zeta in HF. destruct HF as [HF1 HF2]. apply HQ; auto.
Qed.

End DiaProof.
