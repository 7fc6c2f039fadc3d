(** Proofs about Dns.v *)
Require Import ZArith List Bool Lia Permutation.
From Verif Require Import Base Scalar Spec Items Csc CscProof Fmt Dns.
Import ListNotations.
Open Scope Z_scope.

Section DnsProof.
Context {T : Type} {S : Scalar T}.

Lemma dns_positions (A : dns T) :
  dns_entries A = map (fun p => (fst p, snd p, znth s0 (dns_value A) (snd p * dns_n A + fst p)) : entry T)
    (flat_map (fun j => map (fun i => (i, j)) (zrange 0 (dns_n A))) (zrange 0 (dns_np A))).
Proof.
  unfold dns_entries. rewrite map_flat_map. apply flat_map_ext_in. intros j _. rewrite map_map. reflexivity.
Qed.

Lemma NoDup_grid n m : NoDup (flat_map (fun j => map (fun i => (i, j)) (zrange 0 n)) (zrange 0 m)).
Proof.
  assert (G : forall l : list Z, NoDup l -> NoDup (flat_map (fun j => map (fun i => (i, j)) (zrange 0 n)) l)).
  { induction l; simpl; intros H; [constructor|]. inversion H; subst.
    assert (NDapp : forall (X Y : list (Z * Z)), NoDup X -> NoDup Y -> (forall x, In x X -> ~ In x Y) -> NoDup (X ++ Y)).
    { clear. induction X; simpl; intros; auto. inversion H; subst. constructor.
      - rewrite in_app_iff. intros [?|?]; [auto|]. eapply H1; eauto.
      - apply IHX; auto. }
    apply NDapp; auto.
    - apply FinFun.Injective_map_NoDup; [intros x y E; inversion E; auto|apply NoDup_zrange].
    - intros x Hx Hy. apply in_map_iff in Hx. destruct Hx as (i & <- & _).
      apply in_flat_map in Hy. destruct Hy as (j & Hj & Hy). apply in_map_iff in Hy. destruct Hy as (i' & E & _).
      inversion E; subst; auto. }
  apply G. apply NoDup_zrange.
Qed.

Lemma In_grid n m i j : In (i, j) (flat_map (fun j => map (fun i => (i, j)) (zrange 0 n)) (zrange 0 m)) <-> 0 <= i < n /\ 0 <= j < m.
Proof.
  rewrite in_flat_map. split.
  - intros (j' & Hj & H). apply in_map_iff in H. destruct H as (i' & E & Hi). inversion E; subst.
    apply In_zrange in Hj. apply In_zrange in Hi. auto.
  - intros [Hi Hj]. exists j. split; [apply In_zrange; auto|]. apply in_map_iff. exists i. split; auto. apply In_zrange; auto.
Qed.

Theorem convert_csr2dns_wp (HZ : eqb_zero S) jv (A : csr T) (Q : dns T -> Prop) :
  csr_ok A -> no_dup_pos (csr_entries A) ->
  (forall B, dns_ok B -> dns_n B = csr_n A -> dns_np B = csr_np A ->
     same_entries (dns_entries B) (csr_entries A) -> Q B) ->
  wp (convert_csr2dns jv A) Q.
Proof.
  intros Hok Hnd HQ. pose proof Hok as (Hp & Hnp & Hnnz & Hli & Hlv & Hix).
  assert (Hn : 0 <= csr_n A) by apply Hp.
  set (n := csr_n A) in *. set (np := csr_np A) in *.
  unfold convert_csr2dns. cbv zeta. fold n np.
  set (P := flat_map (fun j => map (fun i => (i, j)) (zrange 0 n)) (zrange 0 np)).
  set (loc := fun p : Z * Z => snd p * n + fst p).
  assert (Hinj : forall p q, In p P -> In q P -> loc p = loc q -> p = q).
  { intros [a b] [c d] H1 H2. apply In_grid in H1. apply In_grid in H2. unfold loc; cbn. intros E.
    apply mul_inj in E; try lia. destruct E; subst; auto. }
  apply wp_bind, (for2_set s0 s0); try lia; [rewrite zlen_alloc by nia; lia|].
  rewrite zlen_alloc by nia. intros v1 L1 Z1.
  apply wp_bind.
  apply (for_ptr_items (fun d v => zlen v = np * n /\ loc_rep P loc d v) (csr_entries A)
          (fun i k => (i, znth 0 (csr_index A) k, znth s0 (csr_value A) k) : entry T) _ _ _ []); auto.
  - apply prefix_refl.
  - split; auto. intros [i j] H. apply In_grid in H. unfold loc; cbn [fst snd]. rewrite Z1 by nia. reflexivity.
  - intros i k v d Hi Hk Hkn _ (Lv & HL). rewrite Hnnz in Hkn. pose proof (Hix k Hkn).
    wrd 0; [lia|]. wrd s0; [lia|].
    replace (i + n * znth 0 (csr_index A) k) with (loc (i, znth 0 (csr_index A) k)) by (unfold loc; cbn; lia).
    apply wp_wr; [unfold loc; cbn; nia|]. rewrite zlen_zupd. split; auto.
    apply (loc_step P loc d v (i, znth 0 (csr_index A) k, znth s0 (csr_value A) k)); auto.
    + apply In_grid; auto.
    + unfold loc; cbn. nia.
  - change ([] ++ ptr_items n (csr_ptr A) (fun i k => (i, znth 0 (csr_index A) k, znth s0 (csr_value A) k) : entry T)) with (csr_entries A).
    intros v (Lv & HL). apply wp_ok. apply HQ; auto.
    + unfold dns_ok; cbn. split; [lia|nia].
    + rewrite dns_positions. cbn [dns_n dns_np dns_value]. fold P.
      rewrite (map_ext_in _ (fun p => (fst p, snd p, lastval (csr_entries A) p) : entry T)).
      * apply (same_of_positions HZ); auto.
        -- apply NoDup_grid.
        -- intros e He. apply (csr_in_shape A Hok) in He. destruct e as [[a b] c]. apply In_grid. exact He.
      * intros p Hpp. rewrite <- HL by auto. reflexivity.
Qed.

(** ** DNS -> CSR *)
Lemma rows_of_grid (f : Z -> Z -> list (entry T)) n np :
  Permutation (flat_map (fun i => flat_map (fun j => f i j) (zrange 0 np)) (zrange 0 n))
              (flat_map (fun j => flat_map (fun i => f i j) (zrange 0 n)) (zrange 0 np)).
Proof. apply flat_map_exchange. Qed.

Definition dns_row (A : dns T) (i : Z) : list (entry T) :=
  nz (map (fun j => (i, j, znth s0 (dns_value A) (j * dns_n A + i)) : entry T) (zrange 0 (dns_np A))).

Lemma dns_rows (A : dns T) : Permutation (flat_map (dns_row A) (zrange 0 (dns_n A))) (nz (dns_entries A)).
Proof.
  unfold dns_row, dns_entries, nz. rewrite filter_flat_map.
  rewrite (flat_map_ext_in (fun j => filter _ _) (fun j => flat_map (fun i => filter (fun e : entry T => nonzero (eval e)) [(i, j, znth s0 (dns_value A) (j * dns_n A + i))]) (zrange 0 (dns_n A))) (zrange 0 (dns_np A))).
  - rewrite <- (flat_map_exchange (fun i j => filter (fun e : entry T => nonzero (eval e)) [(i, j, znth s0 (dns_value A) (j * dns_n A + i))])).
    apply Permutation_flat_map_ext. intros i _. rewrite <- filter_flat_map, flat_map_single. apply Permutation_refl.
  - intros j _. rewrite <- filter_flat_map, flat_map_single. reflexivity.
Qed.

Theorem convert_dns2csr_wp jp ji jv (A : dns T) (Q : csr T -> Prop) :
  dns_ok A ->
  (forall B, csr_ok B -> csr_n B = dns_n A -> csr_np B = dns_np A ->
     csr_entries B = flat_map (dns_row A) (zrange 0 (dns_n A)) -> Q B) ->
  wp (convert_dns2csr jp ji jv A) Q.
Proof.
  intros (Hn & Hv) HQ. unfold convert_dns2csr. cbv zeta.
  set (n := dns_n A) in *. set (np := dns_np A) in *.
  set (f := fun i j => (i, j, znth s0 (dns_value A) (j * n + i)) : entry T).
  assert (Hrow : forall i, dns_row A i = nz (map (f i) (zrange 0 np))) by reflexivity.
  apply wp_bind.
  apply (for_wp' (fun i p => zlen p = n + 1 /\ forall q, 0 <= q < i -> znth 0 p (q + 1) = zlen (dns_row A q))); try lia.
  { rewrite zlen_alloc by lia. split; auto; intros; lia. }
  { intros i p Hi (Lp & Hp). apply wp_bind, wp_wr; [lia|].
    apply (for_wp' (fun j p => zlen p = n + 1 /\ (forall q, 0 <= q < i -> znth 0 p (q + 1) = zlen (dns_row A q)) /\
        znth 0 p (i + 1) = zlen (nz (map (f i) (zrange 0 j))))); try lia.
    - rewrite zlen_zupd. split; auto. split.
      + intros q Hq. rewrite znth_zupd_neq by lia. auto.
      + rewrite znth_zupd_eq by lia. reflexivity.
    - intros j p' Hj (Lp' & Hp' & Hc). apply wp_bind, (wp_rd s0); [nia|].
      rewrite zrange_snoc, map_app, nz_app, zlen_app by lia. cbn [map].
      unfold nz at 2. cbn [filter]. unfold f at 2. unfold eval at 1. cbn [snd].
      destruct (nonzero (znth s0 (dns_value A) (j * n + i))).
      + unfold incr. apply wp_bind, (wp_rd 0); [lia|]. apply wp_wr; [lia|]. rewrite zlen_zupd. split; auto. split.
        * intros q Hq. rewrite znth_zupd_neq by lia. auto.
        * rewrite znth_zupd_eq by lia. rewrite Hc. reflexivity.
      + apply wp_ok. split; auto. split; auto. rewrite Hc. change (zlen (@nil (entry T))) with 0. lia.
    - intros p' (Lp' & Hp' & Hc). split; auto. intros q Hq. destruct (Z.eq_dec q i); [subst; exact Hc|apply Hp'; lia]. }
  intros p1 (Lp1 & Hp1). apply wp_bind, wp_wr; [lia|].
  apply wp_bind. apply (prefix_self (dns_row A)); rewrite ?zlen_zupd; try lia.
  { apply znth_zupd_eq; lia. }
  { intros i Hi. rewrite znth_zupd_neq by lia. apply Hp1; lia. }
  intros ptr Lptr Hptr. apply wp_bind, (wp_rd 0); [lia|].
  set (total := flat_map (dns_row A) (zrange 0 n)).
  rewrite Hptr by lia. fold total. pose proof (zlen_nonneg total).
  apply wp_bind.
  apply (for_items (fun d s => zlen (fst s) = zlen total /\ zlen (snd s) = zlen total /\ emit_rep d (fst s) (snd s)) total (dns_row A) 0 n _ []); try lia.
  { apply prefix_refl. }
  { cbn [fst snd]. rewrite !zlen_alloc by lia. split; auto. split; auto. apply emit_nil. }
  { intros i [ix vl] d Hi Hd Hpre (Li & Lv & HE). cbn [fst snd] in *. cbn [app] in Hd.
    apply wp_bind, (wp_rd 0); [lia|]. rewrite Hptr by lia. rewrite <- Hd.
    apply wp_bind.
    apply (for_wp' (fun j s => let '(k, ix, vl) := s in
        k = zlen (d ++ nz (map (f i) (zrange 0 j))) /\ zlen ix = zlen total /\ zlen vl = zlen total /\
        emit_rep (d ++ nz (map (f i) (zrange 0 j))) ix vl)); try lia.
    - cbn. rewrite app_nil_r. auto.
    - intros j [[k ix'] vl'] Hj (-> & Li' & Lv' & HE'). apply wp_bind, (wp_rd s0); [nia|].
      rewrite zrange_snoc, map_app, nz_app, app_assoc by lia. cbn [map].
      assert (Hpre' : prefix (d ++ nz (map (f i) (zrange 0 (j + 1)))) total).
      { destruct Hpre as [r Hr]. rewrite Hrow in Hr. rewrite (zrange_app 0 (j + 1) np) in Hr by lia.
        rewrite map_app, nz_app in Hr. eexists. rewrite Hr, <- !app_assoc. reflexivity. }
      rewrite zrange_snoc, map_app, nz_app, app_assoc in Hpre' by lia. cbn [map] in Hpre'.
      apply prefix_len in Hpre'.
      set (D := d ++ nz (map (f i) (zrange 0 j))) in *.
      replace (nz [f i j]) with (if nonzero (znth s0 (dns_value A) (j * n + i)) then [f i j] else []) in * by reflexivity.
      destruct (nonzero (znth s0 (dns_value A) (j * n + i))).
      + rewrite zlen_app in *. change (zlen [f i j]) with 1 in *. pose proof (zlen_nonneg D).
        apply wp_bind, wp_wr; [lia|]. apply wp_bind, wp_wr; [lia|]. apply wp_ok. rewrite !zlen_zupd.
        split; [lia|]. split; [auto|]. split; [auto|].
        apply (emit_step D ix' vl' (f i j)); auto; lia.
      + apply wp_ok. rewrite app_nil_r. auto.
    - intros [[k ix'] vl'] (-> & Li' & Lv' & HE'). apply wp_ok. cbn [fst snd]. rewrite Hrow. auto. }
  cbn [app]. intros [ix vl] (Li & Lv & HE). cbn [fst snd] in *. apply wp_ok.
  pose proof (csr_of_emit (dns_row A) n np (zlen total) ptr ix vl) as HC. cbv zeta in HC. fold total in HC.
  destruct HC as [HC1 HC2]; auto; try lia.
  - intros e He. apply in_flat_map in He. destruct He as (i & Hi & He). apply In_zrange in Hi.
    unfold dns_row, nz in He. apply filter_In in He. destruct He as [He _]. apply in_map_iff in He.
    destruct He as (j & <- & Hj). apply In_zrange in Hj. unfold erow, ecol; cbn. fold np in Hj. lia.
  - intros i e Hi He. unfold dns_row, nz in He. apply filter_In in He. destruct He as [He _]. apply in_map_iff in He.
    destruct He as (j & <- & Hj). reflexivity.
Qed.

End DnsProof.
