(** lis_matrix_get_vbr_rowcol and CSR -> VBR without a given partition *)
Require Import ZArith List Bool Lia Permutation.
From Verif Require Import Base Scalar Spec Items Csc CscProof Coo CooProof Fmt EllProof Dia DiaProof JadProof Bsr Vbr BlkProof BlkFill BsrProof BsrFinal Unblk VbrProof VbrFinal.
Import ListNotations.
Open Scope Z_scope.

Section Auto.
Context {T : Type} {S : Scalar T}.

Definition has_col (A : csr T) (c : Z) : Prop := exists e, In e (csr_entries A) /\ ecol e = c.

Lemma get_vbr_rowcol_wp jw (A : csr T) (Q : Z * list Z -> Prop) :
  csr_ok A -> csr_np A = csr_n A -> rows_sorted A ->
  (forall k row, ptr_ok k row -> (0 < csr_n A -> has_col A (csr_n A - 1) -> znth 0 row k = csr_n A) -> znth 0 row k <= csr_n A -> Q (k, row)) ->
  wp (get_vbr_rowcol jw A) Q.
Proof.
  intros (Hp & _ & Hnn & Hli & Hlv & Hix) Hsq Hsort HQ. rewrite Hsq in Hix. pose proof Hp as (Hn & Hlp & Hp0 & Hpm).
  unfold get_vbr_rowcol. cbv zeta. set (n := csr_n A) in *. set (ptr := csr_ptr A) in *. set (index := csr_index A) in *.
  apply wp_bind, (for_set 0 (fun _ => 0)); [lia|rewrite zlen_alloc; lia|]. intros iw Lw Zw _. rewrite zlen_alloc in Lw by lia. wbind.
  apply (for_wp' (fun i w => zlen w = n + 1 /\ ((exists r k, 0 <= r < i /\ znth 0 ptr r <= k < znth 0 ptr (r + 1) /\ znth 0 index k = n - 1) -> znth 0 w n <> 0))); auto.
  { split; auto. intros (r & _ & Hr & _). lia. }
  { clear iw Lw Zw. intros i w Hi (Lw & HW). wrd 0; [fold ptr; lia|]. wrd 0; [fold ptr; lia|]. fold ptr index.
    pose proof (Hpm i Hi) as HM.
    assert (HB : forall k, znth 0 ptr i <= k < znth 0 ptr (i + 1) -> 0 <= k < csr_nnz A) by (intros; rewrite <- Hnn; eapply ptr_ok_bounds; eauto).
    destruct (Z.ltb_spec (znth 0 ptr i) (znth 0 ptr (i + 1))).
    - pose proof (HB (znth 0 ptr i) ltac:(lia)) as HB1. pose proof (Hix _ HB1) as HX1. wrd 0; [lia|]. wwr; [lia|]. wbind.
      apply (for_wp' (fun j s => zlen (snd s) = n + 1 /\ fst s = znth 0 index (j - 1) /\ (znth 0 w n <> 0 -> znth 0 (snd s) n <> 0))); try lia.
      + cbn [fst snd]. rewrite zlen_zupd. split; auto. split; [f_equal; lia|]. intros. rewrite znth_zupd by lia. destruct (_ =? _); [lia|auto].
      + intros j [jj w1] Hj (L1 & E1 & N1). cbn [fst snd] in *. pose proof (HB j ltac:(lia)) as HBj. pose proof (Hix _ HBj) as HXj. pose proof (HB (j - 1) ltac:(lia)) as HBk. pose proof (Hix _ HBk) as HXk.
        wrd 0; [lia|]. wrd 0; [lia|]. replace (j + 1 - 1) with j by lia. destruct (negb _).
        * wwr; [lia|]. wwr; [rewrite ?zlen_zupd; lia|]. apply wp_ok. cbn [fst snd]. rewrite !zlen_zupd. split; auto. split; auto. intros N.
          rewrite znth_zupd by (rewrite ?zlen_zupd; lia). destruct (_ =? _); [lia|]. rewrite znth_zupd by lia. destruct (_ =? _); [lia|auto].
        * apply wp_ok. cbn. auto.
      + intros [jj w1] (L1 & E1 & N1). cbn [fst snd] in *. pose proof (HB (znth 0 ptr (i + 1) - 1) ltac:(lia)) as HBk. pose proof (Hix _ HBk) as HXk.
        apply wp_wr; [lia|]. rewrite zlen_zupd. split; auto. intros (r & k & Hr & Hk & Ek). rewrite znth_zupd by lia.
        destruct (Z.eqb_spec n (jj + 1)); [lia|]. apply N1. destruct (Z.eq_dec r i); [|apply HW; exists r, k; split; [lia|auto]].
        subst r. exfalso. pose proof (Hsort i k (znth 0 ptr (i + 1) - 1) Hi ltac:(fold ptr; lia) ltac:(fold ptr; lia)) as HS. fold index in HS. lia.
    - apply wp_ok. split; auto. intros (r & k & Hr & Hk & Ek). apply HW. exists r, k. assert (r <> i) by (intros ->; lia). split; [lia|auto]. }
  clear iw Lw Zw. intros iw (Lw & HW). wwr; [lia|]. wbind.
  apply (for_wp' (fun i s => let '(k, w) := s in zlen w = n + 1 /\ 0 <= k < i /\ znth 0 w 0 = 0 /\ (forall t, 0 <= t < k -> znth 0 w t < znth 0 w (t + 1)) /\
     znth 0 w k < i /\ (forall j, i <= j <= n -> znth 0 w j = znth 0 iw j) /\ (n < i -> 0 < n -> znth 0 iw n <> 0 -> znth 0 w k = n))); try lia.
  - rewrite zlen_zupd. split; auto. split; [lia|]. rewrite znth_zupd_eq by lia. split; auto. split; [intros; lia|]. split; [lia|]. split; [|lia].
    intros j Hj. rewrite znth_zupd_neq by lia. auto.
  - intros i [k w] Hi (L & Hk & H0 & Hinc & Hlt & Hrest & _). wrd 0; [lia|]. destruct (Z.eqb_spec (znth 0 w i) 0) as [E|N]; cbn [negb].
    + apply wp_ok. split; auto. split; [lia|]. split; auto. split; auto. split; [lia|]. split; [intros; apply Hrest; lia|].
      intros Hin Hn0 HN. exfalso. apply HN. rewrite <- Hrest by lia. assert (i = n) by lia. subst i. auto.
    + wwr; [lia|]. apply wp_ok. rewrite zlen_zupd. split; auto. split; [lia|]. split; [rewrite znth_zupd_neq by lia; auto|]. rewrite znth_zupd_eq by lia.
      split; [|split; [lia|split]].
      * intros t Ht. rewrite (znth_zupd_neq _ _ (k + 1) t) by lia. rewrite znth_zupd by lia. destruct (Z.eqb_spec (t + 1) (k + 1)); [replace t with k by lia; lia|apply Hinc; lia].
      * intros j Hj. rewrite znth_zupd_neq by lia. apply Hrest; lia.
      * intros. lia.
  - intros [k w] (L & Hk & H0 & Hinc & Hlt & _ & Hlast). wbind.
    apply (for_wp' (fun i r => zlen r = k + 1 /\ forall t, 0 <= t < i -> znth 0 r t = znth 0 w t)); try lia.
    + rewrite zlen_alloc by lia. split; auto. intros; lia.
    + intros i r Hi (Lr & Hr). wrd 0; [lia|]. apply wp_wr; [lia|]. rewrite zlen_zupd. split; auto. intros t Ht. rewrite znth_zupd by lia.
      destruct (Z.eqb_spec t i); [subst; auto|apply Hr; lia].
    + intros r (Lr & Hr). apply wp_ok. apply HQ.
      * split; [lia|]. split; [lia|]. split; [rewrite Hr by lia; auto|]. intros i Hi. rewrite !Hr by lia. pose proof (Hinc i Hi). lia.
      * intros Hn0 (e & He & Ec). rewrite Hr by lia. apply Hlast; auto; [lia|]. apply HW. apply in_flat_map in He. destruct He as (i & Hi & He). apply In_zrange in Hi.
        apply in_map_iff in He. destruct He as (q & <- & Hq). apply In_zrange in Hq. exists i, q. split; auto.
      * rewrite Hr by lia. lia.
Qed.

Lemma csr2vbr_wp (HZ : eqb_zero S) jb jc jp2 jw jw2 jw3 jptr ji (jv : Z -> T) flag (A : csr T) :
  csr_ok A -> csr_exact A -> csr_np A = csr_n A -> no_dup_pos (csr_entries A) -> (flag = true -> rows_sorted A) ->
  csr_n A = 0 \/ has_col A (csr_n A - 1) ->
  wp (convert_csr2vbr jb jc jp2 jw jw2 jw3 jptr ji jv flag A) (fun B => vbr_ok B /\ vbr_n B = csr_n A /\ vbr_np B = csr_np A /\
     same_entries (vbr_entries B) (csr_entries A) /\ zlen (vbr_ptr B) = vbr_bnnz B + 1 /\ zlen (vbr_value B) = vbr_nnz B).
Proof.
  intros Hok Hex Hsq Hnd Hfl Hlast. unfold convert_csr2vbr. apply wp_bind, sort_csr_wp; auto.
  intros A' Hok' Hex' Hsort En Enp Ennz Eptr HPA. wbind. apply get_vbr_rowcol_wp; auto; [congruence|]. intros k row Hrow Hl Hle.
  assert (HP : partition_of (csr_n A') k row).
  { split; auto. destruct Hlast as [E0|(e & He & Ec)].
    - pose proof Hrow as (Hk & _ & H0 & _). pose proof (ptr_ok_mono k row 0 k Hrow ltac:(lia) ltac:(lia)). rewrite En, E0 in *. lia.
    - apply Hl.
      + pose proof (csr_in_shape A Hok e He). rewrite En. lia.
      + exists e. split; [|congruence]. eapply Permutation_in; [apply Permutation_sym; exact HPA|auto]. }
  eapply wp_mono; [apply csr2vbr_with_wp; auto; [congruence|]|].
  - eapply no_dup_perm; [apply Permutation_sym; exact HPA|auto].
  - intros B (H1 & H2 & H3 & _ & _ & _ & _ & H4 & H5 & H6). split; auto. split; [congruence|]. split; [congruence|]. split; [|auto].
    unfold same_entries in *. etransitivity; [exact H4|]. apply nz_perm; auto.
Qed.
End Auto.
