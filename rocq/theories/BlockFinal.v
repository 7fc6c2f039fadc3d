(** Statements about the blocked formats, assembled from the loop proofs *)
Require Import ZArith List Bool Lia Permutation.
From Verif Require Import Base Scalar Spec Items Csc Coo Fmt Dia Bsr Vbr BsrFinal Unblk VbrFinal VbrAuto.
Import ListNotations.
Open Scope Z_scope.

Section BF.
Context (T : Type) (S : Scalar T).

Lemma nz_nz (E : list (entry T)) : nz (nz E) = nz E.
Proof. unfold nz. induction E as [|e E IH]; cbn; auto. destruct (nonzero (eval e)) eqn:H; cbn; rewrite ?H, IH; auto. Qed.
Lemma same_back (E F G : list (entry T)) : Permutation G (nz E) -> same_entries E F -> same_entries G F.
Proof. intros H1 H2. unfold same_entries in *. etransitivity; [apply nz_perm; exact H1|]. rewrite nz_nz. auto. Qed.

Lemma csr2bsr_final : eqb_zero S -> forall jb jw jw2 jw3 ji (jv : Z -> T) bnr bnc (A : csr T),
  csr_ok A -> 0 < csr_n A -> csr_np A = csr_n A -> 0 < bnr -> 0 < bnc -> no_dup_pos (csr_entries A) ->
  exists B, convert_csr2bsr jb jw jw2 jw3 ji jv bnr bnc A = Ok B /\ bsr_ok B /\ bsr_n B = csr_n A /\ bsr_np B = csr_np A /\
     bsr_bnr B = bnr /\ bsr_bnc B = bnc /\ same_entries (bsr_entries B) (csr_entries A).
Proof. intros. apply wp_inv. apply csr2bsr_wp; auto. Qed.
Lemma bsr2csr_final : forall jp ji (jv : Z -> T) (A : bsr T), bsr_ok A ->
  exists B, convert_bsr2csr jp ji jv A = Ok B /\ csr_ok B /\ csr_n B = bsr_n A /\ csr_np B = bsr_np A /\
    Permutation (csr_entries B) (nz (bsr_entries A)).
Proof. intros. apply wp_inv. apply bsr2csr_wp; auto. Qed.
Lemma bsr_round_final : eqb_zero S -> forall jb jw jw2 jw3 ji (jv : Z -> T) jp' ji' jv' bnr bnc (A : csr T),
  csr_ok A -> 0 < csr_n A -> csr_np A = csr_n A -> 0 < bnr -> 0 < bnc -> no_dup_pos (csr_entries A) ->
  exists B C, convert_csr2bsr jb jw jw2 jw3 ji jv bnr bnc A = Ok B /\ convert_bsr2csr jp' ji' jv' B = Ok C /\ csr_ok C /\
     csr_n C = csr_n A /\ csr_np C = csr_np A /\ same_entries (csr_entries C) (csr_entries A).
Proof.
  intros HZ jb jw jw2 jw3 ji jv jp' ji' jv' bnr bnc A H1 H2 H3 H4 H5 H6.
  destruct (csr2bsr_final HZ jb jw jw2 jw3 ji jv bnr bnc A H1 H2 H3 H4 H5 H6) as (B & E & Hok & En & Enp & _ & _ & HS).
  destruct (bsr2csr_final jp' ji' jv' B Hok) as (C & EC & HC & En' & Enp' & HP).
  exists B, C. split; auto. split; auto. split; auto. split; [congruence|]. split; [congruence|]. eapply same_back; eauto.
Qed.

Lemma csc2bsc_final : eqb_zero S -> forall jb jw jw2 jw3 ji (jv : Z -> T) b (A : csc T),
  csc_ok A -> 0 < csc_n A -> csc_np A = csc_n A -> 0 < b -> no_dup_pos (csc_entries A) ->
  exists B, convert_csc2bsc jb jw jw2 jw3 ji jv b b A = Ok B /\ bsc_ok B /\ bsc_n B = csc_n A /\ bsc_np B = csc_np A /\
     bsc_bnr B = b /\ bsc_bnc B = b /\ same_entries (bsc_entries B) (csc_entries A).
Proof. intros. apply wp_inv. apply csc2bsc_wp; auto. Qed.
Lemma bsc2csr_final : forall jw jp ji (jv : Z -> T) (A : bsc T), bsc_ok A ->
  exists B, convert_bsc2csr jw jp ji jv A = Ok B /\ csr_ok B /\ csr_n B = bsc_n A /\ csr_np B = bsc_np A /\
    Permutation (csr_entries B) (nz (bsc_entries A)).
Proof. intros. apply wp_inv. apply bsc2csr_wp; auto. Qed.

Lemma csr2vbr_with_final : eqb_zero S -> forall jb jc jp2 jw jw2 jw3 jptr ji (jv : Z -> T) nr nc row col (A : csr T),
  csr_ok A -> csr_np A = csr_n A -> no_dup_pos (csr_entries A) ->
  ptr_ok nr row -> znth 0 row nr = csr_n A -> ptr_ok nc col -> znth 0 col nc = csr_n A ->
  exists B, csr2vbr_with jb jc jp2 jw jw2 jw3 jptr ji jv nr nc row col A = Ok B /\ vbr_ok B /\ vbr_n B = csr_n A /\ vbr_np B = csr_np A /\
     vbr_nr B = nr /\ vbr_nc B = nc /\ vbr_row B = row /\ vbr_col B = col /\ same_entries (vbr_entries B) (csr_entries A).
Proof. intros. apply wp_inv. eapply wp_mono; [apply csr2vbr_with_wp; auto; split; auto|]. intros B HB. cbv beta in HB |- *. decompose [and] HB. auto 12. Qed.
Lemma csr2vbr_final : eqb_zero S -> forall jb jc jp2 jw jw2 jw3 jptr ji (jv : Z -> T) flag (A : csr T),
  csr_ok A -> csr_exact A -> csr_np A = csr_n A -> no_dup_pos (csr_entries A) -> (flag = true -> rows_sorted A) ->
  csr_n A = 0 \/ (exists e, In e (csr_entries A) /\ ecol e = csr_n A - 1) ->
  exists B, convert_csr2vbr jb jc jp2 jw jw2 jw3 jptr ji jv flag A = Ok B /\ vbr_ok B /\ vbr_n B = csr_n A /\ vbr_np B = csr_np A /\
     same_entries (vbr_entries B) (csr_entries A).
Proof. intros. apply wp_inv. eapply wp_mono; [apply csr2vbr_wp; auto|]. intros B HB. cbv beta in HB |- *. decompose [and] HB. auto 12. Qed.
Lemma vbr2csr_final : forall jp ji (jv : Z -> T) (A : vbr T), vbr_ok A ->
  exists B, convert_vbr2csr jp ji jv A = Ok B /\ csr_ok B /\ csr_n B = vbr_n A /\ csr_np B = vbr_np A /\
    Permutation (csr_entries B) (nz (vbr_entries A)).
Proof. intros. apply wp_inv. apply vbr2csr_wp; auto. Qed.
Lemma vbr_round_final : eqb_zero S -> forall jb jc jp2 jw jw2 jw3 jptr ji (jv : Z -> T) jp' ji' jv' flag (A : csr T),
  csr_ok A -> csr_exact A -> csr_np A = csr_n A -> no_dup_pos (csr_entries A) -> (flag = true -> rows_sorted A) ->
  csr_n A = 0 \/ (exists e, In e (csr_entries A) /\ ecol e = csr_n A - 1) ->
  exists B C, convert_csr2vbr jb jc jp2 jw jw2 jw3 jptr ji jv flag A = Ok B /\ convert_vbr2csr jp' ji' jv' B = Ok C /\ csr_ok C /\
     csr_n C = csr_n A /\ csr_np C = csr_np A /\ same_entries (csr_entries C) (csr_entries A).
Proof.
  intros HZ jb jc jp2 jw jw2 jw3 jptr ji jv jp' ji' jv' flag A H1 H2 H3 H4 H5 H6.
  destruct (csr2vbr_final HZ jb jc jp2 jw jw2 jw3 jptr ji jv flag A H1 H2 H3 H4 H5 H6) as (B & E & Hok & En & Enp & HS).
  destruct (vbr2csr_final jp' ji' jv' B Hok) as (C & EC & HC & En' & Enp' & HP).
  exists B, C. split; auto. split; auto. split; auto. split; [congruence|]. split; [congruence|]. eapply same_back; eauto.
Qed.
End BF.
