(** lis_matrix_convert from any type to any type *)
Require Import ZArith List Bool Lia Permutation.
From Verif Require Import Base Scalar Spec Items Fmt Split SpecSplit SplitProof Sort Csc CscProof Coo CooProof Dns Ell Msr MsrProof Dia DiaProof Jad Bsr Vbr VbrFinal VbrAuto
  ConvFinal FmtFinal BlockFinal Copy SpecCopy CopyFinal Convert SpecConvert ConvertExact.
Import ListNotations.
Open Scope Z_scope.

Section F.
Context {T : Type} {S : Scalar T}.
Variable J : Z -> Z -> Z.
Variable JV : Z -> Z -> T.

Lemma nz_idem' (E : list (entry T)) : nz (nz E) = nz E.
Proof. apply nz_nz. Qed.
Lemma same_nz (E : list (entry T)) : same_entries (nz E) E.
Proof. unfold same_entries. rewrite nz_idem'. apply Permutation_refl. Qed.
Lemma same_perm (E F : list (entry T)) : Permutation E F -> same_entries E F.
Proof. apply nz_perm. Qed.
Lemma same_trans (E F G : list (entry T)) : same_entries E F -> same_entries F G -> same_entries E G.
Proof. unfold same_entries. intros. etransitivity; eauto. Qed.
Lemma stored_same (m : amat T) : same_entries (stored m) (amat_entries m).
Proof.
  destruct m; cbn [stored amat_entries]; try apply Permutation_refl; try apply same_nz. apply msr_rows_same.
Qed.

Lemma with_size_id (m : amat T) : amat_ok m -> with_size (amat_n m) (amat_np m) m = m.
Proof.
  destruct m as [A|A|A|A|A|A|A|A|A|A|A]; cbn [amat_ok amat_n amat_np with_size]; intros H; try (destruct A; reflexivity).
  - pose proof H as (Hn & Hnp & Hr & Hc & Hnr & _). rewrite (quot_blocks _ _ _ Hn Hr Hnr). destruct A; reflexivity.
  - pose proof H as (Hn & Hnp & Hr & Hc & Hnr & _). rewrite (quot_blocks _ _ _ Hn Hc Hnr). destruct A; reflexivity.
Qed.

Lemma store_ok (m : amat T) (A : mobj T) : amat_ok m -> 0 < amat_n m -> ob_status A = MNULL -> ob_split A = None -> ob_n A = amat_n m -> ob_np A = amat_np m ->
  exists B, store m A = (LIS_SUCCESS, B) /\ holds B m.
Proof.
  intros Hok Hpos Hs Hos Hn Hnp. exists (mkObj (amat_type m) (amat_type m) (ob_n A) (ob_np A) (Some m) None). split.
  - pose proof (type_pos m) as Hp. unfold store, set_mat. rewrite Hs, Z.eqb_refl, Hn, Hnp, with_size_id, Hos by auto. unfold assemble. cbn [ob_status ob_n ob_type ob_np ob_mat ob_split].
    replace (- amat_type m =? DECIDING_SIZE) with false by (symmetry; apply Z.eqb_neq; unfold DECIDING_SIZE; lia). replace (- amat_type m =? MNULL) with false by (symmetry; apply Z.eqb_neq; unfold MNULL; lia). cbn [andb].
    replace (- amat_type m <? 0) with true by (symmetry; apply Z.ltb_lt; lia). replace (0 <? amat_n m) with true by (symmetry; apply Z.ltb_lt; lia). cbn [andb].
    change (LIS_SUCCESS =? LIS_SUCCESS) with true. cbv iota. rewrite Z.opp_involutive. reflexivity.
  - unfold holds. cbn. auto 10.
Qed.

Lemma to_csr_ok (m : amat T) : amat_ok m -> source_ok false m ->
  exists B, to_csr J JV m = Ok B /\ csr_ok B /\ csr_exact B /\ csr_n B = amat_n m /\ csr_np B = amat_np m /\ Permutation (csr_entries B) (stored m).
Proof.
  destruct m as [A|A|A|A|A|A|A|A|A|A|A]; cbn [to_csr amat_ok source_ok stored amat_entries amat_n amat_np]; intros Hok Hs.
  - exists A. destruct Hs. auto 10.
  - destruct (csc2csr_final (J 0) (J 1) (J 2) (JV 0) A Hok) as (B & E & H1 & H2 & H3 & _ & H4 & _). exists B. pose proof (csc_exact _ _ _ _ _ _ E). auto 10.
  - pose proof (convert_msr2csr_wp (J 0) (J 1) (JV 0) A) as W.
    destruct (wp_inv (convert_msr2csr (J 0) (J 1) (JV 0) A) (fun B => csr_ok B /\ csr_n B = msr_n A /\ csr_np B = msr_np A /\ csr_entries B = flat_map (msr_row A) (zrange 0 (msr_n A)))) as (B & E & H1 & H2 & H3 & H4).
    { apply W; [auto|lia|]. intros B K1 K2 K3 K4 K5. auto. }
    exists B. pose proof (msr_exact _ _ _ _ _ E). rewrite H4. unfold msr_row. auto 10.
  - destruct Hok as [Hok _]. destruct (dia2csr_final (J 0) (J 1) (J 2) (JV 0) A Hok) as (B & E & H1 & H2 & H3 & H4). exists B. pose proof (dia_exact _ _ _ _ _ _ E). auto 10.
  - destruct (ell2csr_final (J 0) (J 1) (J 2) (JV 0) A Hok) as (B & E & H1 & H2 & H3 & H4). exists B. pose proof (ell_exact _ _ _ _ _ _ E). auto 10.
  - destruct (jad2csr_final (J 0) (J 1) (J 2) (JV 0) A Hok) as (B & E & H1 & H2 & H3 & _ & H4). exists B. pose proof (jad_exact _ _ _ _ _ _ E). auto 10.
  - destruct (bsr2csr_final _ _ (J 0) (J 1) (JV 0) A Hok) as (B & E & H1 & H2 & H3 & H4). exists B. pose proof (bsr_exact _ _ _ _ _ E). auto 10.
  - destruct (bsc2csr_final _ _ (J 0) (J 1) (J 2) (JV 0) A Hok) as (B & E & H1 & H2 & H3 & H4). exists B. pose proof (bsc_exact _ _ _ _ _ _ E). auto 10.
  - destruct Hok as [Hok _]. destruct (vbr2csr_final _ _ (J 0) (J 1) (JV 0) A Hok) as (B & E & H1 & H2 & H3 & H4). exists B. pose proof (vbr_exact _ _ _ _ _ E). auto 10.
  - destruct (coo2csr_final (J 0) (J 1) (JV 0) A Hok Hs) as (B & A' & E & H1 & H2 & H3 & _ & H4 & _). rewrite E. cbn [bind]. exists B. pose proof (coo_csr_exact _ _ _ _ _ E) as X. cbn in X. auto 10.
  - destruct (dns2csr_final (J 0) (J 1) (JV 0) A Hok) as (B & E & H1 & H2 & H3 & H4). exists B. pose proof (dns_exact _ _ _ _ _ E). auto 10.
Qed.

Lemma vbr_full_of (B : vbr T) : vbr_ok B -> zlen (vbr_ptr B) = vbr_bnnz B + 1 -> zlen (vbr_value B) = vbr_nnz B -> vbr_full B.
Proof.
  intros H L1 L2. pose proof H as (_ & _ & _ & _ & _ & Hb & Hbn & _ & _ & _ & Hblk). unfold vbr_full. split; [auto|].
  pose proof Hb as (Hnr & _ & Hb0 & _). pose proof (ptr_ok_mono _ _ 0 (vbr_nr B) Hb ltac:(lia) ltac:(lia)).
  split; [lia|]. split; [lia|]. split; [pose proof (zlen_nonneg (vbr_value B)); lia|]. intros bi bj H1 H2. rewrite <- L2. apply Hblk; auto.
Qed.

Lemma from_csr_ok (HZ : eqb_zero S) ty c sorted (A : csr T) (E : list (entry T)) : csr_ok A -> csr_exact A -> (sorted = true -> rows_sorted A) -> 0 < csr_n A -> 2 <= ty <= 11 ->
  Permutation (csr_entries A) E -> target_ok ty c (csr_n A) (csr_np A) E ->
  exists m, from_csr J JV ty c sorted A = Ok (Some m) /\ amat_ok m /\ amat_type m = ty /\ amat_n m = csr_n A /\ amat_np m = csr_np A /\ same_entries (amat_entries m) E.
Proof.
  intros Hok Hex Hso Hpos Hty HP (Hdup & Hsq & Hdg & Hne & Hbr & Hbc & Hvb).
  assert (HD : In ty [3; 4; 7; 8; 9; 11] -> no_dup_pos (csr_entries A)) by (intros Hin; eapply no_dup_perm; [apply Permutation_sym; exact HP|auto]).
  assert (HS : forall F, same_entries F (csr_entries A) -> same_entries F E) by (intros F HF; eapply same_trans; [exact HF|apply same_perm; auto]).
  assert (Hc : ty = 2 \/ ty = 3 \/ ty = 4 \/ ty = 5 \/ ty = 6 \/ ty = 7 \/ ty = 8 \/ ty = 9 \/ ty = 10 \/ ty = 11) by lia.
  destruct Hc as [->|[->|[->|[->|[->|[->|[->|[->|[->| ->]]]]]]]]]; unfold from_csr; cbv match; cbn [Z.eqb Pos.eqb].
  - destruct (csr2csc_final (J 10) (J 11) (J 12) (JV 10) A Hok) as (B & -> & H1 & H2 & H3 & _ & H4 & _). exists (MCsc B). cbn. split; [auto|]. do 4 (split; [auto|]). apply HS, same_perm; auto.
  - destruct (csr2msr_full_final (J 10) (J 11) (JV 10) A Hok (HD ltac:(simpl; tauto))) as (B & -> & H1 & H2 & H3 & _ & H4).
    { intros i Hi. destruct (Hdg eq_refl i Hi) as [v Hv]. exists v. eapply Permutation_in; [apply Permutation_sym; exact HP|auto]. }
    exists (MMsr B). cbn. split; [auto|]. do 4 (split; [auto|]). apply HS, same_perm; auto.
  - assert (Hnz : 0 < csr_nnz A).
    { rewrite <- (csr_entries_len A Hok). pose proof (Hne eq_refl). destruct (csr_entries A) as [|e l]; [apply Permutation_nil in HP; contradiction|]. rewrite zlen_cons. pose proof (zlen_nonneg l). lia. }
    destruct (csr2dia_final HZ (J 10) (J 11) (JV 10) sorted A Hok Hex (Hsq ltac:(simpl; tauto)) Hnz Hso (HD ltac:(simpl; tauto))) as (B & A' & -> & H1 & H2 & H3 & _).
    exists (MDia B). cbn. pose proof H1 as (_ & Hnpd & _). split; [auto|]. split; [split; [auto|lia]|]. split; [auto|]. split; [auto|]. split; [rewrite (Hsq ltac:(simpl; tauto)); congruence|]. apply HS; auto.
  - destruct (csr2ell_final HZ (J 10) (JV 10) A Hok) as (B & -> & H1 & H2 & H3 & H4). exists (MEll B). cbn. split; [auto|]. do 4 (split; [auto|]). apply HS; auto.
  - destruct (csr2jad_final (J 10) (J 11) (J 12) (J 13) (JV 10) A Hok) as (B & -> & H1 & H2 & H3 & _ & H4). exists (MJad B). cbn. split; [auto|]. do 4 (split; [auto|]). apply HS, same_perm; auto.
  - destruct (Hbr eq_refl) as [Hr Hcc]. destruct (csr2bsr_final _ _ HZ (J 10) (J 11) (J 12) (J 13) (J 14) (JV 10) (cv_bnr c) (cv_bnc c) A Hok Hpos (Hsq ltac:(simpl; tauto)) Hr Hcc (HD ltac:(simpl; tauto))) as (B & -> & H1 & H2 & H3 & _ & _ & H4).
    exists (MBsr B). cbn. split; [auto|]. do 4 (split; [auto|]). apply HS; auto.
  - destruct (Hbc eq_refl) as [Hr Hcc]. destruct (csr2csc_final (J 10) (J 11) (J 12) (JV 10) A Hok) as (C & -> & H1 & H2 & H3 & _ & H4 & _). cbn [bind]. rewrite Hcc.
    destruct (csc2bsc_final _ _ HZ (J 20) (J 21) (J 22) (J 23) (J 24) (JV 20) (cv_bnr c) C H1 ltac:(lia) ltac:(rewrite H2, H3; apply Hsq; simpl; tauto) Hr) as (B & -> & K1 & K2 & K3 & _ & _ & K4).
    { eapply no_dup_perm; [apply Permutation_sym; exact H4|apply HD; simpl; tauto]. }
    exists (MBsc B). cbn. split; [auto|]. split; [auto|]. split; [auto|]. split; [congruence|]. split; [congruence|]. apply HS. eapply same_trans; [exact K4|apply same_perm; auto].
  - pose proof (Hvb eq_refl) as Hv. destruct (cv_rowcol c) as [[row col]|].
    + destruct Hv as [Hrow Hcol].
      destruct (wp_inv _ _ (csr2vbr_with_wp HZ (J 10) (J 11) (J 12) (J 13) (J 14) (J 15) (J 16) (J 17) (JV 10) (cv_bnr c) (cv_bnc c) row col A Hok (Hsq ltac:(simpl; tauto)) (HD ltac:(simpl; tauto)) Hrow Hcol))
        as (B & -> & H1 & H2 & H3 & _ & _ & _ & _ & H4 & H5 & H6).
      exists (MVbr B). cbn. split; [auto|]. split; [apply vbr_full_of; auto|]. do 3 (split; [auto|]). apply HS; auto.
    + destruct (wp_inv _ _ (csr2vbr_wp HZ (J 10) (J 11) (J 12) (J 13) (J 14) (J 15) (J 16) (J 17) (JV 10) sorted A Hok Hex (Hsq ltac:(simpl; tauto)) (HD ltac:(simpl; tauto)) Hso
        (or_intror (let (e, He) := Hv in ex_intro _ e (conj (Permutation_in _ (Permutation_sym HP) (proj1 He)) (proj2 He))))))
        as (B & -> & H1 & H2 & H3 & H4 & H5 & H6).
      exists (MVbr B). cbn. split; [auto|]. split; [apply vbr_full_of; auto|]. do 3 (split; [auto|]). apply HS; auto.
  - destruct (csr2coo_final (J 10) (J 11) (JV 10) A Hok) as (B & -> & H1 & H2 & H3 & _ & H4). exists (MCoo B). cbn. split; [auto|]. do 4 (split; [auto|]). rewrite H4. apply same_perm; auto.
  - destruct (csr2dns_final HZ (JV 10) A Hok (HD ltac:(simpl; tauto))) as (B & -> & H1 & H2 & H3 & H4). exists (MDns B). cbn. split; [auto|]. do 4 (split; [auto|]). apply HS; auto.
Qed.

Theorem convert_final (HZ : eqb_zero S) block sorted c (Ain Aout : mobj T) (m : amat T) ty : holds Ain m -> amat_ok m -> 0 < amat_n m ->
  ob_status Aout = MNULL -> ob_split Aout = None -> ob_n Aout = ob_n Ain -> ob_np Aout = ob_np Ain -> ob_type Aout = ty -> 1 <= ty <= 11 ->
  (ty <> amat_type m \/ block = true -> source_ok sorted m /\ target_ok ty c (amat_n m) (amat_np m) (stored m)) ->
  (ty = 1 -> amat_type m = 1 -> block = false) ->
  exists Aout' m', convert J JV block sorted c Ain Aout = Ok (LIS_SUCCESS, Aout') /\ holds Aout' m' /\ amat_ok m' /\ amat_type m' = ty /\
    amat_n m' = amat_n m /\ amat_np m' = amat_np m /\ same_entries (amat_entries m') (amat_entries m).
Proof.
  intros HH Hok Hpos Hs Hos Hon Honp Ht Hty Hst Hcc. pose proof HH as (Hm & Hsp & Htm & Hstm & Hn & Hnp). pose proof (type_pos m) as Hp.
  unfold convert. rewrite Hstm. replace (amat_type m <=? 0) with false by (symmetry; apply Z.leb_gt; lia). cbn [andb]. rewrite Hsp. cbn [bind].
  rewrite Ht, Htm. destruct ((amat_type m =? ty) && negb block) eqn:Eb.
  - apply andb_prop in Eb. destruct Eb as [Eb _]. apply Z.eqb_eq in Eb.
    destruct (copy_final (J 40) (JV 40) Ain Aout m HH Hok Hpos Hs Hos Hon Honp) as (A' & m' & E & H1 & H2 & H3 & H4 & H5 & H6). exists A', m'.
    split; [auto|]. split; [auto|]. split; [auto|]. split; [congruence|]. split; [auto|]. split; [auto|]. rewrite H6. apply Permutation_refl.
  - assert (Hc : ty <> amat_type m \/ block = true). { destruct block; [auto|]. left. intros ->. rewrite Z.eqb_refl in Eb. discriminate. }
    destruct (Hst Hc) as [HSo HTa]. clear Hst. rewrite Hm.
    assert (Fin : forall m', amat_ok m' -> amat_type m' = ty -> amat_n m' = amat_n m -> amat_np m' = amat_np m -> same_entries (amat_entries m') (amat_entries m) ->
      exists Aout' m'', Ok (store m' Aout) = Ok (LIS_SUCCESS, Aout') /\ holds Aout' m'' /\ amat_ok m'' /\ amat_type m'' = ty /\ amat_n m'' = amat_n m /\ amat_np m'' = amat_np m /\ same_entries (amat_entries m'') (amat_entries m)).
    { intros m' K1 K2 K3 K4 K5. destruct (store_ok m' Aout K1 ltac:(lia) Hs Hos ltac:(congruence) ltac:(congruence)) as (B & E & HB). exists B, m'. rewrite E. auto 10. }
    assert (Via : (forall A, m <> MCsr A) -> ty = 1 \/ 2 <= ty -> exists Aout' m', (B <- to_csr J JV m ;;
         let '(err, tmp) := store (MCsr B) (duplicate Ain) in
         if negb (err =? LIS_SUCCESS) then Ok (err, Aout)
         else if ty =? 1 then Ok (LIS_SUCCESS, tmp)
         else (r <- from_csr J JV ty c false B ;;
               match r with None => Ok (LIS_ERR_NOT_IMPLEMENTED, Aout) | Some m => Ok (store m Aout) end)) = Ok (LIS_SUCCESS, Aout') /\ holds Aout' m' /\ amat_ok m' /\ amat_type m' = ty /\
    amat_n m' = amat_n m /\ amat_np m' = amat_np m /\ same_entries (amat_entries m') (amat_entries m)).
    { intros HnC Ht2. assert (HSo' : source_ok false m). { destruct m; auto. destruct HSo; split; auto. discriminate. }
      destruct (to_csr_ok m Hok HSo') as (B & -> & H1 & H2 & H3 & H4 & H5). cbn [bind].
      destruct (store_ok (MCsr B) (duplicate Ain)) as (tmp & -> & Htmp); [exact H1|cbn; lia|auto|auto|cbn; congruence|cbn; congruence|]. change (LIS_SUCCESS =? LIS_SUCCESS) with true. cbn [negb].
      destruct (Z.eqb_spec ty 1) as [->|Hne].
      - exists tmp, (MCsr B). cbn. do 6 (split; [auto|]). eapply same_trans; [apply same_perm; exact H5|apply stored_same].
      - destruct (from_csr_ok HZ ty c false B (stored m) H1 H2 ltac:(discriminate) ltac:(lia) ltac:(lia) H5) as (m' & -> & K1 & K2 & K3 & K4 & K5).
        { rewrite H3, H4. auto. }
        cbn [bind]. apply Fin; auto; try congruence. eapply same_trans; [exact K5|apply stored_same]. }
    destruct m as [A|A|A|A|A|A|A|A|A|A|A]; try (apply Via; [discriminate|lia]).
    + assert (Hne : ty <> 1). { intros ->. destruct Hc as [Hc|Hc]; [apply Hc; reflexivity|]. rewrite Hcc in Hc by auto. discriminate. }
      cbn [source_ok] in HSo. destruct HSo as [Hex Hso].
      destruct (from_csr_ok HZ ty c sorted A (csr_entries A) Hok Hex Hso ltac:(cbn in Hpos; lia) ltac:(lia) (Permutation_refl _) HTa) as (m' & -> & K1 & K2 & K3 & K4 & K5).
      cbn [bind]. apply Fin; auto.
    + destruct (Z.eqb_spec ty 8) as [->|Hne]; [|apply Via; [discriminate|lia]].
      destruct HTa as (Hdup & Hsq & _ & _ & _ & Hbc & _). destruct (Hbc eq_refl) as [Hr Hcb]. rewrite Hcb. cbn in Hdup, Hsq, Hpos, Hok.
      destruct (csc2bsc_final _ _ HZ (J 20) (J 21) (J 22) (J 23) (J 24) (JV 20) (cv_bnr c) A Hok ltac:(lia) ltac:(apply Hsq; simpl; tauto) Hr ltac:(apply Hdup; simpl; tauto)) as (B & -> & K1 & K2 & K3 & _ & _ & K4).
      cbn [bind]. apply (Fin (MBsc B)); auto.
Qed.

(** a split CSR matrix is merged first *)
Theorem convert_split_final (HZ : eqb_zero S) c (Ain Aout : mobj T) (P : split T) ty : holds_split Ain P -> split_ok P -> 0 < sp_n P ->
  ob_status Aout = MNULL -> ob_split Aout = None -> ob_n Aout = ob_n Ain -> ob_np Aout = ob_np Ain -> ob_type Aout = ty -> 1 <= ty <= 11 ->
  target_ok ty c (sp_n P) (sp_np P) (split_entries P) ->
  exists Aout' m', convert J JV false false c Ain Aout = Ok (LIS_SUCCESS, Aout') /\ holds Aout' m' /\ amat_ok m' /\ amat_type m' = ty /\
    amat_n m' = sp_n P /\ amat_np m' = sp_np P /\ same_entries (amat_entries m') (split_entries P).
Proof.
  intros (Hsp & Htm & Hst & Hn & Hnp) Hok Hpos Hs Hos Hon Honp Ht Hty HTa.
  destruct (wp_inv _ _ (merge_wp (J 30) (J 31) (JV 30) P Hok)) as (A & EA & H1 & H2 & H3 & H4).
  pose proof (merge_exact _ _ _ _ _ EA) as Hex.
  set (Ain' := mkObj (ob_status Ain) (ob_type Ain) (ob_n Ain) (ob_np Ain) (Some (MCsr A)) None).
  assert (E : convert J JV false false c Ain Aout = convert J JV false false c Ain' Aout).
  { unfold convert. change (ob_status Ain') with (ob_status Ain). change (ob_n Ain') with (ob_n Ain). rewrite Hsp, EA. reflexivity. }
  assert (HTa' : target_ok ty c (csr_n A) (csr_np A) (csr_entries A)).
  { rewrite H2, H3. destruct HTa as (K1 & K2 & K3 & K4 & K5 & K6 & K7). split; [intros; eapply no_dup_perm; [apply Permutation_sym; exact H4|auto]|].
    split; [auto|]. split; [intros E3 i Hi; destruct (K3 E3 i Hi) as [v Hv]; exists v; eapply Permutation_in; [apply Permutation_sym; exact H4|auto]|].
    split; [intros E4 E5; apply (K4 E4); rewrite E5 in H4; apply Permutation_nil in H4; auto|]. split; [auto|]. split; [auto|].
    intros E9. specialize (K7 E9). destruct (cv_rowcol c) as [[row col]|]; [auto|]. destruct K7 as (e & He & Ee). exists e. split; [eapply Permutation_in; [apply Permutation_sym; exact H4|auto]|auto]. }
  destruct (convert_final HZ false false c Ain' Aout (MCsr A) ty) as (A' & m' & EE & G1 & G2 & G3 & G4 & G5 & G6); auto.
  - unfold holds. cbn. rewrite Htm, Hst, Hn, Hnp. auto 10.
  - cbn. lia.
  - intros _. cbn. split; [split; [auto|discriminate]|auto].
  - exists A', m'. rewrite E. cbn in G4, G5, G6. rewrite H2 in G4. rewrite H3 in G5. do 6 (split; [auto|]). eapply same_trans; [exact G6|apply same_perm; auto].
Qed.
End F.
