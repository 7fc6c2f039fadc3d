(** MSR: split and triangular solves *)
Require Import ZArith List Bool Lia Ring Permutation.
From Verif Require Import Base Scalar Spec Items Fmt Split SplitFmt SpecSplitFmt TriLoops TriLines TriSolve TriFill MatvecProof SplitProof2.
Import ListNotations.
Open Scope Z_scope.

Section S.
Context {T : Type} {S : Scalar T}.
Hypothesis RT : is_ring S.
Let RT' : @ring_theory T s0 s1 sadd smul ssub sopp (@eq T) := RT.
Add Ring scalar_ring_sm : RT'.

Definition msr_ln (B : msr T) (i : Z) : list (Z * T) := seg (msr_index B) (msr_value B) (znth 0 (msr_index B) i) (znth 0 (msr_index B) (i + 1)).
Lemma msr_row_ents (A : msr T) : msr_entries A = row_ents (msr_n A) (fun i => (i, znth s0 (msr_value A) i) :: msr_ln A i).
Proof. unfold msr_entries, row_ents. apply flat_map_ext. intros i. cbn [map fst snd]. f_equal. unfold msr_ln, seg. rewrite map_map. reflexivity. Qed.

(** loops over the line of a structure whose lines are inside its arrays *)
Definition lines_in (n : Z) (B : msr T) : Prop := n + 1 <= zlen (msr_index B) /\
  (forall i k, 0 <= i < n -> znth 0 (msr_index B) i <= k < znth 0 (msr_index B) (i + 1) -> 0 <= k < zlen (msr_index B) /\ k < zlen (msr_value B)) /\
  forall i p, 0 <= i < n -> In p (msr_ln B i) -> 0 <= fst p < n.
Lemma ln_item n (B : msr T) i k : lines_in n B -> 0 <= i < n -> znth 0 (msr_index B) i <= k < znth 0 (msr_index B) (i + 1) -> 0 <= znth 0 (msr_index B) k < n.
Proof.
  intros (_ & _ & H) Hi Hk. apply (H i (znth 0 (msr_index B) k, znth s0 (msr_value B) k) Hi). unfold msr_ln, seg. apply (in_map (fun k => (znth 0 (msr_index B) k, znth s0 (msr_value B) k))). apply In_zrange; auto.
Qed.
Lemma seg_items (ix : list Z) (vl : list T) lo hi : seg ix vl lo hi = flat_map (fun k => [(znth 0 ix k, znth s0 vl k)]) (zrange lo hi).
Proof. unfold seg. induction (zrange lo hi); cbn; [reflexivity|]. rewrite IHl. reflexivity. Qed.
Lemma msr_gat n g (B : msr T) : lines_in n B -> gat_ok n g (msr_ln B) (fun i x t => msr_line B i (item_sub g (msr_index B) (msr_value B) x) t).
Proof.
  intros HB i x t Hi Hx. pose proof HB as (H1 & H2 & H3). unfold msr_line. rewrite (rd_ok 0) by lia. cbn [bind]. rewrite (rd_ok 0) by lia. cbn [bind]. unfold msr_ln. rewrite seg_items.
  apply (gat_loop RT). intros k s Hk. specialize (H2 i k Hi Hk). pose proof (ln_item n B i k HB Hi Hk). unfold item_sub. rewrite (rd_ok s0) by lia. cbn [bind]. rewrite (rd_ok 0) by lia. cbn [bind]. rewrite (rd_ok s0) by lia. cbn [bind].
  unfold gs. cbn [map ssum fst snd]. f_equal. ring.
Qed.
Lemma msr_add n g (B : msr T) : lines_in n B -> add_ok n g (msr_ln B) (fun i x t => msr_line B i (fun k t =>
      c <- rd (msr_index B) k ;; if n <=? c then Ok t else item_add g (msr_index B) (msr_value B) x k t) t).
Proof.
  intros HB i x t Hi Hx. pose proof HB as (H1 & H2 & H3). unfold msr_line. rewrite (rd_ok 0) by lia. cbn [bind]. rewrite (rd_ok 0) by lia. cbn [bind]. unfold msr_ln. rewrite seg_items.
  apply (add_loop RT). intros k s Hk. specialize (H2 i k Hi Hk). pose proof (ln_item n B i k HB Hi Hk). unfold item_add. rewrite !(rd_ok 0) by lia. cbn [bind]. destruct (Z.leb_spec n (znth 0 (msr_index B) k)); [lia|]. rewrite (rd_ok s0) by lia. cbn [bind]. rewrite (rd_ok s0) by lia. cbn [bind].
  unfold gs. cbn [map ssum fst snd]. f_equal. ring.
Qed.
(** one scattered item *)
Lemma item_scat_wp n g ix (vl : list T) t k y : 0 <= k < zlen ix -> k < zlen vl -> 0 <= znth 0 ix k < n -> n <= zlen y ->
  wp (item_scat g ix vl t k y) (scattered n g [(znth 0 ix k, znth s0 vl k)] t y).
Proof.
  intros H1 H2 H3 H4. unfold item_scat. wrd 0; [lia|]. wrd s0; [lia|]. wrd s0; [lia|]. apply wp_wr; [lia|]. split; [len|]. intros r Hr. unfold cs. cbn [map ssum fst snd]. rewrite znth_zupd by lia. rewrite (Z.eqb_sym (znth 0 ix k) r).
  destruct (Z.eqb_spec r (znth 0 ix k)) as [->|_]; ring.
Qed.
Lemma msr_sca n g (B : msr T) : lines_in n B -> sca_ok n g (msr_ln B) (fun i t x => msr_line B i (item_scat g (msr_index B) (msr_value B) t) x).
Proof.
  intros HB i t y Hi Hy. pose proof HB as (H1 & H2 & H3). unfold msr_line. wrd 0; [lia|]. wrd 0; [lia|]. unfold msr_ln. rewrite seg_items.
  apply (sca_loop RT); [auto|]. intros k z Hk Hz. specialize (H2 i k Hi Hk). apply item_scat_wp; try lia. apply (ln_item n B i k HB Hi Hk).
Qed.
Lemma msr_live n g (B : msr T) : lines_in n B -> g s0 = s0 -> (forall i p, 0 <= i < n -> In p (msr_ln B i) -> fst p = i -> snd p = s0) ->
  live_ok n g (msr_ln B) (fun i x => msr_line B i (item_live g (msr_index B) (msr_value B) i) x).
Proof.
  intros HB G HD i y Hi Hy. pose proof HB as (H1 & H2 & H3). unfold msr_line. wrd 0; [lia|]. wrd 0; [lia|]. pose proof (HD i) as HDi. unfold msr_ln in *. rewrite seg_items in *.
  apply (live_loop RT); auto.
  - intros k p Hk Hp. apply HDi; auto. apply in_flat_map. exists k. split; [apply In_zrange; auto|exact Hp].
  - intros k z Hk Hz. specialize (H2 i k Hi Hk). unfold item_live. wrd s0; [lia|]. apply item_scat_wp; try lia. apply (ln_item n B i k HB Hi Hk).
Qed.

(** *** the split *)
Section Split.
Variable A : msr T.
Hypothesis HA : msr_ok A.
Hypothesis Hsq : msr_np A = msr_n A.
Notation n := (msr_n A).
Definition mWL i := below i (msr_ln A i).
Definition mWU i := above i (msr_ln A i).

Lemma A_lines : lines_in n A.
Proof using HA Hsq RT.
  pose proof HA as (Hn & Hnz & Hdz & Li & Lv & H0 & Hm & Hend & Hix). pose proof (msr_first A HA). split; [lia|]. split.
  - intros i k Hi Hk. pose proof (msr_bounds A i k HA Hi Hk). lia.
  - intros i p Hi Hp. unfold msr_ln, seg in Hp. apply in_map_iff in Hp. destruct Hp as (k & <- & Hk). apply In_zrange in Hk. cbn [fst]. pose proof (msr_bounds A i k HA Hi Hk). specialize (Hix k). lia.
Qed.
Lemma msr_ptr_mono i : 0 <= i < n -> znth 0 (msr_index A) i <= znth 0 (msr_index A) (i + 1).
Proof using HA. destruct HA as (Hn & Hnz & Hdz & Li & Lv & H0 & Hm & Hend & Hix). apply Hm. Qed.

Lemma msr_count_wp : wp (msr_count A) (fun s => s = (off mWL n, off mWU n)).
Proof using HA Hsq RT.
  pose proof A_lines as (H1 & H2 & H3). pose proof HA as (Hn & _). unfold msr_count.
  apply (for_wp' (fun i s => s = (off mWL i, off mWU i))); [lia|reflexivity| |auto].
  intros i s Hi ->. unfold msr_line. wrd 0; [lia|]. wrd 0; [lia|].
  apply (for_list (fun d s => s = (off mWL i + zlen (below i d), off mWU i + zlen (above i d))) (msr_ln A i) (fun k => (znth 0 (msr_index A) k, znth s0 (msr_value A) k)) _ _ _ []).
  - apply msr_ptr_mono; auto.
  - cbn [app]. apply prefix_refl.
  - cbn. f_equal; lia.
  - intros k s d Hk _ _ ->. specialize (H2 i k Hi Hk). wrd 0; [lia|]. unfold below, above. rewrite !filter_app, !zlen_app. cbn [filter fst].
    destruct (Z.ltb_spec (znth 0 (msr_index A) k) i); destruct (Z.ltb_spec i (znth 0 (msr_index A) k)); apply wp_ok; try lia; f_equal; cbn; lia.
  - cbn [app]. intros s ->. rewrite !off_S by lia. reflexivity.
Qed.

Definition mside (W : Z -> list (Z * T)) (i : Z) (F : list (Z * T)) (st : list Z * list T * Z) : Prop :=
  fill W (off W n + n + 1) (n + 1) i F st /\ forall r, 0 <= r <= i -> znth 0 (fst (fst st)) r = n + 1 + off W r.
Lemma mside_emit W i F st c v (Q : list Z * list T * Z -> Prop) : 0 <= i < n -> mside W i F st -> zlen F < zlen (W i) ->
  (forall st', mside W i (F ++ [(c, v)]) st' -> Q st') -> wp (emit st c v) Q.
Proof using.
  intros Hi [HF HP] Hl HQ. apply (fill_emit W (off W n + n + 1) (n + 1) i F); auto; try lia.
  - pose proof (off_mono W (i + 1) n ltac:(lia)). rewrite off_S in * by lia. lia.
  - intros st' H H'. apply HQ. split; auto. intros r Hr. rewrite H' by lia. apply HP; auto.
Qed.

Lemma split_msr_wp jli jlv jui juv jd : wp (split_msr jli jlv jui juv jd A) (fun P => ms_n P = n /\
  lines_in n (ms_L P) /\ lines_in n (ms_U P) /\ (forall i, 0 <= i < n -> msr_ln (ms_L P) i = mWL i) /\ (forall i, 0 <= i < n -> msr_ln (ms_U P) i = mWU i) /\
  zlen (ms_D P) = n /\ forall i, 0 <= i < n -> znth s0 (ms_D P) i = znth s0 (msr_value A) i).
Proof using HA Hsq RT.
  pose proof A_lines as HAL. pose proof HAL as (H1 & H2 & H3). pose proof HA as (Hn & _ & _ & _ & Lv & _ & _ & Hend & _). pose proof (msr_first A HA) as Hf.
  pose proof (off_nonneg mWL n ltac:(lia)). pose proof (off_nonneg mWU n ltac:(lia)).
  unfold split_msr. apply wp_bind. eapply wp_mono; [apply msr_count_wp|]. intros s ->.
  wwr. { rewrite zlen_alloc by lia. lia. } wwr. { rewrite zlen_alloc by lia. lia. }
  apply wp_bind. apply (for_wp' (fun i s => let '(l, u, d) := s in mside mWL i [] l /\ mside mWU i [] u /\ zlen d = n /\ forall r, 0 <= r < i -> znth s0 d r = znth s0 (msr_value A) r)); [lia| | |].
  - split; [|split; [|split]].
    + split. { apply fill_start; [rewrite zlen_zupd, zlen_alloc by lia; lia|rewrite zlen_alloc by lia; lia]. } intros r Hr. cbn [fst]. replace r with 0 by lia. rewrite znth_zupd_eq by (rewrite zlen_alloc by lia; lia). rewrite off_0. lia.
    + split. { apply fill_start; [rewrite zlen_zupd, zlen_alloc by lia; lia|rewrite zlen_alloc by lia; lia]. } intros r Hr. cbn [fst]. replace r with 0 by lia. rewrite znth_zupd_eq by (rewrite zlen_alloc by lia; lia). rewrite off_0. lia.
    + apply zlen_alloc. lia.
    + intros; lia.
  - intros i [[l u] d] Hi (Hl & Hu & Ld & Hd). wrd s0; [lia|]. wwr; [lia|]. apply wp_bind. unfold msr_line. wrd 0; [lia|]. wrd 0; [lia|].
    apply (for_list (fun dn s => mside mWL i (below i dn) (fst s) /\ mside mWU i (above i dn) (snd s)) (msr_ln A i) (fun k => (znth 0 (msr_index A) k, znth s0 (msr_value A) k)) _ _ _ []).
    + apply msr_ptr_mono; auto.
    + cbn [app]. apply prefix_refl.
    + cbn [fst snd]. auto.
    + intros k [l' u'] dn Hk _ Hpre [HL HU]. cbn [fst snd] in HL, HU. specialize (H2 i k Hi Hk). wrd 0; [lia|].
      pose proof (below_prefix i _ _ Hpre) as PB. pose proof (above_prefix i _ _ Hpre) as PA. fold (mWL i) in PB. fold (mWU i) in PA.
      unfold below, above in PB, PA |- *. rewrite !filter_app in *. cbn [filter fst] in *. rewrite !zlen_app in *.
      destruct (Z.ltb_spec (znth 0 (msr_index A) k) i); destruct (Z.ltb_spec i (znth 0 (msr_index A) k)); try lia.
      * wrd s0; [lia|]. apply wp_bind. apply (mside_emit mWL i (filter (fun p => fst p <? i) dn)); auto. { cbn in PB. lia. } intros st Hst. apply wp_ok. cbn [fst snd]. rewrite app_nil_r. auto.
      * wrd s0; [lia|]. apply wp_bind. apply (mside_emit mWU i (filter (fun p => i <? fst p) dn)); auto. { cbn in PA. lia. } intros st Hst. apply wp_ok. cbn [fst snd]. rewrite app_nil_r. auto.
      * apply wp_ok. cbn [fst snd]. rewrite !app_nil_r. auto.
    + cbn [app]. intros [l' u'] [HL HU]. cbn [fst snd] in HL, HU. destruct l' as [[li lv] kl]. destruct u' as [[ui uv] ku].
      destruct HL as [FL PL]. destruct HU as [FU PU]. change (below i (map _ _)) with (mWL i) in FL. change (above i (map _ _)) with (mWU i) in FU.
      pose proof (fill_pos _ _ _ _ _ _ FL) as KL. pose proof (fill_pos _ _ _ _ _ _ FU) as KU. cbn [snd] in KL, KU.
      pose proof FL as (LL & _). pose proof FU as (LU & _).
      apply (fill_next mWL) in FL; [|lia]. apply (fill_next mWU) in FU; [|lia].
      wwr; [lia|]. wwr; [lia|]. apply wp_ok. split; [|split; [|split]].
      * split; [apply fill_low; auto; lia|]. intros r Hr. cbn [fst]. rewrite znth_zupd by lia. destruct (Z.eqb_spec r (i + 1)) as [->|Hne]; [rewrite off_S by lia; lia|]. apply PL. lia.
      * split; [apply fill_low; auto; lia|]. intros r Hr. cbn [fst]. rewrite znth_zupd by lia. destruct (Z.eqb_spec r (i + 1)) as [->|Hne]; [rewrite off_S by lia; lia|]. apply PU. lia.
      * len.
      * intros r Hr. rewrite znth_zupd by lia. destruct (Z.eqb_spec r i) as [->|Hne]; [reflexivity|]. apply Hd. lia.
  - intros [[[[li lv] kl] [[ui uv] ku]] d] (HL & HU & Ld & Hd). apply wp_ok. cbn [ms_n ms_L ms_U ms_D].
    assert (G : forall W ix vl k nn, (forall i p, 0 <= i < n -> In p (W i) -> 0 <= fst p < n) -> mside W n [] (ix, vl, k) ->
       lines_in n (mkMsr n (msr_np A) nn n ix vl) /\ forall i, 0 <= i < n -> msr_ln (mkMsr n (msr_np A) nn n ix vl) i = W i).
    { intros W ix vl k nn HW [(L1 & L2 & _ & _ & HF) HP]. cbn [fst] in HP.
      assert (G : forall i, 0 <= i < n -> msr_ln (mkMsr n (msr_np A) nn n ix vl) i = W i).
      { intros i Hi. unfold msr_ln. cbn [msr_index msr_value]. rewrite !HP by lia. apply HF; auto. }
      pose proof (off_nonneg W n ltac:(lia)). split; auto. split; [|split].
      - cbn [msr_index]. lia.
      - intros i q Hi. cbn [msr_index msr_value]. rewrite !HP by lia. pose proof (off_nonneg W i ltac:(lia)). pose proof (off_mono W (i + 1) n ltac:(lia)). lia.
      - intros i p Hi Hp. rewrite G in Hp by auto. apply (HW i); auto. }
    assert (WL : forall i p, 0 <= i < n -> In p (mWL i) -> 0 <= fst p < n). { intros i p Hi Hp. apply filter_In in Hp. apply (H3 i p); tauto. }
    assert (WU : forall i p, 0 <= i < n -> In p (mWU i) -> 0 <= fst p < n). { intros i p Hi Hp. apply filter_In in Hp. apply (H3 i p); tauto. }
    destruct (G mWL li lv kl (kl - (n + 1)) WL HL) as [G1 G2]. destruct (G mWU ui uv ku (ku - (n + 1)) WU HU) as [G3 G4]. split; auto.
    split; [exact G1|]. split; [exact G3|]. split; [exact G2|]. split; [exact G4|]. auto.
Qed.

Hypothesis HND : no_dup_pos (msr_entries A).
Lemma m_absent i p : 0 <= i < n -> In p (msr_ln A i) -> fst p <> i.
Proof using HND.
  intros Hi Hp E. rewrite msr_row_ents in HND. pose proof (no_dup_row n _ i Hi HND) as ND. cbn [map fst] in ND. apply NoDup_cons_iff in ND. destruct ND as [N1 _]. apply N1. exact (eq_ind _ (fun c => In c (map fst (msr_ln A i))) (in_map fst _ _ Hp) _ E).
Qed.
Lemma m_coef i j : 0 <= i < n -> coef (msr_entries A) i j = if i =? j then znth s0 (msr_value A) i else lc (msr_ln A i) j.
Proof using HND RT.
  intros Hi. rewrite msr_row_ents, (coef_row_ents RT) by auto. unfold lc at 1. cbn [map ssum fst snd]. fold (lc (msr_ln A i) j). destruct (Z.eqb_spec i j) as [<-|Hne]; [|ring].
  rewrite (lc_absent RT); [ring|]. intros p. apply m_absent; auto.
Qed.
Lemma m_low ln : (forall i, 0 <= i < n -> ln i = mWL i) -> lowline n ln (coef (msr_entries A)).
Proof using HND RT HA Hsq.
  intros H i Hi. pose proof A_lines as (_ & _ & H3). rewrite H by auto. split.
  - intros p Hp. apply filter_In in Hp. destruct Hp as [Hp Hc]. apply Z.ltb_lt in Hc. split; [apply (H3 i p); auto|]. lia.
  - intros j Hj. unfold mWL, below. rewrite (lc_filter RT (fun c => c <? i)). destruct (Z.ltb_spec j i); [|reflexivity]. rewrite m_coef by auto. destruct (Z.eqb_spec i j); [lia|reflexivity].
Qed.
Lemma m_upp ln : (forall i, 0 <= i < n -> ln i = mWU i) -> uppline n ln (coef (msr_entries A)).
Proof using HND RT HA Hsq.
  intros H i Hi. pose proof A_lines as (_ & _ & H3). rewrite H by auto. split.
  - intros p Hp. apply filter_In in Hp. destruct Hp as [Hp Hc]. apply Z.ltb_lt in Hc. split; [apply (H3 i p); auto|]. lia.
  - intros j Hj. unfold mWU, above. rewrite (lc_filter RT (fun c => i <? c)). destruct (Z.ltb_spec i j); [|reflexivity]. rewrite m_coef by auto. destruct (Z.eqb_spec i j); [lia|reflexivity].
Qed.

Lemma msr_solve_final (FT : is_field S) jli jlv jui juv jd : (forall i, 0 <= i < n -> coef (msr_entries A) i i <> s0) ->
  exists P wd, split_msr jli jlv jui juv jd A = Ok P /\ diag_inverse n (ms_D P) = Ok wd /\
    solves_lower n (msr_entries A) (solve_lower_msr P wd) /\ solves_upper n (msr_entries A) (solve_upper_msr P wd) /\
    solves_ssor n (msr_entries A) (solve_ssor_msr P wd) /\ (conj_ok S -> solvesh_ssor n (msr_entries A) (solveh_ssor_msr P wd)).
Proof using HND RT HA Hsq.
  intros Hd. pose proof HA as (Hn & _). destruct (wp_ex _ _ (split_msr_wp jli jlv jui juv jd)) as (P & EP & P1 & P2 & P3 & P4 & P5 & P6 & P7).
  assert (Hdd : forall i, 0 <= i < n -> znth s0 (ms_D P) i = coef (msr_entries A) i i). { intros i Hi. rewrite P7, m_coef by auto. rewrite Z.eqb_refl. reflexivity. }
  destruct (diag_inverse_wp RT FT n (ms_D P)) as (wd & EW & LW & HW). { lia. } { intros i Hi. rewrite Hdd by auto. auto. }
  exists P, wd. split; auto. split; auto.
  assert (Hw : n <= zlen wd) by lia. assert (Hinv : forall i, 0 <= i < n -> smul (coef (msr_entries A) i i) (znth s0 wd i) = s1) by (intros i Hi; rewrite <- Hdd by auto; auto).
  assert (Hn' : 0 <= n) by lia. pose proof (m_low _ P4) as HL. pose proof (m_upp _ P5) as HU.
  split; [|split; [|split]].
  - unfold solve_lower_msr. rewrite P1. apply (row_lower RT n _ wd Hn' Hw Hinv (msr_ln (ms_L P))); auto. apply msr_gat; auto.
  - unfold solve_upper_msr. rewrite P1. apply (row_upper RT n _ wd Hn' Hw Hinv (msr_ln (ms_U P))); auto. apply msr_gat; auto.
  - unfold solve_ssor_msr, solve_lower_msr. rewrite P1. apply (row_ssor RT n _ wd Hn' Hw Hinv (msr_ln (ms_L P)) (msr_ln (ms_U P))); auto. { apply msr_gat; auto. } apply msr_add; auto.
  - intros HC. unfold solveh_ssor_msr. rewrite P1. apply (row_h_ssor RT n _ wd Hn' Hw Hinv HC (msr_ln (ms_L P)) (msr_ln (ms_U P))); auto; apply msr_sca; auto.
Qed.
End Split.
End S.
