(** CSC: split and triangular solves *)
Require Import ZArith List Bool Lia Ring Permutation.
From Verif Require Import Base Scalar Spec Items Fmt Split SplitFmt SpecSplit SpecSplitFmt TriLoops TriLines TriSolve TriFill CscProof MatvecProof SplitProof2 SplitMsr.
Import ListNotations.
Open Scope Z_scope.

Section P.
Context {T : Type} {S : Scalar T}.
Hypothesis RT : is_ring S.
Let RT' : @ring_theory T s0 s1 sadd smul ssub sopp (@eq T) := RT.
Add Ring scalar_ring_sp : RT'.
(** items at positions pos k *)
Variables (ix : list Z) (vl : list T) (pos : Z -> Z).
Definition pitem (k : Z) : list (Z * T) := [(znth 0 ix (pos k), znth s0 vl (pos k))].
Definition pok (n lo hi : Z) : Prop := forall k, lo <= k < hi -> 0 <= pos k < zlen ix /\ pos k < zlen vl /\ 0 <= znth 0 ix (pos k) < n.
Lemma p_gat n g lo hi x t : pok n lo hi -> n <= zlen x ->
  for_ lo hi (fun k s => item_sub g ix vl x (pos k) s) t = Ok (ssub t (gs g (flat_map pitem (zrange lo hi)) (znth s0 x))).
Proof.
  intros H Hx. apply (gat_loop RT). intros k s Hk. specialize (H k Hk). unfold item_sub. rewrite (rd_ok s0) by lia. cbn [bind]. rewrite (rd_ok 0) by lia. cbn [bind]. rewrite (rd_ok s0) by lia. cbn [bind].
  unfold gs, pitem. cbn [map ssum fst snd]. f_equal. ring.
Qed.
Lemma p_add n g lo hi x t : pok n lo hi -> n <= zlen x ->
  for_ lo hi (fun k s => item_add g ix vl x (pos k) s) t = Ok (sadd t (gs g (flat_map pitem (zrange lo hi)) (znth s0 x))).
Proof.
  intros H Hx. apply (add_loop RT). intros k s Hk. specialize (H k Hk). unfold item_add. rewrite (rd_ok s0) by lia. cbn [bind]. rewrite (rd_ok 0) by lia. cbn [bind]. rewrite (rd_ok s0) by lia. cbn [bind].
  unfold gs, pitem. cbn [map ssum fst snd]. f_equal. ring.
Qed.
Lemma p_add_skip n g lo hi x t : pok n lo hi -> n <= zlen x ->
  for_ lo hi (fun k s => c <- rd ix (pos k) ;; if n <=? c then Ok s else item_add g ix vl x (pos k) s) t = Ok (sadd t (gs g (flat_map pitem (zrange lo hi)) (znth s0 x))).
Proof.
  intros H Hx. apply (add_loop RT). intros k s Hk. specialize (H k Hk). unfold item_add. rewrite !(rd_ok 0) by lia. cbn [bind]. destruct (Z.leb_spec n (znth 0 ix (pos k))); [lia|]. rewrite (rd_ok s0) by lia. cbn [bind]. rewrite (rd_ok s0) by lia. cbn [bind].
  unfold gs, pitem. cbn [map ssum fst snd]. f_equal. ring.
Qed.
Lemma p_sca n g lo hi t y : pok n lo hi -> n <= zlen y ->
  wp (for_ lo hi (fun k s => item_scat g ix vl t (pos k) s) y) (scattered n g (flat_map pitem (zrange lo hi)) t y).
Proof. intros H Hy. apply (sca_loop RT); auto. intros k z Hk Hz. specialize (H k Hk). apply (item_scat_wp RT); lia. Qed.
Lemma p_live n g i lo hi y : pok n lo hi -> 0 <= i < n -> n <= zlen y -> g s0 = s0 -> (forall p, In p (flat_map pitem (zrange lo hi)) -> fst p = i -> snd p = s0) ->
  wp (for_ lo hi (fun k s => item_live g ix vl i (pos k) s) y) (scattered n g (flat_map pitem (zrange lo hi)) (znth s0 y i) y).
Proof.
  intros H Hi Hy G HD. apply (live_loop RT); auto.
  - intros k p Hk Hp. apply HD. apply in_flat_map. exists k. split; [apply In_zrange; auto|exact Hp].
  - intros k z Hk Hz. specialize (H k Hk). unfold item_live. wrd s0; [lia|]. apply (item_scat_wp RT); lia.
Qed.
End P.

Section S.
Context {T : Type} {S : Scalar T}.
Hypothesis RT : is_ring S.
Let RT' : @ring_theory T s0 s1 sadd smul ssub sopp (@eq T) := RT.
Add Ring scalar_ring_sc : RT'.

Definition csc_ln (B : csc T) (i : Z) : list (Z * T) := seg (csc_index B) (csc_value B) (znth 0 (csc_ptr B) i) (znth 0 (csc_ptr B) (i + 1)).
Lemma csc_col_ents (A : csc T) : csc_entries A = col_ents (csc_np A) (csc_ln A).
Proof. unfold csc_entries, col_ents. apply flat_map_ext. intros i. unfold csc_ln, seg. rewrite map_map. reflexivity. Qed.
Definition clines_in (n : Z) (B : csc T) : Prop := n + 1 <= zlen (csc_ptr B) /\
  forall i, 0 <= i < n -> pok (csc_index B) (csc_value B) (fun k => k) n (znth 0 (csc_ptr B) i) (znth 0 (csc_ptr B) (i + 1)).
Lemma csc_ln_items (B : csc T) i : csc_ln B i = flat_map (pitem (csc_index B) (csc_value B) (fun k => k)) (zrange (znth 0 (csc_ptr B) i) (znth 0 (csc_ptr B) (i + 1))).
Proof. unfold csc_ln. rewrite seg_items. reflexivity. Qed.
Lemma csc_gat n g B : clines_in n B -> gat_ok n g (csc_ln B) (fun i x t => csc_line B i (item_sub g (csc_index B) (csc_value B) x) t).
Proof. intros [H1 H2] i x t Hi Hx. unfold csc_line. rewrite (rd_ok 0) by lia. cbn [bind]. rewrite (rd_ok 0) by lia. cbn [bind]. rewrite csc_ln_items. apply (p_gat RT _ _ (fun k => k) n); auto. Qed.
Lemma csc_add n g B : clines_in n B -> add_ok n g (csc_ln B) (fun i x t => csc_line B i (item_add g (csc_index B) (csc_value B) x) t).
Proof. intros [H1 H2] i x t Hi Hx. unfold csc_line. rewrite (rd_ok 0) by lia. cbn [bind]. rewrite (rd_ok 0) by lia. cbn [bind]. rewrite csc_ln_items. apply (p_add RT _ _ (fun k => k) n); auto. Qed.
Lemma csc_sca n g B : clines_in n B -> sca_ok n g (csc_ln B) (fun i t x => csc_line B i (item_scat g (csc_index B) (csc_value B) t) x).
Proof. intros [H1 H2] i x t Hi Hx. unfold csc_line. wrd 0; [lia|]. wrd 0; [lia|]. rewrite csc_ln_items. apply (p_sca RT _ _ (fun k => k) n); auto. Qed.
Lemma csc_live n g B : clines_in n B -> g s0 = s0 -> (forall i p, 0 <= i < n -> In p (csc_ln B i) -> fst p = i -> snd p = s0) -> live_ok n g (csc_ln B) (fun i x => csc_line B i (item_live g (csc_index B) (csc_value B) i) x).
Proof. intros [H1 H2] G HD i x Hi Hx. unfold csc_line. wrd 0; [lia|]. wrd 0; [lia|]. pose proof (HD i) as HDi. rewrite csc_ln_items in *. apply (p_live RT _ _ (fun k => k) n); auto. Qed.

Section Split.
Variable A : csc T.
Hypothesis HA : csc_ok A.
Hypothesis Hsq : csc_np A = csc_n A.
Notation n := (csc_np A).
Definition cWL i := above i (csc_ln A i).
Definition cWU i := below i (csc_ln A i).
Lemma cA_lines : clines_in n A.
Proof using HA Hsq.
  pose proof HA as (Hp & Hn & Hz & Li & Lv & Hix). pose proof Hp as (Hn0 & Hlp & Hp0 & Hm). split; [lia|].
  intros i Hi k Hk. pose proof (ptr_ok_bounds _ _ i k Hp Hi Hk). specialize (Hix k). lia.
Qed.
Lemma csc_ln_in i p : 0 <= i < n -> In p (csc_ln A i) -> 0 <= fst p < n.
Proof using HA Hsq. intros Hi Hp. destruct cA_lines as [_ H]. unfold csc_ln, seg in Hp. apply in_map_iff in Hp. destruct Hp as (k & <- & Hk). apply In_zrange in Hk. cbn [fst]. apply (H i Hi k Hk). Qed.

Lemma csc_count_wp : wp (csc_count A) (fun s => s = (off cWU n, off cWL n)).
Proof using HA Hsq.
  pose proof cA_lines as (H1 & H2). pose proof HA as ((Hn & _ & _ & Hm) & _). unfold csc_count.
  apply (for_wp' (fun i s => s = (off cWU i, off cWL i))); [lia|reflexivity| |auto].
  intros i s Hi ->. wrd 0; [lia|]. wrd 0; [lia|].
  apply (for_list (fun d s => s = (off cWU i + zlen (below i d), off cWL i + zlen (above i d))) (csc_ln A i) (fun k => (znth 0 (csc_index A) k, znth s0 (csc_value A) k)) _ _ _ []).
  - apply Hm; auto.
  - cbn [app]. apply prefix_refl.
  - cbn. f_equal; lia.
  - intros k s d Hk _ _ ->. specialize (H2 i Hi k Hk). cbv beta in H2. wrd 0; [lia|]. unfold below, above. rewrite !filter_app, !zlen_app. cbn [filter fst].
    destruct (Z.ltb_spec (znth 0 (csc_index A) k) i); destruct (Z.ltb_spec i (znth 0 (csc_index A) k)); apply wp_ok; try lia; f_equal; cbn; lia.
  - cbn [app]. intros s ->. rewrite !off_S by lia. reflexivity.
Qed.

(** the two triangles have the same number of entries: the buffers are allocated for each other's number *)
Hypothesis Hcnt : off cWL n = off cWU n.
Hypothesis HND : no_dup_pos (csc_entries A).
Lemma c_nodup i : 0 <= i < n -> NoDup (map fst (csc_ln A i)).
Proof using HND. intros Hi. rewrite csc_col_ents in HND. apply (no_dup_col n _ i Hi HND). Qed.

Definition cside (W : Z -> list (Z * T)) (i : Z) (F : list (Z * T)) st : Prop := fill W (off W n) 0 i F st.
Lemma cside_emit W i F st c v (Q : list Z * list T * Z -> Prop) : 0 <= i < n -> cside W i F st -> zlen F < zlen (W i) ->
  (forall st', cside W i (F ++ [(c, v)]) st' -> Q st') -> wp (emit st c v) Q.
Proof using.
  intros Hi HF Hl HQ. apply (fill_emit W (off W n) 0 i F); auto; try lia.
  pose proof (off_mono W (i + 1) n ltac:(lia)). rewrite off_S in * by lia. lia.
Qed.
(** ptr[r] = off r *)
Definition cptr (W : Z -> list (Z * T)) (i : Z) (p : list Z) : Prop := zlen p = n + 1 /\ forall r, 0 <= r <= i -> znth 0 p r = off W r.

Lemma split_csc_wp jlp jli jlv jup jui juv jd : wp (split_csc jlp jli jlv jup jui juv jd A) (fun P => cs_n P = csc_n A /\ cs_np P = n /\
  clines_in n (cs_L P) /\ clines_in n (cs_U P) /\ (forall i, 0 <= i < n -> csc_ln (cs_L P) i = cWL i) /\ (forall i, 0 <= i < n -> csc_ln (cs_U P) i = cWU i) /\
  zlen (cs_D P) = n /\ forall i p, 0 <= i < n -> In p (csc_ln A i) -> fst p = i -> znth s0 (cs_D P) i = snd p).
Proof using HA Hsq Hcnt HND.
  pose proof cA_lines as (H1 & H2). pose proof HA as ((Hn & _ & _ & Hm) & _).
  pose proof (off_nonneg cWL n ltac:(lia)). pose proof (off_nonneg cWU n ltac:(lia)).
  unfold split_csc. apply wp_bind. eapply wp_mono; [apply csc_count_wp|]. intros s ->.
  wwr. { rewrite zlen_alloc by lia. lia. } wwr. { rewrite zlen_alloc by lia. lia. }
  apply wp_bind. apply (for_wp' (fun i s => let '(l, u, d, lp, up) := s in cside cWL i [] l /\ cside cWU i [] u /\ cptr cWL i lp /\ cptr cWU i up /\ zlen d = n /\ forall r p, 0 <= r < i -> In p (csc_ln A r) -> fst p = r -> znth s0 d r = snd p)); [lia| | |].
  - split; [|split; [|split; [|split; [|split]]]].
    + rewrite <- Hcnt. apply fill_start; rewrite zlen_alloc by lia; lia.
    + unfold cside. rewrite <- Hcnt. apply fill_start; rewrite zlen_alloc by lia; lia.
    + split; [rewrite zlen_zupd, zlen_alloc by lia; lia|]. intros r Hr. replace r with 0 by lia. rewrite znth_zupd_eq by (rewrite zlen_alloc by lia; lia). reflexivity.
    + split; [rewrite zlen_zupd, zlen_alloc by lia; lia|]. intros r Hr. replace r with 0 by lia. rewrite znth_zupd_eq by (rewrite zlen_alloc by lia; lia). reflexivity.
    + apply zlen_alloc. lia.
    + intros; lia.
  - intros i [[[[l u] d] lp] up] Hi (Hl & Hu & Hlp & Hup & Ld & Hd). wrd 0; [lia|]. wrd 0; [lia|]. apply wp_bind.
    apply (for_list (fun dn s => let '(l, u, d) := s in cside cWL i (above i dn) l /\ cside cWU i (below i dn) u /\ zlen d = n /\ (forall r p, 0 <= r < i -> In p (csc_ln A r) -> fst p = r -> znth s0 d r = snd p) /\ forall p, In p dn -> fst p = i -> znth s0 d i = snd p)
        (csc_ln A i) (fun k => (znth 0 (csc_index A) k, znth s0 (csc_value A) k)) _ _ _ []).
    + apply Hm; auto.
    + cbn [app]. apply prefix_refl.
    + split; [exact Hl|]. split; [exact Hu|]. split; auto. split; auto. intros p [].
    + intros k [[l' u'] d'] dn Hk _ Hpre (HL & HU & Ld' & Hd1 & Hd2). specialize (H2 i Hi k Hk). cbv beta in H2. wrd 0; [lia|]. wrd s0; [lia|].
      pose proof (below_prefix i _ _ Hpre) as PB. pose proof (above_prefix i _ _ Hpre) as PA. fold (cWU i) in PB. fold (cWL i) in PA.
      unfold below, above in PB, PA |- *. rewrite !filter_app in *. cbn [filter fst] in *. rewrite !zlen_app in *.
      destruct (Z.ltb_spec (znth 0 (csc_index A) k) i) as [G1|G1]; destruct (Z.ltb_spec i (znth 0 (csc_index A) k)) as [G2|G2]; try lia.
      * apply wp_bind. apply (cside_emit cWU i (filter (fun p => fst p <? i) dn)); auto. { cbn in PB. lia. } intros st Hst. apply wp_ok. rewrite app_nil_r.
        split; [exact HL|]. split; [exact Hst|]. split; auto. split; auto. intros p Hp E. apply in_app_iff in Hp. destruct Hp as [Hp|[<-|[]]]; [auto|]. cbn [fst] in E. lia.
      * apply wp_bind. apply (cside_emit cWL i (filter (fun p => i <? fst p) dn)); auto. { cbn in PA. lia. } intros st Hst. apply wp_ok. rewrite app_nil_r.
        split; [exact Hst|]. split; [exact HU|]. split; auto. split; auto. intros p Hp E. apply in_app_iff in Hp. destruct Hp as [Hp|[<-|[]]]; [auto|]. cbn [fst] in E. lia.
      * assert (Ek : znth 0 (csc_index A) k = i) by lia. wwr; [lia|]. apply wp_ok. rewrite !app_nil_r. split; [exact HL|]. split; [exact HU|]. split; [len|]. split.
        { intros r p Hr Hp E. rewrite znth_zupd_neq by lia. apply Hd1; auto. }
        intros p Hp E. rewrite znth_zupd_eq by lia. apply in_app_iff in Hp. destruct Hp as [Hp|[<-|[]]]; [|reflexivity].
        exfalso. destruct Hpre as (rest & Hpre). pose proof (c_nodup i Hi) as ND. rewrite Hpre in ND. rewrite <- app_assoc in ND. rewrite map_app in ND. cbn [app map fst] in ND. apply NoDup_remove_2 in ND. apply ND. apply in_app_iff. left. rewrite Ek, <- E. apply in_map; auto.
    + cbn [app]. intros [[l' u'] d'] (HL & HU & Ld' & Hd1 & Hd2). apply (fill_next cWL) in HL; [|lia]. apply (fill_next cWU) in HU; [|lia].
      pose proof (fill_pos _ _ _ _ _ _ HL) as KL. pose proof (fill_pos _ _ _ _ _ _ HU) as KU. change (zlen (@nil (Z * T))) with 0 in KL, KU.
      destruct Hlp as [Llp Hlp]. destruct Hup as [Lup Hup]. wwr; [lia|]. wwr; [lia|]. apply wp_ok. split; [exact HL|]. split; [exact HU|]. split; [|split; [|split; [auto|]]].
      * split; [len|]. intros r Hr. rewrite znth_zupd by lia. destruct (Z.eqb_spec r (i + 1)) as [->|Hne]; [lia|]. apply Hlp. lia.
      * split; [len|]. intros r Hr. rewrite znth_zupd by lia. destruct (Z.eqb_spec r (i + 1)) as [->|Hne]; [lia|]. apply Hup. lia.
      * intros r p Hr Hp E. destruct (Z.eq_dec r i) as [->|Hne]; [apply Hd2; auto|apply Hd1; auto; lia].
  - intros [[[[[[li lv] kl] [[ui uv] ku]] d] lp] up] (HL & HU & Hlp & Hup & Ld & Hd). apply wp_ok. cbn [cs_n cs_np cs_L cs_U cs_D].
    assert (G : forall W p ix vl k nn, (forall i p, 0 <= i < n -> In p (W i) -> 0 <= fst p < n) -> cside W n [] (ix, vl, k) -> cptr W n p ->
       clines_in n (mkCsc (csc_n A) n nn p ix vl) /\ forall i, 0 <= i < n -> csc_ln (mkCsc (csc_n A) n nn p ix vl) i = W i).
    { intros W p ix vl k nn HW (L1 & L2 & _ & _ & HF) [Lp HP].
      assert (G : forall i, 0 <= i < n -> csc_ln (mkCsc (csc_n A) n nn p ix vl) i = W i).
      { intros i Hi. unfold csc_ln. cbn [csc_index csc_value csc_ptr]. rewrite !HP by lia. apply (HF i Hi). }
      split; auto. split; cbn [csc_index csc_value csc_ptr]; [lia|].
      intros i Hi q Hq. assert (Hin : 0 <= fst (znth 0 ix q, znth s0 vl q) < n).
      { apply (HW i); auto. rewrite <- (G i Hi). unfold csc_ln, seg. cbn [csc_index csc_value csc_ptr]. apply (in_map (fun k => (znth 0 ix k, znth s0 vl k))). apply In_zrange. exact Hq. }
      cbn [fst] in Hin. rewrite !HP in Hq by lia. pose proof (off_nonneg W i ltac:(lia)). pose proof (off_mono W (i + 1) n ltac:(lia)). lia. }
    assert (WL : forall i p, 0 <= i < n -> In p (cWL i) -> 0 <= fst p < n). { intros i p Hi Hp. apply filter_In in Hp. apply (csc_ln_in i p); tauto. }
    assert (WU : forall i p, 0 <= i < n -> In p (cWU i) -> 0 <= fst p < n). { intros i p Hi Hp. apply filter_In in Hp. apply (csc_ln_in i p); tauto. }
    destruct (G cWL lp li lv kl kl WL HL Hlp) as [G1 G2]. destruct (G cWU up ui uv ku ku WU HU Hup) as [G3 G4].
    split; auto. split; auto. split; [exact G1|]. split; [exact G3|]. split; [exact G2|]. split; [exact G4|]. auto.
Qed.

Notation ct := (fun i j => coef (csc_entries A) j i).
Lemma c_coef i j : 0 <= j < n -> coef (csc_entries A) i j = lc (csc_ln A j) i.
Proof using RT. intros Hj. rewrite csc_col_ents. apply (coef_col_ents RT); auto. Qed.
Lemma c_low ln : (forall i, 0 <= i < n -> ln i = cWU i) -> lowline n ln ct.
Proof using RT HA Hsq.
  intros H i Hi. rewrite H by auto. split.
  - intros p Hp. apply filter_In in Hp. destruct Hp as [Hp Hc]. apply Z.ltb_lt in Hc. split; [apply (csc_ln_in i p); auto|]. lia.
  - intros j Hj. unfold cWU, below. rewrite (lc_filter RT (fun c => c <? i)). destruct (Z.ltb_spec j i); [|reflexivity]. rewrite c_coef by auto. reflexivity.
Qed.
Lemma c_upp ln : (forall i, 0 <= i < n -> ln i = cWL i) -> uppline n ln ct.
Proof using RT HA Hsq.
  intros H i Hi. rewrite H by auto. split.
  - intros p Hp. apply filter_In in Hp. destruct Hp as [Hp Hc]. apply Z.ltb_lt in Hc. split; [apply (csc_ln_in i p); auto|]. lia.
  - intros j Hj. unfold cWL, above. rewrite (lc_filter RT (fun c => i <? c)). destruct (Z.ltb_spec i j); [|reflexivity]. rewrite c_coef by auto. reflexivity.
Qed.

Lemma csc_solve_core (FT : is_field S) jlp jli jlv jup jui juv jd : (forall i, 0 <= i < n -> coef (csc_entries A) i i <> s0) ->
  exists P wd, split_csc jlp jli jlv jup jui juv jd A = Ok P /\ diag_inverse n (cs_D P) = Ok wd /\
    solves_lower n (csc_entries A) (solve_lower_csc P wd) /\ solves_upper n (csc_entries A) (solve_upper_csc P wd) /\
    solves_ssor n (csc_entries A) (solve_ssor_csc P wd) /\
    (conj_ok S -> solvesh_lower n (csc_entries A) (solveh_lower_csc P wd) /\ solvesh_upper n (csc_entries A) (solveh_upper_csc P wd) /\ solvesh_ssor n (csc_entries A) (solveh_ssor_csc P wd)).
Proof using HND RT HA Hsq Hcnt.
  intros Hd. pose proof HA as ((Hn & _) & _). destruct (wp_ex _ _ (split_csc_wp jlp jli jlv jup jui juv jd)) as (P & EP & P1 & P1' & P2 & P3 & P4 & P5 & P6 & P7).
  assert (Hdd : forall i, 0 <= i < n -> znth s0 (cs_D P) i = coef (csc_entries A) i i).
  { intros i Hi. specialize (Hd i Hi). rewrite c_coef in * by auto.
    assert (Hex : exists p, In p (csc_ln A i) /\ fst p = i).
    { destruct (existsb (fun p => fst p =? i) (csc_ln A i)) eqn:E.
      - apply existsb_exists in E. destruct E as (p & Hp & E). apply Z.eqb_eq in E. eauto.
      - exfalso. apply Hd. apply (lc_absent RT). intros p Hp E'. assert (existsb (fun p => fst p =? i) (csc_ln A i) = true) by (apply existsb_exists; exists p; rewrite E', Z.eqb_refl; auto). congruence. }
    destruct Hex as (p & Hp & E). rewrite (P7 i p) by auto. symmetry. apply (lc_unique RT); auto. apply c_nodup; auto. }
  destruct (diag_inverse_wp RT FT n (cs_D P)) as (wd & EW & LW & HW). { lia. } { intros i Hi. rewrite Hdd by auto. auto. }
  exists P, wd. split; auto. split; auto.
  assert (Hw : n <= zlen wd) by lia. assert (Hinv : forall i, 0 <= i < n -> smul (coef (csc_entries A) i i) (znth s0 wd i) = s1) by (intros i Hi; rewrite <- Hdd by auto; auto).
  assert (Hn' : 0 <= n) by lia. pose proof (c_upp _ P4) as HL. pose proof (c_low _ P5) as HU. rewrite <- Hsq in P1.
  assert (ZL : forall i p, 0 <= i < n -> In p (csc_ln (cs_L P) i) -> fst p = i -> snd p = s0). { intros i p Hi Hp. apply (HL i Hi); auto. }
  assert (ZU : forall i p, 0 <= i < n -> In p (csc_ln (cs_U P) i) -> fst p = i -> snd p = s0). { intros i p Hi Hp. apply (HU i Hi); auto. }
  split; [|split; [|split; [|intros HC; split; [|split]]]].
  - unfold solve_lower_csc. rewrite P1, P1'. apply (col_lower RT n _ wd Hn' Hw Hinv (csc_ln (cs_L P))); auto. apply csc_live; auto.
  - unfold solve_upper_csc. rewrite P1. apply (col_upper RT n _ wd Hn' Hw Hinv (csc_ln (cs_U P))); auto. apply csc_live; auto.
  - unfold solve_ssor_csc. rewrite P1, P1'. apply (col_ssor RT n _ wd Hn' Hw Hinv (csc_ln (cs_L P)) (csc_ln (cs_U P))); auto; apply csc_sca; auto.
  - unfold solveh_lower_csc. rewrite P1'. apply (col_h_lower RT n _ wd Hn' Hw Hinv HC (csc_ln (cs_U P))); auto. apply csc_gat; auto.
  - unfold solveh_upper_csc. rewrite P1'. apply (col_h_upper RT n _ wd Hn' Hw Hinv HC (csc_ln (cs_L P))); auto. apply csc_gat; auto.
  - unfold solveh_ssor_csc, solveh_lower_csc. rewrite P1'. apply (col_h_ssor RT n _ wd Hn' Hw Hinv HC (csc_ln (cs_L P)) (csc_ln (cs_U P))); auto. { apply csc_gat; auto. } apply csc_add; auto.
Qed.
End Split.

(** the numbers of entries below and above the diagonal *)
Lemma off_col (p : entry T -> bool) (f : Z -> list (Z * T) -> list (Z * T)) (ln : Z -> list (Z * T)) m : 0 <= m ->
  (forall i l, filter p (map (fun q => (fst q, i, snd q)) l) = map (fun q => (fst q, i, snd q)) (f i l)) ->
  zlen (filter p (col_ents m ln)) = off (fun i => f i (ln i)) m.
Proof.
  intros Hm Hf. unfold col_ents. replace m with (Z.of_nat (Z.to_nat m)) by lia. induction (Z.to_nat m) as [|k IH].
  - change (Z.of_nat 0) with 0. rewrite zrange_empty by lia. reflexivity.
  - replace (Z.of_nat (Datatypes.S k)) with (Z.of_nat k + 1) by lia. rewrite zrange_snoc by lia. rewrite flat_map_app, filter_app, zlen_app. rewrite off_S by lia. refine (f_equal2 Z.add IH _). cbn [flat_map]. rewrite app_nil_r, Hf. apply zlen_map.
Qed.
Lemma csc_solve_final (FT : is_field S) jlp jli jlv jup jui juv jd (A : csc T) : csc_ok A -> csc_np A = csc_n A -> no_dup_pos (csc_entries A) ->
  zlen (filter lower (csc_entries A)) = zlen (filter upper (csc_entries A)) -> (forall i, 0 <= i < csc_n A -> coef (csc_entries A) i i <> s0) ->
  exists P wd, split_csc jlp jli jlv jup jui juv jd A = Ok P /\ diag_inverse (csc_n A) (cs_D P) = Ok wd /\
    solves_lower (csc_n A) (csc_entries A) (solve_lower_csc P wd) /\ solves_upper (csc_n A) (csc_entries A) (solve_upper_csc P wd) /\
    solves_ssor (csc_n A) (csc_entries A) (solve_ssor_csc P wd) /\
    (conj_ok S -> solvesh_lower (csc_n A) (csc_entries A) (solveh_lower_csc P wd) /\ solvesh_upper (csc_n A) (csc_entries A) (solveh_upper_csc P wd) /\ solvesh_ssor (csc_n A) (csc_entries A) (solveh_ssor_csc P wd)).
Proof.
  intros HA Hsq HND Hc Hd. rewrite <- Hsq in *. apply csc_solve_core; auto.
  pose proof HA as ((Hn & _) & _). rewrite csc_col_ents in Hc.
  rewrite (off_col lower above), (off_col upper below) in Hc; auto.
  - intros i l. unfold below. induction l as [|q l IH]; cbn [map filter]; [reflexivity|]. rewrite IH. unfold upper, erow, ecol. cbn [fst snd]. destruct (fst q <? i); reflexivity.
  - intros i l. unfold above. induction l as [|q l IH]; cbn [map filter]; [reflexivity|]. rewrite IH. unfold lower, erow, ecol. cbn [fst snd]. destruct (i <? fst q); reflexivity.
Qed.
End S.
