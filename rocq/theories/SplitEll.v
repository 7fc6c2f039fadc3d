(** ELL: split and triangular solves *)
Require Import ZArith List Bool Lia Ring Permutation.
From Verif Require Import Base Scalar Spec Items Fmt Split SplitFmt SpecSplitFmt TriLoops TriLines TriSolve TriFill MatvecProof SplitProof2 SplitMsr SplitCsc.
Import ListNotations.
Open Scope Z_scope.

Lemma flat_map_single {A B} (f : A -> B) l : flat_map (fun x => [f x]) l = map f l.
Proof. induction l; cbn; [reflexivity|]. rewrite IHl. reflexivity. Qed.

Section S.
Context {T : Type} {S : Scalar T}.
Hypothesis RT : is_ring S.
Let RT' : @ring_theory T s0 s1 sadd smul ssub sopp (@eq T) := RT.
Add Ring scalar_ring_se : RT'.

Definition ell_ln (B : ell T) (i : Z) : list (Z * T) := flat_map (pitem (ell_index B) (ell_value B) (fun j => j * ell_n B + i)) (zrange 0 (ell_maxnzr B)).
Lemma ell_row_ents (A : ell T) : Permutation (ell_entries A) (row_ents (ell_n A) (ell_ln A)).
Proof.
  unfold ell_entries, row_ents, ell_ln.
  rewrite (flat_map_ext (fun i => map _ (flat_map _ _)) (fun i => flat_map (fun j => [(i, znth 0 (ell_index A) (j * ell_n A + i), znth s0 (ell_value A) (j * ell_n A + i))]) (zrange 0 (ell_maxnzr A)))).
  - rewrite <- (flat_map_exchange (fun j i => [(i, znth 0 (ell_index A) (j * ell_n A + i), znth s0 (ell_value A) (j * ell_n A + i))])).
    apply Permutation_refl'. apply flat_map_ext. intros j. induction (zrange 0 (ell_n A)); cbn; [reflexivity|]. rewrite IHl. reflexivity.
  - intros i. induction (zrange 0 (ell_maxnzr A)); cbn; [reflexivity|]. rewrite IHl. reflexivity.
Qed.
Definition elines_in (n : Z) (B : ell T) : Prop := ell_n B = n /\ forall i, 0 <= i < n -> pok (ell_index B) (ell_value B) (fun j => j * ell_n B + i) n 0 (ell_maxnzr B).
Lemma ell_gat n g B : elines_in n B -> gat_ok n g (ell_ln B) (fun i x t => ell_line B i (item_sub g (ell_index B) (ell_value B) x) t).
Proof. intros [H1 H2] i x t Hi Hx. unfold ell_line, ell_ln. apply (p_gat RT _ _ (fun j => j * ell_n B + i) n); auto. Qed.
Lemma ell_add n g B : elines_in n B -> add_ok n g (ell_ln B) (fun i x t => ell_line B i (fun k t =>
      c <- rd (ell_index B) k ;; if n <=? c then Ok t else item_add g (ell_index B) (ell_value B) x k t) t).
Proof. intros [H1 H2] i x t Hi Hx. unfold ell_line, ell_ln. apply (p_add_skip RT _ _ (fun j => j * ell_n B + i) n); auto. Qed.
Lemma ell_sca n g B : elines_in n B -> sca_ok n g (ell_ln B) (fun i t x => ell_line B i (item_scat g (ell_index B) (ell_value B) t) x).
Proof. intros [H1 H2] i x t Hi Hx. unfold ell_line, ell_ln. apply (p_sca RT _ _ (fun j => j * ell_n B + i) n); auto. Qed.
Lemma ell_live n g B : elines_in n B -> g s0 = s0 -> (forall i p, 0 <= i < n -> In p (ell_ln B i) -> fst p = i -> snd p = s0) -> live_ok n g (ell_ln B) (fun i x => ell_line B i (item_live g (ell_index B) (ell_value B) i) x).
Proof. intros [H1 H2] G HD i x Hi Hx. unfold ell_line. unfold ell_ln in *. apply (p_live RT _ _ (fun j => j * ell_n B + i) n); auto. intros p Hp. apply (HD i); auto. Qed.

Lemma slot_inj n j r q i : 0 <= r < n -> 0 <= i < n -> j * n + r = q * n + i -> j = q /\ r = i.
Proof. intros Hr Hi H. assert (j = q) by nia. subst. lia. Qed.
Lemma slot_lt n m j r : 0 <= r < n -> 0 <= j < m -> 0 <= j * n + r < n * m.
Proof. intros. nia. Qed.

Definition slotv (r : Z) (l : list (Z * T)) (j : Z) : Z * T := if j <? zlen l then znth (0, s0) l j else (r, s0).
Definition eside (n m : Z) (G : Z -> list (Z * T)) (ix : list Z) (vl : list T) : Prop := zlen ix = n * m /\ zlen vl = n * m /\
  forall r j, 0 <= r < n -> 0 <= j < m -> (znth 0 ix (j * n + r), znth s0 vl (j * n + r)) = slotv r (G r) j.

Lemma ell_pad_wp n m ix (vl : list T) (Q : list Z * list T -> Prop) : 0 <= n -> 0 <= m -> zlen ix = n * m -> zlen vl = n * m ->
  (forall ix' vl', eside n m (fun _ => []) ix' vl' -> Q (ix', vl')) -> wp (ell_pad n m ix vl) Q.
Proof.
  intros Hn Hm L1 L2 HQ. unfold ell_pad.
  apply (for_wp' (fun j s => let '(ix, vl) := s in zlen ix = n * m /\ zlen vl = n * m /\ forall r q, 0 <= r < n -> 0 <= q < j -> (znth 0 ix (q * n + r), znth s0 vl (q * n + r)) = (r, s0))); [lia| | |].
  - split; auto. split; auto. intros; lia.
  - intros j [ix1 vl1] Hj (L3 & L4 & H).
    apply (for_wp' (fun i s => let '(ix, vl) := s in zlen ix = n * m /\ zlen vl = n * m /\ (forall r q, 0 <= r < n -> 0 <= q < j -> (znth 0 ix (q * n + r), znth s0 vl (q * n + r)) = (r, s0)) /\ forall r, 0 <= r < i -> (znth 0 ix (j * n + r), znth s0 vl (j * n + r)) = (r, s0))); [lia| | |].
    + split; auto. split; auto. split; auto. intros; lia.
    + intros i [ix2 vl2] Hi (L5 & L6 & H1 & H2). pose proof (slot_lt n m j i Hi Hj). wwr; [lia|]. wwr; [lia|]. apply wp_ok. split; [len|]. split; [len|]. split.
      * intros r q Hr Hq. pose proof (slot_inj n q r j i Hr Hi). rewrite !znth_zupd_neq by lia. apply H1; auto.
      * intros r Hr. rewrite !znth_zupd by lia. destruct (Z.eqb_spec (j * n + r) (j * n + i)) as [E|E]; [f_equal; lia|]. apply H2. lia.
    + intros [ix2 vl2] (L5 & L6 & H1 & H2). split; auto. split; auto. intros r q Hr Hq. destruct (Z.eq_dec q j) as [->|Hne]; [apply H2; auto|apply H1; auto; lia].
  - intros [ix1 vl1] (L3 & L4 & H). apply HQ. split; auto. split; auto. intros r j Hr Hj. rewrite H by auto. unfold slotv. cbn. destruct (Z.ltb_spec j 0); [lia|reflexivity].
Qed.
Lemma eside_put n m G ix vl i c v : 0 <= i < n -> zlen (G i) < m -> eside n m G ix vl ->
  eside n m (fun r => if r =? i then G i ++ [(c, v)] else G r) (zupd ix (zlen (G i) * n + i) c) (zupd vl (zlen (G i) * n + i) v).
Proof.
  intros Hi Hl (L1 & L2 & H). pose proof (zlen_nonneg (G i)). pose proof (slot_lt n m (zlen (G i)) i Hi ltac:(lia)). split; [len|]. split; [len|].
  intros r j Hr Hj. rewrite !znth_zupd by lia. destruct (Z.eqb_spec (j * n + r) (zlen (G i) * n + i)) as [E|E].
  - apply slot_inj in E; auto. destruct E as [-> ->]. rewrite Z.eqb_refl. unfold slotv. rewrite zlen_app. change (zlen [(c, v)]) with 1. destruct (Z.ltb_spec (zlen (G i)) (zlen (G i) + 1)); [|lia]. rewrite znth_app by lia. destruct (Z.ltb_spec (zlen (G i)) (zlen (G i))); [lia|]. replace (zlen (G i) - zlen (G i)) with 0 by lia. reflexivity.
  - rewrite H by auto. destruct (Z.eqb_spec r i) as [->|Hne]; [|reflexivity]. unfold slotv. rewrite zlen_app. change (zlen [(c, v)]) with 1.
    assert (j <> zlen (G i)) by (intros ->; apply E; reflexivity). destruct (Z.ltb_spec j (zlen (G i))); destruct (Z.ltb_spec j (zlen (G i) + 1)); try lia; [|reflexivity]. rewrite znth_app by lia. destruct (Z.ltb_spec j (zlen (G i))); [reflexivity|lia].
Qed.

Section Split.
Variable A : ell T.
Hypothesis HA : ell_ok A.
Hypothesis Hsq : ell_np A = ell_n A.
Notation n := (ell_n A).
Notation ix := (ell_index A).
Notation vl := (ell_value A).
Definition eWL i := below i (ell_ln A i).
Definition eWU i := above i (ell_ln A i).
Lemma eA_lines : elines_in n A.
Proof using HA Hsq.
  pose proof HA as (Hn & Hm & L1 & L2 & Hix). split; auto. intros i Hi j Hj. cbv beta. pose proof (slot_lt n (ell_maxnzr A) j i Hi Hj). specialize (Hix (j * n + i)). lia.
Qed.
Lemma ell_ln_in i p : 0 <= i < n -> In p (ell_ln A i) -> 0 <= fst p < n.
Proof using HA Hsq. intros Hi Hp. destruct eA_lines as [_ H]. unfold ell_ln in Hp. apply in_flat_map in Hp. destruct Hp as (k & Hk & [<-|[]]). apply In_zrange in Hk. cbn [fst]. apply (H i Hi k Hk). Qed.

Lemma ell_count_wp : wp (ell_count A) (fun s => 0 <= fst s /\ 0 <= snd s /\ forall i, 0 <= i < n -> zlen (eWL i) <= fst s /\ zlen (eWU i) <= snd s).
Proof using HA Hsq.
  pose proof eA_lines as (_ & H2). pose proof HA as (Hn & Hm & _). unfold ell_count.
  apply (for_wp' (fun i s => 0 <= fst s /\ 0 <= snd s /\ forall r, 0 <= r < i -> zlen (eWL r) <= fst s /\ zlen (eWU r) <= snd s)); [lia| | |].
  - cbn [fst snd]. repeat split; lia.
  - intros i [lm um] Hi (B1 & B2 & H). cbn [fst snd] in *. apply wp_bind. unfold ell_line.
    apply (for_items (fun d s => s = (zlen (below i d), zlen (above i d))) (ell_ln A i) (pitem ix vl (fun j => j * n + i)) 0 (ell_maxnzr A) _ []).
    + lia.
    + cbn [app]. apply prefix_refl.
    + reflexivity.
    + intros k s d Hk _ _ ->. specialize (H2 i Hi k Hk). cbv beta in H2. wrd 0; [lia|]. unfold below, above, pitem. rewrite !filter_app, !zlen_app. cbn [filter fst].
      destruct (Z.ltb_spec (znth 0 ix (k * n + i)) i); destruct (Z.ltb_spec i (znth 0 ix (k * n + i))); apply wp_ok; try lia; f_equal; cbn; lia.
    + cbn [app]. intros s ->. apply wp_ok. cbn [fst snd]. fold (ell_ln A i). fold (eWL i). fold (eWU i).
      pose proof (zlen_nonneg (eWL i)). pose proof (zlen_nonneg (eWU i)).
      destruct (Z.ltb_spec lm (zlen (eWL i))); destruct (Z.ltb_spec um (zlen (eWU i))); (split; [lia|]; split; [lia|]; intros r Hr; destruct (Z.eq_dec r i) as [->|Hne]; [lia|]; specialize (H r ltac:(lia)); lia).
  - auto.
Qed.

Hypothesis HE : eqb_ok S.
Hypothesis HND : no_dup_pos (nz (ell_entries A)).
Lemma e_nodup i : 0 <= i < n -> NoDup (map fst (filter (fun p => nonzero (snd p)) (ell_ln A i))).
Proof using HND.
  intros Hi. apply (no_dup_row n (fun i => filter (fun p => nonzero (snd p)) (ell_ln A i)) i Hi).
  assert (EQ : filter (fun e : entry T => nonzero (eval e)) (row_ents n (ell_ln A)) = row_ents n (fun i => filter (fun p => nonzero (snd p)) (ell_ln A i))).
  { unfold row_ents. rewrite <- SplitProof.flat_map_filter. apply flat_map_ext. intros r. induction (ell_ln A r) as [|p l IH]; cbn [map filter]; [reflexivity|]. unfold eval at 1. cbn [snd]. rewrite IH. destruct (nonzero (snd p)); reflexivity. }
  rewrite <- EQ. unfold no_dup_pos. eapply Permutation_NoDup; [|exact HND]. apply Permutation_map. unfold nz. apply Permutation_filter. apply ell_row_ents.
Qed.

Lemma eside_ext m G G' ix' (vl' : list T) : (forall r, 0 <= r < n -> G r = G' r) -> eside n m G ix' vl' -> eside n m G' ix' vl'.
Proof using. intros H (H1 & H2 & H3). split; auto. split; auto. intros r j Hr Hj. rewrite <- H by auto. auto. Qed.
Lemma eside_line m G ix' (vl' : list T) r : eside n m G ix' vl' -> 0 <= r < n -> zlen (G r) <= m ->
  ell_ln (mkEll n (ell_np A) m ix' vl') r = G r ++ map (fun _ => (r, s0)) (zrange (zlen (G r)) m).
Proof using.
  intros (H1 & H2 & H3) Hr Hl. pose proof (zlen_nonneg (G r)). unfold ell_ln. cbn [ell_n ell_maxnzr ell_index ell_value]. rewrite (zrange_app 0 (zlen (G r)) m) by lia. rewrite flat_map_app. f_equal.
  - rewrite (list_table (0, s0) (G r)) at 2. rewrite <- flat_map_single. apply flat_map_ext_in. intros j Hj. apply In_zrange in Hj. unfold pitem. rewrite H3 by lia. unfold slotv. destruct (Z.ltb_spec j (zlen (G r))); [reflexivity|lia].
  - rewrite <- flat_map_single. apply flat_map_ext_in. intros j Hj. apply In_zrange in Hj. unfold pitem. rewrite H3 by lia. unfold slotv. destruct (Z.ltb_spec j (zlen (G r))); [lia|reflexivity].
Qed.

Definition eG (W : Z -> list (Z * T)) (i : Z) (F : list (Z * T)) (r : Z) : list (Z * T) := if r <? i then W r else if r =? i then F else [].
Lemma eG_put m W i F ix' vl' c v (Q : list Z -> list T -> Prop) : 0 <= i < n -> zlen F < m -> eside n m (eG W i F) ix' vl' ->
  (eside n m (eG W i (F ++ [(c, v)])) (zupd ix' (zlen F * n + i) c) (zupd vl' (zlen F * n + i) v) -> Q (zupd ix' (zlen F * n + i) c) (zupd vl' (zlen F * n + i) v)) ->
  0 <= zlen F * n + i < zlen ix' /\ 0 <= zlen F * n + i < zlen vl' /\ Q (zupd ix' (zlen F * n + i) c) (zupd vl' (zlen F * n + i) v).
Proof using.
  intros Hi Hl HG HQ. assert (EF : eG W i F i = F). { unfold eG. rewrite Z.ltb_irrefl, Z.eqb_refl. reflexivity. }
  pose proof HG as (L1 & L2 & _). pose proof (zlen_nonneg F). pose proof (slot_lt n m (zlen F) i Hi ltac:(lia)). split; [lia|]. split; [lia|]. apply HQ.
  pose proof (eside_put n m (eG W i F) ix' vl' i c v Hi ltac:(rewrite EF; lia) HG) as P. rewrite EF in P. eapply eside_ext; [|exact P].
  intros r Hr. unfold eG. destruct (Z.eqb_spec r i) as [->|Hne]; [rewrite Z.ltb_irrefl; reflexivity|reflexivity].
Qed.
Lemma eG_next W i r : 0 <= i -> eG W i (W i) r = eG W (i + 1) [] r.
Proof using. intros Hi. unfold eG. destruct (Z.ltb_spec r i); destruct (Z.ltb_spec r (i + 1)); destruct (Z.eqb_spec r i); destruct (Z.eqb_spec r (i + 1)); subst; try lia; auto. Qed.

Lemma split_ell_wp jli jlv jui juv jd : wp (split_ell jli jlv jui juv jd A) (fun P => es_n P = n /\
  elines_in n (es_L P) /\ elines_in n (es_U P) /\
  (forall i, 0 <= i < n -> exists m, ell_ln (es_L P) i = eWL i ++ map (fun _ => (i, s0)) (zrange (zlen (eWL i)) m)) /\
  (forall i, 0 <= i < n -> exists m, ell_ln (es_U P) i = eWU i ++ map (fun _ => (i, s0)) (zrange (zlen (eWU i)) m)) /\
  zlen (es_D P) = n /\ forall i p, 0 <= i < n -> In p (ell_ln A i) -> fst p = i -> snd p <> s0 -> znth s0 (es_D P) i = snd p).
Proof using HA Hsq HE HND.
  pose proof eA_lines as (_ & H2). pose proof HA as (Hn & Hm & L1 & L2 & _).
  unfold split_ell. apply wp_bind. eapply wp_mono; [apply ell_count_wp|]. intros [lm um] (B1 & B2 & B3). cbn [fst snd] in *.
  apply wp_bind. apply ell_pad_wp; [lia|lia|rewrite zlen_alloc by nia; lia|rewrite zlen_alloc by nia; lia|]. intros li0 lv0 SL0.
  apply wp_bind. assert (WD : wp (if 0 <? lm then for_ 0 n (fun i d => wr d i s0) (alloc n jd) else Ok (alloc n jd)) (fun d => zlen d = n)).
  { destruct (0 <? lm); [|apply wp_ok, zlen_alloc; lia]. apply (for_wp' (fun _ d => zlen d = n)); auto; [lia|apply zlen_alloc; lia|]. intros i d Hi Hd. apply wp_wr; [lia|len]. }
  eapply wp_mono; [exact WD|]. clear WD. intros d0 Ld0.
  apply wp_bind. apply ell_pad_wp; [lia|lia|rewrite zlen_alloc by nia; lia|rewrite zlen_alloc by nia; lia|]. intros ui0 uv0 SU0.
  apply wp_bind.
  apply (for_wp' (fun i s => let '((li, lv), (ui, uv), d) := s in eside n lm (eG eWL i []) li lv /\ eside n um (eG eWU i []) ui uv /\ zlen d = n /\
     forall r p, 0 <= r < i -> In p (ell_ln A r) -> fst p = r -> snd p <> s0 -> znth s0 d r = snd p)); [lia| | |].
  - split; [|split; [|split; [auto|intros; lia]]].
    + eapply eside_ext; [|exact SL0]. intros r Hr. unfold eG. destruct (Z.ltb_spec r 0); [lia|]. destruct (r =? 0); reflexivity.
    + eapply eside_ext; [|exact SU0]. intros r Hr. unfold eG. destruct (Z.ltb_spec r 0); [lia|]. destruct (r =? 0); reflexivity.
  - intros i [[[li lv] [ui uv]] d] Hi (HL & HU & Ld & Hd). apply wp_bind. unfold ell_line.
    apply (for_items (fun dn s => let '((li, lv, lc), (ui, uv, uc), d) := s in lc = zlen (below i dn) /\ uc = zlen (above i dn) /\ eside n lm (eG eWL i (below i dn)) li lv /\ eside n um (eG eWU i (above i dn)) ui uv /\ zlen d = n /\
       (forall r p, 0 <= r < i -> In p (ell_ln A r) -> fst p = r -> snd p <> s0 -> znth s0 d r = snd p) /\ forall p, In p dn -> fst p = i -> snd p <> s0 -> znth s0 d i = snd p)
      (ell_ln A i) (pitem ix vl (fun j => j * n + i)) 0 (ell_maxnzr A) _ []).
    + lia.
    + cbn [app]. apply prefix_refl.
    + repeat split; auto; try apply HL; try apply HU. intros p [].
    + intros k [[[[li1 lv1] lc1] [[ui1 uv1] uc1]] d1] dn Hk _ Hpre (-> & -> & SL & SU & Ld1 & D1 & D2). specialize (H2 i Hi k Hk). cbv beta in H2. wrd 0; [lia|]. wrd s0; [lia|].
      pose proof (below_prefix i _ _ Hpre) as PB. pose proof (above_prefix i _ _ Hpre) as PA. fold (eWL i) in PB. fold (eWU i) in PA. destruct (B3 i Hi) as [B4 B5].
      unfold pitem in PB, PA, Hpre |- *. set (c := znth 0 ix (k * n + i)) in *. set (v := znth s0 vl (k * n + i)) in *.
      unfold below, above in PB, PA. rewrite !filter_app in *. cbn [filter fst] in *. rewrite !zlen_app in *. fold (below i dn) in PB. fold (above i dn) in PA.
      assert (EB : below i (dn ++ [(c, v)]) = below i dn ++ if c <? i then [(c, v)] else []). { unfold below. rewrite filter_app. reflexivity. }
      assert (EA : above i (dn ++ [(c, v)]) = above i dn ++ if i <? c then [(c, v)] else []). { unfold above. rewrite filter_app. reflexivity. }
      rewrite EA, EB.
      destruct (Z.ltb_spec c i) as [G1|G1]; destruct (Z.ltb_spec i c) as [G2|G2]; try lia.
      * change (zlen [(c, v)]) with 1 in PB. destruct (eG_put lm eWL i (below i dn) li1 lv1 c v (fun a b => eside n lm (eG eWL i (below i dn ++ [(c, v)])) a b)) as (Q1 & Q2 & Q3); auto; [lia|].
        wwr; [lia|]. wwr; [lia|]. apply wp_ok. rewrite app_nil_r. split; [rewrite zlen_app; reflexivity|]. split; auto. split; [exact Q3|]. split; [exact SU|]. split; auto. split; auto.
        intros p Hp E. apply in_app_iff in Hp. destruct Hp as [Hp|[<-|[]]]; [auto|]. cbn [fst] in E. lia.
      * change (zlen [(c, v)]) with 1 in PA. destruct (eG_put um eWU i (above i dn) ui1 uv1 c v (fun a b => eside n um (eG eWU i (above i dn ++ [(c, v)])) a b)) as (Q1 & Q2 & Q3); auto; [lia|].
        wwr; [lia|]. wwr; [lia|]. apply wp_ok. rewrite app_nil_r. split; auto. split; [rewrite zlen_app; reflexivity|]. split; [exact SL|]. split; [exact Q3|]. split; auto. split; auto.
        intros p Hp E. apply in_app_iff in Hp. destruct Hp as [Hp|[<-|[]]]; [auto|]. cbn [fst] in E. lia.
      * assert (Ec : c = i) by lia. rewrite !app_nil_r. destruct (seqb v s0) eqn:Ev.
        -- apply HE in Ev. apply wp_ok. split; auto. split; auto. split; auto. split; auto. split; auto. split; auto.
           intros p Hp E Hz. apply in_app_iff in Hp. destruct Hp as [Hp|[<-|[]]]; [auto|]. cbn [snd] in Hz. congruence.
        -- wwr; [lia|]. apply wp_ok. split; auto. split; auto. split; auto. split; auto. split; [len|]. split.
           { intros r p Hr Hp E Hz. rewrite znth_zupd_neq by lia. apply D1; auto. }
           intros p Hp E Hz. rewrite znth_zupd_eq by lia. apply in_app_iff in Hp. destruct Hp as [Hp|[<-|[]]]; [|reflexivity].
           exfalso. destruct Hpre as (rest & Hpre). pose proof (e_nodup i Hi) as ND. rewrite Hpre in ND. rewrite <- app_assoc in ND. cbn [app] in ND. rewrite filter_app in ND. cbn [filter snd] in ND. unfold nonzero in ND at 2. rewrite Ev in ND. cbn [negb] in ND. rewrite map_app in ND. cbn [map fst] in ND. apply NoDup_remove_2 in ND. apply ND. apply in_app_iff. left.
           rewrite Ec, <- E. apply in_map. apply filter_In. split; auto. unfold nonzero. destruct (seqb (snd p) s0) eqn:Ep; [|reflexivity]. apply HE in Ep. congruence.
    + cbn [app]. intros [[[[li1 lv1] lc1] [[ui1 uv1] uc1]] d1] (-> & -> & SL & SU & Ld1 & D1 & D2). apply wp_ok. split; [|split; [|split; [auto|]]].
      * eapply eside_ext; [|exact SL]. intros r Hr. apply (eG_next eWL). lia.
      * eapply eside_ext; [|exact SU]. intros r Hr. apply (eG_next eWU). lia.
      * intros r p Hr Hp E Hz. destruct (Z.eq_dec r i) as [->|Hne]; [apply D2; auto|apply D1; auto; lia].
  - intros [[[li lv] [ui uv]] d] (HL & HU & Ld & Hd). apply wp_ok. cbn [es_n es_L es_U es_D].
    assert (G : forall W m ix' vl', (forall i p, 0 <= i < n -> In p (W i) -> 0 <= fst p < n) -> (forall i, 0 <= i < n -> zlen (W i) <= m) -> eside n m (eG W n []) ix' vl' ->
       elines_in n (mkEll n (ell_np A) m ix' vl') /\ forall i, 0 <= i < n -> exists m', ell_ln (mkEll n (ell_np A) m ix' vl') i = W i ++ map (fun _ => (i, s0)) (zrange (zlen (W i)) m')).
    { intros W m ix' vl' HW Hlen HS. assert (HS' : eside n m W ix' vl'). { eapply eside_ext; [|exact HS]. intros r Hr. unfold eG. destruct (Z.ltb_spec r n); [reflexivity|lia]. }
      assert (G : forall i, 0 <= i < n -> ell_ln (mkEll n (ell_np A) m ix' vl') i = W i ++ map (fun _ => (i, s0)) (zrange (zlen (W i)) m)). { intros i Hi. apply eside_line; auto. }
      split; [|eauto]. split; [reflexivity|]. cbn [ell_n ell_index ell_value ell_maxnzr]. intros i Hi j Hj. pose proof HS' as (K1 & K2 & K3). pose proof (slot_lt n m j i Hi Hj). split; [lia|]. split; [lia|].
      assert (Hin : In (znth 0 ix' (j * n + i), znth s0 vl' (j * n + i)) (ell_ln (mkEll n (ell_np A) m ix' vl') i)). { unfold ell_ln. cbn [ell_n ell_index ell_value ell_maxnzr]. apply in_flat_map. exists j. split; [apply In_zrange; auto|left; reflexivity]. }
      rewrite G in Hin by auto. apply in_app_iff in Hin. destruct Hin as [Hin|Hin]; [apply (HW i _ Hi Hin)|]. apply in_map_iff in Hin. destruct Hin as (q & E & _). injection E as <- _. lia. }
    assert (WL : forall i p, 0 <= i < n -> In p (eWL i) -> 0 <= fst p < n). { intros i p Hi Hp. apply filter_In in Hp. apply (ell_ln_in i p); tauto. }
    assert (WU : forall i p, 0 <= i < n -> In p (eWU i) -> 0 <= fst p < n). { intros i p Hi Hp. apply filter_In in Hp. apply (ell_ln_in i p); tauto. }
    destruct (G eWL lm li lv WL) as [G1 G2]; auto. { intros i Hi. apply B3; auto. } destruct (G eWU um ui uv WU) as [G3 G4]; auto. { intros i Hi. apply B3; auto. }
    split; auto. split; [exact G1|]. split; [exact G3|]. split; [exact G2|]. split; [exact G4|]. auto.
Qed.

Lemma e_coef i j : 0 <= i < n -> coef (ell_entries A) i j = lc (ell_ln A i) j.
Proof using RT. intros Hi. rewrite (coef_perm RT _ _ i j (ell_row_ents A)). apply (coef_row_ents RT); auto. Qed.
Lemma lc_pad l i (ks : list Z) j : lc (l ++ map (fun _ => (i, s0)) ks) j = lc l j.
Proof using RT. rewrite (lc_app RT). rewrite (lc_zeros RT (map _ ks)); [ring|]. intros p Hp _. apply in_map_iff in Hp. destruct Hp as (q & <- & _). reflexivity. Qed.
Lemma e_low ln : (forall i, 0 <= i < n -> exists m, ln i = eWL i ++ map (fun _ => (i, s0)) (zrange (zlen (eWL i)) m)) -> lowline n ln (coef (ell_entries A)).
Proof using RT HA Hsq.
  intros H i Hi. destruct (H i Hi) as (m & ->). split.
  - intros p Hp. apply in_app_iff in Hp. destruct Hp as [Hp|Hp].
    + apply filter_In in Hp. destruct Hp as [Hp Hc]. apply Z.ltb_lt in Hc. split; [apply (ell_ln_in i p); auto|]. lia.
    + apply in_map_iff in Hp. destruct Hp as (q & <- & _). cbn [fst snd]. auto.
  - intros j Hj. rewrite lc_pad. unfold eWL, below. rewrite (lc_filter RT (fun c => c <? i)). destruct (Z.ltb_spec j i); [|reflexivity]. rewrite e_coef by auto. reflexivity.
Qed.
Lemma e_upp ln : (forall i, 0 <= i < n -> exists m, ln i = eWU i ++ map (fun _ => (i, s0)) (zrange (zlen (eWU i)) m)) -> uppline n ln (coef (ell_entries A)).
Proof using RT HA Hsq.
  intros H i Hi. destruct (H i Hi) as (m & ->). split.
  - intros p Hp. apply in_app_iff in Hp. destruct Hp as [Hp|Hp].
    + apply filter_In in Hp. destruct Hp as [Hp Hc]. apply Z.ltb_lt in Hc. split; [apply (ell_ln_in i p); auto|]. lia.
    + apply in_map_iff in Hp. destruct Hp as (q & <- & _). cbn [fst snd]. auto.
  - intros j Hj. rewrite lc_pad. unfold eWU, above. rewrite (lc_filter RT (fun c => i <? c)). destruct (Z.ltb_spec i j); [|reflexivity]. rewrite e_coef by auto. reflexivity.
Qed.
Lemma lc_nz l j : lc (filter (fun p => nonzero (snd p)) l) j = lc l j.
Proof using RT HE.
  unfold lc. apply (ssum_filter RT). intros p _ Hp. unfold nonzero in Hp. apply negb_false_iff in Hp. apply HE in Hp. rewrite Hp. destruct (fst p =? j); reflexivity.
Qed.

Lemma ell_solve_final (FT : is_field S) jli jlv jui juv jd : (forall i, 0 <= i < n -> coef (ell_entries A) i i <> s0) ->
  exists P wd, split_ell jli jlv jui juv jd A = Ok P /\ diag_inverse n (es_D P) = Ok wd /\
    solves_lower n (ell_entries A) (solve_lower_ell P wd) /\ solves_upper n (ell_entries A) (solve_upper_ell P wd) /\
    solves_ssor n (ell_entries A) (solve_ssor_ell P wd) /\
    (conj_ok S -> solvesh_lower n (ell_entries A) (solveh_lower_ell P wd) /\ solvesh_upper n (ell_entries A) (solveh_upper_ell P wd) /\ solvesh_ssor n (ell_entries A) (solveh_ssor_ell P wd)).
Proof using HND RT HA Hsq HE.
  intros Hd. pose proof HA as (Hn & _). destruct (wp_ex _ _ (split_ell_wp jli jlv jui juv jd)) as (P & EP & P1 & P2 & P3 & P4 & P5 & P6 & P7).
  assert (Hdd : forall i, 0 <= i < n -> znth s0 (es_D P) i = coef (ell_entries A) i i).
  { intros i Hi. specialize (Hd i Hi). rewrite e_coef in * by auto. rewrite <- lc_nz in *.
    set (l := filter (fun p => nonzero (snd p)) (ell_ln A i)) in *.
    assert (Hex : exists p, In p l /\ fst p = i).
    { destruct (existsb (fun p => fst p =? i) l) eqn:E.
      - apply existsb_exists in E. destruct E as (p & Hp & E). apply Z.eqb_eq in E. eauto.
      - exfalso. apply Hd. apply (lc_absent RT). intros p Hp E'. assert (existsb (fun p => fst p =? i) l = true) by (apply existsb_exists; exists p; rewrite E', Z.eqb_refl; auto). congruence. }
    destruct Hex as (p & Hp & E). rewrite (lc_unique RT l i p); auto; [|apply e_nodup; auto]. unfold l in Hp. apply filter_In in Hp. destruct Hp as [Hp Hz]. apply P7; auto.
    intros E0. unfold nonzero in Hz. rewrite E0 in Hz. destruct (seqb s0 s0) eqn:E1; [discriminate|]. assert (seqb (s0 : T) s0 = true) by (apply HE; reflexivity). congruence. }
  destruct (diag_inverse_wp RT FT n (es_D P)) as (wd & EW & LW & HW). { lia. } { intros i Hi. rewrite Hdd by auto. auto. }
  exists P, wd. split; auto. split; auto.
  assert (Hw : n <= zlen wd) by lia. assert (Hinv : forall i, 0 <= i < n -> smul (coef (ell_entries A) i i) (znth s0 wd i) = s1) by (intros i Hi; rewrite <- Hdd by auto; auto).
  assert (Hn' : 0 <= n) by lia. pose proof (e_low _ P4) as HL. pose proof (e_upp _ P5) as HU.
  assert (ZL : forall i p, 0 <= i < n -> In p (ell_ln (es_L P) i) -> fst p = i -> snd p = s0). { intros i p Hi Hp. apply (HL i Hi); auto. }
  assert (ZU : forall i p, 0 <= i < n -> In p (ell_ln (es_U P) i) -> fst p = i -> snd p = s0). { intros i p Hi Hp. apply (HU i Hi); auto. }
  split; [|split; [|split; [|intros HC; pose proof HC as (_ & _ & _ & C0 & _); split; [|split]]]].
  - unfold solve_lower_ell. rewrite P1. apply (row_lower RT n _ wd Hn' Hw Hinv (ell_ln (es_L P))); auto. apply ell_gat; auto.
  - unfold solve_upper_ell. rewrite P1. apply (row_upper RT n _ wd Hn' Hw Hinv (ell_ln (es_U P))); auto. apply ell_gat; auto.
  - unfold solve_ssor_ell, solve_lower_ell. rewrite P1. apply (row_ssor RT n _ wd Hn' Hw Hinv (ell_ln (es_L P)) (ell_ln (es_U P))); auto. { apply ell_gat; auto. } apply ell_add; auto.
  - unfold solveh_lower_ell. rewrite P1. apply (row_h_lower RT n _ wd Hn' Hw Hinv HC (ell_ln (es_U P))); auto. apply ell_live; auto.
  - unfold solveh_upper_ell. rewrite P1. apply (row_h_upper RT n _ wd Hn' Hw Hinv HC (ell_ln (es_L P))); auto. apply ell_live; auto.
  - unfold solveh_ssor_ell. rewrite P1. apply (row_h_ssor RT n _ wd Hn' Hw Hinv HC (ell_ln (es_L P)) (ell_ln (es_U P))); auto; apply ell_sca; auto.
Qed.
End Split.
End S.
