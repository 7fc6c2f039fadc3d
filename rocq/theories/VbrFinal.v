(** CSR -> VBR: the conversion *)
Require Import ZArith List Bool Lia Permutation.
From Verif Require Import Base Scalar Spec Items Csc CscProof Coo CooProof Fmt EllProof DiaProof JadProof Bsr Vbr BlkProof BlkFill BsrProof BsrFinal Unblk VbrProof.
Import ListNotations.
Open Scope Z_scope.

Lemma prefix_zs (g : Z -> Z) n cnt (Q : list Z -> Prop) :
  0 <= n -> n + 1 <= zlen cnt -> znth 0 cnt 0 = 0 -> (forall i, 0 <= i < n -> znth 0 cnt (i + 1) = g i) ->
  (forall c', zlen c' = zlen cnt -> (forall r, 0 <= r <= n -> znth 0 c' r = zs (map g (zrange 0 r))) -> Q c') ->
  wp (for_ 0 n (fun i cnt => a <- rd cnt (i + 1) ;; c <- rd cnt i ;; wr cnt (i + 1) (a + c)) cnt) Q.
Proof.
  intros Hn Hl H0 Hc HQ.
  apply (for_wp' (fun i a => zlen a = zlen cnt /\ (forall q, 0 <= q <= i -> znth 0 a q = zs (map g (zrange 0 q))) /\ (forall q, i <= q < n -> znth 0 a (q + 1) = g q))); try lia.
  - split; [auto|]. split; intros q Hq; auto. replace q with 0 by lia. rewrite H0. reflexivity.
  - intros i a Hi (La & P1 & P2). wrd 0; [lia|]. wrd 0; [lia|]. wwr; [lia|]. rewrite zlen_zupd. split; [auto|]. split; intros q Hq.
    + rewrite znth_zupd by lia. destruct (Z.eqb_spec q (i + 1)); [|apply P1; lia].
      subst q. rewrite zrange_snoc, map_app, zs_app by lia. rewrite (P1 i), (P2 i) by lia. cbn. lia.
    + rewrite znth_zupd_neq by lia. apply P2; lia.
  - intros a (La & P1 & _). apply HQ; auto.
Qed.
Lemma zs_flat_map (f : Z -> list Z) l : zs (flat_map f l) = zs (map (fun x => zs (f x)) l).
Proof. induction l; cbn; auto. rewrite zs_app, IHl. reflexivity. Qed.

Section Final.
Context {T : Type} {S : Scalar T}.

(** a partition of 0..n-1 *)
Definition partition_of (n m : Z) (p : list Z) : Prop := ptr_ok m p /\ znth 0 p m = n.

Lemma reset_count_v i sz nc F m (src iw count col : list Z) bnr (Q : Z * list Z * list Z -> Prop) :
  m = zlen F -> m <= zlen src -> list_rep F src -> zlen iw = nc -> nc + 1 <= zlen col -> (forall x, In x F -> 0 <= x < nc) -> flag_rep nc F iw ->
  0 <= i -> i + 1 < zlen count -> znth 0 count (i + 1) = 0 -> (forall x, sz x = bnr * (znth 0 col (x + 1) - znth 0 col x)) ->
  (forall iw' count', zlen iw' = nc -> (forall x, 0 <= x < nc -> znth 0 iw' x = 0) -> zlen count' = zlen count ->
     znth 0 count' (i + 1) = zs (map sz F) -> (forall j, j <> i + 1 -> znth 0 count' j = znth 0 count j) -> Q (m, iw', count')) ->
  wp (for_ 0 m (fun bj s =>
          let '(k, iw, count) := s in
          ii <- rd src bj ;;
          iw <- wr iw ii 0 ;;
          c1 <- rd col (ii + 1) ;; c0 <- rd col ii ;;
          c <- rd count (i + 1) ;;
          count <- wr count (i + 1) (c + bnr * (c1 - c0)) ;;
          Ok (k + 1, iw, count)) (0, iw, count)) Q.
Proof.
  intros Em Hls Hl Lw Lc HF Hfl Hi Hic Hc0 Hsz HQ. pose proof (zlen_nonneg F).
  apply (for_wp' (fun t s => let '(k, w, ct) := s in k = t /\ zlen w = nc /\ (forall x, 0 <= x < nc -> znth 0 w x <> 0 -> exists u, t <= u < m /\ znth 0 F u = x) /\
     zlen ct = zlen count /\ znth 0 ct (i + 1) = zs (map (fun u => sz (znth 0 F u)) (zrange 0 t)) /\ (forall j, j <> i + 1 -> znth 0 ct j = znth 0 count j))); try lia.
  - split; auto. split; auto. split; [|auto]. intros x Hx Hne. rewrite Hfl in Hne by auto. destruct (mem x F) eqn:E; [|lia].
    apply mem_In in E. destruct (In_znth 0 F x E) as (t & Ht & Et). exists t. split; auto. lia.
  - intros t [[k w] ct] Ht (-> & L & Hw & Lct & Hct & Ho). wrd 0; [lia|]. rewrite (Hl t) by lia.
    assert (HB : 0 <= znth 0 F t < nc) by (apply HF, znth_In; lia). wwr; [lia|]. wrd 0; [lia|]. wrd 0; [lia|]. wrd 0; [lia|]. wwr; [lia|]. apply wp_ok. rewrite !zlen_zupd.
    split; auto. split; auto. split; [|split; [auto|split]].
    + intros x Hx. rewrite znth_zupd by lia. destruct (Z.eqb_spec x (znth 0 F t)); [lia|]. intros Hne. destruct (Hw x Hx Hne) as (u & Hu & Eu).
      exists u. split; auto. assert (u <> t) by congruence. lia.
    + rewrite znth_zupd_eq by lia. rewrite zrange_snoc, map_app, zs_app by lia. cbn [map]. unfold zs at 2. cbn [fold_right]. rewrite Hct, Hsz. lia.
    + intros j Hj. rewrite znth_zupd_neq by lia. auto.
  - intros [[k w] ct] (-> & L & Hw & Lct & Hct & Ho). apply HQ; auto.
    + intros x Hx. destruct (Z.eq_dec (znth 0 w x) 0); auto. destruct (Hw x Hx n) as (u & ? & _). lia.
    + rewrite Hct, Em. f_equal. transitivity (map sz (map (znth 0 F) (zrange 0 (zlen F)))); [rewrite map_map; auto|rewrite <- (list_table 0 F); auto].
Qed.

Lemma csr2vbr_with_wp (HZ : eqb_zero S) jb jc jp2 jw jw2 jw3 jptr ji (jv : Z -> T) nr nc row col (A : csr T) :
  csr_ok A -> csr_np A = csr_n A -> no_dup_pos (csr_entries A) -> partition_of (csr_n A) nr row -> partition_of (csr_n A) nc col ->
  wp (csr2vbr_with jb jc jp2 jw jw2 jw3 jptr ji jv nr nc row col A) (fun B => vbr_ok B /\ vbr_n B = csr_n A /\ vbr_np B = csr_np A /\
     vbr_nr B = nr /\ vbr_nc B = nc /\ vbr_row B = row /\ vbr_col B = col /\ same_entries (vbr_entries B) (csr_entries A) /\
     zlen (vbr_ptr B) = vbr_bnnz B + 1 /\ zlen (vbr_value B) = vbr_nnz B).
Proof.
  intros HA Hnp HD [Hrow Hrn] [Hcol Hcn]. pose proof HA as (Hp & _ & Hnn & Hi & Hv & Hx). rewrite Hnp in Hx.
  set (n := csr_n A) in *. set (ptr := csr_ptr A) in *. set (index := csr_index A) in *. set (vals := csr_value A) in *.
  pose proof Hrow as (Hnr & Hlr & Hr0 & Hrm). pose proof Hcol as (Hnc & Hlc & Hc0 & Hcm). pose proof Hp as (Hn & Hlp & Hp0 & Hpm).
  assert (Hix : forall k, 0 <= k < znth 0 ptr n -> 0 <= znth 0 index k < n) by (intros k Hk; rewrite Hnn in Hk; auto).
  assert (Hli : znth 0 ptr n <= zlen index) by lia. assert (Hlv : znth 0 ptr n <= zlen vals) by lia.
  set (g := gv row). set (cb := cbv nc col). set (DD := Dof ptr index g cb).
  pose proof (gv_0 nr row Hrow) as G0. pose proof (gv_n n nr row Hrn) as Gn. pose proof (gv_m nr row Hrow) as Gm.
  pose proof (cbv_r n nc ptr index col Hcol Hcn Hix) as CR. pose proof (rbv_g nr row Hrow) as RG.
  fold g in G0, Gn, Gm, RG. fold cb in CR.
  assert (Grange : forall bi, 0 <= bi <= nr -> 0 <= g bi <= n) by (intros; eapply (g_range n nr g); eauto).
  unfold csr2vbr_with. cbv zeta. fold n ptr index vals.
  (* p2bindex *)
  wbind. apply (for_wp' (fun i p => zlen p = n /\ forall x, 0 <= x < znth 0 col i -> znth 0 p x = cb x)); auto.
  { rewrite zlen_alloc by lia. split; auto. intros; lia. }
  { intros i p Hii (Lp & Zp). wrd 0; [lia|]. wrd 0; [lia|]. pose proof (Hcm i Hii). pose proof (ptr_ok_mono nc col 0 i Hcol ltac:(lia) ltac:(lia)).
    pose proof (ptr_ok_mono nc col (i + 1) nc Hcol ltac:(lia) ltac:(lia)).
    apply (for_wp' (fun j p => zlen p = n /\ forall x, 0 <= x < j -> znth 0 p x = cb x)); auto.
    intros j p' Hj (Lp' & Zp'). apply wp_wr; [lia|]. rewrite zlen_zupd. split; auto. intros x Hx'. rewrite znth_zupd by lia.
    destruct (Z.eqb_spec x j); [|apply Zp'; lia]. subst x. symmetry. apply grp_spec; auto. }
  intros p2b (Lp2 & Hp2). rewrite Hcn in Hp2.
  apply wp_bind, (for_set 0 (fun _ => 0)); [lia|rewrite zlen_alloc; lia|]. intros count Lc Zc _. rewrite zlen_alloc in Lc by lia.
  wbind. apply zero_init; auto. intros iw Liw Ziw. wbind.
  (* first pass *)
  apply (for_wp' (fun i s => let '(iw, iw2, bptr, count) := s in zlen iw = nc /\ zlen iw2 = nc /\ zlen bptr = nr + 1 /\ zlen count = nr + 1 /\
     (forall x, 0 <= x < nc -> znth 0 iw x = 0) /\ (forall j, 0 <= j < i -> znth 0 bptr (j + 1) = zlen (DD j)) /\
     znth 0 count 0 = 0 /\ (forall j, 0 <= j < i -> znth 0 count (j + 1) = zs (map (szv row col j) (DD j))) /\ (forall j, i <= j < nr -> znth 0 count (j + 1) = 0))); auto.
  { rewrite !zlen_alloc by lia. repeat (split; [first [assumption|lia|intros; lia|intros; apply Zc; lia|apply Zc; lia]|]). intros; apply Zc; lia. }
  { clear iw Liw Ziw count Lc Zc. intros i [[[iw iw2] bptr] count] Hii (L1 & L2 & L3 & L4 & Z1 & H1 & C0 & C1 & C2).
    wrd 0; [lia|]. wrd 0; [lia|]. fold (rnv row i). wbind.
    pose proof (Grange i ltac:(lia)) as GR1. pose proof (Grange (i + 1) ltac:(lia)) as GR2. pose proof (Gm i Hii) as GM.
    change (znth 0 row i) with (g i). change (rnv row i) with (g (i + 1) - g i).
    replace (Z.min (g (i + 1) - g i) (n - g i)) with (g (i + 1) - g i) by lia.
    apply (count_lines (fun x => rd p2b x) cb n nc ptr index (g i) (g (i + 1) - g i) iw iw2); auto; try lia.
    - intros k Hk. pose proof (Hix k Hk). split; [|apply CR; auto]. rewrite (rd_ok 0) by lia. f_equal. apply Hp2; auto.
    - intros iw' iw2' L1' L2' F HF HL. wbind.
      assert (EF : F = DD i) by (unfold F, DD, Dof; replace (g i + (g (i + 1) - g i)) with (g (i + 1)) by lia; auto).
      assert (HFr : forall x, In x F -> 0 <= x < nc).
      { intros x Hx'. rewrite EF in Hx'. revert Hx'. eapply (Dof_range n ptr index vals Hp nr nc g cb); eauto. }
      assert (zlen F <= nc) by (apply NoDup_bound; auto; apply firsts_NoDup).
      apply (reset_count_v i (szv row col i) nc F); auto; try lia; try (apply C2; lia).
      intros iw'' count' L1'' Z1'' L4' EC EO. wwr; [lia|]. apply wp_ok. rewrite zlen_zupd.
      split; [auto|]. split; [auto|]. split; [auto|]. split; [lia|]. split; [auto|]. split; [|split; [|split]].
      + intros j Hj. rewrite znth_zupd by lia. destruct (Z.eqb_spec (j + 1) (i + 1)); [replace j with i by lia; rewrite <- EF; auto|]. apply H1; lia.
      + rewrite EO by lia. auto.
      + intros j Hj. destruct (Z.eq_dec j i); [subst j; rewrite EC, EF; auto|]. rewrite EO by lia. apply C1; lia.
      + intros j Hj. rewrite EO by lia. apply C2; lia. }
  clear iw Liw Ziw count Lc Zc. intros [[[iw iw2] bptr] count] (L1 & L2 & L3 & L4 & Z1 & H1 & C0 & C1 & _).
  unfold prefix_sum. wbind. wwr; [lia|]. apply (prefix_self DD); rewrite ?zlen_zupd; try lia.
  { apply znth_zupd_eq; lia. } { intros i Hii. rewrite znth_zupd_neq by lia. auto. }
  clear H1. intros bptr1 L3x H1. rewrite ?zlen_zupd in L3x. rewrite L3 in L3x. clear L3 bptr. rename bptr1 into bptr, L3x into L3. change (forall r, 0 <= r <= nr -> znth 0 bptr r = bp DD r) in H1.
  wrd 0; [lia|]. rewrite (H1 nr) by lia. assert (HB0 : forall i, 0 <= bp DD i) by (intros; apply zlen_nonneg).
  wbind. apply (prefix_zs (fun j => zs (map (szv row col j) (DD j)))); auto; try lia.
  intros count1 L4x HC0. rewrite L4 in L4x. clear count L4 C0 C1. rename count1 into count, L4x into L4.
  assert (HC : forall r, 0 <= r <= nr -> znth 0 count r = vov nr nc ptr index row col (bp DD r)).
  { intros r Hr. rewrite HC0 by auto. rewrite (vov_bp nr nc ptr index row col) by auto. rewrite zs_flat_map. reflexivity. }
  clear HC0. set (vo := vov nr nc ptr index row col) in *.
  wrd 0; [lia|]. rewrite (HC nr) by lia.
  (* start of every block row *)
  wbind. apply (for_wp' (fun i p => zlen p = bp DD nr + 1 /\ forall j, 0 <= j < i -> znth 0 p (bp DD j) = vo (bp DD j))); auto.
  { rewrite zlen_alloc by (specialize (HB0 nr); lia). split; auto. intros; lia. }
  { intros i p Hii (Lp & Zp). wrd 0; [lia|]. wrd 0; [lia|]. rewrite H1, HC by lia. pose proof (bp_mono DD i nr ltac:(lia)). pose proof (HB0 i).
    apply wp_wr; [lia|]. rewrite zlen_zupd. split; auto. intros j Hj. rewrite znth_zupd by lia. destruct (Z.eqb_spec (bp DD j) (bp DD i)) as [E|N]; [rewrite E; auto|].
    apply Zp. assert (j <> i) by congruence. lia. }
  intros vp (Lvp & Hvp). wbind. apply zero_init; auto. clear iw L1 Z1 iw2 L2. intros iw L1 Z1. wbind.
  (* second pass *)
  pose proof (vbr_layout n nr nc ptr index vals row col Hp Hrow Hrn Hcol Hcn Hix) as LAY.
  pose proof (lents_PV n nr nc ptr index vals row col Hp Hrow Hrn Hcol Hcn Hix) as LP.
  pose proof (HNVv n nr nc ptr index vals row col Hp Hrow Hrn Hcol Hcn Hix) as HNV.
  pose proof (vov_next nr nc ptr index row col) as VN.
  change (gv row) with g in LAY, HNV, VN. change (cbv nc col) with cb in LAY, HNV, VN. change (Dof ptr index g cb) with DD in LAY, HNV, VN. change (vov nr nc ptr index row col) with vo in LAY, HNV, VN.
  set (rb := rbv nr row) in *. set (ll := llv nr nc row col) in *. set (PS := PV nr nc ptr index row col) in *. set (NV := vo (bp DD nr)) in *.
  assert (HNV0 : 0 <= NV).
  { unfold NV, vo. rewrite <- (vov_0 nr nc ptr index row col). apply (vov_mono n nr nc ptr index vals row col); auto; specialize (HB0 nr); fold g cb DD; lia. }
  apply (for_wp' (fun bi s => let '(iw, bindex, value, vp) := s in zlen iw = nc /\ zlen bindex = bp DD nr /\ zlen value = NV /\ zlen vp = bp DD nr + 1 /\
     (forall x, 0 <= x < nc -> znth 0 iw x = 0) /\ list_rep (flat_map DD (zrange 0 bi)) bindex /\
     val_rep rb cb DD vo ll PS (lents ptr index vals 0 (g bi)) value /\
     (forall t, 0 <= t < bp DD bi -> znth 0 vp t = vo t) /\ (forall j, bi <= j < nr -> znth 0 vp (bp DD j) = vo (bp DD j)))); auto.
  { rewrite !zlen_alloc by (try apply HB0; lia). split; [auto|]. split; [auto|]. split; [auto|]. split; [auto|]. split; [auto|]. split; [|split; [|split]].
    - intros t Ht. change (zlen (flat_map DD (zrange 0 0))) with 0 in Ht. lia.
    - rewrite G0. intros p _ [].
    - intros t Ht. change (bp DD 0) with 0 in Ht. lia.
    - intros j Hj. apply Hvp. lia. }
  { clear iw L1 Z1 vp Lvp Hvp. intros bi [[[iw bindex] value] vp] Hii (L1 & L2 & L3' & L4' & Z1 & HL & HV & HT & HJ).
    pose proof (Grange bi ltac:(lia)) as GR1. pose proof (Grange (bi + 1) ltac:(lia)) as GR2. pose proof (Gm bi Hii) as GM.
    pose proof (bp_mono DD bi nr ltac:(lia)) as BM. pose proof (HB0 bi) as BM0.
    wrd 0; [lia|]. wrd 0; [lia|]. rewrite H1 by lia. wrd 0; [lia|]. rewrite HJ by lia. wrd 0; [lia|]. wbind.
    change (znth 0 row bi) with (g bi). change (znth 0 row (bi + 1)) with (g (bi + 1)).
    replace (Z.min (g (bi + 1) - g bi) (n - g bi)) with (g (bi + 1) - g bi) by lia.
    pose proof (lents_shift ptr index vals nr g bi (g (bi + 1) - g bi) Hii ltac:(lia)) as ES.
    set (R := fun (d : list (entry T)) (s : list Z * list Z * list T * list Z * Z * Z) => let '(iw, bindex, value, vp, kk, kv) := s in
      RR ptr index vals nr nc g rb cb vo ll PS NV bi d (iw, bindex, value, kk) /\ zlen vp = bp DD nr + 1 /\ kv = vo kk /\ bp DD bi <= kk /\
      (forall t, 0 <= t <= kk -> znth 0 vp t = vo t) /\ (forall j, bi < j < nr -> znth 0 vp (bp DD j) = vo (bp DD j))).
    apply (for_items R (lents ptr index vals (g bi) (g (bi + 1))) (fun ii => map (fun k => (g bi + ii, znth 0 index k, znth s0 vals k) : entry T) (zrange (znth 0 ptr (g bi + ii)) (znth 0 ptr (g bi + ii + 1)))) 0 (g (bi + 1) - g bi) _ []); try lia.
    + rewrite app_nil_l, <- ES. apply prefix_refl.
    + unfold R. split; [apply RR_start; auto|]. split; [auto|]. split; [auto|]. split; [lia|]. split; [|intros; apply HJ; lia].
      intros t Ht. destruct (Z.eq_dec t (bp DD bi)); [subst t; apply HJ; lia|apply HT; lia].
    + intros ii s d Hii' _ Hpre HR. wrd 0; [lia|]. wrd 0; [lia|].
      apply (for_list R (lents ptr index vals (g bi) (g (bi + 1))) (fun k => (g bi + ii, znth 0 index k, znth s0 vals k) : entry T) _ _ _ d); auto.
      { apply Hp. lia. }
      clear s Hpre HR. intros k [[[[[w bx] va] vp'] kk] kv] d1 Hk _ Hpre (HR & M4 & -> & Mk & MT & MJ).
      pose proof (ptr_ok_bounds n ptr (g bi + ii) k Hp ltac:(lia) Hk) as Hkb. pose proof (Hix k Hkb) as HX.
      set (e := (g bi + ii, znth 0 index k, znth s0 vals k) : entry T) in *.
      wrd 0; [lia|]. wrd 0; [lia|]. rewrite Hp2 by lia. pose proof (CR k Hkb) as HCk. wrd 0; [lia|]. cbv zeta.
      pose proof HR as (M1 & M2 & M3 & _). wrd 0; [lia|].
      assert (EC : znth 0 index k = ecol e) by reflexivity. rewrite !EC. rewrite EC in HCk, HX.
      assert (ERB : rb (erow e) = bi) by (apply RG; auto; unfold e, erow; cbn; lia).
      assert (ELL : ll (fst e) = (ecol e - znth 0 col (cb (ecol e))) * (g (bi + 1) - g bi) + ii).
      { unfold ll, llv. change (fst (fst e)) with (erow e). change (snd (fst e)) with (ecol e). fold rb cb. rewrite ERB. unfold rnv. change (erow e) with (g bi + ii). unfold g, gv. ring. }
      pose proof (e_flag n ptr index vals Hp nr nc g rb cb vo ll PS G0 Gn Gm CR _ bi d1 e w bx va kk Hii Hpre HR) as EFl.
      destruct (mem (cb (ecol e)) (Fd cb d1)) eqn:Em.
      * destruct (flag_nonzero n ptr index vals Hp nr nc g rb cb vo (szv row col) ll PS G0 Gn Gm RG CR LAY LP _ bi d1 e w bx va kk Hii Hpre HR Em) as [F1 F2].
        rewrite F1. wrd s0; [lia|]. rewrite <- ELL, F2.
        destruct (step_old n ptr index vals nr nc g rb cb vo (szv row col) ll PS G0 Gn Gm RG LAY LP _ HNV bi d1 e w bx va kk Hii Hpre HR Em) as [S1 S2].
        wwr; [auto|]. apply wp_ok. unfold R. split; [exact S2|]. auto.
      * rewrite EFl. cbn [Z.eqb].
        destruct (step_new n ptr index vals Hp nr nc g rb cb vo (szv row col) ll PS G0 Gn Gm RG CR LAY LP _ HNV bi d1 e w bx va kk Hii Hpre HR Em)
          as (S1 & S2 & S3 & S4 & S5 & S6 & S7 & S8).
        assert (V : valid nr DD bi (cb (ecol e))) by (eapply (e_valid n ptr index vals nr g rb cb vo (szv row col) ll PS); eauto).
        assert (ESZ : (g (bi + 1) - g bi) * (znth 0 col (cb (ecol e) + 1) - znth 0 col (cb (ecol e))) = szv row col bi (cb (ecol e))) by reflexivity.
        wrd 0; [lia|]. rewrite ESZ. wbind. pose proof (szv_nonneg n nr nc ptr index vals row col Hp Hrow Hrn Hcol Hcn Hix bi (cb (ecol e)) Hii (proj2 V)).
        apply zero_block; auto. intros value0 L0 HZ0 HK.
        wwr; [lia|]. wrd s0; [lia|]. rewrite <- ELL, <- S7. wwr; [lia|]. wwr; [lia|]. 
        change (Dof ptr index g cb) with DD in S1, S5. pose proof (bp_mono DD (bi + 1) nr ltac:(lia)). wwr; [lia|]. apply wp_ok. unfold R.
        assert (EV : vo kk + szv row col bi (cb (ecol e)) = vo (kk + 1)) by (rewrite S1; symmetry; apply VN; auto).
        split; [apply S8; auto|]. rewrite zlen_zupd. split; [auto|]. split; [auto|]. split; [lia|]. split.
        -- intros t Ht. rewrite znth_zupd by lia. destruct (Z.eqb_spec t (kk + 1)); [subst t; auto|apply MT; lia].
        -- intros j Hj. pose proof (HB0 j). rewrite znth_zupd by lia. destruct (Z.eqb_spec (bp DD j) (kk + 1)) as [E|_]; [rewrite E; auto|apply MJ; lia].
    + intros [[[[[w bx] va] vp'] kk] kv] (HR & M4 & -> & Mk & MT & MJ). rewrite app_nil_l, <- ES in HR. eapply (RR_end n) in HR; try lia; auto.
      destruct HR as (EF & Ek & HL' & HV' & M1 & M2 & M3 & HZ').
      wrd 0; [lia|]. wrd 0; [lia|]. rewrite !H1 by lia. wbind.
      eapply (reset_group n ptr index vals Hp nr nc g cb); eauto; try lia.
      intros w' Lw' Zw'. apply wp_ok. fold DD in Ek. split; [auto|]. split; [auto|]. split; [auto|]. split; [auto|]. split; [auto|]. split; [auto|]. split; [auto|].
      split; intros; [apply MT; lia|apply MJ; lia]. }
  clear iw L1 Z1 vp Lvp Hvp. intros [[[iw bindex] value] vp] (L1 & L2 & L3' & L4' & _ & HL & HV & HT & _). apply wp_ok. rewrite Gn in HV.
  set (B := mkVbr n (csr_np A) nr nc (bp DD nr) NV row col vp bptr bindex value).
  assert (EIX : forall bi k, 0 <= bi < nr -> bp DD bi <= k < bp DD (bi + 1) -> znth 0 bindex k = znth 0 (DD bi) (k - bp DD bi)).
  { intros bi k Hbi Hk. pose proof (bp_mono DD (bi + 1) nr ltac:(lia)) as HM. rewrite bp_succ in HM, Hk by lia. pose proof (HB0 bi).
    rewrite (HL k) by (fold (bp DD nr); lia).
    rewrite (zrange_app 0 (bi + 1) nr) by lia. rewrite flat_map_app, znth_app by (fold (bp DD (bi + 1)); lia).
    fold (bp DD (bi + 1)). rewrite bp_succ by lia. destruct (Z.ltb_spec k (bp DD bi + zlen (DD bi))); [|lia].
    rewrite flat_map_snoc by lia. rewrite znth_app by (fold (bp DD bi); lia). fold (bp DD bi).
    destruct (Z.ltb_spec k (bp DD bi)); [lia|]. auto. }
  assert (EVAL : forall bi k, 0 <= bi < nr -> bp DD bi <= k < bp DD (bi + 1) -> valid nr DD bi (znth 0 bindex k) /\ kkof DD bi (znth 0 bindex k) = k).
  { intros bi k Hbi Hk. rewrite (EIX bi k Hbi Hk). rewrite bp_succ in Hk by lia. split; [split; auto; apply znth_In; lia|].
    unfold kkof. rewrite fpos_nth' by (try apply firsts_NoDup; lia). lia. }
  assert (EE : vbr_entries B = map (fun p => (fst p, snd p, lastval (csr_entries A) p) : entry T) PS).
  { change (csr_entries A) with (lents ptr index vals 0 n).
    unfold PS, PV, vbr_entries, B. cbn [vbr_nr vbr_bptr vbr_row vbr_col vbr_ptr vbr_bindex vbr_value].
    rewrite map_flat_map. apply flat_map_ext_in. intros bi Hbi. apply In_zrange in Hbi. rewrite !H1 by lia. rewrite bp_succ by lia. rewrite map_flat_map.
    fold g cb DD.
    transitivity (flat_map (fun x => flat_map (fun j => map (fun i => (g bi + i, znth 0 col x + j, znth s0 value (vo (bp DD bi + fpos (DD bi) x) + j * rnv row bi + i)) : entry T) (zrange 0 (rnv row bi))) (zrange 0 (cnv col x))) (DD bi)).
    - rewrite <- (flat_map_positions (fun k x => flat_map (fun j => map (fun i => (g bi + i, znth 0 col x + j, znth s0 value (vo k + j * rnv row bi + i)) : entry T) (zrange 0 (rnv row bi))) (zrange 0 (cnv col x))) (bp DD bi) (DD bi) (firsts_NoDup _)).
      apply flat_map_ext_in. intros k Hk. apply In_zrange in Hk. rewrite <- (EIX bi k Hbi) by (rewrite bp_succ by lia; auto).
      pose proof (bp_mono DD (bi + 1) nr ltac:(lia)) as HM. rewrite bp_succ in HM by lia. pose proof (HB0 bi). rewrite (HT k) by lia. reflexivity.
    - apply flat_map_ext_in. intros x Hx'. rewrite map_flat_map. apply flat_map_ext_in. intros j Hj. apply In_zrange in Hj. rewrite map_map. apply map_ext_in. intros i Hi'. apply In_zrange in Hi'.
      cbn [fst snd]. change (znth 0 row bi) with (g bi). f_equal.
      assert (HI : In (g bi + i, znth 0 col x + j) PS).
      { apply (proj2 (In_PV nr nc ptr index row col _)). exists bi, x. cbn [fst snd]. split; [lia|]. split; [exact Hx'|]. unfold rnv, cnv, g, gv in *. lia. }
      assert (HBk : rb (g bi + i) = bi /\ cb (znth 0 col x + j) = x).
      { apply (PV_blk n nr nc ptr index vals row col Hp Hrow Hrn Hcol Hcn Hix (g bi + i, znth 0 col x + j) bi x); auto; cbn [fst snd]; unfold rnv, cnv, g, gv in *; lia. }
      destruct HBk as [E1 E2]. rewrite <- (HV _ HI); cbn [fst snd]; rewrite ?E1, ?E2.
      + unfold loc. cbn [fst snd]. rewrite E1, E2. unfold kkof, ll, llv. cbn [fst snd]. fold rb cb. rewrite E1, E2. f_equal. unfold g, gv. lia.
      + pose proof Hx' as Hx2. unfold DD, Dof in Hx2. apply (proj1 (firsts_In _ _)) in Hx2.
        rewrite <- (lents_cols ptr index vals) in Hx2. apply in_map_iff in Hx2. destruct Hx2 as (e & Ee & He).
        apply in_map_iff. exists e. destruct (In_lents _ _ _ _ _ _ He) as [Hr _]. split.
        * unfold blkof. rewrite Ee. f_equal. apply RG; auto.
        * unfold lents in *. apply in_flat_map in He. destruct He as (r & Hr1 & He). apply in_flat_map. exists r. split; auto.
          apply In_zrange in Hr1. apply In_zrange. pose proof (Grange bi ltac:(lia)). pose proof (Grange (bi + 1) ltac:(lia)). lia. }
  assert (HS : same_entries (vbr_entries B) (csr_entries A)).
  { rewrite EE. apply same_of_positions; auto. apply (NoDup_PV n nr nc ptr index vals row col); auto. }
  split; [|do 7 (split; [auto|]); split; [exact L4'|exact L3']]. unfold vbr_ok, B. cbn [vbr_n vbr_np vbr_nr vbr_nc vbr_bnnz vbr_nnz vbr_row vbr_col vbr_ptr vbr_bptr vbr_bindex vbr_value].
  split; [lia|]. split; [auto|]. split; [auto|]. split; [auto|]. split; [lia|]. split.
  { split; [lia|]. split; [lia|]. split; [rewrite H1 by lia; reflexivity|]. intros i Hi'. rewrite !H1 by lia. apply bp_mono. lia. }
  split; [apply H1; lia|]. split; [lia|]. split; [lia|]. split.
  - intros bj Hbj. rewrite (HL bj) by (fold (bp DD nr); lia).
    assert (HI : In (znth 0 (flat_map DD (zrange 0 nr)) bj) (flat_map DD (zrange 0 nr))) by (apply znth_In; fold (bp DD nr); lia).
    revert HI. generalize (znth 0 (flat_map DD (zrange 0 nr)) bj). intros v HI. apply in_flat_map in HI. destruct HI as (bi & Hbi & HI). apply In_zrange in Hbi.
    apply (DD_range n nr nc ptr index vals row col Hp Hrow Hrn Hcol Hcn Hix bi v Hbi HI).
  - intros bi bj Hbi Hbj. rewrite !H1 in Hbj by lia. destruct (EVAL bi bj Hbi Hbj) as [V Ek]. pose proof (bp_mono DD (bi + 1) nr ltac:(lia)). pose proof (HB0 bi).
    rewrite HT by lia. pose proof (HNV _ _ V) as HN. pose proof (lay_vo0 _ _ _ _ _ _ _ _ LAY _ _ V) as HV0. rewrite Ek in HN, HV0.
    split; [exact HV0|]. rewrite L3'. exact HN.
Qed.
End Final.
