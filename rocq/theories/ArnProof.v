Require Import ZArith List Bool Lia Reals Lra.
From Verif Require Import Base Scalar ScalarReal Spec SpecSolver SpecDiag SpecEsolver Krylov MatvecProof KrylovProof DiagProof2 RealVec Esolver EsolverTerms EsolverProof EsolverProof2 EsolverProof3 EsolverFinal EsolverSub ConvertExact EsiProof SubFinal LanProof SpecSub EsubTerms.
Import ListNotations.
Open Scope Z_scope.

Lemma ip_comb n f (c : Z -> R) (V : Z -> Z -> R) L : ip n f (fun i => ssum (map (fun l => c l * V l i)%R L)) = ssum (map (fun l => c l * ip n f (V l))%R L).
Proof.
  induction L as [|a L IH]; cbn [map ssum].
  - rewrite (ip_ext n f f _ (fun _ => 0 * 0)%R) by (intros i _; cbn; ring). rewrite ip_scal_r. cbn. ring.
  - rewrite (ip_ext n f f _ (fun i => c a * V a i + 1 * ssum (map (fun l => c l * V l i)%R L))%R) by (intros i _; cbn; ring).
    rewrite (ip_lin_r n (c a) 1 (V a) (fun i => ssum (map (fun l => c l * V l i)%R L)) f). rewrite IH. cbn. ring.
Qed.
Lemma sum_sel (c : Z -> R) k lo hi : lo <= hi -> ssum (map (fun l => c l * (if k =? l then 1 else 0))%R (zrange lo hi)) = if (lo <=? k) && (k <? hi) then c k else 0%R.
Proof.
  intros H. revert H. apply (Zlt_lower_bound_ind (fun hi => ssum (map (fun l => c l * (if k =? l then 1 else 0))%R (zrange lo hi)) = if (lo <=? k) && (k <? hi) then c k else 0%R) lo).
  intros h IH Hh. destruct (Z.eq_dec h lo) as [->|N].
  - rewrite zrange_empty by lia. cbn. destruct (Z.leb_spec lo k); destruct (Z.ltb_spec k lo); try reflexivity; lia.
  - replace h with (h - 1 + 1) at 1 by lia. rewrite zrange_snoc by lia. rewrite map_app, (ssum_app ScalarR_ring), IH by lia. cbn [map ssum].
    destruct (Z.leb_spec lo k); cbn [andb]; [|destruct (Z.eqb_spec k (h - 1)); [lia|cbn; ring]].
    destruct (Z.eqb_spec k (h - 1)) as [->|Nk].
    + destruct (Z.ltb_spec (h - 1) (h - 1)); [lia|]. destruct (Z.ltb_spec (h - 1) h); [|lia]. cbn. ring.
    + destruct (Z.ltb_spec k (h - 1)); destruct (Z.ltb_spec k h); try lia; cbn; ring.
Qed.

Section A.
Variables (e : eenv R) (E : Ent) (ss : Z).
Let n := ee_n e.
Notation A := (imageR n E).
Definition hasA (v : list vec) (m : Z) (V : Z -> Z -> R) : Prop := forall k, 0 <= k <= m -> eqv n (at_ (znth [] v k)) (V k).
Definition hh (h : list R) (a b : Z) : R := znth 0%R h (a + b * ss).
Lemma hh_upd h a b a' b' x : zlen h = ss * ss -> 0 <= a < ss -> 0 <= b < ss -> 0 <= a' < ss -> 0 <= b' < ss ->
  hh (zupd h (a + b * ss) x) a' b' = if (a =? a') && (b =? b') then x else hh h a' b'.
Proof.
  intros Ht Ha Hb Ha' Hb'. unfold hh. rewrite znth_zupd by (rewrite Ht; nia).
  destruct (Z.eqb_spec a a') as [->|Na]; destruct (Z.eqb_spec b b') as [->|Nb]; cbn [andb].
  - rewrite Z.eqb_refl. reflexivity.
  - destruct (Z.eqb_spec (a' + b' * ss) (a' + b * ss)); [nia|reflexivity].
  - destruct (Z.eqb_spec (a' + b' * ss) (a + b' * ss)); [nia|reflexivity].
  - destruct (Z.eqb_spec (a' + b' * ss) (a + b * ss)); [|reflexivity]. exfalso. assert (b = b') by nia. contradiction.
Qed.
(** columns < j are complete, column j..ss-1 are zero *)
Definition AI (j : Z) (s : list vec * list R) : Prop := let '(v, h) := s in exists V,
  zlen v = ss + 1 /\ zlen h = ss * ss /\ orthonormal n 0 (j + 1) V /\ hasA v j V /\ (forall i, 0 <= i < n -> V 0 i = (1 / nmR n (fun _ => 1))%R) /\
  (forall a b, 0 <= a < ss -> 0 <= b < ss -> hh h a b = if b <? j then (if a <=? b + 1 then ipR n (V a) (A (V b)) else 0%R) else 0%R) /\
  (forall b, 0 <= b < j -> eqv n (A (V b)) (fun i => ssum (map (fun l => ipR n (V l) (A (V b)) * V l i)%R (zrange 0 (b + 2))))).
Notation arn_post := (arnoldi_array e E ss).
Lemma A_ext f g : eqv n f g -> eqv n (A f) (A g).
Proof. intros H i Hi. apply mvR_ext. exact H. Qed.
Lemma ipR_ext f f' g g' : eqv n f f' -> eqv n g g' -> ipR n f g = ipR n f' g'.
Proof. exact (ip_ext n f f' g g'). Qed.
Lemma arn_step_wl j s : 0 <= j < ss -> AI j s -> wl (arn_step e E ss j s) (fun '(stop, s') => if (stop : bool) then arn_post (snd s') else j + 1 < ss /\ AI (j + 1) s').
Proof.
  intros Hj HI. destruct s as [v h]. destruct HI as (V & Lv & Lh & HO & HV & V0 & HH & HS). unfold arn_step. fold n.
  eapply wl_bind; [apply (wl_rdw [] v j (fun a => a = znth [] v j)); auto|]. intros vj ->.
  set (c := fun l => ipR n (V l) (A (V j))).
  assert (REM : forall k i, remainder n 0 k E V j i = (A (V j) i - ssum (map (fun l => c l * V l i)%R (zrange 0 k)))%R) by reflexivity.
  eapply (wl_bind _ _ (fun s : vec * list R => let '(w, h1) := s in eqv n (at_ w) (remainder n 0 (j + 1) E V j) /\ zlen h1 = ss * ss /\
     forall a b, 0 <= a < ss -> 0 <= b < ss -> hh h1 a b = if (b =? j) && (a <=? j) then c a else hh h a b)).
  { apply (wl_forI (fun k (s : vec * list R) => let '(w, h1) := s in eqv n (at_ w) (remainder n 0 k E V j) /\ zlen h1 = ss * ss /\
     forall a b, 0 <= a < ss -> 0 <= b < ss -> hh h1 a b = if (b =? j) && (a <? k) then c a else hh h a b)); [lia| | |].
    - split; [|split; [exact Lh|]].
      + intros i Hi. unfold remainder. rewrite zrange_empty by lia. cbn [map ssum]. transitivity (A (at_ (znth [] v j)) i); [apply (atR_tab n (fun i => mv_spec E n (at_ (znth [] v j)) i)); exact Hi|].
        rewrite (A_ext _ (V j) (HV j ltac:(lia)) i Hi). cbn. ring.
      + intros a b Ha Hb. destruct (Z.ltb_spec a 0); [lia|]. rewrite andb_false_r. reflexivity.
    - intros k [w h1] Hk (W & L1 & H1). eapply wl_bind; [apply (wl_rdw [] v k (fun a => a = znth [] v k)); auto|]. intros vk ->.
      assert (D : dot n (znth [] v k) w = c k).
      { rewrite dot_ip. rewrite (ip_ext n _ (V k) _ (fun i => 1 * A (V j) i + (-1) * ssum (map (fun l => c l * V l i)%R (zrange 0 k)))%R); [|apply HV; lia|intros i Hi; rewrite W by exact Hi; rewrite REM; ring].
        rewrite (ip_lin_r n 1 (-1) (A (V j)) (fun i => ssum (map (fun l => c l * V l i)%R (zrange 0 k))) (V k)). rewrite ip_comb.
        rewrite (ssum_map_ext (S:=ScalarR) _ (fun l => c l * (if k =? l then 1 else 0))%R (zrange 0 k)).
        2:{ intros l Hl. apply In_zrange in Hl. change (ip n (V k) (V l)) with (ipR n (V k) (V l)). rewrite HO by lia. reflexivity. }
        rewrite sum_sel by lia. destruct (Z.ltb_spec k k); [lia|]. rewrite andb_false_r. change (ip n (V k) (A (V j))) with (c k). ring. }
      eapply wl_bind; [apply (wl_wrw h1 (k + j * ss) _ (fun h2 => h2 = zupd h1 (k + j * ss) (dot n (znth [] v k) w))); auto|]. intros h2 ->. apply wl_ok.
      split; [|split; [rewrite zlen_zupd; exact L1|]].
      + intros i Hi. rewrite (at_axpy (S:=ScalarR)) by auto. rewrite D, W by exact Hi. rewrite (HV k ltac:(lia) i Hi). rewrite !REM. rewrite (zrange_snoc 0 k) by lia. rewrite map_app, (ssum_app ScalarR_ring). cbn [map ssum]. cbn. ring.
      + intros a b Ha Hb. rewrite D. rewrite hh_upd by (try exact L1; lia). rewrite H1 by lia.
        destruct (Z.eqb_spec k a) as [<-|Na]; destruct (Z.eqb_spec j b) as [<-|Nb]; cbn [andb].
        * rewrite Z.eqb_refl. destruct (Z.ltb_spec k (k + 1)); [reflexivity|lia].
        * destruct (Z.eqb_spec b j); [lia|]. reflexivity.
        * rewrite Z.eqb_refl. cbn [andb]. destruct (Z.ltb_spec a k); destruct (Z.ltb_spec a (k + 1)); try lia; reflexivity.
        * destruct (Z.eqb_spec b j); [lia|]. reflexivity.
    - intros [w h1] (W & L1 & H1). split; [exact W|]. split; [exact L1|]. intros a b Ha Hb. rewrite H1 by lia. destruct (b =? j); [|reflexivity]. cbn [andb].
      destruct (Z.ltb_spec a (j + 1)); destruct (Z.leb_spec a j); try lia; reflexivity. }
  intros [w h1] (W & L1 & H1).
  change (nrm2 n w) with (nm n (at_ w)). set (nr := nm n (at_ w)).
  eapply wl_bind; [apply (wl_wrw h1 (j + 1 + j * ss) nr (fun h2 => 0 <= j + 1 + j * ss < zlen h1 /\ h2 = zupd h1 (j + 1 + j * ss) nr)); auto|]. intros h2 (HB & ->).
  assert (Hj1 : j + 1 < ss) by (rewrite L1 in HB; nia).
  assert (Pn : (0 <= nr)%R) by apply nm_pos.
  (* w is orthogonal to V_0..V_j *)
  assert (WO : forall k, 0 <= k <= j -> ip n (V k) (at_ w) = 0%R).
  { intros k Hk. rewrite (ip_ext n _ (V k) _ (fun i => 1 * A (V j) i + (-1) * ssum (map (fun l => c l * V l i)%R (zrange 0 (j + 1))))%R); [|apply eqv_refl|intros i Hi; rewrite W by exact Hi; rewrite REM; ring].
    rewrite (ip_lin_r n 1 (-1) (A (V j)) (fun i => ssum (map (fun l => c l * V l i)%R (zrange 0 (j + 1)))) (V k)). rewrite ip_comb.
    rewrite (ssum_map_ext (S:=ScalarR) _ (fun l => c l * (if k =? l then 1 else 0))%R (zrange 0 (j + 1))).
    2:{ intros l Hl. apply In_zrange in Hl. change (ip n (V k) (V l)) with (ipR n (V k) (V l)). rewrite HO by lia. reflexivity. }
    rewrite sum_sel by lia. destruct (Z.leb_spec 0 k); [|lia]. destruct (Z.ltb_spec k (j + 1)); [|lia]. cbn [andb]. change (ip n (V k) (A (V j))) with (c k). ring. }
  (* below the subdiagonal *)
  assert (BELOW : forall a b, 0 <= b < j -> b + 1 < a <= j -> ipR n (V a) (A (V b)) = 0%R).
  { intros a b Hb Ha. rewrite (ipR_ext _ (V a) _ _ (eqv_refl n (V a)) (HS b Hb)).
    change (ip n (V a) (fun i => ssum (map (fun l => ipR n (V l) (A (V b)) * V l i)%R (zrange 0 (b + 2)))) = 0%R). rewrite (ip_comb n (V a) (fun l => ipR n (V l) (A (V b)))).
    rewrite (ssum_map_ext (S:=ScalarR) _ (fun l => ipR n (V l) (A (V b)) * (if a =? l then 1 else 0))%R (zrange 0 (b + 2))).
    2:{ intros l Hl. apply In_zrange in Hl. change (ip n (V a) (V l)) with (ipR n (V a) (V l)). rewrite HO by lia. reflexivity. }
    rewrite (sum_sel (fun l => ipR n (V l) (A (V b)))) by lia. destruct (Z.ltb_spec a (b + 2)); [lia|]. rewrite andb_false_r. reflexivity. }
  destruct (sleb (ee_tol e) (sabs nr)) eqn:El; cbn [negb].
  - eapply wl_bind; [apply (wl_divz (Q := fun c => (nr <> 0)%R /\ c = (1 / nr)%R)); auto|]. intros cc (Hn0 & ->).
    eapply wl_bind; [apply (wl_wrw v (j + 1) _ (fun v' => v' = zupd v (j + 1) (copy n (scale n (1 / nr)%R w)))); auto|]. intros v' ->. apply wl_ok. split; [exact Hj1|].
    set (W' := fun i => (1 / nr * at_ w i)%R).
    assert (NW : eqv n (at_ (copy n (scale n (1 / nr)%R w))) W').
    { intros i Hi. rewrite (at_copy (S:=ScalarR)) by auto. apply (at_scale (S:=ScalarR)); auto. }
    set (V' := fun k => if k =? j + 1 then W' else V k).
    assert (VK : forall k, k <= j -> V' k = V k) by (intros k Hk; unfold V'; destruct (Z.eqb_spec k (j + 1)); [lia|reflexivity]).
    assert (VJ : V' (j + 1) = W') by (unfold V'; rewrite Z.eqb_refl; reflexivity).
    assert (WV : forall k, 0 <= k <= j -> ipR n (V k) W' = 0%R) by (intros k Hk; change (ip n (V k) W' = 0%R); unfold W'; rewrite ip_scal_r, WO by exact Hk; ring).
    assert (WW : ipR n W' W' = 1%R).
    { change (ip n W' W' = 1%R). unfold W'. rewrite ip_scal, ip_scal_r, <- nm_sq. fold nr. field. exact Hn0. }
    assert (HO' : orthonormal n 0 (j + 1 + 1) V').
    { intros a b Ha Hb. destruct (Z.eq_dec a (j + 1)) as [->|Na]; destruct (Z.eq_dec b (j + 1)) as [->|Nb].
      - rewrite VJ, Z.eqb_refl. exact WW.
      - rewrite VJ, VK by lia. destruct (Z.eqb_spec (j + 1) b); [lia|]. transitivity (ipR n (V b) W'); [apply (ip_sym n)|apply WV; lia].
      - rewrite VJ, VK by lia. destruct (Z.eqb_spec a (j + 1)); [lia|]. apply WV. lia.
      - rewrite !VK by lia. apply HO; lia. }
    (* A V_j in the span *)
    assert (SJ : eqv n (A (V j)) (fun i => ssum (map (fun l => c l * V l i)%R (zrange 0 (j + 1))) + nr * W' i)%R).
    { intros i Hi. unfold W'. replace (nr * (1 / nr * at_ w i))%R with (at_ w i) by (field; exact Hn0). rewrite W by exact Hi. rewrite REM. ring. }
    assert (CJ : ipR n W' (A (V j)) = nr).
    { change (ip n W' (A (V j)) = nr). rewrite (ip_ext n W' W' _ _ (eqv_refl n W') SJ).
      rewrite (ip_ext n W' W' _ (fun i => 1 * ssum (map (fun l => c l * V l i)%R (zrange 0 (j + 1))) + nr * W' i)%R) by (intros i _; ring).
      rewrite (ip_lin_r n 1 nr (fun i => ssum (map (fun l => c l * V l i)%R (zrange 0 (j + 1)))) W' W'). rewrite ip_comb.
      rewrite (ssum_map_ext (S:=ScalarR) _ (fun _ => s0) (zrange 0 (j + 1))).
      2:{ intros l Hl. apply In_zrange in Hl. rewrite (ip_sym n W'). change (ip n (V l) W') with (ipR n (V l) W'). rewrite WV by lia. cbn. ring. }
      rewrite (ssum_map_zero ScalarR_ring). change (ip n W' W') with (ipR n W' W'). rewrite WW. cbn. ring. }
    exists V'. split; [rewrite zlen_zupd; exact Lv|]. split; [rewrite zlen_zupd; exact L1|]. split; [exact HO'|]. split.
    { intros k Hk. destruct (Z.eq_dec k (j + 1)) as [->|Nk]; [rewrite VJ, znth_zupd_eq by lia; exact NW|]. rewrite VK, znth_zupd_neq by lia. apply HV. lia. }
    split. { rewrite VK by lia. exact V0. }
    split.
    + intros a b Ha Hb. rewrite hh_upd by (try exact L1; lia). rewrite H1 by lia. rewrite HH by lia.
      destruct (Z.eqb_spec j b) as [<-|Nb].
      * rewrite Z.eqb_refl, andb_true_r. cbn [andb]. destruct (Z.ltb_spec j (j + 1)); [|lia]. rewrite (VK j) by lia.
        destruct (Z.eqb_spec (j + 1) a) as [<-|Na].
        { destruct (Z.leb_spec (j + 1) (j + 1)); [|lia]. rewrite VJ. symmetry. exact CJ. }
        destruct (Z.leb_spec a j).
        { destruct (Z.leb_spec a (j + 1)); [|lia]. rewrite VK by lia. reflexivity. }
        destruct (Z.leb_spec a (j + 1)); [lia|]. destruct (Z.ltb_spec j j); [lia|reflexivity].
      * rewrite andb_false_r. destruct (Z.eqb_spec b j); [lia|]. cbn [andb]. destruct (Z.ltb_spec b j); destruct (Z.ltb_spec b (j + 1)); try lia; [|reflexivity].
        destruct (Z.leb_spec a (b + 1)); [|reflexivity]. rewrite !VK by lia. reflexivity.
    + intros b Hb. rewrite (VK b) by lia. intros i Hi.
      destruct (Z.eq_dec b j) as [->|Nb].
      * rewrite (SJ i Hi). replace (j + 2) with (j + 1 + 1) by lia. rewrite (zrange_snoc 0 (j + 1)) by lia. rewrite map_app, (ssum_app ScalarR_ring). cbn [map ssum]. rewrite VJ, CJ.
        rewrite (ssum_map_ext (S:=ScalarR) (fun l => ipR n (V' l) (A (V j)) * V' l i)%R (fun l => c l * V l i)%R (zrange 0 (j + 1))).
        2:{ intros l Hl. apply In_zrange in Hl. rewrite VK by lia. reflexivity. }
        cbn. ring.
      * rewrite (HS b ltac:(lia) i Hi). apply (ssum_map_ext (S:=ScalarR)). intros l Hl. apply In_zrange in Hl. rewrite VK by lia. reflexivity.
  - apply wl_ok. cbn [snd]. apply slebR' in El. cbn in El. rewrite Rabs_pos_eq in El by exact Pn.
    unfold arnoldi_array. cbv zeta. fold n. exists j, V. split; [lia|]. split; [exact HO|]. split; [exact V0|]. split; [|split].
    + intros a b Ha Hb. change (hh (zupd h1 (j + 1 + j * ss) nr) a b = ipR n (V a) (A (V b))). rewrite hh_upd by (try exact L1; lia). rewrite H1, HH by lia.
      destruct (Z.eqb_spec (j + 1) a); [lia|]. cbn [andb]. destruct (Z.eqb_spec b j) as [->|Nb].
      * destruct (Z.leb_spec a j); [|lia]. reflexivity.
      * cbn [andb]. destruct (Z.ltb_spec b j); [|lia]. destruct (Z.leb_spec a (b + 1)); [reflexivity|]. symmetry. apply BELOW; lia.
    + intros a b Ha Hb. change (hh (zupd h1 (j + 1 + j * ss) nr) a b = 0%R). rewrite hh_upd by (try exact L1; lia). rewrite H1, HH by lia.
      destruct (Z.eqb_spec j b); [lia|]. rewrite andb_false_r. destruct (Z.eqb_spec b j); [lia|]. cbn [andb]. destruct (Z.ltb_spec b j); [lia|reflexivity].
    + apply Rle_lt_trans with nr; [|exact El]. apply Req_le. symmetry. apply (nm_ext n). exact W.
Qed.
Lemma arn_loop_wl fuel : forall j s, 0 <= j -> j + Z.of_nat fuel = ss -> 1 <= ss -> (fuel <> 0)%nat -> AI j s -> wl (arn_loop fuel e E ss (j - 1) s) (fun s' => arn_post (snd s')).
Proof.
  induction fuel as [|f IH]; intros j s Hj Hf Hs Hz HI; [congruence|]. cbn [arn_loop]. replace (j - 1 + 1) with j by lia.
  eapply wl_bind; [apply (arn_step_wl j s); [lia|exact HI]|]. intros [stop s'] H. destruct stop; [apply wl_ok; exact H|].
  destruct H as (H1 & H2). pose proof (IH (j + 1) s' ltac:(lia) ltac:(lia) Hs ltac:(lia) H2) as G. replace (j + 1 - 1) with j in G by lia. exact G.
Qed.
Lemma arnoldi_wl jv : 1 <= ss -> wl (arnoldi e ss jv E) arn_post.
Proof.
  intros Hss. unfold arnoldi. fold n.
  assert (ONE : eqv n (at_ (set_all n (s1 : R))) (fun _ => 1%R)) by (intros i Hi; apply (atR_tab n (fun _ => 1%R)); exact Hi).
  eapply (wl_bind _ _ (fun u : vec => unit_v n u /\ eqv n (at_ u) (fun _ => 1 / nmR n (fun _ => 1))%R)).
  { intros u Hu. assert (S : safe (normalize n (set_all n (s1 : R))) (fun u => unit_v n u /\ eqv n (at_ u) (fun _ => 1 / nmR n (fun _ => 1))%R)).
    { apply safe_normalize. intros w _ Uw Hw. split; [exact Uw|]. intros i Hi. rewrite Hw by exact Hi. rewrite (nm_ext n _ _ ONE), ONE by exact Hi. unfold nmR. change (ipR n) with (ip n). unfold nm. ring. }
    exact (safe_ok _ _ _ S Hu). }
  intros u (Uu & Hu).
  eapply wl_bind; [apply (wl_wrw (alloc (ss + 1) jv) 0 u (fun v => v = zupd (alloc (ss + 1) jv) 0 u)); auto|]. intros v ->.
  eapply (wl_bind _ _ (fun t : list R => zlen t = ss * ss /\ forall p, 0 <= p < ss * ss -> znth 0%R t p = 0%R)).
  - apply (wl_forI (fun k t => zlen t = ss * ss /\ forall p, 0 <= p < k -> znth 0%R t p = 0%R)); [nia|split; [apply zlen_alloc; nia|intros; lia]| |auto].
    intros k t Hk (L & H). apply wl_wrw. intros _. split; [rewrite zlen_zupd; exact L|]. intros p Hp. destruct (Z.eq_dec p k) as [->|N]; [apply znth_zupd_eq; lia|]. rewrite znth_zupd_neq by lia. apply H. lia.
  - intros h (Lh & Hh). eapply (wl_bind _ _ (fun s' => arn_post (snd s'))).
    + change (-1) with (0 - 1). apply arn_loop_wl; [lia|lia|exact Hss|lia|].
      exists (fun _ => at_ u). split; [rewrite zlen_zupd; apply zlen_alloc; lia|]. split; [exact Lh|]. split.
      { intros a b Ha Hb. replace a with 0 by lia. replace b with 0 by lia. cbn. change (ip n (at_ u) (at_ u) = 1%R). rewrite <- nm_sq. red in Uu. rewrite Uu. ring. }
      split. { intros k Hk. replace k with 0 by lia. rewrite znth_zupd_eq by (rewrite zlen_alloc; lia). apply eqv_refl. }
      split; [exact Hu|]. split; [|intros; lia]. intros a b Ha Hb. unfold hh. rewrite Hh by nia. destruct (Z.ltb_spec b 0); [lia|reflexivity].
    + intros [v' h'] H. apply wl_ok. exact H.
Qed.
End A.
