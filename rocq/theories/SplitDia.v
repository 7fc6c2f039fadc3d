(** DIA: split and triangular solves *)
Require Import ZArith List Bool Lia Ring Permutation.
From Verif Require Import Base Scalar Spec Items Fmt Split SplitFmt SpecSplitFmt TriLoops TriLines TriSolve TriFill MatvecProof SplitProof2 SplitMsr SplitCsc SplitEll.
Import ListNotations.
Open Scope Z_scope.

Section S.
Context {T : Type} {S : Scalar T}.
Hypothesis RT : is_ring S.
Let RT' : @ring_theory T s0 s1 sadd smul ssub sopp (@eq T) := RT.
Add Ring scalar_ring_sd : RT'.

(** the item of diagonal j in row i *)
Definition ditem (B : dia T) (i j : Z) : list (Z * T) :=
  if (0 <=? i + znth 0 (dia_index B) j) && (i + znth 0 (dia_index B) j <? dia_n B) then [(i + znth 0 (dia_index B) j, znth s0 (dia_value B) (j * dia_n B + i))] else [].
Definition dia_ln (B : dia T) (i : Z) : list (Z * T) := flat_map (ditem B i) (zrange 0 (dia_nnd B)).
Lemma range_cond {X} (h : Z -> X) n o : 0 <= n ->
  flat_map (fun i => if (0 <=? i + o) && (i + o <? n) then [h i] else []) (zrange 0 n) = map h (zrange (Z.max 0 (- o)) (Z.min n (n - o))).
Proof.
  intros Hn. set (a := Z.max 0 (- o)). set (b := Z.min n (n - o)). set (f := fun i => if (0 <=? i + o) && (i + o <? n) then [h i] else []).
  assert (Z0 : forall lo hi, (forall i, lo <= i < hi -> i + o < 0 \/ n <= i + o) -> flat_map f (zrange lo hi) = []).
  { intros lo hi H. rewrite (flat_map_ext_in f (fun _ => [])). - induction (zrange lo hi); auto. - intros i Hi. apply In_zrange in Hi. specialize (H i Hi). unfold f. destruct (Z.leb_spec 0 (i + o)); destruct (Z.ltb_spec (i + o) n); cbn; auto; lia. }
  destruct (Z.le_gt_cases b a) as [Hba|Hba].
  - rewrite (zrange_empty a b) by lia. apply Z0. lia.
  - rewrite (zrange_app 0 a n), (zrange_app a b n) by lia. rewrite !flat_map_app. rewrite (Z0 0 a) by lia. rewrite (Z0 b n) by lia. rewrite app_nil_r. cbn [app]. rewrite <- flat_map_single. apply flat_map_ext_in. intros i Hi. apply In_zrange in Hi. unfold f. destruct (Z.leb_spec 0 (i + o)); destruct (Z.ltb_spec (i + o) n); cbn; auto; lia.
Qed.
Lemma dia_row_ents (A : dia T) : dia_ok A -> Permutation (dia_entries A) (row_ents (dia_n A) (dia_ln A)).
Proof.
  intros (Hn & _). unfold dia_entries, row_ents, dia_ln.
  rewrite (flat_map_ext (fun i => map _ (flat_map _ _)) (fun i => flat_map (fun j => if (0 <=? i + znth 0 (dia_index A) j) && (i + znth 0 (dia_index A) j <? dia_n A) then [(i, i + znth 0 (dia_index A) j, znth s0 (dia_value A) (j * dia_n A + i))] else []) (zrange 0 (dia_nnd A)))).
  - rewrite <- (flat_map_exchange (fun j i => if (0 <=? i + znth 0 (dia_index A) j) && (i + znth 0 (dia_index A) j <? dia_n A) then [(i, i + znth 0 (dia_index A) j, znth s0 (dia_value A) (j * dia_n A + i))] else [])).
    apply Permutation_refl'. apply flat_map_ext. intros j. symmetry. apply (range_cond (fun i => (i, i + znth 0 (dia_index A) j, znth s0 (dia_value A) (j * dia_n A + i)))). auto.
  - intros i. induction (zrange 0 (dia_nnd A)) as [|j l IH]; cbn [flat_map map]; [reflexivity|]. rewrite map_app, IH. f_equal. unfold ditem. destruct ((0 <=? i + znth 0 (dia_index A) j) && (i + znth 0 (dia_index A) j <? dia_n A)); reflexivity.
Qed.

(** loops over a structure all of whose offsets are negative (low = true) or positive (low = false) *)
Definition dlines_in (n : Z) (low : bool) (B : dia T) : Prop := dia_n B = n /\ 0 <= dia_nnd B <= zlen (dia_index B) /\ dia_nnd B * n <= zlen (dia_value B) /\
  forall j, 0 <= j < dia_nnd B -> if low then znth 0 (dia_index B) j < 0 else 0 < znth 0 (dia_index B) j.
Lemma dlines_cond n low B i j : dlines_in n low B -> 0 <= i < n -> 0 <= j < dia_nnd B ->
  (if low then 0 <=? i + znth 0 (dia_index B) j else i + znth 0 (dia_index B) j <? dia_n B) = (0 <=? i + znth 0 (dia_index B) j) && (i + znth 0 (dia_index B) j <? dia_n B).
Proof.
  intros (H1 & _ & _ & H) Hi Hj. specialize (H j Hj). rewrite H1. destruct low.
  - destruct (Z.ltb_spec (i + znth 0 (dia_index B) j) n); [rewrite andb_true_r; reflexivity|lia].
  - destruct (Z.leb_spec 0 (i + znth 0 (dia_index B) j)); [reflexivity|lia].
Qed.
Lemma dpos n low B i j : dlines_in n low B -> 0 <= i < n -> 0 <= j < dia_nnd B -> 0 <= j * dia_n B + i < zlen (dia_value B).
Proof. intros (H1 & H2 & H3 & _) Hi Hj. rewrite H1. pose proof (slot_lt n (dia_nnd B) j i Hi Hj). lia. Qed.
Ltac dcase := match goal with |- context [if ?c && ?d then _ else _] => destruct (c && d) eqn:EC; [apply andb_true_iff in EC; destruct EC as [EC1 EC2]; apply Z.leb_le in EC1; apply Z.ltb_lt in EC2|] end.
Lemma dia_gat n low g B : dlines_in n low B -> gat_ok n g (dia_ln B) (fun i x t => dia_line B low i (dia_sub g B x) t).
Proof.
  intros HB i x t Hi Hx. pose proof HB as (H1 & H2 & H3 & _). unfold dia_line, dia_ln. apply (gat_loop RT). intros j s Hj. rewrite (rd_ok 0) by lia. cbn [bind]. rewrite (dlines_cond n low B i j HB Hi Hj). pose proof (dpos n low B i j HB Hi Hj). unfold ditem. dcase.
  - unfold dia_sub. rewrite (rd_ok s0) by lia. cbn [bind]. rewrite (rd_ok s0) by lia. cbn [bind]. unfold gs. cbn [map ssum fst snd]. f_equal. ring.
  - unfold gs. cbn [map ssum]. f_equal. ring.
Qed.
Lemma dia_addok n low g B : dlines_in n low B -> add_ok n g (dia_ln B) (fun i x t => dia_line B low i (dia_add g B x) t).
Proof.
  intros HB i x t Hi Hx. pose proof HB as (H1 & H2 & H3 & _). unfold dia_line, dia_ln. apply (add_loop RT). intros j s Hj. rewrite (rd_ok 0) by lia. cbn [bind]. rewrite (dlines_cond n low B i j HB Hi Hj). pose proof (dpos n low B i j HB Hi Hj). unfold ditem. dcase.
  - unfold dia_add. rewrite (rd_ok s0) by lia. cbn [bind]. rewrite (rd_ok s0) by lia. cbn [bind]. unfold gs. cbn [map ssum fst snd]. f_equal. ring.
  - unfold gs. cbn [map ssum]. f_equal. ring.
Qed.
Lemma scattered_nil n g t (y : list T) : scattered n g [] t y y.
Proof. split; auto. intros r Hr. unfold cs. cbn [map ssum]. ring. Qed.
Lemma put_scattered n (g : T -> T) c v t (y : list T) : 0 <= c < n -> n <= zlen y -> scattered n g [(c, v)] t y (zupd y c (ssub (znth s0 y c) (smul (g v) t))).
Proof. intros Hc Hy. split; [len|]. intros r Hr. unfold cs. cbn [map ssum fst snd]. rewrite znth_zupd by lia. rewrite (Z.eqb_sym c r). destruct (Z.eqb_spec r c) as [->|_]; ring. Qed.
Lemma dia_scaok n low g B : dlines_in n low B -> sca_ok n g (dia_ln B) (fun i t x => dia_line B low i (dia_scat g B t) x).
Proof.
  intros HB i t y Hi Hy. pose proof HB as (H1 & H2 & H3 & _). unfold dia_line, dia_ln. apply (sca_loop RT); auto. intros j s Hj Hs. wrd 0; [lia|]. rewrite (dlines_cond n low B i j HB Hi Hj). pose proof (dpos n low B i j HB Hi Hj). unfold ditem. dcase.
  - unfold dia_scat. wrd s0; [lia|]. wrd s0; [lia|]. apply wp_wr; [lia|]. apply put_scattered; auto. lia.
  - apply wp_ok. apply scattered_nil.
Qed.
Lemma dia_liveok n low g B : dlines_in n low B -> g s0 = s0 -> live_ok n g (dia_ln B) (fun i x => dia_line B low i (dia_live g B i) x).
Proof.
  intros HB G i y Hi Hy. pose proof HB as (H1 & H2 & H3 & H4). unfold dia_line, dia_ln. apply (live_loop RT); auto.
  - intros j p Hj Hp E. unfold ditem in Hp. specialize (H4 j Hj). destruct (_ && _) in Hp; [|destruct Hp]. destruct Hp as [<-|[]]. cbn [fst] in E. destruct low; lia.
  - intros j s Hj Hs. wrd 0; [lia|]. rewrite (dlines_cond n low B i j HB Hi Hj). pose proof (dpos n low B i j HB Hi Hj). unfold ditem. dcase.
    + unfold dia_live, dia_scat. wrd s0; [lia|]. wrd s0; [lia|]. wrd s0; [lia|]. apply wp_wr; [lia|]. apply put_scattered; auto. lia.
    + apply wp_ok. apply scattered_nil.
Qed.

Section Split.
Variable A : dia T.
Hypothesis HA : dia_ok A.
Notation n := (dia_n A).
Notation ix := (dia_index A).
Notation vl := (dia_value A).
Hypothesis HND : no_dup_pos (dia_entries A).
Lemma d_nodup i : 0 <= i < n -> NoDup (map fst (dia_ln A i)).
Proof using HND HA. intros Hi. apply (no_dup_row n (dia_ln A) i Hi). unfold no_dup_pos. eapply Permutation_NoDup; [|exact HND]. apply Permutation_map. apply dia_row_ents; auto. Qed.

(** the copied diagonals are those of dn, in order *)
Definition dcopy (m : Z) (dn : list Z) (st : list Z * list T * Z) : Prop := let '(ix', vl', k) := st in
  zlen ix' = m /\ zlen vl' = m * n /\ k = zlen dn /\ forall q, 0 <= q < zlen dn -> znth 0 ix' q = znth 0 ix (znth 0 dn q) /\ forall i, 0 <= i < n -> znth s0 vl' (q * n + i) = znth s0 vl (znth 0 dn q * n + i).
Lemma dia_emit_wp m dn st j (Q : list Z * list T * Z -> Prop) : 0 <= j < dia_nnd A -> dcopy m dn st -> zlen dn < m ->
  (forall st', dcopy m (dn ++ [j]) st' -> Q st') -> wp (dia_emit n j A (znth 0 ix j) st) Q.
Proof using HA.
  pose proof HA as (Hn & _ & Hd & L1 & L2). destruct st as [[ix' vl'] k]. intros Hj (K1 & K2 & -> & K3) Hl HQ. unfold dia_emit. pose proof (zlen_nonneg dn). wwr; [lia|]. apply wp_bind.
  apply (for_wp' (fun i s => zlen s = m * n /\ (forall q r, 0 <= q < zlen dn -> 0 <= r < n -> znth s0 s (q * n + r) = znth s0 vl' (q * n + r)) /\ forall r, 0 <= r < i -> znth s0 s (zlen dn * n + r) = znth s0 vl (j * n + r))); [lia| | |].
  - split; auto. split; auto. intros; lia.
  - intros i s Hi (M1 & M2 & M3). pose proof (slot_lt n (dia_nnd A) j i Hi Hj). pose proof (slot_lt n m (zlen dn) i Hi ltac:(lia)). wrd s0; [lia|]. apply wp_wr; [lia|]. split; [len|]. split.
    + intros q r Hq Hr. pose proof (slot_inj n q r (zlen dn) i Hr Hi). rewrite znth_zupd_neq by lia. apply M2; auto.
    + intros r Hr. rewrite znth_zupd by lia. destruct (Z.eqb_spec (zlen dn * n + r) (zlen dn * n + i)) as [E|E]; [do 2 f_equal; lia|]. apply M3. lia.
  - intros s (M1 & M2 & M3). apply wp_ok. apply HQ. split; [len|]. split; [auto|]. split; [rewrite zlen_app; reflexivity|]. rewrite zlen_app. change (zlen [j]) with 1. intros q Hq.
    rewrite znth_app by lia. destruct (Z.ltb_spec q (zlen dn)).
    + destruct (K3 q ltac:(lia)) as [K4 K5]. rewrite znth_zupd_neq by lia. split; auto. intros i Hi. rewrite M2 by lia. apply K5; auto.
    + replace q with (zlen dn) by lia. replace (zlen dn - zlen dn) with 0 by lia. change (znth 0 [j] 0) with j. rewrite znth_zupd_eq by lia. split; [reflexivity|]. intros i Hi. apply M3; auto.
Qed.
Definition neg (j : Z) := znth 0 ix j <? 0.
Definition posi (j : Z) := 0 <? znth 0 ix j.

Lemma split_dia_wp jli jlv jui juv jd : wp (split_dia jli jlv jui juv jd A) (fun P => ds_n P = n /\
  dlines_in n true (ds_L P) /\ dlines_in n false (ds_U P) /\ (forall i, 0 <= i < n -> dia_ln (ds_L P) i = below i (dia_ln A i)) /\ (forall i, 0 <= i < n -> dia_ln (ds_U P) i = above i (dia_ln A i)) /\
  zlen (ds_D P) = n /\ forall i p, 0 <= i < n -> In p (dia_ln A i) -> fst p = i -> znth s0 (ds_D P) i = snd p).
Proof using HA HND.
  pose proof HA as (Hn & Hnp & Hd & L1 & L2). unfold split_dia. apply wp_bind.
  apply (for_list (fun d s => s = (zlen (filter neg d), zlen (filter posi d))) (zrange 0 (dia_nnd A)) (fun j => j) _ _ _ []).
  { lia. } { cbn [app]. rewrite map_id. apply prefix_refl. } { reflexivity. }
  { intros j s d Hj _ _ ->. wrd 0; [lia|]. rewrite !filter_app, !zlen_app. cbn [filter]. assert (En : neg j = (znth 0 ix j <? 0)) by reflexivity. assert (Ep : posi j = (0 <? znth 0 ix j)) by reflexivity. rewrite En, Ep. destruct (Z.ltb_spec (znth 0 ix j) 0); destruct (Z.ltb_spec 0 (znth 0 ix j)); apply wp_ok; try lia; f_equal; cbn; lia. }
  cbn [app]. rewrite map_id. intros s ->.
  set (lm := zlen (filter neg (zrange 0 (dia_nnd A)))). set (um := zlen (filter posi (zrange 0 (dia_nnd A)))).
  assert (Hlm : 0 <= lm) by apply zlen_nonneg. assert (Hum : 0 <= um) by apply zlen_nonneg.
  apply wp_bind.
  apply (for_list (fun d s => let '(l, u, dd) := s in dcopy lm (filter neg d) l /\ dcopy um (filter posi d) u /\ zlen dd = n /\ forall j r, In j d -> znth 0 ix j = 0 -> 0 <= r < n -> znth s0 dd r = znth s0 vl (j * n + r)) (zrange 0 (dia_nnd A)) (fun j => j) _ _ _ []).
  { lia. } { cbn [app]. rewrite map_id. apply prefix_refl. }
  { split; [|split; [|split]].
    - split; [apply zlen_alloc; lia|]. split; [apply zlen_alloc; nia|]. split; [reflexivity|]. cbn. intros; lia.
    - split; [apply zlen_alloc; lia|]. split; [apply zlen_alloc; nia|]. split; [reflexivity|]. cbn. intros; lia.
    - apply zlen_alloc; lia.
    - intros j r []. }
  { intros j [[l u] dd] d Hj Hdj Hpre (HL & HU & Ld & HD). wrd 0; [lia|].
    assert (PN : zlen (filter neg (d ++ [j])) <= lm). { destruct Hpre as (rest & E). unfold lm. rewrite E. rewrite (filter_app neg (d ++ [j])), zlen_app. pose proof (zlen_nonneg (filter neg rest)). lia. }
    assert (PP : zlen (filter posi (d ++ [j])) <= um). { destruct Hpre as (rest & E). unfold um. rewrite E. rewrite (filter_app posi (d ++ [j])), zlen_app. pose proof (zlen_nonneg (filter posi rest)). lia. }
    rewrite !filter_app in *. rewrite !zlen_app in *. cbn [filter] in *. assert (En : neg j = (znth 0 ix j <? 0)) by reflexivity. assert (Ep : posi j = (0 <? znth 0 ix j)) by reflexivity. rewrite En in *. rewrite Ep in *.
    destruct (Z.ltb_spec (znth 0 ix j) 0) as [G1|G1]; destruct (Z.ltb_spec 0 (znth 0 ix j)) as [G2|G2]; try lia.
    - change (zlen [j]) with 1 in PN. apply wp_bind. apply (dia_emit_wp lm (filter neg d)); auto; [lia|]. intros st Hst. apply wp_ok. rewrite app_nil_r. split; auto. split; auto. split; auto. intros q r Hq E. apply in_app_iff in Hq. destruct Hq as [Hq|[<-|[]]]; [apply HD; auto|lia].
    - change (zlen [j]) with 1 in PP. apply wp_bind. apply (dia_emit_wp um (filter posi d)); auto; [lia|]. intros st Hst. apply wp_ok. rewrite app_nil_r. split; auto. split; auto. split; auto. intros q r Hq E. apply in_app_iff in Hq. destruct Hq as [Hq|[<-|[]]]; [apply HD; auto|lia].
    - rewrite !app_nil_r. apply wp_bind. assert (E0 : znth 0 ix j = 0) by lia.
      apply (for_wp' (fun i s => zlen s = n /\ forall r, 0 <= r < i -> znth s0 s r = znth s0 vl (j * n + r))); [lia| | |].
      + split; auto. intros; lia.
      + intros i s Hi [M1 M2]. pose proof (slot_lt n (dia_nnd A) j i Hi Hj). wrd s0; [lia|]. apply wp_wr; [lia|]. split; [len|]. intros r Hr. rewrite znth_zupd by lia. destruct (Z.eqb_spec r i) as [->|]; [reflexivity|]. apply M2. lia.
      + intros s [M1 M2]. apply wp_ok. split; auto. split; auto. split; auto. intros q r Hq E Hr. apply in_app_iff in Hq. destruct Hq as [Hq|[<-|[]]]; [|apply M2; auto].
        exfalso. cbn [app] in Hdj. rewrite map_id in Hdj. subst d. pose proof (d_nodup r Hr) as ND. unfold dia_ln in ND. rewrite (zrange_app 0 j (dia_nnd A)), (zrange_cons j (dia_nnd A)) in ND by lia. rewrite flat_map_app in ND. cbn [flat_map] in ND. rewrite !map_app in ND.
        assert (I1 : forall q, znth 0 ix q = 0 -> ditem A r q = [(r, znth s0 vl (q * n + r))]). { intros q' E'. unfold ditem. rewrite E'. replace (r + 0) with r by lia. destruct (Z.leb_spec 0 r); [|lia]. destruct (Z.ltb_spec r n); [|lia]. reflexivity. }
        rewrite (I1 j E0) in ND. cbn [map fst app] in ND. apply NoDup_remove_2 in ND. apply ND. apply in_app_iff. left. apply in_map_iff. exists (r, znth s0 vl (q * n + r)). split; auto. apply in_flat_map. exists q. split; auto. rewrite (I1 q E). left; reflexivity. }
  cbn [app]. rewrite map_id. intros [[[[li lv] kl] [[ui uv] ku]] dd] (HL & HU & Ld & HD). apply wp_ok. cbn [ds_n ds_L ds_U ds_D].
  assert (G : forall (low : bool) (pr : Z -> bool) (sel : Z -> Z -> bool) ix' vl' k, (forall j, pr j = true -> if low then znth 0 ix j < 0 else 0 < znth 0 ix j) -> (forall i j, sel i (i + znth 0 ix j) = pr j) -> dcopy (zlen (filter pr (zrange 0 (dia_nnd A)))) (filter pr (zrange 0 (dia_nnd A))) (ix', vl', k) ->
     dlines_in n low (mkDia n (dia_np A) k ix' vl') /\ forall i, 0 <= i < n -> dia_ln (mkDia n (dia_np A) k ix' vl') i = filter (fun p => sel i (fst p)) (dia_ln A i)).
  { intros low pr sel ix' vl' k Hpr Hsel (K1 & K2 & K3 & K4). set (dn := filter pr (zrange 0 (dia_nnd A))) in *. pose proof (zlen_nonneg dn). split.
    - split; [reflexivity|]. cbn [dia_nnd dia_index dia_value]. split; [lia|]. split; [lia|]. intros j Hj. destruct (K4 j ltac:(lia)) as [E _]. rewrite E. apply Hpr.
      assert (In (znth 0 dn j) dn) by (apply znth_In; lia). unfold dn in H0 at 2. apply filter_In in H0. apply H0.
    - intros i Hi. unfold dia_ln. cbn [dia_nnd]. rewrite K3. rewrite <- SplitProof.flat_map_filter.
      transitivity (flat_map (ditem A i) dn).
      + transitivity (flat_map (ditem A i) (map (znth 0 dn) (zrange 0 (zlen dn)))); [|f_equal; symmetry; apply list_table]. rewrite flat_map_map. apply flat_map_ext_in. intros q Hq. apply In_zrange in Hq. destruct (K4 q Hq) as [E1 E2]. unfold ditem. cbn [dia_index dia_n dia_value]. rewrite E1, E2 by auto. reflexivity.
      + unfold dn. clear - Hsel. induction (zrange 0 (dia_nnd A)) as [|j l IH]; cbn [filter flat_map]; [reflexivity|]. assert (EF : filter (fun p => sel i (fst p)) (ditem A i j) = if pr j then ditem A i j else []).
        { unfold ditem. destruct ((0 <=? i + znth 0 ix j) && (i + znth 0 ix j <? n)); cbn [filter fst]; [rewrite Hsel; destruct (pr j); reflexivity|destruct (pr j); reflexivity]. }
        rewrite EF. destruct (pr j); cbn [flat_map app]; rewrite IH; reflexivity. }
  destruct (G true neg (fun i c => c <? i) li lv kl) as [G1 G2]; auto. { intros j Hj. apply Z.ltb_lt in Hj. exact Hj. } { intros i j. unfold neg. destruct (Z.ltb_spec (i + znth 0 ix j) i); destruct (Z.ltb_spec (znth 0 ix j) 0); auto; lia. }
  destruct (G false posi (fun i c => i <? c) ui uv ku) as [G3 G4]; auto. { intros j Hj. apply Z.ltb_lt in Hj. exact Hj. } { intros i j. unfold posi. destruct (Z.ltb_spec i (i + znth 0 ix j)); destruct (Z.ltb_spec 0 (znth 0 ix j)); auto; lia. }
  split; auto. split; [exact G1|]. split; [exact G3|]. split; [exact G2|]. split; [exact G4|]. split; auto.
  intros i p Hi Hp E. apply in_flat_map in Hp. destruct Hp as (j & Hj & Hp). unfold ditem in Hp. destruct (_ && _) in Hp; [|destruct Hp]. destruct Hp as [<-|[]]. cbn [fst snd] in *. apply HD; auto. lia.
Qed.

Lemma d_coef i j : 0 <= i < n -> coef (dia_entries A) i j = lc (dia_ln A i) j.
Proof using RT HA. intros Hi. rewrite (coef_perm RT _ _ i j (dia_row_ents A HA)). apply (coef_row_ents RT); auto. Qed.
Lemma dia_ln_in i p : In p (dia_ln A i) -> 0 <= fst p < n.
Proof using. intros Hp. apply in_flat_map in Hp. destruct Hp as (j & Hj & Hp). unfold ditem in Hp. destruct (_ && _) eqn:E in Hp; [|destruct Hp]. destruct Hp as [<-|[]]. cbn [fst]. apply andb_true_iff in E. destruct E as [E1 E2]. apply Z.leb_le in E1. apply Z.ltb_lt in E2. lia. Qed.
Lemma d_low ln : (forall i, 0 <= i < n -> ln i = below i (dia_ln A i)) -> lowline n ln (coef (dia_entries A)).
Proof using RT HA.
  intros H i Hi. rewrite H by auto. split.
  - intros p Hp. apply filter_In in Hp. destruct Hp as [Hp Hc]. apply Z.ltb_lt in Hc. split; [apply (dia_ln_in i p); auto|]. lia.
  - intros j Hj. unfold below. rewrite (lc_filter RT (fun c => c <? i)). destruct (Z.ltb_spec j i); [|reflexivity]. rewrite d_coef by auto. reflexivity.
Qed.
Lemma d_upp ln : (forall i, 0 <= i < n -> ln i = above i (dia_ln A i)) -> uppline n ln (coef (dia_entries A)).
Proof using RT HA.
  intros H i Hi. rewrite H by auto. split.
  - intros p Hp. apply filter_In in Hp. destruct Hp as [Hp Hc]. apply Z.ltb_lt in Hc. split; [apply (dia_ln_in i p); auto|]. lia.
  - intros j Hj. unfold above. rewrite (lc_filter RT (fun c => i <? c)). destruct (Z.ltb_spec i j); [|reflexivity]. rewrite d_coef by auto. reflexivity.
Qed.
Lemma lc_exists l i : lc l i <> s0 -> exists p, In p l /\ fst p = i.
Proof using RT.
  intros Hd. destruct (existsb (fun p : Z * T => fst p =? i) l) eqn:E.
  - apply existsb_exists in E. destruct E as (p & Hp & E). apply Z.eqb_eq in E. eauto.
  - exfalso. apply Hd. apply (lc_absent RT). intros p Hp E'. assert (existsb (fun p : Z * T => fst p =? i) l = true) by (apply existsb_exists; exists p; rewrite E', Z.eqb_refl; auto). congruence.
Qed.
Lemma dia_solve_final (FT : is_field S) jli jlv jui juv jd : (forall i, 0 <= i < n -> coef (dia_entries A) i i <> s0) ->
  exists P wd, split_dia jli jlv jui juv jd A = Ok P /\ diag_inverse n (ds_D P) = Ok wd /\
    solves_lower n (dia_entries A) (solve_lower_dia P wd) /\ solves_upper n (dia_entries A) (solve_upper_dia P wd) /\
    solves_ssor n (dia_entries A) (solve_ssor_dia P wd) /\
    (conj_ok S -> solvesh_lower n (dia_entries A) (solveh_lower_dia P wd) /\ solvesh_upper n (dia_entries A) (solveh_upper_dia P wd) /\ solvesh_ssor n (dia_entries A) (solveh_ssor_dia P wd)).
Proof using HND RT HA.
  intros Hd. pose proof HA as (Hn & _). destruct (wp_ex _ _ (split_dia_wp jli jlv jui juv jd)) as (P & EP & P1 & P2 & P3 & P4 & P5 & P6 & P7).
  assert (Hdd : forall i, 0 <= i < n -> znth s0 (ds_D P) i = coef (dia_entries A) i i).
  { intros i Hi. specialize (Hd i Hi). rewrite d_coef in * by auto. destruct (lc_exists _ _ Hd) as (p & Hp & E). rewrite (P7 i p) by auto. symmetry. apply (lc_unique RT); auto. apply d_nodup; auto. }
  destruct (diag_inverse_wp RT FT n (ds_D P)) as (wd & EW & LW & HW). { lia. } { intros i Hi. rewrite Hdd by auto. auto. }
  exists P, wd. split; auto. split; auto.
  assert (Hw : n <= zlen wd) by lia. assert (Hinv : forall i, 0 <= i < n -> smul (coef (dia_entries A) i i) (znth s0 wd i) = s1) by (intros i Hi; rewrite <- Hdd by auto; auto).
  assert (Hn' : 0 <= n) by lia. pose proof (d_low _ P4) as HL. pose proof (d_upp _ P5) as HU.
  split; [|split; [|split; [|intros HC; pose proof HC as (_ & _ & _ & C0 & _); split; [|split]]]].
  - unfold solve_lower_dia. rewrite P1. apply (row_lower RT n _ wd Hn' Hw Hinv (dia_ln (ds_L P))); auto. apply dia_gat; auto.
  - unfold solve_upper_dia. rewrite P1. apply (row_upper RT n _ wd Hn' Hw Hinv (dia_ln (ds_U P))); auto. apply dia_gat; auto.
  - unfold solve_ssor_dia, solve_lower_dia. rewrite P1. apply (row_ssor RT n _ wd Hn' Hw Hinv (dia_ln (ds_L P)) (dia_ln (ds_U P))); auto. { apply dia_gat; auto. } apply dia_addok; auto.
  - unfold solveh_lower_dia. rewrite P1. apply (row_h_lower RT n _ wd Hn' Hw Hinv HC (dia_ln (ds_U P))); auto. apply dia_liveok; auto.
  - unfold solveh_upper_dia. rewrite P1. apply (row_h_upper RT n _ wd Hn' Hw Hinv HC (dia_ln (ds_L P))); auto. apply dia_liveok; auto.
  - unfold solveh_ssor_dia. rewrite P1. apply (row_h_ssor RT n _ wd Hn' Hw Hinv HC (dia_ln (ds_L P)) (dia_ln (ds_U P))); auto; apply dia_scaok; auto.
Qed.
End Split.

(** *** DNS *)
Section Dns.
Variable A : dns T.
Hypothesis HA : dns_ok A.
Hypothesis Hsq : dns_np A = dns_n A.
Notation n := (dns_n A).
Notation vl := (dns_value A).
Definition nitem (i j : Z) : list (Z * T) := [(j, znth s0 vl (j * n + i))].
Definition lnL (i : Z) := flat_map (nitem i) (zrange 0 i).
Definition lnU (i : Z) := flat_map (nitem i) (zrange (i + 1) n).
Lemma npos i j : 0 <= i < n -> 0 <= j < n -> 0 <= j * n + i < zlen vl.
Proof using HA Hsq. intros Hi Hj. pose proof HA as (_ & L). pose proof (slot_lt n n j i Hi Hj). rewrite Hsq in L. lia. Qed.
Lemma dns_gat g lo hi ln : (forall i, 0 <= i < n -> 0 <= lo i /\ hi i <= n /\ ln i = flat_map (nitem i) (zrange (lo i) (hi i))) -> gat_ok n g ln (fun i x t => dns_line A (lo i) (hi i) i (dns_sub g A x) t).
Proof using RT HA Hsq.
  intros H i x t Hi Hx. destruct (H i Hi) as (H1 & H2 & ->). unfold dns_line. apply (gat_loop RT). intros j s Hj. pose proof (npos i j Hi ltac:(lia)). unfold dns_sub, nitem. rewrite (rd_ok s0) by lia. cbn [bind]. rewrite (rd_ok s0) by lia. cbn [bind]. unfold gs. cbn [map ssum fst snd]. f_equal. ring.
Qed.
Lemma dns_addok g lo hi ln : (forall i, 0 <= i < n -> 0 <= lo i /\ hi i <= n /\ ln i = flat_map (nitem i) (zrange (lo i) (hi i))) -> add_ok n g ln (fun i x t => dns_line A (lo i) (hi i) i (dns_add g A x) t).
Proof using RT HA Hsq.
  intros H i x t Hi Hx. destruct (H i Hi) as (H1 & H2 & ->). unfold dns_line. apply (add_loop RT). intros j s Hj. pose proof (npos i j Hi ltac:(lia)). unfold dns_add, nitem. rewrite (rd_ok s0) by lia. cbn [bind]. rewrite (rd_ok s0) by lia. cbn [bind]. unfold gs. cbn [map ssum fst snd]. f_equal. ring.
Qed.
Lemma dns_scaok g lo hi ln : (forall i, 0 <= i < n -> 0 <= lo i /\ hi i <= n /\ ln i = flat_map (nitem i) (zrange (lo i) (hi i))) -> sca_ok n g ln (fun i t x => dns_line A (lo i) (hi i) i (dns_scat g A t) x).
Proof using RT HA Hsq.
  intros H i t y Hi Hy. destruct (H i Hi) as (H1 & H2 & ->). unfold dns_line. apply (sca_loop RT); auto. intros j s Hj Hs. pose proof (npos i j Hi ltac:(lia)). unfold dns_scat, nitem. wrd s0; [lia|]. wrd s0; [lia|]. apply wp_wr; [lia|]. apply put_scattered; auto. lia.
Qed.
Lemma dns_liveok g lo hi ln : g s0 = s0 -> (forall i, 0 <= i < n -> 0 <= lo i /\ hi i <= n /\ (hi i <= i \/ i < lo i) /\ ln i = flat_map (nitem i) (zrange (lo i) (hi i))) -> live_ok n g ln (fun i x => dns_line A (lo i) (hi i) i (dns_live g A i) x).
Proof using RT HA Hsq.
  intros G H i y Hi Hy. destruct (H i Hi) as (H1 & H2 & H3 & ->). unfold dns_line. apply (live_loop RT); auto.
  - intros j p Hj [<-|[]] E. cbn [fst] in E. lia.
  - intros j s Hj Hs. pose proof (npos i j Hi ltac:(lia)). unfold dns_live, dns_scat, nitem. wrd s0; [lia|]. wrd s0; [lia|]. wrd s0; [lia|]. apply wp_wr; [lia|]. apply put_scattered; auto. lia.
Qed.
Lemma n_coef i j : 0 <= i < n -> 0 <= j < n -> coef (dns_entries A) i j = znth s0 vl (j * n + i).
Proof using RT Hsq.
  intros Hi Hj. assert (E : dns_entries A = col_ents (dns_np A) (fun j => map (fun i => (i, znth s0 vl (j * n + i))) (zrange 0 n))). { unfold dns_entries, col_ents. apply flat_map_ext. intros k. rewrite map_map. reflexivity. }
  rewrite E, (coef_col_ents RT) by lia. apply (lc_unique RT _ i (i, znth s0 vl (j * n + i))); auto.
  - rewrite map_map. cbn [fst]. rewrite map_id. apply NoDup_zrange.
  - apply (in_map (fun i => (i, znth s0 vl (j * n + i)))). apply In_zrange. auto.
Qed.
Lemma lc_range i j lo hi : lc (flat_map (nitem i) (zrange lo hi)) j = if (lo <=? j) && (j <? hi) then znth s0 vl (j * n + i) else s0.
Proof using RT.
  unfold nitem. rewrite flat_map_single. destruct (Z.leb_spec lo j); destruct (Z.ltb_spec j hi); cbn [andb].
  - apply (lc_unique RT _ j (j, znth s0 vl (j * n + i))); auto. + rewrite map_map. cbn [fst]. rewrite map_id. apply NoDup_zrange. + apply (in_map (fun j => (j, znth s0 vl (j * n + i)))). apply In_zrange. auto.
  - apply (lc_absent RT). intros p Hp. apply in_map_iff in Hp. destruct Hp as (k & <- & Hk). apply In_zrange in Hk. cbn [fst]. lia.
  - apply (lc_absent RT). intros p Hp. apply in_map_iff in Hp. destruct Hp as (k & <- & Hk). apply In_zrange in Hk. cbn [fst]. lia.
  - apply (lc_absent RT). intros p Hp. apply in_map_iff in Hp. destruct Hp as (k & <- & Hk). apply In_zrange in Hk. cbn [fst]. lia.
Qed.
Lemma n_low : lowline n lnL (coef (dns_entries A)).
Proof using RT Hsq.
  intros i Hi. split.
  - intros p Hp. unfold lnL, nitem in Hp. rewrite flat_map_single in Hp. apply in_map_iff in Hp. destruct Hp as (k & <- & Hk). apply In_zrange in Hk. cbn [fst]. lia.
  - intros j Hj. unfold lnL. rewrite lc_range. destruct (Z.leb_spec 0 j); [|lia]. destruct (Z.ltb_spec j i); cbn [andb]; [|reflexivity]. rewrite n_coef by lia. reflexivity.
Qed.
Lemma n_upp : uppline n lnU (coef (dns_entries A)).
Proof using RT Hsq.
  intros i Hi. split.
  - intros p Hp. unfold lnU, nitem in Hp. rewrite flat_map_single in Hp. apply in_map_iff in Hp. destruct Hp as (k & <- & Hk). apply In_zrange in Hk. cbn [fst]. lia.
  - intros j Hj. unfold lnU. rewrite lc_range. destruct (Z.leb_spec (i + 1) j); destruct (Z.ltb_spec i j); try lia; cbn [andb]; [|reflexivity]. destruct (Z.ltb_spec j n); [|lia]. rewrite n_coef by lia. reflexivity.
Qed.
Lemma dns_solve_final (FT : is_field S) jd : (forall i, 0 <= i < n -> coef (dns_entries A) i i <> s0) ->
  exists d wd, split_dns jd A = Ok d /\ diag_inverse n d = Ok wd /\
    solves_lower n (dns_entries A) (solve_lower_dns A wd) /\ solves_upper n (dns_entries A) (solve_upper_dns A wd) /\
    solves_ssor n (dns_entries A) (solve_ssor_dns A wd) /\
    (conj_ok S -> solvesh_lower n (dns_entries A) (solveh_lower_dns A wd) /\ solvesh_upper n (dns_entries A) (solveh_upper_dns A wd) /\ solvesh_ssor n (dns_entries A) (solveh_ssor_dns A wd)).
Proof using RT HA Hsq.
  intros Hd. pose proof HA as (Hn & _).
  assert (W : wp (split_dns jd A) (fun d => zlen d = n /\ forall i, 0 <= i < n -> znth s0 d i = znth s0 vl (i * n + i))).
  { unfold split_dns. apply (for_wp' (fun i d => zlen d = n /\ forall r, 0 <= r < i -> znth s0 d r = znth s0 vl (r * n + r))); [lia| | |auto].
    - split; [apply zlen_alloc; lia|intros; lia].
    - intros i d Hi [L H]. pose proof (npos i i Hi Hi). wrd s0; [lia|]. apply wp_wr; [lia|]. split; [len|]. intros r Hr. rewrite znth_zupd by lia. destruct (Z.eqb_spec r i) as [->|]; [reflexivity|]. apply H. lia. }
  destruct (wp_ex _ _ W) as (d & ED & Ld & P7).
  assert (Hdd : forall i, 0 <= i < n -> znth s0 d i = coef (dns_entries A) i i). { intros i Hi. rewrite P7, n_coef by auto. reflexivity. }
  destruct (diag_inverse_wp RT FT n d) as (wd & EW & LW & HW). { lia. } { intros i Hi. rewrite Hdd by auto. auto. }
  exists d, wd. split; auto. split; auto.
  assert (Hw : n <= zlen wd) by lia. assert (Hinv : forall i, 0 <= i < n -> smul (coef (dns_entries A) i i) (znth s0 wd i) = s1) by (intros i Hi; rewrite <- Hdd by auto; auto).
  assert (Hn' : 0 <= n) by lia. pose proof n_low as HL. pose proof n_upp as HU.
  assert (RL : forall i, 0 <= i < n -> 0 <= 0 /\ i <= n /\ lnL i = flat_map (nitem i) (zrange 0 i)) by (intros; repeat split; lia).
  assert (RU : forall i, 0 <= i < n -> 0 <= i + 1 /\ dns_np A <= n /\ lnU i = flat_map (nitem i) (zrange (i + 1) (dns_np A))) by (intros; rewrite Hsq; repeat split; lia).
  assert (RU' : forall i, 0 <= i < n -> 0 <= i + 1 /\ n <= n /\ lnU i = flat_map (nitem i) (zrange (i + 1) n)) by (intros; repeat split; lia).
  split; [|split; [|split; [|intros HC; pose proof HC as (_ & _ & _ & C0 & _); split; [|split]]]].
  - apply (row_lower RT n _ wd Hn' Hw Hinv lnL); auto. apply (dns_gat ident (fun _ => 0) (fun i => i)); auto.
  - apply (row_upper RT n _ wd Hn' Hw Hinv lnU); auto. apply (dns_gat ident (fun i => i + 1) (fun _ => dns_np A)); auto.
  - apply (row_ssor RT n _ wd Hn' Hw Hinv lnL lnU); auto. { apply (dns_gat ident (fun _ => 0) (fun i => i)); auto. } apply (dns_addok ident (fun i => i + 1) (fun _ => n)); auto.
  - apply (row_h_lower RT n _ wd Hn' Hw Hinv HC lnU); auto. apply (dns_liveok sconj (fun i => i + 1) (fun _ => dns_np A)); auto. intros i Hi. destruct (RU i Hi) as (R1 & R2 & R3). split; [lia|]. split; auto. split; [right; lia|auto].
  - apply (row_h_upper RT n _ wd Hn' Hw Hinv HC lnL); auto. apply (dns_liveok sconj (fun _ => 0) (fun i => i)); auto. intros i Hi. split; [lia|]. split; [lia|]. split; [left; lia|reflexivity].
  - apply (row_h_ssor RT n _ wd Hn' Hw Hinv HC lnL lnU); auto. { apply (dns_scaok sconj (fun i => i + 1) (fun _ => dns_np A)); auto. } apply (dns_scaok sconj (fun _ => 0) (fun i => i)); auto.
Qed.
End Dns.
End S.
