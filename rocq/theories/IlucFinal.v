(** The Crout factors and what applying them computes. *)
Require Import ZArith List Bool Lia Ring Permutation.
From Verif Require IlutEnd.
From Verif Require Import Base Scalar Spec SpecSplit SpecIlu SpecIlut SpecIluc ConvFinal Split Ilu IluProof IluProof2 IluFinal Ilut SainvMath Iluc IlucCreate.
Import ListNotations.
Open Scope Z_scope.

Section P.
Context {T : Type} {S : Scalar T}.
Hypothesis RT : is_ring S.
Hypothesis FD : is_field S.
Let RT' : @ring_theory T s0 s1 sadd smul ssub sopp (@eq T) := RT.
Add Ring TrIlucF : RT'.

Lemma row_at_map f ix c : NoDup ix -> row_at ix (map f ix) c = if in_dec Z.eq_dec c ix then f c else s0.
Proof using RT.
  unfold row_at. induction ix as [|x ix IH]; intros H; [reflexivity|]. apply NoDup_cons_iff in H. destruct H as (H1 & H2). cbn [map combine ssum fst snd]. rewrite (IH H2).
  destruct (Z.eqb_spec x c) as [->|N].
  - destruct (in_dec Z.eq_dec c ix); [contradiction|]. destruct (in_dec Z.eq_dec c (c :: ix)) as [_|C]; [ring|exfalso; apply C; left; reflexivity].
  - destruct (in_dec Z.eq_dec c ix) as [C1|C1]; destruct (in_dec Z.eq_dec c (x :: ix)) as [C2|C2]; try ring; exfalso.
    + apply C2. right. exact C1.
    + destruct C2 as [C|C]; [congruence|contradiction].
Qed.

Lemma mat_vec_mul lo hi (F G : Z -> Z -> T) x i : mat_vec lo hi (mat_mul lo hi F G) x i = mat_vec lo hi F (mat_vec lo hi G x) i.
Proof using RT.
  unfold mat_vec, mat_mul.
  rewrite (ssum_map_ext _ (fun j => ssum (map (fun k => smul (F i k) (smul (G k j) (x j))) (zrange lo hi)))).
  - rewrite (ssum_exchange RT). apply ssum_map_ext. intros k _. rewrite (ssum_map_mul_l RT). auto.
  - intros j _. rewrite <- (ssum_map_mul_r RT). apply ssum_map_ext. intros k _. ring.
Qed.

(** inner loops *)
Lemma col_sub_wp g ix v i (x : list T) (Q : list T -> Prop) : (forall a : T, g a = a) -> zlen v = zlen ix -> 0 <= i < zlen x -> (forall q, 0 <= q < zlen ix -> 0 <= znth 0 ix q < zlen x /\ znth 0 ix q <> i) ->
  (forall x', zlen x' = zlen x -> (forall c, znth s0 x' c = ssub (znth s0 x c) (smul (row_at ix v c) (znth s0 x i))) -> Q x') ->
  wp (for_ 0 (zlen ix) (fun j x => jj <- rd ix j ;; a <- rd v j ;; xi <- rd x i ;; xj <- rd x jj ;; wr x jj (ssub xj (smul (g a) xi))) x) Q.
Proof using RT.
  intros Hg Hl Hi Hr HQ.
  apply (for_wp' (fun j x' => zlen x' = zlen x /\ znth s0 x' i = znth s0 x i /\ (forall c, znth s0 x' c = ssub (znth s0 x c) (smul (SUM j (fun q => if znth 0 ix q =? c then znth s0 v q else s0)) (znth s0 x i))))).
  - apply zlen_nonneg.
  - split; auto. split; auto. intros c. rewrite SUM_0. ring.
  - intros j x' Hj (L1 & E1 & V1). destruct (Hr j Hj) as [Ha Hb]. wrd 0; [lia|]. wrd s0; [lia|]. wrd s0; [lia|]. wrd s0; [lia|]. wwr; [lia|]. rewrite zlen_zupd. split; auto. split; [rewrite znth_zupd_neq by lia; auto|].
    intros c. rewrite (SUM_snoc RT) by lia. destruct (Z.eqb_spec (znth 0 ix j) c) as [<-|Hn].
    + rewrite znth_zupd_eq by lia. rewrite Hg, V1, E1. ring.
    + rewrite znth_zupd_neq by lia. rewrite V1. ring.
  - intros x' (L1 & E1 & V1). apply HQ; auto. intros c. rewrite V1, (row_at_sum RT) by auto. auto.
Qed.
Lemma row_sub_wp g n ix v (x : list T) w (Q : T -> Prop) : (forall a : T, g a = a) -> zlen v = zlen ix -> (forall q, 0 <= q < zlen ix -> 0 <= znth 0 ix q < n) -> n <= zlen x ->
  Q (ssub w (ssum (map (fun c => smul (row_at ix v c) (znth s0 x c)) (zrange 0 n)))) ->
  wp (for_ 0 (zlen ix) (fun j w => jj <- rd ix j ;; a <- rd v j ;; xj <- rd x jj ;; Ok (ssub w (smul (g a) xj))) w) Q.
Proof using RT.
  intros Hg Hl Hr Hx HQ. rewrite (row_at_mul RT) in HQ by auto.
  apply (for_wp' (fun j w' => w' = ssub w (SUM j (fun q => smul (znth s0 v q) (znth s0 x (znth 0 ix q)))))).
  - apply zlen_nonneg.
  - rewrite SUM_0. ring.
  - intros j w' Hj ->. specialize (Hr j Hj). wrd 0; [lia|]. wrd s0; [lia|]. wrd s0; [lia|]. apply wp_ok. rewrite (SUM_snoc RT) by lia. rewrite Hg. ring.
  - intros w' ->. exact HQ.
Qed.
Lemma for_down_none {X} hi lo (body : Z -> X -> res X) x : hi < lo -> for_down hi lo body x = Ok x.
Proof using. intros H. unfold for_down. replace (Z.to_nat (hi - lo + 1)) with 0%nat by lia. reflexivity. Qed.

Section F.
Variables (n : Z) (F : factors T) (d : Z -> T).
Hypothesis Hn : 0 <= n.
Hypothesis ZL : zlen (fa_L F) = n.
Hypothesis ZLv : zlen (fa_Lv F) = n.
Hypothesis ZU : zlen (fa_U F) = n.
Hypothesis ZUv : zlen (fa_Uv F) = n.
Hypothesis ZD : zlen (fa_D F) = n.
Hypothesis HR : forall k, 0 <= k < n ->
  zlen (znth [] (fa_Lv F) k) = zlen (znth [] (fa_L F) k) /\ (forall c, In c (znth [] (fa_L F) k) -> k < c < n) /\
  zlen (znth [] (fa_Uv F) k) = zlen (znth [] (fa_U F) k) /\ (forall c, In c (znth [] (fa_U F) k) -> k < c < n).
Let l k c := row_at (znth [] (fa_L F) k) (znth [] (fa_Lv F) k) c.
Let u k c := row_at (znth [] (fa_U F) k) (znth [] (fa_Uv F) k) c.
Let lh := unit_lower_c (fa_L F) (fa_Lv F).
Let uh := upper_with d (fa_U F) (fa_Uv F).
Notation M := (mat_mul 0 n lh uh).

Lemma l_out k c : 0 <= k < n -> c <= k -> l k c = s0.
Proof using RT HR. intros Hk Hc. destruct (HR k Hk) as (H1 & H2 & _). apply (row_at_out RT); [exact H1|]. intros q Hq E. assert (In (znth 0 (znth [] (fa_L F) k) q) (znth [] (fa_L F) k)) as HI by (apply znth_In; exact Hq). apply H2 in HI. lia. Qed.
Lemma u_out k c : 0 <= k < n -> c <= k -> u k c = s0.
Proof using RT HR. intros Hk Hc. destruct (HR k Hk) as (_ & _ & H1 & H2). apply (row_at_out RT); [exact H1|]. intros q Hq E. assert (In (znth 0 (znth [] (fa_U F) k) q) (znth [] (fa_U F) k)) as HI by (apply znth_In; exact Hq). apply H2 in HI. lia. Qed.
Lemma l_far k c : 0 <= k < n -> n <= c -> l k c = s0.
Proof using RT HR. intros Hk Hc. destruct (HR k Hk) as (H1 & H2 & _). apply (row_at_out RT); [exact H1|]. intros q Hq E. assert (In (znth 0 (znth [] (fa_L F) k) q) (znth [] (fa_L F) k)) as HI by (apply znth_In; exact Hq). apply H2 in HI. lia. Qed.
Lemma u_far k c : 0 <= k < n -> n <= c -> u k c = s0.
Proof using RT HR. intros Hk Hc. destruct (HR k Hk) as (_ & _ & H1 & H2). apply (row_at_out RT); [exact H1|]. intros q Hq E. assert (In (znth 0 (znth [] (fa_U F) k) q) (znth [] (fa_U F) k)) as HI by (apply znth_In; exact Hq). apply H2 in HI. lia. Qed.
Lemma l_rng k q : 0 <= k < n -> 0 <= q < zlen (znth [] (fa_L F) k) -> k < znth 0 (znth [] (fa_L F) k) q < n.
Proof using HR. intros Hk Hq. destruct (HR k Hk) as (_ & H & _). apply H. apply znth_In. exact Hq. Qed.
Lemma u_rng k q : 0 <= k < n -> 0 <= q < zlen (znth [] (fa_U F) k) -> k < znth 0 (znth [] (fa_U F) k) q < n.
Proof using HR. intros Hk Hq. destruct (HR k Hk) as (_ & _ & _ & H). apply H. apply znth_In. exact Hq. Qed.

(** entries of M *)
Lemma lh_row i : 0 <= i < n -> forall g : Z -> T, ssum (map (fun t => smul (lh i t) (g t)) (zrange 0 n)) = sadd (ssum (map (fun t => smul (lh i t) (g t)) (zrange 0 i))) (g i).
Proof using RT HR.
  intros Hi g. rewrite (zrange_app 0 i n), (zrange_cons i n) by lia. rewrite map_app, (ssum_app RT). cbn [map ssum]. rewrite (sum_zero RT _ (i + 1) n).
  - unfold lh, unit_lower_c at 2. rewrite Z.eqb_refl. ring.
  - intros q Hq. unfold lh, unit_lower_c. destruct (Z.eqb_spec q i); [lia|]. fold (l q i). rewrite l_out by lia. ring.
Qed.
Lemma M_upper i j : 0 <= i < n -> i < j < n -> M i j = sadd (ssum (map (fun t => smul (lh i t) (upper_r (fa_U F) (fa_Uv F) t j)) (zrange 0 i))) (u i j).
Proof using RT HR.
  intros Hi Hj. unfold mat_mul. rewrite lh_row by exact Hi. f_equal.
  - apply sum_ext. intros t Ht. unfold uh, upper_with, upper_r. destruct (Z.eqb_spec t j); [lia|reflexivity].
  - unfold uh, upper_with. destruct (Z.eqb_spec i j); [lia|reflexivity].
Qed.
Lemma M_low i j : 0 <= j < n -> j <= i < n -> M i j = sadd (ssum (map (fun t => smul (lh i t) (upper_r (fa_U F) (fa_Uv F) t j)) (zrange 0 j))) (smul (lh i j) (d j)).
Proof using RT HR.
  intros Hj Hi. unfold mat_mul. rewrite (zrange_app 0 j n), (zrange_cons j n) by lia. rewrite map_app, (ssum_app RT). cbn [map ssum]. rewrite (sum_zero RT _ (j + 1) n).
  - transitivity (sadd (ssum (map (fun k => smul (lh i k) (uh k j)) (zrange 0 j))) (smul (lh i j) (uh j j))); [ring|]. f_equal.
    + apply sum_ext. intros t Ht. unfold uh, upper_with, upper_r. destruct (Z.eqb_spec t j); [lia|reflexivity].
    + unfold uh, upper_with. rewrite Z.eqb_refl. reflexivity.
  - intros q Hq. unfold uh, upper_with. destruct (Z.eqb_spec q j); [lia|]. fold (u q j). rewrite u_out by lia. ring.
Qed.

(** *** applying the preconditioner *)
Hypothesis HD : forall k, 0 <= k < n -> smul (d k) (znth s0 (fa_D F) k) = s1.

Lemma lh_sum_c (y : Z -> T) r : 0 <= r < n -> mat_vec 0 n lh y r = sadd (y r) (ssum (map (fun k => smul (l k r) (y k)) (zrange 0 n))).
Proof using RT HR.
  intros Hr. unfold mat_vec. rewrite (sum_ext _ (fun k => sadd (if k =? r then y k else s0) (smul (l k r) (y k)))).
  - rewrite (ssum_map_add RT). f_equal. rewrite (sum_one RT _ 0 n r Hr); [rewrite Z.eqb_refl; reflexivity|]. intros q Hq N. destruct (Z.eqb_spec q r); [contradiction|reflexivity].
  - intros k Hk. unfold lh, unit_lower_c. fold (l k r). destruct (Z.eqb_spec k r) as [->|N]; [rewrite l_out by lia|]; ring.
Qed.
Lemma uh_sum_r (x : Z -> T) r : 0 <= r < n -> mat_vec 0 n uh x r = sadd (smul (d r) (x r)) (ssum (map (fun c => smul (u r c) (x c)) (zrange 0 n))).
Proof using RT HR.
  intros Hr. unfold mat_vec. rewrite (sum_ext _ (fun k => sadd (if k =? r then smul (d r) (x k) else s0) (smul (u r k) (x k)))).
  - rewrite (ssum_map_add RT). f_equal. rewrite (sum_one RT _ 0 n r Hr); [rewrite Z.eqb_refl; reflexivity|]. intros q Hq N. destruct (Z.eqb_spec q r); [contradiction|reflexivity].
  - intros k Hk. unfold uh, upper_with. fold (u r k). rewrite (Z.eqb_sym r k). destruct (Z.eqb_spec k r) as [->|N]; [rewrite u_out by lia|]; ring.
Qed.

Lemma psolve_iluc_wp b : n <= zlen b ->
  wp (psolve_iluc n F b) (fun x => zlen x = zlen b /\ forall i, 0 <= i < n -> mat_vec 0 n M (znth s0 x) i = znth s0 b i).
Proof using RT HR HD ZL ZLv ZU ZUv ZD Hn.
  intros Hb. unfold psolve_iluc. wbind.
  apply (for_wp' (fun i x => zlen x = zlen b /\ forall r, 0 <= r < n -> znth s0 b r = sadd (znth s0 x r) (ssum (map (fun k => smul (l k r) (znth s0 x k)) (zrange 0 i))))).
  - exact Hn.
  - split; [reflexivity|]. intros r Hr. rewrite zrange_empty by lia. cbn [map ssum]. ring.
  - intros i x Hi (L1 & V1). wrd (@nil Z); [lia|]. wrd (@nil T); [lia|].
    apply (col_sub_wp (fun a => a)); [reflexivity|apply HR; exact Hi|lia|intros q Hq; pose proof (l_rng i q Hi Hq); lia|].
    intros x' L2 V2. split; [lia|]. intros r Hr.
    assert (LOW : forall k, 0 <= k <= i -> znth s0 x' k = znth s0 x k) by (intros k Hk; rewrite V2; fold (l i k); rewrite l_out by lia; ring).
    rewrite V1 by exact Hr. rewrite zrange_snoc by lia. rewrite map_app, (ssum_app RT). cbn [map ssum]. rewrite (LOW i) by lia. rewrite (V2 r). fold (l i r).
    rewrite (sum_ext (fun k => smul (l k r) (znth s0 x' k)) (fun k => smul (l k r) (znth s0 x k))) by (intros k Hk; rewrite LOW by lia; reflexivity). ring.
  - intros y (L1 & V1).
    apply (ford_wp' (fun i x => zlen x = zlen b /\ (forall r, 0 <= r <= i -> znth s0 x r = znth s0 y r) /\
      forall r, i < r < n -> sadd (smul (d r) (znth s0 x r)) (ssum (map (fun c => smul (u r c) (znth s0 x c)) (zrange 0 n))) = znth s0 y r)).
    + lia.
    + split; [exact L1|]. split; [reflexivity|]. intros; lia.
    + intros i x Hi (L2 & O2 & V2). wrd (@nil Z); [lia|]. wrd (@nil T); [lia|]. wrd s0; [lia|]. wbind.
      apply (row_sub_wp (fun a => a) n); [reflexivity|apply HR; lia|intros q Hq; pose proof (u_rng i q ltac:(lia) Hq); lia|lia|].
      wrd s0; [lia|]. wwr; [lia|]. rewrite zlen_zupd. split; [exact L2|]. split.
      * intros r Hr. rewrite znth_zupd_neq by lia. apply O2. lia.
      * intros r Hr. match goal with |- context [zupd x i ?t] => set (v := t) end.
        assert (SE : forall r', i <= r' < n -> ssum (map (fun c => smul (u r' c) (znth s0 (zupd x i v) c)) (zrange 0 n)) = ssum (map (fun c => smul (u r' c) (znth s0 x c)) (zrange 0 n))).
        { intros r' Hr'. apply sum_ext. intros c Hc. destruct (Z.eq_dec c i) as [->|N]; [rewrite (u_out r' i) by lia; ring|rewrite znth_zupd_neq by lia; reflexivity]. }
        rewrite SE by lia. destruct (Z.eq_dec r i) as [->|N].
        -- rewrite znth_zupd_eq by lia. unfold v. rewrite (O2 i) by lia.
           change (ssum (map (fun c => smul (row_at (znth [] (fa_U F) i) (znth [] (fa_Uv F) i) c) (znth s0 x c)) (zrange 0 n))) with (ssum (map (fun c => smul (u i c) (znth s0 x c)) (zrange 0 n))).
           set (s := ssum _). transitivity (sadd (smul (smul (d i) (znth s0 (fa_D F) i)) (ssub (znth s0 y i) s)) s); [ring|]. rewrite HD by lia. ring.
        -- rewrite znth_zupd_neq by lia. apply V2. lia.
    + intros x (L2 & _ & V2). split; [exact L2|]. intros i Hi. rewrite mat_vec_mul. rewrite lh_sum_c by exact Hi.
      assert (E : forall r, 0 <= r < n -> mat_vec 0 n uh (znth s0 x) r = znth s0 y r) by (intros r Hr; rewrite uh_sum_r by exact Hr; apply V2; lia).
      rewrite E by exact Hi. rewrite (V1 i Hi). f_equal. apply sum_ext. intros k Hk. rewrite E by exact Hk. reflexivity.
Qed.

Hypothesis HCJ : forall a : T, sconj a = a.
Lemma mat_vech_mul (P Q : Z -> Z -> T) x i : mat_vech 0 n (mat_mul 0 n P Q) x i = mat_vech 0 n Q (mat_vech 0 n P x) i.
Proof using RT HCJ.
  unfold mat_vech, mat_mul.
  rewrite (ssum_map_ext _ (fun j => ssum (map (fun k => smul (sconj (Q k i)) (smul (sconj (P j k)) (x j))) (zrange 0 n)))).
  - rewrite (ssum_exchange RT). apply ssum_map_ext. intros k _. rewrite (ssum_map_mul_l RT). auto.
  - intros j _. rewrite HCJ. rewrite <- (ssum_map_mul_r RT). apply ssum_map_ext. intros k _. rewrite !HCJ. ring.
Qed.
Lemma psolveh_iluc_wp b : n <= zlen b ->
  wp (psolveh_iluc n F b) (fun x => zlen x = zlen b /\ forall i, 0 <= i < n -> mat_vech 0 n M (znth s0 x) i = znth s0 b i).
Proof using RT HR HD ZL ZLv ZU ZUv ZD Hn HCJ.
  intros Hb. unfold psolveh_iluc. wbind.
  apply (for_wp' (fun i x => zlen x = zlen b /\ forall r, 0 <= r < n -> znth s0 b r = sadd (if r <? i then smul (d r) (znth s0 x r) else znth s0 x r) (ssum (map (fun k => smul (u k r) (znth s0 x k)) (zrange 0 i))))).
  - exact Hn.
  - split; [reflexivity|]. intros r Hr. rewrite (proj2 (Z.ltb_ge _ _)) by lia. rewrite zrange_empty by lia. cbn [map ssum]. ring.
  - intros i x Hi (L1 & V1). wrd s0; [lia|]. wrd s0; [lia|]. wwr; [lia|]. wrd (@nil Z); [lia|]. wrd (@nil T); [lia|].
    apply (col_sub_wp sconj); [exact HCJ|apply HR; exact Hi|rewrite zlen_zupd; lia|intros q Hq; pose proof (u_rng i q Hi Hq); rewrite zlen_zupd; lia|].
    rewrite zlen_zupd. intros x' L2 V2. rewrite znth_zupd_eq in V2 by lia. set (v := smul (znth s0 x i) (znth s0 (fa_D F) i)) in *. split; [lia|]. intros r Hr.
    assert (LOW : forall k, 0 <= k < i -> znth s0 x' k = znth s0 x k) by (intros k Hk; rewrite V2; fold (u i k); rewrite u_out by lia; rewrite znth_zupd_neq by lia; ring).
    assert (EI : znth s0 x' i = v) by (rewrite V2; fold (u i i); rewrite u_out by lia; rewrite znth_zupd_eq by lia; ring).
    rewrite V1 by exact Hr. rewrite zrange_snoc by lia. rewrite map_app, (ssum_app RT). cbn [map ssum]. rewrite EI.
    rewrite (sum_ext (fun k => smul (u k r) (znth s0 x' k)) (fun k => smul (u k r) (znth s0 x k))) by (intros k Hk; rewrite LOW by lia; reflexivity).
    destruct (Z.ltb_spec r i) as [H1|H1]; destruct (Z.ltb_spec r (i + 1)) as [H2|H2]; try lia.
    + rewrite (LOW r) by lia. rewrite (u_out i r) by lia. ring.
    + assert (r = i) by lia. subst r. rewrite EI, (u_out i i) by lia. unfold v. set (s := ssum _). transitivity (sadd (smul (smul (d i) (znth s0 (fa_D F) i)) (znth s0 x i)) s); [rewrite HD by lia; ring|ring].
    + rewrite V2. fold (u i r). rewrite znth_zupd_neq by lia. ring.
  - intros y (L1 & V1).
    assert (V1' : forall r, 0 <= r < n -> znth s0 b r = sadd (smul (d r) (znth s0 y r)) (ssum (map (fun k => smul (u k r) (znth s0 y k)) (zrange 0 n)))).
    { intros r Hr. rewrite (V1 r Hr). rewrite (proj2 (Z.ltb_lt _ _)) by lia. reflexivity. }
    assert (FIN : forall x, zlen x = zlen b -> (forall r, 0 <= r < n -> sadd (znth s0 x r) (ssum (map (fun c => smul (l r c) (znth s0 x c)) (zrange 0 n))) = znth s0 y r) ->
      zlen x = zlen b /\ forall i, 0 <= i < n -> mat_vech 0 n M (znth s0 x) i = znth s0 b i).
    { intros x L2 V2. split; [exact L2|]. intros i Hi. rewrite mat_vech_mul.
      assert (E : forall r, 0 <= r < n -> mat_vech 0 n lh (znth s0 x) r = znth s0 y r).
      { intros r Hr. rewrite <- (V2 r Hr). unfold mat_vech. rewrite (sum_ext _ (fun k => sadd (if k =? r then znth s0 x k else s0) (smul (l r k) (znth s0 x k)))).
        - rewrite (ssum_map_add RT). f_equal. rewrite (sum_one RT _ 0 n r Hr); [rewrite Z.eqb_refl; reflexivity|]. intros q Hq N. destruct (Z.eqb_spec q r); [contradiction|reflexivity].
        - intros k Hk. rewrite HCJ. unfold lh, unit_lower_c. fold (l r k). rewrite (Z.eqb_sym r k). destruct (Z.eqb_spec k r) as [->|N]; [rewrite l_out by lia|]; ring. }
      rewrite (V1' i Hi). unfold mat_vech at 1. rewrite (sum_ext _ (fun k => sadd (if k =? i then smul (d i) (znth s0 y i) else s0) (smul (u k i) (znth s0 y k)))).
      - rewrite (ssum_map_add RT). f_equal. rewrite (sum_one RT _ 0 n i Hi); [rewrite Z.eqb_refl; reflexivity|]. intros q Hq N. destruct (Z.eqb_spec q i); [contradiction|reflexivity].
      - intros k Hk. rewrite E by exact Hk. rewrite HCJ. unfold uh, upper_with. fold (u k i). destruct (Z.eqb_spec k i) as [->|N]; [rewrite u_out by lia|]; ring. }
    destruct (Z.eq_dec n 0) as [E0|N0].
    { rewrite for_down_none by lia. apply wp_ok. apply FIN; [exact L1|intros; lia]. }
    apply (ford_wp' (fun i x => zlen x = zlen b /\ (forall r, 0 <= r <= i -> znth s0 x r = znth s0 y r) /\
      forall r, i < r < n -> sadd (znth s0 x r) (ssum (map (fun c => smul (l r c) (znth s0 x c)) (zrange 0 n))) = znth s0 y r)).
    + lia.
    + split; [exact L1|]. split; [reflexivity|]. intros r Hr. assert (r = n - 1) by lia. subst r.
      rewrite (sum_zero RT); [ring|]. intros q Hq. rewrite l_out by lia. ring.
    + intros i x Hi (L2 & O2 & V2). wrd (@nil Z); [lia|]. wrd (@nil T); [lia|]. wrd s0; [lia|]. wbind.
      apply (row_sub_wp sconj n); [exact HCJ|apply HR; lia|intros q Hq; pose proof (l_rng i q ltac:(lia) Hq); lia|lia|].
      wwr; [lia|]. rewrite zlen_zupd. split; [exact L2|]. split.
      * intros r Hr. rewrite znth_zupd_neq by lia. apply O2. lia.
      * intros r Hr. match goal with |- context [zupd x i ?t] => set (v := t) end.
        assert (SE : forall r', i <= r' < n -> ssum (map (fun c => smul (l r' c) (znth s0 (zupd x i v) c)) (zrange 0 n)) = ssum (map (fun c => smul (l r' c) (znth s0 x c)) (zrange 0 n))).
        { intros r' Hr'. apply sum_ext. intros c Hc. destruct (Z.eq_dec c i) as [->|N]; [rewrite (l_out r' i) by lia; ring|rewrite znth_zupd_neq by lia; reflexivity]. }
        rewrite SE by lia. destruct (Z.eq_dec r i) as [->|N].
        -- rewrite znth_zupd_eq by lia. unfold v. rewrite (O2 i) by lia.
           change (ssum (map (fun c => smul (row_at (znth [] (fa_L F) i) (znth [] (fa_Lv F) i) c) (znth s0 x c)) (zrange 0 n))) with (ssum (map (fun c => smul (l i c) (znth s0 x c)) (zrange 0 n))). ring.
        -- rewrite znth_zupd_neq by lia. apply V2. lia.
    + intros x (L2 & _ & V2). apply FIN; [exact L2|]. intros r Hr. apply V2. lia.
Qed.
End F.

Lemma iluc_final J JV tol gamma lfil (A : split T) : total_order S -> eqb_ok S ->
  split_ok A -> sp_np A = sp_n A -> no_dup_pos (csr_entries (sp_L A)) -> no_dup_pos (csr_entries (sp_U A)) -> 0 <= lfil ->
  let n := sp_n A in let a := coef (split_entries A) in
  exists F, create_iluc J JV tol gamma lfil A = Ok F /\ exists d,
    (forall k, 0 <= k < n -> znth s0 (fa_D F) k = sdiv s1 (d k) /\ crout_step n lfil tol gamma a (fa_L F) (fa_Lv F) (fa_U F) (fa_Uv F) d k) /\
    let M := mat_mul 0 n (unit_lower_c (fa_L F) (fa_Lv F)) (upper_with d (fa_U F) (fa_Uv F)) in
    ((forall k, 0 <= k < n -> d k <> s0) ->
      (forall i j, 0 <= i < j -> j < n -> M i j = a i j \/ sleb (sabs (ssub (a i j) (M i j))) (smul (sabs (d i)) tol) = true \/ zlen (znth [] (fa_U F) i) = lfil) /\
      (forall i j, 0 <= j < i -> i < n -> M i j = a i j \/ sleb (sabs (ssub (a i j) (M i j))) (smul (sabs (d j)) tol) = true \/ zlen (znth [] (fa_L F) j) = lfil) /\
      (forall i, 0 <= i < n -> (forall t, 0 <= t < i -> M i t = a i t /\ M t i = a t i) -> M i i = smul gamma (a i i)) /\
      forall b, n <= zlen b ->
        (exists x, psolve_iluc n F b = Ok x /\ zlen x = zlen b /\ forall i, 0 <= i < n -> mat_vec 0 n M (znth s0 x) i = znth s0 b i) /\
        ((forall x : T, sconj x = x) -> exists x, psolveh_iluc n F b = Ok x /\ zlen x = zlen b /\ forall i, 0 <= i < n -> mat_vech 0 n M (znth s0 x) i = znth s0 b i)).
Proof using RT FD.
  intros Hto Heq HA Hsq HDL HDU Hlf n a.
  destruct (wp_inv _ _ (create_iluc_wp RT (IlutEnd.total_swo Hto) J JV tol gamma lfil A HA Hsq HDL HDU Hlf)) as (F & EF & Z1 & Z2 & Z3 & Z4 & Z5 & d & Hd). fold n a in Z1, Z2, Z3, Z4, Z5, Hd.
  exists F. split; [exact EF|]. exists d. split; [exact Hd|]. intros M Hd0.
  assert (Hn0 : 0 <= n). { destruct HA as (_ & _ & _ & _ & ((P & _) & _) & U2 & _). rewrite U2 in P. exact P. }
  assert (HR : forall k, 0 <= k < n ->
    zlen (znth [] (fa_Lv F) k) = zlen (znth [] (fa_L F) k) /\ (forall c, In c (znth [] (fa_L F) k) -> k < c < n) /\
    zlen (znth [] (fa_Uv F) k) = zlen (znth [] (fa_U F) k) /\ (forall c, In c (znth [] (fa_U F) k) -> k < c < n)).
  { intros k Hk. destruct (Hd k Hk) as (_ & _ & (_ & _ & K1 & _) & V1 & (_ & _ & K2 & _) & V2). rewrite V1, V2. rewrite !IlutRow.zlen_map.
    split; [reflexivity|]. split; [intros c Hc; apply K2; exact Hc|]. split; [reflexivity|]. intros c Hc; apply K1; exact Hc. }
  assert (HDD : forall k, 0 <= k < n -> smul (d k) (znth s0 (fa_D F) k) = s1) by (intros k Hk; destruct (Hd k Hk) as (-> & _); apply (inv_mul RT FD); auto).
  set (red := reduced a (unit_lower_c (fa_L F) (fa_Lv F)) (upper_r (fa_U F) (fa_Uv F))).
  assert (EUP : forall i j, 0 <= i < j -> j < n -> ssub (a i j) (M i j) = ssub (red i i j) (upper_r (fa_U F) (fa_Uv F) i j)).
  { intros i j Hi Hj. unfold M. rewrite (M_upper n F d HR i j) by lia. unfold red, reduced, upper_r. ring. }
  assert (ELO : forall i j, 0 <= j < i -> i < n -> ssub (a i j) (M i j) = ssub (red j i j) (smul (unit_lower_c (fa_L F) (fa_Lv F) i j) (d j))).
  { intros i j Hi Hj. unfold M. rewrite (M_low n F d HR i j) by lia. unfold red, reduced. ring. }
  assert (EDI : forall i, 0 <= i < n -> M i i = sadd (ssum (map (fun t => smul (unit_lower_c (fa_L F) (fa_Lv F) i t) (upper_r (fa_U F) (fa_Uv F) t i)) (zrange 0 i))) (d i)).
  { intros i Hi. unfold M. rewrite (M_low n F d HR i i) by lia. f_equal. unfold unit_lower_c. rewrite Z.eqb_refl. ring. }
  assert (UV : forall i j, 0 <= i < n -> upper_r (fa_U F) (fa_Uv F) i j = if in_dec Z.eq_dec j (znth [] (fa_U F) i) then red i i j else s0).
  { intros i j Hi. destruct (Hd i Hi) as (_ & _ & (K & _) & V & _). unfold upper_r. rewrite V. apply (row_at_map (fun j => red i i j)). exact K. }
  assert (LV : forall i j, 0 <= j < i -> i < n -> unit_lower_c (fa_L F) (fa_Lv F) i j = if in_dec Z.eq_dec i (znth [] (fa_L F) j) then smul (red j i j) (sdiv s1 (d j)) else s0).
  { intros i j Hj Hi. destruct (Hd j ltac:(lia)) as (_ & _ & _ & _ & (K & _) & V). unfold unit_lower_c. destruct (Z.eqb_spec j i); [lia|]. rewrite V. apply (row_at_map (fun i => smul (red j i j) (sdiv s1 (d j)))). exact K. }
  assert (DV : forall j v, 0 <= j < n -> smul (smul v (sdiv s1 (d j))) (d j) = v).
  { intros j v Hj. rewrite <- (Rmul_assoc RT). rewrite (Rmul_comm RT (sdiv s1 (d j))). rewrite (inv_mul RT FD) by auto. ring. }
  assert (SUB0 : forall x y : T, ssub x y = s0 -> y = x) by (intros x y E; transitivity (ssub x (ssub x y)); [ring|rewrite E; ring]).
  split; [|split; [|split]].
  - intros i j Hi Hj. pose proof (EUP i j Hi Hj) as E. rewrite (UV i j) in E by lia. destruct (in_dec Z.eq_dec j (znth [] (fa_U F) i)) as [C|C].
    + left. apply SUB0. rewrite E. ring.
    + assert (E' : ssub (a i j) (M i j) = red i i j) by (rewrite E; ring). rewrite E'.
      destruct (Hd i ltac:(lia)) as (_ & _ & (_ & K2 & K3 & K4) & _). fold red in K2, K3, K4. cbv beta in K4.
      destruct (sleb (sabs (red i i j)) (smul (sabs (d i)) tol)) eqn:EB; [right; left; reflexivity|].
      destruct (seqb (red i i j) s0) eqn:EZ; [left; apply Heq in EZ; apply SUB0; rewrite E', EZ; reflexivity|].
      right; right. destruct (Z.lt_ge_cases (zlen (znth [] (fa_U F) i)) lfil) as [HL|HL]; [|lia]. exfalso. apply C. apply K4; auto; [lia|].
      intros C'. apply Heq in C'. congruence.
  - intros i j Hj Hi. pose proof (ELO i j Hj Hi) as E. rewrite (LV i j) in E by lia. destruct (in_dec Z.eq_dec i (znth [] (fa_L F) j)) as [C|C].
    + left. apply SUB0. rewrite E, DV by lia. ring.
    + assert (E' : ssub (a i j) (M i j) = red j i j) by (rewrite E; ring). rewrite E'.
      destruct (Hd j ltac:(lia)) as (_ & _ & _ & _ & (_ & K2 & K3 & K4) & _). fold red in K2, K3, K4. cbv beta in K4.
      destruct (sleb (sabs (red j i j)) (smul (sabs (d j)) tol)) eqn:EB; [right; left; reflexivity|].
      destruct (seqb (red j i j) s0) eqn:EZ; [left; apply Heq in EZ; apply SUB0; rewrite E', EZ; reflexivity|].
      right; right. destruct (Z.lt_ge_cases (zlen (znth [] (fa_L F) j)) lfil) as [HL|HL]; [|lia]. exfalso. apply C. apply K4; auto; [lia|].
      intros C'. apply Heq in C'. congruence.
  - intros i Hi HM. rewrite EDI by exact Hi. destruct (Hd i Hi) as (_ & Ed & _). fold red in Ed. cbv zeta in Ed. rewrite Ed.
    rewrite (sum_ext (fun t => smul (unit_lower_c (fa_L F) (fa_Lv F) i t) (upper_r (fa_U F) (fa_Uv F) t i)) (fun m => smul (smul (red m m i) (red m i m)) (sdiv s1 (d m)))); [ring|].
    intros t Ht. destruct (HM t Ht) as (H1 & H2).
    pose proof (EUP t i ltac:(lia) ltac:(lia)) as E1. pose proof (ELO i t ltac:(lia) ltac:(lia)) as E2. rewrite H1 in E2. rewrite H2 in E1.
    assert (E1' : upper_r (fa_U F) (fa_Uv F) t i = red t t i) by (apply SUB0; rewrite <- E1; ring).
    assert (E2' : smul (unit_lower_c (fa_L F) (fa_Lv F) i t) (d t) = red t i t) by (apply SUB0; rewrite <- E2; ring).
    rewrite E1', <- E2'. set (lit := unit_lower_c _ _ i t). transitivity (smul (smul (red t t i) lit) (smul (d t) (sdiv s1 (d t)))); [rewrite (inv_mul RT FD) by (apply Hd0; lia); ring|ring].
  - intros b Hb. split.
    + apply wp_inv. apply (psolve_iluc_wp n F d Hn0 Z1 Z2 Z3 Z4 Z5 HR HDD b Hb).
    + intros HC. apply wp_inv. apply (psolveh_iluc_wp n F d Hn0 Z1 Z2 Z3 Z4 Z5 HR HDD HC b Hb).
Qed.
End P.
