(** The diagonal update and the dropping step of the Crout factorisation. *)
Require Import ZArith List Bool Lia Ring Permutation.
From Verif Require BlkProof.
From Verif Require Import Base Scalar Spec SpecIlu Sort SortProof ConvFinal Csc Split Ilu IluProof IluProof2 Ilut IlutRow SainvMath SainvStep Iluc IlucLists IlucAcc.
Import ListNotations.
Open Scope Z_scope.

Lemma zlen_snoc {X} (l : list X) a : zlen (l ++ [a]) = zlen l + 1.
Proof. unfold zlen. rewrite app_length. cbn. lia. Qed.

(** a for loop over the positions of a list *)
Lemma for_cols {X} (cols : list Z) (I : list Z -> X -> Prop) (body : Z -> X -> res X) (x : X) (Q : X -> Prop) :
  (forall l1 j l2 x, cols = l1 ++ j :: l2 -> znth 0 cols (zlen l1) = j -> 0 <= zlen l1 < zlen cols -> I l1 x -> wp (body (zlen l1) x) (I (l1 ++ [j]))) ->
  I [] x -> (forall x, I cols x -> Q x) -> wp (for_ 0 (zlen cols) body x) Q.
Proof.
  intros HB H0 HQ. apply (for_wp' (fun p x => exists l1 l2, cols = l1 ++ l2 /\ zlen l1 = p /\ I l1 x)).
  - apply zlen_nonneg.
  - exists [], cols. auto.
  - intros p y Hp (l1 & l2 & E & Hl & HI). destruct l2 as [|j l2]; [rewrite E, app_nil_r in Hp; lia|].
    rewrite <- Hl. eapply wp_mono; [apply (HB l1 j l2 y E)|].
    + rewrite E. rewrite znth_app by (apply zlen_nonneg). rewrite (proj2 (Z.ltb_ge _ _)) by lia. rewrite Z.sub_diag. reflexivity.
    + lia.
    + exact HI.
    + intros y' HI'. exists (l1 ++ [j]), l2. split; [rewrite <- app_assoc; exact E|]. split; [apply zlen_snoc|exact HI'].
  - intros y (l1 & l2 & E & Hl & HI). apply HQ. assert (l2 = []). { destruct l2; [reflexivity|]. rewrite E in Hl. unfold zlen in Hl. rewrite app_length in Hl. cbn in Hl. lia. }
    subst l2. rewrite app_nil_r in E. rewrite E. exact HI.
Qed.

Section P.
Context {T : Type} {S : Scalar T}.
Hypothesis RT : is_ring S.
Let RT' : @ring_theory T s0 s1 sadd smul ssub sopp (@eq T) := RT.
Add Ring TrIlucD : RT'.
Notation wrow := (wrow (T:=T)).

Lemma wdiag_wp n k tol D fz fw cz cw (z w : wrow) : 0 <= k < n -> zlen D = n -> acc n k fz cz z -> acc n k fw cw w ->
  wp (wdiag k tol D z w) (fun r => let '(toldd, t, D') := r in
    toldd = smul (sabs (znth s0 D k)) tol /\ t = sdiv s1 (znth s0 D k) /\ zlen D' = n /\ znth s0 D' k = t /\
    (forall j, 0 <= j < k -> znth s0 D' j = znth s0 D j) /\
    (forall j, k < j < n -> znth s0 D' j = ssub (znth s0 D j) (smul (smul (fz j) (fw j)) t))).
Proof.
  intros Hk LD HZ HW. unfold wdiag. wrd s0; [lia|]. wwr; [lia|]. set (t := sdiv s1 (znth s0 D k)). set (D0 := zupd D k t).
  assert (LD0 : zlen D0 = n) by (unfold D0; rewrite zlen_zupd; exact LD).
  assert (G : forall fa fb ca cb (a b : wrow), acc n k fa ca a -> acc n k fb cb b -> (forall j, smul (fa j) (fb j) = smul (fz j) (fw j)) ->
    (forall j, In j ca -> ~ In j cb -> smul (fa j) (fb j) = s0) -> (forall j, In j ca -> In j cb -> In j cz /\ In j cw) ->
    wp (for_ 0 (w_n a) (fun j D => jj <- rd (w_ix a) j ;; m <- rd (w_c b) jj ;;
      if m =? 0 then Ok D else d <- rd D jj ;; zj <- rd (w_v z) jj ;; wj <- rd (w_v w) jj ;; wr D jj (ssub d (smul (smul zj wj) t))) D0)
     (fun D' => zlen D' = n /\ znth s0 D' k = t /\ (forall j, 0 <= j < k -> znth s0 D' j = znth s0 D j) /\
        (forall j, k < j < n -> znth s0 D' j = ssub (znth s0 D j) (smul (smul (fz j) (fw j)) t)))).
  { intros fa fb ca cb a b HA HB HF H0 HC. destruct HA as (A1 & A2 & A3 & A4 & A5 & A6 & A7 & A8 & A9). destruct HB as (B1 & B2 & B3 & B4 & B5 & B6 & B7 & B8 & B9).
    destruct HZ as (Z1 & Z2 & Z3 & Z4 & Z5 & Z6 & Z7 & Z8 & Z9). destruct HW as (W1 & W2 & W3 & W4 & W5 & W6 & W7 & W8 & W9).
    rewrite A4. apply (for_cols ca (fun l1 D' => zlen D' = n /\ znth s0 D' k = t /\ (forall j, 0 <= j < k -> znth s0 D' j = znth s0 D j) /\
        (forall j, k < j < n -> znth s0 D' j = if in_dec Z.eq_dec j l1 then ssub (znth s0 D j) (smul (smul (fz j) (fw j)) t) else znth s0 D j))).
    - intros l1 jj l2 D1 E Ejj Hp (I1 & I2 & I3 & I4).
      assert (Hin : In jj ca) by (rewrite E; apply in_or_app; right; left; reflexivity). pose proof (A7 jj Hin) as Hj.
      assert (Hnl : ~ In jj l1). { rewrite E in A6. apply NoDup_remove_2 in A6. intros C. apply A6. apply in_or_app. left. exact C. }
      assert (HL : zlen l1 < n). { pose proof (acc_bound n k fa ca a (conj A1 (conj A2 (conj A3 (conj A4 (conj A5 (conj A6 (conj A7 (conj A8 A9)))))))) Hk). lia. }
      wrd 0; [lia|]. rewrite A5, Ejj by lia. wrd 0; [lia|].
      destruct (in_dec Z.eq_dec jj cb) as [Hb|Hb].
      + destruct (B8 jj Hb) as (M & _). rewrite M. cbn [Z.eqb]. wrd s0; [lia|]. wrd s0; [lia|]. wrd s0; [lia|]. wwr; [lia|].
        destruct (HC jj Hin Hb) as (C1 & C2). destruct (Z8 jj C1) as (_ & ->). destruct (W8 jj C2) as (_ & ->). rewrite zlen_zupd. split; [exact I1|].
        split; [rewrite znth_zupd_neq by lia; exact I2|]. split; [intros j Hj'; rewrite znth_zupd_neq by lia; apply I3; exact Hj'|].
        intros j Hj'. destruct (Z.eq_dec j jj) as [->|N].
        * rewrite znth_zupd_eq by lia. rewrite I4 by lia. destruct (in_dec Z.eq_dec jj l1); [contradiction|]. destruct (in_dec Z.eq_dec jj (l1 ++ [jj])) as [_|C]; [reflexivity|].
          exfalso. apply C. apply in_or_app. right. left. reflexivity.
        * rewrite znth_zupd_neq by lia. rewrite I4 by lia. destruct (in_dec Z.eq_dec j l1) as [C1'|C1']; destruct (in_dec Z.eq_dec j (l1 ++ [jj])) as [C2'|C2']; try reflexivity; exfalso.
          -- apply C2'. apply in_or_app. left. exact C1'.
          -- apply in_app_or in C2'. destruct C2' as [C|[C|[]]]; [contradiction|congruence].
      + destruct (B9 jj Hj Hb) as (M & _). rewrite M. cbn [Z.eqb]. apply wp_ok. split; [exact I1|]. split; [exact I2|]. split; [exact I3|].
        intros j Hj'. rewrite I4 by lia. destruct (Z.eq_dec j jj) as [->|N].
        * destruct (in_dec Z.eq_dec jj l1); [contradiction|]. destruct (in_dec Z.eq_dec jj (l1 ++ [jj])); [|reflexivity].
          rewrite <- HF. rewrite (H0 jj Hin Hb). ring.
        * destruct (in_dec Z.eq_dec j l1) as [C1'|C1']; destruct (in_dec Z.eq_dec j (l1 ++ [jj])) as [C2'|C2']; try reflexivity; exfalso.
          -- apply C2'. apply in_or_app. left. exact C1'.
          -- apply in_app_or in C2'. destruct C2' as [C|[C|[]]]; [contradiction|congruence].
    - split; [exact LD0|]. unfold D0. split; [apply znth_zupd_eq; lia|]. split; intros j Hj; [|cbn [in_dec]]; apply znth_zupd_neq; lia.
    - intros D1 (I1 & I2 & I3 & I4). split; [exact I1|]. split; [exact I2|]. split; [exact I3|]. intros j Hj. rewrite I4 by exact Hj.
      destruct (in_dec Z.eq_dec j ca) as [C|C]; [reflexivity|]. destruct (A9 j Hj C) as (_ & E). rewrite <- HF, E. ring. }
  pose proof HZ as HZ'. pose proof HW as HW'. destruct HZ' as (Z1 & Z2 & Z3 & Z4 & Z5 & Z6 & Z7 & Z8 & Z9). destruct HW' as (W1 & W2 & W3 & W4 & W5 & W6 & W7 & W8 & W9).
  wbind. destruct (w_n z <? w_n w).
  - eapply wp_mono; [apply (G fz fw cz cw z w HZ HW)|].
    + reflexivity.
    + intros j Hj Hn. destruct (W9 j (Z7 j Hj) Hn) as (_ & ->). ring.
    + auto.
    + intros D' H. apply wp_ok. split; [reflexivity|]. split; [reflexivity|]. exact H.
  - eapply wp_mono; [apply (G fw fz cw cz w z HW HZ)|].
    + intros j. ring.
    + intros j Hj Hn. destruct (Z9 j (W7 j Hj) Hn) as (_ & ->). ring.
    + auto.
    + intros D' H. apply wp_ok. split; [reflexivity|]. split; [reflexivity|]. exact H.
Qed.

Hypothesis Hswo : strict_weak_order (sltb (T:=T)).
Definition big (toldd : T) (f : Z -> T) (c : Z) : bool := sltb toldd (sabs (f c)).

(** the stored row (ix,v): rising, part of the large entries, all of them when there are at most lfil *)
Definition stored (lfil : Z) (toldd : T) (f : Z -> T) (g : T -> T) (cols ix : list Z) (v : list T) : Prop :=
  rising ix /\ v = map (fun c => g (f c)) ix /\ zlen ix = Z.min lfil (zlen (filter (big toldd f) cols)) /\
  (forall c, In c ix -> In c cols /\ big toldd f c = true) /\
  (zlen ix < lfil -> forall c, In c cols -> big toldd f c = true -> In c ix).

Lemma wdrop_wp lump n k lfil toldd g f cols (s : wrow) tmp : 0 <= k < n -> 0 <= lfil -> acc n k f cols s -> zlen tmp = n ->
  wp (wdrop lump k lfil toldd g s tmp) (fun r => let '(s', tmp', rx, rv) := r in
    zlen tmp' = n /\ zlen (w_v s') = n /\ zlen (w_ix s') = n /\ zlen (w_c s') = n /\ zlen rx <= w_n s' <= n /\ stored lfil toldd f g cols rx rv /\
    (forall p, 0 <= p < zlen rx -> znth 0 (w_ix s') p = znth 0 rx p) /\ (forall p, 0 <= p < w_n s' -> k < znth 0 (w_ix s') p < n) /\
    same_low k s s' /\ (forall c, k < c < n -> znth 0 (w_c s') c = 0 \/ exists p, 0 <= p < w_n s' /\ znth 0 (w_ix s') p = c)).
Proof.
  intros Hk Hlf HA Ltmp. pose proof (acc_bound _ _ _ _ _ HA Hk) as HBd. destruct HA as (A1 & A2 & A3 & A4 & A5 & A6 & A7 & A8 & A9).
  unfold wdrop. rewrite A4. pose proof (zlen_nonneg cols) as HC0.
  assert (FL : forall l, zlen (filter (big toldd f) l) <= zlen l). { intros l. unfold zlen. induction l as [|a l IH]; cbn; [lia|]. destruct (big toldd f a); cbn; lia. }
  wbind. apply (for_cols cols (fun l1 q => let '(v, ix, c, nnz) := q in
    zlen v = n /\ zlen ix = n /\ zlen c = n /\ nnz = zlen (filter (big toldd f) l1) /\
    (forall j, 0 <= j < n -> j <> k -> znth s0 v j = znth s0 (w_v s) j) /\
    (forall p, 0 <= p < nnz -> znth 0 ix p = znth 0 (filter (big toldd f) l1) p) /\
    (forall p, zlen l1 <= p < n -> znth 0 ix p = znth 0 (w_ix s) p) /\
    (forall p, 0 <= p < zlen cols -> k < znth 0 ix p < n) /\
    (forall i, 0 <= i <= k -> znth 0 c i = znth 0 (w_c s) i) /\
    (forall i, k < i < n -> znth 0 c i = 0 \/ (In i cols /\ (In i l1 -> big toldd f i = true))))).
  - intros l1 jj l2 [[[v ix] c] nnz] E Ejj Hp (I1 & I2 & I3 & I4 & I5 & I6 & I7 & I8 & I9 & I10).
    assert (Hin : In jj cols) by (rewrite E; apply in_or_app; right; left; reflexivity). pose proof (A7 jj Hin) as Hj.
    assert (Hnl : ~ In jj l1). { rewrite E in A6. apply NoDup_remove_2 in A6. intros C. apply A6. apply in_or_app. left. exact C. }
    pose proof (FL l1) as FL1. pose proof (zlen_nonneg (filter (big toldd f) l1)) as F0.
    wrd 0; [lia|]. rewrite I7, A5, Ejj by lia. wrd s0; [lia|]. rewrite I5 by lia. destruct (A8 jj Hin) as (M & V). rewrite V.
    assert (FS : filter (big toldd f) (l1 ++ [jj]) = filter (big toldd f) l1 ++ (if sltb toldd (sabs (f jj)) then [jj] else [])).
    { rewrite filter_app. reflexivity. }
    destruct (sltb toldd (sabs (f jj))) eqn:EB.
    + wwr; [lia|]. apply wp_ok. rewrite FS, !zlen_snoc, zlen_zupd. do 3 (split; [assumption|]). split; [lia|]. split; [exact I5|]. split; [|split; [|split; [|split]]].
      * intros p Hp'. rewrite znth_app by lia. destruct (Z.ltb_spec p (zlen (filter (big toldd f) l1))).
        -- rewrite znth_zupd_neq by lia. apply I6. lia.
        -- assert (p = nnz) by lia. subst p. rewrite znth_zupd_eq by lia. rewrite I4, Z.sub_diag. reflexivity.
      * intros p Hp'. rewrite znth_zupd_neq by lia. apply I7. lia.
      * intros p Hp'. destruct (Z.eq_dec p nnz) as [->|N]; [rewrite znth_zupd_eq by lia; exact Hj|rewrite znth_zupd_neq by lia; apply I8; exact Hp'].
      * exact I9.
      * intros i Hi. destruct (I10 i Hi) as [H|(H1 & H2)]; [left; exact H|]. right. split; [exact H1|]. intros C. apply in_app_or in C. destruct C as [C|[C|[]]]; [auto|subst i; exact EB].
    + assert (GV : forall m, wp m (fun v' => zlen v' = n /\ forall j, 0 <= j < n -> j <> k -> znth s0 v' j = znth s0 (w_v s) j) ->
        wp (v <- m ;; c <- wr c jj 0 ;; Ok (v, ix, c, nnz)) (fun q => let '(v, ix, c, nnz) := q in
    zlen v = n /\ zlen ix = n /\ zlen c = n /\ nnz = zlen (filter (big toldd f) (l1 ++ [jj])) /\
    (forall j, 0 <= j < n -> j <> k -> znth s0 v j = znth s0 (w_v s) j) /\
    (forall p, 0 <= p < nnz -> znth 0 ix p = znth 0 (filter (big toldd f) (l1 ++ [jj])) p) /\
    (forall p, zlen (l1 ++ [jj]) <= p < n -> znth 0 ix p = znth 0 (w_ix s) p) /\
    (forall p, 0 <= p < zlen cols -> k < znth 0 ix p < n) /\
    (forall i, 0 <= i <= k -> znth 0 c i = znth 0 (w_c s) i) /\
    (forall i, k < i < n -> znth 0 c i = 0 \/ (In i cols /\ (In i (l1 ++ [jj]) -> big toldd f i = true))))).
      { intros m Hm. apply wp_bind. eapply wp_mono; [exact Hm|]. intros v' (V1 & V2). wwr; [lia|]. apply wp_ok. rewrite FS, app_nil_r, zlen_snoc, zlen_zupd.
        do 4 (split; [assumption|]). split; [exact V2|]. split; [exact I6|]. split; [intros p Hp'; apply I7; lia|]. split; [exact I8|]. split.
        - intros i Hi. rewrite znth_zupd_neq by lia. apply I9; exact Hi.
        - intros i Hi. destruct (Z.eq_dec i jj) as [->|N]; [left; apply znth_zupd_eq; lia|]. rewrite znth_zupd_neq by lia.
          destruct (I10 i Hi) as [H|(H1 & H2)]; [left; exact H|]. right. split; [exact H1|]. intros C. apply in_app_or in C. destruct C as [C|[C|[]]]; [auto|congruence]. }
      apply GV. destruct lump.
      * wrd s0; [lia|]. wwr; [lia|]. rewrite zlen_zupd. split; [exact I1|]. intros j Hj1 Hj2. rewrite znth_zupd_neq by lia. apply I5; assumption.
      * apply wp_ok. split; assumption.
  - do 3 (split; [assumption|]). split; [reflexivity|]. split; [reflexivity|]. split; [intros p Hp; cbn in Hp; unfold zlen in Hp; cbn in Hp; lia|]. split; [reflexivity|]. split.
    + intros p Hp. rewrite A5 by exact Hp. apply A7. apply znth_In. exact Hp.
    + split; [reflexivity|]. intros i Hi. destruct (in_dec Z.eq_dec i cols) as [C|C]; [right; split; [exact C|intros []]|left; apply A9; assumption].
  - intros [[[v ix] c] nnz] (I1 & I2 & I3 & I4 & I5 & I6 & _ & I8 & I9 & I10). cbv zeta.
    pose proof (FL cols) as FL1. set (B := filter (big toldd f) cols) in *. pose proof (zlen_nonneg B) as B0.
    set (len := Z.min lfil nnz).
    wbind. apply (for_wp' (fun j tmp' => zlen tmp' = n)); [lia|exact Ltmp| |].
    { intros j tmp' Hj L'. wrd s0; [lia|]. wwr; [lia|]. rewrite zlen_zupd. exact L'. }
    intros tmp1 L1. wbind. unfold lis_sort_di. destruct Hswo as (W1 & W2 & W3). apply (quick1_wp 0 (sltb (T:=T)) s0); auto; [lia|lia|lia|].
    intros tmp2 ix2 B1 (C1 & C2 & C3 & _). replace (nnz - 1 + 1) with nnz in C2 by lia. cbn beta iota.
    wbind. apply lis_sort_i_wp; [lia|lia|]. intros ix3 (D1 & D2 & D3 & D4). replace (len - 1 + 1) with len in D2 by lia.
    assert (Hlen : 0 <= len <= nnz) by lia.
    assert (D2' : Permutation (map (znth 0 ix3) (zrange 0 len)) (map (znth 0 ix2) (zrange 0 len))).
    { apply (Permutation_map fst) in D2. rewrite !map_map in D2. cbn [fst] in D2. exact D2. }
    assert (P1 : Permutation (map (znth 0 ix2) (zrange 0 nnz)) B).
    { apply (Permutation_map snd) in C2. rewrite !map_map in C2. cbn [snd] in C2. etransitivity; [exact C2|]. rewrite (list_table 0 B). rewrite <- I4.
      rewrite (map_ext_in (znth 0 ix) (znth 0 B)); [reflexivity|]. intros q Hq. apply In_zrange in Hq. apply I6. exact Hq. }
    assert (P2 : Permutation (map (znth 0 ix3) (zrange 0 nnz)) B).
    { etransitivity; [|exact P1]. rewrite !(zrange_app 0 len nnz) by lia. rewrite !map_app. apply Permutation_app; [exact D2'|].
      rewrite (map_ext_in (znth 0 ix3) (znth 0 ix2)); [reflexivity|]. intros q Hq. apply In_zrange in Hq. apply D3; lia. }
    assert (HB : forall q, 0 <= q < nnz -> In (znth 0 ix3 q) B).
    { intros q Hq. eapply Permutation_in; [exact P2|]. apply in_map. apply In_zrange. exact Hq. }
    assert (HBc : forall q, In q B -> In q cols /\ big toldd f q = true) by (intros q Hq; apply filter_In in Hq; exact Hq).
    assert (NB : NoDup (map (znth 0 ix3) (zrange 0 nnz))). { eapply Permutation_NoDup; [symmetry; exact P2|]. apply NoDup_filter. exact A6. }
    assert (RNG : forall p, 0 <= p < zlen cols -> k < znth 0 ix3 p < n).
    { intros p Hp. destruct (Z.lt_ge_cases p nnz) as [H|H]; [apply A7; apply HBc; apply HB; lia|].
      destruct (D3 p ltac:(lia) ltac:(lia)) as (-> & _). destruct (C3 p ltac:(lia) ltac:(lia)) as (_ & ->). apply I8. exact Hp. }
    wbind. apply (for_wp' (fun j p => fst p = map (znth 0 ix3) (zrange 0 j) /\ snd p = map (fun q => g (f (znth 0 ix3 q))) (zrange 0 j))).
    { lia. }
    { cbn [fst snd]. rewrite zrange_empty by lia. auto. }
    { intros j [rx rv] Hj. cbn [fst snd]. intros [-> ->]. pose proof (HB j ltac:(lia)) as Hb. apply HBc in Hb. destruct Hb as (Hb & _). pose proof (A7 _ Hb) as Hr.
      wrd 0; [lia|]. wrd s0; [lia|]. apply wp_ok. cbn [fst snd]. rewrite !zrange_snoc, !map_app by lia. rewrite I5 by lia. destruct (A8 _ Hb) as (_ & ->). auto. }
    intros [rx rv]. cbn [fst snd]. intros [-> ->]. wbind.
    apply (for_wp' (fun j c' => zlen c' = n /\ (forall i, 0 <= i <= k -> znth 0 c' i = znth 0 (w_c s) i) /\
       (forall i, k < i < n -> znth 0 c' i = 0 \/ (In i cols /\ (In i cols -> big toldd f i = true))))).
    { lia. }
    { auto. }
    { intros j c' Hj (E1 & E2 & E3). pose proof (RNG j ltac:(lia)) as Hr. wrd 0; [lia|]. wwr; [lia|]. rewrite zlen_zupd. split; [exact E1|]. split.
      - intros i Hi. rewrite znth_zupd_neq by lia. apply E2; exact Hi.
      - intros i Hi. destruct (Z.eq_dec i (znth 0 ix3 j)) as [->|N]; [left; apply znth_zupd_eq; lia|rewrite znth_zupd_neq by lia; apply E3; exact Hi]. }
    intros c' (E1 & E2 & E3). apply wp_ok. cbn [w_v w_ix w_c w_n].
    assert (ZR : zlen (map (znth 0 ix3) (zrange 0 len)) = len) by (rewrite zlen_map, zlen_zrange; lia).
    rewrite ZR. split; [lia|]. split; [exact I1|]. split; [lia|]. split; [exact E1|]. split; [lia|]. split; [|split; [|split; [|split]]].
    + unfold stored. rewrite ZR. split; [|split; [|split; [|split]]].
      * intros a b Ha Hb. rewrite ZR in Hb. rewrite !znth_map_range by lia.
        assert (Hne : znth 0 ix3 a <> znth 0 ix3 b).
        { pose proof (NoDup_znth_neq _ a b NB ltac:(lia)) as H. rewrite zlen_map, zlen_zrange in H. specialize (H ltac:(lia)). rewrite !znth_map_range in H by lia. exact H. }
        specialize (D4 a b ltac:(lia) ltac:(lia)). apply Z.ltb_ge in D4. lia.
      * rewrite map_map. reflexivity.
      * fold B. rewrite <- I4. reflexivity.
      * intros q Hq. apply in_map_iff in Hq as (p & <- & Hp). apply In_zrange in Hp. apply HBc. apply HB. lia.
      * intros Hl q Hq Hb. assert (El : len = nnz) by lia. rewrite El. eapply Permutation_in; [symmetry; exact P2|]. apply filter_In. auto.
    + intros p Hp. rewrite znth_map_range by lia. reflexivity.
    + intros p Hp. apply RNG. lia.
    + exact E2.
    + intros i Hi. destruct (E3 i Hi) as [H|(H1 & H2)]; [left; exact H|]. right.
      assert (HI : In i (map (znth 0 ix3) (zrange 0 nnz))). { eapply Permutation_in; [symmetry; exact P2|]. apply filter_In. auto. }
      apply in_map_iff in HI as (p & E & Hp). apply In_zrange in Hp. exists p. auto.
Qed.
End P.
