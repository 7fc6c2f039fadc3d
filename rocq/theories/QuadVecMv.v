(** Loops of the quad matrix-vector products. *)
From Coq Require Import ZArith Reals Lra Lia Psatz Bool List Permutation.
From Flocq Require Import Core BinarySingleNaN.
From Verif Require Import Base System SystemProof Quad SpecQuad QuadB64 QuadFinal QuadVec QuadVecOp QuadVecSum QuadVecProof SpecQuadVec.
Import ListNotations.
Open Scope Z_scope.

Definition accl (s : nat) (l : list R) (q : Qd) : Prop := acc epsp (length l + s) l q.
Lemma epsp_pos : (0 <= epsp)%R. Proof. apply bpow_ge_0. Qed.
Lemma accl_step : forall s l (r a : Qd) m, accum epsp r a m -> accl s l a -> accl s (l ++ [m]) r.
Proof.
  intros s l r a m A H. unfold accl. rewrite app_length. cbn [length]. replace (length l + 1 + s)%nat with (Datatypes.S (length l + s)) by lia.
  apply (acc_step epsp _ _ _ _ _ epsp_pos A H).
Qed.
Lemma accl_perm : forall s l m q, Permutation l m -> accl s l q -> accl s m q.
Proof. intros s l m q P H. unfold accl. rewrite <- (Permutation_length P). eapply acc_perm; eauto. Qed.
Lemma accl_add : forall s s' l l' (a b : Qd), accl s l a -> accl s' l' b -> accl (s + s' + 1) (l ++ l') (quad_add_fast a b).
Proof.
  intros s s' l l' a b A B. unfold accl. rewrite app_length.
  eapply acc_mono; [apply epsp_pos| |apply (acc_add epsp _ _ _ _ _ _ epsp_pos A B)]. lia.
Qed.
Lemma accl_mono : forall s s' l q, (s <= s')%nat -> accl s l q -> accl s' l q.
Proof. intros. eapply acc_mono; [apply epsp_pos| |eassumption]. lia. Qed.
Lemma accl_zero : accl 0 [] qz. Proof. apply acc_zero. Qed.
Lemma accl_prod : forall p m, isprod p m -> accl 0 [m] p.
Proof. intros. apply acc_of_prod. auto. Qed.

Section MV.
Variable g : qcfg.
Hypothesis G : q_fast_add g = true.
Hypothesis NF : no_fma g.

Definition term (index : list Z) (value : list b64) (x : list Qd) (j : Z) : R :=
  (val (qn x (znth 0%Z index j)) * real (znth f0 value j))%R.
Definition bnds (index : list Z) (value : list b64) (x : list Qd) (hi : Z) : Prop :=
  hi <= zlen index /\ hi <= zlen value /\
  forall j, 0 <= j < hi -> 0 <= znth 0 index j < zlen x /\ normal (qn x (znth 0 index j)).

Lemma row_mp_ok : forall index value x is ie s l (yi : Qd), 0 <= is <= ie -> bnds index value x ie -> accl s l yi ->
  wp (row_mp g index value x is ie yi) (accl s (l ++ map (term index value x) (zrange is ie))).
Proof.
  intros index value x is ie s l yi H (Li & Lv & B) Hy. unfold row_mp.
  apply (for_wp' (fun j a => accl s (l ++ map (term index value x) (zrange is j)) a)); try lia.
  - rewrite zrange_empty by lia. cbn [map]. now rewrite app_nil_r.
  - intros j a Hj Ha. destruct (B j) as [B1 B2]; [lia|]. wrd 0; [lia|]. wrd (f0:b64,f0:b64); [lia|]. wrd (f0:b64); [lia|]. cbn [wp].
    rewrite snoc_map by lia. rewrite app_assoc. eapply accl_step; [|exact Ha]. apply m_fmad_ok; auto.
  - auto.
Qed.
Lemma row_pairs_ok : forall index value x is ie s0 s1 l0 l1 (a : Qd * Qd), 0 <= is <= ie -> bnds index value x ie ->
  accl s0 l0 (fst a) -> accl s1 l1 (snd a) ->
  wp (row_pairs g index value x is ie a) (fun p => is <= fst p <= ie /\ exists l0' l1', accl s0 l0' (fst (snd p)) /\ accl s1 l1' (snd (snd p)) /\
     Permutation (l0' ++ l1') ((l0 ++ l1) ++ map (term index value x) (zrange is (fst p)))).
Proof.
  intros index value x is ie s0 s1 l0 l1 a H (Li & Lv & B) H0 H1. unfold row_pairs.
  apply (pairs_wp (fun j (a : Qd * Qd) => exists l0' l1', accl s0 l0' (fst a) /\ accl s1 l1' (snd a) /\
     Permutation (l0' ++ l1') ((l0 ++ l1) ++ map (term index value x) (zrange is j)))); try lia.
  - exists l0, l1. rewrite zrange_empty by lia. cbn [map]. rewrite app_nil_r. auto.
  - intros j t Hj Hj' (m0 & m1 & A0 & A1 & P). destruct (B j) as [B1 B2]; [lia|]. destruct (B (j + 1)) as [B3 B4]; [lia|].
    wrd 0; [lia|]. wrd 0; [lia|]. do 2 (wrd (f0:b64,f0:b64); [lia|]). do 2 (wrd (f0:b64); [lia|]). cbn [wp].
    destruct (fmad2_ok g G (fst t) (snd t) (qn x (znth 0 index j)) (qn x (znth 0 index (j + 1))) (znth f0 value j) (znth f0 value (j + 1)) B2 B4) as [C0 C1].
    destruct (fmad2 g _ _ _ _ _ _) as [r0 r1]. cbn [fst snd] in *.
    exists (m0 ++ [term index value x j]), (m1 ++ [term index value x (j + 1)]).
    split; [eapply accl_step; eauto|]. split; [eapply accl_step; eauto|].
    replace (j + 2) with (j + 1 + 1) by lia. rewrite !snoc_map by lia.
    rewrite <- (app_assoc (map (term index value x) (zrange is j))). rewrite (app_assoc (l0 ++ l1)). now apply perm_two.
  - intros i t Hi Hi' HI. cbn [fst snd]. auto.
Qed.

Lemma aok_row : forall n m ptr index value, arrays_ok n m ptr index value -> forall i, 0 <= i < n ->
  0 <= znth 0 ptr i <= znth 0 ptr (i + 1) /\ znth 0 ptr (i + 1) <= znth 0 ptr n.
Proof.
  intros n m ptr index value (Hn & Lp & P0 & Pm & Li & Lv & B) i Hi.
  assert (M : forall k, 0 <= k -> i + k <= n -> znth 0 ptr i <= znth 0 ptr (i + k)).
  { apply (natlike_ind (fun k => i + k <= n -> znth 0 ptr i <= znth 0 ptr (i + k))).
    - intros _. rewrite Z.add_0_r. lia.
    - intros k Hk IH Hk'. specialize (Pm (i + k) ltac:(lia)). replace (i + Z.succ k) with (i + k + 1) by lia. lia. }
  assert (M0 : forall k, 0 <= k -> k <= i -> 0 <= znth 0 ptr k).
  { apply (natlike_ind (fun k => k <= i -> 0 <= znth 0 ptr k)); auto.
    intros k Hk IH Hk'. specialize (Pm k ltac:(lia)). replace (Z.succ k) with (k + 1) by lia. lia. }
  assert (M1 : forall k, 0 <= k -> i + 1 + k <= n -> znth 0 ptr (i + 1) <= znth 0 ptr (i + 1 + k)).
  { apply (natlike_ind (fun k => i + 1 + k <= n -> znth 0 ptr (i + 1) <= znth 0 ptr (i + 1 + k))).
    - intros _. rewrite Z.add_0_r. lia.
    - intros k Hk IH Hk'. specialize (Pm (i + 1 + k) ltac:(lia)). replace (i + 1 + Z.succ k) with (i + 1 + k + 1) by lia. lia. }
  pose proof (M0 i ltac:(lia) ltac:(lia)). pose proof (M 1 ltac:(lia) ltac:(lia)). pose proof (M1 (n - i - 1) ltac:(lia) ltac:(lia)).
  replace (i + 1 + (n - i - 1)) with n in * by lia. lia.
Qed.
Lemma aok_bnds : forall n m ptr index value x, arrays_ok n m ptr index value -> normal_upto m x -> forall i, 0 <= i < n ->
  bnds index value x (znth 0 ptr (i + 1)).
Proof.
  intros n m ptr index value x A [L N] i Hi. pose proof (aok_row _ _ _ _ _ A i Hi) as R. destruct A as (Hn & Lp & P0 & Pm & Li & Lv & B).
  split; [lia|]. split; [lia|]. intros j Hj. specialize (B j ltac:(lia)). split; [lia|]. apply (N (znth 0 index j)). lia.
Qed.

Definition rowterms (ptr index : list Z) (value : list b64) (x : list Qd) (i : Z) : list R :=
  map (term index value x) (zrange (znth 0 ptr i) (znth 0 ptr (i + 1))).

(** set all rows of y *)
Lemma rows_wp : forall (P : Z -> Qd -> Prop) n body (y0 : list Qd), 0 <= n <= zlen y0 ->
  (forall i y, 0 <= i < n -> zlen y = zlen y0 -> wp (body i y) (fun y' => exists q, y' = zupd y i q /\ P i q)) ->
  wp (for_ 0 n body y0) (fun y => zlen y = zlen y0 /\ (forall i, 0 <= i < n -> P i (qn y i)) /\ (forall i, n <= i -> qn y i = qn y0 i)).
Proof.
  intros P n body y0 Hn H.
  apply (for_wp' (fun i y => zlen y = zlen y0 /\ (forall j, 0 <= j < i -> P j (qn y j)) /\ (forall j, i <= j -> qn y j = qn y0 j))); try lia.
  - repeat split; auto; intros; lia.
  - intros i y Hi (L & A & B). eapply wp_mono; [apply H; auto|]. intros y' (q & -> & Pq). repeat split.
    + len.
    + intros j Hj. updcase; [subst; auto|]. apply A. lia.
    + intros j Hj. updcase; [lia|]. apply B. lia.
  - auto.
Qed.
Lemma rows_mp_ok : forall n m ptr index value (x y : list Qd), arrays_ok n m ptr index value -> normal_upto m x -> n <= zlen y ->
  wp (rows_mp g n ptr index value x y) (fun y' => zlen y' = zlen y /\
    (forall i, 0 <= i < n -> accl 1 (rowterms ptr index value x i) (qn y' i)) /\ (forall i, n <= i -> qn y' i = qn y i)).
Proof.
  intros n m ptr index value x y A N L. unfold rows_mp. pose proof A as (Hn & Lp & _).
  apply (rows_wp (fun i q => accl 1 (rowterms ptr index value x i) q)); [lia|].
  intros i t Hi Lt. pose proof (aok_row _ _ _ _ _ A i Hi) as R. pose proof (aok_bnds _ _ _ _ _ _ A N i Hi) as B.
  do 2 (wrd 0; [lia|]). destruct (q_sse2 g).
  - wbind. eapply wp_mono; [apply (row_pairs_ok index value x _ _ 0 0 [] [] (qz, qz)); auto using accl_zero; lia|].
    intros p (Hp & l0 & l1 & A0 & A1 & P). cbn zeta. wbind. eapply wp_mono; [apply (row_mp_ok index value x _ _ 1 (l0 ++ l1)); auto; try lia|].
    + rewrite m_add_eq by auto. apply (accl_add 0 0); auto.
    + intros q Hq. wwr; [lia|]. exists q. split; auto. eapply accl_perm; [|exact Hq].
      unfold rowterms. rewrite (zrange_app (znth 0 ptr i) (fst p) (znth 0 ptr (i + 1))) by lia. rewrite map_app.
      apply Permutation_app_tail. exact P.
  - wbind. eapply wp_mono; [apply (row_mp_ok index value x _ _ 0 []); auto using accl_zero; lia|].
    intros q Hq. wwr; [lia|]. exists q. split; auto. eapply accl_mono; [|exact Hq]. lia.
Qed.

Lemma perm_split : forall (d : R) (L0 L1 U0 U1 a b c e : list R),
  Permutation (a ++ b) L0 -> Permutation (c ++ e) ((a ++ b) ++ U0) ->
  Permutation ((((d :: L1) ++ U1) ++ c) ++ e) (d :: (L0 ++ L1) ++ (U0 ++ U1)).
Proof.
  intros d L0 L1 U0 U1 a b c e P Q. cbn [app]. apply perm_skip. rewrite <- app_assoc. rewrite Q, P.
  rewrite <- !app_assoc. 
  rewrite (Permutation_app_comm L1). rewrite <- !app_assoc. 
  rewrite (Permutation_app_comm U1). rewrite <- !app_assoc. 
  apply Permutation_app_head. rewrite app_assoc. rewrite (Permutation_app_comm (U0 ++ L1)).
  rewrite (app_assoc U1). rewrite (Permutation_app_comm _ L1). apply Permutation_app_head. apply Permutation_app_comm.
Qed.
Lemma rows_split_mp_ok : forall n m (d : list b64) lp li lv up ui uv (x y : list Qd),
  arrays_ok n m lp li lv -> arrays_ok n m up ui uv -> n <= zlen d -> n <= m -> normal_upto m x -> n <= zlen y ->
  wp (rows_split_mp g n d lp li lv up ui uv x y) (fun y' => zlen y' = zlen y /\
    (forall i, 0 <= i < n -> accl 2 ((val (qn x i) * real (znth f0 d i))%R :: rowterms lp li lv x i ++ rowterms up ui uv x i) (qn y' i)) /\
    (forall i, n <= i -> qn y' i = qn y i)).
Proof.
  intros n m d lp li lv up ui uv x y A A' Ld Lm N L. unfold rows_split_mp. pose proof A as (Hn & Lp & _).
  pose proof A' as (_ & Lp' & _).
  apply (rows_wp (fun i q => accl 2 ((val (qn x i) * real (znth f0 d i))%R :: rowterms lp li lv x i ++ rowterms up ui uv x i) q)); [lia|].
  intros i t Hi Lt. pose proof (aok_row _ _ _ _ _ A i Hi) as R. pose proof (aok_bnds _ _ _ _ _ _ A N i Hi) as B.
  pose proof (aok_row _ _ _ _ _ A' i Hi) as R'. pose proof (aok_bnds _ _ _ _ _ _ A' N i Hi) as B'.
  destruct N as [Lx Nx]. wrd (f0:b64,f0:b64); [lia|]. wrd (f0:b64); [lia|]. cbn zeta.
  assert (P0 : accl 0 [(val (qn x i) * real (znth f0 d i))%R] (m_muld g (qn x i) (znth f0 d i))).
  { apply accl_prod. apply m_muld_prod; auto. apply (Nx i). lia. }
  do 4 (wrd 0; [lia|]). destruct (q_sse2 g).
  - wbind. eapply wp_mono; [apply (row_pairs_ok li lv x _ _ 0 0 [] [] (qz, qz)); auto using accl_zero; lia|].
    intros p (Hp & l0 & l1 & A0 & A1 & P). wbind. eapply wp_mono; [apply (row_mp_ok li lv x (fst p) (znth 0 lp (i + 1)) 0 _ _ ltac:(lia) B P0)|]. intros q Hq.
    wbind. eapply wp_mono; [apply (row_pairs_ok ui uv x (znth 0 up i) (znth 0 up (i + 1)) 0 0 _ _ (snd p) ltac:(lia) B' A0 A1)|].
    intros p' (Hp' & l0' & l1' & A0' & A1' & P'). wbind. eapply wp_mono; [apply (row_mp_ok ui uv x (fst p') (znth 0 up (i + 1)) 0 _ _ ltac:(lia) B' Hq)|]. intros q' Hq'.
    wwr; [lia|]. eexists. split; [reflexivity|]. rewrite !m_add_eq by auto.
    eapply accl_perm; [|apply (accl_add 1 0); [apply (accl_add 0 0); [exact Hq'|exact A0']|exact A1']].
    unfold rowterms. rewrite (zrange_app (znth 0 lp i) (fst p) (znth 0 lp (i + 1))) by lia.
    rewrite (zrange_app (znth 0 up i) (fst p') (znth 0 up (i + 1))) by lia. rewrite !map_app.
    apply (perm_split _ _ _ _ _ l0 l1); auto.
  - wbind. eapply wp_mono; [apply (row_mp_ok li lv x (znth 0 lp i) (znth 0 lp (i + 1)) 0 _ _ ltac:(lia) B P0)|]. intros q Hq.
    wbind. eapply wp_mono; [apply (row_mp_ok ui uv x (znth 0 up i) (znth 0 up (i + 1)) 0 _ _ ltac:(lia) B' Hq)|]. intros q' Hq'.
    wwr; [lia|]. eexists. split; [reflexivity|]. eapply accl_mono; [|eapply accl_perm; [|exact Hq']]; [lia|].
    unfold rowterms. rewrite <- app_assoc. reflexivity.
Qed.

(** * Scattering *)
Definition colterms (index : list Z) (value : list b64) (xi : Qd) (c : Z) (l : list Z) : list R :=
  map (fun j => val xi * real (znth f0 value j))%R (filter (fun j => znth 0 index j =? c) l).
Definition accs (ny : Z) (l : Z -> list R) (y : list Qd) : Prop := forall c, 0 <= c < ny -> accl 0 (l c) (qn y c).
Definition ibnds (index : list Z) (value : list b64) (ny hi : Z) : Prop :=
  hi <= zlen index /\ hi <= zlen value /\ forall j, 0 <= j < hi -> 0 <= znth 0 index j < ny.

Lemma colterms_app : forall index value xi c l m, colterms index value xi c (l ++ m) = colterms index value xi c l ++ colterms index value xi c m.
Proof. intros. unfold colterms. now rewrite filter_app, map_app. Qed.
Lemma colterms_one : forall index value xi c j, colterms index value xi c [j] = if znth 0 index j =? c then [(val xi * real (znth f0 value j))%R] else [].
Proof. intros. unfold colterms. cbn [filter]. destruct (znth 0 index j =? c); reflexivity. Qed.

Lemma scat_mp_ok : forall index value (xi : Qd) is ie ny l (y : list Qd), 0 <= is <= ie -> ibnds index value ny ie -> ny <= zlen y -> normal xi ->
  accs ny l y ->
  wp (scat_mp g index value xi is ie y) (fun y' => zlen y' = zlen y /\ accs ny (fun c => l c ++ colterms index value xi c (zrange is ie)) y').
Proof.
  intros index value xi is ie ny l y H (Li & Lv & B) Ly Nx Hy. unfold scat_mp.
  apply (for_wp' (fun j y' => zlen y' = zlen y /\ accs ny (fun c => l c ++ colterms index value xi c (zrange is j)) y')); try lia.
  - split; auto. intros c Hc. rewrite zrange_empty by lia. unfold colterms. cbn [map filter]. rewrite app_nil_r. auto.
  - intros j t Hj (Lt & A). specialize (B j ltac:(lia)). wrd 0; [lia|]. wrd (f0:b64); [lia|]. wrd (f0:b64,f0:b64); [lia|]. wwr; [lia|].
    split; [len|]. intros c Hc. rewrite zrange_snoc by lia. rewrite colterms_app, colterms_one. rewrite app_assoc. updcase.
    + subst c. rewrite Z.eqb_refl. eapply accl_step; [|apply A; lia]. apply m_fmad_ok; auto.
    + destruct (Z.eqb_spec (znth 0 index j) c); [congruence|]. rewrite app_nil_r. auto.
  - auto.
Qed.
Lemma scat_pairs_ok : forall index value (xi : Qd) is ie ny l (y : list Qd), 0 <= is <= ie -> ibnds index value ny ie -> ny <= zlen y -> normal xi ->
  (forall j, is <= j -> j + 1 < ie -> znth 0 index j <> znth 0 index (j + 1)) ->
  accs ny l y ->
  wp (scat_pairs g index value xi is ie y) (fun p => is <= fst p <= ie /\ zlen (snd p) = zlen y /\ accs ny (fun c => l c ++ colterms index value xi c (zrange is (fst p))) (snd p)).
Proof.
  intros index value xi is ie ny l y H (Li & Lv & B) Ly Nx ND Hy. unfold scat_pairs.
  apply (pairs_wp (fun j y' => zlen y' = zlen y /\ accs ny (fun c => l c ++ colterms index value xi c (zrange is j)) y')); try lia.
  - split; auto. intros c Hc. rewrite zrange_empty by lia. unfold colterms. cbn [map filter]. rewrite app_nil_r. auto.
  - intros j t Hj Hj' (Lt & A). pose proof (B j ltac:(lia)) as B0. pose proof (B (j + 1) ltac:(lia)) as B1. specialize (ND j Hj Hj').
    do 2 (wrd 0; [lia|]). do 2 (wrd (f0:b64,f0:b64); [lia|]). do 2 (wrd (f0:b64); [lia|]).
    destruct (fmad2_ok g G (qn t (znth 0 index j)) (qn t (znth 0 index (j + 1))) xi xi (znth f0 value j) (znth f0 value (j + 1)) Nx Nx) as [C0 C1].
    destruct (fmad2 g _ _ _ _ _ _) as [r0 r1]. cbn [fst snd] in *. wwr; [lia|]. wwr; [len|].
    split; [len|]. intros c Hc. replace (j + 2) with (j + 1 + 1) by lia. rewrite !zrange_snoc by lia. rewrite !colterms_app, !colterms_one. rewrite !app_assoc. updcase.
    + subst c. rewrite Z.eqb_refl. destruct (Z.eqb_spec (znth 0 index j) (znth 0 index (j + 1))); [congruence|]. rewrite app_nil_r.
      eapply accl_step; [exact C1|]. apply A; lia.
    + destruct (Z.eqb_spec (znth 0 index (j + 1)) c); [congruence|]. rewrite app_nil_r. updcase.
      * subst c. rewrite Z.eqb_refl. eapply accl_step; [exact C0|]. apply A; lia.
      * destruct (Z.eqb_spec (znth 0 index j) c); [congruence|]. rewrite app_nil_r. auto.
  - intros i t Hi Hi' [L1 A]. cbn [fst snd]. auto.
Qed.

Definition allcol (ptr index : list Z) (value : list b64) (x : list Qd) (c n : Z) : list R :=
  flat_map (fun i => colterms index value (qn x i) c (zrange (znth 0 ptr i) (znth 0 ptr (i + 1)))) (zrange 0 n).
Lemma allcol_snoc : forall ptr index value x c i, 0 <= i ->
  allcol ptr index value x c (i + 1) = allcol ptr index value x c i ++ colterms index value (qn x i) c (zrange (znth 0 ptr i) (znth 0 ptr (i + 1))).
Proof. intros. unfold allcol. rewrite zrange_snoc by lia. rewrite flat_map_app. cbn [flat_map]. now rewrite app_nil_r. Qed.

Lemma aok_ibnds : forall n m ptr index value, arrays_ok n m ptr index value -> forall i, 0 <= i < n ->
  ibnds index value m (znth 0 ptr (i + 1)).
Proof.
  intros n m ptr index value A i Hi. pose proof (aok_row _ _ _ _ _ A i Hi) as R. destruct A as (Hn & Lp & P0 & Pm & Li & Lv & B).
  repeat split; try lia; specialize (B j ltac:(lia)); lia.
Qed.
Lemma nodup_adj : forall index is ie, NoDup (map (znth 0 index) (zrange is ie)) -> forall j, is <= j -> j + 1 < ie -> znth 0 index j <> znth 0 index (j + 1).
Proof.
  intros index is ie H j Hj Hj' E. rewrite (zrange_app is j ie) in H by lia.
  rewrite (zrange_cons j) in H by lia. rewrite (zrange_cons (j + 1)) in H by lia. rewrite map_app in H. cbn [map] in H.
  apply NoDup_remove_2 in H. apply H. apply in_or_app. right. left. auto.
Qed.
(** one row *)
Lemma scat_row : forall index value (xi : Qd) is ie ny l (y : list Qd), 0 <= is <= ie -> ibnds index value ny ie -> ny <= zlen y -> normal xi ->
  (q_sse2 g = true -> NoDup (map (znth 0 index) (zrange is ie))) -> accs ny l y ->
  wp (if q_sse2 g then p <- scat_pairs g index value xi is ie y ;; scat_mp g index value xi (fst p) ie (snd p)
      else scat_mp g index value xi is ie y)
     (fun y' => zlen y' = zlen y /\ accs ny (fun c => l c ++ colterms index value xi c (zrange is ie)) y').
Proof.
  intros index value xi is ie ny l y H B Ly Nx ND Hy. destruct (q_sse2 g).
  - wbind. eapply wp_mono; [apply (scat_pairs_ok index value xi is ie ny l y); auto|]. { now apply nodup_adj, ND. }
    intros p (Hp & Lp & A). eapply wp_mono; [apply (scat_mp_ok index value xi (fst p) ie ny _ (snd p) ltac:(lia) B ltac:(lia) Nx A)|].
    intros y' (L & A'). split; [lia|]. intros c Hc. specialize (A' c Hc). cbv beta in A'. rewrite <- app_assoc, <- colterms_app, <- zrange_app in A' by lia. exact A'.
  - now apply scat_mp_ok.
Qed.
Lemma scatter_mp_ok : forall n ny ptr index value (x y : list Qd), arrays_ok n ny ptr index value -> normal_upto n x -> 0 <= ny <= zlen y ->
  (q_sse2 g = true -> rows_nodup n ptr index) ->
  wp (scatter_mp g n ny ptr index value x y) (fun y' => zlen y' = zlen y /\ forall c, 0 <= c < ny -> accl 0 (allcol ptr index value x c n) (qn y' c)).
Proof.
  intros n ny ptr index value x y A [Lx Nx] L ND. change (forall i, 0 <= i < n -> normal (qn x i)) in Nx. unfold scatter_mp. pose proof A as (Hn & Lp & _).
  wbind. eapply wp_mono; [apply (rows_wp (fun i q => q = qz) ny); [lia|]|].
  - intros i t Hi Lt. wwr; [lia|]. eexists. split; reflexivity.
  - intros y1 (L1 & Z1 & _).
    apply (for_wp' (fun i y' => zlen y' = zlen y /\ accs ny (fun c => allcol ptr index value x c i) y')); try lia.
    + split; auto. intros c Hc. rewrite Z1 by lia. apply accl_zero.
    + intros i t Hi (Lt & Ht). pose proof (aok_row _ _ _ _ _ A i Hi) as R. pose proof (aok_ibnds _ _ _ _ _ A i Hi) as B.
      do 2 (wrd 0; [lia|]). wrd (f0:b64,f0:b64); [lia|].
      eapply wp_mono; [apply (scat_row index value (qn x i) (znth 0 ptr i) (znth 0 ptr (i + 1)) ny (fun c => allcol ptr index value x c i) t ltac:(lia) B ltac:(lia) (Nx i Hi)); [|exact Ht]|].
      * intros Q. apply ND; auto.
      * intros y' (L' & A'). split; [lia|]. intros c Hc. rewrite allcol_snoc by lia. apply A'; auto.
    + auto.
Qed.

Definition splitcol (lp li : list Z) (lv : list b64) (up ui : list Z) (uv : list b64) (x : list Qd) (c n : Z) : list R :=
  flat_map (fun i => colterms li lv (qn x i) c (zrange (znth 0 lp i) (znth 0 lp (i + 1))) ++
                     colterms ui uv (qn x i) c (zrange (znth 0 up i) (znth 0 up (i + 1)))) (zrange 0 n).
Lemma splitcol_perm : forall lp li lv up ui uv x c n,
  Permutation (splitcol lp li lv up ui uv x c n) (allcol lp li lv x c n ++ allcol up ui uv x c n).
Proof.
  intros. unfold splitcol, allcol. induction (zrange 0 n) as [|i l IH]; cbn [flat_map]; auto.
  rewrite IH. rewrite <- !app_assoc. apply Permutation_app_head. rewrite !app_assoc. apply Permutation_app_tail. apply Permutation_app_comm.
Qed.
Lemma scatter_split_mp_ok : forall stale n ny (d : list b64) lp li lv up ui uv (x y : list Qd), q_sse2 g = false ->
  arrays_ok n ny lp li lv -> arrays_ok n ny up ui uv -> n <= ny <= zlen d -> normal_upto ny x -> ny <= zlen y ->
  wp (scatter_split_mp g stale n ny d lp li lv up ui uv x y) (fun y' => zlen y' = zlen y /\
    forall c, 0 <= c < ny -> accl 0 ((val (qn x c) * real (znth f0 d c))%R :: allcol lp li lv x c n ++ allcol up ui uv x c n) (qn y' c)).
Proof.
  intros stale n ny d lp li lv up ui uv x y Sc A A' Ld [Lx Nx] L. change (forall i, 0 <= i < ny -> normal (qn x i)) in Nx. unfold scatter_split_mp. pose proof A as (Hn & Lp & _).
  pose proof A' as (_ & Lp' & _). rewrite Sc.
  wbind. eapply wp_mono; [apply (rows_wp (fun i q => accl 0 [(val (qn x i) * real (znth f0 d i))%R] q) ny); [lia|]|].
  - intros i t Hi Lt. wrd (f0:b64,f0:b64); [lia|]. wrd (f0:b64); [lia|]. wwr; [lia|]. eexists. split; [reflexivity|].
    apply accl_prod, m_muld_prod; auto.
  - intros y1 (L1 & Z1 & _).
    apply (for_wp' (fun i y' => zlen y' = zlen y /\ accs ny (fun c => (val (qn x c) * real (znth f0 d c))%R :: splitcol lp li lv up ui uv x c i) y')); try lia.
    + split; auto.
    + intros i t Hi (Lt & Ht). pose proof (aok_row _ _ _ _ _ A i Hi) as R. pose proof (aok_ibnds _ _ _ _ _ A i Hi) as B.
      pose proof (aok_row _ _ _ _ _ A' i Hi) as R'. pose proof (aok_ibnds _ _ _ _ _ A' i Hi) as B'.
      wrd (f0:b64,f0:b64); [lia|]. do 4 (wrd 0; [lia|]). wbind.
      eapply wp_mono; [apply (scat_mp_ok li lv (qn x i) (znth 0 lp i) (znth 0 lp (i + 1)) ny _ t ltac:(lia) B ltac:(lia) (Nx i ltac:(lia)) Ht)|].
      intros y2 (L2 & H2). cbv beta in H2.
      eapply wp_mono; [apply (scat_mp_ok ui uv (qn x i) (znth 0 up i) (znth 0 up (i + 1)) ny _ y2 ltac:(lia) B' ltac:(lia) (Nx i ltac:(lia)) H2)|].
      intros y3 (L3 & H3). cbv beta in H3. split; [lia|]. intros c Hc. specialize (H3 c Hc). cbv beta in H3.
      unfold splitcol. rewrite zrange_snoc by lia. rewrite flat_map_app. cbn [flat_map]. rewrite app_nil_r. cbn [app] in H3.
      rewrite <- app_assoc in H3. exact H3.
    + intros y' (L' & H'). split; auto. intros c Hc. eapply accl_perm; [|exact (H' c Hc)]. apply perm_skip, splitcol_perm.
Qed.
End MV.
