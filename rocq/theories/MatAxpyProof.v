Require Import ZArith List Bool Lia Permutation.
From Verif Require Import Base Scalar Spec Fmt Diag DiagProof DiagProof2 Copy SpecCopy Convert SpecConvert ConvertFinal ConvFinal DnsProof FmtFinal MatAxpy SpecMatAxpy.
Import ListNotations.
Open Scope Z_scope.

Section P.
Context {T : Type} {S : Scalar T}.
Hypothesis RT : is_ring S.
Let RT' : @ring_theory T s0 s1 sadd smul ssub sopp (@eq T) := RT.
Add Ring Rx : RT'.

Lemma dns_coef_in (A : dns T) i j : 0 <= i < dns_n A -> 0 <= j < dns_np A -> coef (dns_entries A) i j = znth s0 (dns_value A) (j * dns_n A + i).
Proof using RT RT'. intros Hi Hj. apply (coef_eq RT); [apply dns_no_dup|]. apply In_dns_entries. exists i, j. auto. Qed.
Lemma dns_coef_out (A : dns T) i j : ~ (0 <= i < dns_n A /\ 0 <= j < dns_np A) -> coef (dns_entries A) i j = s0.
Proof using RT RT'.
  intros H. apply (coef_absent). intros Hin. apply in_map_iff in Hin. destruct Hin as (e & E1 & E2). apply In_dns_entries in E2. destruct E2 as (i' & j' & H1 & H2 & ->). cbn in E1. injection E1 as -> ->. tauto.
Qed.
(** two dense matrices of one shape, combined element by element *)
Lemma dns_combine (A B : dns T) v (g : T -> T -> T) : g s0 s0 = s0 -> dns_n B = dns_n A -> dns_np B = dns_np A ->
  (forall j i, 0 <= j < dns_np A -> 0 <= i < dns_n A -> znth s0 v (j * dns_n A + i) = g (znth s0 (dns_value A) (j * dns_n A + i)) (znth s0 (dns_value B) (j * dns_n A + i))) ->
  forall i j, coef (dns_entries (mkDns (dns_n A) (dns_np A) v)) i j = g (coef (dns_entries A) i j) (coef (dns_entries B) i j).
Proof using RT RT'.
  intros G0 En Ep H i j. destruct (Z_le_dec 0 i), (Z_lt_dec i (dns_n A)), (Z_le_dec 0 j), (Z_lt_dec j (dns_np A));
   try (rewrite !dns_coef_out by (cbn [dns_n dns_np]; lia); auto; fail).
  rewrite !dns_coef_in by (cbn [dns_n dns_np]; lia). cbn [dns_n dns_np dns_value]. rewrite En. apply H; lia.
Qed.

Lemma axpy_dns_wp alpha (A B : dns T) : dns_ok A -> dns_ok B -> dns_n B = dns_n A -> dns_np B = dns_np A ->
  exists v, axpy_dns alpha A (dns_value B) = Ok v /\ dns_ok (mkDns (dns_n B) (dns_np B) v) /\ plus_multiple alpha (dns_entries B) (dns_entries A) (dns_entries (mkDns (dns_n B) (dns_np B) v)).
Proof using RT RT'.
  intros (Hn & HA) (_ & HB) En Ep. rewrite En, Ep in HB. apply wp_inv. unfold axpy_dns.
  apply (rect_loop0 (dns_n A) (dns_np A) (fun j i v => sadd v (smul alpha (znth s0 (dns_value A) (j * dns_n A + i))))); try lia.
  - intros j i v Hj Hi Hb HL. pose proof (mul_range (dns_n A) (dns_np A) j i ltac:(lia) ltac:(lia)). wrd s0; [lia|]. apply upd_wp; [lia|auto].
  - intros v HL H. split; [split; cbn [dns_n dns_np dns_value]; lia|]. intros i j.
    rewrite (dns_combine B A v (fun b a => sadd b (smul alpha a))); auto; [ring|]. intros j' i' Hj Hi. rewrite En, Ep in *. apply H; lia.
Qed.
Lemma xpay_dns_wp alpha (A B : dns T) : dns_ok A -> dns_ok B -> dns_n B = dns_n A -> dns_np B = dns_np A ->
  exists v, xpay_dns alpha A (dns_value B) = Ok v /\ dns_ok (mkDns (dns_n B) (dns_np B) v) /\ plus_multiple alpha (dns_entries A) (dns_entries B) (dns_entries (mkDns (dns_n B) (dns_np B) v)).
Proof using RT RT'.
  intros (Hn & HA) (_ & HB) En Ep. rewrite En, Ep in HB. apply wp_inv. unfold xpay_dns.
  apply (rect_loop0 (dns_n A) (dns_np A) (fun j i v => sadd (znth s0 (dns_value A) (j * dns_n A + i)) (smul alpha v))); try lia.
  - intros j i v Hj Hi Hb HL. pose proof (mul_range (dns_n A) (dns_np A) j i ltac:(lia) ltac:(lia)). wrd s0; [lia|]. apply upd_wp; [lia|auto].
  - intros v HL H. split; [split; cbn [dns_n dns_np dns_value]; lia|]. intros i j.
    rewrite (dns_combine B A v (fun b a => sadd a (smul alpha b))); auto; [ring|]. intros j' i' Hj Hi. rewrite En, Ep in *. apply H; lia.
Qed.
Lemma axpyz_dns_wp alpha (A B C : dns T) : dns_ok A -> dns_ok B -> dns_ok C -> dns_n B = dns_n A -> dns_np B = dns_np A -> dns_n C = dns_n A -> dns_np C = dns_np A ->
  exists v, axpyz_dns alpha A (dns_value B) (dns_value C) = Ok v /\ dns_ok (mkDns (dns_n C) (dns_np C) v) /\ plus_multiple alpha (dns_entries B) (dns_entries A) (dns_entries (mkDns (dns_n C) (dns_np C) v)).
Proof using RT RT'.
  intros (Hn & HA) (_ & HB) (_ & HC) En Ep En' Ep'. apply wp_inv. unfold axpyz_dns. rewrite En', Ep' in *. rewrite En, Ep in HB.
  apply (rect_loop0 (dns_n A) (dns_np A) (fun j i _ => sadd (smul alpha (znth s0 (dns_value A) (j * dns_n A + i))) (znth s0 (dns_value B) (j * dns_n A + i)))); try lia.
  - intros j i v Hj Hi Hb HL. pose proof (mul_range (dns_n A) (dns_np A) j i ltac:(lia) ltac:(lia)). wrd s0; [lia|]. wrd s0; [lia|]. apply upd_wp; [lia|auto].
  - intros v HL H. split; [split; cbn [dns_n dns_np dns_value]; lia|]. intros i j.
    rewrite (dns_combine A B v (fun a b => sadd b (smul alpha a))); auto; [ring|]. intros j' i' Hj Hi. rewrite (H j' i') by auto. ring.
Qed.

Hypothesis EO : eqb_ok S.
Lemma shift_matrix_csr_wp J JV blkB cA (A B : mobj T) (a : csr T) (mb : amat T) sigma :
  holds A (MCsr a) -> csr_ok a -> csr_exact a -> no_dup_pos (csr_entries a) -> 0 < csr_n a ->
  holds B mb -> amat_ok mb -> amat_n mb = csr_n a -> amat_np mb = csr_np a -> source_ok false mb -> no_dup_pos (stored mb) ->
  exists A' a', shift_matrix J JV false blkB cA A B sigma = Ok (LIS_SUCCESS, A') /\ holds A' (MCsr a') /\ csr_ok a' /\ csr_n a' = csr_n a /\ csr_np a' = csr_np a /\
    minus_multiple sigma (csr_entries a) (amat_entries mb) (csr_entries a').
Proof using RT RT' EO.
  intros HA Ha Hx Hu Hn HB Hb En Ep Hs Hub. pose proof (eqb_ok_zero EO) as EZ || assert (EZ : eqb_zero S) by (apply EO; reflexivity).
  pose proof HA as (A1 & A2 & A3 & A4 & A5 & A6). pose proof HB as (B1 & B2 & B3 & B4 & B5 & B6). cbn [amat_type amat_n amat_np] in *.
  assert (UA : unready A = false) by (unfold unready; rewrite A4; reflexivity).
  assert (UB' : unready B = false) by (unfold unready; rewrite B4; destruct mb; reflexivity).
  unfold shift_matrix. rewrite UA, UB'.
  destruct (convert_final J JV EZ false false conv_init A (mkObj MNULL 11 (ob_n A) (ob_np A) None None) (MCsr a) 11) as (At & ma & E1 & H1 & O1 & T1 & N1 & P1 & S1); auto; try lia; try discriminate.
  { intros _. split; [split; auto; discriminate|]. unfold target_ok. cbn [amat_n amat_np stored amat_entries]. repeat split; try discriminate; auto; try (intros X; exfalso; cbn in X; lia). }
  rewrite E1. cbn [bind]. change (LIS_SUCCESS =? LIS_SUCCESS) with true. cbn [negb].
  destruct (convert_final J JV EZ blkB false conv_init B (mkObj MNULL 11 (ob_n B) (ob_np B) None None) mb 11) as (Bt & mb' & E2 & H2 & O2 & T2 & N2 & P2 & S2); auto; try lia; try discriminate.
  { intros _. split; [auto|]. unfold target_ok. repeat split; try discriminate; auto; try (intros X; exfalso; cbn in X; lia). }
  rewrite E2. cbn [bind]. change (LIS_SUCCESS =? LIS_SUCCESS) with true. cbn [negb].
  destruct ma as [| | | | | | | | | |da]; try discriminate T1. destruct mb' as [| | | | | | | | | |db]; try discriminate T2.
  pose proof H1 as (C1 & C2 & C3 & C4 & C5 & C6). pose proof H2 as (D1 & D2 & _). rewrite C1, D1. cbn [amat_ok amat_n amat_np amat_entries amat_type] in *.
  destruct (axpy_dns_wp (sopp sigma) db da O2 O1 ltac:(lia) ltac:(lia)) as (v & E3 & O3 & K3). rewrite E3. cbn [bind].
  set (At' := put_mat At (MDns (mkDns (dns_n da) (dns_np da) v))).
  assert (HAt : holds At' (MDns (mkDns (dns_n da) (dns_np da) v))) by (unfold At', put_mat, holds; cbn; repeat split; auto).
  unfold convert. assert (Q1 : (ob_status At' <=? 0) && (0 <? ob_n At') = false) by (unfold At', put_mat; cbn [ob_status]; rewrite C4; reflexivity). rewrite Q1.
  assert (Q2 : ob_split At' = None) by (unfold At', put_mat; cbn [ob_split]; auto). rewrite Q2. cbn [bind]. 
  assert (Q3 : ob_type At' =? ob_type A = false) by (unfold At', put_mat; cbn [ob_type]; rewrite C3, A3; reflexivity). rewrite Q3. cbn [andb]. unfold At' at 1, put_mat at 1. cbn [ob_mat]. cbn [to_csr].
  destruct (dns2csr_final (J 0) (J 1) (JV 0) (mkDns (dns_n da) (dns_np da) v) O3) as (a' & E4 & O4 & N4 & P4 & S4). rewrite E4. cbn [bind]. cbn [dns_n dns_np] in N4, P4.
  assert (Q4 : store (MCsr a') (duplicate At') = (LIS_SUCCESS, mkObj 1 1 (csr_n a') (csr_np a') (Some (MCsr a')) None)).
  { unfold store, duplicate, set_mat. cbn [ob_status]. change (MNULL =? MNULL) with true. cbn iota. unfold assemble. cbn [ob_status amat_type ob_n ob_np ob_mat ob_split with_size].
    assert (Q : ob_n At' = csr_n a' /\ ob_np At' = csr_np a') by (unfold At', put_mat; cbn [ob_n ob_np]; lia). destruct Q as [Q Q']. rewrite Q, Q'.
    change (- (1) =? DECIDING_SIZE) with false. change (- (1) =? MNULL) with false. change (- (1) <? 0) with true. cbn [andb]. assert (X : 0 <? csr_n a' = true) by (apply Z.ltb_lt; lia). rewrite X. cbn.
    destruct a'; reflexivity. }
  rewrite Q4. change (LIS_SUCCESS =? LIS_SUCCESS) with true. cbn [negb]. rewrite A3. change (1 =? 1) with true. cbn [bind].
  eexists. exists a'. split; [reflexivity|]. split; [repeat split|]. split; [auto|]. split; [lia|]. split; [lia|].
  intros i j. rewrite (coef_perm RT _ _ i j S4). rewrite <- (coef_same RT EO (dns_entries db) _ i j S2), <- (coef_same RT EO (dns_entries da) _ i j S1).
  assert (X : coef (nz (dns_entries (mkDns (dns_n da) (dns_np da) v))) i j = coef (dns_entries (mkDns (dns_n da) (dns_np da) v)) i j).
  { apply (coef_same RT EO). unfold same_entries, nz. rewrite filter_idem || idtac. 
    assert (F : forall (l : list (entry T)) p, filter p (filter p l) = filter p l) by (induction l as [|x l IH]; intros p; cbn; auto; destruct (p x) eqn:Ex; cbn; rewrite ?Ex, ?IH; auto). rewrite F. apply Permutation_refl. }
  rewrite X, (K3 i j). ring.
Qed.
End P.
