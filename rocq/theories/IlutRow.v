Require Import ZArith List Bool Lia Ring Permutation.
From Verif Require Import Base Items Scalar Spec Sort SortProof ConvFinal Ilu SpecIlu SpecIlut DiagProof2 IluProof IluProof2 Ilut IlutProof IlutElim.
Import ListNotations.
Open Scope Z_scope.

Lemma map_snoc_range {B} (f : Z -> B) j : 0 <= j -> map f (zrange 0 j) ++ [f j] = map f (zrange 0 (j + 1)).
Proof. intros. rewrite zrange_snoc by lia. rewrite map_app. auto. Qed.
Lemma znth_map_range {B} d (f : Z -> B) m p : 0 <= p < m -> znth d (map f (zrange 0 m)) p = f p.
Proof. intros H. rewrite (znth_map f 0 d) by (rewrite zlen_zrange; lia). rewrite znth_zrange by lia. f_equal. Qed.
Lemma NoDup_znth_neq (l : list Z) p q : NoDup l -> 0 <= p < q -> q < zlen l -> znth 0 l p <> znth 0 l q.
Proof.
  intros Hn Hp Hq Ee. unfold znth, zlen in *. rewrite (NoDup_nth l 0) in Hn. destruct (Z.ltb_spec p 0); [lia|]. destruct (Z.ltb_spec q 0); [lia|]. apply Hn in Ee; lia.
Qed.

Section P.
Context {T : Type} {S : Scalar T}.
Hypothesis RT : is_ring S.
Let RT' : @ring_theory T s0 s1 sadd smul ssub sopp (@eq T) := RT.
Add Ring TrIlut3 : RT'.

Lemma zlen_map {A B} (f : A -> B) l : zlen (map f l) = zlen l.
Proof. unfold zlen. rewrite map_length. auto. Qed.

(** the entries at positions [sel] of the working row *)
Definition selected (lfil base len : Z) (jb : list Z) (w : list T) (ix : list Z) (v : list T) (sel : list Z) : Prop :=
  increasing_row sel /\ zlen sel = Z.max 0 (Z.min lfil len) /\ (forall p, In p sel -> base <= p < base + len) /\
  ix = map (znth 0 jb) sel /\ v = map (znth s0 w) sel /\
  (forall p q, In q sel -> base <= p < base + len -> ~ In p sel -> sltb (sabs (znth s0 w p)) (sabs (znth s0 w q)) = false).

Hypothesis Hswo : strict_weak_order (sltb (T:=T)).

Lemma ilut_keep_wp n lfil base len jb w wn iw : 0 <= lfil -> 0 <= base -> 0 <= len -> base + len <= n -> zlen jb = n -> zlen w = n + 1 -> zlen wn = n -> zlen iw = n ->
  wp (ilut_keep lfil base len jb w wn iw) (fun r => let '(wn', iw', ix, v) := r in zlen wn' = n /\ zlen iw' = n /\
    (forall c, 0 <= c < len -> znth 0 iw' c = -1) /\ (forall c, len <= c < n -> znth 0 iw' c = znth 0 iw c) /\
    exists sel, selected lfil base len jb w ix v sel).
Proof.
  intros Hlf Hb Hlen Hbl L1 L2 L3 L4. unfold ilut_keep. set (k := Z.min lfil len). wbind.
  apply (for_wp' (fun j p => zlen (fst p) = n /\ zlen (snd p) = n /\ (forall q, 0 <= q < j -> znth s0 (fst p) q = sabs (znth s0 w (base + q)) /\ znth 0 (snd p) q = base + q) /\ (forall c, j <= c < n -> znth 0 (snd p) c = znth 0 iw c))).
  - auto.
  - cbn [fst snd]. repeat (split; auto). all: intros; lia.
  - intros j [wn1 iw1] Hj. cbn [fst snd]. intros (A1 & A2 & A3 & A4). wrd s0; [lia|]. wwr; [lia|]. wwr; [lia|]. apply wp_ok. cbn [fst snd]. rewrite !zlen_zupd. split; auto. split; auto. split.
    + intros q Hq. destruct (Z.eq_dec q j) as [->|]; [rewrite !znth_zupd_eq by lia; auto|rewrite !znth_zupd_neq by lia; apply A3; lia].
    + intros c Hc. rewrite znth_zupd_neq by lia. apply A4. lia.
  - intros [wn1 iw1]. cbn [fst snd]. intros (A1 & A2 & A3 & A4).
    wbind. unfold lis_sort_di. destruct Hswo as (W1 & W2 & W3). apply (quick1_wp 0 (sltb (T:=T)) s0); auto; [lia|lia|lia|]. rewrite A1. intros wn2 iw2 B0 (B1 & B2 & B3 & B4).
    replace (len - 1 + 1) with len in B2 by lia. cbn beta iota.
    wbind. apply lis_sort_i_wp; [lia|lia|]. intros iw3 (C1 & C2 & C3 & C4).
    replace (k - 1 + 1) with k in C2 by lia.
    assert (C2' : Permutation (map (znth 0 iw3) (zrange 0 k)) (map (znth 0 iw2) (zrange 0 k))).
    { apply (Permutation_map fst) in C2. rewrite !map_map in C2. cbn [fst] in C2. exact C2. }
    assert (P1 : Permutation (map (znth 0 iw2) (zrange 0 len)) (map (fun q => base + q) (zrange 0 len))).
    { apply (Permutation_map snd) in B2. rewrite !map_map in B2. cbn [snd] in B2. etransitivity; [exact B2|]. rewrite (map_ext_in _ (fun q => base + q)); [reflexivity|]. intros q Hq. apply In_zrange in Hq. apply A3; auto. }
    assert (P2 : forall q, 0 <= q < len -> base <= znth 0 iw2 q < base + len /\ znth s0 wn2 q = sabs (znth s0 w (znth 0 iw2 q))).
    { intros q Hq. assert (Hin : In (znth s0 wn2 q, znth 0 iw2 q) (map (fun q => (znth s0 wn1 q, znth 0 iw1 q)) (zrange 0 len))).
      { eapply Permutation_in; [exact B2|]. apply in_map_iff. exists q. split; auto. apply In_zrange; auto. }
      apply in_map_iff in Hin as (q' & Eq & Hq'). apply In_zrange in Hq'. destruct (A3 q' Hq') as [Q1 Q2]. injection Eq as E1 E2. rewrite <- E1, <- E2, Q1, Q2. split; [lia|auto]. }
    assert (P3 : NoDup (map (znth 0 iw2) (zrange 0 len))).
    { eapply Permutation_NoDup; [symmetry; exact P1|]. apply FinFun.Injective_map_NoDup; [intros x y; lia|apply NoDup_zrange]. }
    set (sel := map (znth 0 iw3) (zrange 0 k)).
    assert (Hkl : k <= len) by lia.
    assert (P4 : NoDup sel).
    { eapply Permutation_NoDup; [symmetry; exact C2'|]. destruct (Z_le_dec 0 k).
      - rewrite (zrange_app 0 k len), map_app in P3 by lia. apply NoDup_app_remove_r in P3. auto.
      - rewrite zrange_empty by lia. constructor. }
    assert (P5 : forall p, In p sel <-> exists q, 0 <= q < k /\ znth 0 iw2 q = p).
    { intros p. transitivity (In p (map (znth 0 iw2) (zrange 0 k))); [split; apply Permutation_in; [exact C2'|symmetry; exact C2']|]. rewrite in_map_iff. split; intros (q & H1 & H2); exists q; [apply In_zrange in H2|rewrite In_zrange]; auto. }
    assert (Hsl : zlen sel = Z.max 0 k) by (unfold sel; rewrite zlen_map, zlen_zrange; lia).
    assert (HI3 : forall q, 0 <= q < k -> base <= znth 0 iw3 q < base + len).
    { intros q Hq. assert (Hin : In (znth 0 iw3 q) sel) by (apply in_map_iff; exists q; split; auto; apply In_zrange; auto). apply P5 in Hin as (q' & Hq' & <-). apply P2. lia. }
    wbind. apply (for_wp' (fun j p => fst p = map (fun q => znth 0 jb (znth 0 iw3 q)) (zrange 0 j) /\ snd p = map (fun q => znth s0 w (znth 0 iw3 q)) (zrange 0 j))).
    + lia.
    + cbn [fst snd]. rewrite zrange_empty by lia. auto.
    + intros j [ix v] Hj. cbn [fst snd]. intros [-> ->]. specialize (HI3 j Hj). wrd 0; [lia|]. wrd 0; [lia|]. wrd s0; [lia|]. apply wp_ok. cbn [fst snd]. rewrite !zrange_snoc, !map_app by lia. auto.
    + intros [ix v]. cbn [fst snd]. intros [Eix Ev]. wbind.
      apply (for_wp' (fun j iw' => zlen iw' = n /\ (forall c, 0 <= c < j -> znth 0 iw' c = -1) /\ (forall c, j <= c < n -> znth 0 iw' c = znth 0 iw3 c))).
      * lia.
      * split; [lia|]. split; [intros; lia|auto].
      * intros j iw' Hj (D1 & D2 & D3). wwr; [lia|]. rewrite zlen_zupd. split; auto. split.
        -- intros c Hc. destruct (Z.eq_dec c j) as [->|]; [rewrite znth_zupd_eq by lia; auto|rewrite znth_zupd_neq by lia; apply D2; lia].
        -- intros c Hc. rewrite znth_zupd_neq by lia. apply D3. lia.
      * intros iw4 (D1 & D2 & D3). apply wp_ok. split; [lia|]. split; [lia|]. split; [auto|]. split.
        -- intros c Hc. rewrite D3 by lia. destruct (C3 c ltac:(lia) ltac:(lia)) as [-> _]. destruct (B3 c ltac:(lia) ltac:(lia)) as [_ ->]. apply A4. lia.
        -- exists sel. unfold selected. split; [|split; [|split; [|split; [|split]]]].
           ++ intros p q Hp Hq. pose proof (NoDup_znth_neq sel p q P4 Hp Hq) as Hne. assert (znth 0 sel p <= znth 0 sel q); [|lia].
              unfold sel. rewrite !znth_map_range by lia. specialize (C4 p q ltac:(lia) ltac:(lia)). apply Z.ltb_ge in C4. auto.
           ++ fold k. auto.
           ++ intros p Hp. apply P5 in Hp as (q & Hq & <-). apply P2. lia.
           ++ rewrite Eix. unfold sel. rewrite map_map. auto.
           ++ rewrite Ev. unfold sel. rewrite map_map. auto.
           ++ intros p q Hq Hp Hn. apply P5 in Hq as (q' & Hq' & <-).
              assert (Hin : In p (map (znth 0 iw2) (zrange 0 len))).
              { eapply Permutation_in; [symmetry; exact P1|]. apply in_map_iff. exists (p - base). split; [lia|apply In_zrange; lia]. }
              apply in_map_iff in Hin as (p' & <- & Hp'). apply In_zrange in Hp'.
              assert (k <= p') by (destruct (Z_lt_dec p' k); [|lia]; exfalso; apply Hn; apply P5; exists p'; split; auto; lia).
              destruct (P2 q' ltac:(lia)) as [_ <-]. destruct (P2 p' ltac:(lia)) as [_ <-]. apply B4; lia.
Qed.
End P.
