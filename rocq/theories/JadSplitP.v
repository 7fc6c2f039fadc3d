(** Proofs about JadSolve.v: lis_matrix_split_jad *)
Require Import ZArith List Bool Lia Permutation.
From Verif Require Import Base Scalar Spec Items Fmt SpecSplit JadProof JadSolve JadLay.
Import ListNotations.
Open Scope Z_scope.

Section S.
Context {T : Type} {S : Scalar T}.
Notation ent := (entry T).
Definition pay (e : ent) : Z * T := (ecol e, eval e).
(** the entries of d in row r with property P, in order *)
Definition jln (P : ent -> bool) (d : list ent) (r : Z) : list (Z * T) := map pay (filter (fun e => P e && (erow e =? r)) d).
Lemma jln_snoc P d e r : jln P (d ++ [e]) r = if P e && (erow e =? r) then jln P d r ++ [pay e] else jln P d r.
Proof. unfold jln. rewrite filter_app, map_app. cbn [filter]. destruct (P e && (erow e =? r)); cbn [map]; [reflexivity|apply app_nil_r]. Qed.
Lemma jln_prefix P d t r : prefix d t -> zlen (jln P d r) <= zlen (jln P t r).
Proof. intros [x ->]. unfold jln. rewrite filter_app, map_app, zlen_app. pose proof (zlen_nonneg (map pay (filter (fun e => P e && (erow e =? r)) x))). lia. Qed.
Lemma jln_total P n E : (forall e, In e E -> 0 <= erow e < n) -> zlen (flat_map (fun r => zrange 0 (zlen (jln P E r))) (zrange 0 n)) = zlen (filter P E).
Proof.
  intros H. transitivity (zlen (flat_map (fun r => bucket erow r (filter P E)) (zrange 0 n))).
  - unfold zlen. f_equal. induction (zrange 0 n) as [|r l IH]; [reflexivity|]. cbn [flat_map]. rewrite !app_length, IH. f_equal. unfold zrange. rewrite map_length, seq_length. unfold bucket. rewrite filter_filter. unfold jln, zlen. rewrite map_length. lia.
  - apply (start_total erow). intros e He. apply filter_In in He. apply H. tauto.
Qed.
Lemma jln_In P E r p : In p (jln P E r) -> exists e, In e E /\ P e = true /\ erow e = r /\ p = pay e.
Proof. unfold jln. intros H. apply in_map_iff in H. destruct H as (e & <- & He). apply filter_In in He. destruct He as [He Hp]. apply andb_true_iff in Hp. destruct Hp as [Hp Hr]. apply Z.eqb_eq in Hr. eauto. Qed.

Section J.
Variable A : jad T.
Hypothesis HA : jad_ok A.
Notation n := (jad_n A).
Notation E := (jad_entries A).
Definition item (j k : Z) : ent := (znth 0 (jad_perm A) (k - znth 0 (jad_ptr A) j), znth 0 (jad_index A) k, znth s0 (jad_value A) k).

Lemma jad_items_wp {St} (R : list ent -> St -> Prop) (f : Z -> Z -> St -> res St) s (Q : St -> Prop) :
  R [] s ->
  (forall q k s d e, 0 <= q < n -> 0 <= k < zlen (jad_index A) -> k < zlen (jad_value A) -> q < zlen (jad_perm A) -> e = (znth 0 (jad_perm A) q, znth 0 (jad_index A) k, znth s0 (jad_value A) k) ->
     prefix (d ++ [e]) E -> R d s -> wp (f q k s) (R (d ++ [e]))) ->
  (forall s, R E s -> Q s) -> wp (jad_items A f s) Q.
Proof using HA.
  intros H0 Hs HQ. pose proof HA as (Hn & Hp & Hnnz & Hpl & HP & Hli & Hlv & Hix & Hw). unfold jad_items.
  apply (for_seg_items R E item (jad_maxnzr A) (jad_ptr A) (fun lo _ k s => f (k - lo) k s) []); auto.
  - cbn [app]. apply prefix_refl.
  - intros j k s1 d Hj Hk Hkk Hpre HR. specialize (Hw j Hj). apply Hs; auto; try lia.
Qed.

Definition cnt_ok (P : ent -> bool) (d : list ent) (nl : Z) (w : list Z) : Prop :=
  nl = zlen (filter P d) /\ zlen w = n /\ forall k, 0 <= k < n -> znth 0 w k = zlen (jln P d (znth 0 (jad_perm A) k)).
Lemma cnt_yes P d nl w q e : cnt_ok P d nl w -> 0 <= q < n -> erow e = znth 0 (jad_perm A) q -> P e = true ->
  wp (incr w q) (cnt_ok P (d ++ [e]) (nl + 1)).
Proof using HA.
  intros (H1 & H2 & H3) Hq He HPe. pose proof HA as (_ & _ & _ & _ & HP & _). unfold incr. wrd 0; [lia|]. apply wp_wr; [lia|]. split; [|split].
  - rewrite filter_app, zlen_app. cbn [filter]. rewrite HPe. change (zlen [e]) with 1. lia.
  - len.
  - intros k Hk. rewrite jln_snoc, HPe, He. cbn [andb]. rewrite znth_zupd by lia. destruct (Z.eqb_spec k q) as [->|Hne].
    + rewrite Z.eqb_refl, zlen_app. change (zlen [pay e]) with 1. rewrite H3 by auto. reflexivity.
    + destruct (Z.eqb_spec (znth 0 (jad_perm A) q) (znth 0 (jad_perm A) k)) as [Eq|_]; [|auto]. exfalso. apply Hne. symmetry. apply (perm_inj n (jad_perm A)); auto.
Qed.
Lemma cnt_no P d nl w e : cnt_ok P d nl w -> P e = false -> cnt_ok P (d ++ [e]) nl w.
Proof using.
  intros (H1 & H2 & H3) HPe. split; [|split; auto].
  - rewrite filter_app, zlen_app. cbn [filter]. rewrite HPe. change (zlen (@nil ent)) with 0. lia.
  - intros k Hk. rewrite jln_snoc, HPe. cbn [andb]. auto.
Qed.
Lemma cnt_nil P : cnt_ok P [] 0 (alloc n (fun _ => 0)).
Proof using HA. pose proof HA as (Hn & _). split; [reflexivity|]. split; [apply zlen_alloc; lia|]. intros k Hk. rewrite znth_alloc by lia. reflexivity. Qed.

Lemma split_jad_count_wp : wp (split_jad_count A) (fun s => cnt_ok lower E (fst (fst s)) (snd (fst s)) /\ cnt_ok upper E (fst (snd s)) (snd (snd s))).
Proof using HA.
  unfold split_jad_count.
  apply (jad_items_wp (fun d s => cnt_ok lower d (fst (fst s)) (snd (fst s)) /\ cnt_ok upper d (fst (snd s)) (snd (snd s)))); auto.
  - split; apply cnt_nil.
  - intros q k [[nl lw] [nu uw]] d e Hq Hk Hv Hpq He Hpre [HL HU]. cbn [fst snd] in *. wrd 0; [lia|]. wrd 0; [lia|].
    assert (Er : erow e = znth 0 (jad_perm A) q) by (rewrite He; reflexivity). assert (Ec : ecol e = znth 0 (jad_index A) k) by (rewrite He; reflexivity). rewrite <- Er, <- Ec.
    destruct (Z.ltb_spec (ecol e) (erow e)) as [Hl|Hl]; [|destruct (Z.ltb_spec (erow e) (ecol e)) as [Hu|Hu]].
    + assert (PL : lower e = true) by (apply Z.ltb_lt; auto). assert (PU : upper e = false) by (apply Z.ltb_ge; lia).
      apply wp_bind. eapply wp_mono; [apply (cnt_yes lower d nl lw q e); auto|]. intros lw' HL'. apply wp_ok. cbn [fst snd]. split; [exact HL'|apply cnt_no; auto].
    + assert (PL : lower e = false) by (apply Z.ltb_ge; auto). assert (PU : upper e = true) by (apply Z.ltb_lt; lia).
      apply wp_bind. eapply wp_mono; [apply (cnt_yes upper d nu uw q e); auto|]. intros uw' HU'. apply wp_ok. cbn [fst snd]. split; [apply cnt_no; auto|exact HU'].
    + assert (PL : lower e = false) by (apply Z.ltb_ge; auto). assert (PU : upper e = false) by (apply Z.ltb_ge; lia).
      apply wp_ok. cbn [fst snd]. split; apply cnt_no; auto.
Qed.

(** one triangle of the result *)
Definition side_ok (P : ent -> bool) (B : jside T) : Prop :=
  let len r := zlen (jln P E r) in let L := jd_A B in
  jad_n L = n /\ jad_np L = jad_np A /\ jad_nnz L = zlen (filter P E) /\ 0 <= jad_maxnzr L /\ (forall r, 0 <= r < n -> len r <= jad_maxnzr L) /\ (0 < n -> exists r, 0 <= r < n /\ len r = jad_maxnzr L) /\
  laid n (jad_maxnzr L) (zlen (filter P E)) len (jad_perm L) (jad_ptr L) (jd_col B) /\
  zlen (jad_index L) = zlen (filter P E) /\ zlen (jad_value L) = zlen (filter P E) /\
  forall r q, 0 <= r < n -> 0 <= q < len r -> (znth 0 (jad_index L) (znth 0 (jad_ptr L) q + znth 0 (jd_col B) r), znth s0 (jad_value L) (znth 0 (jad_ptr L) q + znth 0 (jd_col B) r)) = znth (0, s0) (jln P E r) q.

Lemma entries_row e : In e E -> 0 <= erow e < n.
Proof using HA. intros He. apply (jad_in_shape A HA e He). Qed.

Notation fil P ptr col := (filled n (zlen (filter P E)) (fun r => zlen (jln P E r)) ptr col).
Lemma fill_yes P m perm ptr col d e s : laid n m (zlen (filter P E)) (fun r => zlen (jln P E r)) perm ptr col -> (forall r, 0 <= r < n -> zlen (jln P E r) <= m) ->
  fil P ptr col (jln P d) s -> 0 <= erow e < n -> P e = true -> prefix (d ++ [e]) E ->
  wp (jad_put ptr col (erow e) (ecol e) (eval e) s) (fil P ptr col (jln P (d ++ [e]))).
Proof using.
  intros HL Hm HF Hr HPe Hpre. pose proof (jln_prefix P _ _ (erow e) Hpre) as Hle. rewrite jln_snoc, HPe, Z.eqb_refl in Hle. cbn [andb] in Hle. rewrite zlen_app in Hle. change (zlen [pay e]) with 1 in Hle.
  eapply wp_mono; [apply (jad_put_wp n m _ _ perm ptr col HL); [intros r Hr'; split; [apply zlen_nonneg|auto]|exact HF|auto|lia]|].
  intros s'. apply filled_ext. intros r Hr'. rewrite jln_snoc, HPe. cbn [andb]. rewrite (Z.eqb_sym r). destruct (Z.eqb_spec (erow e) r) as [<-|_]; reflexivity.
Qed.
Lemma fill_no P ptr col d e s : fil P ptr col (jln P d) s -> P e = false -> fil P ptr col (jln P (d ++ [e])) s.
Proof using. intros HF HPe. revert HF. apply filled_ext. intros r Hr. rewrite jln_snoc, HPe. reflexivity. Qed.
Lemma fill_start P m perm ptr col w ji jv : laid n m (zlen (filter P E)) (fun r => zlen (jln P E r)) perm ptr col -> zlen w = n -> (forall k, 0 <= k < n -> znth 0 w k = 0) ->
  fil P ptr col (jln P []) (w, alloc (zlen (filter P E)) ji, alloc (zlen (filter P E)) jv).
Proof using.
  intros HL Lw Zw. pose proof (zlen_nonneg (filter P E)). split; auto. split; [apply zlen_alloc; auto|]. split; [apply zlen_alloc; auto|]. intros r Hr. change (jln P [] r) with (@nil (Z * T)). split; [apply Zw; auto|]. split; [apply zlen_nonneg|]. change (zlen (@nil (Z * T))) with 0. intros; lia.
Qed.

Hypothesis Hsq : jad_np A = n.
Theorem split_jad_wp jlq jlp jlc jli jlv juq jup juc jui juv jd : wp (split_jad jlq jlp jlc jli jlv juq jup juc jui juv jd A) (fun P =>
  js_n P = n /\ side_ok lower (js_L P) /\ side_ok upper (js_U P) /\ zlen (js_D P) = n /\
  (no_dup_pos E -> forall e, In e E -> erow e = ecol e -> znth s0 (js_D P) (erow e) = eval e)).
Proof using HA Hsq.
  pose proof HA as (Hn & Hp & Hnnz & Hpl & HP & Hli & Hlv & Hix & _).
  unfold split_jad. apply wp_bind. eapply wp_mono; [apply split_jad_count_wp|]. intros [[nl lw] [nu uw]] [HCL HCU]. cbn [fst snd] in HCL, HCU.
  pose proof HCL as (EL & LLw & _). pose proof HCU as (EU & LUw & _).
  apply wp_bind. apply jad_longest_wp; [lia|auto| |].
  { intros q Hq. destruct HCL as (_ & _ & H3). rewrite H3 by auto. apply zlen_nonneg. }
  intros lm Hlm Hmax Hatt.
  apply wp_bind. apply jad_longest_wp; [lia|auto| |].
  { intros q Hq. destruct HCU as (_ & _ & H3). rewrite H3 by auto. apply zlen_nonneg. }
  intros um Hum Hmaxu Hattu.
  assert (G : forall P nl w m, cnt_ok P E nl w -> (forall k, 0 <= k < n -> znth 0 w k <= m) -> (0 < n -> exists k, 0 <= k < n /\ znth 0 w k = m) ->
     (forall r, 0 <= r < n -> zlen (jln P E r) <= m) /\ (0 < n -> exists r, 0 <= r < n /\ zlen (jln P E r) = m)).
  { intros P nl1 w m (_ & H2 & H3) Hmx Hat. split.
    - intros r Hr. assert (Hin : In r (map (znth 0 (jad_perm A)) (zrange 0 n))). { apply (Permutation_in _ (Permutation_sym HP)). apply In_zrange; auto. }
      apply in_map_iff in Hin. destruct Hin as (q & <- & Hq). apply In_zrange in Hq. rewrite <- H3 by auto. auto.
    - intros H0. destruct (Hat H0) as (q & Hq & E1). exists (znth 0 (jad_perm A) q). split; [apply (perm_range n); auto|]. rewrite <- H3 by auto. exact E1. }
  destruct (G lower nl lw lm HCL Hmax Hatt) as [GL1 GL2]. destruct (G upper nu uw um HCU Hmaxu Hattu) as [GU1 GU2]. clear G.
  assert (LO : forall P nl w m jq jp jc (Q : list Z * list Z * list Z * list Z -> Prop), 0 <= m -> cnt_ok P E nl w -> (forall r, 0 <= r < n -> zlen (jln P E r) <= m) ->
     (forall perm ptr col w', laid n m (zlen (filter P E)) (fun r => zlen (jln P E r)) perm ptr col -> zlen w' = n -> (forall k, 0 <= k < n -> znth 0 w' k = 0) -> Q (perm, ptr, col, w')) ->
     wp (jad_layout n m (jad_perm A) w jq jp jc) Q).
  { intros P nl1 w m jq jp jc Q Hm (_ & H2 & H3) Hle HQ. apply (jad_layout_wp n m (zlen (filter P E)) (fun r => zlen (jln P E r))); auto; try lia.
    - intros r Hr. split; [apply zlen_nonneg|auto].
    - apply jln_total. apply entries_row. }
  apply wp_bind. apply (LO lower nl lw lm); auto. intros lperm lptr lcol lw' HL Llw' Zlw'.
  apply wp_bind. apply (LO upper nu uw um); auto. intros uperm uptr ucol uw' HU Luw' Zuw'. clear LO. rewrite EL, EU. rewrite Hsq.
  apply wp_bind.
  apply (jad_items_wp (fun d s => let '(l, u, dd) := s in fil lower lptr lcol (jln lower d) l /\ fil upper uptr ucol (jln upper d) u /\ zlen dd = n /\
     (no_dup_pos E -> forall e, In e d -> erow e = ecol e -> znth s0 dd (erow e) = eval e))).
  - split; [apply (fill_start lower lm lperm); auto|]. split; [apply (fill_start upper um uperm); auto|]. split; [apply zlen_alloc; lia|]. intros _ e [].
  - intros q k [[l u] dd] d e Hq Hk Hv Hpq He Hpre (F1 & F2 & Ld & HD). wrd 0; [lia|]. wrd 0; [lia|]. wrd s0; [lia|].
    assert (Er : erow e = znth 0 (jad_perm A) q) by (rewrite He; reflexivity). assert (Ec : ecol e = znth 0 (jad_index A) k) by (rewrite He; reflexivity). assert (Ev : eval e = znth s0 (jad_value A) k) by (rewrite He; reflexivity). rewrite <- Er, <- Ec, <- Ev.
    assert (Hin : In e E). { destruct Hpre as (y & ->). apply in_app_iff. left. apply in_app_iff. right. left. auto. } pose proof (entries_row e Hin) as Hre.
    destruct (Z.ltb_spec (ecol e) (erow e)) as [Hl|Hl]; [|destruct (Z.ltb_spec (erow e) (ecol e)) as [Hu|Hu]].
    + assert (PL : lower e = true) by (apply Z.ltb_lt; auto). assert (PU : upper e = false) by (apply Z.ltb_ge; lia).
      apply wp_bind. eapply wp_mono; [apply (fill_yes lower lm lperm lptr lcol d e l); auto|]. intros l' F1'. apply wp_ok. split; [exact F1'|]. split; [apply fill_no; auto|]. split; auto.
      intros ND e' He'. apply in_app_iff in He'. destruct He' as [He'|[<-|[]]]; [auto|]. lia.
    + assert (PL : lower e = false) by (apply Z.ltb_ge; auto). assert (PU : upper e = true) by (apply Z.ltb_lt; lia).
      apply wp_bind. eapply wp_mono; [apply (fill_yes upper um uperm uptr ucol d e u); auto|]. intros u' F2'. apply wp_ok. split; [apply fill_no; auto|]. split; [exact F2'|]. split; auto.
      intros ND e' He'. apply in_app_iff in He'. destruct He' as [He'|[<-|[]]]; [auto|]. lia.
    + assert (PL : lower e = false) by (apply Z.ltb_ge; auto). assert (PU : upper e = false) by (apply Z.ltb_ge; lia).
      wwr; [lia|]. apply wp_ok. split; [apply fill_no; auto|]. split; [apply fill_no; auto|]. split; [len|].
      intros ND e' He' Hd'. apply in_app_iff in He'. destruct He' as [He'|[<-|[]]]; [|apply znth_zupd_eq; lia].
      assert (Hne : erow e' <> erow e). { intros EE. destruct Hpre as (y & Hy). unfold no_dup_pos in ND. rewrite Hy, <- app_assoc, map_app in ND. cbn [app map] in ND. apply NoDup_remove_2 in ND. apply ND. apply in_app_iff. left.
        replace (fst e) with (fst e'); [apply in_map; auto|]. unfold erow, ecol in *. destruct e as [[r1 c1] v1], e' as [[r2 c2] v2]. cbn [fst snd] in *. f_equal; lia. }
      rewrite znth_zupd_neq by lia. apply HD; auto.
  - intros [[[[lw2 li] lv] [[uw2 ui] uv]] dd] (F1 & F2 & Ld & HD). apply wp_ok. cbn [js_n js_L js_U js_D].
    destruct F1 as (_ & A1 & A2 & A3). destruct F2 as (_ & B1 & B2 & B3).
    split; auto. split; [|split; [|auto]].
    + unfold side_ok. cbn [jd_A jd_col jad_n jad_np jad_nnz jad_maxnzr jad_perm jad_ptr jad_index jad_value].
      split; auto. split; auto. split; auto. split; auto. split; auto. split; auto. split; auto. split; auto. split; auto. intros r p Hr Hp'. destruct (A3 r Hr) as (_ & _ & H). auto.
    + unfold side_ok. cbn [jd_A jd_col jad_n jad_np jad_nnz jad_maxnzr jad_perm jad_ptr jad_index jad_value].
      split; auto. split; auto. split; auto. split; auto. split; auto. split; auto. split; auto. split; auto. split; auto. intros r p Hr Hp'. destruct (B3 r Hr) as (_ & _ & H). auto.
Qed.
End J.
End S.
