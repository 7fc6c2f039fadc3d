(** lis_matrix_split_bsr splits the blocks, lis_matrix_merge_bsr puts them back *)
Require Import ZArith List Bool Lia Permutation Ring.
From Verif Require Import Base Scalar Spec Items CscProof Fmt AssembleProof MatvecProof Split SpecSplit DiagProof DiagProof2 SplitProof BsrSolve BsrTri BsrSplit.
Import ListNotations.
Open Scope Z_scope.

Section P.
Context {T : Type} {S : Scalar T}.
Local Existing Instance SB.
Notation bent := (entry (list T)).

Definition tri_ok (b nr : Z) (B : bsr T) (F : list bent) : Prop :=
  bsr_nr B = nr /\ bsr_bnr B = b /\ bsr_bnc B = b /\ csr_ok (vview B) /\ csr_entries (vview B) = F /\ bsr_bnnz B * (b * b) <= zlen (bsr_value B).
Definition sized (bs : Z) (F : list bent) : Prop := forall e, In e F -> zlen (eval e) = bs.
Lemma zlen_blkof bs (v : list T) k : 0 <= bs -> zlen (blkof bs v k) = bs.
Proof. intros H. unfold blkof. rewrite zlen_map, zlen_zrange. lia. Qed.
Lemma vview_sized (A : bsr T) : csr_ok (vview A) -> sized (bsr_bnr A * bsr_bnr A) (csr_entries (vview A)).
Proof.
  intros HA e He. pose proof HA as (Hp & _ & Hz & _). unfold csr_entries in He. apply in_flat_map in He. destruct He as (i & Hi & He). apply In_zrange in Hi. apply in_map_iff in He. destruct He as (k & <- & Hk). apply In_zrange in Hk.
  pose proof (csr_pos (vview A) i k HA Hi Hk) as Hk'. unfold eval. cbn [snd]. unfold vview at 1. cbn [csr_value]. unfold vview in Hk'. cbn [csr_nnz] in Hk'.
  rewrite (znth_map _ 0) by (rewrite zlen_zrange; lia). apply zlen_blkof. nia.
Qed.
Lemma brep_blocks bs N F ix (vl : list T) k : 0 < bs -> brep bs N F (ix, vl, k) -> sized bs F -> map (blkof bs vl) (zrange 0 k) = map eval F.
Proof.
  intros Hb (H1 & H2 & -> & H4) Hs. transitivity (map (fun t => eval (znth e0 F t)) (zrange 0 (zlen F))).
  - apply map_ext_in. intros t Ht. apply In_zrange in Ht. destruct (H4 t Ht) as [_ H]. assert (Ls : zlen (eval (znth e0 F t)) = bs) by (apply Hs, znth_In; auto).
    unfold blkof. rewrite (list_table (@s0 T S) (eval (znth e0 F t))). rewrite Ls. apply map_ext_in. intros q Hq. apply In_zrange in Hq. apply H; auto.
  - rewrite <- (map_map (znth e0 F) eval). f_equal. symmetry. apply list_table.
Qed.
Lemma vview_emit bs N F n np b nr ix (vl : list T) k ptr : b * b = bs -> 0 < bs -> brep bs N F (ix, vl, k) -> sized bs F ->
  vview (mkBsr n np b b nr k ptr ix vl) = mkCsr nr nr k ptr ix (map eval F).
Proof. intros E Hb R Hs. unfold vview. cbn [bsr_nr bsr_bnr bsr_bnnz bsr_bptr bsr_bindex bsr_value]. rewrite E, (brep_blocks bs N F ix vl k) by auto. auto. Qed.
Lemma znth_map_nil {A} (f : A -> list T) (d : A) l k : 0 <= k < zlen l -> znth [] (map f l) k = f (znth d l k).
Proof. intros H. apply znth_map; auto. Qed.
Lemma nr_quot n b nr : 0 < n -> 0 < b -> (nr - 1) * b < n <= nr * b -> 1 + Z.quot (n - 1) b = nr.
Proof.
  intros Hn Hb H. rewrite Z.quot_div_nonneg by lia. assert (Q : (n - 1) / b = nr - 1); [|lia].
  symmetry. apply (Z.div_unique (n - 1) b (nr - 1) (n - 1 - b * (nr - 1))); [left; nia|lia].
Qed.

Lemma split_bsr_wp jlp jli jlv jup jui juv jd (A : bsr T) : bsr_ok A -> bsr_bnc A = bsr_bnr A -> no_dup_pos (csr_entries (vview A)) ->
  wp (split_bsr jlp jli jlv jup jui juv jd A) (fun sp => bs_n sp = bsr_n A /\ bs_np sp = bsr_np A /\ bs_b sp = bsr_bnr A /\ bs_nr sp = bsr_nr A /\
     tri_ok (bsr_bnr A) (bsr_nr A) (bs_L sp) (filter lower (csr_entries (vview A))) /\ tri_ok (bsr_bnr A) (bsr_nr A) (bs_U sp) (filter upper (csr_entries (vview A))) /\
     bsr_n (bs_L sp) = bsr_n A /\ bsr_np (bs_L sp) = bsr_np A /\ bsr_n (bs_U sp) = bsr_n A /\ bsr_np (bs_U sp) = bsr_np A /\
     zlen (bs_D sp) = bsr_nr A * (bsr_bnr A * bsr_bnr A) /\
     forall e, In e (csr_entries (vview A)) -> erow e = ecol e -> forall q, 0 <= q < bsr_bnr A * bsr_bnr A -> znth (@s0 T S) (bs_D sp) (bsr_bnr A * bsr_bnr A * erow e + q) = znth (@s0 T S) (eval e) q).
Proof.
  intros HB Hsq Hu. pose proof (vview_ok A HB Hsq) as HA. pose proof HB as (Bn & Bnp & Bb & _ & Bnr & _ & _ & _ & Bv & _ & _).
  pose proof HA as (Hp & Hnp & Hz & Hi & _ & Hx). pose proof Hp as (Hn & Hlp & _ & Hm). unfold split_bsr. cbv zeta. rewrite Hsq, Z.eqb_refl. cbn [negb].
  rewrite split_count_view. wbind. apply split_count_wp; auto. rewrite (nr_quot (bsr_n A) (bsr_bnr A) (bsr_nr A)) by auto.
  set (V := vview A) in *. set (b := bsr_bnr A) in *. set (bs := b * b) in *. assert (Hbs : 0 < bs) by (unfold bs; nia).
  change (bsr_bptr A) with (csr_ptr V) in *. change (bsr_bindex A) with (csr_index V) in *. change (bsr_nr A) with (csr_n V) in *.
  set (E := csr_entries V) in *. set (nl := zlen (filter lower E)). set (nu := zlen (filter upper E)).
  assert (Hnl : 0 <= nl) by apply zlen_nonneg. assert (Hnu : 0 <= nu) by apply zlen_nonneg.
  replace (nl * b * b) with (nl * bs) by (unfold bs; ring). replace (nu * b * b) with (nu * bs) by (unfold bs; ring). replace (csr_n V * b * b) with (csr_n V * bs) by (unfold bs; ring).
  wwr; [rewrite zlen_alloc; lia|]. wwr; [rewrite zlen_alloc; lia|]. wbind.
  set (pre := fun i => flat_map (rowE V) (zrange 0 i)).
  apply (for_wp' (fun i (s : (list Z * list T * Z) * (list Z * list T * Z) * list T * list Z * list Z) => let '(l, u, d, lptr, uptr) := s in bsrep bs (csr_n V) nl nu (pre i) (l, u, d) /\
     zlen lptr = csr_n V + 1 /\ zlen uptr = csr_n V + 1 /\
     (forall r, 0 <= r <= i -> znth 0 lptr r = zlen (filter lower (pre r))) /\ (forall r, 0 <= r <= i -> znth 0 uptr r = zlen (filter upper (pre r))))); auto.
  - assert (P0 : pre 0 = []) by reflexivity. rewrite P0. split; [|split; [rewrite zlen_zupd, zlen_alloc; lia|split; [rewrite zlen_zupd, zlen_alloc; lia|split]]].
    + split; [apply brep_nil; auto|]. split; [apply brep_nil; auto|]. split; [apply zlen_alloc; nia|]. intros e [].
    + intros r Hr. replace r with 0 by lia. rewrite znth_zupd_eq by (rewrite zlen_alloc; lia). rewrite P0. reflexivity.
    + intros r Hr. replace r with 0 by lia. rewrite znth_zupd_eq by (rewrite zlen_alloc; lia). rewrite P0. reflexivity.
  - intros i [[[[l u] d] lptr] uptr] Hi' (HR & L1 & L2 & P1 & P2). wrd 0; [lia|]. wrd 0; [lia|]. wbind.
    assert (Ps : pre (i + 1) = pre i ++ rowE V i) by (unfold pre; rewrite zrange_snoc by lia; rewrite flat_map_app; cbn [flat_map]; rewrite app_nil_r; auto).
    assert (Pre : prefix (pre (i + 1)) E).
    { exists (flat_map (rowE V) (zrange (i + 1) (csr_n V))). unfold pre, E. rewrite csr_entries_rows. rewrite (zrange_app 0 (i + 1) (csr_n V)) by lia. rewrite flat_map_app. auto. }
    apply (for_items0 (fun dn s => bsrep bs (csr_n V) nl nu dn s) (pre (i + 1)) (fun k => [(i, znth 0 (csr_index V) k, znth s0 (csr_value V) k) : bent]) _ _ _ (pre i)).
    + rewrite flat_map_single. rewrite Ps. apply prefix_refl.
    + exact HR.
    + intros k [[l' u'] d'] dn Hk _ Hpf (R1 & R2 & R3). pose proof (csr_pos V i k HA Hi' Hk) as Hkn. wrd 0; [lia|].
      assert (Ev : znth s0 (csr_value V) k = blkof bs (bsr_value A) k).
      { unfold V, vview. cbn [csr_value]. fold b bs. rewrite (znth_map _ 0) by (rewrite zlen_zrange; change (bsr_bnnz A) with (csr_nnz V); lia). rewrite znth_zrange by (change (bsr_bnnz A) with (csr_nnz V); lia). f_equal. }
      rewrite Ev in *. assert (Hkv : bs * k + bs <= zlen (bsr_value A)). { change (bsr_bnnz A) with (csr_nnz V) in Bv. rewrite Hsq in Bv. fold b bs in Bv. nia. }
      set (e := (i, znth 0 (csr_index V) k, blkof bs (bsr_value A) k) : bent) in *.
      assert (Hpe : prefix (dn ++ [e]) E). { destruct Pre as (r1 & E1). destruct Hpf as (r2 & E2). exists (r2 ++ r1). rewrite E1, E2. rewrite <- !app_assoc. auto. }
      assert (D3 : erow e <> ecol e -> bdrep bs (csr_n V) (dn ++ [e]) d').
      { intros Ne. destruct R3 as (D1 & D2). split; auto. intros e' He' Eq. apply in_app_or in He'. destruct He' as [He'|[<-|[]]]; [auto|contradiction]. }
      destruct (Z.ltb_spec (znth 0 (csr_index V) k) i) as [Lt|Ge].
      * assert (F1 : filter lower (dn ++ [e]) = filter lower dn ++ [e]) by (rewrite filter_app; cbn [filter]; unfold lower at 2, e, erow, ecol; cbn [fst snd]; destruct (Z.ltb_spec (znth 0 (csr_index V) k) i); [auto|lia]).
        assert (F2 : filter upper (dn ++ [e]) = filter upper dn) by (rewrite filter_app; cbn [filter]; unfold upper at 2, e, erow, ecol; cbn [fst snd]; destruct (Z.ltb_spec i (znth 0 (csr_index V) k)); [lia|apply app_nil_r]).
        wbind. apply (emitb_wp bs Hbs nl (filter lower dn) l' i); auto; try lia.
        { pose proof (filter_prefix lower _ _ Hpe) as Hf. rewrite F1, zlen_app in Hf. change (zlen [e]) with 1 in Hf. fold nl in Hf. lia. }
        intros st R1'. apply wp_ok. split; [rewrite F1; exact R1'|]. split; [rewrite F2; auto|]. apply D3. unfold e, erow, ecol; cbn [fst snd]. lia.
      * destruct (Z.ltb_spec i (znth 0 (csr_index V) k)) as [Lt|Ge'].
        -- assert (F1 : filter upper (dn ++ [e]) = filter upper dn ++ [e]) by (rewrite filter_app; cbn [filter]; unfold upper at 2, e, erow, ecol; cbn [fst snd]; destruct (Z.ltb_spec i (znth 0 (csr_index V) k)); [auto|lia]).
           assert (F2 : filter lower (dn ++ [e]) = filter lower dn) by (rewrite filter_app; cbn [filter]; unfold lower at 2, e, erow, ecol; cbn [fst snd]; destruct (Z.ltb_spec (znth 0 (csr_index V) k) i); [lia|apply app_nil_r]).
           wbind. apply (emitb_wp bs Hbs nu (filter upper dn) u' i); auto; try lia.
           { pose proof (filter_prefix upper _ _ Hpe) as Hf. rewrite F1, zlen_app in Hf. change (zlen [e]) with 1 in Hf. fold nu in Hf. lia. }
           intros st R1'. apply wp_ok. split; [rewrite F2; auto|]. split; [rewrite F1; exact R1'|]. apply D3. unfold e, erow, ecol; cbn [fst snd]. lia.
        -- assert (F1 : filter upper (dn ++ [e]) = filter upper dn) by (rewrite filter_app; cbn [filter]; unfold upper at 2, e, erow, ecol; cbn [fst snd]; destruct (Z.ltb_spec i (znth 0 (csr_index V) k)); [lia|apply app_nil_r]).
           assert (F2 : filter lower (dn ++ [e]) = filter lower dn) by (rewrite filter_app; cbn [filter]; unfold lower at 2, e, erow, ecol; cbn [fst snd]; destruct (Z.ltb_spec (znth 0 (csr_index V) k) i); [lia|apply app_nil_r]).
           destruct R3 as (D1 & D2). wbind. eapply wp_mono; [apply memcpy_wp; nia|]. cbv beta. intros d2 (Ld & K1 & K2). apply wp_ok. split; [rewrite F2; auto|]. split; [rewrite F1; auto|]. split; [lia|].
           intros e' He' Eq q Hq. apply in_app_or in He'. assert (Hc : znth 0 (csr_index V) k = i) by lia.
           destruct He' as [He'|[<-|[]]].
           ++ destruct (Z.eq_dec (erow e') i) as [Er|Ner].
              ** exfalso.
                 destruct Hpe as (r & Er2). unfold no_dup_pos in Hu. rewrite Er2 in Hu. rewrite !map_app in Hu. apply NoDup_app_remove_r in Hu. cbn [map] in Hu.
                 apply NoDup_remove_2 in Hu. apply Hu. rewrite app_nil_r. apply in_map_iff. exists e'. split; auto. destruct e' as [[a c'] v']. unfold erow, ecol in *; cbn [fst snd] in *. unfold e; cbn [fst]. congruence.
              ** rewrite K2.
                 { apply D2; auto. }
                 assert (0 <= erow e').
                 { assert (In e' E) by (destruct Hpe as (r & ->); rewrite !in_app_iff; auto). apply (csr_in_shape V HA) in H. lia. }
                 nia.
           ++ unfold e, erow, eval; cbn [fst snd]. rewrite K1 by lia. rewrite znth_blkof by lia. auto.
    + intros [[l' u'] d'] HR'. rewrite flat_map_single in HR'. fold (rowE V i) in HR'. rewrite <- Ps in HR'. destruct l' as [[li lv] kl]. destruct u' as [[ui uv] ku]. cbn [snd].
      wwr; [lia|]. wwr; [lia|]. apply wp_ok. split; [exact HR'|]. destruct HR' as ((_ & _ & K1 & _) & (_ & _ & K2 & _) & _). split; [len|]. split; [len|]. split.
      * intros r Hr. rewrite znth_zupd by lia. destruct (Z.eqb_spec r (i + 1)) as [->|]; [auto|apply P1; lia].
      * intros r Hr. rewrite znth_zupd by lia. destruct (Z.eqb_spec r (i + 1)) as [->|]; [auto|apply P2; lia].
  - intros [[[[l u] d] lptr] uptr] (HR & L1 & L2 & P1 & P2). destruct l as [[li lv] kl]. destruct u as [[ui uv] ku].
    destruct HR as (RL & RU & (D1 & D2)). change (pre (csr_n V)) with E in *. pose proof (brep_emit bs nl _ _ _ _ RL) as EL. pose proof (brep_emit bs nu _ _ _ _ RU) as EU.
    pose proof RL as RL0. pose proof RU as RU0. destruct RL as (A1 & A2 & A3 & A4). destruct RU as (B1 & B2 & B3 & B4).
    pose proof (vview_sized A HA) as Sz. fold V b bs E in Sz.
    pose proof (csr_in_shape V HA) as Hsh. fold E in Hsh. assert (Hnv : csr_np V = csr_n V) by reflexivity.
    assert (Gl : let B := mkCsr (csr_n V) (csr_n V) kl lptr li (map eval (filter lower E)) in csr_entries B = filter lower E /\ (zlen (flat_map (fun i => filter lower (rowE V i)) (zrange 0 (csr_n V))) = kl -> csr_ok B)).
    { assert (FE : flat_map (fun i => filter lower (rowE V i)) (zrange 0 (csr_n V)) = filter lower E) by apply flat_map_filter. rewrite <- FE. apply csr_of_emit; auto; try lia.
      - rewrite FE. intros e He. apply filter_In in He. rewrite Hnv in Hsh. apply Hsh, He.
      - intros i e _ He. apply filter_In in He. apply (rowE_row V), He.
      - intros r Hr. rewrite flat_map_filter. apply P1; auto.
      - rewrite FE. unfold nl in A1. lia.
      - rewrite zlen_map. lia.
      - rewrite FE. auto. }
    assert (Gu : let B := mkCsr (csr_n V) (csr_n V) ku uptr ui (map eval (filter upper E)) in csr_entries B = filter upper E /\ (zlen (flat_map (fun i => filter upper (rowE V i)) (zrange 0 (csr_n V))) = ku -> csr_ok B)).
    { assert (FE : flat_map (fun i => filter upper (rowE V i)) (zrange 0 (csr_n V)) = filter upper E) by apply flat_map_filter. rewrite <- FE. apply csr_of_emit; auto; try lia.
      - rewrite FE. intros e He. apply filter_In in He. rewrite Hnv in Hsh. apply Hsh, He.
      - intros i e _ He. apply filter_In in He. apply (rowE_row V), He.
      - intros r Hr. rewrite flat_map_filter. apply P2; auto.
      - rewrite FE. unfold nu in B1. lia.
      - rewrite zlen_map. lia.
      - rewrite FE. auto. }
    destruct Gl as (Gl1 & Gl2). destruct Gu as (Gu1 & Gu2). rewrite flat_map_filter in Gl2, Gu2.
    apply wp_ok. cbn [bs_n bs_np bs_b bs_nr bs_L bs_U bs_D bsr_n bsr_np]. do 4 (split; [auto|]). split; [|split; [|do 4 (split; [auto|]); split; [exact D1|exact D2]]].
    + unfold tri_ok. rewrite (vview_emit bs nl (filter lower E)); auto; [|intros e He; apply filter_In in He; apply Sz, He].
      cbn [bsr_nr bsr_bnr bsr_bnc bsr_bnnz bsr_bptr bsr_bindex bsr_value]. do 3 (split; [auto|]). split; [apply Gl2; auto|]. split; [exact Gl1|]. fold bs; unfold nl in *; nia.
    + unfold tri_ok. rewrite (vview_emit bs nu (filter upper E)); auto; [|intros e He; apply filter_In in He; apply Sz, He].
      cbn [bsr_nr bsr_bnr bsr_bnc bsr_bnnz bsr_bptr bsr_bindex bsr_value]. do 3 (split; [auto|]). split; [apply Gu2; auto|]. split; [exact Gu1|]. fold bs; unfold nu in *; nia.
Qed.
End P.
