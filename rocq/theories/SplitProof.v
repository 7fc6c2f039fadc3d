(** Proofs about Split.v *)
Require Import ZArith List Bool Lia Permutation Ring.
From Verif Require Import Base Scalar Spec Items CscProof Fmt AssembleProof MatvecProof Split SpecSplit DiagProof DiagProof2.
Import ListNotations.
Open Scope Z_scope.

Section P.
Context {T : Type} {S : Scalar T}.

Definition rowE (A : csr T) (i : Z) : list (entry T) :=
  map (fun k => (i, znth 0 (csr_index A) k, znth s0 (csr_value A) k) : entry T) (zrange (znth 0 (csr_ptr A) i) (znth 0 (csr_ptr A) (i + 1))).
Lemma csr_entries_rows (A : csr T) : csr_entries A = flat_map (rowE A) (zrange 0 (csr_n A)).
Proof. reflexivity. Qed.
Lemma rowE_row (A : csr T) i e : In e (rowE A i) -> erow e = i.
Proof. intros H. apply in_map_iff in H. destruct H as (k & <- & _). reflexivity. Qed.
Lemma flat_map_filter {A B} (p : B -> bool) (g : A -> list B) l : flat_map (fun i => filter p (g i)) l = filter p (flat_map g l).
Proof. induction l; cbn [flat_map]; auto. rewrite filter_app, IHl. auto. Qed.

(** ** emitting entries *)
Definition rep (N : Z) (F : list (entry T)) (st : list Z * list T * Z) : Prop :=
  let '(ix, vl, k) := st in zlen ix = N /\ zlen vl = N /\ k = zlen F /\ emit_rep F ix vl.
Lemma rep_nil N ji (jv : Z -> T) : 0 <= N -> rep N [] (alloc N ji, alloc N jv, 0).
Proof. intros H. split; [apply zlen_alloc; auto|]. split; [apply zlen_alloc; auto|]. split; [reflexivity|apply emit_nil]. Qed.
Lemma emit_wp N F st r c v (Q : list Z * list T * Z -> Prop) : rep N F st -> zlen F < N ->
  (forall st', rep N (F ++ [(r, c, v) : entry T]) st' -> Q st') -> wp (emit st c v) Q.
Proof.
  destruct st as [[ix vl] k]. intros (H1 & H2 & -> & H3) Hl HQ. unfold emit. pose proof (zlen_nonneg F). wwr; [lia|]. wwr; [lia|]. apply wp_ok. apply HQ.
  split; [len|]. split; [len|]. split; [rewrite zlen_app; reflexivity|]. apply (emit_step F ix vl (r, c, v)); auto; lia.
Qed.
Lemma filter_prefix (p : entry T -> bool) d t : prefix d t -> zlen (filter p d) <= zlen (filter p t).
Proof. intros (r & ->). rewrite filter_app, zlen_app. pose proof (zlen_nonneg (filter p r)). lia. Qed.

Lemma csr_pos (A : csr T) i k : csr_ok A -> 0 <= i < csr_n A -> znth 0 (csr_ptr A) i <= k < znth 0 (csr_ptr A) (i + 1) ->
  0 <= k < csr_nnz A.
Proof. intros (Hp & _ & Hz & _) Hi Hk. rewrite <- Hz. pose proof (ptr_ok_bounds _ _ i k Hp Hi Hk). lia. Qed.

(** ** split *)
Lemma split_count_wp (A : csr T) (Q : Z * Z -> Prop) : csr_ok A ->
  Q (zlen (filter lower (csr_entries A)), zlen (filter upper (csr_entries A))) -> wp (split_count A) Q.
Proof.
  intros HA HQ. pose proof HA as (Hp & Hnp & Hz & Hi & Hv & Hx). pose proof Hp as (Hn & Hlp & _ & Hm). unfold split_count.
  apply (for_wp' (fun i s => s = (zlen (filter lower (flat_map (rowE A) (zrange 0 i))), zlen (filter upper (flat_map (rowE A) (zrange 0 i)))))); auto.
  - intros i s Hi' ->. wrd 0; [lia|]. wrd 0; [lia|]. rewrite zrange_snoc by lia. rewrite flat_map_app. cbn [flat_map]. rewrite app_nil_r. unfold rowE at 3 6.
    apply (for_wp' (fun k s => s = (zlen (filter lower (flat_map (rowE A) (zrange 0 i) ++ map (fun k => (i, znth 0 (csr_index A) k, znth s0 (csr_value A) k) : entry T) (zrange (znth 0 (csr_ptr A) i) k))),
                                    zlen (filter upper (flat_map (rowE A) (zrange 0 i) ++ map (fun k => (i, znth 0 (csr_index A) k, znth s0 (csr_value A) k) : entry T) (zrange (znth 0 (csr_ptr A) i) k)))))); auto.
    + rewrite (zrange_empty (znth 0 (csr_ptr A) i)) by lia. cbn [map]. rewrite !app_nil_r. auto.
    + intros k s Hk ->. pose proof (csr_pos A i k HA Hi' Hk). wrd 0; [lia|]. rewrite zrange_snoc by lia. rewrite !map_app, !app_assoc. cbn [map]. rewrite !(filter_app _ (_ ++ _)). rewrite !(zlen_app (filter _ (_ ++ _))). cbn [filter].
      assert (El : lower ((i, znth 0 (csr_index A) k, znth s0 (csr_value A) k) : entry T) = (znth 0 (csr_index A) k <? i)) by reflexivity. assert (Eu : upper ((i, znth 0 (csr_index A) k, znth s0 (csr_value A) k) : entry T) = (i <? znth 0 (csr_index A) k)) by reflexivity. rewrite El, Eu. clear El Eu.
      destruct (Z.ltb_spec (znth 0 (csr_index A) k) i); destruct (Z.ltb_spec i (znth 0 (csr_index A) k)); apply wp_ok; try lia; f_equal; change (zlen (@nil (entry T))) with 0; rewrite ?zlen_cons; change (zlen (@nil (entry T))) with 0; lia.
  - intros s ->. auto.
Qed.

(** D: every stored diagonal entry processed so far is in place *)
Definition drep (n : Z) (dn : list (entry T)) (d : list T) : Prop :=
  zlen d = n /\ forall e, In e dn -> erow e = ecol e -> znth s0 d (erow e) = eval e.
Definition srep (n nl nu : Z) (dn : list (entry T)) (s : (list Z * list T * Z) * (list Z * list T * Z) * list T) : Prop :=
  let '(l, u, d) := s in rep nl (filter lower dn) l /\ rep nu (filter upper dn) u /\ drep n dn d.

Lemma split_wp jlp jli jlv jup jui juv jd (A : csr T) : csr_ok A -> no_dup_pos (csr_entries A) ->
  wp (split_csr jlp jli jlv jup jui juv jd A) (fun sp => sp_n sp = csr_n A /\ sp_np sp = csr_np A /\ split_ok sp /\
     csr_entries (sp_L sp) = filter lower (csr_entries A) /\ csr_entries (sp_U sp) = filter upper (csr_entries A) /\
     (forall e, In e (csr_entries A) -> erow e = ecol e -> znth s0 (sp_D sp) (erow e) = eval e)).
Proof.
  intros HA Hu. pose proof HA as (Hp & Hnp & Hz & Hi & Hv & Hx). pose proof Hp as (Hn & Hlp & _ & Hm). unfold split_csr. wbind. apply split_count_wp; auto.
  set (E := csr_entries A). set (nl := zlen (filter lower E)). set (nu := zlen (filter upper E)).
  assert (Hnl : 0 <= nl) by apply zlen_nonneg. assert (Hnu : 0 <= nu) by apply zlen_nonneg.
  wwr; [rewrite zlen_alloc; lia|]. wwr; [rewrite zlen_alloc; lia|]. wbind.
  set (pre := fun i => flat_map (rowE A) (zrange 0 i)).
  apply (for_wp' (fun i (s : (list Z * list T * Z) * (list Z * list T * Z) * list T * list Z * list Z) => let '(l, u, d, lptr, uptr) := s in srep (csr_n A) nl nu (pre i) (l, u, d) /\
     zlen lptr = csr_n A + 1 /\ zlen uptr = csr_n A + 1 /\
     (forall r, 0 <= r <= i -> znth 0 lptr r = zlen (filter lower (pre r))) /\ (forall r, 0 <= r <= i -> znth 0 uptr r = zlen (filter upper (pre r))))); auto.
  - assert (P0 : pre 0 = []) by reflexivity. rewrite P0. split; [|split; [rewrite zlen_zupd, zlen_alloc; lia|split; [rewrite zlen_zupd, zlen_alloc; lia|split]]].
    + split; [apply rep_nil; auto|]. split; [apply rep_nil; auto|]. split; [apply zlen_alloc; auto|]. intros e [].
    + intros r Hr. replace r with 0 by lia. rewrite znth_zupd_eq by (rewrite zlen_alloc; lia). rewrite P0. reflexivity.
    + intros r Hr. replace r with 0 by lia. rewrite znth_zupd_eq by (rewrite zlen_alloc; lia). rewrite P0. reflexivity.
  - intros i [[[[l u] d] lptr] uptr] Hi' (HR & L1 & L2 & P1 & P2). wrd 0; [lia|]. wrd 0; [lia|]. wbind.
    assert (Ps : pre (i + 1) = pre i ++ rowE A i) by (unfold pre; rewrite zrange_snoc by lia; rewrite flat_map_app; cbn [flat_map]; rewrite app_nil_r; auto).
    assert (Pre : prefix (pre (i + 1)) E).
    { exists (flat_map (rowE A) (zrange (i + 1) (csr_n A))). unfold pre, E. rewrite csr_entries_rows. rewrite (zrange_app 0 (i + 1) (csr_n A)) by lia. rewrite flat_map_app. auto. }
    apply (for_items0 (fun dn s => srep (csr_n A) nl nu dn s) (pre (i + 1)) (fun k => [(i, znth 0 (csr_index A) k, znth s0 (csr_value A) k) : entry T]) _ _ _ (pre i)).
    + rewrite flat_map_single. rewrite Ps. apply prefix_refl.
    + exact HR.
    + intros k [[l' u'] d'] dn Hk _ Hpf (R1 & R2 & R3). pose proof (csr_pos A i k HA Hi' Hk). wrd 0; [lia|]. wrd s0; [lia|].
      set (e := (i, znth 0 (csr_index A) k, znth s0 (csr_value A) k) : entry T) in *.
      assert (Hpe : prefix (dn ++ [e]) E). { destruct Pre as (r1 & E1). destruct Hpf as (r2 & E2). exists (r2 ++ r1). rewrite E1, E2. rewrite <- !app_assoc. auto. }
      assert (D3 : erow e <> ecol e -> drep (csr_n A) (dn ++ [e]) d').
      { intros Ne. destruct R3 as (D1 & D2). split; auto. intros e' He' Eq. apply in_app_or in He'. destruct He' as [He'|[<-|[]]]; [auto|contradiction]. }
      destruct (Z.ltb_spec (znth 0 (csr_index A) k) i) as [Lt|Ge].
      * assert (F1 : filter lower (dn ++ [e]) = filter lower dn ++ [e]) by (rewrite filter_app; cbn [filter]; unfold lower at 2, e, erow, ecol; cbn [fst snd]; destruct (Z.ltb_spec (znth 0 (csr_index A) k) i); [auto|lia]).
        assert (F2 : filter upper (dn ++ [e]) = filter upper dn) by (rewrite filter_app; cbn [filter]; unfold upper at 2, e, erow, ecol; cbn [fst snd]; destruct (Z.ltb_spec i (znth 0 (csr_index A) k)); [lia|apply app_nil_r]).
        wbind. apply (emit_wp nl (filter lower dn) l' i); auto.
        { pose proof (filter_prefix lower _ _ Hpe) as Hf. rewrite F1, zlen_app in Hf. change (zlen [e]) with 1 in Hf. fold nl in Hf. lia. }
        intros st R1'. apply wp_ok. split; [rewrite F1; exact R1'|]. split; [rewrite F2; auto|]. apply D3. unfold e, erow, ecol; cbn [fst snd]. lia.
      * destruct (Z.ltb_spec i (znth 0 (csr_index A) k)) as [Lt|Ge'].
        -- assert (F1 : filter upper (dn ++ [e]) = filter upper dn ++ [e]) by (rewrite filter_app; cbn [filter]; unfold upper at 2, e, erow, ecol; cbn [fst snd]; destruct (Z.ltb_spec i (znth 0 (csr_index A) k)); [auto|lia]).
           assert (F2 : filter lower (dn ++ [e]) = filter lower dn) by (rewrite filter_app; cbn [filter]; unfold lower at 2, e, erow, ecol; cbn [fst snd]; destruct (Z.ltb_spec (znth 0 (csr_index A) k) i); [lia|apply app_nil_r]).
           wbind. apply (emit_wp nu (filter upper dn) u' i); auto.
           { pose proof (filter_prefix upper _ _ Hpe) as Hf. rewrite F1, zlen_app in Hf. change (zlen [e]) with 1 in Hf. fold nu in Hf. lia. }
           intros st R1'. apply wp_ok. split; [rewrite F2; auto|]. split; [rewrite F1; exact R1'|]. apply D3. unfold e, erow, ecol; cbn [fst snd]. lia.
        -- assert (F1 : filter upper (dn ++ [e]) = filter upper dn) by (rewrite filter_app; cbn [filter]; unfold upper at 2, e, erow, ecol; cbn [fst snd]; destruct (Z.ltb_spec i (znth 0 (csr_index A) k)); [lia|apply app_nil_r]).
           assert (F2 : filter lower (dn ++ [e]) = filter lower dn) by (rewrite filter_app; cbn [filter]; unfold lower at 2, e, erow, ecol; cbn [fst snd]; destruct (Z.ltb_spec (znth 0 (csr_index A) k) i); [lia|apply app_nil_r]).
           destruct R3 as (D1 & D2). wwr; [lia|]. apply wp_ok. split; [rewrite F2; auto|]. split; [rewrite F1; auto|]. split; [len|].
           intros e' He' Eq. apply in_app_or in He'. assert (Hc : znth 0 (csr_index A) k = i) by lia.
           destruct He' as [He'|[<-|[]]].
           ++ rewrite znth_zupd by lia. destruct (Z.eqb_spec (erow e') i) as [Er|]; [|auto]. exfalso.
              destruct Hpe as (r & Er2). unfold no_dup_pos in Hu. fold E in Hu. rewrite Er2 in Hu. rewrite !map_app in Hu. apply NoDup_app_remove_r in Hu. cbn [map] in Hu.
              apply NoDup_remove_2 in Hu. apply Hu. rewrite app_nil_r. apply in_map_iff. exists e'. split; auto. destruct e' as [[a c'] v']. unfold erow, ecol in *; cbn [fst snd] in *. unfold e; cbn [fst]. congruence.
           ++ unfold e, erow, eval; cbn [fst snd]. rewrite znth_zupd_eq by lia. auto.
    + intros [[l' u'] d'] HR'. rewrite flat_map_single in HR'. fold (rowE A i) in HR'. rewrite <- Ps in HR'. destruct l' as [[li lv] kl]. destruct u' as [[ui uv] ku]. cbn [snd].
      wwr; [lia|]. wwr; [lia|]. apply wp_ok. split; [exact HR'|]. destruct HR' as ((_ & _ & K1 & _) & (_ & _ & K2 & _) & _). split; [len|]. split; [len|]. split.
      * intros r Hr. rewrite znth_zupd by lia. destruct (Z.eqb_spec r (i + 1)) as [->|]; [auto|apply P1; lia].
      * intros r Hr. rewrite znth_zupd by lia. destruct (Z.eqb_spec r (i + 1)) as [->|]; [auto|apply P2; lia].
  - intros [[[[l u] d] lptr] uptr] (HR & L1 & L2 & P1 & P2). destruct l as [[li lv] kl]. destruct u as [[ui uv] ku].
    destruct HR as ((A1 & A2 & A3 & A4) & (B1 & B2 & B3 & B4) & (D1 & D2)). change (pre (csr_n A)) with E in *.
    pose proof (csr_in_shape A HA) as Hsh. fold E in Hsh.
    assert (Gl : let B := mkCsr (csr_n A) (csr_np A) kl lptr li lv in csr_entries B = filter lower E /\ (zlen (flat_map (fun i => filter lower (rowE A i)) (zrange 0 (csr_n A))) = kl -> csr_ok B)).
    { assert (FE : flat_map (fun i => filter lower (rowE A i)) (zrange 0 (csr_n A)) = filter lower E) by apply flat_map_filter. rewrite <- FE. apply csr_of_emit; auto; try lia.
      - rewrite FE. intros e He. apply filter_In in He. apply Hsh, He.
      - intros i e _ He. apply filter_In in He. apply (rowE_row A), He.
      - intros r Hr. rewrite flat_map_filter. apply P1; auto.
      - rewrite FE. unfold nl in A1. lia.
      - rewrite FE. unfold nl in A2. lia.
      - rewrite FE. auto. }
    assert (Gu : let B := mkCsr (csr_n A) (csr_np A) ku uptr ui uv in csr_entries B = filter upper E /\ (zlen (flat_map (fun i => filter upper (rowE A i)) (zrange 0 (csr_n A))) = ku -> csr_ok B)).
    { assert (FE : flat_map (fun i => filter upper (rowE A i)) (zrange 0 (csr_n A)) = filter upper E) by apply flat_map_filter. rewrite <- FE. apply csr_of_emit; auto; try lia.
      - rewrite FE. intros e He. apply filter_In in He. apply Hsh, He.
      - intros i e _ He. apply filter_In in He. apply (rowE_row A), He.
      - intros r Hr. rewrite flat_map_filter. apply P2; auto.
      - rewrite FE. unfold nu in B1. lia.
      - rewrite FE. unfold nu in B2. lia.
      - rewrite FE. auto. }
    destruct Gl as (Gl1 & Gl2). destruct Gu as (Gu1 & Gu2). rewrite flat_map_filter in Gl2, Gu2.
    apply wp_ok. cbn [sp_n sp_np sp_L sp_U sp_D]. split; [auto|]. split; [auto|]. split.
    { unfold split_ok; cbn [sp_n sp_np sp_L sp_U sp_D csr_n csr_np]. rewrite Gl1, Gu1. split; [apply Gl2; auto|]. split; [auto|]. split; [auto|]. split.
      { intros e He. apply filter_In in He. destruct He as [_ He]. apply Z.ltb_lt in He. auto. }
      split; [apply Gu2; auto|]. split; [auto|]. split; [auto|]. split; [|lia].
      intros e He. apply filter_In in He. destruct He as [_ He]. apply Z.ltb_lt in He. auto. }
    split; [auto|]. split; [auto|]. exact D2.
Qed.

(** the diagonal entries as a list *)
Definition on_diag (e : entry T) : bool := erow e =? ecol e.
Lemma split_perm (E : list (entry T)) : Permutation E (filter lower E ++ filter on_diag E ++ filter upper E).
Proof.
  induction E as [|e E IH]; [constructor|]. cbn [filter]. unfold lower at 1, on_diag at 1, upper at 1.
  destruct (Z.ltb_spec (ecol e) (erow e)); destruct (Z.eqb_spec (erow e) (ecol e)); destruct (Z.ltb_spec (erow e) (ecol e)); try lia; cbn [app].
  - constructor. exact IH.
  - rewrite IH at 1. apply Permutation_middle.
  - rewrite IH at 1. rewrite !app_assoc. apply Permutation_middle.
Qed.
Lemma diag_perm n np (E : list (entry T)) d : in_shape n np E -> no_dup_pos E -> (forall i, 0 <= i < n -> has_diag E i = true) ->
  (forall e, In e E -> erow e = ecol e -> znth s0 d (erow e) = eval e) -> Permutation (filter on_diag E) (diag_entries n d).
Proof.
  intros Hs Hu Hd HD. apply NoDup_Permutation.
  - apply (NoDup_map_inv fst). apply NoDup_filter_map. exact Hu.
  - unfold diag_entries. apply FinFun.Injective_map_NoDup; [|apply NoDup_zrange]. intros a b [= ->]; auto.
  - intros e. rewrite filter_In. unfold diag_entries. rewrite in_map_iff. split.
    + intros (He & Ed). apply Z.eqb_eq in Ed. exists (erow e). split; [|apply In_zrange, Hs; auto]. rewrite (HD e He Ed). destruct e as [[a b] v]; unfold erow, ecol, eval in *; cbn [fst snd] in *. congruence.
    + intros (i & <- & Hi). apply In_zrange in Hi. specialize (Hd i Hi). apply has_diag_In in Hd. apply in_map_iff in Hd. destruct Hd as (e & Ee & He).
      assert (Er : erow e = i /\ ecol e = i) by (unfold erow, ecol; rewrite Ee; auto). destruct Er as [E1 E2].
      specialize (HD e He ltac:(congruence)). rewrite E1 in HD. split; [|unfold on_diag, erow, ecol; cbn [fst snd]; apply Z.eqb_refl].
      replace (i, i, znth s0 d i) with e; auto. destruct e as [[a b] v]; unfold erow, ecol, eval in *; cbn [fst snd] in *. congruence.
Qed.

(** ** merge *)
Lemma merge_wp jp ji jv (A : split T) : split_ok A ->
  wp (merge_csr jp ji jv A) (fun B => csr_ok B /\ csr_n B = sp_n A /\ csr_np B = sp_np A /\ Permutation (csr_entries B) (split_entries A)).
Proof.
  intros (HL & L1 & L2 & L3 & HU & U1 & U2 & U3 & HD). pose proof HL as (HpL & HnpL & HzL & HiL & HvL & HxL). pose proof HU as (HpU & HnpU & HzU & HiU & HvU & HxU).
  pose proof HpL as (Hn & HlpL & _ & HmL). pose proof HpU as (_ & HlpU & _ & HmU). rewrite L1 in *. rewrite U1 in *. unfold merge_csr. cbv zeta.
  set (n := sp_n A) in *. set (N := csr_nnz (sp_L A) + csr_nnz (sp_U A) + n).
  set (g := fun i => rowE (sp_L A) i ++ (i, i, znth s0 (sp_D A) i) :: rowE (sp_U A) i).
  assert (HzL0 : 0 <= csr_nnz (sp_L A)) by (pose proof (ptr_pos n (csr_ptr (sp_L A)) n HpL ltac:(lia)); lia). assert (HzU0 : 0 <= csr_nnz (sp_U A)) by (pose proof (ptr_pos n (csr_ptr (sp_U A)) n HpU ltac:(lia)); lia).
  assert (GP : Permutation (flat_map g (zrange 0 n)) (split_entries A)).
  { unfold split_entries. rewrite !csr_entries_rows, L1, U1. unfold g. rewrite flat_map_add. apply Permutation_app_head. apply flat_map_cons_perm. }
  assert (GL : zlen (flat_map g (zrange 0 n)) = N).
  { unfold zlen. rewrite (Permutation_length GP). unfold split_entries. rewrite !app_length, !Nat2Z.inj_add. fold (zlen (csr_entries (sp_L A))). fold (zlen (csr_entries (sp_U A))). fold (zlen (diag_entries (sp_n A) (sp_D A))).
    change (csr_entries (sp_L A)) with (ptr_items (csr_n (sp_L A)) (csr_ptr (sp_L A)) (fun i k => (i, znth 0 (csr_index (sp_L A)) k, znth s0 (csr_value (sp_L A)) k) : entry T)).
    change (csr_entries (sp_U A)) with (ptr_items (csr_n (sp_U A)) (csr_ptr (sp_U A)) (fun i k => (i, znth 0 (csr_index (sp_U A)) k, znth s0 (csr_value (sp_U A)) k) : entry T)).
    rewrite !zlen_ptr_items by (rewrite ?L1, ?U1; auto). rewrite L1, U1. unfold diag_entries. rewrite zlen_map, zlen_zrange. fold n. unfold N. lia. }
  wwr; [rewrite zlen_alloc; lia|]. wbind.
  apply (for_wp' (fun i (s : (list Z * list T * Z) * list Z) => let '(e, ptr) := s in rep N (flat_map g (zrange 0 i)) e /\ zlen ptr = n + 1 /\ forall r, 0 <= r <= i -> znth 0 ptr r = zlen (flat_map g (zrange 0 r)))); auto.
  - change (flat_map g (zrange 0 0)) with (@nil (entry T)). split; [apply rep_nil; lia|]. split; [rewrite zlen_zupd, zlen_alloc; lia|].
    intros r Hr. replace r with 0 by lia. rewrite znth_zupd_eq by (rewrite zlen_alloc; lia). reflexivity.
  - intros i [e ptr] Hi (HR & Lp & HP). wrd 0; [lia|]. wrd 0; [lia|]. wbind.
    assert (Ps : flat_map g (zrange 0 (i + 1)) = flat_map g (zrange 0 i) ++ g i) by (rewrite zrange_snoc by lia; rewrite flat_map_app; cbn [flat_map]; rewrite app_nil_r; auto).
    assert (Room : forall d, prefix d (flat_map g (zrange 0 (i + 1))) -> zlen d <= N).
    { intros d Hd. apply prefix_len in Hd. pose proof (flat_map_le g (i + 1) n ltac:(lia)). lia. }
    apply (for_items0 (fun d e => rep N d e) (flat_map g (zrange 0 (i + 1))) (fun k => [(i, znth 0 (csr_index (sp_L A)) k, znth s0 (csr_value (sp_L A)) k) : entry T]) _ _ _ (flat_map g (zrange 0 i))).
    + rewrite flat_map_single. rewrite Ps. exists ((i, i, znth s0 (sp_D A) i) :: rowE (sp_U A) i). unfold g at 2, rowE. rewrite app_assoc. auto.
    + auto.
    + intros k e' d Hk _ Hpf Hr. pose proof (csr_pos (sp_L A) i k HL ltac:(lia) Hk). wrd 0; [lia|]. wrd s0; [lia|]. apply (emit_wp N d e' i); auto.
      apply Room in Hpf. rewrite zlen_app in Hpf. change (zlen [_]) with 1 in Hpf. lia.
    + intros e1 R1. rewrite flat_map_single in R1. wrd s0; [lia|]. wbind.
      apply (emit_wp N _ e1 i i _ _ R1).
      { assert (Hpf : prefix ((flat_map g (zrange 0 i) ++ rowE (sp_L A) i) ++ [(i, i, znth s0 (sp_D A) i) : entry T]) (flat_map g (zrange 0 (i + 1)))).
        { rewrite Ps. exists (rowE (sp_U A) i). unfold g at 2. rewrite <- !app_assoc. auto. }
        apply Room in Hpf. rewrite zlen_app in Hpf. change (zlen [_]) with 1 in Hpf. unfold rowE in Hpf. lia. }
      intros e2 R2. wrd 0; [lia|]. wrd 0; [lia|]. wbind.
      apply (for_items0 (fun d e => rep N d e) (flat_map g (zrange 0 (i + 1))) (fun k => [(i, znth 0 (csr_index (sp_U A)) k, znth s0 (csr_value (sp_U A)) k) : entry T]) _ _ _ ((flat_map g (zrange 0 i) ++ rowE (sp_L A) i) ++ [(i, i, znth s0 (sp_D A) i) : entry T])).
      * rewrite flat_map_single. rewrite Ps. exists []. unfold g at 2. rewrite app_nil_r, <- !app_assoc. auto.
      * exact R2.
      * intros k e' d Hk _ Hpf Hr. pose proof (csr_pos (sp_U A) i k HU ltac:(lia) Hk). wrd 0; [lia|]. wrd s0; [lia|]. apply (emit_wp N d e' i); auto.
        apply Room in Hpf. rewrite zlen_app in Hpf. change (zlen [_]) with 1 in Hpf. lia.
      * intros e3 R3. rewrite flat_map_single in R3. replace ((((flat_map g (zrange 0 i) ++ rowE (sp_L A) i) ++ [(i, i, znth s0 (sp_D A) i) : entry T]) ++ _)) with (flat_map g (zrange 0 (i + 1))) in R3 by (rewrite Ps; unfold g at 2; rewrite <- !app_assoc; auto).
        destruct e3 as [[ix vl] k]. cbn [snd]. wwr; [lia|]. apply wp_ok. split; [exact R3|]. split; [len|]. destruct R3 as (_ & _ & K & _).
        intros r Hr. rewrite znth_zupd by lia. destruct (Z.eqb_spec r (i + 1)) as [->|]; [auto|apply HP; lia].
  - intros [e ptr] (HR & Lp & HP). destruct e as [[ix vl] k]. destruct HR as (R1 & R2 & R3 & R4). apply wp_ok. cbn [csr_n csr_np].
    assert (Sh : in_shape n (sp_np A) (flat_map g (zrange 0 n))).
    { intros e He. apply (Permutation_in _ GP) in He. unfold split_entries in He. apply in_app_or in He. destruct He as [He|He]; [apply (csr_in_shape _ HL) in He; rewrite L1, L2 in He; auto|].
      apply in_app_or in He. destruct He as [He|He]; [|apply (csr_in_shape _ HU) in He; rewrite U1, U2 in He; auto].
      apply in_map_iff in He. destruct He as (i & <- & Hi). apply In_zrange in Hi. fold n in Hi. unfold erow, ecol; cbn [fst snd]. lia. }
    assert (G : let B := mkCsr n (sp_np A) k ptr ix vl in csr_entries B = flat_map g (zrange 0 n) /\ (zlen (flat_map g (zrange 0 n)) = k -> csr_ok B)).
    { apply csr_of_emit; auto; try lia. intros i e Hi He. unfold g in He. apply in_app_or in He. destruct He as [He|[<-|He]]; [apply (rowE_row _ _ _ He)|reflexivity|apply (rowE_row _ _ _ He)]. }
    destruct G as (G1 & G2). split; [apply G2; auto|]. split; [auto|]. split; [auto|]. rewrite G1. exact GP.
Qed.
End P.
