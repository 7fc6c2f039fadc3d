(** Proofs about JadSolve.v: walking along a row of a triangle; the triangular solves *)
Require Import ZArith List Bool Lia Ring Permutation.
From Verif Require Import DiagProof2 DiagProof2 Base Scalar Spec Items Fmt Split SplitFmt SpecSplit SpecSplitFmt TriLoops TriLines TriSolve MatvecProof SplitProof2 SplitMsr SplitCsc JadProof JadSolve SpecJadSolve JadLay JadSplitP.
Import ListNotations.
Open Scope Z_scope.

Lemma for_step {St} lo hi (body : Z -> St -> res St) s : lo < hi -> for_ lo hi body s = (s' <- body lo s ;; for_ (lo + 1) hi body s').
Proof. intros H. unfold for_. replace (Z.to_nat (hi - lo)) with (Datatypes.S (Z.to_nat (hi - (lo + 1)))) by lia. reflexivity. Qed.
Lemma for_ub {St} (I : St -> Prop) lo hi i0 (body : Z -> St -> res St) s : lo <= i0 < hi -> I s ->
  (forall i s, I s -> lo <= i < hi -> body i s = UB \/ exists s', body i s = Ok s' /\ I s') -> (forall s, I s -> body i0 s = UB) -> for_ lo hi body s = UB.
Proof.
  intros Hi HI Hb Hu. assert (G : forall k : nat, forall lo' s, Z.of_nat k = i0 - lo' -> lo <= lo' -> I s -> for_ lo' hi body s = UB).
  { induction k as [|k IH]; intros lo' s' Hk Hlo Hs; rewrite for_step by lia.
    - replace lo' with i0 by lia. rewrite Hu by auto. reflexivity.
    - destruct (Hb lo' s' Hs ltac:(lia)) as [->|(s2 & -> & Hs2)]; [reflexivity|]. cbn [bind]. apply IH; auto; lia. }
  apply (G (Z.to_nat (i0 - lo))); auto; lia.
Qed.
Lemma ford_step {St} lo hi (body : Z -> St -> res St) s : lo <= hi -> for_down hi lo body s = (s' <- body hi s ;; for_down (hi - 1) lo body s').
Proof. intros H. unfold for_down. replace (Z.to_nat (hi - lo + 1)) with (Datatypes.S (Z.to_nat (hi - 1 - lo + 1))) by lia. reflexivity. Qed.
Lemma ford_ub {St} (I : St -> Prop) lo hi i0 (body : Z -> St -> res St) s : lo <= i0 <= hi -> I s ->
  (forall i s, I s -> lo <= i <= hi -> body i s = UB \/ exists s', body i s = Ok s' /\ I s') -> (forall s, I s -> body i0 s = UB) -> for_down hi lo body s = UB.
Proof.
  intros Hi HI Hb Hu. assert (G : forall k : nat, forall hi' s, Z.of_nat k = hi' - i0 -> hi' <= hi -> I s -> for_down hi' lo body s = UB).
  { induction k as [|k IH]; intros hi' s' Hk Hhi Hs; rewrite ford_step by lia.
    - replace hi' with i0 by lia. rewrite Hu by auto. reflexivity.
    - destruct (Hb hi' s' Hs ltac:(lia)) as [->|(s2 & -> & Hs2)]; [reflexivity|]. cbn [bind]. apply IH; auto; lia. }
  apply (G (Z.to_nat (hi - i0))); auto; lia.
Qed.
Lemma bind_ext {A B} (m m' : res A) (f g : A -> res B) : m = m' -> (forall a, f a = g a) -> (x <- m ;; f x) = (x <- m' ;; g x).
Proof. intros -> H. destruct m'; cbn [bind]; auto. Qed.
Lemma bind_assoc {A B C} (m : res A) (f : A -> res B) (g : B -> res C) : (y <- (x <- m ;; f x) ;; g y) = (x <- m ;; y <- f x ;; g y).
Proof. destruct m; reflexivity. Qed.

Section W.
Context {T : Type} {S : Scalar T}.
Hypothesis RT : is_ring S.
Let RT' : @ring_theory T s0 s1 sadd smul ssub sopp (@eq T) := RT.
Add Ring scalar_ring_jw : RT'.
Variables (n m N : Z) (len : Z -> Z) (perm ptr col : list Z).
Hypothesis HL : laid n m N len perm ptr col.
Hypothesis Hlen : forall r, 0 <= r < n -> 0 <= len r <= m.
Notation wcond ptr' := (fun st => let '(j, l, _) := st in q <- rd ptr' l ;; Ok ((j <? q) && (l <=? m))).
Notation wbody ptr' k item := (fun st => let '(j, l, s) := st in s <- item j s ;; q <- rd ptr' l ;; Ok (q + k, l + 1, s)).

(** enough words after ptr: the whole row, whatever the word behind *)
Lemma walk_steps {St} (ptr' : list Z) i (item : Z -> St -> res St) : (forall s, 0 <= s <= m -> znth 0 ptr' s = znth 0 ptr s) -> 0 <= i < n -> len i + 2 <= zlen ptr' ->
  forall (c : nat) q fuel s, Z.of_nat c = len i - q -> 0 <= q -> (c < fuel)%nat ->
  while_ fuel (wcond ptr') (wbody ptr' (znth 0 col i) item) (znth 0 ptr q + znth 0 col i, q + 1, s) =
  (s' <- for_ q (len i) (fun l s => item (znth 0 ptr l + znth 0 col i) s) s ;; Ok (znth 0 ptr (len i) + znth 0 col i, len i + 1, s')).
Proof using HL Hlen.
  intros Hp Hi Hz. pose proof (Hlen i Hi) as Hli. induction c as [|c IH]; intros q fuel s Hc Hq Hf.
  - destruct fuel as [|fuel]; [lia|]. assert (q = len i) by lia. subst q. rewrite for_empty by lia. cbn [while_ bind]. rewrite (rd_ok 0) by lia. cbn [bind].
    destruct (Z.leb_spec (len i + 1) m); rewrite ?andb_false_r; [|reflexivity]. rewrite Hp by lia. pose proof (slot_end n m N len perm ptr col HL Hlen i Hi ltac:(lia)).
    destruct (Z.ltb_spec (znth 0 ptr (len i) + znth 0 col i) (znth 0 ptr (len i + 1))); [lia|reflexivity].
  - destruct fuel as [|fuel]; [lia|]. rewrite for_step by lia. cbn [while_]. rewrite (rd_ok 0) by lia. cbn [bind]. rewrite Hp by lia. pose proof (slot_lt n m N len perm ptr col HL Hlen q i Hi ltac:(lia)) as Hs.
    destruct (Z.ltb_spec (znth 0 ptr q + znth 0 col i) (znth 0 ptr (q + 1))); [|lia]. destruct (Z.leb_spec (q + 1) m); [|lia]. cbn [andb].
    destruct (item (znth 0 ptr q + znth 0 col i) s) as [s1'| |]; cbn [bind]; [|reflexivity|reflexivity].
    rewrite (IH (q + 1) fuel s1'); [reflexivity|lia|lia|lia].
Qed.
Lemma walk_past {St} (ptr' : list Z) i (item : Z -> St -> res St) : (forall s, 0 <= s <= m -> znth 0 ptr' s = znth 0 ptr s) -> 0 <= i < n -> len i = m -> zlen ptr' = m + 1 ->
  forall (c : nat) q fuel s, Z.of_nat c = len i - q -> 0 <= q -> (c < fuel)%nat ->
  while_ fuel (wcond ptr') (wbody ptr' (znth 0 col i) item) (znth 0 ptr q + znth 0 col i, q + 1, s) =
  (s' <- for_ q (len i) (fun l s => item (znth 0 ptr l + znth 0 col i) s) s ;; UB).
Proof using HL Hlen.
  intros Hp Hi Hm Hz. pose proof (Hlen i Hi) as Hli. induction c as [|c IH]; intros q fuel s Hc Hq Hf.
  - destruct fuel as [|fuel]; [lia|]. assert (q = len i) by lia. subst q. rewrite for_empty by lia. cbn [while_ bind]. rewrite rd_ub by lia. reflexivity.
  - destruct fuel as [|fuel]; [lia|]. rewrite for_step by lia. cbn [while_]. rewrite (rd_ok 0) by lia. cbn [bind]. rewrite Hp by lia. pose proof (slot_lt n m N len perm ptr col HL Hlen q i Hi ltac:(lia)) as Hs.
    destruct (Z.ltb_spec (znth 0 ptr q + znth 0 col i) (znth 0 ptr (q + 1))); [|lia]. destruct (Z.leb_spec (q + 1) m); [|lia]. cbn [andb].
    destruct (item (znth 0 ptr q + znth 0 col i) s) as [s1'| |]; cbn [bind]; [|reflexivity|reflexivity].
    rewrite (IH (q + 1) fuel s1'); [reflexivity|lia|lia|lia].
Qed.
Variables (n0 np0 nnz0 : Z) (perm0 ix : list Z) (vl : list T).
Notation side ptr' := (mkJside (mkJad n0 np0 nnz0 m perm0 ptr' ix vl) col).
Lemma walk_ok {St} ptr' i (item : Z -> St -> res St) s : (forall s, 0 <= s <= m -> znth 0 ptr' s = znth 0 ptr s) -> 0 <= i < n -> len i + 2 <= zlen ptr' ->
  jad_walk (side ptr') i item s = for_ 0 (len i) (fun l s => item (znth 0 ptr l + znth 0 col i) s) s.
Proof using HL Hlen.
  intros Hp Hi Hz. unfold jad_walk. cbn [jd_A jd_col jad_maxnzr jad_ptr]. pose proof HL as (_ & _ & Lc & (_ & _ & P0 & _) & _). pose proof (Hlen i Hi). rewrite (rd_ok 0 col) by lia. cbn [bind]. rewrite (rd_ok 0 ptr') by lia. cbn [bind]. rewrite Hp by lia.
  rewrite (walk_steps ptr' i item Hp Hi Hz (Z.to_nat (len i)) 0); [|lia|lia|lia]. rewrite bind_assoc. cbn [bind snd]. destruct (for_ 0 (len i) _ s); reflexivity.
Qed.
Lemma walk_ub {St} ptr' i (item : Z -> St -> res St) s : (forall s, 0 <= s <= m -> znth 0 ptr' s = znth 0 ptr s) -> 0 <= i < n -> len i = m -> zlen ptr' = m + 1 ->
  jad_walk (side ptr') i item s = (s' <- for_ 0 (len i) (fun l s => item (znth 0 ptr l + znth 0 col i) s) s ;; UB).
Proof using HL Hlen.
  intros Hp Hi Hm Hz. unfold jad_walk. cbn [jd_A jd_col jad_maxnzr jad_ptr]. pose proof HL as (_ & _ & Lc & (_ & _ & P0 & _) & _). pose proof (Hlen i Hi). rewrite (rd_ok 0 col) by lia. cbn [bind]. rewrite (rd_ok 0 ptr') by lia. cbn [bind]. rewrite Hp by lia.
  rewrite (walk_past ptr' i item Hp Hi Hm Hz (Z.to_nat (len i)) 0); [|lia|lia|lia]. rewrite bind_assoc. cbn [bind snd]. destruct (for_ 0 (len i) _ s); reflexivity.
Qed.
End W.

Section F.
Context {T : Type} {S : Scalar T}.
Hypothesis RT : is_ring S.
Let RT' : @ring_theory T s0 s1 sadd smul ssub sopp (@eq T) := RT.
Add Ring scalar_ring_jf : RT'.
Variable A : jad T.
Hypothesis HA : jad_ok A.
Hypothesis Hsq : jad_np A = jad_n A.
Notation n := (jad_n A).
Notation E := (jad_entries A).

Section Side.
Variables (P : entry T -> bool) (B : jside T).
Hypothesis HB : side_ok A P B.
Notation L := (jd_A B).
Notation ln := (jln P E).
Notation pos i := (fun q => znth 0 (jad_ptr L) q + znth 0 (jd_col B) i).
Lemma side_len r : 0 <= r < n -> 0 <= zlen (ln r) <= jad_maxnzr L.
Proof using HB. intros Hr. destruct HB as (_ & _ & _ & _ & H & _). split; [apply zlen_nonneg|auto]. Qed.
Lemma side_walk {St} w i (item : Z -> St -> res St) s : 0 <= i < n -> jad_walk (word_behind w B) i item s = for_ 0 (zlen (ln i)) (fun l s => item (pos i l) s) s.
Proof using HB.
  intros Hi. pose proof HB as (_ & _ & _ & _ & _ & _ & HLd & _). pose proof HLd as (_ & Lp & _). unfold word_behind. pose proof (side_len i Hi). pose proof (zlen_nonneg (ln i)).
  apply (walk_ok n (jad_maxnzr L) _ (fun r => zlen (ln r)) (jad_perm L) (jad_ptr L) (jd_col B) HLd side_len); auto.
  - intros q Hq. rewrite znth_app by lia. destruct (Z.ltb_spec q (zlen (jad_ptr L))); [reflexivity|lia].
  - rewrite zlen_app. change (zlen [w]) with 1. lia.
Qed.
Lemma side_items i : 0 <= i < n -> flat_map (pitem (jix B) (jvl B) (pos i)) (zrange 0 (zlen (ln i))) = ln i.
Proof using HB.
  intros Hi. destruct HB as (_ & _ & _ & _ & _ & _ & _ & _ & _ & H).
  rewrite (list_table (0, s0) (ln i)) at 2. rewrite <- flat_map_single. apply flat_map_ext_in. intros q Hq. apply In_zrange in Hq. unfold pitem, jix, jvl. rewrite H by auto. reflexivity.
Qed.
Lemma ln_in i p : In p (ln i) -> 0 <= fst p < n /\ exists e, In e E /\ P e = true /\ erow e = i /\ p = pay e.
Proof using HA Hsq. intros Hp. pose proof (jln_In P E i p Hp) as (e & He & H1 & H2 & ->). pose proof (jad_in_shape A HA e He) as [_ Hc]. rewrite Hsq in Hc. split; [exact Hc|eauto 10]. Qed.
Lemma side_pok i : 0 <= i < n -> pok (jix B) (jvl B) (pos i) n 0 (zlen (ln i)).
Proof using HB HA Hsq.
  intros Hi q Hq. pose proof HB as (_ & _ & _ & _ & _ & _ & HLd & L1 & L2 & H). pose proof (slot_range n (jad_maxnzr L) _ (fun r => zlen (ln r)) (jad_perm L) (jad_ptr L) (jd_col B) HLd side_len q i Hi Hq) as Hs. cbv beta. unfold jix, jvl. split; [lia|]. split; [lia|].
  specialize (H i q Hi Hq). assert (Hin : In (znth (0, s0) (ln i) q) (ln i)) by (apply znth_In; lia). rewrite <- H in Hin. apply ln_in in Hin. apply Hin.
Qed.
Lemma side_gat w g : gat_ok n g ln (fun i x t => jad_walk (word_behind w B) i (item_sub g (jix (word_behind w B)) (jvl (word_behind w B)) x) t).
Proof using HB HA Hsq RT. intros i x t Hi Hx. rewrite side_walk by auto. change (jix (word_behind w B)) with (jix B). change (jvl (word_behind w B)) with (jvl B). rewrite (p_gat RT (jix B) (jvl B) (pos i) n) by (auto using side_pok). rewrite side_items by auto. reflexivity. Qed.
Lemma side_add w g : add_ok n g ln (fun i x t => jad_walk (word_behind w B) i (item_add g (jix (word_behind w B)) (jvl (word_behind w B)) x) t).
Proof using HB HA Hsq RT. intros i x t Hi Hx. rewrite side_walk by auto. change (jix (word_behind w B)) with (jix B). change (jvl (word_behind w B)) with (jvl B). rewrite (p_add RT (jix B) (jvl B) (pos i) n) by (auto using side_pok). rewrite side_items by auto. reflexivity. Qed.
Lemma side_sca w g : sca_ok n g ln (fun i t x => jad_walk (word_behind w B) i (item_scat g (jix (word_behind w B)) (jvl (word_behind w B)) t) x).
Proof using HB HA Hsq RT. intros i t x Hi Hx. rewrite side_walk by auto. change (jix (word_behind w B)) with (jix B). change (jvl (word_behind w B)) with (jvl B). rewrite <- (side_items i Hi) at 2. apply (p_sca RT (jix B) (jvl B) (pos i) n); auto using side_pok. Qed.
Lemma side_live w g : g s0 = s0 -> (forall i p, 0 <= i < n -> In p (ln i) -> fst p = i -> snd p = s0) -> live_ok n g ln (fun i x => jad_walk (word_behind w B) i (item_live g (jix (word_behind w B)) (jvl (word_behind w B)) i) x).
Proof using HB HA Hsq RT.
  intros G HD i x Hi Hx. rewrite side_walk by auto. change (jix (word_behind w B)) with (jix B). change (jvl (word_behind w B)) with (jvl B). rewrite <- (side_items i Hi) at 2. apply (p_live RT (jix B) (jvl B) (pos i) n); auto using side_pok.
  rewrite side_items by auto. intros p Hp. apply (HD i); auto.
Qed.
(** without a word behind ptr: some row is left half way *)
Lemma side_out {St} i (item : Z -> St -> res St) s (I : St -> Prop) : 0 <= i < n -> I s -> (forall q s, 0 <= q < zlen (ln i) -> I s -> exists s', item (pos i q) s = Ok s' /\ I s') ->
  (zlen (ln i) = jad_maxnzr L -> jad_walk B i item s = UB) /\ (jad_walk B i item s = UB \/ exists s', jad_walk B i item s = Ok s' /\ I s').
Proof using HB.
  intros Hi HI Hit. pose proof HB as (_ & _ & _ & _ & _ & _ & HLd & L1 & _). pose proof HLd as (_ & Lp & _). pose proof (side_len i Hi) as Hl.
  assert (W : exists s', for_ 0 (zlen (ln i)) (fun l s => item (pos i l) s) s = Ok s' /\ I s').
  { apply (wp_ex (for_ 0 (zlen (ln i)) (fun l s => item (pos i l) s) s) I). apply (for_wp' (fun _ s => I s)); [lia|auto| |auto]. intros q s1' Hq H1'. destruct (Hit q s1') as (s2 & -> & H2); [lia|auto|]. apply wp_ok. exact H2. }
  destruct W as (s' & W & HI').
  assert (EB : B = mkJside (mkJad (jad_n L) (jad_np L) (jad_nnz L) (jad_maxnzr L) (jad_perm L) (jad_ptr L) (jad_index L) (jad_value L)) (jd_col B)) by (destruct B as [[] ?]; reflexivity).
  assert (EU : zlen (ln i) = jad_maxnzr L -> jad_walk B i item s = UB).
  { intros Em. rewrite EB. rewrite (walk_ub n (jad_maxnzr L) _ (fun r => zlen (ln r)) (jad_perm L) (jad_ptr L) (jd_col B) HLd side_len); auto. cbv beta. rewrite W. reflexivity. }
  split; auto. destruct (Z.eq_dec (zlen (ln i)) (jad_maxnzr L)) as [Em|Em]; [left; auto|right]. exists s'. split; [|exact HI']. rewrite <- W. rewrite EB at 1.
  apply (walk_ok n (jad_maxnzr L) _ (fun r => zlen (ln r)) (jad_perm L) (jad_ptr L) (jd_col B) HLd side_len); auto. cbv beta. lia.
Qed.
End Side.

Lemma lc_jln P i j : lc (jln P E i) j = ssum (map (fun e => if P e && (erow e =? i) && (ecol e =? j) then eval e else s0) E).
Proof using RT.
  unfold jln, lc. rewrite map_map. cbn [pay fst snd]. induction E as [|e l IH]; [reflexivity|]. cbn [filter map ssum]. rewrite <- IH.
  destruct (P e && (erow e =? i)); cbn [map ssum andb]; [reflexivity|ring].
Qed.
Lemma coef_as_sum i j : coef E i j = ssum (map (fun e => if (erow e =? i) && (ecol e =? j) then eval e else s0) E).
Proof using RT. induction E as [|e l IH]; [reflexivity|]. rewrite coef_cons. unfold at_ij. cbn [map ssum]. rewrite IH. destruct ((erow e =? i) && (ecol e =? j)); [reflexivity|ring]. Qed.
Lemma jln_low : lowline n (jln lower E) (coef E).
Proof using RT HA Hsq.
  intros i Hi. split.
  - intros p Hp. apply ln_in in Hp. destruct Hp as (H & e & He & HP & Hr & ->). split; auto. cbn [pay fst snd]. unfold lower in HP. apply Z.ltb_lt in HP. lia.
  - intros j Hj. rewrite lc_jln, coef_as_sum. destruct (Z.ltb_spec j i).
    + apply ssum_map_ext. intros e _. unfold lower. destruct (Z.eqb_spec (erow e) i); destruct (Z.eqb_spec (ecol e) j); rewrite ?andb_false_r; cbn [andb]; auto. destruct (Z.ltb_spec (ecol e) (erow e)); [reflexivity|lia].
    + rewrite (ssum_map_ext _ (fun _ => s0)); [apply (ssum_map_zero RT)|]. intros e _. unfold lower. destruct (Z.eqb_spec (erow e) i); destruct (Z.eqb_spec (ecol e) j); rewrite ?andb_false_r; cbn [andb]; auto. destruct (Z.ltb_spec (ecol e) (erow e)); [lia|reflexivity].
Qed.
Lemma jln_upp : uppline n (jln upper E) (coef E).
Proof using RT HA Hsq.
  intros i Hi. split.
  - intros p Hp. apply ln_in in Hp. destruct Hp as (H & e & He & HP & Hr & ->). split; auto. cbn [pay fst snd]. unfold upper in HP. apply Z.ltb_lt in HP. lia.
  - intros j Hj. rewrite lc_jln, coef_as_sum. destruct (Z.ltb_spec i j).
    + apply ssum_map_ext. intros e _. unfold upper. destruct (Z.eqb_spec (erow e) i); destruct (Z.eqb_spec (ecol e) j); rewrite ?andb_false_r; cbn [andb]; auto. destruct (Z.ltb_spec (erow e) (ecol e)); [reflexivity|lia].
    + rewrite (ssum_map_ext _ (fun _ => s0)); [apply (ssum_map_zero RT)|]. intros e _. unfold upper. destruct (Z.eqb_spec (erow e) i); destruct (Z.eqb_spec (ecol e) j); rewrite ?andb_false_r; cbn [andb]; auto. destruct (Z.ltb_spec (erow e) (ecol e)); [lia|reflexivity].
Qed.

Lemma jad_solve_final (FT : is_field S) jlq jlp jlc jli jlv juq jup juc jui juv jd : no_dup_pos E -> (forall i, 0 <= i < n -> coef E i i <> s0) ->
  exists P wd, split_jad jlq jlp jlc jli jlv juq jup juc jui juv jd A = Ok P /\ diag_inverse n (js_D P) = Ok wd /\ forall wl wu, let P' := words_behind wl wu P in
    solves_lower n E (solve_lower_jad P' wd) /\ solves_upper n E (solve_upper_jad P' wd) /\ solves_ssor n E (solve_ssor_jad P' wd) /\
    (conj_ok S -> solvesh_lower n E (solveh_lower_jad P' wd) /\ solvesh_upper n E (solveh_upper_jad P' wd) /\ solvesh_ssor n E (solveh_ssor_jad P' wd)).
Proof using RT HA Hsq.
  intros HND Hd. pose proof HA as (Hn & _). destruct (wp_ex _ _ (split_jad_wp A HA Hsq jlq jlp jlc jli jlv juq jup juc jui juv jd)) as (P & EP & P1 & P2 & P3 & P4 & P5).
  specialize (P5 HND).
  assert (Hdd : forall i, 0 <= i < n -> znth s0 (js_D P) i = coef E i i).
  { intros i Hi. specialize (Hd i Hi). destruct (existsb (fun e => (erow e =? i) && (ecol e =? i)) E) eqn:EX.
    - apply existsb_exists in EX. destruct EX as (e & He & EE). apply andb_true_iff in EE. destruct EE as [E1 E2]. apply Z.eqb_eq in E1. apply Z.eqb_eq in E2.
      rewrite <- E1 at 1. rewrite (P5 e He) by lia. symmetry. apply (coef_eq RT E i i (eval e)); auto. destruct e as [[r c] v]. unfold erow, ecol, eval in *. cbn [fst snd] in *. subst. exact He.
    - exfalso. apply Hd. rewrite coef_as_sum. rewrite (ssum_map_ext _ (fun _ => s0)); [apply (ssum_map_zero RT)|]. intros e He. destruct ((erow e =? i) && (ecol e =? i)) eqn:EE; [|reflexivity]. exfalso. assert (existsb (fun e => (erow e =? i) && (ecol e =? i)) E = true) by (apply existsb_exists; eauto). congruence. }
  destruct (diag_inverse_wp RT FT n (js_D P)) as (wd & EW & LW & HW). { lia. } { intros i Hi. rewrite Hdd by auto. auto. }
  exists P, wd. split; auto. split; auto. intros wl wu. cbv zeta.
  assert (Hw : n <= zlen wd) by lia. assert (Hinv : forall i, 0 <= i < n -> smul (coef E i i) (znth s0 wd i) = s1) by (intros i Hi; rewrite <- Hdd by auto; auto).
  assert (Hn' : 0 <= n) by lia. pose proof jln_low as HL. pose proof jln_upp as HU.
  assert (ZL : forall i p, 0 <= i < n -> In p (jln lower E i) -> fst p = i -> snd p = s0). { intros i p Hi Hp. apply (HL i Hi); auto. }
  assert (ZU : forall i p, 0 <= i < n -> In p (jln upper E i) -> fst p = i -> snd p = s0). { intros i p Hi Hp. apply (HU i Hi); auto. }
  split; [|split; [|split; [|intros HC; pose proof HC as (_ & _ & _ & C0 & _); split; [|split]]]].
  - unfold solve_lower_jad. cbn [words_behind js_n js_L js_U]. rewrite P1. apply (row_lower RT n _ wd Hn' Hw Hinv (jln lower E)); auto. apply side_gat; auto.
  - unfold solve_upper_jad. cbn [words_behind js_n js_L js_U]. rewrite P1. apply (row_upper RT n _ wd Hn' Hw Hinv (jln upper E)); auto. apply side_gat; auto.
  - unfold solve_ssor_jad, solve_lower_jad. cbn [words_behind js_n js_L js_U]. rewrite P1. apply (row_ssor RT n _ wd Hn' Hw Hinv (jln lower E) (jln upper E)); auto. { apply side_gat; auto. } apply side_add; auto.
  - unfold solveh_lower_jad. cbn [words_behind js_n js_L js_U]. rewrite P1. apply (row_h_lower RT n _ wd Hn' Hw Hinv HC (jln upper E)); auto. apply side_live; auto.
  - unfold solveh_upper_jad. cbn [words_behind js_n js_L js_U]. rewrite P1. apply (row_h_upper RT n _ wd Hn' Hw Hinv HC (jln lower E)); auto. apply side_live; auto.
  - unfold solveh_ssor_jad. cbn [words_behind js_n js_L js_U]. rewrite P1. apply (row_h_ssor RT n _ wd Hn' Hw Hinv HC (jln lower E) (jln upper E)); auto; apply side_sca; auto.
Qed.
End F.
