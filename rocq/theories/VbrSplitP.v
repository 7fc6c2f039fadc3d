(** lis_matrix_split_vbr writes behind its arrays; proofs about VbrSplit.v *)
Require Import ZArith List Bool Lia.
From Verif Require Import Base Scalar Spec Items ConvertExact BsrSolve VbrSplit SpecVbrSplit.
Import ListNotations.
Open Scope Z_scope.

(** *** programs which never return an error code *)
Definition noerr {A} (m : res A) : Prop := forall z, m <> Err z.
Lemma ne_ok {A} (a : A) : noerr (Ok a). Proof. intros z; discriminate. Qed.
Lemma ne_bind {A B} (m : res A) (f : A -> res B) : noerr m -> (forall a, noerr (f a)) -> noerr (bind m f).
Proof. intros H1 H2 z. destruct m as [a|e|]; cbn [bind]; [apply H2|exfalso; apply (H1 e); auto|discriminate]. Qed.
Lemma ne_rd {A} (a : list A) i : noerr (rd a i).
Proof. intros z. unfold rd. destruct (i <? 0); [discriminate|]. destruct (nth_error a (Z.to_nat i)); discriminate. Qed.
Lemma ne_wr {A} (a : list A) i v : noerr (wr a i v).
Proof. intros z. unfold wr. repeat match goal with |- (if ?c then _ else _) <> _ => destruct c end; try discriminate. Qed.
Lemma ne_for {St} lo hi body (s : St) : (forall i s, noerr (body i s)) -> noerr (for_ lo hi body s).
Proof.
  intros H. unfold for_. generalize (Z.to_nat (hi - lo)) as k. intros k. revert lo s. induction k as [|k IH]; intros lo s; cbn [for_n]; [apply ne_ok|]. apply ne_bind; auto.
Qed.
Ltac ne := repeat first [ apply ne_ok | apply ne_rd | apply ne_wr
  | match goal with |- noerr (bind _ _) => apply ne_bind; [|intro] end
  | match goal with |- noerr (for_ _ _ _ _) => apply ne_for; intros ? ? end
  | match goal with |- noerr (let '(_, _) := ?s in _) => destruct s end
  | match goal with |- noerr (if ?c then _ else _) => destruct c end ].

(** *** partial correctness with the index in the invariant *)
Lemma wl_for_ix {St} (I : Z -> St -> Prop) lo hi body (s : St) (Q : St -> Prop) : I lo s -> (forall i s, lo <= i < hi -> I i s -> wl (body i s) (I (i + 1))) ->
  (forall s, I (Z.max lo hi) s -> Q s) -> wl (for_ lo hi body s) Q.
Proof.
  intros H0 HB HQ. unfold for_. replace (Z.max lo hi) with (lo + Z.of_nat (Z.to_nat (hi - lo))) in HQ by lia.
  assert (HB' : forall i s, lo <= i < lo + Z.of_nat (Z.to_nat (hi - lo)) -> I i s -> wl (body i s) (I (i + 1))) by (intros; apply HB; auto; lia). clear HB.
  revert HB' HQ. generalize (Z.to_nat (hi - lo)) as k. intros k. revert lo s H0. induction k as [|k IH]; intros lo s H0 HB HQ; cbn [for_n].
  - apply wl_ok. apply HQ. replace (lo + Z.of_nat 0) with lo by lia. auto.
  - eapply wl_bind; [apply HB; [lia|auto]|]. cbn beta. intros s' HI'. apply IH; auto. { intros i s1 Hi. apply HB. lia. } intros s1. replace (lo + 1 + Z.of_nat k) with (lo + Z.of_nat (Datatypes.S k)) by lia. apply HQ.
Qed.
Lemma wl_rd {A} (d : A) (l : list A) i : wl (rd l i) (fun v => v = znth d l i).
Proof. intros v H. apply (rd_inv d) in H. tauto. Qed.

Section M.
Context {T : Type} {S : Scalar T}.
Lemma memcpy_wl k (d : list T) o s p : wl (memcpy k d o s p) (fun d' => zlen d' = zlen d /\ (1 <= k -> o + k <= zlen d)).
Proof.
  unfold memcpy. apply (wl_for_ix (fun q d' => zlen d' = zlen d /\ (1 <= q -> o + q <= zlen d))).
  - split; [auto|lia].
  - intros q d' Hq [H1 H2]. eapply wl_bind; [apply (wl_true)|]. intros v _. intros d2 Hd2. apply wr_inv in Hd2. destruct Hd2 as [Hd2 ->]. rewrite zlen_zupd. split; auto. intros _. lia.
  - intros d' [H1 H2]. split; auto. intros Hk. replace (Z.max 0 k) with k in H2 by lia. auto.
Qed.

Variable A : vbr T.
Notation size i j := (block_elements A i j).
Notation bk := (fun j => znth 0 (vbr_bindex A) j).
Definition posn (d : list (Z * Z)) (P : Z -> Z -> bool) : Z := zlen (filter (fun b => P (fst b) (bk (snd b))) d).
Fixpoint elems (d : list (Z * Z)) (P : Z -> Z -> bool) : Z :=
  match d with [] => 0 | b :: d => (if P (fst b) (bk (snd b)) then size (fst b) (snd b) else 0) + elems d P end.
Definition low (i jj : Z) := jj <? i.
Definition upp (i jj : Z) := i <? jj.
Lemma posn_snoc d i j P : posn (d ++ [(i, j)]) P = posn d P + if P i (bk j) then 1 else 0.
Proof. unfold posn. rewrite filter_app, zlen_app. cbn [filter fst snd]. destruct (P i (bk j)); [change (zlen [(i, j)]) with 1|change (zlen (@nil (Z * Z))) with 0]; lia. Qed.
Lemma elems_snoc d i j P : elems (d ++ [(i, j)]) P = elems d P + if P i (bk j) then size i j else 0.
Proof. induction d as [|b d IH]; cbn [elems app fst snd]; [lia|]. rewrite IH. lia. Qed.
Definition row_blocks (i : Z) : list (Z * Z) := map (pair i) (zrange (znth 0 (vbr_bptr A) i) (znth 0 (vbr_bptr A) (i + 1))).
Definition blocks : list (Z * Z) := flat_map row_blocks (zrange 0 (vbr_nr A)).

(** the loop over all blocks *)
Lemma seg_wl {St} (I : list (Z * Z) -> St -> Prop) (body : Z -> Z -> St -> res St) i s : 0 <= i < vbr_nr A ->
  (forall d i j s, In (i, j) blocks -> I d s -> wl (body i j s) (I (d ++ [(i, j)]))) -> I (flat_map row_blocks (zrange 0 i)) s ->
  wl (js <- rd (vbr_bptr A) i ;; je <- rd (vbr_bptr A) (i + 1) ;; for_ js je (body i) s) (I (flat_map row_blocks (zrange 0 (i + 1)))).
Proof using.
  intros Hi HB HI. eapply wl_bind; [apply (wl_rd 0)|]. intros js ->. eapply wl_bind; [apply (wl_rd 0)|]. intros je ->.
  set (js := znth 0 (vbr_bptr A) i). set (je := znth 0 (vbr_bptr A) (i + 1)).
  apply (wl_for_ix (fun j s => I (flat_map row_blocks (zrange 0 i) ++ map (pair i) (zrange js j)) s)).
  + rewrite (zrange_empty js js) by lia. cbn [map]. rewrite app_nil_r. auto.
  + intros j s2 Hj H2. rewrite (zrange_snoc js j) by lia. rewrite map_app, app_assoc. cbn [map]. apply HB; auto.
    unfold blocks. apply in_flat_map. exists i. split; [apply In_zrange; auto|]. unfold row_blocks. apply in_map. apply In_zrange. auto.
  + intros s2. rewrite (zrange_snoc 0 i) by lia. rewrite flat_map_app. cbn [flat_map]. rewrite app_nil_r. unfold row_blocks at 3. fold js je.
    replace (zrange js (Z.max js je)) with (zrange js je); auto. destruct (Z.le_gt_cases js je); [f_equal; lia|]. rewrite !zrange_empty by lia. auto.
Qed.
Lemma rows_wl {St} (I : list (Z * Z) -> St -> Prop) (f : Z -> St -> res St) s (Q : St -> Prop) :
  I [] s -> (forall i s, 0 <= i < vbr_nr A -> I (flat_map row_blocks (zrange 0 i)) s -> wl (f i s) (I (flat_map row_blocks (zrange 0 (i + 1))))) -> (forall s, I blocks s -> Q s) ->
  wl (for_ 0 (vbr_nr A) f s) Q.
Proof using.
  intros H0 HB HQ. apply (wl_for_ix (fun i s => I (flat_map row_blocks (zrange 0 i)) s)); auto.
  intros s1 H1. apply HQ. unfold blocks. destruct (Z.le_gt_cases 0 (vbr_nr A)); [replace (Z.max 0 (vbr_nr A)) with (vbr_nr A) in H1 by lia; auto|]. rewrite (zrange_empty 0 (vbr_nr A)) by lia. rewrite (zrange_empty 0 (Z.max 0 (vbr_nr A))) in H1 by lia. auto.
Qed.
Lemma vsize_wl i j : wl (vsize (vbr_row A) (vbr_col A) i (bk j)) (fun b => b = size i j).
Proof.
  unfold vsize, block_elements. eapply wl_bind; [apply (wl_rd 0)|]. intros r1 ->. eapply wl_bind; [apply (wl_rd 0)|]. intros r0 ->. eapply wl_bind; [apply (wl_rd 0)|]. intros c1 ->. eapply wl_bind; [apply (wl_rd 0)|]. intros c0 ->. apply wl_ok. reflexivity.
Qed.
Lemma count_wl : wl (split_count_vbr A) (fun s => s = ((posn blocks low, elems blocks low), (posn blocks upp, elems blocks upp))).
Proof.
  unfold split_count_vbr. set (I := fun d s => s = ((posn d low, elems d low), (posn d upp, elems d upp))).
  apply (rows_wl I); auto; [reflexivity|]. intros r s Hr HI.
  apply (seg_wl I (fun i j s => let '((nl, bl), (nu, bu)) := s in jj <- rd (vbr_bindex A) j ;;
      if jj <? i then bs <- vsize (vbr_row A) (vbr_col A) i jj ;; Ok ((nl + 1, bl + bs), (nu, bu))
      else if i <? jj then bs <- vsize (vbr_row A) (vbr_col A) i jj ;; Ok ((nl, bl), (nu + 1, bu + bs)) else Ok s)); auto.
  clear r s Hr HI.
  intros d i j s Hb HI. unfold I in *. subst s. cbn beta iota. eapply wl_bind; [apply (wl_rd 0)|]. intros jj ->. rewrite !posn_snoc, !elems_snoc.
  cbv beta. change (low i (znth 0 (vbr_bindex A) j)) with (znth 0 (vbr_bindex A) j <? i). change (upp i (znth 0 (vbr_bindex A) j)) with (i <? znth 0 (vbr_bindex A) j).
    destruct (Z.ltb_spec (bk j) i); [|destruct (Z.ltb_spec i (bk j))].
    + destruct (Z.ltb_spec i (bk j)); [lia|]. eapply wl_bind; [apply vsize_wl|]. intros b ->. apply wl_ok. rewrite !Z.add_0_r. reflexivity.
    + eapply wl_bind; [apply vsize_wl|]. intros b ->. apply wl_ok. rewrite !Z.add_0_r. reflexivity.
    + apply wl_ok. rewrite !Z.add_0_r. reflexivity.
Qed.

(** one triangle while it is filled: what is stored fits *)
Notation vfill := (list Z * list T * list Z * Z * Z)%type.
Definition fits (P : Z -> Z -> bool) (N : Z) (d : list (Z * Z)) (f : vfill) : Prop :=
  let '(_, vl, _, _, ne) := f in ne = elems d P /\ zlen vl = N /\ (elems d P <= N \/ elems d P <= 0).
Lemma emitv_wl P N d i j f c src p b : fits P N d f -> b = size i j -> 1 <= b -> P i (bk j) = true -> wl (emitv b f c src p) (fits P N (d ++ [(i, j)])).
Proof.
  destruct f as [[[[ix vl] pt] nb] ne]. intros (H1 & H2 & H3) -> Hb HP. unfold emitv.
  eapply wl_bind; [apply wl_true|]. intros ix' _. eapply wl_bind; [apply memcpy_wl|]. intros vl' [L1 L2]. eapply wl_bind; [apply wl_true|]. intros pt' _. apply wl_ok.
  unfold fits. rewrite elems_snoc, HP. split; [lia|]. split; [lia|]. left. lia.
Qed.
Lemma fits_no P N d i j f : fits P N d f -> P i (bk j) = false -> fits P N (d ++ [(i, j)]) f.
Proof. destruct f as [[[[ix vl] pt] nb] ne]. unfold fits. rewrite elems_snoc. intros H ->. rewrite Z.add_0_r. exact H. Qed.

Lemma elems_ge P d : (forall b, In b d -> 1 <= size (fst b) (snd b)) -> posn d P <= elems d P.
Proof.
  intros H. unfold posn. induction d as [|b d IH]; cbn [filter elems]; [unfold zlen; cbn; lia|]. specialize (IH (fun b' Hb => H b' (or_intror Hb))). specialize (H b (or_introl eq_refl)).
  destruct (P (fst b) (bk (snd b))); [|lia]. unfold zlen in *. cbn [length]. lia.
Qed.
Lemma elems_gt P d i j : (forall b, In b d -> 1 <= size (fst b) (snd b)) -> In (i, j) d -> P i (bk j) = true -> 2 <= size i j -> posn d P < elems d P.
Proof.
  intros H Hin HP Hs. unfold posn. induction d as [|b d IH]; [destruct Hin|]. cbn [filter elems]. assert (H' : forall b, In b d -> 1 <= size (fst b) (snd b)) by (intros; apply H; right; auto). pose proof (elems_ge P d H') as G. unfold posn in G.
  destruct Hin as [->|Hin].
  - cbn [fst snd]. rewrite HP. unfold zlen in *. cbn [length]. lia.
  - specialize (IH H' Hin). specialize (H b (or_introl eq_refl)). destruct (P (fst b) (bk (snd b))); unfold zlen in *; cbn [length]; lia.
Qed.

Hypothesis Hne : no_empty_blocks A.
Lemma in_blocks i j : In (i, j) blocks <-> 0 <= i < vbr_nr A /\ znth 0 (vbr_bptr A) i <= j < znth 0 (vbr_bptr A) (i + 1).
Proof using.
  unfold blocks, row_blocks. rewrite in_flat_map. split.
  - intros (r & Hr & H). apply in_map_iff in H. destruct H as (k & [= -> ->] & Hk). apply In_zrange in Hr, Hk. auto.
  - intros [H1 H2]. exists i. split; [apply In_zrange; auto|]. apply in_map. apply In_zrange. auto.
Qed.
Lemma blocks_size b : In b blocks -> 1 <= size (fst b) (snd b).
Proof using Hne. destruct b as [i j]. intros H. apply in_blocks in H. apply Hne; tauto. Qed.

Lemma split_vbr_wl jlr jlc jlp jlb jli jlv jur juc jup jub jui juv jb jd : wl (split_vbr jlr jlc jlp jlb jli jlv jur juc jup jub jui juv jb jd A)
  (fun _ => elems blocks low <= posn blocks low /\ elems blocks upp <= posn blocks upp).
Proof using Hne.
  unfold split_vbr. eapply wl_bind; [apply count_wl|]. cbv beta. intros s ->. cbn beta iota.
  eapply wl_bind; [apply wl_true|]. intros [bns d] _. do 4 (eapply wl_bind; [apply wl_true|]; intros ? _). do 4 (eapply wl_bind; [apply wl_true|]; intros ? _).
  set (NL := posn blocks low). set (NU := posn blocks upp).
  set (I := fun (q : list (Z * Z)) (s : vfill * vfill * list (list T) * list Z * list Z) => let '(l, u, _, _, _) := s in fits low NL q l /\ fits upp NU q u).
  assert (N0 : forall P, 0 <= posn blocks P) by (intros; apply zlen_nonneg).
  eapply (wl_bind _ _ (I blocks)).
  - apply (rows_wl I); auto.
    + unfold I, fits. cbn [elems]. rewrite !zlen_alloc by apply N0. split; split; auto; split; auto; right; lia.
    + intros i [[[[l u] dd] lb] ub] Hi HI.
      (* the row *)
      intros s' Hs'. unfold wl in *.
      assert (W : wl (js <- rd (vbr_bptr A) i ;; je <- rd (vbr_bptr A) (i + 1) ;; for_ js je (fun j s =>
          let '(l, u, d) := s in
          jj <- rd (vbr_bindex A) j ;;
          bs <- vsize (vbr_row A) (vbr_col A) i jj ;; p <- rd (vbr_ptr A) j ;;
          if jj <? i then l <- emitv bs l jj (vbr_value A) p ;; Ok (l, u, d)
          else if i <? jj then u <- emitv bs u jj (vbr_value A) p ;; Ok (l, u, d)
          else b <- rd d i ;; b <- memcpy bs b 0 (vbr_value A) p ;; d <- wr d i b ;; Ok (l, u, d)) (l, u, dd))
        (fun s => let '(l, u, _) := s in fits low NL (flat_map row_blocks (zrange 0 (i + 1))) l /\ fits upp NU (flat_map row_blocks (zrange 0 (i + 1))) u)).
      { apply (seg_wl (fun q s => let '(l, u, _) := s in fits low NL q l /\ fits upp NU q u) (fun i j s => let '(l, u, d) := s in
          jj <- rd (vbr_bindex A) j ;;
          bs <- vsize (vbr_row A) (vbr_col A) i jj ;; p <- rd (vbr_ptr A) j ;;
          if jj <? i then l <- emitv bs l jj (vbr_value A) p ;; Ok (l, u, d)
          else if i <? jj then u <- emitv bs u jj (vbr_value A) p ;; Ok (l, u, d)
          else b <- rd d i ;; b <- memcpy bs b 0 (vbr_value A) p ;; d <- wr d i b ;; Ok (l, u, d))); auto.
        intros q r j [[l1 u1] d1] Hb [F1 F2]. pose proof (blocks_size _ Hb) as Hsz. cbn [fst snd] in Hsz.
        eapply wl_bind; [apply (wl_rd 0)|]. intros jj ->. eapply wl_bind; [apply vsize_wl|]. intros b ->. eapply wl_bind; [apply wl_true|]. intros p _.
        destruct (Z.ltb_spec (bk j) r) as [E1|E1]; [|destruct (Z.ltb_spec r (bk j)) as [E2|E2]].
        - eapply wl_bind; [apply (emitv_wl low NL q r j); auto; apply Z.ltb_lt; auto|]. intros l2 F. apply wl_ok. split; auto. apply fits_no; auto. apply Z.ltb_ge; lia.
        - eapply wl_bind; [apply (emitv_wl upp NU q r j); auto; apply Z.ltb_lt; auto|]. intros l2 F. apply wl_ok. split; auto. apply fits_no; auto. apply Z.ltb_ge; lia.
        - do 3 (eapply wl_bind; [apply wl_true|]; intros ? _). apply wl_ok. split; apply fits_no; auto; apply Z.ltb_ge; lia. }
      destruct (rd (vbr_bptr A) i) as [js|z|]; cbn [bind] in *; try discriminate. destruct (rd (vbr_bptr A) (i + 1)) as [je|z|]; cbn [bind] in *; try discriminate.
      match type of Hs' with bind ?m _ = _ => destruct m as [[[l2 u2] d2]|z|] eqn:EM; cbn [bind] in Hs'; try discriminate end.
      specialize (W _ eq_refl). cbn beta iota in W. destruct l2 as [[[[? ?] ?] ?] ?], u2 as [[[[? ?] ?] ?] ?].
      match type of Hs' with bind ?m _ = _ => destruct m; cbn [bind] in Hs'; try discriminate end. match type of Hs' with bind ?m _ = _ => destruct m; cbn [bind] in Hs'; try discriminate end.
      injection Hs' as <-. exact W.
  - intros [[[[l u] dd] lb] ub] [F1 F2]. destruct l as [[[[? ?] ?] ?] ?], u as [[[[? ?] ?] ?] ?]. apply wl_ok. unfold fits in F1, F2. fold NL NU. pose proof (N0 low). pose proof (N0 upp). lia.
Qed.
Lemma split_vbr_ne jlr jlc jlp jlb jli jlv jur juc jup jub jui juv jb jd : noerr (split_vbr jlr jlc jlp jlb jli jlv jur juc jup jub jui juv jb jd A).
Proof using. unfold split_vbr, split_count_vbr, diag_alloc_vbr, copy_ints, vsize, emitv, memcpy. ne. Qed.
Lemma split_vbr_out jlr jlc jlp jlb jli jlv jur juc jup jub jui juv jb jd i j : off_diagonal_block A i j -> 2 <= size i j ->
  split_vbr jlr jlc jlp jlb jli jlv jur juc jup jub jui juv jb jd A = UB.
Proof using Hne.
  intros (Hi & Hj & Hd) Hs. pose proof (split_vbr_wl jlr jlc jlp jlb jli jlv jur juc jup jub jui juv jb jd) as W. pose proof (split_vbr_ne jlr jlc jlp jlb jli jlv jur juc jup jub jui juv jb jd) as NE.
  destruct (split_vbr jlr jlc jlp jlb jli jlv jur juc jup jub jui juv jb jd A) as [P|z|]; [exfalso|destruct (NE z eq_refl)|reflexivity].
  destruct (W P eq_refl) as [WL WU]. assert (Hb : In (i, j) blocks) by (apply in_blocks; auto). pose proof blocks_size as HB.
  assert (K : bk j < i \/ i < bk j) by lia. destruct K as [K|K].
  - pose proof (elems_gt low blocks i j HB Hb ltac:(apply Z.ltb_lt; auto) Hs). lia.
  - pose proof (elems_gt upp blocks i j HB Hb ltac:(apply Z.ltb_lt; auto) Hs). lia.
Qed.
End M.
