Require Import ZArith List Bool Lia Reals Lra.
From Verif Require Import Base Scalar ScalarReal Spec SpecEsolver Krylov Esolver EsolverProof EsolverSub ConvertExact EsiProof SubFinal LanProof SpecSub EsubTerms ArnProof SubFinal2 QrZero.
From Verif Require Gs.
Import ListNotations.
Open Scope Z_scope.

Lemma ritz_never tol ss h fuel : 1 <= ss -> zcol ss h -> forall i ev, 0 <= i < ss -> wl (ritz fuel tol ss i h ev) (fun _ => False).
Proof.
  intros Hs (Lh & Hz). induction fuel as [|f IH]; intros i ev Hi; cbn [ritz]; (destruct (Z.ltb_spec i ss); [|lia]); cbn [negb]; [intros a Ha; discriminate|].
  eapply wl_bind; [apply (wl_rdw 0%R h (i + 1 + (i + 1 - 1) * ss) (fun _ => 0 <= i + 1 + (i + 1 - 1) * ss < zlen h)); auto|]. intros sub HB.
  assert (Hi1 : i + 1 < ss) by (rewrite Lh in HB; nia).
  eapply wl_bind; [apply wl_true|]. intros a _.
  assert (G : forall v, wl (ev0 <- wr ev (i + 1 - 1) v ;; ritz f tol ss (i + 1) h ev0) (fun _ => False)) by (intros v0; eapply wl_bind; [apply wl_true|]; intros ev0 _; apply IH; lia).
  destruct (negb _); [apply G|].
  eapply wl_bind; [apply (wl_rdw 0%R h (i + 1 + (i + 1) * ss) (fun d => d = znth 0%R h (i + 1 + (i + 1) * ss))); auto|]. intros d Hd.
  eapply wl_bind; [apply (wl_rdw 0%R h (i + 1 - 1 + (i + 1) * ss) (fun d => d = znth 0%R h (i + 1 - 1 + (i + 1) * ss))); auto|]. intros b Hb.
  destruct (negb _) eqn:Ed; [|apply G].
  assert (N : i + 1 + 1 < ss).
  { destruct (Z.eq_dec (i + 1) (ss - 1)) as [E1|]; [|lia]. exfalso. rewrite E1 in Hd, Hb. rewrite (Hz (ss - 1)) in Hd by lia. rewrite (Hz (ss - 1 - 1)) in Hb by lia. subst d b.
    apply negb_true_iff in Ed. apply slebR' in Ed. cbn in Ed. nra. }
  eapply wl_bind; [apply wl_true|]. intros ev1 _. eapply wl_bind; [apply wl_true|]. intros ev2 _. apply IH. lia.
Qed.
Lemma eai_never tq maxit run rval e ss jv jx jq jrh E x rh o : (0 < tq)%R -> 1 <= ss -> eai tq maxit run rval e ss jv jx jq jrh E x rh <> Ok o.
Proof.
  intros Ht Hs. enough (W : wl (eai tq maxit run rval e ss jv jx jq jrh E x rh) (fun _ => False)) by (intros C; exact (W o C)).
  unfold eai. eapply (wl_bind _ _ (zcol ss)).
  { intros h Hh. split; [exact (arnoldi_len e ss jv E Hs h Hh)|]. destruct (arnoldi_wl e E ss jv Hs h Hh) as (m & V & Hm & _ & _ & _ & HZ & _). intros i Hi. apply HZ; lia. }
  intros h Hh. unfold Gs.lis_array_qr. eapply wl_bind; [apply (qr_loop_wl ss Hs tq maxit jq Ht); [exact Hh|apply zlen_alloc; nia]|]. intros [[[[h' ?] ?] ?] ?] H'.
  eapply wl_bind; [apply ritz_never; [exact Hs|exact H'|lia]|]. intros ev [].
Qed.
(** it is undefined behaviour, not a division by zero *)
Lemma noerr_prod (a : list R) i x j : noerr (Array.prod a i x j) (fun _ => True).
Proof. unfold Array.prod. eapply noerr_bind; [apply noerr_rd|]. intros p _. eapply noerr_bind; [apply noerr_rd|]. intros q _. exact I. Qed.
Lemma noerr_cgs tq n (a q r : list R) jq : (0 < tq)%R -> noerr (Gs.lis_array_cgs tq n a q r jq) (fun _ => True).
Proof.
  intros Ht. unfold Gs.lis_array_cgs. eapply noerr_bind; [unfold Gs.clear; apply noerr_for; intros; apply noerr_wr|]. intros q1 _.
  eapply noerr_bind; [unfold Gs.clear; apply noerr_for; intros; apply noerr_wr|]. intros r1 _.
  eapply (noerr_bind _ _ (fun _ => True)); [|intros [[[? ?] ?] ?] _; exact I].
  apply noerr_for. intros k [[[stop ak] q2] r2]. destruct stop; [exact I|].
  eapply noerr_bind; [unfold Gs.column; apply noerr_for; intros; eapply noerr_bind; [apply noerr_rd|]; intros; apply noerr_wr|]. intros ak1 _.
  eapply (noerr_bind _ _ (fun _ => True)).
  { apply noerr_for. intros j [ak2 r3]. eapply (noerr_bind _ _ (fun _ => True)).
    - unfold Gs.project. eapply noerr_bind; [apply noerr_wr|]. intros r4 _. apply noerr_for. intros i r5. eapply noerr_bind; [apply noerr_rd|]. intros o _. eapply noerr_bind; [apply noerr_prod|]. intros t _. apply noerr_wr.
    - intros r4 _. eapply (noerr_bind _ _ (fun _ => True)); [|intros ? _; exact I]. apply noerr_for. intros i ak3. eapply noerr_bind; [apply noerr_rd|]. intros o _. eapply noerr_bind; [apply noerr_prod|]. intros t _. apply noerr_wr. }
  intros [ak2 r3] _. eapply (noerr_bind _ _ (fun _ => True)).
  { unfold Gs.nrm2. eapply (noerr_bind _ _ (fun _ => True)); [|intros ? _; exact I]. apply noerr_for. intros i t. eapply noerr_bind; [apply noerr_rd|]. intros; exact I. }
  intros nr _. eapply noerr_bind; [apply noerr_wr|]. intros r4 _. destruct (Gs.sltb nr tq) eqn:Es; [exact I|].
  assert (Hn : (nr <> 0)%R) by (intros C; rewrite C in Es; unfold Gs.sltb in Es; cbn in Es; destruct (Rle_dec tq 0); [lra|discriminate]).
  eapply (noerr_bind _ _ (fun _ => True)); [|intros ? _; exact I]. unfold Gs.normalise. apply noerr_for. intros i q3. eapply noerr_bind; [apply noerr_rd|]. intros x _. rewrite divz_ok by exact Hn. cbn [bind]. apply noerr_wr.
Qed.
Lemma noerr_qr tq maxit n jq : (0 < tq)%R -> forall iter (a q r : list R) err, noerr (Gs.qr_loop tq maxit n jq iter a q r err) (fun _ => True).
Proof.
  intros Ht. induction maxit as [|f IH]; intros iter a q r err; cbn [Gs.qr_loop]; [exact I|].
  eapply noerr_bind; [apply noerr_cgs; exact Ht|]. intros [q' r'] _. eapply (noerr_bind _ _ (fun _ => True)).
  - apply noerr_for. intros j a1. apply noerr_for. intros i a2. eapply noerr_bind; [apply noerr_wr|]. intros a3 _. apply noerr_for. intros k a4. eapply noerr_bind; [apply noerr_rd|]. intros o _. eapply noerr_bind; [apply noerr_prod|]. intros t _. apply noerr_wr.
  - intros a' _. eapply noerr_bind; [apply noerr_rd|]. intros x _. destruct (Gs.sltb _ _); [exact I|apply IH].
Qed.
Lemma noerr_ritz tol ss h fuel : forall i (ev : list (option R)), ss - i <= Z.of_nat fuel -> noerr (ritz fuel tol ss i h ev) (fun _ => True).
Proof.
  induction fuel as [|f IH]; intros i ev Hf; cbn [ritz]; (destruct (Z.ltb_spec i ss); cbn [negb]; [|exact I]); [lia|].
  eapply noerr_bind; [apply noerr_rd|]. intros sub _. eapply noerr_bind; [apply noerr_rd|]. intros a _.
  assert (G : forall v, noerr (ev0 <- wr ev (i + 1 - 1) v ;; ritz f tol ss (i + 1) h ev0) (fun _ => True)) by (intros v0; eapply noerr_bind; [apply noerr_wr|]; intros ev0 _; apply IH; lia).
  destruct (negb _); [apply G|]. eapply noerr_bind; [apply noerr_rd|]. intros d _. eapply noerr_bind; [apply noerr_rd|]. intros b _. destruct (negb _); [|apply G].
  eapply noerr_bind; [apply noerr_wr|]. intros ev1 _. eapply noerr_bind; [apply noerr_wr|]. intros ev2 _. apply IH. lia.
Qed.
Lemma eai_ub tq maxit run rval e ss jv jx jq jrh E x rh : (0 < tq)%R -> 1 <= ee_n e -> 1 <= ss -> (0 < ee_tol e)%R -> eai tq maxit run rval e ss jv jx jq jrh E x rh = UB.
Proof.
  intros Ht Hn Hs He. unfold eai. pose proof (arnoldi_noerr e ss jv E Hn He) as N1.
  destruct (arnoldi e ss jv E) as [h|err|] eqn:Eh; [|destruct N1|reflexivity]. cbn [bind].
  assert (Zh : zcol ss h).
  { split; [exact (arnoldi_len e ss jv E Hs h Eh)|]. destruct (arnoldi_wl e E ss jv Hs h Eh) as (m & V & Hm & _ & _ & _ & HZ & _). intros i Hi. apply HZ; lia. }
  unfold Gs.lis_array_qr. pose proof (noerr_qr tq maxit ss jq Ht 0 h (alloc (ss * ss) jq) (alloc (ss * ss) jq) s0) as N2.
  assert (LQ : zlen (alloc (ss * ss) jq) = ss * ss) by (apply zlen_alloc; nia).
  pose proof (qr_loop_wl ss Hs tq maxit jq Ht 0 h (alloc (ss * ss) jq) (alloc (ss * ss) jq) s0 Zh LQ) as W2.
  destruct (Gs.qr_loop tq maxit ss jq 0 h (alloc (ss * ss) jq) (alloc (ss * ss) jq) s0) as [[[[[h' ?] ?] ?] ?]|err|]; [|destruct N2|reflexivity]. cbn [bind].
  pose proof (W2 _ eq_refl) as Z2. cbn beta iota in Z2.
  pose proof (noerr_ritz (ee_tol e) ss h' (Z.to_nat ss) 0 (evalue0 ss) ltac:(lia)) as N3. pose proof (ritz_never (ee_tol e) ss h' (Z.to_nat ss) Hs Z2 0 (evalue0 ss) ltac:(lia)) as W3.
  destruct (ritz (Z.to_nat ss) (ee_tol e) ss 0 h' (evalue0 ss)) as [ev|err|]; [destruct (W3 ev eq_refl)|destruct N3|reflexivity].
Qed.
