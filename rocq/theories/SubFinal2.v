Require Import ZArith List Bool Lia Reals Lra.
From Verif Require Import Base Scalar ScalarReal Spec SpecSolver SpecDiag SpecEsolver Krylov MatvecProof KrylovProof DiagProof2 RealVec Esolver EsolverTerms EsolverProof EsolverProof2 EsolverProof3 EsolverFinal EsolverSub ConvertExact EsiProof SubFinal LanProof ArnProof SpecSub EsubTerms.
From Verif Require Gs Array.
Import ListNotations.
Open Scope Z_scope.

(** ** Arnoldi: the read and the write outside h *)
Lemma wl_for_len {A} (body : Z -> list A -> res (list A)) lo hi (a : list A) : (forall i a, wl (body i a) (fun a' => zlen a' = zlen a)) -> wl (for_ lo hi body a) (fun a' => zlen a' = zlen a).
Proof.
  intros H. destruct (Z.le_ge_cases lo hi) as [L|L].
  - apply (wl_forI (fun _ a' => zlen a' = zlen a)); [exact L|reflexivity| |auto]. intros i s _ Hs. eapply wl_mono; [apply H|]. intros s' Hs'. congruence.
  - rewrite for_empty by lia. apply wl_ok. reflexivity.
Qed.
Lemma wl_wr_len {A} (l : list A) i v : wl (wr l i v) (fun l' => zlen l' = zlen l).
Proof. apply wl_wrw. intros _. apply zlen_zupd. Qed.
Lemma qr_len {T} {S : Scalar T} (tq : T) maxit n jq : forall iter (a q r : list T) err, wl (Gs.qr_loop tq maxit n jq iter a q r err) (fun '(a', _, _, _, _) => zlen a' = zlen a).
Proof.
  induction maxit as [|f IH]; intros iter a q r err; cbn [Gs.qr_loop]; [apply wl_ok; reflexivity|].
  eapply wl_bind; [apply wl_true|]. intros [q' r'] _. eapply (wl_bind _ _ (fun a' => zlen a' = zlen a)).
  - apply wl_for_len. intros j a1. apply wl_for_len. intros i a2. eapply wl_bind; [apply wl_wr_len|]. intros a3 H3. eapply wl_mono.
    + apply wl_for_len. intros k a4. eapply wl_bind; [apply wl_true|]. intros o _. eapply wl_bind; [apply wl_true|]. intros t _. apply wl_wr_len.
    + intros a5 H5. congruence.
  - intros a' Ha. eapply wl_bind; [apply wl_true|]. intros e _. destruct (Gs.sltb _ _); [apply wl_ok; exact Ha|]. eapply wl_mono; [apply IH|]. intros [[[[a2 ?] ?] ?] ?] H. congruence.
Qed.
Lemma zlen_evalue0 ss : 1 <= ss -> zlen (evalue0 (T:=R) ss) = ss + 2.
Proof. intros H. unfold evalue0. rewrite !zlen_zupd. unfold zlen. rewrite repeat_length. lia. Qed.
Lemma arnoldi_len e ss jv E : 1 <= ss -> wl (arnoldi e ss jv E) (fun h => zlen h = ss * ss).
Proof.
  intros Hs. unfold arnoldi. eapply wl_bind; [apply wl_true|]. intros v0 _. eapply wl_bind; [apply wl_true|]. intros v _.
  eapply (wl_bind _ _ (fun h => zlen h = ss * ss)).
  { eapply wl_mono; [apply (wl_for_len (A:=R)); intros; apply wl_wr_len|]. intros h H. rewrite H. apply zlen_alloc. nia. }
  intros h Hh. eapply (wl_bind _ _ (fun s => zlen (snd s) = ss * ss)); [|intros [v' h'] H; apply wl_ok; exact H].
  assert (G : forall fuel j s, zlen (snd s) = ss * ss -> wl (arn_loop fuel e E ss j s) (fun s => zlen (snd s) = ss * ss)).
  { induction fuel as [|f IH]; intros j [v1 h1] H1; cbn [arn_loop]; [apply wl_ok; exact H1|]. cbn [snd] in H1.
    eapply (wl_bind _ _ (fun '(_, s) => zlen (snd s) = ss * ss)); [|intros [stop s] H; destruct stop; [apply wl_ok; exact H|apply IH; exact H]].
    unfold arn_step. eapply wl_bind; [apply wl_true|]. intros vj _. eapply (wl_bind _ _ (fun '(_, h) => zlen h = ss * ss)).
    - destruct (Z.le_ge_cases 0 (j + 1 + 1)) as [L|L]; [|rewrite for_empty by lia; apply wl_ok; exact H1].
      apply (wl_forI (fun _ '(_, h) => zlen h = ss * ss)); [exact L|exact H1| |auto]. intros i [w h2] _ H2. eapply wl_bind; [apply wl_true|]. intros vi _. eapply wl_bind; [apply wl_wr_len|]. intros h3 H3. apply wl_ok. congruence.
    - intros [w h2] H2. eapply wl_bind; [apply wl_wr_len|]. intros h3 H3. destruct (negb _); [apply wl_ok; cbn [snd]; congruence|]. eapply wl_bind; [apply wl_true|]. intros c _. eapply wl_bind; [apply wl_true|]. intros v2 _. apply wl_ok. cbn [snd]. congruence. }
  apply G. exact Hh.
Qed.
(** it never stops with a division by zero: it runs out of the array *)
Definition noerr {A} (m : res A) (Q : A -> Prop) : Prop := match m with Ok a => Q a | Err _ => False | UB => True end.
Lemma noerr_bind {A B} (m : res A) (k : A -> res B) P Q : noerr m P -> (forall a, P a -> noerr (k a) Q) -> noerr (bind m k) Q.
Proof. destruct m; cbn; auto. Qed.
Lemma noerr_rd {A} (l : list A) i : noerr (rd l i) (fun _ => True).
Proof. unfold rd. repeat match goal with |- noerr (if ?b then _ else _) _ => destruct b | |- noerr (match ?b with _ => _ end) _ => destruct b end; exact I. Qed.
Lemma noerr_wr {A} (l : list A) i v : noerr (wr l i v) (fun _ => True).
Proof. unfold wr. repeat match goal with |- noerr (if ?b then _ else _) _ => destruct b end; exact I. Qed.
Lemma noerr_for {A} lo hi (body : Z -> A -> res A) s : (forall i s, noerr (body i s) (fun _ => True)) -> noerr (for_ lo hi body s) (fun _ => True).
Proof.
  intros H. unfold for_. generalize (Z.to_nat (hi - lo)) as k. revert lo s H. intros lo s H k. revert lo s. induction k as [|k IH]; intros lo s; cbn [for_n]; [exact I|].
  eapply noerr_bind; [apply H|]. intros s' _. apply IH.
Qed.
Lemma arnoldi_noerr e ss jv E : 1 <= ee_n e -> (0 < ee_tol e)%R -> noerr (arnoldi e ss jv E) (fun _ => True).
Proof.
  intros Hn Ht. unfold arnoldi. destruct (normalize_ones _ Hn) as (u & Hu & _). rewrite Hu. cbn [bind].
  eapply noerr_bind; [apply noerr_wr|]. intros v _. eapply noerr_bind; [apply noerr_for; intros; apply noerr_wr|]. intros h _.
  eapply (noerr_bind _ _ (fun _ => True)); [|intros [? ?] _; exact I].
  generalize (-1). revert v h. generalize (Z.to_nat ss) as fuel. induction fuel as [|f IH]; intros v h j; cbn [arn_loop]; [exact I|].
  eapply (noerr_bind _ _ (fun _ => True)); [|intros [stop [v' h']] _; destruct stop; [exact I|apply IH]].
  unfold arn_step. eapply noerr_bind; [apply noerr_rd|]. intros vj _. eapply (noerr_bind _ _ (fun _ => True)).
  { apply noerr_for. intros i [w h1]. eapply noerr_bind; [apply noerr_rd|]. intros vi _. eapply noerr_bind; [apply noerr_wr|]. intros h2 _. exact I. }
  intros [w h1] _. eapply noerr_bind; [apply noerr_wr|]. intros h2 _. destruct (sleb (ee_tol e) (sabs (nrm2 (ee_n e) w))) eqn:El; cbn [negb]; [|exact I].
  rewrite divz_ok. 2:{ intros C. rewrite C in El. apply slebR in El. change (sabs 0%R) with (Rabs 0) in El. rewrite Rabs_R0 in El. lra. }
  cbn [bind]. eapply noerr_bind; [apply noerr_wr|]. intros; exact I.
Qed.
Lemma arnoldi_either e ss jv E : 1 <= ee_n e -> 1 <= ss -> (0 < ee_tol e)%R -> arnoldi e ss jv E = UB \/ exists h, arnoldi e ss jv E = Ok h /\ arnoldi_array e E ss h.
Proof.
  intros Hn Hs Ht. pose proof (arnoldi_noerr e ss jv E Hn Ht) as N. pose proof (arnoldi_wl e E ss jv Hs) as W. destruct (arnoldi e ss jv E) as [h|err|]; [right; exists h; split; [reflexivity|apply W; reflexivity]|destruct N|left; reflexivity].
Qed.
(** ** the refined pairs *)
Lemma oshift_sub e th : oshift (sub_env e th) = th.
Proof. unfold oshift, sub_env. cbn. destruct (Req_EM_T th 0) as [->|N]; reflexivity. Qed.
Lemma eii_err_none e E x rh o : 1 <= ee_maxiter e -> (forall k E v, fst (ee_solve e k E v) = 0) -> eii e E x rh = Ok o -> eo_evalue o <> None.
Proof.
  intros Hm Hs. revert o. change (wl (eii e E x rh) (fun o => eo_evalue o <> None)). unfold eii.
  eapply wl_bind; [apply (wl_eiterate (fun _ => True) (fun _ _ => False)); [exact I|]|].
  - intros iter [[[v th] r] rh'] _. unfold eii_body. eapply wl_bind; [apply wl_true|]. intros u _.
    match goal with |- context [ee_solve e ?k ?E ?v] => pose proof (Hs k E v) as X; destruct (ee_solve e k E v) as [err y] end. cbn [fst] in X. subst err. cbn [Z.eqb negb].
    eapply wl_bind; [apply wl_true|]. intros; eapply wl_bind; [apply wl_true|]. intros. apply wl_ok. destruct (_ : bool); exact I.
  - intros [[[fl ret] it] [[[v th] r] rh']] H. destruct fl; [destruct H|]. 
    repeat (eapply wl_bind; [apply wl_true|]; intros ? _). apply wl_ok. cbn. discriminate.
Qed.
Lemma refine_step_wl e ss jx jrh E0 (ev0 : list (option R)) : 1 <= ee_maxiter e -> no_dup_pos E0 -> full_diagonal (ee_n e) E0 -> all_ok e -> zlen ev0 = ss + 2 ->
  let I := fun (i : Z) (s : list (option R) * list (option R) * list (option Z) * list (option vec) * list R * Ent) => let '(ev, rs, it, ec, rh, E) := s in
     zlen ev = ss + 2 /\ zlen rs = ss + 2 /\ zlen it = ss + 2 /\ zlen ec = ss + 2 /\ E = E0 /\ (forall k, i <= k -> znth None ev k = znth None ev0 k) /\ (forall k, 0 <= k < i -> refined e E0 k ev0 (ev, rs, it, ec)) in
  forall i s, 0 <= i < ss -> I i s -> wl (refine_step eii e jx jrh i s) (I (i + 1)).
Proof.
  intros Hm Hnd Hfd Hok Lv0 I0 i s Hi HI. destruct s as [[[[[ev rs] it] ec] rh] E]. destruct HI as (L1 & L2 & L3 & L4 & -> & Hrest & Hdone). unfold refine_step.
  eapply wl_bind; [apply (wl_rdw None ev i (fun a => a = znth None ev i)); auto|]. intros th ->. 
  eapply (wl_bind _ _ (fun th => znth None ev i = Some th)); [intros a Ha; destruct (znth None ev i); [injection Ha as <-; reflexivity|discriminate]|]. intros th Hth.
  eapply (wl_bind _ _ (fun '(_, lam, o) => exists r k, eo_resid o = Some r /\ eo_iter o = Some k /\ 1 <= k <= ee_maxiter e /\ ((r <= ee_tol e)%R \/ (k = ee_maxiter e /\ (ee_tol e < r)%R)) /\ norm2 (ee_n e) (eo_x o) = 1%R /\
     (forall delta, inner_ok e E0 th delta -> (norm2 (ee_n e) (eig_residual (ee_n e) E0 lam (eo_x o)) <= (r + delta) * Rabs (lam - th))%R) /\ eo_E o = E0)).
  { unfold esolve. cbn [ee_ones sub_env ee_n ee_maxiter]. eapply (wl_bind _ _ (fun o => exists x0 rh0, zlen rh0 = ee_maxiter e + 2 /\ eii (sub_env e th) E0 x0 rh0 = Ok o)).
    - intros o Ho. do 2 eexists. split; [|exact Ho]. rewrite zlen_zupd. apply zlen_alloc. lia.
    - intros o (x0 & rh0 & L & Ho).
      assert (P : forall delta, ii_post (sub_env e th) E0 delta o).
      { intros delta. exact (safe_ok _ _ _ (eii_safe (sub_env e th) E0 x0 rh0 delta Hm L Hnd (or_intror Hfd)) Ho). }
      destruct (P 0%R) as [(lam & r & k & A1 & A2 & A3 & A4 & A5 & A6 & _ & A8)|(_ & C & _)].
      + apply wl_ok. rewrite A1. exists r, k. split; [exact A2|]. split; [exact A3|]. split; [exact A4|]. split; [destruct A5 as [(_ & H)|(_ & H)]; auto|]. split; [exact A6|]. split; [|exact A8].
        intros delta Hd. destruct (P delta) as [(lam' & r' & k' & B1 & B2 & _ & _ & _ & _ & B7 & _)|(_ & C & _)]; [|congruence].
        rewrite A1 in B1. injection B1 as <-. rewrite A2 in B2. injection B2 as <-. rewrite oshift_sub in B7. rewrite eig_residual_nm. exact (B7 Hd).
      + exfalso. exact (eii_err_none (sub_env e th) E0 x0 rh0 o Hm Hok Ho C). }
  intros [[ret lam] o] (r & k & A2 & A3 & A4 & A5 & A6 & A7 & A8).
  eapply wl_bind; [apply (wl_wrw ev i (Some lam) (fun l => l = zupd ev i (Some lam))); auto|]. intros ev1 ->.
  eapply wl_bind; [apply (wl_wrw it i (eo_iter o) (fun l => l = zupd it i (eo_iter o))); auto|]. intros it1 ->.
  eapply wl_bind; [apply (wl_wrw rs i (eo_resid o) (fun l => l = zupd rs i (eo_resid o))); auto|]. intros rs1 ->.
  eapply wl_bind; [apply (wl_wrw ec i (Some (eo_x o)) (fun l => l = zupd ec i (Some (eo_x o)))); auto|]. intros ec1 ->.
  eapply wl_bind; [apply wl_true|]. intros rh1 _. apply wl_ok. unfold I0. rewrite !zlen_zupd. split; [exact L1|]. split; [exact L2|]. split; [exact L3|]. split; [exact L4|]. split; [exact A8|]. split.
  - intros a Ha. rewrite znth_zupd_neq by lia. apply Hrest. lia.
  - intros a Ha. destruct (Z.eq_dec a i) as [->|Na].
    + exists th, lam, r, k, (eo_x o). rewrite !znth_zupd_eq by lia. rewrite <- (Hrest i ltac:(lia)). rewrite A2, A3. split; [exact Hth|]. split; [reflexivity|]. split; [reflexivity|]. split; [reflexivity|]. split; [reflexivity|]. split; [exact A4|]. split; [exact A5|]. split; [exact A6|exact A7].
    + unfold refined. rewrite !znth_zupd_neq by lia. apply (Hdone a). lia.
Qed.
Lemma zlen_none {A} ss : 1 <= ss -> zlen (none_of (A:=A) ss) = ss + 2.
Proof. intros H. unfold none_of, zlen. rewrite repeat_length. lia. Qed.
Lemma refine_wl e ss jx jrh ev0 rh E0 : 1 <= ss -> 1 <= ee_maxiter e -> no_dup_pos E0 -> full_diagonal (ee_n e) E0 -> all_ok e -> zlen ev0 = ss + 2 ->
  wl (refine eii e ss jx jrh ev0 rh E0) (pairs_ok e E0 ss ev0).
Proof.
  intros Hs Hm Hnd Hfd Hok Lv. unfold refine.
  pose proof (refine_step_wl e ss jx jrh E0 ev0 Hm Hnd Hfd Hok Lv) as G. cbv zeta in G.
  match type of G with forall i s, _ -> ?I i s -> _ => eapply (wl_bind _ _ (fun s => I ss s)); [apply (wl_forI I); [lia| |exact G|auto]|] end.
  - cbn beta iota. rewrite !zlen_none by lia. split; [exact Lv|]. split; [reflexivity|]. split; [reflexivity|]. split; [reflexivity|]. split; [reflexivity|]. split; [reflexivity|intros; lia].
  - intros [[[[[ev rs] it] ec] rh'] E'] (L1 & L2 & L3 & L4 & -> & _ & Hd).
    eapply wl_bind; [apply (wl_rdw None ec 0 (fun a => a = znth None ec 0)); auto|]. intros x0 ->.
    eapply (wl_bind _ _ (fun x0 => znth None ec 0 = Some x0)); [intros a Ha; destruct (znth None ec 0); [injection Ha as <-; reflexivity|discriminate]|]. intros x0 Hx0.
    apply wl_ok. split; [reflexivity|]. split; [reflexivity|]. split; [exact Hd|]. exists x0. split; [exact Hx0|]. intros i Hi. apply (at_copy (S:=ScalarR)); auto.
Qed.
Lemma diag_len ss t (ev : list (option R)) : wl (diag_of ss t ev) (fun ev' => zlen ev' = zlen ev).
Proof. apply wl_for_len. intros i a. eapply wl_bind; [apply wl_true|]. intros x _. apply wl_wr_len. Qed.
Lemma ritz_len tol ss h fuel : forall i (ev : list (option R)), wl (ritz fuel tol ss i h ev) (fun ev' => zlen ev' = zlen ev).
Proof.
  induction fuel as [|f IH]; intros i ev; cbn [ritz]; (destruct (negb (i <? ss)); [apply wl_ok; reflexivity|]); [intros a Ha; discriminate|].
  eapply wl_bind; [apply wl_true|]. intros sub _. eapply wl_bind; [apply wl_true|]. intros a _.
  assert (G : forall v, wl (ev0 <- wr ev (i + 1 - 1) v ;; ritz f tol ss (i + 1) h ev0) (fun ev' => zlen ev' = zlen ev)).
  { intros v. eapply wl_bind; [apply wl_wr_len|]. intros ev1 L1. eapply wl_mono; [apply IH|]. intros x Hx. exact (eq_trans Hx L1). }
  destruct (negb _); [apply G|]. eapply wl_bind; [apply wl_true|]. intros d _. eapply wl_bind; [apply wl_true|]. intros b _. destruct (negb _); [|apply G].
  eapply wl_bind; [apply wl_wr_len|]. intros ev1 L1. eapply wl_bind; [apply wl_wr_len|]. intros ev2 L2. eapply wl_mono; [apply IH|]. intros x Hx. exact (eq_trans Hx (eq_trans L2 L1)).
Qed.
(** the diagonal of the array, in order *)
Lemma diag_of_wl ss t (ev : list (option R)) : 1 <= ss -> zlen ev = ss + 2 ->
  wl (diag_of ss t ev) (fun ev' => zlen ev' = zlen ev /\ forall i, 0 <= i < ss -> znth None ev' i = Some (znth 0%R t (i * ss + i))).
Proof.
  intros Hs Le. unfold diag_of.
  apply (wl_forI (fun k ev' => zlen ev' = zlen ev /\ forall i, 0 <= i < k -> znth None ev' i = Some (znth 0%R t (i * ss + i)))).
  - lia.
  - split; [reflexivity|intros; lia].
  - intros i ev' Hi [L1 H1]. eapply wl_bind; [apply (wl_rdw 0%R t (i * ss + i) (fun a => a = znth 0%R t (i * ss + i))); auto|]. intros a ->.
    eapply wl_wrw. split; [rewrite zlen_zupd; exact L1|]. intros k Hk. destruct (Z.eq_dec k i) as [->|Nk].
    + rewrite znth_zupd_eq by lia. reflexivity.
    + rewrite znth_zupd_neq by lia. apply H1. lia.
  - auto.
Qed.
Lemma eli_refined tq maxit e ss jv jx jq jrh E x rh o : 1 <= ss -> 1 <= ee_maxiter e -> no_dup_pos E -> full_diagonal (ee_n e) E -> all_ok e ->
  eli tq maxit eii false e ss jv jx jq jrh E x rh = Ok o ->
  exists t t' q r it er theta, lanczos e ss jv E = Ok t /\ Gs.lis_array_qr tq maxit ss t (alloc (ss * ss) jq) (alloc (ss * ss) jq) jq = Ok (t', q, r, it, er) /\
    (forall i, 0 <= i < ss -> znth None theta i = Some (znth 0%R t' (i * ss + i))) /\ pairs_ok e E ss theta o.
Proof.
  intros Hs Hm Hnd Hfd Hok H. unfold eli in H.
  destruct (lanczos e ss jv E) as [t|er|]; [|discriminate H|discriminate H]. cbn [bind] in H.
  destruct (Gs.lis_array_qr tq maxit ss t (alloc (ss * ss) jq) (alloc (ss * ss) jq) jq) as [[[[[t' q] r] it] er]|er'|] eqn:Q1; [|discriminate H|discriminate H]. cbn [bind] in H.
  pose proof (diag_of_wl ss t' (evalue0 ss) Hs (zlen_evalue0 _ Hs)) as G.
  destruct (diag_of ss t' (evalue0 ss)) as [ev|er''|] eqn:D; [|discriminate H|discriminate H]. cbn [bind] in H.
  destruct (G ev eq_refl) as [L Ht]. rewrite zlen_evalue0 in L by exact Hs.
  exists t, t', q, r, it, er, ev. split; [reflexivity|]. split; [exact Q1|]. split; [exact Ht|].
  exact (refine_wl e ss jx jrh ev rh E Hs Hm Hnd Hfd Hok L o H).
Qed.
