Require Import ZArith List Bool Lia Reals Lra.
From Verif Require Import Base Scalar ScalarReal Spec SpecSolver SpecDiag SpecEsolver Krylov MatvecProof KrylovProof DiagProof2 RealVec Esolver EsolverTerms EsolverProof EsolverProof2 EsolverProof3 EsolverFinal EsolverSub ConvertExact EsiProof SubFinal LanProof SpecSub EsubTerms.
From Verif Require Gs.
Import ListNotations.
Open Scope Z_scope.

Lemma qr_one tq maxit q r jq : (0 < tq)%R -> Gs.lis_array_qr tq (Datatypes.S maxit) 1 [0%R] [q] [r] jq = UB.
Proof.
  intros Ht. unfold Gs.lis_array_qr. cbn [Gs.qr_loop]. unfold Gs.lis_array_cgs, Gs.clear, Gs.column, Gs.nrm2, for_.
  cbv -[Rle_dec Rmult Rplus sqrt Rabs IZR Gs.qr_loop Rdiv Req_EM_T].
  match goal with |- context [sqrt ?a] => replace a with 0%R by ring end. rewrite sqrt_0.
  destruct (Rle_dec tq 0) as [C|_]; [lra|]. reflexivity.
Qed.
Lemma eli_default tq maxit run rval e jv jx jq jrh E x rh : (0 < tq)%R -> eli tq (Datatypes.S maxit) run rval e 1 jv jx jq jrh E x rh = UB.
Proof.
  intros Ht. unfold eli, lanczos. change (Z.to_nat (1 - 1)) with 0%nat. cbn [lan_loop].
  unfold for_. change (Z.to_nat (1 * 1 - 0)) with 1%nat. cbn [for_n bind]. change (alloc (1 * 1) (fun _ : Z => s0 : R)) with [0%R]. change (wr [0%R] 0 (s0 : R)) with (Ok [0%R]). cbn [bind].
  change (alloc (1 * 1) jq) with [jq 0]. rewrite qr_one by exact Ht. reflexivity.
Qed.
(** the last Ritz value of a positive definite matrix cannot be zero *)
Lemma lan_ritz e ss jv E t (W : Z -> Z -> R) : symmetric (ee_n e) E -> positive_definite (ee_n e) E -> 2 <= ss -> lanczos e ss jv E = Ok t ->
  orthonormal (ee_n e) 1 (ss + 1) W -> znth 0%R t ((ss - 1) * ss + (ss - 1)) <> ipR (ee_n e) (W ss) (imageR (ee_n e) E (W ss)).
Proof.
  intros Hs Hp Hss Ht HW. destruct (lanczos_wl e E ss Hs jv Hss t Ht) as (m & V & Hm & _ & _ & _ & Hz & _). rewrite Hz by lia. intros C.
  assert (P : (0 < ipR (ee_n e) (W ss) (imageR (ee_n e) E (W ss)))%R); [|lra]. apply Hp.
  destruct (Z.lt_ge_cases (ee_n e) 1) as [Hn|Hn].
  - pose proof (HW ss ss ltac:(lia) ltac:(lia)) as X. rewrite Z.eqb_refl in X. unfold ipR in X. rewrite zrange_empty in X by lia. cbn in X. lra.
  - (* classical search for a nonzero component *)
    pose proof (HW ss ss ltac:(lia) ltac:(lia)) as X. rewrite Z.eqb_refl in X.
    assert (G : forall k, 0 <= k -> (exists i, 0 <= i < k /\ W ss i <> 0%R) \/ (forall i, 0 <= i < k -> W ss i = 0%R)).
    { apply (natlike_ind (fun k => (exists i, 0 <= i < k /\ W ss i <> 0%R) \/ (forall i, 0 <= i < k -> W ss i = 0%R))); [right; intros; lia|].
      intros k Hk [(i & Hi & Hw)|H]; [left; exists i; split; [lia|exact Hw]|]. destruct (Req_EM_T (W ss k) 0%R) as [H0|H0].
      - right. intros i Hi. destruct (Z.eq_dec i k) as [->|]; [exact H0|apply H; lia].
      - left. exists k. split; [lia|exact H0]. }
    destruct (G (ee_n e) ltac:(lia)) as [H|H]; [exact H|]. exfalso.
    assert (Z0 : ipR (ee_n e) (W ss) (W ss) = 0%R).
    { change (ip (ee_n e) (W ss) (W ss) = 0%R). rewrite (ip_ext _ _ (fun _ => 0 * 0)%R _ (W ss)); [rewrite ip_scal; ring|intros i Hi; rewrite H by exact Hi; ring|intros i _; reflexivity]. }
    lra.
Qed.
(** no access outside the arrays once ss >= 2 *)
Lemma reorth_safe n j (v : list vec) : 1 <= j < zlen v -> safe (reorth n j v) (fun v' => zlen v' = zlen v).
Proof.
  intros Hj. unfold reorth. apply (safe_for (fun _ v' => zlen v' = zlen v)); [lia|reflexivity| |auto]. intros k v' Hk L. apply safe_bind, (safe_rd []); [lia|]. apply safe_bind, (safe_rd []); [lia|]. apply safe_wr; [lia|]. rewrite zlen_zupd. exact L.
Qed.
Lemma lan_step_safe e E ss nrm j (s : lst (T:=R)) : 1 <= j < ss -> zlen (fst (fst s)) = ss + 1 -> zlen (snd s) = ss * ss ->
  safe (lan_step e E ss nrm j s) (fun '(_, s') => zlen (fst (fst s')) = ss + 1 /\ zlen (snd s') = ss * ss).
Proof.
  intros Hj Lv Lt. destruct s as [[v r] t]. cbn [fst snd] in *. unfold lan_step. set (n := ee_n e).
  apply safe_bind, safe_wr; [lia|]. set (v1 := zupd v j (copy n r)). assert (L1 : zlen v1 = ss + 1) by (unfold v1; rewrite zlen_zupd; exact Lv).
  assert (G : forall (m : res (list vec * vec)), safe m (fun '(v', _) => zlen v' = ss + 1) -> safe (' (v2, r2) <- m ;; vj <- rd v2 j ;; t1 <- wr t ((j - 1) * ss + j - 1) (dot n vj r2) ;;
     v3 <- reorth n j v2 ;; t2 <- wr t1 ((j - 1) * ss + j) (nrm2 n (axpy n (sopp (dot n vj r2)) vj r2)) ;;
     if negb (sleb (ee_tol e) (sabs (nrm2 n (axpy n (sopp (dot n vj r2)) vj r2)))) then Ok (true, (v3, axpy n (sopp (dot n vj r2)) vj r2, t2))
     else t3 <- wr t2 (j * ss + j - 1) (nrm2 n (axpy n (sopp (dot n vj r2)) vj r2)) ;; Ok (false, (v3, axpy n (sopp (dot n vj r2)) vj r2, t3))) (fun '(_, s') => zlen (fst (fst s')) = ss + 1 /\ zlen (snd s') = ss * ss)).
  { intros m Hm. apply safe_bind. eapply safe_mono; [exact Hm|]. intros [v2 r2] L2. apply safe_bind, (safe_rd []); [lia|]. apply safe_bind, safe_wr; [nia|].
    apply safe_bind. eapply safe_mono; [apply reorth_safe; lia|]. intros v3 L3. apply safe_bind, safe_wr; [rewrite zlen_zupd; nia|]. destruct (negb _).
    - cbn [safe fst snd]. rewrite !zlen_zupd. split; [exact (eq_trans L3 L2)|exact Lt].
    - apply safe_bind, safe_wr; [rewrite !zlen_zupd; nia|]. cbn [safe fst snd]. rewrite !zlen_zupd. split; [exact (eq_trans L3 L2)|exact Lt]. }
  apply G. destruct (Z.eqb_spec j 1) as [j1|j1].
  - apply safe_bind, safe_divz. intros _. apply safe_bind, (safe_rd []); [lia|]. apply safe_bind, safe_wr; [lia|]. cbn [safe]. rewrite zlen_zupd. exact L1.
  - apply safe_bind, (safe_rd 0%R); [nia|]. apply safe_bind, safe_divz. intros _. apply safe_bind, (safe_rd []); [lia|]. apply safe_bind, safe_wr; [lia|]. apply safe_bind, (safe_rd []); [rewrite zlen_zupd; lia|]. cbn [safe]. rewrite zlen_zupd. exact L1.
Qed.
Lemma lanczos_safe e ss jv (E : Ent) : 1 <= ss -> lanczos e ss jv E <> UB.
Proof.
  intros Hss C. enough (S : safe (lanczos e ss jv E) (fun _ => True)) by (rewrite C in S; exact S). clear C. unfold lanczos.
  apply safe_bind, (safe_for (fun _ t => zlen t = ss * ss)); [nia|apply zlen_alloc; nia| |].
  - intros i t Hi L. apply safe_wr; [lia|]. rewrite zlen_zupd. exact L.
  - intros t Lt. apply safe_bind. eapply safe_mono with (P := fun _ => True); [|intros [[? ?] ?] _; exact I].
    assert (G : forall fuel j s, 0 <= j -> j + Z.of_nat fuel <= ss - 1 -> zlen (fst (fst s)) = ss + 1 -> zlen (snd s) = ss * ss -> safe (lan_loop fuel e E ss (nrm2 (ee_n e) (set_all (ee_n e) s1)) j s) (fun _ => True)).
    { induction fuel as [|f IH]; intros j s Hj Hf L1 L2; cbn [lan_loop]; [exact I|]. apply safe_bind. eapply safe_mono; [apply lan_step_safe; [lia|exact L1|exact L2]|]. intros [stop s'] (H1 & H2). destruct stop; [exact I|]. apply IH; [lia|lia|exact H1|exact H2]. }
    apply G; [lia|lia|cbn [fst]; rewrite zlen_zupd; apply zlen_alloc; lia|exact Lt].
Qed.
