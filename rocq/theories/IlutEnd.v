Require Import ZArith List Bool Lia Reals Lra.
From Verif Require Import Base Scalar ScalarReal Spec Sort ConvFinal Ilu SpecIlu SpecIlut DiagProof DiagProof2 IluProof IluProof2 IluFinal Ilut IlutProof IlutElim IlutRow IlutRow2 IlutFinal.
Import ListNotations.
Open Scope Z_scope.

Section P.
Context {T : Type} {S : Scalar T}.
Hypothesis RT : is_ring S.
Hypothesis FD : is_field S.

Lemma total_swo : total_order S -> strict_weak_order (sltb (T:=T)).
Proof.
  intros (H1 & H2). unfold strict_weak_order, sltb. split; [|split].
  - intros x. destruct (H1 x x) as [->| ->]; auto.
  - intros x y. destruct (sleb y x) eqn:E1; [discriminate|]. destruct (H1 x y) as [->|E2]; auto. congruence.
  - intros x y z. rewrite !negb_false_iff. intros E1 E2. eapply H2; eauto.
Qed.

Lemma psolveh_real is_ ie (F : factors T) b : (forall x : T, sconj x = x) -> psolveh_ilut is_ ie F b = psolveh_iluk is_ ie F b /\ psolveh_ilut_omp is_ ie F b = psolveh_iluk is_ ie F b.
Proof.
  intros Hc. unfold psolveh_ilut, psolveh_ilut_omp, psolveh_iluk, psolveh_iluk_with. split; f_equal; apply for_ext_in; intros i x _; destruct (rd (fa_D F) i); cbn [bind]; auto; destruct (rd x i); cbn [bind]; auto; rewrite !Hc; auto.
Qed.
Lemma conj_id_ok : (forall x : T, sconj x = x) -> conj_ok S.
Proof. intros H. unfold conj_ok. repeat split; intros; rewrite ?H; auto. Qed.

Lemma ilut_final (A : csr T) tol lfil is_ ie jb ji jw jn jd : total_order S ->
  csr_ok A -> no_dup_pos (csr_entries A) -> 0 <= lfil -> 0 <= is_ <= ie -> ie <= csr_n A ->
  exists F, create_ilut jb ji jw jn jd tol lfil is_ ie A = Ok F /\
    exists d, (forall i, is_ <= i < ie -> znth s0 (fa_D F) i = sdiv s1 (d i)) /\
      (forall i, is_ <= i < ie -> ilut_row_spec (below_tol tol is_ ie (csr_entries A) i) lfil is_ ie (coef (csr_entries A) i) d (fa_L F) (fa_Lv F) (fa_U F) (fa_Uv F) i) /\
      let M := mat_mul is_ ie (unit_lower (fa_L F) (fa_Lv F)) (upper_with d (fa_U F) (fa_Uv F)) in
      (ie - is_ <= lfil -> forall i c, is_ <= i < ie -> is_ <= c < ie -> (forall k, is_ <= k < i -> d k <> s0) ->
         exists e, dropped (below_tol tol is_ ie (csr_entries A) i) (i - is_) e /\ coef (csr_entries A) i c = sadd (M i c) e) /\
      ((forall i, is_ <= i < ie -> d i <> s0) -> forall b, ie <= zlen b ->
        (exists x, psolve_ilut is_ ie F b = Ok x /\ zlen x = zlen b /\ (forall c, ~ (is_ <= c < ie) -> znth s0 x c = znth s0 b c) /\
           forall i, is_ <= i < ie -> mat_vec is_ ie M (znth s0 x) i = znth s0 b i) /\
        ((forall x : T, sconj x = x) -> exists x, psolveh_ilut is_ ie F b = Ok x /\ psolveh_ilut_omp is_ ie F b = Ok x /\ zlen x = zlen b /\ (forall c, ~ (is_ <= c < ie) -> znth s0 x c = znth s0 b c) /\
           forall i, is_ <= i < ie -> mat_vech is_ ie M (znth s0 x) i = znth s0 b i)).
Proof.
  intros Hto Hok Hnd Hlf Hr Hn. destruct (wp_inv _ _ (create_ilut_wp RT FD A tol lfil is_ ie Hok Hnd Hlf (conj Hr Hn) (total_swo Hto) jb ji jw jn jd)) as (F & HF & Hfok & d & Hd).
  exists F. split; auto. exists d. split; [intros i Hi; apply Hd; auto|]. split; [intros i Hi; apply Hd; auto|]. cbv zeta. split.
  - intros Hlf' i c Hi Hc Hdk. eapply (ilut_product RT A tol lfil is_ ie F d i); eauto. apply Hd; auto.
  - intros Hdn b Hb. assert (HD : forall i, is_ <= i < ie -> znth s0 (fa_D F) i = sdiv s1 (d i)) by (intros i Hi; apply Hd; auto). split.
    + apply (psolve_iluk_final RT FD); auto.
    + intros Hc. destruct (psolveh_iluk_final RT FD is_ ie F d b (conj_id_ok Hc) Hfok HD Hdn Hb) as (x & Hx & Q1 & Q2 & Q3). destruct (psolveh_real is_ ie F b Hc) as [E1 E2]. exists x. rewrite E1, E2. auto.
Qed.
End P.

(** ** real numbers *)
Open Scope R_scope.
Lemma R_total_order : total_order ScalarR.
Proof.
  split; cbn [sleb ScalarR]; [intros x y|intros x y z]; repeat match goal with |- context [Rle_dec ?a ?b] => destruct (Rle_dec a b) end; auto; intros; try discriminate; lra.
Qed.
Lemma dropped_R (small : R -> Prop) t k e : (forall v, small v -> Rabs v <= t) -> 0 <= t -> dropped small k e -> (0 <= k)%Z /\ Rabs e <= IZR k * t.
Proof.
  intros Hs Ht H. induction H as [|k e H [IH0 IH]|k e v H [IH0 IH] Hv].
  - split; [lia|]. change (Rabs 0 <= 0 * t). rewrite Rabs_R0. lra.
  - split; [lia|]. rewrite plus_IZR. lra.
  - split; [lia|]. rewrite plus_IZR. change (Rabs (e + v) <= (IZR k + 1) * t). pose proof (Rabs_triang e v). specialize (Hs v Hv). lra.
Qed.
Lemma below_tol_R tol lo hi E i v : below_tol tol lo hi E i v <-> Rabs v < tol * row_mean lo hi E i.
Proof. unfold below_tol. cbn [sleb sabs smul ScalarR]. destruct (Rle_dec (tol * row_mean lo hi E i) (Rabs v)); split; intros; auto; try discriminate; lra. Qed.
Lemma row_mean_nonneg lo hi (E : list (entry R)) i : 0 <= row_mean lo hi E i.
Proof.
  unfold row_mean. set (l := filter _ E). change (0 <= ssum (map (fun e => Rabs (eval e)) l) / ssum (map (fun _ => 1) l)).
  assert (H1 : 0 <= ssum (map (fun e : entry R => Rabs (eval e)) l)) by (induction l; cbn [map ssum sadd s0 ScalarR]; [lra|]; pose proof (Rabs_pos (eval a)); lra).
  assert (H2 : 0 <= ssum (map (fun _ : entry R => 1) l)) by (clear H1; induction l; cbn [map ssum sadd s0 ScalarR]; lra).
  destruct (Req_dec (ssum (map (fun _ : entry R => 1) l)) 0) as [->|]; [unfold Rdiv; rewrite Rinv_0; lra|]. apply Rmult_le_pos; auto. left. apply Rinv_0_lt_compat. lra.
Qed.

Lemma ilut_real (A : csr R) tol lfil is_ ie jb ji jw jn jd :
  csr_ok A -> no_dup_pos (csr_entries A) -> (0 <= is_ <= ie)%Z -> (ie <= csr_n A)%Z -> (ie - is_ <= lfil)%Z -> 0 <= tol ->
  exists F, create_ilut jb ji jw jn jd tol lfil is_ ie A = Ok F /\
    exists d : Z -> R, (forall i, (is_ <= i < ie)%Z -> znth 0 (fa_D F) i = 1 / d i) /\
      ((forall i, (is_ <= i < ie)%Z -> d i <> 0) ->
        let M := mat_mul is_ ie (unit_lower (fa_L F) (fa_Lv F)) (upper_with d (fa_U F) (fa_Uv F)) in
        (forall i c, (is_ <= i < ie)%Z -> (is_ <= c < ie)%Z -> Rabs (coef (csr_entries A) i c - M i c) <= IZR (i - is_) * (tol * row_mean is_ ie (csr_entries A) i)) /\
        forall b, (ie <= zlen b)%Z -> exists x, psolve_ilut is_ ie F b = Ok x /\ zlen x = zlen b /\ (forall c, ~ (is_ <= c < ie)%Z -> znth 0 x c = znth 0 b c) /\
           (forall i, (is_ <= i < ie)%Z -> mat_vec is_ ie M (znth 0 x) i = znth 0 b i) /\
           (tol = 0 -> forall i, (is_ <= i < ie)%Z -> mat_vec is_ ie (coef (csr_entries A)) (znth 0 x) i = znth 0 b i)).
Proof.
  intros Hok Hnd Hr Hn Hlf Ht. destruct (ilut_final ScalarR_ring ScalarR_field A tol lfil is_ ie jb ji jw jn jd R_total_order Hok Hnd ltac:(lia) Hr Hn) as (F & HF & d & HD & _ & HM & HS). cbv zeta in HM, HS.
  exists F. split; auto. exists d. split; auto. intros Hd. cbv zeta.
  assert (HB : forall i c, (is_ <= i < ie)%Z -> (is_ <= c < ie)%Z -> Rabs (coef (csr_entries A) i c - mat_mul is_ ie (unit_lower (fa_L F) (fa_Lv F)) (upper_with d (fa_U F) (fa_Uv F)) i c) <= IZR (i - is_) * (tol * row_mean is_ ie (csr_entries A) i)).
  { intros i c Hi Hc. destruct (HM Hlf i c Hi Hc) as (e & He & Ev); [intros k Hk; apply Hd; lia|].
    apply (dropped_R _ (tol * row_mean is_ ie (csr_entries A) i)) in He as [_ He]; [|intros v Hv; apply below_tol_R in Hv; lra|apply Rmult_le_pos; [auto|apply row_mean_nonneg]].
    rewrite Ev. cbn [sadd ScalarR]. match goal with |- Rabs (?m + e - ?m') <= _ => replace (m + e - m') with e by (change m' with m; ring) end. exact He. }
  split; [exact HB|]. intros b Hb. destruct (HS Hd b Hb) as [(x & Hx & Lx & Ox & Vx) _]. exists x. split; auto. split; auto. split; auto. split; auto.
  intros Ht0 i Hi. rewrite <- Vx by auto. unfold mat_vec. apply ssum_map_ext. intros j Hj. apply In_zrange in Hj. f_equal. specialize (HB i j Hi Hj). rewrite Ht0 in HB. replace (IZR (i - is_) * (0 * row_mean is_ ie (csr_entries A) i)) with 0 in HB by ring.
  match type of HB with Rabs ?w <= 0 => pose proof (Rabs_pos w); destruct (Req_dec w 0) as [E|E]; [|apply Rabs_pos_lt in E; lra] end. apply Rminus_diag_uniq. exact E.
Qed.
