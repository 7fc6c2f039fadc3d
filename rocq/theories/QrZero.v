Require Import ZArith List Bool Lia Reals Lra.
From Verif Require Import Base Scalar ScalarReal Spec Array ConvertExact EsiProof SubFinal LanProof SubFinal2.
From Verif Require Import Gs.
Import ListNotations.
Open Scope Z_scope.

(** lis_array_qr keeps a zero last column *)
Section Q.
Variables (n : Z).
Hypothesis Hn : 1 <= n.
Let K := n - 1.
Definition zcol (a : list R) : Prop := zlen a = n * n /\ forall i, 0 <= i < n -> znth 0%R a (i + K * n) = 0%R.
Definition zvec (v : list R) : Prop := zlen v = n /\ forall i, 0 <= i < n -> znth 0%R v i = 0%R.
Lemma wl_prod q p a p' (Q : R -> Prop) : (0 <= p < zlen q -> 0 <= p' < zlen a -> Q (znth 0%R q p * znth 0%R a p')%R) -> wl (prod q p a p') Q.
Proof.
  intros H. unfold prod. eapply wl_bind; [apply (wl_rdw 0%R q p (fun x => 0 <= p < zlen q /\ x = znth 0%R q p)); auto|]. intros x (Hp & ->).
  eapply wl_bind; [apply (wl_rdw 0%R a p' (fun x => 0 <= p' < zlen a /\ x = znth 0%R a p')); auto|]. intros x (Hp' & ->). apply wl_ok. apply H; auto.
Qed.
Lemma clear_wl q : zlen q = n * n -> wl (clear n q) (fun q' => zlen q' = n * n /\ forall p, 0 <= p < n * n -> znth 0%R q' p = 0%R).
Proof.
  intros L. unfold clear. apply (wl_forI (fun k q' => zlen q' = n * n /\ forall p, 0 <= p < k -> znth 0%R q' p = 0%R)); [nia|split; [exact L|intros; lia]| |auto].
  intros k t Hk (Lt & H). apply wl_wrw. intros _. split; [rewrite zlen_zupd; exact Lt|]. intros p Hp. destruct (Z.eq_dec p k) as [->|N]; [apply znth_zupd_eq; lia|]. rewrite znth_zupd_neq by lia. apply H. lia.
Qed.
Lemma normalise_wl v nrm q k : zcol q -> 0 <= k < K -> wl (normalise n v nrm q k) zcol.
Proof.
  intros Hq Hk. unfold normalise. apply (wl_forI (fun _ q' => zcol q')); [lia|exact Hq| |auto]. intros i q' Hi (L & H).
  eapply wl_bind; [apply wl_true|]. intros x _. eapply wl_bind; [apply wl_true|]. intros d _. apply wl_wrw. intros Hb. split; [rewrite zlen_zupd; exact L|].
  intros a Ha. rewrite znth_zupd_neq; [apply H; exact Ha|exact Hb|]. unfold K in *. nia.
Qed.
Lemma cgs_wl tq a q r jq : (0 < tq)%R -> zcol a -> zlen q = n * n -> wl (lis_array_cgs tq n a q r jq) (fun '(q', _) => zcol q').
Proof.
  intros Ht Ha Lq. unfold lis_array_cgs. eapply wl_bind; [apply clear_wl; exact Lq|]. intros q1 (L1 & H1). eapply wl_bind; [apply wl_true|]. intros r1 _.
  assert (Z1 : zcol q1) by (split; [exact L1|intros i Hi; apply H1; unfold K; nia]).
  eapply (wl_bind _ _ (fun '(_, _, q', _) => zcol q')); [|intros [[[stop ak] q'] r'] H; apply wl_ok; exact H].
  apply (wl_forI (fun k '(stop, ak, q', _) => zcol q' /\ zlen ak = n)); [lia|split; [exact Z1|apply zlen_alloc; lia]| |intros [[[stop ak] q'] r'] H; exact (proj1 H)].
  intros k [[[stop ak] q'] r'] Hk (Hq & La). destruct stop; [apply wl_ok; auto|].
  eapply (wl_bind _ _ (fun ak' => zlen ak' = n /\ (k = K -> zvec ak'))).
  { unfold column. apply (wl_forI (fun i ak' => zlen ak' = n /\ (k = K -> forall p, 0 <= p < i -> znth 0%R ak' p = 0%R))); [lia|split; [exact La|intros; lia]| |].
    - intros i v Hi (Lv & Hv). eapply wl_bind; [apply (wl_rdw 0%R a (i + k * n) (fun x => x = znth 0%R a (i + k * n))); auto|]. intros x ->. apply wl_wrw. intros _. split; [rewrite zlen_zupd; exact Lv|].
      intros HK p Hp. destruct (Z.eq_dec p i) as [->|N]; [rewrite znth_zupd_eq by lia; rewrite HK; apply Ha; lia|]. rewrite znth_zupd_neq by lia. apply Hv; [exact HK|lia].
    - intros v (Lv & Hv). split; [exact Lv|]. intros HK. split; [exact Lv|exact (Hv HK)]. }
  intros ak1 (La1 & Hak1).
  eapply (wl_bind _ _ (fun '(ak', _) => zlen ak' = n /\ (k = K -> zvec ak'))).
  { apply (wl_forI (fun _ '(ak', _) => zlen ak' = n /\ (k = K -> zvec ak'))); [lia|auto| |auto]. intros j [ak2 r2] Hj (La2 & Hak2).
    eapply (wl_bind _ _ (fun r3 => k = K -> 0 <= j + k * n < zlen r3 /\ znth 0%R r3 (j + k * n) = 0%R)).
    - unfold project. eapply wl_bind; [apply (wl_wrw r2 (j + k * n) s0 (fun r3 => 0 <= j + k * n < zlen r3 /\ znth 0%R r3 (j + k * n) = 0%R)); intros Hb; rewrite zlen_zupd; split; [exact Hb|apply znth_zupd_eq; exact Hb]|].
      intros r3 (Hb & H3). apply (wl_forI (fun _ r3 => k = K -> 0 <= j + k * n < zlen r3 /\ znth 0%R r3 (j + k * n) = 0%R)); [lia|auto| |auto].
      intros i r4 Hi H4. eapply wl_bind; [apply (wl_rdw 0%R r4 (j + k * n) (fun x => x = znth 0%R r4 (j + k * n))); auto|]. intros o ->.
      eapply wl_bind; [apply (wl_prod q' (i + j * n) a (i + k * n) (fun t => k = K -> t = 0%R)); intros _ _ HK; rewrite HK; rewrite (proj2 Ha i ltac:(lia)); ring|]. intros t Htt.
      apply wl_wrw. intros Hb' HK. rewrite zlen_zupd. split; [exact Hb'|]. rewrite znth_zupd_eq by exact Hb'. rewrite (proj2 (H4 HK)), (Htt HK). cbn. ring.
    - intros r3 H3. eapply (wl_bind _ _ (fun ak' => zlen ak' = n /\ (k = K -> zvec ak'))); [|intros ak4 H4; apply wl_ok; exact H4].
      apply (wl_forI (fun _ ak' => zlen ak' = n /\ (k = K -> zvec ak'))); [lia|auto| |auto]. intros i ak4 Hi (L4 & H4).
      eapply wl_bind; [apply (wl_rdw 0%R ak4 i (fun x => x = znth 0%R ak4 i)); auto|]. intros o ->.
      eapply wl_bind; [apply (wl_prod r3 (j + k * n) q' (i + j * n) (fun t => k = K -> t = 0%R)); intros _ _ HK; rewrite (proj2 (H3 HK)); ring|]. intros t Htt.
      apply wl_wrw. intros Hb. split; [rewrite zlen_zupd; exact L4|]. intros HK. split; [rewrite zlen_zupd; exact L4|]. intros p Hp.
      destruct (Z.eq_dec p i) as [->|N]; [rewrite znth_zupd_eq by exact Hb; rewrite (proj2 (H4 HK)), (Htt HK) by exact Hp; cbn; ring|]. rewrite znth_zupd_neq by lia. apply (proj2 (H4 HK)). exact Hp. }
  intros [ak2 r2] (La2 & Hak2).
  eapply (wl_bind _ _ (fun nr => k = K -> nr = 0%R)).
  { unfold Gs.nrm2. eapply (wl_bind _ _ (fun t => k = K -> t = 0%R)).
    - apply (wl_forI (fun _ t => k = K -> t = 0%R)); [lia|reflexivity| |auto]. intros i t Hi Htt. eapply wl_bind; [apply (wl_rdw 0%R ak2 i (fun x => x = znth 0%R ak2 i)); auto|]. intros x ->. apply wl_ok. intros HK. rewrite (Htt HK), (proj2 (Hak2 HK)) by lia. cbn. ring.
    - intros t Htt. apply wl_ok. intros HK. rewrite (Htt HK). cbn. apply sqrt_0. }
  intros nr Hnr. eapply wl_bind; [apply wl_true|]. intros r3 _.
  destruct (sltb nr tq) eqn:Es; [apply wl_ok; auto|].
  assert (Hk' : 0 <= k < K).
  { unfold K in *. destruct (Z.eq_dec k (n - 1)) as [HK|]; [|lia]. exfalso. rewrite (Hnr HK) in Es. unfold sltb in Es. cbn in Es. destruct (Rle_dec tq 0); [lra|discriminate]. }
  eapply wl_bind; [apply normalise_wl; [exact Hq|exact Hk']|]. intros q2 H2. apply wl_ok. auto.
Qed.
Lemma qr_loop_wl tq maxit jq : (0 < tq)%R -> forall iter a q r err, zcol a -> zlen q = n * n -> wl (qr_loop tq maxit n jq iter a q r err) (fun '(a', _, _, _, _) => zcol a').
Proof.
  intros Ht. induction maxit as [|f IH]; intros iter a q r err Ha Lq; cbn [qr_loop]; [apply wl_ok; exact Ha|].
  eapply wl_bind; [apply (cgs_wl tq a q r jq Ht Ha Lq)|]. intros [q' r'] Hq.
  eapply (wl_bind _ _ zcol).
  - apply (wl_forI (fun _ a' => zcol a')); [lia|exact Ha| |auto]. intros j a1 Hj H1. apply (wl_forI (fun _ a' => zcol a')); [lia|exact H1| |auto]. intros i a2 Hi H2.
    eapply wl_bind; [apply (wl_wrw a2 (i + j * n) s0 zcol)|].
    + intros Hb. split; [rewrite zlen_zupd; exact (proj1 H2)|]. intros p Hp. destruct (Z.eq_dec (p + K * n) (i + j * n)) as [->|N]; [apply znth_zupd_eq; exact Hb|]. rewrite znth_zupd_neq by auto. apply H2. exact Hp.
    + intros a3 H3. apply (wl_forI (fun _ a' => zcol a')); [lia|exact H3| |auto]. intros k a4 Hk H4.
      eapply wl_bind; [apply (wl_rdw 0%R a4 (i + j * n) (fun x => x = znth 0%R a4 (i + j * n))); auto|]. intros o ->.
      eapply wl_bind; [apply (wl_prod r' (i + k * n) q' (k + j * n) (fun t => j = K -> t = 0%R)); intros _ _ HK; rewrite HK, (proj2 Hq) by lia; ring|]. intros t Htt.
      apply wl_wrw. intros Hb. split; [rewrite zlen_zupd; exact (proj1 H4)|]. intros p Hp. destruct (Z.eq_dec (p + K * n) (i + j * n)) as [E|N].
      * assert (j = K) by (unfold K in *; nia). rewrite E, znth_zupd_eq by exact Hb. rewrite (Htt H), <- E, (proj2 H4) by exact Hp. cbn. ring.
      * rewrite znth_zupd_neq by auto. apply H4. exact Hp.
  - intros a' Ha'. eapply wl_bind; [apply wl_true|]. intros e _. destruct (sltb _ _); [apply wl_ok; exact Ha'|]. apply IH; [exact Ha'|exact (proj1 Hq)].
Qed.
End Q.
