(** From loops over lines to the systems of SpecSplitFmt *)
Require Import ZArith List Bool Lia Ring Permutation.
From Verif Require Import Base Scalar Spec Items Fmt SplitFmt SpecSplitFmt TriLoops TriLines SplitProof2.
Import ListNotations.
Open Scope Z_scope.

Section S.
Context {T : Type} {S : Scalar T}.
Hypothesis RT : is_ring S.
Let RT' : @ring_theory T s0 s1 sadd smul ssub sopp (@eq T) := RT.
Add Ring scalar_ring_ts : RT'.
Variables (n : Z) (E : list (entry T)) (wd : list T).
Hypothesis Hn : 0 <= n.
Hypothesis Hw : n <= zlen wd.
Hypothesis Hinv : forall i, 0 <= i < n -> smul (coef E i i) (znth s0 wd i) = s1.
Lemma Hinvh (HC : conj_ok S) : forall i, 0 <= i < n -> smul (sconj (coef E i i)) (sconj (znth s0 wd i)) = s1.
Proof using Hinv. intros i Hi. destruct HC as (_ & H2 & _ & _ & H5). rewrite <- H2, Hinv by auto. exact H5. Qed.

Lemma wp_solves row f : (forall b x, n <= zlen b -> n <= zlen x -> wp (f b x) (fun x' => zlen x' = zlen x /\ forall i, 0 <= i < n -> row (znth s0 x') i = znth s0 b i)) -> solves n row f.
Proof using. intros H b x Hb Hx. specialize (H b x Hb Hx). apply wp_ex in H. destruct H as (x' & -> & L & H). exists x'. auto. Qed.

Ltac ext_gat H := let i := fresh "i" in let yy := fresh "yy" in let t := fresh "t" in let Hi := fresh "Hi" in let Hy := fresh "Hyy" in intros i yy t Hi Hy; rewrite H by auto; do 2 f_equal.

(** rows: lines of L are strictly lower, lines of U strictly upper *)
Lemma row_lower ln sub : lowline n ln (coef E) -> gat_ok n ident ln sub -> solves_lower n E (fun b x => fwd_gather n ident sub wd b x).
Proof using RT Hn Hw Hinv.
  intros HL HG. apply wp_solves. intros b x Hb Hx. apply (fwd_gather_wp RT n Hn (coef E) ident wd Hw); auto.
  ext_gat HG. apply (low_gs RT n ident ln (coef E)); auto using @additive_ident.
Qed.
Lemma row_upper ln sub : uppline n ln (coef E) -> gat_ok n ident ln sub -> solves_upper n E (fun b x => bwd_gather n ident sub wd b x).
Proof using RT Hn Hw Hinv.
  intros HL HG. apply wp_solves. intros b x Hb Hx. apply (bwd_gather_wp RT n Hn (coef E) ident wd Hw); auto.
  ext_gat HG. apply (upp_gs RT n ident ln (coef E)); auto using @additive_ident.
Qed.
Lemma row_ssor lnL lnU sub add : lowline n lnL (coef E) -> uppline n lnU (coef E) -> gat_ok n ident lnL sub -> add_ok n ident lnU add ->
  solves_ssor n E (fun b x => y <- fwd_gather n ident sub wd b x ;; bwd_correct n ident add wd y).
Proof using RT Hn Hw Hinv.
  intros HL HU HG HA b x Hb Hx. destruct (row_lower lnL sub HL HG b x Hb Hx) as (y & -> & L & H). cbn [bind].
  assert (W : wp (bwd_correct n ident add wd y) (fun x' => zlen x' = zlen y /\ forall i, 0 <= i < n -> upp_row n E (znth s0 x') i = smul (coef E i i) (znth s0 y i))).
  { apply (bwd_correct_wp RT n Hn (coef E) ident wd Hw); auto; [lia|]. ext_gat HA. apply (upp_gs RT n ident lnU (coef E)); auto using @additive_ident. }
  apply wp_ex in W. destruct W as (x' & -> & L' & H'). exists x', (znth s0 y). split; auto. split; [lia|]. auto.
Qed.
Lemma row_h_lower (HC : conj_ok S) ln live : uppline n ln (coef E) -> live_ok n sconj ln live ->
  solvesh_lower n E (fun b x => y <- copy_to n b x ;; fwd_scatter n sconj live wd y).
Proof using RT Hn Hw Hinv.
  intros HL HG. apply wp_solves. intros b x Hb Hx. apply wp_bind, (copy_to_wp n Hn); auto. intros y L Hy.
  eapply wp_mono; [apply (fwd_scatter_wp RT n Hn (fun i j => sconj (coef E j i)) sconj wd Hw)|].
  - apply (Hinvh HC).
  - lia.
  - intros i z Hi Hz. eapply wp_mono; [apply HG; auto|]. intros z' [L' H]. split; auto. intros r Hr. rewrite H by auto. f_equal. apply (upp_cs RT n sconj ln (coef E)); auto using @additive_conj.
  - cbv beta. intros x' [L' H]. split; [lia|]. intros i Hi. rewrite <- Hy by auto. apply H; auto.
Qed.
Lemma row_h_upper (HC : conj_ok S) ln live : lowline n ln (coef E) -> live_ok n sconj ln live ->
  solvesh_upper n E (fun b x => y <- copy_to n b x ;; bwd_scatter n sconj live wd y).
Proof using RT Hn Hw Hinv.
  intros HL HG. apply wp_solves. intros b x Hb Hx. apply wp_bind, (copy_to_wp n Hn); auto. intros y L Hy.
  eapply wp_mono; [apply (bwd_scatter_wp RT n Hn (fun i j => sconj (coef E j i)) sconj wd Hw)|].
  - apply (Hinvh HC).
  - lia.
  - intros i z Hi Hz. eapply wp_mono; [apply HG; auto|]. intros z' [L' H]. split; auto. intros r Hr. rewrite H by auto. f_equal. apply (low_cs RT n sconj ln (coef E)); auto using @additive_conj.
  - cbv beta. intros x' [L' H]. split; [lia|]. intros i Hi. rewrite <- Hy by auto. apply H; auto.
Qed.
Lemma row_h_ssor (HC : conj_ok S) lnL lnU scatU scatL : lowline n lnL (coef E) -> uppline n lnU (coef E) -> sca_ok n sconj lnU scatU -> sca_ok n sconj lnL scatL ->
  solvesh_ssor n E (fun b x => x <- copy_to n b x ;; x <- fwd_scatter_t n sconj scatU wd x ;; bwd_scatter_t n sconj scatL wd x).
Proof using RT Hn Hw Hinv.
  intros HL HU SU SL b x Hb Hx.
  assert (W : wp (x <- copy_to n b x ;; x <- fwd_scatter_t n sconj scatU wd x ;; bwd_scatter_t n sconj scatL wd x)
    (fun x' => exists z, zlen x' = zlen x /\ (forall i, 0 <= i < n -> lowh_row E z i = znth s0 b i) /\ forall i, 0 <= i < n -> upph_row n E (znth s0 x') i = smul (sconj (coef E i i)) (z i))).
  { apply wp_bind, (copy_to_wp n Hn); auto. intros y L Hy. apply wp_bind.
    eapply wp_mono; [apply (fwd_scatter_t_wp RT n Hn (fun i j => sconj (coef E j i)) sconj wd Hw)|].
    - apply (Hinvh HC).
    - lia.
    - intros i t z Hi Hz. eapply wp_mono; [apply SU; auto|]. intros z' [L' H]. split; auto. intros r Hr. rewrite H by auto. f_equal. apply (upp_cs RT n sconj lnU (coef E)); auto using @additive_conj.
    - cbv beta. intros u (Lu & z & Hz & Hu).
      eapply wp_mono; [apply (bwd_scatter_t_wp RT n Hn (fun i j => sconj (coef E j i)) sconj wd Hw)|].
      + apply (Hinvh HC).
      + lia.
      + intros i t q Hi Hq. eapply wp_mono; [apply SL; auto|]. intros z' [L' H]. split; auto. intros r Hr. rewrite H by auto. f_equal. apply (low_cs RT n sconj lnL (coef E)); auto using @additive_conj.
      + cbv beta. intros x' [L' H]. exists z. split; [lia|]. split.
        * intros i Hi. rewrite <- Hy by auto. apply Hz; auto.
        * intros i Hi. rewrite <- (Hu i Hi). apply H; auto. }
  apply wp_ex in W. destruct W as (x' & -> & z & W). exists x', z. split; auto.
Qed.

(** columns: lines of L (columns) have rows below the diagonal, lines of U above *)
Notation ct := (fun i j => coef E j i).
Lemma col_lower ln live : uppline n ln ct -> live_ok n ident ln live -> solves_lower n E (fun b x => y <- copy_to n b x ;; fwd_scatter n ident live wd y).
Proof using RT Hn Hw Hinv.
  intros HL HG. apply wp_solves. intros b x Hb Hx. apply wp_bind, (copy_to_wp n Hn); auto. intros y L Hy.
  eapply wp_mono; [apply (fwd_scatter_wp RT n Hn (coef E) ident wd Hw)|].
  - auto.
  - lia.
  - intros i z Hi Hz. eapply wp_mono; [apply HG; auto|]. intros z' [L' H]. split; auto. intros r Hr. rewrite H by auto. f_equal. apply (upp_cs RT n ident ln ct); auto using @additive_ident.
  - cbv beta. intros x' [L' H]. split; [lia|]. intros i Hi. rewrite <- Hy by auto. apply H; auto.
Qed.
Lemma col_upper ln live : lowline n ln ct -> live_ok n ident ln live -> solves_upper n E (fun b x => y <- copy_to n b x ;; bwd_scatter n ident live wd y).
Proof using RT Hn Hw Hinv.
  intros HL HG. apply wp_solves. intros b x Hb Hx. apply wp_bind, (copy_to_wp n Hn); auto. intros y L Hy.
  eapply wp_mono; [apply (bwd_scatter_wp RT n Hn (coef E) ident wd Hw)|].
  - auto.
  - lia.
  - intros i z Hi Hz. eapply wp_mono; [apply HG; auto|]. intros z' [L' H]. split; auto. intros r Hr. rewrite H by auto. f_equal. apply (low_cs RT n ident ln ct); auto using @additive_ident.
  - cbv beta. intros x' [L' H]. split; [lia|]. intros i Hi. rewrite <- Hy by auto. apply H; auto.
Qed.
Lemma col_ssor lnL lnU scatL scatU : uppline n lnL ct -> lowline n lnU ct -> sca_ok n ident lnL scatL -> sca_ok n ident lnU scatU ->
  solves_ssor n E (fun b x => x <- copy_to n b x ;; x <- fwd_scatter_t n ident scatL wd x ;; bwd_scatter_t n ident scatU wd x).
Proof using RT Hn Hw Hinv.
  intros HL HU SL SU b x Hb Hx.
  assert (W : wp (x <- copy_to n b x ;; x <- fwd_scatter_t n ident scatL wd x ;; bwd_scatter_t n ident scatU wd x)
    (fun x' => exists z, zlen x' = zlen x /\ (forall i, 0 <= i < n -> low_row E z i = znth s0 b i) /\ forall i, 0 <= i < n -> upp_row n E (znth s0 x') i = smul (coef E i i) (z i))).
  { apply wp_bind, (copy_to_wp n Hn); auto. intros y L Hy. apply wp_bind.
    eapply wp_mono; [apply (fwd_scatter_t_wp RT n Hn (coef E) ident wd Hw)|].
    - auto.
    - lia.
    - intros i t z Hi Hz. eapply wp_mono; [apply SL; auto|]. intros z' [L' H]. split; auto. intros r Hr. rewrite H by auto. f_equal. apply (upp_cs RT n ident lnL ct); auto using @additive_ident.
    - cbv beta. intros u (Lu & z & Hz & Hu).
      eapply wp_mono; [apply (bwd_scatter_t_wp RT n Hn (coef E) ident wd Hw)|].
      + auto.
      + lia.
      + intros i t q Hi Hq. eapply wp_mono; [apply SU; auto|]. intros z' [L' H]. split; auto. intros r Hr. rewrite H by auto. f_equal. apply (low_cs RT n ident lnU ct); auto using @additive_ident.
      + cbv beta. intros x' [L' H]. exists z. split; [lia|]. split.
        * intros i Hi. rewrite <- Hy by auto. apply Hz; auto.
        * intros i Hi. rewrite <- (Hu i Hi). apply H; auto. }
  apply wp_ex in W. destruct W as (x' & -> & z & W). exists x', z. split; auto.
Qed.
Lemma col_h_lower (HC : conj_ok S) ln sub : lowline n ln ct -> gat_ok n sconj ln sub -> solvesh_lower n E (fun b x => fwd_gather n sconj sub wd b x).
Proof using RT Hn Hw Hinv.
  intros HL HG. apply wp_solves. intros b x Hb Hx. apply (fwd_gather_wp RT n Hn (fun i j => sconj (coef E j i)) sconj wd Hw); auto.
  - apply (Hinvh HC).
  - ext_gat HG. apply (low_gs RT n sconj ln ct); auto using @additive_conj.
Qed.
Lemma col_h_upper (HC : conj_ok S) ln sub : uppline n ln ct -> gat_ok n sconj ln sub -> solvesh_upper n E (fun b x => bwd_gather n sconj sub wd b x).
Proof using RT Hn Hw Hinv.
  intros HL HG. apply wp_solves. intros b x Hb Hx. apply (bwd_gather_wp RT n Hn (fun i j => sconj (coef E j i)) sconj wd Hw); auto.
  - apply (Hinvh HC).
  - ext_gat HG. apply (upp_gs RT n sconj ln ct); auto using @additive_conj.
Qed.
Lemma col_h_ssor (HC : conj_ok S) lnL lnU sub add : uppline n lnL ct -> lowline n lnU ct -> gat_ok n sconj lnU sub -> add_ok n sconj lnL add ->
  solvesh_ssor n E (fun b x => y <- fwd_gather n sconj sub wd b x ;; bwd_correct n sconj add wd y).
Proof using RT Hn Hw Hinv.
  intros HL HU HG HA b x Hb Hx. destruct (col_h_lower HC lnU sub HU HG b x Hb Hx) as (y & -> & L & H). cbn [bind].
  assert (W : wp (bwd_correct n sconj add wd y) (fun x' => zlen x' = zlen y /\ forall i, 0 <= i < n -> upph_row n E (znth s0 x') i = smul (sconj (coef E i i)) (znth s0 y i))).
  { apply (bwd_correct_wp RT n Hn (fun i j => sconj (coef E j i)) sconj wd Hw); auto; [apply (Hinvh HC)|lia|]. ext_gat HA. apply (upp_gs RT n sconj lnL ct); auto using @additive_conj. }
  apply wp_ex in W. destruct W as (x' & -> & L' & H'). exists x', (znth s0 y). split; auto. split; [lia|]. auto.
Qed.
End S.
