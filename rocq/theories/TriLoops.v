(** The loop shapes of SplitFmt solve triangular systems *)
Require Import ZArith List Bool Lia Ring.
From Verif Require Import Base Scalar Spec SplitFmt.
Import ListNotations.
Open Scope Z_scope.

Section S.
Context {T : Type} {S : Scalar T}.
Hypothesis RT : is_ring S.
Let RT' : @ring_theory T s0 s1 sadd smul ssub sopp (@eq T) := RT.
Add Ring scalar_ring_tl : RT'.
Variable n : Z.
Hypothesis Hn : 0 <= n.
Variable a : Z -> Z -> T.
Notation dot i x lo hi := (ssum (map (fun j => smul (a i j) (x j)) (zrange lo hi))).

Lemma dot_ext (i : Z) (x y : Z -> T) lo hi : (forall j, lo <= j < hi -> x j = y j) -> dot i x lo hi = dot i y lo hi.
Proof. intros H. apply ssum_map_ext. intros j Hj. apply In_zrange in Hj. rewrite H by auto. reflexivity. Qed.
Lemma dot_snoc (i : Z) (x : Z -> T) lo hi : lo <= hi -> dot i x lo (hi + 1) = sadd (dot i x lo hi) (smul (a i hi) (x hi)).
Proof. intros. rewrite zrange_snoc by lia. rewrite map_app, (ssum_app RT). cbn [map ssum]. ring. Qed.
Lemma dot_cons (i : Z) (x : Z -> T) lo hi : lo < hi -> dot i x lo hi = sadd (smul (a i lo) (x lo)) (dot i x (lo + 1) hi).
Proof. intros. rewrite zrange_cons by lia. reflexivity. Qed.

Variables (g : T -> T) (wd : list T).
Hypothesis Hw : n <= zlen wd.
Hypothesis Hinv : forall i, 0 <= i < n -> smul (a i i) (g (znth s0 wd i)) = s1.

Lemma inv_t i t : 0 <= i < n -> smul (a i i) (smul t (g (znth s0 wd i))) = t.
Proof using RT Hinv. intros Hi. transitivity (smul t (smul (a i i) (g (znth s0 wd i)))); [ring|]. rewrite Hinv by auto. ring. Qed.

Lemma copy_to_wp (b x : list T) (Q : list T -> Prop) : n <= zlen b -> n <= zlen x ->
  (forall y, zlen y = zlen x -> (forall i, 0 <= i < n -> znth s0 y i = znth s0 b i) -> Q y) -> wp (copy_to n b x) Q.
Proof using Hn.
  intros Hb Hx HQ. unfold copy_to.
  apply (for_wp' (fun i y => zlen y = zlen x /\ forall r, 0 <= r < i -> znth s0 y r = znth s0 b r)); [lia| | |].
  - split; auto. intros; lia.
  - intros i y Hi [L H]. wrd s0; [lia|]. apply wp_wr; [lia|]. split; [len|]. intros r Hr. rewrite znth_zupd by lia.
    destruct (Z.eqb_spec r i) as [->|Hne]; [reflexivity|]. apply H. lia.
  - intros y [L H]. apply HQ; auto.
Qed.

Lemma fwd_gather_wp sub (b x : list T) : n <= zlen b -> n <= zlen x ->
  (forall i x t, 0 <= i < n -> n <= zlen x -> sub i x t = Ok (ssub t (dot i (znth s0 x) 0 i))) ->
  wp (fwd_gather n g sub wd b x) (fun x' => zlen x' = zlen x /\ forall i, 0 <= i < n -> dot i (znth s0 x') 0 (i + 1) = znth s0 b i).
Proof using RT Hn Hw Hinv.
  intros Hb Hx Hs. unfold fwd_gather.
  apply (for_wp' (fun i y => zlen y = zlen x /\ forall r, 0 <= r < i -> dot r (znth s0 y) 0 (r + 1) = znth s0 b r)); [lia| | |].
  - split; auto. intros; lia.
  - intros i y Hi [L H]. wrd s0; [lia|]. rewrite Hs by lia. cbn [bind]. wrd s0; [lia|]. apply wp_wr; [lia|]. split; [len|].
    intros r Hr. destruct (Z.eq_dec r i) as [->|Hne].
    + rewrite dot_snoc by lia. rewrite znth_zupd_eq by lia. rewrite inv_t by lia.
      rewrite (dot_ext i (znth s0 (zupd y i _)) (znth s0 y) 0 i); [ring|]. intros j Hj. rewrite znth_zupd_neq by lia. reflexivity.
    + rewrite <- (H r) by lia. apply dot_ext. intros j Hj. rewrite znth_zupd_neq by lia. reflexivity.
  - intros y [L H]. auto.
Qed.

Lemma bwd_gather_wp sub (b x : list T) : n <= zlen b -> n <= zlen x ->
  (forall i x t, 0 <= i < n -> n <= zlen x -> sub i x t = Ok (ssub t (dot i (znth s0 x) (i + 1) n))) ->
  wp (bwd_gather n g sub wd b x) (fun x' => zlen x' = zlen x /\ forall i, 0 <= i < n -> dot i (znth s0 x') i n = znth s0 b i).
Proof using RT Hn Hw Hinv.
  intros Hb Hx Hs. unfold bwd_gather.
  apply (ford_wp' (fun i y => zlen y = zlen x /\ forall r, i < r < n -> dot r (znth s0 y) r n = znth s0 b r)); [lia| | |].
  - split; auto. intros; lia.
  - intros i y Hi [L H]. wrd s0; [lia|]. rewrite Hs by lia. cbn [bind]. wrd s0; [lia|]. apply wp_wr; [lia|]. split; [len|].
    intros r Hr. destruct (Z.eq_dec r i) as [->|Hne].
    + rewrite dot_cons by lia. rewrite znth_zupd_eq by lia. rewrite inv_t by lia.
      rewrite (dot_ext i (znth s0 (zupd y i _)) (znth s0 y) (i + 1) n); [ring|]. intros j Hj. rewrite znth_zupd_neq by lia. reflexivity.
    + rewrite <- (H r) by lia. apply dot_ext. intros j Hj. rewrite znth_zupd_neq by lia. reflexivity.
  - intros y [L H]. split; auto. intros i Hi. apply H. lia.
Qed.

Lemma bwd_correct_wp add (x : list T) : n <= zlen x ->
  (forall i x t, 0 <= i < n -> n <= zlen x -> add i x t = Ok (sadd t (dot i (znth s0 x) (i + 1) n))) ->
  wp (bwd_correct n g add wd x) (fun x' => zlen x' = zlen x /\ forall i, 0 <= i < n -> dot i (znth s0 x') i n = smul (a i i) (znth s0 x i)).
Proof using RT Hn Hw Hinv.
  intros Hx Hs. unfold bwd_correct.
  apply (ford_wp' (fun i y => zlen y = zlen x /\ (forall r, 0 <= r <= i -> znth s0 y r = znth s0 x r) /\ forall r, i < r < n -> dot r (znth s0 y) r n = smul (a r r) (znth s0 x r))); [lia| | |].
  - split; auto. split; intros; [auto|lia].
  - intros i y Hi (L & H1 & H). rewrite Hs by lia. cbn [bind]. wrd s0; [lia|]. wrd s0; [lia|]. apply wp_wr; [lia|]. split; [len|]. split.
    { intros r Hr. rewrite znth_zupd_neq by lia. apply H1; lia. }
    intros r Hr. destruct (Z.eq_dec r i) as [->|Hne].
    + rewrite dot_cons by lia. rewrite znth_zupd_eq by lia. rewrite H1 by lia.
      rewrite (dot_ext i (znth s0 (zupd y i _)) (znth s0 y) (i + 1) n).
      * set (d := dot i (znth s0 y) (i + 1) n).
        transitivity (sadd (ssub (smul (a i i) (znth s0 x i)) (smul (a i i) (smul (sadd s0 d) (g (znth s0 wd i))))) d); [ring|].
        rewrite inv_t by lia. ring.
      * intros j Hj. rewrite znth_zupd_neq by lia. reflexivity.
    + rewrite <- (H r) by lia. apply dot_ext. intros j Hj. rewrite znth_zupd_neq by lia. reflexivity.
  - intros y (L & _ & H). split; auto. intros i Hi. apply H. lia.
Qed.

(** scattering: after step i, x[i] holds x[i]*g(WD[i]) and the later elements are reduced *)
Definition down (i r : Z) (t : T) : T := if i <? r then smul (a r i) t else s0.
Definition up (i r : Z) (t : T) : T := if r <? i then smul (a r i) t else s0.

Lemma fwd_scatter_body body (x : list T) : n <= zlen x ->
  (forall i y, 0 <= i < n -> n <= zlen y -> wp (body i y) (fun y' => zlen y' = zlen y /\
      forall r, 0 <= r < n -> znth s0 y' r = if r =? i then smul (znth s0 y i) (g (znth s0 wd i)) else ssub (znth s0 y r) (down i r (smul (znth s0 y i) (g (znth s0 wd i)))))) ->
  wp (for_ 0 n body x) (fun x' => zlen x' = zlen x /\ forall i, 0 <= i < n -> dot i (znth s0 x') 0 (i + 1) = znth s0 x i).
Proof using RT Hn Hinv.
  intros Hx Hs.
  apply (for_wp' (fun i y => zlen y = zlen x /\ (forall r, 0 <= r < i -> dot r (znth s0 y) 0 (r + 1) = znth s0 x r) /\
     forall r, i <= r < n -> znth s0 y r = ssub (znth s0 x r) (dot r (znth s0 y) 0 i))); [lia| | |].
  - split; auto. split; intros; [lia|]. rewrite zrange_empty by lia. cbn [map ssum]. ring.
  - intros i y Hi (L & H1 & H2). eapply wp_mono; [apply Hs; lia|]. cbv beta. intros y' [L' H]. split; [lia|].
    assert (Hlt : forall j, 0 <= j < i -> znth s0 y' j = znth s0 y j).
    { intros j Hj. rewrite H by lia. destruct (Z.eqb_spec j i) as [E|_]; [lia|]. unfold down. destruct (Z.ltb_spec i j) as [E|_]; [lia|]. ring. }
    assert (Hat : znth s0 y' i = smul (znth s0 y i) (g (znth s0 wd i))).
    { rewrite H by lia. rewrite Z.eqb_refl. reflexivity. }
    split.
    + intros r Hr. destruct (Z.eq_dec r i) as [->|Hne].
      * rewrite dot_snoc by lia. rewrite Hat, inv_t by lia. rewrite H2 by lia. rewrite (dot_ext i (znth s0 y') (znth s0 y) 0 i) by auto. ring.
      * rewrite <- (H1 r) by lia. apply dot_ext. intros j Hj. apply Hlt. lia.
    + intros r Hr. rewrite dot_snoc by lia. rewrite Hat. rewrite (dot_ext r (znth s0 y') (znth s0 y) 0 i) by auto.
      rewrite H by lia. destruct (Z.eqb_spec r i) as [E|_]; [lia|]. rewrite (H2 r) by lia. unfold down. destruct (Z.ltb_spec i r) as [_|E]; [|lia]. ring.
  - intros y (L & H & _). auto.
Qed.

Lemma bwd_scatter_body body (x : list T) : n <= zlen x ->
  (forall i y, 0 <= i < n -> n <= zlen y -> wp (body i y) (fun y' => zlen y' = zlen y /\
      forall r, 0 <= r < n -> znth s0 y' r = if r =? i then smul (znth s0 y i) (g (znth s0 wd i)) else ssub (znth s0 y r) (up i r (smul (znth s0 y i) (g (znth s0 wd i)))))) ->
  wp (for_down (n - 1) 0 body x) (fun x' => zlen x' = zlen x /\ forall i, 0 <= i < n -> dot i (znth s0 x') i n = znth s0 x i).
Proof using RT Hn Hinv.
  intros Hx Hs.
  apply (ford_wp' (fun i y => zlen y = zlen x /\ (forall r, i < r < n -> dot r (znth s0 y) r n = znth s0 x r) /\
     forall r, 0 <= r <= i -> znth s0 y r = ssub (znth s0 x r) (dot r (znth s0 y) (i + 1) n))); [lia| | |].
  - split; auto. split; intros; [lia|]. rewrite zrange_empty by lia. cbn [map ssum]. ring.
  - intros i y Hi (L & H1 & H2). eapply wp_mono; [apply Hs; lia|]. cbv beta. intros y' [L' H]. split; [lia|].
    assert (Hlt : forall j, i + 1 <= j < n -> znth s0 y' j = znth s0 y j).
    { intros j Hj. rewrite H by lia. destruct (Z.eqb_spec j i) as [E|_]; [lia|]. unfold up. destruct (Z.ltb_spec j i) as [E|_]; [lia|]. ring. }
    assert (Hat : znth s0 y' i = smul (znth s0 y i) (g (znth s0 wd i))).
    { rewrite H by lia. rewrite Z.eqb_refl. reflexivity. }
    split.
    + intros r Hr. destruct (Z.eq_dec r i) as [->|Hne].
      * rewrite dot_cons by lia. rewrite Hat, inv_t by lia. rewrite H2 by lia. rewrite (dot_ext i (znth s0 y') (znth s0 y) (i + 1) n) by auto. ring.
      * rewrite <- (H1 r) by lia. apply dot_ext. intros j Hj. apply Hlt. lia.
    + intros r Hr. replace (i - 1 + 1) with i by lia. rewrite (dot_cons r _ i n) by lia. rewrite Hat. rewrite (dot_ext r (znth s0 y') (znth s0 y) (i + 1) n) by auto.
      rewrite H by lia. destruct (Z.eqb_spec r i) as [E|_]; [lia|]. rewrite (H2 r) by lia. unfold up. destruct (Z.ltb_spec r i) as [_|E]; [|lia]. ring.
  - intros y (L & H & _). split; auto. intros i Hi. apply H. lia.
Qed.

Lemma fwd_scatter_wp live (x : list T) : n <= zlen x ->
  (forall i y, 0 <= i < n -> n <= zlen y -> wp (live i y) (fun y' => zlen y' = zlen y /\ forall r, 0 <= r < n -> znth s0 y' r = ssub (znth s0 y r) (down i r (znth s0 y i)))) ->
  wp (fwd_scatter n g live wd x) (fun x' => zlen x' = zlen x /\ forall i, 0 <= i < n -> dot i (znth s0 x') 0 (i + 1) = znth s0 x i).
Proof using RT Hn Hw Hinv.
  intros Hx Hs. unfold fwd_scatter. apply fwd_scatter_body; [auto|].
  intros i y Hi Hy. wrd s0; [lia|]. wrd s0; [lia|]. apply wp_bind, wp_wr; [lia|]. eapply wp_mono; [apply Hs; [lia|len]|]. cbv beta. intros y' [L H]. split; [rewrite L; len|].
  intros r Hr. rewrite H by lia. rewrite znth_zupd_eq by lia. rewrite znth_zupd by lia. destruct (Z.eqb_spec r i) as [->|Hne]; [|reflexivity].
  unfold down. rewrite Z.ltb_irrefl. ring.
Qed.
Lemma bwd_scatter_wp live (x : list T) : n <= zlen x ->
  (forall i y, 0 <= i < n -> n <= zlen y -> wp (live i y) (fun y' => zlen y' = zlen y /\ forall r, 0 <= r < n -> znth s0 y' r = ssub (znth s0 y r) (up i r (znth s0 y i)))) ->
  wp (bwd_scatter n g live wd x) (fun x' => zlen x' = zlen x /\ forall i, 0 <= i < n -> dot i (znth s0 x') i n = znth s0 x i).
Proof using RT Hn Hw Hinv.
  intros Hx Hs. unfold bwd_scatter. apply bwd_scatter_body; [auto|].
  intros i y Hi Hy. wrd s0; [lia|]. wrd s0; [lia|]. apply wp_bind, wp_wr; [lia|]. eapply wp_mono; [apply Hs; [lia|len]|]. cbv beta. intros y' [L H]. split; [rewrite L; len|].
  intros r Hr. rewrite H by lia. rewrite znth_zupd_eq by lia. rewrite znth_zupd by lia. destruct (Z.eqb_spec r i) as [->|Hne]; [|reflexivity].
  unfold up. rewrite Z.ltb_irrefl. ring.
Qed.
Lemma bwd_scatter_t_wp scat (x : list T) : n <= zlen x ->
  (forall i t y, 0 <= i < n -> n <= zlen y -> wp (scat i t y) (fun y' => zlen y' = zlen y /\ forall r, 0 <= r < n -> znth s0 y' r = ssub (znth s0 y r) (up i r t))) ->
  wp (bwd_scatter_t n g scat wd x) (fun x' => zlen x' = zlen x /\ forall i, 0 <= i < n -> dot i (znth s0 x') i n = znth s0 x i).
Proof using RT Hn Hw Hinv.
  intros Hx Hs. unfold bwd_scatter_t. apply bwd_scatter_body; [auto|].
  intros i y Hi Hy. wrd s0; [lia|]. wrd s0; [lia|]. apply wp_bind, wp_wr; [lia|]. eapply wp_mono; [apply Hs; [lia|len]|]. cbv beta. intros y' [L H]. split; [rewrite L; len|].
  intros r Hr. rewrite H by lia. rewrite znth_zupd by lia. destruct (Z.eqb_spec r i) as [->|Hne]; [|reflexivity].
  unfold up. rewrite Z.ltb_irrefl. ring.
Qed.
(** z_i = x'_i g(WD_i) solves the lower system; x'_i = a_ii z_i *)
Lemma fwd_scatter_t_wp scat (x : list T) : n <= zlen x ->
  (forall i t y, 0 <= i < n -> n <= zlen y -> wp (scat i t y) (fun y' => zlen y' = zlen y /\ forall r, 0 <= r < n -> znth s0 y' r = ssub (znth s0 y r) (down i r t))) ->
  wp (fwd_scatter_t n g scat wd x) (fun x' => zlen x' = zlen x /\ exists z : Z -> T,
     (forall i, 0 <= i < n -> dot i z 0 (i + 1) = znth s0 x i) /\ forall i, 0 <= i < n -> znth s0 x' i = smul (a i i) (z i)).
Proof using RT Hn Hw Hinv.
  intros Hx Hs. unfold fwd_scatter_t.
  set (zz := fun (y : list T) j => smul (znth s0 y j) (g (znth s0 wd j))).
  apply (for_wp' (fun i y => zlen y = zlen x /\ (forall r, 0 <= r < i -> dot r (zz y) 0 (r + 1) = znth s0 x r) /\
     forall r, i <= r < n -> znth s0 y r = ssub (znth s0 x r) (dot r (zz y) 0 i))); [lia| | |].
  - split; auto. split; intros; [lia|]. rewrite zrange_empty by lia. cbn [map ssum]. ring.
  - intros i y Hi (L & H1 & H2). wrd s0; [lia|]. wrd s0; [lia|]. eapply wp_mono; [apply Hs; lia|]. cbv beta. intros y' [L' H]. split; [lia|].
    assert (Hlt : forall j, 0 <= j <= i -> znth s0 y' j = znth s0 y j).
    { intros j Hj. rewrite H by lia. unfold down. destruct (Z.ltb_spec i j) as [E|_]; [lia|]. ring. }
    split.
    + intros r Hr. destruct (Z.eq_dec r i) as [->|Hne].
      * rewrite dot_snoc by lia. unfold zz at 2. rewrite inv_t by lia. rewrite Hlt by lia. rewrite H2 by lia. rewrite (dot_ext i (zz y') (zz y) 0 i); [ring|]. intros j Hj. unfold zz. rewrite Hlt by lia. reflexivity.
      * rewrite <- (H1 r) by lia. apply dot_ext. intros j Hj. unfold zz. rewrite Hlt by lia. reflexivity.
    + intros r Hr. rewrite dot_snoc by lia. rewrite (dot_ext r (zz y') (zz y) 0 i). 2:{ intros j Hj. unfold zz. rewrite Hlt by lia. reflexivity. }
      rewrite H by lia. unfold zz at 2. rewrite (Hlt i) by lia. rewrite (H2 r) by lia. unfold down. destruct (Z.ltb_spec i r) as [_|E]; [|lia]. ring.
  - intros y (L & H & _). split; auto. exists (zz y). split; auto. intros i Hi. unfold zz. rewrite inv_t by lia. reflexivity.
Qed.
End S.
