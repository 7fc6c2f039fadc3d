Require Import ZArith List Bool Lia.
From Verif Require Import Base Scalar Spec Items Matvec Omp OmpProof OmpMatvec System SystemProof.
Import ListNotations.
Open Scope Z_scope.

Lemma mono_z (f : Z -> Z) n : (forall i, 0 <= i < n -> f i <= f (i + 1)) -> forall a b, 0 <= a <= b -> b <= n -> f a <= f b.
Proof.
  intros M a b Hp Hq. replace b with (a + Z.of_nat (Z.to_nat (b - a))) in * by lia. induction (Z.to_nat (b - a)) as [|k IH].
  - rewrite Z.add_0_r. lia.
  - etransitivity; [apply IH; lia|]. replace (a + Z.of_nat (Datatypes.S k)) with (a + Z.of_nat k + 1) in * by lia. apply M. lia.
Qed.

Section S.
Context {T : Type} {S : Scalar T}.
Implicit Types s : store T.

(** what both versions compute, operation by operation *)
Definition dot_fold (x : Z -> T) (vs : list (T * Z)) (t : T) : T := fold_left (fun t p => sadd t (smul (fst p) (x (snd p)))) vs t.

Lemma row_run xa vs : forall t out s, run (row_prog xa vs t out) s out = dot_fold (fun j => s (xa, j)) vs t.
Proof. induction vs as [|(v, j) vs IH]; intros t out s; cbn [row_prog run dot_fold fold_left fst snd]; [apply put_same|]. apply IH. Qed.
Lemma row_within xa vs : forall t out, within (fun c => fst c = xa) (fun c => c = out) (row_prog xa vs t out).
Proof. induction vs as [|(v, j) vs IH]; intros t out; cbn [row_prog within]; auto. Qed.
Lemma dot_fold_ext (x x' : Z -> T) vs : forall t, (forall p, In p vs -> x (snd p) = x' (snd p)) -> dot_fold x vs t = dot_fold x' vs t.
Proof. unfold dot_fold. induction vs as [|p vs IH]; intros t H; cbn [fold_left]; [auto|]. rewrite (H p) by (left; auto). apply IH. intros q Hq. apply H. right; auto. Qed.

Lemma dot_loop_wp (index : list Z) (value x : list T) a b t np : 0 <= a -> a <= b -> b <= zlen index -> b <= zlen value -> np <= zlen x ->
  (forall k, a <= k < b -> 0 <= znth 0 index k < np) ->
  wp (for_ a b (fun j t0 => j0 <- rd index j ;; v <- rd value j ;; w <- rd x j0 ;; Ok (sadd t0 (smul v w))) t)
     (fun r => r = dot_fold (znth s0 x) (map (fun j => (znth s0 value j, znth 0 index j)) (zrange a b)) t).
Proof.
  intros Ha Hab H1 H2 H3 H4. eapply (for_wp' (fun k r => r = dot_fold (znth s0 x) (map (fun j => (znth s0 value j, znth 0 index j)) (zrange a k)) t)); [lia| | |].
  - rewrite zrange_empty by lia. reflexivity.
  - intros k r Hk ->. pose proof (H4 k Hk). wrd 0; [lia|]. wrd s0; [lia|]. wrd s0; [lia|]. apply wp_ok. rewrite zrange_snoc by lia. rewrite map_app. unfold dot_fold. rewrite fold_left_app. reflexivity.
  - auto.
Qed.

Lemma matvec_csr_bits (A : csr T) x y : csr_ok A -> csr_np A <= zlen x -> csr_n A <= zlen y ->
  wp (matvec_csr A x y) (fun y' => zlen y' = zlen y /\ (forall i, 0 <= i < csr_n A -> znth s0 y' i =
    dot_fold (znth s0 x) (map (fun j => (znth s0 (csr_value A) j, znth 0 (csr_index A) j)) (zrange (znth 0 (csr_ptr A) i) (znth 0 (csr_ptr A) (i + 1)))) s0)).
Proof.
  intros ((P1 & P2 & P3 & P4) & H1 & H2 & H3 & H4 & H5) Hx Hy. unfold matvec_csr.
  eapply (for_wp' (fun k y' => zlen y' = zlen y /\ (forall i, 0 <= i < k -> znth s0 y' i =
    dot_fold (znth s0 x) (map (fun j => (znth s0 (csr_value A) j, znth 0 (csr_index A) j)) (zrange (znth 0 (csr_ptr A) i) (znth 0 (csr_ptr A) (i + 1)))) s0))); [lia| | |].
  - split; [auto|intros; lia].
  - intros k y' Hk (L & I). wrd 0; [lia|]. wrd 0; [lia|]. apply wp_bind.
    pose proof (mono_z (znth 0 (csr_ptr A)) (csr_n A) P4 0 k). pose proof (P4 k Hk). pose proof (mono_z (znth 0 (csr_ptr A)) (csr_n A) P4 (k + 1) (csr_n A)).
    eapply wp_mono; [apply (dot_loop_wp _ _ _ _ _ _ (csr_np A)); try lia; intros q Hq; apply H5; lia|]. intros r ->. cbv beta. apply wp_wr; [lia|]. rewrite zlen_zupd. split; [auto|].
    intros i Hi. rewrite znth_zupd by lia. destruct (Z.eqb_spec i k); [subst; auto|]. apply I; lia.
  - auto.
Qed.

Lemma matvec_msr_bits (A : msr T) x y : msr_ok A -> msr_np A <= zlen x -> msr_n A <= zlen y ->
  wp (matvec_msr A x y) (fun y' => zlen y' = zlen y /\ (forall i, 0 <= i < msr_n A -> znth s0 y' i =
    dot_fold (znth s0 x) (map (fun j => (znth s0 (msr_value A) j, znth 0 (msr_index A) j)) (zrange (znth 0 (msr_index A) i) (znth 0 (msr_index A) (i + 1))))
      (smul (znth s0 (msr_value A) i) (znth s0 x i)))).
Proof.
  intros (H1 & H2 & H3 & H4 & H5 & H6 & P4 & H7 & H8) Hx Hy. unfold matvec_msr.
  pose proof (mono_z (znth 0 (msr_index A)) (msr_n A) P4 0 (msr_n A)).
  eapply (for_wp' (fun k y' => zlen y' = zlen y /\ (forall i, 0 <= i < k -> znth s0 y' i =
    dot_fold (znth s0 x) (map (fun j => (znth s0 (msr_value A) j, znth 0 (msr_index A) j)) (zrange (znth 0 (msr_index A) i) (znth 0 (msr_index A) (i + 1))))
      (smul (znth s0 (msr_value A) i) (znth s0 x i))))); [lia| | |].
  - split; [auto|intros; lia].
  - intros k y' Hk (L & I). pose proof (mono_z (znth 0 (msr_index A)) (msr_n A) P4 0 k). pose proof (P4 k Hk). pose proof (mono_z (znth 0 (msr_index A)) (msr_n A) P4 (k + 1) (msr_n A)).
    wrd s0; [lia|]. wrd s0; [lia|]. wrd 0; [lia|]. wrd 0; [lia|]. apply wp_bind.
    eapply wp_mono; [apply (dot_loop_wp _ _ _ _ _ _ (msr_np A)); try lia; intros q Hq; apply H8; lia|]. intros r ->. cbv beta. apply wp_wr; [lia|]. rewrite zlen_zupd. split; [auto|].
    intros i Hi. rewrite znth_zupd by lia. destruct (Z.eqb_spec i k); [subst; auto|]. apply I; lia.
  - auto.
Qed.

(** column-by-column kernels *)
Definition col_fold (m : Z) (a : Z -> Z -> T) (c : Z -> Z -> Z) (x : Z -> T) (i : Z) : T :=
  fold_left (fun t j => sadd t (smul (a j i) (x (c j i)))) (zrange 0 m) s0.

Lemma run_each_nil body s : run (each [] body) s = s. Proof. reflexivity. Qed.
Lemma run_each_app l1 l2 body s : run (each (l1 ++ l2) body) s = run (each l2 body) (run (each l1 body) s).
Proof. revert s. induction l1 as [|i l1 IH]; intros s; [reflexivity|]. unfold each in *. cbn [app fold_right]. rewrite !run_seq. apply IH. Qed.
Lemma run_each1 i body s : run (each [i] body) s = run (body i) s.
Proof. unfold each. cbn [fold_right]. rewrite run_seq. reflexivity. Qed.
Lemma each_inv lo hi body (P : Z -> store T -> Prop) s : lo <= hi -> P lo s -> (forall i s, lo <= i < hi -> P i s -> P (i + 1) (run (body i) s)) -> P hi (run (each (zrange lo hi) body) s).
Proof.
  intros Hle H0 HS. replace hi with (lo + Z.of_nat (Z.to_nat (hi - lo))) in * by lia. induction (Z.to_nat (hi - lo)) as [|k IH].
  - rewrite Z.add_0_r in *. rewrite zrange_empty by lia. exact H0.
  - replace (lo + Z.of_nat (Datatypes.S k)) with (lo + Z.of_nat k + 1) in * by lia. rewrite zrange_snoc by lia. rewrite run_each_app, run_each1. apply HS; [lia|]. apply IH; [lia|]. intros i s' Hi. apply HS. lia.
Qed.
Lemma each_within R W l (body : Z -> prog T) : (forall i, In i l -> within R W (body i)) -> within R W (each l body).
Proof. unfold each. induction l as [|i l IH]; intros H; cbn [fold_right within]; auto. apply within_seq; [apply H; left; auto|]. apply IH. intros j Hj. apply H. right; auto. Qed.

Lemma col_run m a c xa ya is ie s : xa <> ya -> is <= ie -> 0 <= m -> forall i, is <= i < ie ->
  run (col_thread m a c xa ya is ie) s (ya, i) = col_fold m a c (fun k => s (xa, k)) i.
Proof.
  intros Hxy Hie Hm. unfold col_thread. rewrite run_seq. set (s1 := run (each (zrange is ie) (fun i => Write (ya, i) s0 Done)) s).
  assert (A1 : (forall i, is <= i < ie -> s1 (ya, i) = s0) /\ (forall k, s1 (xa, k) = s (xa, k))).
  { apply (each_inv is ie _ (fun q s' => (forall i, is <= i < q -> s' (ya, i) = s0) /\ forall k, s' (xa, k) = s (xa, k))); [lia| |].
    - split; [intros; lia|auto].
    - intros q s' Hq (B1 & B2). cbn [run]. split; [|intros k; rewrite put_other by (intros E; inversion E; auto); auto].
      intros i Hi. destruct (Z.eq_dec i q); [subst; apply put_same|]. rewrite put_other by (intros E; inversion E; auto). apply B1. lia. }
  clearbody s1.
  assert (A2 : (forall i, is <= i < ie -> run (each (zrange 0 m) (fun j => each (zrange is ie) (fun i => Read (ya, i) (fun t => Read (xa, c j i) (fun w => Write (ya, i) (sadd t (smul (a j i) w)) Done))))) s1 (ya, i) = col_fold m a c (fun k => s (xa, k)) i) /\
     (forall k, run (each (zrange 0 m) (fun j => each (zrange is ie) (fun i => Read (ya, i) (fun t => Read (xa, c j i) (fun w => Write (ya, i) (sadd t (smul (a j i) w)) Done))))) s1 (xa, k) = s (xa, k))).
  { apply (each_inv 0 m _ (fun q s' => (forall i, is <= i < ie -> s' (ya, i) = col_fold q a c (fun k => s (xa, k)) i) /\ forall k, s' (xa, k) = s (xa, k))); [lia| |].
    - destruct A1 as (B1 & B2). split; [|auto]. intros i Hi. rewrite B1 by auto. unfold col_fold. rewrite (zrange_empty 0 0) by lia. reflexivity.
    - intros j s2 Hj (C1 & C2).
      assert (ES : forall i, col_fold (j + 1) a c (fun k => s (xa, k)) i = sadd (col_fold j a c (fun k => s (xa, k)) i) (smul (a j i) (s (xa, c j i)))).
      { intros i. unfold col_fold. rewrite zrange_snoc by lia. rewrite fold_left_app. reflexivity. }
      assert (G : (forall i, is <= i < ie -> run (each (zrange is ie) (fun i => Read (ya, i) (fun t => Read (xa, c j i) (fun w => Write (ya, i) (sadd t (smul (a j i) w)) Done)))) s2 (ya, i) = if i <? ie then col_fold (j + 1) a c (fun k => s (xa, k)) i else col_fold j a c (fun k => s (xa, k)) i) /\
         (forall k, run (each (zrange is ie) (fun i => Read (ya, i) (fun t => Read (xa, c j i) (fun w => Write (ya, i) (sadd t (smul (a j i) w)) Done)))) s2 (xa, k) = s (xa, k))).
      { apply (each_inv is ie _ (fun q s' => (forall i, is <= i < ie -> s' (ya, i) = if i <? q then col_fold (j + 1) a c (fun k => s (xa, k)) i else col_fold j a c (fun k => s (xa, k)) i) /\ forall k, s' (xa, k) = s (xa, k))); [lia| |].
        - split; [|auto]. intros i Hi. destruct (Z.ltb_spec i is); [lia|]. auto.
        - intros q s3 Hq (D1 & D2). cbn [run]. rewrite D2, (D1 q) by lia. destruct (Z.ltb_spec q q); [lia|]. rewrite <- ES. split.
          + intros i Hi. destruct (Z.eq_dec i q); [subst; rewrite put_same; destruct (Z.ltb_spec q (q + 1)); [auto|lia]|].
            rewrite put_other by (intros E; inversion E; auto). rewrite D1 by auto. destruct (Z.ltb_spec i q), (Z.ltb_spec i (q + 1)); auto; lia.
          + intros k. rewrite put_other by (intros E; inversion E; auto). auto. }
      destruct G as (G1 & G2). split; [|auto]. intros i Hi. rewrite G1 by auto. destruct (Z.ltb_spec i ie); [auto|lia]. }
  intros i Hi. apply A2. auto.
Qed.

Lemma col_within m a c xa ya is ie : within (fun d => fst d = xa \/ (fst d = ya /\ is <= snd d < ie)) (fun d => fst d = ya /\ is <= snd d < ie) (col_thread m a c xa ya is ie).
Proof.
  unfold col_thread. apply within_seq; apply each_within; intros i Hi.
  - apply In_zrange in Hi. cbn. auto.
  - apply each_within. intros k Hk. apply In_zrange in Hk. cbn. auto 10.
Qed.

Lemma col_region_spec nprocs n m a c xa ya s s' : 0 < nprocs -> 0 <= n -> 0 <= m -> xa <> ya ->
  exec (col_region nprocs n m a c xa ya) s s' ->
  (forall i, 0 <= i < n -> s' (ya, i) = col_fold m a c (fun k => s (xa, k)) i) /\
  (forall d, ~ (fst d = ya /\ 0 <= snd d < n) -> s' d = s d).
Proof.
  intros Hp Hn Hm Hxy HE.
  set (body := fun r => match get_isie r nprocs n with Ok (is, ie) => col_thread m a c xa ya is ie | _ => Done end) in *.
  assert (EB : forall r, 0 <= r -> body r = col_thread m a c xa ya (part_bound n nprocs r) (part_bound n nprocs (r + 1))) by (intros r Hr; unfold body; rewrite get_isie_eq by lia; auto).
  set (W := fun r (d : cell) => fst d = ya /\ part_bound n nprocs r <= snd d < part_bound n nprocs (r + 1)).
  destruct (par_for_spec nprocs body (fun r d => fst d = xa \/ W r d) W s s') as (H1 & H2).
  - intros r Hr. rewrite EB by lia. apply col_within.
  - intros i j d Hi Hj Hij (D1 & D2). assert (NW : ~ W j d).
    { intros (_ & D3). destruct (Z.lt_ge_cases i j); [pose proof (part_bound_mono n nprocs (i + 1) j)|pose proof (part_bound_mono n nprocs (j + 1) i)]; lia. }
    split; [|auto]. intros [D4|D4]; [congruence|auto].
  - exact HE.
  - split.
    + intros i Hi. destruct (find_part (part_bound n nprocs) nprocs i) as (r & Hr & Hin); [lia|rewrite part_bound_0; lia|rewrite part_bound_p; lia|].
      rewrite (H1 r) by (try split; cbn; auto; lia). rewrite EB by lia. pose proof (part_bound_mono n nprocs r (r + 1)). apply col_run; auto; lia.
    + intros d Hd. apply H2. intros r Hr (D1 & D2). apply Hd. split; [auto|].
      pose proof (part_bound_mono n nprocs 0 r). pose proof (part_bound_mono n nprocs (r + 1) nprocs). rewrite part_bound_0 in * by lia. rewrite part_bound_p in * by lia. lia.
Qed.

Lemma col_fold_ext m a c (x x' : Z -> T) i : (forall j, 0 <= j < m -> x (c j i) = x' (c j i)) -> col_fold m a c x i = col_fold m a c x' i.
Proof.
  intros H. unfold col_fold. generalize (@s0 _ S). assert (G : forall j, In j (zrange 0 m) -> x (c j i) = x' (c j i)) by (intros j Hj; apply In_zrange in Hj; auto).
  induction (zrange 0 m) as [|j l IH]; intros t; cbn [fold_left]; [auto|]. rewrite G by (left; auto). apply IH. intros q Hq. apply G. right; auto.
Qed.

Lemma zero_to_wp n (y : list T) (Q : list T -> Prop) : 0 <= n <= zlen y -> (forall y', zlen y' = zlen y -> (forall i, 0 <= i < n -> znth s0 y' i = s0) -> Q y') -> wp (zero_to n y) Q.
Proof.
  intros Hn HQ. unfold zero_to. apply (for_wp' (fun k y' => zlen y' = zlen y /\ forall i, 0 <= i < k -> znth s0 y' i = s0)); [lia| | |].
  - split; [auto|intros; lia].
  - intros k y' Hk (L & I). apply wp_wr; [lia|]. rewrite zlen_zupd. split; [auto|]. intros i Hi. rewrite znth_zupd by lia. destruct (Z.eqb_spec i k); [auto|]. apply I; lia.
  - intros y' (L & I). auto.
Qed.

(** the serial nest: for j, for i: y[i] += a_ji * x[c_ji] *)
Lemma col_serial m n (body : Z -> Z -> list T -> res (list T)) (a : Z -> Z -> T) (c : Z -> Z -> Z) (x y : list T) (Q : list T -> Prop) : 0 <= m -> 0 <= n <= zlen y ->
  (forall j i y (Q : list T -> Prop), 0 <= j < m -> 0 <= i < n -> n <= zlen y -> Q (zupd y i (sadd (znth s0 y i) (smul (a j i) (znth s0 x (c j i))))) -> wp (body j i y) Q) ->
  (forall y', zlen y' = zlen y -> (forall i, 0 <= i < n -> znth s0 y' i = col_fold m a c (znth s0 x) i) -> Q y') ->
  wp (y <- zero_to n y ;; for_ 0 m (fun j y => for_ 0 n (fun i y => body j i y) y) y) Q.
Proof.
  intros Hm Hn HB HQ. apply wp_bind. apply zero_to_wp; [lia|]. intros y1 L1 Z1.
  apply (for_wp' (fun q y' => zlen y' = zlen y /\ forall i, 0 <= i < n -> znth s0 y' i = col_fold q a c (znth s0 x) i)); [lia| | |].
  - split; [auto|]. intros i Hi. rewrite Z1 by auto. unfold col_fold. rewrite (zrange_empty 0 0) by lia. reflexivity.
  - intros j y2 Hj (L2 & C1).
    assert (ES : forall i, col_fold (j + 1) a c (znth s0 x) i = sadd (col_fold j a c (znth s0 x) i) (smul (a j i) (znth s0 x (c j i)))).
    { intros i. unfold col_fold. rewrite zrange_snoc by lia. rewrite fold_left_app. reflexivity. }
    apply (for_wp' (fun q y' => zlen y' = zlen y /\ forall i, 0 <= i < n -> znth s0 y' i = if i <? q then col_fold (j + 1) a c (znth s0 x) i else col_fold j a c (znth s0 x) i)); [lia| | |].
    + split; [auto|]. intros i Hi. destruct (Z.ltb_spec i 0); [lia|]. auto.
    + intros q y3 Hq (L3 & D1). apply HB; [lia|lia|lia|]. rewrite zlen_zupd. split; [auto|]. intros i Hi. rewrite znth_zupd by lia. rewrite (D1 q) by lia. destruct (Z.ltb_spec q q); [lia|]. rewrite <- ES.
      destruct (Z.eqb_spec i q); [subst; destruct (Z.ltb_spec q (q + 1)); [auto|lia]|]. rewrite D1 by auto. destruct (Z.ltb_spec i q), (Z.ltb_spec i (q + 1)); auto; lia.
    + intros y3 (L3 & D1). split; [auto|]. intros i Hi. rewrite D1 by auto. destruct (Z.ltb_spec i n); [auto|lia].
  - intros y' (L & I). auto.
Qed.

Lemma matvec_ell_bits (A : ell T) x y : ell_ok A -> ell_np A <= zlen x -> ell_n A <= zlen y ->
  wp (matvec_ell A x y) (fun y' => zlen y' = zlen y /\ forall i, 0 <= i < ell_n A -> znth s0 y' i =
    col_fold (ell_maxnzr A) (fun j i => znth s0 (ell_value A) (j * ell_n A + i)) (fun j i => znth 0 (ell_index A) (j * ell_n A + i)) (znth s0 x) i).
Proof.
  intros (H1 & H2 & H3 & H4 & H5) Hx Hy. unfold matvec_ell. cbv zeta.
  apply (col_serial (ell_maxnzr A) (ell_n A) (fun j i y => v <- rd (ell_value A) (j * ell_n A + i) ;; c <- rd (ell_index A) (j * ell_n A + i) ;; w <- rd x c ;; acc y i (smul v w))
     (fun j i => znth s0 (ell_value A) (j * ell_n A + i)) (fun j i => znth 0 (ell_index A) (j * ell_n A + i)) x); [lia|lia| |].
  - intros j i y' Q Hj Hi Ly HQ. assert (0 <= j * ell_n A + i < ell_n A * ell_maxnzr A) by nia. pose proof (H5 _ H). wrd s0; [lia|]. wrd 0; [lia|]. wrd s0; [lia|]. unfold acc. wrd s0; [lia|]. apply wp_wr; [lia|]. exact HQ.
  - intros y' L I. split; auto.
Qed.
Lemma matvec_dns_bits (A : dns T) x y : dns_ok A -> dns_np A <= zlen x -> dns_n A <= zlen y ->
  wp (matvec_dns A x y) (fun y' => zlen y' = zlen y /\ forall i, 0 <= i < dns_n A -> znth s0 y' i =
    col_fold (dns_np A) (fun j i => znth s0 (dns_value A) (j * dns_n A + i)) (fun j _ => j) (znth s0 x) i).
Proof.
  intros (H1 & H2) Hx Hy. unfold matvec_dns. cbv zeta.
  apply (col_serial (dns_np A) (dns_n A) (fun j i y => v <- rd (dns_value A) (j * dns_n A + i) ;; w <- rd x j ;; acc y i (smul v w))
     (fun j i => znth s0 (dns_value A) (j * dns_n A + i)) (fun j _ => j) x); [lia|lia| |].
  - intros j i y' Q Hj Hi Ly HQ. assert (0 <= j * dns_n A + i < dns_n A * dns_np A) by nia. wrd s0; [lia|]. wrd s0; [lia|]. unfold acc. wrd s0; [lia|]. apply wp_wr; [lia|]. exact HQ.
  - intros y' L I. split; auto.
Qed.
End S.
