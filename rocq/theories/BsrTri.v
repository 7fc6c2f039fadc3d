(** The loops of BsrSolve solve block triangular systems *)
Require Import ZArith List Bool Lia Ring.
From Verif Require Import Base Scalar Spec Items CscProof Fmt MatvecProof SpecArray BsrSolve.
Import ListNotations.
Open Scope Z_scope.

Section S.
Context {T : Type} {S : Scalar T}.
Hypothesis RT : is_ring S.
Let RT' : @ring_theory T s0 s1 sadd smul ssub sopp (@eq T) := RT.
Add Ring scalar_ring_bt : RT'.

Lemma zlen1 (w : list T) : zlen w = 1 -> exists a, w = [a].
Proof. destruct w as [|a [|]]; unfold zlen; cbn [length]; intros; try lia. eauto. Qed.
Lemma zlen2 (w : list T) : zlen w = 2 -> exists a c, w = [a; c].
Proof. destruct w as [|a [|c [|]]]; unfold zlen; cbn [length]; intros; try lia. eauto. Qed.
Lemma zlen3 (w : list T) : zlen w = 3 -> exists a c d, w = [a; c; d].
Proof. destruct w as [|a [|c [|d [|]]]]; unfold zlen; cbn [length]; intros; try lia. eauto. Qed.

Definition bdot (b : Z) (v : list T) (j ii : Z) (y : Z -> T) : T :=
  sum_to b (fun jj => smul (znth s0 v (j * (b * b) + jj * b + ii)) (y jj)).
Lemma sum_to_ext n f g : (forall i, 0 <= i < n -> f i = g i) -> sum_to n f = sum_to n g.
Proof. intros H. apply ssum_map_ext. intros i Hi. apply In_zrange in Hi. auto. Qed.
Lemma bdot_ext b v j ii y z : (forall k, 0 <= k < b -> y k = z k) -> bdot b v j ii y = bdot b v j ii z.
Proof. intros H. apply sum_to_ext. intros i Hi. rewrite H by auto. auto. Qed.

Section Op.
Variables (op : T -> T -> T) (sg : T).
Hypothesis Hop : forall t u, op t u = sadd t (smul sg u).
Definition upd_by (b : Z) (w : list T) (f : Z -> T) (w' : list T) : Prop := zlen w' = b /\ forall ii, 0 <= ii < b -> znth s0 w' ii = sadd (znth s0 w ii) (smul sg (f ii)).

Lemma blkn_wp b (v x : list T) j jj w : 0 < b -> 0 <= j -> 0 <= jj -> j * (b * b) + b * b <= zlen v -> jj * b + b <= zlen x -> zlen w = b ->
  wp (blkn op b v x j jj w) (upd_by b w (fun ii => bdot b v j ii (fun k => znth s0 x (jj * b + k)))).
Proof using RT Hop.
  intros Hb Hj Hjj Hv Hx Hw. unfold blkn. cbv zeta.
  apply (for_wp' (fun p u => zlen u = b /\ forall ii, 0 <= ii < b -> znth s0 u ii = if ii <? p then sadd (znth s0 w ii) (smul sg (bdot b v j ii (fun k => znth s0 x (jj * b + k)))) else znth s0 w ii)); [lia| | |].
  - split; auto. intros ii Hii. destruct (Z.ltb_spec ii 0); [lia|auto].
  - intros ii u Hii [L H]. wrd s0; [lia|]. wbind.
    apply (for_wp' (fun p t => t = sadd (znth s0 u ii) (smul sg (sum_to p (fun q => smul (znth s0 v (j * (b * b) + q * b + ii)) (znth s0 x (jj * b + q))))))); [lia| | |].
    + unfold sum_to. rewrite zrange_empty by lia. cbn [map ssum]. ring.
    + intros q t Hq ->. assert (0 <= j * (b * b)) by nia. assert (0 <= q * b) by nia. assert (q * b + b <= b * b) by nia. assert (0 <= jj * b) by nia.
      wrd s0; [lia|]. wrd s0; [lia|]. apply wp_ok. rewrite Hop. unfold sum_to. rewrite zrange_snoc by lia. rewrite map_app, (ssum_app RT). cbn [map ssum]. ring.
    + intros t ->. apply wp_wr; [lia|]. split; [len|]. intros r Hr. rewrite znth_zupd by lia. destruct (Z.eqb_spec r ii) as [->|Hne].
      * rewrite (H ii) by lia. destruct (Z.ltb_spec ii ii); [lia|]. destruct (Z.ltb_spec ii (ii + 1)); [|lia]. reflexivity.
      * rewrite H by lia. destruct (Z.ltb_spec r ii); destruct (Z.ltb_spec r (ii + 1)); auto; lia.
  - intros u [L H]. split; auto. intros ii Hii. rewrite H by auto. destruct (Z.ltb_spec ii b); [auto|lia].
Qed.
Lemma blk_wp b (v x : list T) j jj w : 0 < b -> 0 <= j -> 0 <= jj -> j * (b * b) + b * b <= zlen v -> jj * b + b <= zlen x -> zlen w = b ->
  wp (blk op b v x j jj w) (upd_by b w (fun ii => bdot b v j ii (fun k => znth s0 x (jj * b + k)))).
Proof using RT Hop.
  intros Hb Hj Hjj Hv Hx Hw. unfold blk.
  assert (C : b = 1 \/ b = 2 \/ b = 3 \/ 3 < b) by lia. destruct C as [->|[->|[->|Hb3]]].
  - destruct (zlen1 w Hw) as (t0 & ->). unfold blk1. wrd s0; [lia|]. wrd s0; [lia|]. apply wp_ok. split; [reflexivity|]. intros ii Hii. assert (ii = 0) by lia. subst ii.
    unfold bdot, sum_to. change (zrange 0 1) with [0]. cbn [map ssum]. rewrite Hop. change (znth s0 [sadd t0 (smul sg (smul (znth s0 v j) (znth s0 x jj)))] 0) with (sadd t0 (smul sg (smul (znth s0 v j) (znth s0 x jj)))). change (znth s0 [t0] 0) with t0.
    replace (j * (1 * 1) + 0 * 1 + 0) with j by lia. replace (jj * 1 + 0) with jj by lia. ring.
  - destruct (zlen2 w Hw) as (t0 & t1 & ->). unfold blk2. do 8 (wrd s0; [lia|]; cbv zeta). apply wp_ok. split; [reflexivity|]. intros ii Hii.
    unfold bdot, sum_to. change (zrange 0 2) with [0; 1]. cbn [map ssum]. rewrite !Hop. assert (C : ii = 0 \/ ii = 1) by lia.
    replace (j * (2 * 2)) with (j * 4) by lia. change (znth s0 [t0; t1] 0) with t0. destruct C as [->| ->].
    + match goal with |- znth s0 [?a; _] 0 = _ => change (a = sadd t0 (smul sg (sadd (smul (znth s0 v (j * 4 + 0 * 2 + 0)) (znth s0 x (jj * 2 + 0))) (sadd (smul (znth s0 v (j * 4 + 1 * 2 + 0)) (znth s0 x (jj * 2 + 1))) s0)))) end.
      replace (j * 4 + 0 * 2 + 0) with (j * 4 + 0) by lia. replace (j * 4 + 1 * 2 + 0) with (j * 4 + 2) by lia. ring.
    + match goal with |- znth s0 [_; ?a] 1 = _ => change (a = sadd t1 (smul sg (sadd (smul (znth s0 v (j * 4 + 0 * 2 + 1)) (znth s0 x (jj * 2 + 0))) (sadd (smul (znth s0 v (j * 4 + 1 * 2 + 1)) (znth s0 x (jj * 2 + 1))) s0)))) end.
      replace (j * 4 + 0 * 2 + 1) with (j * 4 + 1) by lia. replace (j * 4 + 1 * 2 + 1) with (j * 4 + 3) by lia. ring.
  - destruct (zlen3 w Hw) as (t0 & t1 & t2 & ->). unfold blk3. do 18 (wrd s0; [lia|]; cbv zeta). apply wp_ok. split; [reflexivity|]. intros ii Hii.
    unfold bdot, sum_to. change (zrange 0 3) with [0; 1; 2]. cbn [map ssum]. rewrite !Hop.
    replace (j * (3 * 3)) with (j * 9) by lia. assert (C : ii = 0 \/ ii = 1 \/ ii = 2) by lia. destruct C as [->|[->| ->]].
    + match goal with |- znth s0 [?a; _; _] 0 = _ => change (a = sadd t0 (smul sg (sadd (smul (znth s0 v (j * 9 + 0 * 3 + 0)) (znth s0 x (jj * 3 + 0))) (sadd (smul (znth s0 v (j * 9 + 1 * 3 + 0)) (znth s0 x (jj * 3 + 1))) (sadd (smul (znth s0 v (j * 9 + 2 * 3 + 0)) (znth s0 x (jj * 3 + 2))) s0))))) end.
      replace (j * 9 + 0 * 3 + 0) with (j * 9 + 0) by lia. replace (j * 9 + 1 * 3 + 0) with (j * 9 + 3) by lia. replace (j * 9 + 2 * 3 + 0) with (j * 9 + 6) by lia. ring.
    + match goal with |- znth s0 [_; ?a; _] 1 = _ => change (a = sadd t1 (smul sg (sadd (smul (znth s0 v (j * 9 + 0 * 3 + 1)) (znth s0 x (jj * 3 + 0))) (sadd (smul (znth s0 v (j * 9 + 1 * 3 + 1)) (znth s0 x (jj * 3 + 1))) (sadd (smul (znth s0 v (j * 9 + 2 * 3 + 1)) (znth s0 x (jj * 3 + 2))) s0))))) end.
      replace (j * 9 + 0 * 3 + 1) with (j * 9 + 1) by lia. replace (j * 9 + 1 * 3 + 1) with (j * 9 + 4) by lia. replace (j * 9 + 2 * 3 + 1) with (j * 9 + 7) by lia. ring.
    + match goal with |- znth s0 [_; _; ?a] 2 = _ => change (a = sadd t2 (smul sg (sadd (smul (znth s0 v (j * 9 + 0 * 3 + 2)) (znth s0 x (jj * 3 + 0))) (sadd (smul (znth s0 v (j * 9 + 1 * 3 + 2)) (znth s0 x (jj * 3 + 1))) (sadd (smul (znth s0 v (j * 9 + 2 * 3 + 2)) (znth s0 x (jj * 3 + 2))) s0))))) end.
      replace (j * 9 + 0 * 3 + 2) with (j * 9 + 2) by lia. replace (j * 9 + 1 * 3 + 2) with (j * 9 + 5) by lia. replace (j * 9 + 2 * 3 + 2) with (j * 9 + 8) by lia. ring.
  - replace (match b with 1 => blk1 op | 2 => blk2 op | 3 => blk3 op | _ => blkn op b end) with (blkn op b).
    + apply blkn_wp; auto.
    + destruct b as [|p|p]; try lia. destruct p as [[p|p|]|[p|p|]|]; try reflexivity; lia.
Qed.
End Op.

(** sum over the blocks of block row i *)
Definition bsum (b : Z) (B : bsr T) (i ii : Z) (x : Z -> T) : T :=
  ssum (map (fun j => bdot b (bsr_value B) j ii (fun k => x (znth 0 (bsr_bindex B) j * b + k))) (zrange (znth 0 (bsr_bptr B) i) (znth 0 (bsr_bptr B) (i + 1)))).
(** the arrays of B are long enough for nr block rows and block columns *)
Definition bfit (b nr : Z) (B : bsr T) : Prop :=
  ptr_ok nr (bsr_bptr B) /\ znth 0 (bsr_bptr B) nr <= zlen (bsr_bindex B) /\ znth 0 (bsr_bptr B) nr * (b * b) <= zlen (bsr_value B) /\
  forall k, 0 <= k < znth 0 (bsr_bptr B) nr -> 0 <= znth 0 (bsr_bindex B) k < nr.
Lemma bfit_pos b nr B i k : bfit b nr B -> 0 <= i < nr -> znth 0 (bsr_bptr B) i <= k < znth 0 (bsr_bptr B) (i + 1) -> 0 <= k < znth 0 (bsr_bptr B) nr.
Proof. intros (Hp & _) Hi Hk. pose proof (ptr_ok_bounds _ _ i k Hp Hi Hk). lia. Qed.

Lemma brow_wp op sg (Hop : forall t u, op t u = sadd t (smul sg u)) b nr B x i w : 0 < b -> bfit b nr B -> 0 <= i < nr -> nr * b <= zlen x -> zlen w = b ->
  wp (brow op b B x i w) (upd_by sg b w (fun ii => bsum b B i ii (znth s0 x))).
Proof using RT.
  intros Hb HB Hi Hx Hw. pose proof HB as (Hp & H1 & H2 & H3). pose proof Hp as (_ & Hlp & _ & Hm). unfold brow. wrd 0; [lia|]. wrd 0; [lia|].
  apply (for_wp' (fun p u => upd_by sg b w (fun ii => ssum (map (fun j => bdot b (bsr_value B) j ii (fun k => znth s0 x (znth 0 (bsr_bindex B) j * b + k))) (zrange (znth 0 (bsr_bptr B) i) p))) u)); auto.
  - split; auto. intros ii Hii. rewrite zrange_empty by lia. cbn [map ssum]. ring.
  - intros j u Hj [L H]. pose proof (bfit_pos b nr B i j HB Hi Hj) as Hj'. pose proof (H3 j Hj') as Hc. wrd 0; [lia|]. 
    assert (j * (b * b) + b * b <= zlen (bsr_value B)) by nia. assert (znth 0 (bsr_bindex B) j * b + b <= zlen x) by nia.
    eapply wp_mono; [apply (blk_wp op sg Hop); auto; lia|]. intros u' [L' H']. split; auto. intros ii Hii. rewrite H', H by auto. rewrite zrange_snoc by lia. rewrite map_app, (ssum_app RT). cbn [map ssum]. ring.
Qed.

Lemma wdmul_wp b (wd : list T) i w : 0 < b -> 0 <= i -> (i + 1) * (b * b) <= zlen wd -> zlen w = b ->
  wp (wdmul b wd i w) (fun r => zlen r = b /\ forall ii, 0 <= ii < b -> znth s0 r ii = bdot b wd i ii (znth s0 w)).
Proof using RT.
  intros Hb Hi Hv Hw. unfold wdmul.
  assert (C : b = 1 \/ b = 2 \/ b = 3 \/ 3 < b) by lia. destruct C as [->|[->|[->|Hb3]]].
  - destruct (zlen1 w Hw) as (t0 & ->). wrd s0; [lia|]. apply wp_ok. split; [reflexivity|]. intros ii Hii. assert (ii = 0) by lia. subst ii.
    unfold bdot, sum_to. change (zrange 0 1) with [0]. cbn [map ssum]. change (znth s0 [t0] 0) with t0.
    replace (i * (1 * 1) + 0 * 1 + 0) with i by lia. change (smul (znth s0 wd i) t0 = sadd (smul (znth s0 wd i) t0) s0). ring.
  - destruct (zlen2 w Hw) as (t0 & t1 & ->). do 4 (wrd s0; [lia|]). apply wp_ok. split; [reflexivity|]. intros ii Hii.
    unfold bdot, sum_to. change (zrange 0 2) with [0; 1]. cbn [map ssum]. change (znth s0 [t0; t1] 0) with t0. change (znth s0 [t0; t1] 1) with t1.
    replace (i * (2 * 2)) with (4 * i) by lia. assert (C : ii = 0 \/ ii = 1) by lia. destruct C as [->| ->].
    + replace (4 * i + 0 * 2 + 0) with (4 * i + 0) by lia. replace (4 * i + 1 * 2 + 0) with (4 * i + 2) by lia. match goal with |- znth s0 [?a; _] 0 = ?r => change (a = r) end. ring.
    + replace (4 * i + 0 * 2 + 1) with (4 * i + 1) by lia. replace (4 * i + 1 * 2 + 1) with (4 * i + 3) by lia. match goal with |- znth s0 [_; ?a] 1 = ?r => change (a = r) end. ring.
  - destruct (zlen3 w Hw) as (t0 & t1 & t2 & ->). do 9 (wrd s0; [lia|]). apply wp_ok. split; [reflexivity|]. intros ii Hii.
    unfold bdot, sum_to. change (zrange 0 3) with [0; 1; 2]. cbn [map ssum]. change (znth s0 [t0; t1; t2] 0) with t0. change (znth s0 [t0; t1; t2] 1) with t1. change (znth s0 [t0; t1; t2] 2) with t2.
    replace (i * (3 * 3)) with (9 * i) by lia. assert (C : ii = 0 \/ ii = 1 \/ ii = 2) by lia. destruct C as [->|[->| ->]].
    + replace (9 * i + 0 * 3 + 0) with (9 * i + 0) by lia. replace (9 * i + 1 * 3 + 0) with (9 * i + 3) by lia. replace (9 * i + 2 * 3 + 0) with (9 * i + 6) by lia. match goal with |- znth s0 [?a; _; _] 0 = ?r => change (a = r) end. ring.
    + replace (9 * i + 0 * 3 + 1) with (9 * i + 1) by lia. replace (9 * i + 1 * 3 + 1) with (9 * i + 4) by lia. replace (9 * i + 2 * 3 + 1) with (9 * i + 7) by lia. match goal with |- znth s0 [_; ?a; _] 1 = ?r => change (a = r) end. ring.
    + replace (9 * i + 0 * 3 + 2) with (9 * i + 2) by lia. replace (9 * i + 1 * 3 + 2) with (9 * i + 5) by lia. replace (9 * i + 2 * 3 + 2) with (9 * i + 8) by lia. match goal with |- znth s0 [_; _; ?a] 2 = ?r => change (a = r) end. ring.
  - set (gen := for_ 0 b (fun ii r => t <- for_ 0 b (fun jj t => a <- rd wd (i * (b * b) + jj * b + ii) ;; y <- rd w jj ;; Ok (sadd t (smul a y))) s0 ;; wr r ii t) (alloc b (fun _ => s0))).
    match goal with |- wp ?m _ => replace m with gen end.
    2:{ destruct b as [|p|p]; try lia. destruct p as [[p|p|]|[p|p|]|]; try reflexivity; lia. }
    unfold gen. apply (for_wp' (fun p u => zlen u = b /\ forall ii, 0 <= ii < p -> znth s0 u ii = bdot b wd i ii (znth s0 w))); [lia| | |].
    + split; [apply zlen_alloc; lia|]. intros; lia.
    + intros ii u Hii [L H]. wbind.
      apply (for_wp' (fun p t => t = sum_to p (fun q => smul (znth s0 wd (i * (b * b) + q * b + ii)) (znth s0 w q)))); [lia| | |].
      * reflexivity.
      * intros q t Hq ->. assert (0 <= i * (b * b)) by nia. assert (0 <= q * b) by nia. assert (q * b + b <= b * b) by nia. 
        wrd s0; [nia|]. wrd s0; [lia|]. apply wp_ok. unfold sum_to. rewrite zrange_snoc by lia. rewrite map_app, (ssum_app RT). cbn [map ssum]. ring.
      * intros t ->. apply wp_wr; [lia|]. split; [len|]. intros r Hr. rewrite znth_zupd by lia. destruct (Z.eqb_spec r ii) as [->|Hne]; [reflexivity|]. apply H; lia.
    + intros u [L H]. auto.
Qed.

Lemma bload_wp b (v : list T) i : 0 < b -> 0 <= i -> i * b + b <= zlen v ->
  wp (bload b v i) (fun w => zlen w = b /\ forall ii, 0 <= ii < b -> znth s0 w ii = znth s0 v (i * b + ii)).
Proof using.
  intros Hb Hi Hv. unfold bload. apply (for_wp' (fun p w => zlen w = b /\ forall ii, 0 <= ii < p -> znth s0 w ii = znth s0 v (i * b + ii))); [lia| | |].
  - split; [apply zlen_alloc; lia|]. intros; lia.
  - intros p w Hp [L H]. assert (0 <= i * b) by nia. wrd s0; [lia|]. apply wp_wr; [lia|]. split; [len|]. intros r Hr. rewrite znth_zupd by lia. destruct (Z.eqb_spec r p) as [->|]; [auto|]. apply H; lia.
  - auto.
Qed.
Definition stored (b : Z) (x : list T) (i : Z) (f : Z -> T) (x' : list T) : Prop :=
  zlen x' = zlen x /\ (forall ii, 0 <= ii < b -> znth s0 x' (i * b + ii) = f ii) /\ forall p, 0 <= p < i * b \/ i * b + b <= p -> znth s0 x' p = znth s0 x p.
Lemma bstore_wp b x i (r : list T) : 0 < b -> 0 <= i -> i * b + b <= zlen x -> zlen r = b -> wp (bstore b x i r) (stored b x i (znth s0 r)).
Proof using.
  intros Hb Hi Hx Hr. unfold bstore. assert (0 <= i * b) by nia.
  apply (for_wp' (fun p y => zlen y = zlen x /\ (forall ii, 0 <= ii < p -> znth s0 y (i * b + ii) = znth s0 r ii) /\ forall q, 0 <= q < i * b \/ i * b + b <= q -> znth s0 y q = znth s0 x q)); [lia| | |].
  - split; auto. split; [intros; lia|auto].
  - intros p y Hp (L & H1 & H2). wrd s0; [lia|]. apply wp_wr; [lia|]. split; [len|]. split.
    + intros ii Hii. rewrite znth_zupd by lia. destruct (Z.eqb_spec (i * b + ii) (i * b + p)) as [E|]; [replace ii with p by lia; auto|]. apply H1; lia.
    + intros q Hq. rewrite znth_zupd_neq by lia. auto.
  - intros y (L & H1 & H2). split; auto.
Qed.
Lemma bstore_sub_wp b x i (r : list T) : 0 < b -> 0 <= i -> i * b + b <= zlen x -> zlen r = b -> wp (bstore_sub b x i r) (stored b x i (fun ii => ssub (znth s0 x (i * b + ii)) (znth s0 r ii))).
Proof using.
  intros Hb Hi Hx Hr. unfold bstore_sub. assert (0 <= i * b) by nia.
  apply (for_wp' (fun p y => zlen y = zlen x /\ (forall ii, 0 <= ii < p -> znth s0 y (i * b + ii) = ssub (znth s0 x (i * b + ii)) (znth s0 r ii)) /\ forall q, 0 <= q < i * b + 0 \/ i * b + p <= q -> znth s0 y q = znth s0 x q)); [lia| | |].
  - split; auto. split; [intros; lia|auto].
  - intros p y Hp (L & H1 & H2). wrd s0; [lia|]. wrd s0; [lia|]. apply wp_wr; [lia|]. split; [len|]. split.
    + intros ii Hii. rewrite znth_zupd by lia. destruct (Z.eqb_spec (i * b + ii) (i * b + p)) as [E|]; [replace ii with p by lia; rewrite H2 by lia; auto|]. apply H1; lia.
    + intros q Hq. rewrite znth_zupd_neq by lia. apply H2. lia.
  - intros y (L & H1 & H2). split; auto. split; auto. intros p Hp. apply H2. lia.
Qed.

(** *** solving *)
Variables (A : bsplit T) (wd : list T) (D : Z -> Z -> Z -> T).
Notation b := (bs_b A). Notation nr := (bs_nr A).
Hypothesis Hb : 0 < b.
Hypothesis Hnr : 0 <= nr.
Hypothesis HL : bfit b nr (bs_L A).
Hypothesis HU : bfit b nr (bs_U A).
Hypothesis SL : forall i k, 0 <= i < nr -> znth 0 (bsr_bptr (bs_L A)) i <= k < znth 0 (bsr_bptr (bs_L A)) (i + 1) -> znth 0 (bsr_bindex (bs_L A)) k < i.
Hypothesis SU : forall i k, 0 <= i < nr -> znth 0 (bsr_bptr (bs_U A)) i <= k < znth 0 (bsr_bptr (bs_U A)) (i + 1) -> i < znth 0 (bsr_bindex (bs_U A)) k.
Hypothesis Hwd : nr * (b * b) <= zlen wd.
Hypothesis Hinv : forall i, 0 <= i < nr -> is_inverse b (D i) (fun ii jj => znth s0 wd (i * (b * b) + jj * b + ii)).
Definition drow (i ii : Z) (x : Z -> T) : T := sum_to b (fun jj => smul (D i ii jj) (x (i * b + jj))).

Lemma ssum_swap2 {X Y} (l : list X) (m : list Y) (f : X -> Y -> T) : ssum (map (fun i => ssum (map (fun j => f i j) m)) l) = ssum (map (fun j => ssum (map (fun i => f i j) l)) m).
Proof using RT.
  induction l as [|a l IH]; cbn [map ssum]; [rewrite (ssum_map_zero RT); auto|]. rewrite IH. rewrite <- (ssum_map_add RT). auto.
Qed.
Lemma sum_to_swap n (f : Z -> Z -> T) : sum_to n (fun i => sum_to n (fun j => f i j)) = sum_to n (fun j => sum_to n (fun i => f i j)).
Proof using RT. apply ssum_swap2. Qed.
Lemma sum_to_add n f g : sum_to n (fun i => sadd (f i) (g i)) = sadd (sum_to n f) (sum_to n g).
Proof using RT. unfold sum_to. rewrite (ssum_map_add RT). auto. Qed.
Lemma sum_to_scale n a f : sum_to n (fun i => smul a (f i)) = smul a (sum_to n f).
Proof using RT. unfold sum_to. induction (zrange 0 n) as [|c l IH]; cbn [map ssum]; [ring|]. rewrite IH. ring. Qed.
Lemma delta_sum n i f : 0 <= i < n -> sum_to n (fun k => smul (delta i k) (f k)) = f i.
Proof using RT.
  intros Hi. unfold sum_to. rewrite (zrange_app 0 i n), (zrange_cons i n) by lia. rewrite map_app, (ssum_app RT). cbn [map ssum].
  rewrite (ssum_map_ext _ (fun _ => s0) (zrange 0 i)). 2:{ intros k Hk. apply In_zrange in Hk. unfold delta. destruct (Z.eqb_spec i k); [lia|ring]. }
  rewrite (ssum_map_ext _ (fun _ => s0) (zrange (i + 1) n)). 2:{ intros k Hk. apply In_zrange in Hk. unfold delta. destruct (Z.eqb_spec i k); [lia|ring]. }
  rewrite !(ssum_map_zero RT). unfold delta. rewrite Z.eqb_refl. ring.
Qed.
Lemma wd_cancel i ii t : 0 <= i < nr -> 0 <= ii < b -> sum_to b (fun jj => smul (D i ii jj) (bdot b wd i jj t)) = t ii.
Proof using RT Hinv.
  intros Hi Hii. unfold bdot. transitivity (sum_to b (fun jj => sum_to b (fun k => smul (smul (D i ii jj) (znth s0 wd (i * (b * b) + k * b + jj))) (t k)))).
  { apply sum_to_ext. intros jj _. rewrite <- sum_to_scale. apply sum_to_ext. intros k _. ring. }
  rewrite sum_to_swap. transitivity (sum_to b (fun k => smul (delta ii k) (t k))); [|apply delta_sum; auto].
  apply sum_to_ext. intros k Hk. destruct (Hinv i Hi) as [H _]. specialize (H ii k Hii Hk). cbv beta in H. rewrite <- H.
  transitivity (sum_to b (fun jj => smul (t k) (smul (D i ii jj) (znth s0 wd (i * (b * b) + k * b + jj))))); [apply sum_to_ext; intros; ring|]. rewrite sum_to_scale. ring.
Qed.
Lemma bsum_ext B i ii x y : (forall k, znth 0 (bsr_bptr B) i <= k < znth 0 (bsr_bptr B) (i + 1) -> forall q, 0 <= q < b -> x (znth 0 (bsr_bindex B) k * b + q) = y (znth 0 (bsr_bindex B) k * b + q)) -> bsum b B i ii x = bsum b B i ii y.
Proof using. intros H. apply ssum_map_ext. intros k Hk. apply In_zrange in Hk. apply bdot_ext. intros q Hq. apply H; auto. Qed.
Lemma drow_ext i ii x y : (forall q, 0 <= q < b -> x (i * b + q) = y (i * b + q)) -> drow i ii x = drow i ii y.
Proof using. intros H. apply sum_to_ext. intros q Hq. rewrite H; auto. Qed.

Lemma ssub_as (t u : T) : ssub t u = sadd t (smul (sopp s1) u). Proof using RT. ring. Qed.
Lemma sadd_as (t u : T) : sadd t u = sadd t (smul s1 u). Proof using RT. ring. Qed.
Lemma bstep_wp B bv x i : bfit b nr B -> 0 <= i < nr -> nr * b <= zlen bv -> nr * b <= zlen x ->
  (forall k, znth 0 (bsr_bptr B) i <= k < znth 0 (bsr_bptr B) (i + 1) -> znth 0 (bsr_bindex B) k <> i) ->
  wp (bstep A B wd bv x i) (fun x' => zlen x' = zlen x /\ (forall p, 0 <= p < i * b \/ i * b + b <= p -> znth s0 x' p = znth s0 x p) /\
     forall ii, 0 <= ii < b -> sadd (bsum b B i ii (znth s0 x')) (drow i ii (znth s0 x')) = znth s0 bv (i * b + ii)).
Proof using RT Hb Hnr Hwd Hinv.
  intros HB Hi Hbv Hx Hne. unfold bstep. assert (i * b + b <= nr * b) by nia. wbind. eapply wp_mono; [apply bload_wp; lia|]. cbv beta. intros w (Lw & Hw).
  wbind. eapply wp_mono; [apply (brow_wp ssub (sopp s1) ssub_as b nr B x i w Hb HB Hi Hx Lw)|]. cbv beta. intros w1 (L1 & H1).
  wbind. eapply wp_mono; [apply (wdmul_wp b wd i w1); auto; try lia; nia|]. cbv beta. intros r (Lr & Hr).
  eapply wp_mono; [apply (bstore_wp b x i r); auto; lia|]. intros x' (L & S1 & S2). split; auto. split; auto. intros ii Hii.
  rewrite (bsum_ext B i ii (znth s0 x') (znth s0 x)).
  2:{ intros k Hk q Hq. apply S2. specialize (Hne k Hk). destruct HB as (Hp & _ & _ & H3). pose proof (ptr_ok_bounds _ _ i k Hp Hi Hk). specialize (H3 k ltac:(lia)). nia. }
  unfold drow. rewrite (sum_to_ext b _ (fun jj => smul (D i ii jj) (bdot b wd i jj (znth s0 w1)))).
  2:{ intros jj Hjj. rewrite S1, Hr by auto. auto. }
  rewrite wd_cancel by auto. rewrite H1, Hw by auto. ring.
Qed.

Lemma lower_wp bv x : nr * b <= zlen bv -> nr * b <= zlen x -> wp (solve_lower_bsr A wd bv x) (fun x' => zlen x' = zlen x /\
   forall i ii, 0 <= i < nr -> 0 <= ii < b -> sadd (bsum b (bs_L A) i ii (znth s0 x')) (drow i ii (znth s0 x')) = znth s0 bv (i * b + ii)).
Proof using RT Hb Hnr HL SL Hwd Hinv.
  intros Hbv Hx. unfold solve_lower_bsr.
  apply (for_wp' (fun m y => zlen y = zlen x /\ forall i ii, 0 <= i < m -> 0 <= ii < b -> sadd (bsum b (bs_L A) i ii (znth s0 y)) (drow i ii (znth s0 y)) = znth s0 bv (i * b + ii))); [lia| | |].
  - split; auto. intros; lia.
  - intros i y Hi (L & H). eapply wp_mono; [apply (bstep_wp (bs_L A) bv y i HL Hi Hbv); [lia|]|].
    { intros k Hk. specialize (SL i k Hi Hk). lia. }
    cbv beta. intros y' (L' & K & E). split; [lia|]. intros r ii Hr Hii. destruct (Z.eq_dec r i) as [->|Hne]; [apply E; auto|].
    rewrite <- (H r ii) by lia. f_equal.
    + apply bsum_ext. intros k Hk q Hq. apply K. specialize (SL r k ltac:(lia) Hk). destruct HL as (Hp & _ & _ & H3). pose proof (ptr_ok_bounds _ _ r k Hp ltac:(lia) Hk). specialize (H3 k ltac:(lia)). nia.
    + apply drow_ext. intros q Hq. apply K. nia.
  - auto.
Qed.
Lemma upper_wp bv x : nr * b <= zlen bv -> nr * b <= zlen x -> wp (solve_upper_bsr A wd bv x) (fun x' => zlen x' = zlen x /\
   forall i ii, 0 <= i < nr -> 0 <= ii < b -> sadd (bsum b (bs_U A) i ii (znth s0 x')) (drow i ii (znth s0 x')) = znth s0 bv (i * b + ii)).
Proof using RT Hb Hnr HU SU Hwd Hinv.
  intros Hbv Hx. unfold solve_upper_bsr.
  apply (ford_wp' (fun m y => zlen y = zlen x /\ forall i ii, m < i < nr -> 0 <= ii < b -> sadd (bsum b (bs_U A) i ii (znth s0 y)) (drow i ii (znth s0 y)) = znth s0 bv (i * b + ii))); [lia| | |].
  - split; auto. intros; lia.
  - intros i y Hi (L & H). eapply wp_mono; [apply (bstep_wp (bs_U A) bv y i HU ltac:(lia) Hbv); [lia|]|].
    { intros k Hk. specialize (SU i k ltac:(lia) Hk). lia. }
    cbv beta. intros y' (L' & K & E). split; [lia|]. intros r ii Hr Hii. destruct (Z.eq_dec r i) as [->|Hne]; [apply E; auto|].
    rewrite <- (H r ii) by lia. f_equal.
    + apply bsum_ext. intros k Hk q Hq. apply K. specialize (SU r k ltac:(lia) Hk). nia.
    + apply drow_ext. intros q Hq. apply K. nia.
  - intros y (L & H). split; auto. intros i ii Hi Hii. apply H; lia.
Qed.
Lemma ssor_wp bv x : nr * b <= zlen bv -> nr * b <= zlen x -> wp (solve_ssor_bsr A wd bv x) (fun x' => zlen x' = zlen x /\ exists z : Z -> T,
   (forall i ii, 0 <= i < nr -> 0 <= ii < b -> sadd (bsum b (bs_L A) i ii z) (drow i ii z) = znth s0 bv (i * b + ii)) /\
   forall i ii, 0 <= i < nr -> 0 <= ii < b -> sadd (bsum b (bs_U A) i ii (znth s0 x')) (drow i ii (znth s0 x')) = drow i ii z).
Proof using RT Hb Hnr HL SL HU SU Hwd Hinv.
  intros Hbv Hx. unfold solve_ssor_bsr. wbind. eapply wp_mono; [apply lower_wp; auto|]. cbv beta. intros z (Lz & Hz).
  apply (ford_wp' (fun m y => zlen y = zlen x /\ (forall p, 0 <= p < (m + 1) * b -> znth s0 y p = znth s0 z p) /\ forall i ii, m < i < nr -> 0 <= ii < b -> sadd (bsum b (bs_U A) i ii (znth s0 y)) (drow i ii (znth s0 y)) = drow i ii (znth s0 z))); [lia| | |].
  - split; auto. split; [auto|intros; lia].
  - intros i y Hi (L & Hsame & H). assert (i * b + b <= nr * b) by nia.
    wbind. eapply wp_mono; [apply (brow_wp sadd s1 sadd_as b nr (bs_U A) y i _ Hb HU ltac:(lia)); [lia|apply zlen_alloc; lia]|]. cbv beta. intros w1 (L1 & H1).
    wbind. eapply wp_mono; [apply (wdmul_wp b wd i w1); auto; try lia; nia|]. cbv beta. intros r (Lr & Hr).
    eapply wp_mono; [apply (bstore_sub_wp b y i r); auto; lia|]. intros y' (L' & S1 & S2). split; [lia|]. split.
    + intros p Hp. rewrite S2 by lia. apply Hsame. nia.
    + intros q ii Hq Hii. destruct (Z.eq_dec q i) as [->|Hne].
      * rewrite (bsum_ext (bs_U A) i ii (znth s0 y') (znth s0 y)).
        2:{ intros k Hk p Hp. apply S2. specialize (SU i k ltac:(lia) Hk). nia. }
        unfold drow at 1. rewrite (sum_to_ext b _ (fun jj => sadd (smul (D i ii jj) (znth s0 z (i * b + jj))) (smul (sopp s1) (smul (D i ii jj) (bdot b wd i jj (znth s0 w1)))))).
        2:{ intros jj Hjj. rewrite S1, Hr by auto. rewrite Hsame by nia. ring. }
        rewrite sum_to_add, sum_to_scale. rewrite wd_cancel by (auto; lia). rewrite H1 by auto. rewrite znth_alloc by lia. unfold drow. ring.
      * rewrite <- (H q ii) by lia. f_equal.
        -- apply bsum_ext. intros k Hk p Hp. apply S2. specialize (SU q k ltac:(lia) Hk). nia.
        -- apply drow_ext. intros p Hp. apply S2. nia.
  - intros y (L & _ & H). split; auto. exists (znth s0 z). split; auto. intros i ii Hi Hii. apply H; lia.
Qed.
End S.
