(** The loops of VbrSolve solve block triangular systems *)
Require Import ZArith List Bool Lia Ring.
From Verif Require Import Base Scalar Spec Items CscProof Fmt MatvecProof SpecArray BsrSolve BsrTri BsrSplit SplitFmt TriLoops VbrSplit VbrSolve SpecVbrSolve.
From Verif Require BsrEnd TriLines.
Import ListNotations.
Open Scope Z_scope.

Section S.
Context {T : Type} {S : Scalar T}.
Hypothesis RT : is_ring S.
Let RT' : @ring_theory T s0 s1 sadd smul ssub sopp (@eq T) := RT.
Add Ring scalar_ring_vt : RT'.
Notation el a lda p i j := (znth s0 a (p + i + j * lda)).

Lemma vdot_wp lda n a p i x c : 0 <= n -> 0 <= p -> 0 <= i < lda -> p + lda * n <= zlen a -> 0 <= c -> c + n <= zlen x ->
  wp (vdot lda n a p i x c) (fun t => t = sum_to n (fun j => smul (el a lda p i j) (znth s0 x (c + j)))).
Proof using RT.
  intros Hn Hp Hi Ha Hc Hx. unfold vdot. apply (for_wp' (fun q t => t = sum_to q (fun j => smul (el a lda p i j) (znth s0 x (c + j))))); [lia|reflexivity| |auto].
  intros q t Hq ->. assert (0 <= q * lda) by nia. assert (q * lda + lda <= lda * n) by nia. wrd s0; [lia|]. wrd s0; [lia|]. apply wp_ok. unfold sum_to. rewrite zrange_snoc by lia. rewrite map_app, (ssum_app RT). cbn [map ssum]. ring.
Qed.

(** x' is x except on [r,r+dim), where it is f *)
Definition put_at (dim r : Z) (f : Z -> T) (x x' : list T) : Prop :=
  zlen x' = zlen x /\ (forall i, 0 <= i < dim -> znth s0 x' (r + i) = f i) /\ forall q, 0 <= q < r \/ r + dim <= q -> znth s0 x' q = znth s0 x q.
Lemma put_loop dim r (g : Z -> list T -> res T) op (h : Z -> T) x : 0 <= dim -> 0 <= r -> r + dim <= zlen x ->
  (forall i y, 0 <= i < dim -> zlen y = zlen x -> (forall q, 0 <= q < r \/ r + dim <= q -> znth s0 y q = znth s0 x q) -> wp (g i y) (fun t => t = h i)) ->
  wp (for_ 0 dim (fun i x => t <- g i x ;; y <- rd x (r + i) ;; wr x (r + i) (op y t)) x) (put_at dim r (fun i => op (znth s0 x (r + i)) (h i)) x).
Proof using.
  intros Hd Hr Hx Hg. apply (for_wp' (fun m y => zlen y = zlen x /\ (forall i, 0 <= i < m -> znth s0 y (r + i) = op (znth s0 x (r + i)) (h i)) /\ forall q, 0 <= q < r + 0 \/ r + m <= q -> znth s0 y q = znth s0 x q)); [lia| | |].
  - split; auto. split; [intros; lia|auto].
  - intros i y Hi (L & H1 & H2). wbind. eapply wp_mono; [apply Hg; auto; intros q Hq; apply H2; lia|]. cbv beta. intros t ->. wrd s0; [lia|]. apply wp_wr; [lia|]. split; [len|]. split.
    + intros k Hk. rewrite znth_zupd by lia. destruct (Z.eqb_spec (r + k) (r + i)) as [E|Ne]; [replace k with i by lia; rewrite H2 by lia; auto|]. apply H1. lia.
    + intros q Hq. rewrite znth_zupd_neq by lia. apply H2. lia.
  - intros y (L & H1 & H2). split; auto. split; auto. intros q Hq. apply H2. lia.
Qed.
Lemma put_ext dim r f g x x' : (forall i, 0 <= i < dim -> f i = g i) -> put_at dim r f x x' -> put_at dim r g x x'.
Proof using. intros H (L & H1 & H2). split; auto. split; auto. intros i Hi. rewrite H1 by auto. auto. Qed.
Lemma vsub_in_wp dim sz a p x c r : 0 <= dim -> 0 <= sz -> 0 <= p -> p + dim * sz <= zlen a -> 0 <= c -> c + sz <= zlen x -> 0 <= r -> r + dim <= zlen x -> c + sz <= r \/ r + dim <= c ->
  wp (vsub_in dim sz a p x c r) (put_at dim r (fun i => ssub (znth s0 x (r + i)) (sum_to sz (fun j => smul (el a dim p i j) (znth s0 x (c + j))))) x).
Proof using RT.
  intros. unfold vsub_in. apply (put_loop dim r (fun i x => vdot dim sz a p i x c) ssub (fun i => sum_to sz (fun j => smul (el a dim p i j) (znth s0 x (c + j))))); auto.
  intros i y Hi L K. eapply wp_mono; [apply vdot_wp; auto; lia|]. cbv beta. intros t ->. apply sum_to_ext. intros j Hj. rewrite K by lia. auto.
Qed.
Lemma vadd_wp dim sz a p x c w : 0 <= dim -> 0 <= sz -> 0 <= p -> p + dim * sz <= zlen a -> 0 <= c -> c + sz <= zlen x -> dim <= zlen w ->
  wp (vadd dim sz a p x c w) (put_at dim 0 (fun i => sadd (znth s0 w i) (sum_to sz (fun j => smul (el a dim p i j) (znth s0 x (c + j))))) w).
Proof using RT.
  intros. unfold vadd. eapply wp_mono; [apply (put_loop dim 0 (fun i w => vdot dim sz a p i x c) sadd (fun i => sum_to sz (fun j => smul (el a dim p i j) (znth s0 x (c + j))))); auto; try lia|].
  - intros i y Hi L K. apply vdot_wp; auto; lia.
  - intros y. apply put_ext. auto.
Qed.
Lemma vsub_wp dim sz a p w x r : 0 <= dim -> 0 <= sz -> 0 <= p -> p + dim * sz <= zlen a -> sz <= zlen w -> 0 <= r -> r + dim <= zlen x ->
  wp (vsub dim sz a p w x r) (put_at dim r (fun i => ssub (znth s0 x (r + i)) (sum_to sz (fun j => smul (el a dim p i j) (znth s0 w j)))) x).
Proof using RT.
  intros. unfold vsub. apply (put_loop dim r (fun i x => vdot dim sz a p i w 0) ssub (fun i => sum_to sz (fun j => smul (el a dim p i j) (znth s0 w j)))); auto.
  intros i y Hi L K. apply (vdot_wp dim sz a p i w 0); auto; lia.
Qed.
Lemma vmul_wp dim d x r w : 0 <= dim -> dim * dim <= zlen d -> 0 <= r -> r + dim <= zlen x -> dim <= zlen w ->
  wp (vmul dim d x r w) (fun w' => zlen w' = zlen w /\ forall i, 0 <= i < dim -> znth s0 w' i = sum_to dim (fun j => smul (elt d dim i j) (znth s0 x (r + j)))).
Proof using RT.
  intros Hd Ha Hr Hx Hw. unfold vmul. apply (for_wp' (fun m y => zlen y = zlen w /\ forall i, 0 <= i < m -> znth s0 y i = sum_to dim (fun j => smul (elt d dim i j) (znth s0 x (r + j))))); [lia|split; auto; intros; lia| |auto].
  intros i y Hi (L & H). wbind. eapply wp_mono; [apply vdot_wp; auto; lia|]. cbv beta. intros t ->. apply wp_wr; [lia|]. split; [len|]. intros k Hk. rewrite znth_zupd by lia.
  destruct (Z.eqb_spec k i) as [->|]; [|apply H; lia]. apply sum_to_ext. intros j Hj. unfold elt. replace (0 + i + j * dim) with (i + j * dim) by lia. auto.
Qed.
Lemma zero_wp dim (w : list T) : 0 <= dim -> dim <= zlen w -> wp (for_ 0 dim (fun k w => wr w k s0) w) (fun w' => zlen w' = zlen w /\ forall i, 0 <= i < dim -> znth s0 w' i = s0).
Proof using.
  intros Hd Hw. apply (for_wp' (fun m y => zlen y = zlen w /\ forall i, 0 <= i < m -> znth s0 y i = s0)); [lia|split; auto; intros; lia| |auto].
  intros i y Hi (L & H). apply wp_wr; [lia|]. split; [len|]. intros k Hk. rewrite znth_zupd by lia. destruct (Z.eqb_spec k i); auto. apply H. lia.
Qed.

(** *** a block triangle: R the first rows, [cd] the LU solution *)
Variables (n nr : Z) (R : Z -> Z).
Hypothesis Hnr : 0 <= nr.
Hypothesis R0 : R 0 = 0.
Hypothesis Rn : R nr = n.
Hypothesis Rm : forall i j, 0 <= i <= j -> j <= nr -> R i <= R j.
Notation dim i := (R (i + 1) - R i).
Definition vfits (B : vbr T) : Prop :=
  ptr_ok nr (vbr_bptr B) /\ znth 0 (vbr_bptr B) nr <= zlen (vbr_bindex B) /\ znth 0 (vbr_bptr B) nr <= zlen (vbr_ptr B) /\ nr + 1 <= zlen (vbr_row B) /\ nr + 1 <= zlen (vbr_col B) /\
  (forall i, 0 <= i <= nr -> znth 0 (vbr_row B) i = R i /\ znth 0 (vbr_col B) i = R i) /\
  (forall k, 0 <= k < znth 0 (vbr_bptr B) nr -> 0 <= znth 0 (vbr_bindex B) k < nr) /\
  forall i k, 0 <= i < nr -> znth 0 (vbr_bptr B) i <= k < znth 0 (vbr_bptr B) (i + 1) ->
     0 <= znth 0 (vbr_ptr B) k /\ znth 0 (vbr_ptr B) k + dim i * dim (znth 0 (vbr_bindex B) k) <= zlen (vbr_value B).
Definition vterm (B : vbr T) (i k ii : Z) (x : Z -> T) : T :=
  let jj := znth 0 (vbr_bindex B) k in sum_to (dim jj) (fun j => smul (el (vbr_value B) (dim i) (znth 0 (vbr_ptr B) k) ii j) (x (R jj + j))).
Definition vsum (B : vbr T) (i ii : Z) (x : Z -> T) : T := ssum (map (fun k => vterm B i k ii x) (zrange (znth 0 (vbr_bptr B) i) (znth 0 (vbr_bptr B) (i + 1)))).
Lemma vfits_pos B i k : vfits B -> 0 <= i < nr -> znth 0 (vbr_bptr B) i <= k < znth 0 (vbr_bptr B) (i + 1) -> 0 <= k < znth 0 (vbr_bptr B) nr.
Proof using. intros (Hp & _) Hi Hk. pose proof (ptr_ok_bounds _ _ i k Hp Hi Hk). lia. Qed.
Lemma Rrange i : 0 <= i < nr -> 0 <= R i /\ R i <= R (i + 1) /\ R (i + 1) <= n.
Proof using Rm R0 Rn. intros Hi. pose proof (Rm 0 i ltac:(lia) ltac:(lia)). pose proof (Rm i (i + 1) ltac:(lia) ltac:(lia)). pose proof (Rm (i + 1) nr ltac:(lia) ltac:(lia)). lia. Qed.
Lemma Rapart i j : 0 <= i < nr -> 0 <= j < nr -> i <> j -> R (i + 1) <= R j \/ R (j + 1) <= R i.
Proof using Rm. intros Hi Hj Hne. destruct (Z.lt_trichotomy i j) as [H|[H|H]]; [left; apply Rm; lia|contradiction|right; apply Rm; lia]. Qed.

Lemma vrow_sub B i x : vfits B -> 0 <= i < nr -> n <= zlen x -> (forall k, znth 0 (vbr_bptr B) i <= k < znth 0 (vbr_bptr B) (i + 1) -> znth 0 (vbr_bindex B) k <> i) ->
  wp (vrow B i (fun sz p c x => vsub_in (dim i) sz (vbr_value B) p x c (R i)) x) (put_at (dim i) (R i) (fun ii => ssub (znth s0 x (R i + ii)) (vsum B i ii (znth s0 x))) x).
Proof using RT Rm R0 Rn.
  intros HB Hi Hx Hne. pose proof HB as (Hp & H1 & H2 & H3 & H4 & H5 & H6 & H7). pose proof Hp as (_ & Hlp & _ & Hm). pose proof (Rrange i Hi) as Ri. unfold vrow. wrd 0; [lia|]. wrd 0; [lia|].
  apply (for_wp' (fun m y => put_at (dim i) (R i) (fun ii => ssub (znth s0 x (R i + ii)) (ssum (map (fun k => vterm B i k ii (znth s0 x)) (zrange (znth 0 (vbr_bptr B) i) m)))) x y)); auto.
  - split; auto. split; auto. intros ii Hii. rewrite zrange_empty by lia. cbn [map ssum]. ring.
  - intros k y Hk (L & K1 & K2). pose proof (vfits_pos B i k HB Hi Hk) as Hk'. pose proof (H6 k Hk') as Hc. pose proof (H7 i k Hi Hk) as Hv. set (jj := znth 0 (vbr_bindex B) k) in *.
    pose proof (Rrange jj Hc) as Rj. pose proof (Rapart jj i Hc Hi (Hne k Hk)) as Ap. 
    wrd 0; [lia|]. fold jj. wrd 0; [lia|]. wrd 0; [lia|]. wrd 0; [lia|]. rewrite (proj2 (H5 (jj + 1) ltac:(lia))), (proj2 (H5 jj ltac:(lia))).
    eapply wp_mono; [apply vsub_in_wp; try lia|]. cbv beta. intros y' (L' & K1' & K2'). split; [lia|]. split.
    + intros ii Hii. rewrite K1' by auto. rewrite K1 by auto. rewrite zrange_snoc by lia. rewrite map_app, (ssum_app RT). cbn [map ssum].
      replace (vterm B i k ii (znth s0 x)) with (sum_to (dim jj) (fun j => smul (el (vbr_value B) (dim i) (znth 0 (vbr_ptr B) k) ii j) (znth s0 y (R jj + j)))); [ring|].
      unfold vterm. fold jj. apply sum_to_ext. intros j Hj. rewrite K2 by lia. auto.
    + intros q Hq. rewrite K2' by lia. apply K2. lia.
Qed.
Lemma vrow_add B i x w : vfits B -> 0 <= i < nr -> n <= zlen x -> dim i <= zlen w ->
  wp (vrow B i (fun sz p c w => vadd (dim i) sz (vbr_value B) p x c w) w) (put_at (dim i) 0 (fun ii => sadd (znth s0 w ii) (vsum B i ii (znth s0 x))) w).
Proof using RT Rm R0 Rn.
  intros HB Hi Hx Hw. pose proof HB as (Hp & H1 & H2 & H3 & H4 & H5 & H6 & H7). pose proof Hp as (_ & Hlp & _ & Hm). pose proof (Rrange i Hi) as Ri. unfold vrow. wrd 0; [lia|]. wrd 0; [lia|].
  apply (for_wp' (fun m y => put_at (dim i) 0 (fun ii => sadd (znth s0 w ii) (ssum (map (fun k => vterm B i k ii (znth s0 x)) (zrange (znth 0 (vbr_bptr B) i) m)))) w y)); auto.
  - split; auto. split; auto. intros ii Hii. rewrite zrange_empty by lia. cbn [map ssum Z.add]. ring.
  - intros k y Hk (L & K1 & K2). pose proof (vfits_pos B i k HB Hi Hk) as Hk'. pose proof (H6 k Hk') as Hc. pose proof (H7 i k Hi Hk) as Hv. set (jj := znth 0 (vbr_bindex B) k) in *.
    pose proof (Rrange jj Hc) as Rj. 
    wrd 0; [lia|]. fold jj. wrd 0; [lia|]. wrd 0; [lia|]. wrd 0; [lia|]. rewrite (proj2 (H5 (jj + 1) ltac:(lia))), (proj2 (H5 jj ltac:(lia))).
    eapply wp_mono; [apply vadd_wp; try lia|]. cbv beta. intros y' (L' & K1' & K2'). split; [lia|]. split.
    + intros ii Hii. rewrite K1' by auto. pose proof (K1 ii Hii) as E1. cbn [Z.add] in E1. rewrite E1. rewrite zrange_snoc by lia. rewrite map_app, (ssum_app RT). cbn [map ssum].
      change (sum_to (R (jj + 1) - R jj) (fun j => smul (el (vbr_value B) (dim i) (znth 0 (vbr_ptr B) k) ii j) (znth s0 x (R jj + j)))) with (vterm B i k ii (znth s0 x)). ring.
    + intros q Hq. rewrite K2' by lia. apply K2. lia.
Qed.

(** *** diagonal blocks *)
Variables (D W : list (list T)).
Hypothesis HW : nr <= zlen W.
Hypothesis HWl : forall i, 0 <= i < nr -> dim i * dim i <= zlen (znth [] W i).
Hypothesis HI : forall i, 0 <= i < nr -> is_inverse (dim i) (elt (znth [] D i) (dim i)) (elt (znth [] W i) (dim i)).
Definition vdrow (i ii : Z) (x : Z -> T) : T := sum_to (dim i) (fun j => smul (elt (znth [] D i) (dim i) ii j) (x (R i + j))).
Lemma inv_cancel m (F G : Z -> Z -> T) ii t : is_inverse m F G -> 0 <= ii < m -> sum_to m (fun jj => smul (F ii jj) (sum_to m (fun k => smul (G jj k) (t k)))) = t ii.
Proof using RT.
  intros [H _] Hii. transitivity (sum_to m (fun jj => sum_to m (fun k => smul (smul (F ii jj) (G jj k)) (t k)))).
  { apply sum_to_ext. intros jj _. rewrite <- (sum_to_scale RT). apply sum_to_ext. intros k _. ring. }
  rewrite (sum_to_swap RT). transitivity (sum_to m (fun k => smul (delta ii k) (t k))); [|apply (delta_sum RT); auto].
  apply sum_to_ext. intros k Hk. rewrite <- (H ii k Hii Hk).
  transitivity (sum_to m (fun jj => smul (t k) (smul (F ii jj) (G jj k)))); [apply sum_to_ext; intros; ring|]. rewrite (sum_to_scale RT). ring.
Qed.
Lemma vsum_ext B i ii x y : vfits B -> 0 <= i < nr -> (forall k, znth 0 (vbr_bptr B) i <= k < znth 0 (vbr_bptr B) (i + 1) -> let jj := znth 0 (vbr_bindex B) k in forall q, R jj <= q < R (jj + 1) -> x q = y q) -> vsum B i ii x = vsum B i ii y.
Proof using. intros _ _ H. apply ssum_map_ext. intros k Hk. apply In_zrange in Hk. unfold vterm. apply sum_to_ext. intros j Hj. rewrite (H k Hk) by lia. auto. Qed.
Lemma vdrow_ext i ii x y : (forall q, R i <= q < R (i + 1) -> x q = y q) -> vdrow i ii x = vdrow i ii y.
Proof using. intros H. apply sum_to_ext. intros q Hq. rewrite H by lia. auto. Qed.

Lemma vdim_wp B i : vfits B -> 0 <= i < nr -> vdim B i = Ok (dim i, R i).
Proof using.
  intros (_ & _ & _ & H3 & _ & H5 & _) Hi. unfold vdim. rewrite !(rd_ok 0) by lia. cbn [bind]. rewrite (proj1 (H5 (i + 1) ltac:(lia))), (proj1 (H5 i ltac:(lia))). auto.
Qed.
Lemma vstep_wp B x w i : vfits B -> 0 <= i < nr -> n <= zlen x -> dim i <= zlen w ->
  (forall k, znth 0 (vbr_bptr B) i <= k < znth 0 (vbr_bptr B) (i + 1) -> znth 0 (vbr_bindex B) k <> i) ->
  wp (vstep B W i (x, w)) (fun s => zlen (fst s) = zlen x /\ zlen (snd s) = zlen w /\ (forall q, 0 <= q < R i \/ R (i + 1) <= q -> znth s0 (fst s) q = znth s0 x q) /\
     forall ii, 0 <= ii < dim i -> sadd (vsum B i ii (znth s0 (fst s))) (vdrow i ii (znth s0 (fst s))) = znth s0 x (R i + ii)).
Proof using RT Rm R0 Rn HW HWl HI.
  intros HB Hi Hx Hw Hne. pose proof (Rrange i Hi) as Ri. unfold vstep. rewrite vdim_wp by auto. cbn [bind]. wbind. eapply wp_mono; [apply vrow_sub; auto|]. cbv beta. intros y (L & K1 & K2).
  wrd (@nil T); [lia|]. wbind. eapply wp_mono; [apply vmul_wp; auto; try lia|]. cbv beta. intros w1 (Lw & Hw1).
  wbind. eapply wp_mono; [apply (memcpy_wp (dim i) y (R i) w1 0); lia|]. cbv beta. intros x' (L' & M1 & M2). apply wp_ok. cbn [fst snd]. 
  assert (E2 : forall q, 0 <= q < R i \/ R (i + 1) <= q -> znth s0 x' q = znth s0 x q) by (intros q Hq; rewrite M2 by lia; apply K2; lia).
  split; [lia|]. split; [lia|]. split; auto.
  intros ii Hii. rewrite (vsum_ext B i ii (znth s0 x') (znth s0 x)); auto.
  2:{ intros k Hk jj q Hq. pose proof (vfits_pos B i k HB Hi Hk) as Hk'. destruct HB as (_ & _ & _ & _ & _ & _ & H6 & _). pose proof (Rapart jj i (H6 k Hk') Hi (Hne k Hk)). pose proof (Rrange jj (H6 k Hk')). apply E2. lia. }
  unfold vdrow. rewrite (sum_to_ext (dim i) _ (fun jj => smul (elt (znth [] D i) (dim i) ii jj) (sum_to (dim i) (fun k => smul (elt (znth [] W i) (dim i) jj k) (znth s0 y (R i + k)))))).
  2:{ intros jj Hjj. rewrite M1 by lia. cbn [Z.add]. rewrite Hw1 by auto. auto. }
  rewrite (inv_cancel (dim i) _ _ ii (fun k => znth s0 y (R i + k)) (HI i Hi) Hii). rewrite K1 by auto. ring.
Qed.

Hypothesis small : forall i, 0 <= i < nr -> dim i <= 1024.
Variables (L U : vbr T).
Hypothesis HL : vfits L.
Hypothesis HU : vfits U.
Hypothesis SL : forall i k, 0 <= i < nr -> znth 0 (vbr_bptr L) i <= k < znth 0 (vbr_bptr L) (i + 1) -> znth 0 (vbr_bindex L) k < i.
Hypothesis SU : forall i k, 0 <= i < nr -> znth 0 (vbr_bptr U) i <= k < znth 0 (vbr_bptr U) (i + 1) -> i < znth 0 (vbr_bindex U) k.
Lemma col_range B i k : vfits B -> 0 <= i < nr -> znth 0 (vbr_bptr B) i <= k < znth 0 (vbr_bptr B) (i + 1) -> 0 <= znth 0 (vbr_bindex B) k < nr.
Proof using. intros HB Hi Hk. pose proof (vfits_pos B i k HB Hi Hk). destruct HB as (_ & _ & _ & _ & _ & _ & H6 & _). auto. Qed.
Lemma lower_loop b w : n <= zlen b -> 1024 <= zlen w -> wp (for_ 0 nr (vstep L W) (b, w)) (fun s => zlen (fst s) = zlen b /\ 1024 <= zlen (snd s) /\
   forall i ii, 0 <= i < nr -> 0 <= ii < dim i -> sadd (vsum L i ii (znth s0 (fst s))) (vdrow i ii (znth s0 (fst s))) = znth s0 b (R i + ii)).
Proof using RT Rm R0 Rn HW HWl HI small HL SL Hnr.
  intros Hb Hw. apply (for_wp' (fun m s => zlen (fst s) = zlen b /\ 1024 <= zlen (snd s) /\ (forall q, R m <= q -> znth s0 (fst s) q = znth s0 b q) /\
     forall i ii, 0 <= i < m -> 0 <= ii < dim i -> sadd (vsum L i ii (znth s0 (fst s))) (vdrow i ii (znth s0 (fst s))) = znth s0 b (R i + ii))); [lia| | |].
  - cbn [fst snd]. split; auto. split; auto. split; auto. intros; lia.
  - intros i [x v] Hi. cbn [fst snd]. intros (L1 & L2 & H1 & H2). pose proof (Rrange i Hi) as Ri. pose proof (small i Hi). eapply wp_mono; [apply vstep_wp; auto; try lia|]. { intros k Hk. specialize (SL i k Hi Hk). lia. }
    cbv beta. intros [x' v']. cbn [fst snd]. intros (L1' & L2' & K & E). split; [lia|]. split; [lia|]. split; [intros q Hq; rewrite K by lia; apply H1; lia|].
    intros r ii Hr Hii. destruct (Z.eq_dec r i) as [->|Hne]; [rewrite E by auto; apply H1; lia|]. rewrite <- (H2 r ii) by lia. pose proof (Rm (r + 1) i ltac:(lia) ltac:(lia)). f_equal.
    + apply vsum_ext; [auto|lia|]. intros k Hk jj q Hq. specialize (SL r k ltac:(lia) Hk). pose proof (col_range L r k HL ltac:(lia) Hk) as Hc. pose proof (Rm (jj + 1) i ltac:(unfold jj; lia) ltac:(lia)). pose proof (Rrange jj Hc). apply K. lia.
    + pose proof (Rrange r ltac:(lia)). apply vdrow_ext. intros q Hq. apply K. lia.
  - intros s (L1 & L2 & _ & H). auto.
Qed.
Lemma upper_loop b w : n <= zlen b -> 1024 <= zlen w -> wp (for_down (nr - 1) 0 (vstep U W) (b, w)) (fun s => zlen (fst s) = zlen b /\
   forall i ii, 0 <= i < nr -> 0 <= ii < dim i -> sadd (vsum U i ii (znth s0 (fst s))) (vdrow i ii (znth s0 (fst s))) = znth s0 b (R i + ii)).
Proof using RT Rm R0 Rn HW HWl HI small HU SU Hnr.
  intros Hb Hw. apply (ford_wp' (fun m s => zlen (fst s) = zlen b /\ 1024 <= zlen (snd s) /\ (forall q, 0 <= q < R (m + 1) -> znth s0 (fst s) q = znth s0 b q) /\
     forall i ii, m < i < nr -> 0 <= ii < dim i -> sadd (vsum U i ii (znth s0 (fst s))) (vdrow i ii (znth s0 (fst s))) = znth s0 b (R i + ii))); [lia| | |].
  - cbn [fst snd]. split; auto. split; auto. split; auto. intros; lia.
  - intros i [x v] Hi'. assert (Hi : 0 <= i < nr) by lia. cbn [fst snd]. intros (L1 & L2 & H1 & H2). pose proof (Rrange i Hi) as Ri. pose proof (small i Hi). eapply wp_mono; [apply vstep_wp; auto; try lia|]. { intros k Hk. specialize (SU i k Hi Hk). lia. }
    cbv beta. intros [x' v']. cbn [fst snd]. intros (L1' & L2' & K & E). split; [lia|]. split; [lia|]. split; [replace (i - 1 + 1) with i by lia; intros q Hq; rewrite K by lia; apply H1; lia|].
    intros r ii Hr Hii. destruct (Z.eq_dec r i) as [->|Hne]; [rewrite E by auto; apply H1; lia|]. rewrite <- (H2 r ii) by lia. pose proof (Rm (i + 1) r ltac:(lia) ltac:(lia)). f_equal.
    + apply vsum_ext; [auto|lia|]. intros k Hk jj q Hq. specialize (SU r k ltac:(lia) Hk). pose proof (col_range U r k HU ltac:(lia) Hk) as Hc. pose proof (Rm (i + 1) jj ltac:(unfold jj; lia) ltac:(unfold jj; lia)). apply K. lia.
    + apply vdrow_ext. intros q Hq. apply K. lia.
  - intros s (L1 & L2 & _ & H). split; auto. intros i ii Hi Hii. apply H; lia.
Qed.
Lemma correct_loop z w : n <= zlen z -> 1024 <= zlen w -> wp (for_down (nr - 1) 0 (vcorrect U W) (z, w)) (fun s => zlen (fst s) = zlen z /\
   forall i ii, 0 <= i < nr -> 0 <= ii < dim i -> sadd (vsum U i ii (znth s0 (fst s))) (vdrow i ii (znth s0 (fst s))) = vdrow i ii (znth s0 z)).
Proof using RT Rm R0 Rn HW HWl HI small HU SU Hnr.
  intros Hb Hw. apply (ford_wp' (fun m s => zlen (fst s) = zlen z /\ 1024 <= zlen (snd s) /\ (forall q, 0 <= q < R (m + 1) -> znth s0 (fst s) q = znth s0 z q) /\
     forall i ii, m < i < nr -> 0 <= ii < dim i -> sadd (vsum U i ii (znth s0 (fst s))) (vdrow i ii (znth s0 (fst s))) = vdrow i ii (znth s0 z))); [lia| | |].
  - cbn [fst snd]. split; auto. split; auto. split; auto. intros; lia.
  - intros i [x v] Hi'. assert (Hi : 0 <= i < nr) by lia. cbn [fst snd]. intros (L1 & L2 & H1 & H2). pose proof (Rrange i Hi) as Ri. pose proof (small i Hi) as Hs. unfold vcorrect. rewrite vdim_wp by auto. cbn [bind].
    wbind. eapply wp_mono; [apply zero_wp; lia|]. cbv beta. intros v1 (Lv1 & Z1). wbind. eapply wp_mono; [apply vrow_add; auto; lia|]. cbv beta. intros v2 (Lv2 & K2 & _).
    wrd (@nil T); [lia|]. wbind. eapply wp_mono; [apply vsub_wp; try lia; rewrite Z.add_0_l; auto|]. cbv beta. intros x' (L' & M1 & M2). apply wp_ok. cbn [fst snd].
    split; [lia|]. split; [lia|]. split; [replace (i - 1 + 1) with i by lia; intros q Hq; rewrite M2 by lia; apply H1; lia|].
    intros r ii Hr Hii. destruct (Z.eq_dec r i) as [->|Hne].
    + rewrite (vsum_ext U i ii (znth s0 x') (znth s0 x)); auto.
      2:{ intros k Hk jj q Hq. specialize (SU i k Hi Hk). pose proof (col_range U i k HU Hi Hk) as Hc. pose proof (Rm (i + 1) jj ltac:(unfold jj; lia) ltac:(unfold jj; lia)). apply M2. lia. }
      unfold vdrow at 1. rewrite (sum_to_ext (dim i) _ (fun jj => sadd (smul (elt (znth [] D i) (dim i) ii jj) (znth s0 z (R i + jj))) (smul (sopp s1) (smul (elt (znth [] D i) (dim i) ii jj) (sum_to (dim i) (fun k => smul (elt (znth [] W i) (dim i) jj k) (znth s0 v2 k))))))).
      2:{ intros jj Hjj. rewrite M1 by lia. rewrite (H1 (R i + jj)) by lia. unfold elt. cbn [Z.add]. ring. }
      rewrite (sum_to_add RT), (sum_to_scale RT). rewrite (inv_cancel (dim i) _ _ ii (znth s0 v2) (HI i Hi) Hii). specialize (K2 ii Hii). cbn [Z.add] in K2. rewrite K2, Z1 by auto. unfold vdrow. ring.
    + rewrite <- (H2 r ii) by lia. pose proof (Rm (i + 1) r ltac:(lia) ltac:(lia)). f_equal.
      * apply vsum_ext; [auto|lia|]. intros k Hk jj q Hq. specialize (SU r k ltac:(lia) Hk). pose proof (col_range U r k HU ltac:(lia) Hk) as Hc. pose proof (Rm (i + 1) jj ltac:(unfold jj; lia) ltac:(unfold jj; lia)). apply M2. lia.
      * apply vdrow_ext. intros q Hq. apply M2. lia.
  - intros s (L1 & L2 & _ & H). split; auto. intros i ii Hi Hii. apply H; lia.
Qed.

(** *** products with the entries *)
Lemma blocks_mv (lk : Z -> list Z) (wd g : Z -> Z) (v : Z -> Z -> Z -> Z -> T) x i ii : 0 <= i < nr -> 0 <= ii < dim i ->
  mvE (flat_map (fun bi => flat_map (fun k => flat_map (fun j => map (fun p => (R bi + p, g k + j, v bi k j p)) (zrange 0 (dim bi))) (zrange 0 (wd k))) (lk bi)) (zrange 0 nr)) x (R i + ii) =
  ssum (map (fun k => sum_to (wd k) (fun j => smul (v i k j ii) (x (g k + j)))) (lk i)).
Proof using RT Rm.
  intros Hi Hii. rewrite (flat_map_split _ 0 i nr) by lia. rewrite !(mvE_app RT).
  assert (Other : forall bi, 0 <= bi < nr -> bi <> i -> forall e, In e (flat_map (fun k => flat_map (fun j => map (fun p => (R bi + p, g k + j, v bi k j p)) (zrange 0 (dim bi))) (zrange 0 (wd k))) (lk bi)) -> erow e <> R i + ii).
  { intros bi Hb Hne e He. apply in_flat_map in He. destruct He as (k & _ & He). apply in_flat_map in He. destruct He as (j & _ & He). apply in_map_iff in He. destruct He as (p & <- & Hp). apply In_zrange in Hp. unfold erow. cbn [fst].
    pose proof (Rapart bi i Hb Hi Hne). lia. }
  rewrite (mvE_disj (flat_map _ (zrange 0 i))), (mvE_disj (flat_map _ (zrange (i + 1) nr))).
  2:{ intros e He. apply in_flat_map in He. destruct He as (bi & Hb & He). apply In_zrange in Hb. apply (Other bi); auto; lia. }
  2:{ intros e He. apply in_flat_map in He. destruct He as (bi & Hb & He). apply In_zrange in Hb. apply (Other bi); auto; lia. }
  match goal with |- sadd s0 (sadd ?a s0) = _ => transitivity a; [ring|] end.
  rewrite (BsrEnd.mvE_flat_map RT). apply ssum_map_ext. intros k _. rewrite (BsrEnd.mvE_flat_map RT). apply sum_to_ext. intros j _. rewrite (BsrEnd.mvE_map RT).
  rewrite (ssum_map_ext _ (fun p => if ii =? p then smul (v i k j p) (x (g k + j)) else s0)).
  - apply (TriLines.single RT (dim i) ii (fun p => smul (v i k j p) (x (g k + j)))); auto.
  - intros p _. unfold erow, ecol, eval. cbn [fst snd]. destruct (Z.eqb_spec (R i + p) (R i + ii)); destruct (Z.eqb_spec ii p); auto; lia.
Qed.
End S.
