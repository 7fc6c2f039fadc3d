(** Final forms of the Gram-Schmidt theorems. *)
Require Import ZArith List Bool Lia Reals Lra Ring Field.
From Verif Require Import Base Scalar ScalarReal SpecArray Array ArrayProof LuProof Gs GsProof.
Import ListNotations.
Open Scope Z_scope.

Lemma sumR_nonneg n f : (forall i, 0 <= i < n -> (0 <= f i)%R) -> (0 <= @sum_to R ScalarR n f)%R.
Proof.
  unfold sum_to. intros H. assert (G : forall i, In i (zrange 0 n) -> (0 <= f i)%R) by (intros i Hi; apply In_zrange in Hi; auto).
  clear H. induction (zrange 0 n) as [|i l IH]; cbn [map ssum sadd s0 ScalarR]; [lra|]. pose proof (G i (or_introl eq_refl)). pose proof (IH (fun j Hj => G j (or_intror Hj))). lra.
Qed.
Lemma real_like_R : @real_like R ScalarR.
Proof.
  split; [reflexivity|]. intros n v. unfold norm_of, inner. cbn [ssqrt smul sconj ScalarR]. apply sqrt_sqrt. apply sumR_nonneg. intros i Hi. nra.
Qed.

Section P.
Context {T : Type} {S : Scalar T}.
Hypothesis FT : is_field S.
Hypothesis EQ : eqb_ok S.
Let RT' : @ring_theory T s0 s1 sadd smul ssub sopp (@eq T) := F_R FT.
Add Ring Tr : RT'.
Variable tol : T.
Hypothesis Htol : below s0 tol.
Lemma sltb_below a : (sltb a tol = true <-> below a tol) /\ (sltb a tol = false <-> ~ below a tol).
Proof. unfold sltb, below. destruct (sleb tol a); cbn [negb]; split; split; congruence. Qed.
Theorem cgs_final n a q r junk : 0 <= n -> n * n <= zlen a -> n * n <= zlen q -> n * n <= zlen r ->
  exists q' r', lis_array_cgs tol n a q r junk = Ok (q', r') /\
   let A := elt a n in let Q := elt q' n in let R := elt r' n in
   upper_triangular n R /\
   (is_product n A Q R /\ (forall c, 0 <= c < n -> ~ below (R c c) tol) \/
    exists m, 0 <= m < n /\ (forall i c, 0 <= i < n -> 0 <= c < m -> A i c = sum_to n (fun j => smul (Q i j) (R j c))) /\
      below (norm_of n (fun i => ssub (A i m) (sum_to m (fun j => smul (Q i j) (R j m))))) tol /\
      (forall i j, 0 <= i < n -> m <= j < n -> Q i j = s0) /\ (forall i j, 0 <= i < n -> m < j < n -> R i j = s0)).
Proof.
  intros Hn Ha Hq Hr. pose proof (cgs_ok FT EQ tol Htol n a q r junk Hn Ha Hq Hr) as W. apply wp_inv in W. destruct W as ([q' r'] & E & L1 & L2 & HC). exists q', r'. split; [exact E|]. cbv zeta.
  destruct HC as [D|(m & Hm & D & S1 & S2 & S3 & S4 & S5)].
  - split; [intros i j Hi Hj Hij; apply D; auto|]. left. split; [exact (done_product FT tol n _ _ _ Hn D)|]. intros c Hc. apply sltb_below. apply D. exact Hc.
  - split.
    + intros i j Hi Hj Hij. destruct (Z_lt_le_dec j m); [apply D; auto; lia|]. destruct (Z.eq_dec j m) as [->|]; [apply S5; lia|apply S2; lia].
    + right. exists m. split; [exact Hm|]. split; [|split; [|split; [exact S1|exact S2]]].
      * intros i c Hi Hc. destruct D as (D1 & _ & D3 & _). rewrite D1 by auto. symmetry. apply (sum_cut FT); [lia|]. intros j Hj. rewrite D3 by lia. ring.
      * apply sltb_below. rewrite <- S3. exact S4.
Qed.
Theorem mgs_final n a q r junk : 0 <= n -> n * n <= zlen a -> n * n <= zlen q -> n * n <= zlen r ->
  exists a' q' r', lis_array_mgs tol n a q r junk = Ok (a', q', r') /\
   let A := elt a n in let Q := elt q' n in let R := elt r' n in
   upper_triangular n R /\
   (forall c, 0 <= c < n -> ~ below (R c c) tol -> forall i, 0 <= i < n -> A i c = sum_to n (fun j => smul (Q i j) (R j c))) /\
   (forall c, 0 <= c < n -> below (R c c) tol -> (forall i, 0 <= i < n -> Q i c = s0) /\
      R c c = norm_of n (fun i => ssub (A i c) (sum_to n (fun j => smul (Q i j) (R j c))))).
Proof.
  intros Hn Ha Hq Hr. pose proof (mgs_ok FT EQ tol Htol n a q r junk Hn Ha Hq Hr) as W. apply wp_inv in W. destruct W as ([[a' q'] r'] & E & L1 & L2 & L3 & D).
  exists a', q', r'. split; [exact E|]. cbv zeta. destruct (mgs_facts FT tol Htol n _ _ _ _ Hn D) as (F1 & F2 & F3 & _).
  split; [exact F1|]. split.
  - intros c Hc Hb i Hi. apply F2; auto. apply sltb_below. exact Hb.
  - intros c Hc Hb. apply F3; auto. apply sltb_below. exact Hb.
Qed.
End P.

(** over the reals *)
Theorem cgs_real (tol : R) n a q r junk : (0 < tol)%R -> 0 <= n -> n * n <= zlen a -> n * n <= zlen q -> n * n <= zlen r ->
  exists q' r', lis_array_cgs tol n a q r junk = Ok (q', r') /\
   (is_product n (elt a n) (elt q' n) (elt r' n) /\ (forall j c, 0 <= j < n -> 0 <= c < n -> dot_of n (fun i => elt q' n i j) (fun i => elt q' n i c) = delta j c) \/
    exists m, 0 <= m < n /\ (forall i c, 0 <= i < n -> m <= c < n -> elt q' n i c = 0%R) /\
      (forall j c, 0 <= j < m -> 0 <= c < m -> dot_of n (fun i => elt q' n i j) (fun i => elt q' n i c) = delta j c)).
Proof.
  intros Ht Hn Ha Hq Hr. assert (Htol : below (S:=ScalarR) s0 tol) by (unfold below; cbn; destruct (Rle_dec tol 0); [lra|reflexivity]).
  pose proof (cgs_ok ScalarR_field ScalarR_eqb tol Htol n a q r junk Hn Ha Hq Hr) as W. apply wp_inv in W. destruct W as ([q' r'] & E & L1 & L2 & HC). exists q', r'. split; [exact E|].
  destruct HC as [D|(m & Hm & D & S1 & _)].
  - left. split; [exact (done_product ScalarR_field tol n _ _ _ Hn D)|]. exact (proj2 (proj2 (proj2 D)) real_like_R).
  - right. exists m. split; [exact Hm|]. split; [exact S1|]. exact (proj2 (proj2 (proj2 D)) real_like_R).
Qed.
Theorem mgs_real (tol : R) n a q r junk : (0 < tol)%R -> 0 <= n -> n * n <= zlen a -> n * n <= zlen q -> n * n <= zlen r ->
  exists a' q' r', lis_array_mgs tol n a q r junk = Ok (a', q', r') /\
   forall j c, 0 <= j < n -> 0 <= c < n ->
     dot_of n (fun i => elt q' n i j) (fun i => elt q' n i c) = if j =? c then (if Rlt_dec (elt r' n c c) tol then 0 else 1)%R else 0%R.
Proof.
  intros Ht Hn Ha Hq Hr. assert (Htol : below (S:=ScalarR) s0 tol) by (unfold below; cbn; destruct (Rle_dec tol 0); [lra|reflexivity]).
  pose proof (mgs_ok ScalarR_field ScalarR_eqb tol Htol n a q r junk Hn Ha Hq Hr) as W. apply wp_inv in W. destruct W as ([[a' q'] r'] & E & L1 & L2 & L3 & D).
  exists a', q', r'. split; [exact E|]. destruct (mgs_facts ScalarR_field tol Htol n _ _ _ _ Hn D) as (_ & _ & _ & F4).
  intros j c Hj Hc. pose proof (F4 real_like_R j c Hj Hc) as H. change (inner n (fun i => elt q' n i j) (fun i => elt q' n i c)) with (dot_of n (fun i => elt q' n i j) (fun i => elt q' n i c)) in H.
  rewrite H. destruct (j =? c); [|reflexivity]. unfold sltb. cbn [sleb ScalarR]. destruct (Rle_dec tol (elt r' n c c)), (Rlt_dec (elt r' n c c) tol); cbn [negb]; try lra; reflexivity.
Qed.

