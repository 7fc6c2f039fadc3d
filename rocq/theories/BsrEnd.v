(** BSR: split, merge, block inversion and solves put together *)
Require Import ZArith List Bool Lia Permutation Ring.
From Verif Require Import Base Scalar Spec SpecArray Items CscProof Fmt AssembleProof MatvecProof MatvecFinal Split SpecSplit DiagProof DiagProof2 SplitProof Array LuProof LuFinal TriLines DiagProof5
  BsrSolve SpecBsrSolve BsrTri BsrSplit BsrSplit2 BsrMerge.
Import ListNotations.
Open Scope Z_scope.

Section P.
Context {T : Type} {S : Scalar T}.
Hypothesis RT : is_ring S.
Let RT' : @ring_theory T s0 s1 sadd smul ssub sopp (@eq T) := RT.
Add Ring scalar_ring_bf : RT'.
Local Existing Instance SB.
Notation bent := (entry (list T)).
Notation z0 := (@s0 T S).

(** ** products *)
Lemma mvE_flat_map {A} (f : A -> list (entry T)) l x i : mvE (flat_map f l) x i = ssum (map (fun a => mvE (f a) x i) l).
Proof using RT. induction l as [|a l IH]; cbn [flat_map map ssum]; [apply mvE_nil|]. rewrite (mvE_app RT), IH. auto. Qed.
Lemma mvE_map {A} (f : A -> entry T) l x i : mvE (map f l) x i = ssum (map (fun a => if erow (f a) =? i then smul (eval (f a)) (x (ecol (f a))) else s0) l).
Proof using RT. induction l as [|a l IH]; cbn [map ssum]; [apply mvE_nil|]. change (f a :: map f l) with ([f a] ++ map f l). rewrite (mvE_app RT), IH, (mvE_one RT). auto. Qed.
Definition eprod (b : Z) (e : bent) (ii : Z) (x : Z -> T) : T := sum_to b (fun jj => smul (znth z0 (eval e) (jj * b + ii)) (x (ecol e * b + jj))).
Lemma mvE_expand b e x i ii : 0 < b -> 0 <= ii < b -> mvE (expand b e) x (i * b + ii) = if i =? erow e then eprod b e ii x else s0.
Proof using RT.
  intros Hb Hii. unfold expand. rewrite mvE_flat_map.
  rewrite (ssum_map_ext _ (fun jj => if i =? erow e then smul (znth z0 (eval e) (jj * b + ii)) (x (ecol e * b + jj)) else s0)).
  - destruct (i =? erow e); [reflexivity|]. apply (ssum_map_zero RT).
  - intros jj _. rewrite mvE_map. unfold erow at 1, ecol at 1, eval at 1. cbn [fst snd].
    destruct (Z.eqb_spec i (erow e)) as [->|Ne].
    + rewrite (ssum_map_ext _ (fun a => if ii =? a then smul (znth z0 (eval e) (jj * b + a)) (x (ecol e * b + jj)) else s0)).
      * apply (single RT b ii (fun a => smul (znth z0 (eval e) (jj * b + a)) (x (ecol e * b + jj)))); auto.
      * intros a _. destruct (Z.eqb_spec (erow e * b + a) (erow e * b + ii)); destruct (Z.eqb_spec ii a); auto; lia.
    + rewrite (ssum_map_ext _ (fun _ => s0)); [apply (ssum_map_zero RT)|]. intros a Ha. apply In_zrange in Ha. destruct (Z.eqb_spec (erow e * b + a) (i * b + ii)); auto. exfalso. apply Ne. nia.
Qed.
Lemma mvE_blocks b F x i ii : 0 < b -> 0 <= ii < b -> mvE (flat_map (expand b) F) x (i * b + ii) = ssum (map (fun e => if i =? erow e then eprod b e ii x else s0) F).
Proof using RT. intros Hb Hii. rewrite mvE_flat_map. apply ssum_map_ext. intros e _. apply mvE_expand; auto. Qed.

Lemma tri_fit b nr (B : bsr T) F : tri_ok b nr B F -> bfit b nr B.
Proof using.
  intros (H1 & H2 & H3 & (Hp & Hn & Hz & Hi & _ & Hx) & _ & Hv). unfold vview in *. cbn [csr_n csr_np csr_nnz csr_ptr csr_index csr_value] in *. rewrite H1 in *. try rewrite H2 in *.
  split; auto. rewrite Hz. split; auto. 
Qed.
Lemma tri_bsum b nr (B : bsr T) F x i ii : 0 < b -> 0 <= i < nr -> 0 <= ii < b -> tri_ok b nr B F -> mvE (flat_map (expand b) F) x (i * b + ii) = bsum b B i ii x.
Proof using RT.
  intros Hb Hi Hii (H1 & H2 & H3 & HC & <- & Hv). rewrite mvE_blocks by auto. unfold csr_entries. rewrite (ssum_flat_map RT). replace (csr_n (vview B)) with nr by (exact (eq_sym H1)).
  rewrite (ssum_map_ext _ (fun q => if i =? q then bsum b B q ii x else s0)); [apply (single RT nr i (fun q => bsum b B q ii x)); auto|].
  intros q Hq. apply In_zrange in Hq. rewrite map_map. change (csr_ptr (vview B)) with (bsr_bptr B). change (csr_index (vview B)) with (bsr_bindex B). destruct (Z.eqb_spec i q) as [->|Ne].
  - unfold bsum. apply ssum_map_ext. intros k Hk. apply In_zrange in Hk. unfold erow at 1. cbn [fst]. rewrite Z.eqb_refl.
    assert (Hk' : 0 <= k < bsr_bnnz B). { apply (csr_pos (vview B) q k HC); [change (csr_n (vview B)) with (bsr_nr B); lia|exact Hk]. }
    unfold eprod, bdot, ecol, eval. cbn [fst snd]. rewrite (vview_value B b k H2 Hk'). apply sum_to_ext. intros jj Hjj. rewrite znth_blkof by nia. do 2 f_equal. ring.
  - rewrite (ssum_map_ext _ (fun _ => s0)); [apply (ssum_map_zero RT)|]. intros k _. unfold erow at 1. cbn [fst]. destruct (Z.eqb_spec i q); [contradiction|auto].
Qed.

(** ** block filters *)
Definition bl_le (e : bent) : bool := ecol e <=? erow e.
Definition bl_ge (e : bent) : bool := erow e <=? ecol e.
Lemma div_blk b r i : 0 < b -> 0 <= i < b -> (r * b + i) / b = r.
Proof using. intros. symmetry. apply (Z.div_unique (r * b + i) b r i); [left; lia|lia]. Qed.
Lemma In_expand b e (f : entry T) : 0 < b -> In f (expand b e) -> exists i j, 0 <= i < b /\ 0 <= j < b /\ f = (erow e * b + i, ecol e * b + j, znth z0 (eval e) (j * b + i)).
Proof using.
  intros Hb H. unfold expand in H. apply in_flat_map in H. destruct H as (j & Hj & H). apply In_zrange in Hj. apply in_map_iff in H. destruct H as (i & <- & Hi). apply In_zrange in Hi. eauto.
Qed.
Lemma filter_expand b (p : entry T -> bool) (q : bent -> bool) F : 0 < b -> (forall e f, In f (expand b e) -> p f = q e) -> filter p (flat_map (expand b) F) = flat_map (expand b) (filter q F).
Proof using.
  intros Hb H. induction F as [|e F IH]; cbn [flat_map filter]; auto. rewrite filter_app, IH. destruct (q e) eqn:E; cbn [flat_map].
  - rewrite filter_all; auto. intros f Hf. rewrite (H e f Hf). auto.
  - rewrite filter_none; auto. intros f Hf. rewrite (H e f Hf). auto.
Qed.
Lemma filter_lower_blk b (F : list bent) : 0 < b -> filter (in_block_lower b) (flat_map (expand b) F) = flat_map (expand b) (filter bl_le F).
Proof using. intros Hb. apply filter_expand; auto. intros e f Hf. apply In_expand in Hf; auto. destruct Hf as (i & j & Hi & Hj & ->). unfold in_block_lower, bl_le, erow, ecol. cbn [fst snd]. rewrite !div_blk by auto. auto. Qed.
Lemma filter_upper_blk b (F : list bent) : 0 < b -> filter (in_block_upper b) (flat_map (expand b) F) = flat_map (expand b) (filter bl_ge F).
Proof using. intros Hb. apply filter_expand; auto. intros e f Hf. apply In_expand in Hf; auto. destruct Hf as (i & j & Hi & Hj & ->). unfold in_block_upper, bl_ge, erow, ecol. cbn [fst snd]. rewrite !div_blk by auto. auto. Qed.
Lemma filter_diag_blk b (F : list bent) : 0 < b -> filter (in_block_diag b) (flat_map (expand b) F) = flat_map (expand b) (filter on_diag F).
Proof using. intros Hb. apply filter_expand; auto. intros e f Hf. apply In_expand in Hf; auto. destruct Hf as (i & j & Hi & Hj & ->). unfold in_block_diag, on_diag, erow, ecol. cbn [fst snd]. rewrite !div_blk by auto. auto. Qed.
Lemma perm_le (F : list bent) : Permutation (filter bl_le F) (filter lower F ++ filter on_diag F).
Proof using.
  induction F as [|e F IH]; [constructor|]. cbn [filter]. unfold bl_le at 1, lower at 1, on_diag at 1.
  destruct (Z.leb_spec (ecol e) (erow e)); destruct (Z.ltb_spec (ecol e) (erow e)); destruct (Z.eqb_spec (erow e) (ecol e)); try lia; cbn [app]; auto.
  rewrite IH. apply Permutation_middle.
Qed.
Lemma perm_ge (F : list bent) : Permutation (filter bl_ge F) (filter upper F ++ filter on_diag F).
Proof using.
  induction F as [|e F IH]; [constructor|]. cbn [filter]. unfold bl_ge at 1, upper at 1, on_diag at 1.
  destruct (Z.leb_spec (erow e) (ecol e)); destruct (Z.ltb_spec (erow e) (ecol e)); destruct (Z.eqb_spec (erow e) (ecol e)); try lia; cbn [app]; auto.
  rewrite IH. apply Permutation_middle.
Qed.
Lemma perm_flat_map {A B} (f : A -> list B) l m : Permutation l m -> Permutation (flat_map f l) (flat_map f m).
Proof using. apply Permutation_flat_map. Qed.

(** ** inverting the diagonal blocks *)
Definition dpad (n b : Z) (d : list T) (i ii jj : Z) : T := if (n <=? i * b + ii) && (ii =? jj) then s1 else znth z0 d (i * (b * b) + jj * b + ii).
Lemma lu_ext n (A A' L U : Z -> Z -> T) : (forall i j, 0 <= i < n -> 0 <= j < n -> A i j = A' i j) -> lu_of n A L U -> lu_of n A' L U.
Proof using. intros H (H1 & H2). split; auto. intros i j Hi Hj. rewrite <- H by auto. auto. Qed.
Lemma inv_ext n (A A' X X' : Z -> Z -> T) : (forall i j, 0 <= i < n -> 0 <= j < n -> A i j = A' i j) -> (forall i j, 0 <= i < n -> 0 <= j < n -> X i j = X' i j) -> is_inverse n A X -> is_inverse n A' X'.
Proof using.
  intros HA HX (H1 & H2). split; intros i k Hi Hk.
  - rewrite <- H1 by auto. apply sum_to_ext. intros j Hj. rewrite HA, HX by auto. auto.
  - rewrite <- H2 by auto. apply sum_to_ext. intros j Hj. rewrite HA, HX by auto. auto.
Qed.
Lemma lu_first n (A L U : Z -> Z -> T) : 0 < n -> lu_of n A L U -> A 0 0 <> s0.
Proof using RT.
  intros Hn (H1 & H2 & H3 & H4 & H5). rewrite H1 by lia. unfold sum_to. rewrite zrange_cons by lia. cbn [map ssum].
  rewrite (ssum_map_ext _ (fun _ => s0)); [rewrite (ssum_map_zero RT)|intros l Hl; apply In_zrange in Hl; rewrite (H2 0 l) by lia; ring].
  rewrite H3 by lia. intros E. apply (H5 0); [lia|]. rewrite <- E. ring.
Qed.
End P.
