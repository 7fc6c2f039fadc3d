(** lis_matrix_split_bsr and lis_matrix_merge_bsr: a BSR matrix is seen as a CSR matrix whose values are blocks *)
Require Import ZArith List Bool Lia Permutation Ring.
From Verif Require Import Base Scalar Spec Items CscProof Fmt AssembleProof MatvecProof Split SpecSplit DiagProof DiagProof2 SplitProof BsrSolve.
Import ListNotations.
Open Scope Z_scope.

(** the CSR lemmas ask for operations on the values but do not use them *)
Definition ScalarBlk (T : Type) : Scalar (list T) :=
  mkScalar (list T) [] [] (fun a _ => a) (fun a _ => a) (fun a _ => a) (fun a => a) (fun a _ => a) (fun a => a) (fun a => a) (fun a => a) (fun _ _ => false) (fun _ _ => false).

Section P.
Context {T : Type} {S : Scalar T}.
Local Instance SB : Scalar (list T) := ScalarBlk T.
Notation bent := (entry (list T)).

Definition expand (b : Z) (e : bent) : list (entry T) :=
  flat_map (fun j => map (fun i => (erow e * b + i, ecol e * b + j, znth s0 (eval e) (j * b + i))) (zrange 0 b)) (zrange 0 b).
Definition blkof (bs : Z) (v : list T) (k : Z) : list T := map (fun q => znth s0 v (bs * k + q)) (zrange 0 bs).
Lemma znth_blkof bs v k q : 0 <= q < bs -> znth s0 (blkof bs v k) q = znth s0 v (bs * k + q).
Proof. intros H. unfold blkof. rewrite (znth_map _ 0) by (rewrite zlen_zrange; lia). rewrite znth_zrange by lia. repeat f_equal; lia. Qed.
Definition vview (A : bsr T) : csr (list T) :=
  mkCsr (bsr_nr A) (bsr_nr A) (bsr_bnnz A) (bsr_bptr A) (bsr_bindex A) (map (blkof (bsr_bnr A * bsr_bnr A) (bsr_value A)) (zrange 0 (bsr_bnnz A))).

Lemma flat_map_ext_in {A B} (f g : A -> list B) l : (forall a, In a l -> f a = g a) -> flat_map f l = flat_map g l.
Proof. induction l; cbn [flat_map]; intros H; auto. rewrite H by (left; auto). rewrite IHl; auto. intros; apply H; right; auto. Qed.
Lemma flat_map_map_ {A B C} (f : A -> B) (g : B -> list C) l : flat_map g (map f l) = flat_map (fun a => g (f a)) l.
Proof. induction l; cbn [map flat_map]; auto. rewrite IHl. auto. Qed.
Lemma flat_map_flat_map_ {A B C} (f : A -> list B) (g : B -> list C) l : flat_map g (flat_map f l) = flat_map (fun a => flat_map g (f a)) l.
Proof. induction l; cbn [flat_map]; auto. rewrite flat_map_app, IHl. auto. Qed.

(** the entries of a BSR matrix are those of its blocks *)
Lemma bsr_expand (B : bsr T) b nnz vb : bsr_bnr B = b -> bsr_bnc B = b -> 0 < b -> ptr_ok (bsr_nr B) (bsr_bptr B) ->
  (forall k q, 0 <= k < znth 0 (bsr_bptr B) (bsr_nr B) -> 0 <= q < b * b -> znth s0 (bsr_value B) (b * b * k + q) = znth s0 (znth [] vb k) q) ->
  bsr_entries B = flat_map (expand b) (csr_entries (mkCsr (bsr_nr B) (bsr_nr B) nnz (bsr_bptr B) (bsr_bindex B) vb)).
Proof.
  intros E1 E2 Hb Hp Hv. unfold bsr_entries, csr_entries. cbn [csr_n csr_ptr csr_index csr_value]. rewrite E1, E2.
  rewrite flat_map_flat_map_. apply flat_map_ext_in. intros bi Hbi. apply In_zrange in Hbi.
  rewrite flat_map_map_. apply flat_map_ext_in. intros k Hk. apply In_zrange in Hk. pose proof (ptr_ok_bounds _ _ bi k Hp Hbi Hk).
  unfold expand. apply flat_map_ext_in. intros j Hj. apply In_zrange in Hj. apply map_ext_in. intros i Hi. apply In_zrange in Hi.
  unfold erow, ecol, eval. cbn [fst snd]. f_equal. rewrite <- Hv; [f_equal; lia|lia|nia].
Qed.
Lemma bsr_view (A : bsr T) : bsr_ok A -> bsr_bnc A = bsr_bnr A -> bsr_entries A = flat_map (expand (bsr_bnr A)) (csr_entries (vview A)).
Proof.
  intros (H1 & H2 & H3 & H4 & H5 & Hp & Hz & Hi & Hv & Hx & Hs) E. apply bsr_expand; auto.
  intros k q Hk Hq. change (@nil T) with (@s0 _ SB). rewrite (znth_map _ 0) by (rewrite zlen_zrange; lia). rewrite znth_zrange by lia. rewrite znth_blkof by lia. f_equal; lia.
Qed.
Lemma vview_ok (A : bsr T) : bsr_ok A -> bsr_bnc A = bsr_bnr A -> csr_ok (vview A).
Proof.
  intros (H1 & H2 & H3 & H4 & H5 & Hp & Hz & Hi & Hv & Hx & Hs) E. pose proof Hp as (Hn & _). pose proof (ptr_pos _ _ (bsr_nr A) Hp ltac:(lia)) as Hge.
  unfold csr_ok, vview. cbn [csr_n csr_np csr_nnz csr_ptr csr_index csr_value]. repeat (split; try assumption); try lia.
  - rewrite zlen_map, zlen_zrange. lia.
  - apply Hx; auto.
  - specialize (Hx k ltac:(auto)). nia.
Qed.
Lemma expand_at b e : 0 < b -> In (erow e * b, ecol e * b) (map fst (expand b e)).
Proof.
  intros Hb. apply in_map_iff. exists (erow e * b + 0, ecol e * b + 0, znth s0 (eval e) (0 * b + 0)). split; [cbn [fst]; f_equal; lia|].
  unfold expand. apply in_flat_map. exists 0. split; [apply In_zrange; lia|]. apply in_map_iff. exists 0. split; auto. apply In_zrange; lia.
Qed.
Lemma no_dup_blocks b (F : list bent) : 0 < b -> no_dup_pos (flat_map (expand b) F) -> no_dup_pos F.
Proof.
  intros Hb. unfold no_dup_pos. induction F as [|e F IH]; cbn [flat_map map]; intros H; [constructor|]. rewrite map_app in H.
  constructor; [|apply IH; eapply NoDup_app_remove_l; eauto]. intros Hin. apply in_map_iff in Hin. destruct Hin as (e' & E & He').
  assert (X : forall (l m : list (Z * Z)) p, NoDup (l ++ m) -> In p l -> In p m -> False).
  { intros l m p ND Hl Hm. apply in_split in Hl. destruct Hl as (l1 & l2 & ->). rewrite <- app_assoc in ND. cbn [app] in ND. apply NoDup_remove_2 in ND. apply ND. rewrite !in_app_iff. auto. }
  apply (X _ _ (erow e * b, ecol e * b) H); [apply expand_at; auto|].
  replace (erow e * b, ecol e * b) with (erow e' * b, ecol e' * b) by (unfold erow, ecol; rewrite E; auto).
  pose proof (expand_at b e' Hb) as Hp. apply in_map_iff in Hp. destruct Hp as (p & Ep & Hp). rewrite <- Ep. apply in_map. apply in_flat_map. exists e'; auto.
Qed.

(** ** memcpy *)
Lemma memcpy_wp k (d : list T) o s p : 0 <= k -> 0 <= o -> 0 <= p -> o + k <= zlen d -> p + k <= zlen s ->
  wp (memcpy k d o s p) (fun d' => zlen d' = zlen d /\ (forall q, 0 <= q < k -> znth s0 d' (o + q) = znth s0 s (p + q)) /\ forall q, 0 <= q < o \/ o + k <= q -> znth s0 d' q = znth s0 d q).
Proof.
  intros Hk Ho Hp Hd Hs. unfold memcpy.
  apply (for_wp' (fun m y => zlen y = zlen d /\ (forall q, 0 <= q < m -> znth s0 y (o + q) = znth s0 s (p + q)) /\ forall q, 0 <= q < o \/ o + k <= q -> znth s0 y q = znth s0 d q)); [lia| | |].
  - split; auto. split; [intros; lia|auto].
  - intros m y Hm (L & H1 & H2). wrd (@s0 T S); [lia|]. apply wp_wr; [lia|]. split; [len|]. split.
    + intros q Hq. rewrite znth_zupd by lia. destruct (Z.eqb_spec (o + q) (o + m)) as [E|]; [replace q with m by lia; auto|]. apply H1; lia.
    + intros q Hq. rewrite znth_zupd_neq by lia. auto.
  - auto.
Qed.

(** ** emitting blocks *)
Variable bs : Z.
Hypothesis Hbs : 0 < bs.
Definition brep (N : Z) (F : list bent) (st : list Z * list T * Z) : Prop :=
  let '(ix, vl, k) := st in zlen ix = N /\ zlen vl = N * bs /\ k = zlen F /\
  forall t, 0 <= t < zlen F -> znth 0 ix t = ecol (znth e0 F t) /\ forall q, 0 <= q < bs -> znth s0 vl (bs * t + q) = znth s0 (eval (znth e0 F t)) q.
Lemma brep_nil N ji (jv : Z -> T) : 0 <= N -> brep N [] (alloc N ji, alloc (N * bs) jv, 0).
Proof using Hbs. intros H. split; [apply zlen_alloc; auto|]. split; [apply zlen_alloc; nia|]. split; [reflexivity|]. intros t Ht. change (zlen (@nil bent)) with 0 in Ht. lia. Qed.
Lemma emitb_wp N F st r c src j (Q : list Z * list T * Z -> Prop) : brep N F st -> zlen F < N -> 0 <= j -> bs * j + bs <= zlen src ->
  (forall st', brep N (F ++ [(r, c, blkof bs src j) : bent]) st' -> Q st') -> wp (emitb bs st c src j) Q.
Proof using Hbs.
  destruct st as [[ix vl] k]. intros (H1 & H2 & -> & H3) Hl Hj Hs HQ. unfold emitb. pose proof (zlen_nonneg F). wwr; [lia|]. wbind.
  eapply wp_mono; [apply memcpy_wp; nia|]. cbv beta. intros vl' (L & K1 & K2). apply wp_ok. apply HQ.
  split; [len|]. split; [lia|]. split; [rewrite zlen_app; reflexivity|]. intros t Ht. rewrite zlen_app in Ht. change (zlen [_]) with 1 in Ht. rewrite znth_app by lia.
  destruct (Z.ltb_spec t (zlen F)) as [Lt|Ge].
  - rewrite znth_zupd_neq by lia. destruct (H3 t ltac:(lia)) as [E1 E2]. split; auto. intros q Hq. rewrite K2 by nia. auto.
  - replace t with (zlen F) by lia. rewrite znth_zupd_eq by lia. replace (zlen F - zlen F) with 0 by lia. unfold ecol, eval. cbn. split; auto. intros q Hq. rewrite K1 by lia. rewrite znth_blkof by lia. auto.
Qed.
(** the finished arrays as a CSR matrix of blocks *)
Lemma brep_emit N F ix vl k : brep N F (ix, vl, k) -> emit_rep F ix (map eval F).
Proof using. intros (H1 & H2 & H3 & H4) t Ht. destruct (H4 t Ht) as [E _]. split; auto. rewrite (znth_map _ e0) by lia. auto. Qed.

Lemma split_count_view (A : bsr T) : split_count_bsr A = split_count (vview A).
Proof using. reflexivity. Qed.

Definition bdrep (n : Z) (dn : list bent) (d : list T) : Prop :=
  zlen d = n * bs /\ forall e, In e dn -> erow e = ecol e -> forall q, 0 <= q < bs -> znth s0 d (bs * erow e + q) = znth s0 (eval e) q.
Definition bsrep (n nl nu : Z) (dn : list bent) (s : (list Z * list T * Z) * (list Z * list T * Z) * list T) : Prop :=
  let '(l, u, d) := s in brep nl (filter lower dn) l /\ brep nu (filter upper dn) u /\ bdrep n dn d.
End P.
