(** C35 and C48: the dense kernels and array helpers of lis_array.c (Array.v, ArrayElem.v, Gs.v),
    in exact arithmetic.  [elt a ld i j] is the element (i,j) of a column-major array. *)
Require Import ZArith List Bool Lia QArith Qcanon Reals.
From Verif Require Import Base Scalar ScalarReal ScalarCQ SpecArray SpecVector Array ArrayElem ArrayElemProof ArrayProof LuProof LuFinal Gs GsProof ArrayFinal.
From Verif Require Krylov VectorProof.
Import ListNotations.
Open Scope Z_scope.
Definition qz (a : Z) : Qc := Q2Qc (inject_Z a).
Definition qf (a : Z) (b : positive) : Qc := Q2Qc (Qmake a b).
(** equality of two computed arrays *)
Ltac qlist := repeat (match goal with |- _ :: _ = _ :: _ => apply f_equal2; [apply Qc_is_canon; reflexivity|] end); reflexivity.
Ltac qres := vm_compute; apply f_equal; repeat (match goal with |- (_, _) = (_, _) => apply f_equal2 end); try (apply Qc_is_canon; reflexivity); try qlist.

(** *** C35: products, for every size, including the unrolled sizes 1, 2, 3 *)
Theorem C35_matvec T (S : Scalar T) (RT : is_ring S) n a x y op :
  0 <= n -> n * n <= zlen a -> n <= zlen x -> n <= zlen y -> op = 0 \/ op = 1 \/ op = 2 ->
  wp (lis_array_matvec n a x y op) (fun y' => zlen y' = zlen y /\
    (forall i, 0 <= i < n -> znth s0 y' i = combine op (znth s0 y i) (sum_to n (fun j => smul (elt a n i j) (znth s0 x j)))) /\
    (forall i, n <= i -> znth s0 y' i = znth s0 y i)).
Proof. exact (matvec_ok RT n a x y op). Qed.
Print Assumptions C35_matvec.
Theorem C35_matvech T (S : Scalar T) (RT : is_ring S) n a x y op :
  0 <= n -> n * n <= zlen a -> n <= zlen x -> n <= zlen y -> op = 0 \/ op = 1 \/ op = 2 ->
  wp (lis_array_matvech n a x y op) (fun y' => zlen y' = zlen y /\
    (forall i, 0 <= i < n -> znth s0 y' i = combine op (znth s0 y i) (sum_to n (fun j => smul (sconj (elt a n j i)) (znth s0 x j)))) /\
    (forall i, n <= i -> znth s0 y' i = znth s0 y i)).
Proof. exact (matvech_ok RT n a x y op). Qed.
Print Assumptions C35_matvech.
Theorem C35_matvec_ns T (S : Scalar T) (RT : is_ring S) m n a lda x y op :
  0 <= m -> 0 <= n -> m <= lda -> lda * n <= zlen a -> n <= zlen x -> m <= zlen y -> op = 0 \/ op = 1 \/ op = 2 ->
  wp (lis_array_matvec_ns m n a lda x y op) (fun y' => zlen y' = zlen y /\
    (forall i, 0 <= i < m -> znth s0 y' i = combine op (znth s0 y i) (sum_to n (fun j => smul (elt a lda i j) (znth s0 x j)))) /\
    (forall i, m <= i -> znth s0 y' i = znth s0 y i)).
Proof. exact (matvec_ns_ok RT m n a lda x y op). Qed.
Print Assumptions C35_matvec_ns.
Theorem C35_matmat T (S : Scalar T) (RT : is_ring S) n a b c op :
  0 <= n -> n * n <= zlen a -> n * n <= zlen b -> n * n <= zlen c -> op = 0 \/ op = 1 \/ op = 2 ->
  wp (lis_array_matmat n a b c op) (fun c' => zlen c' = zlen c /\
    (forall i j, 0 <= i < n -> 0 <= j < n -> elt c' n i j = combine op (elt c n i j) (sum_to n (fun k => smul (elt a n i k) (elt b n k j)))) /\
    (forall p, n * n <= p -> znth s0 c' p = znth s0 c p)).
Proof. exact (matmat_ok RT n a b c op). Qed.
Print Assumptions C35_matmat.
(** rectangular: C (l x m) from A (l x n) and B (n x m), elements outside the l x m window untouched *)
Theorem C35_matmat_ns T (S : Scalar T) (RT : is_ring S) l m n a lda b ldb c ldc op :
  0 <= l -> 0 <= m -> 0 <= n -> l <= lda -> n <= ldb -> l <= ldc ->
  lda * n <= zlen a -> ldb * m <= zlen b -> ldc * m <= zlen c -> op = 0 \/ op = 1 \/ op = 2 ->
  wp (lis_array_matmat_ns l m n a lda b ldb c ldc op) (fun c' => zlen c' = zlen c /\
    (forall i j, 0 <= i < l -> 0 <= j < m -> elt c' ldc i j = combine op (elt c ldc i j) (sum_to n (fun k => smul (elt a lda i k) (elt b ldb k j)))) /\
    (forall p, (forall i j, 0 <= i < l -> 0 <= j < m -> p <> i + j * ldc) -> znth s0 c' p = znth s0 c p)).
Proof. exact (matmat_loop_ok RT l m n a lda b ldb c ldc op). Qed.
Print Assumptions C35_matmat_ns.
Example C35_ex_products :
  lis_array_matvec (T:=Z) 3 [1;2;3;4;5;6;7;8;9] [1;10;100] [1000;1000;1000;7] 2 = Ok [259;148;37;7] /\
  lis_array_matvec (T:=Z) 4 [1;0;0;0; 0;1;0;0; 0;0;1;0; 5;6;7;8] [1;2;3;4] [0;0;0;0] 0 = Ok [21;26;31;32] /\
  lis_array_matvech (T:=G) 2 [(0,1);(2,0);(3,0);(0,4)] [(1,0);(1,0)] [(0,0);(0,0)] 0 = Ok [(2,-1);(3,-4)] /\
  lis_array_matmat (T:=Z) 2 [1;2;3;4] [5;6;7;8] [0;0;0;0] 0 = Ok [23;34;31;46] /\
  lis_array_matmat_ns (T:=Z) 1 2 2 [1;9;2;9] 2 [3;4;5;6] 2 [0;8;0;8] 2 1 = Ok [11;8;17;8].
Proof. repeat split; vm_compute; reflexivity. Qed.

(** the linear solve: the unique solution when A = L U exists with non-zero pivots, otherwise a division by zero *)
Theorem C35_solve T (S : Scalar T) (FT : is_field S) (EQ : eqb_ok S) n a b x w :
  0 <= n -> n * n <= zlen a -> n <= zlen b -> n <= zlen x -> n * n <= zlen w ->
  (exists x' w', lis_array_solve n a b x w = Ok (x', w') /\ zlen x' = zlen x /\ solves n (elt a n) (znth s0 x') (znth s0 b) /\
      (forall z, solves n (elt a n) z (znth s0 b) -> forall i, 0 <= i < n -> z i = znth s0 x' i) /\ (forall i, n <= i -> znth s0 x' i = znth s0 x i) /\
      exists L U, lu_of n (elt a n) L U) \/
  (lis_array_solve n a b x w = Err Krylov.DIV_BY_ZERO /\ ~ exists L U, lu_of n (elt a n) L U).
Proof. exact (solve_final FT EQ n a b x w). Qed.
Print Assumptions C35_solve.
Theorem C35_inverse T (S : Scalar T) (FT : is_field S) (EQ : eqb_ok S) n a : 0 <= n -> n * n <= zlen a ->
  (exists a', lis_array_ge n a = Ok a' /\ zlen a' = zlen a /\ is_inverse n (elt a n) (elt a' n) /\
      (forall p, n * n <= p -> znth s0 a' p = znth s0 a p) /\ exists L U, lu_of n (elt a n) L U) \/
  (lis_array_ge n a = Err Krylov.DIV_BY_ZERO /\ ~ exists L U, lu_of n (elt a n) L U).
Proof. exact (ge_final FT EQ n a). Qed.
Print Assumptions C35_inverse.
Example C35_ex_solve :
  (exists w, lis_array_solve 3 (map qz [2;4;6; 1;3;4; 1;2;4]) (map qz [4;9;14]) (map qz [0;0;0]) (map qz [0;0;0;0;0;0;0;0;0]) = Ok (map qz [1;1;1], w)) /\
  (exists w, lis_array_solve 2 (map qz [2;4;1;3]) (map qz [3;7]) (map qz [0;0]) (map qz [0;0;0;0]) = Ok (map qz [1;1], w)) /\
  lis_array_ge 2 (map qz [1;3;2;7]) = Ok (map qz [7;-3;-2;1]).
Proof.
  split; [|split].
  - eexists. qres.
  - eexists. qres.
  - qres.
Qed.
(** no pivoting: a non-singular matrix with a vanishing pivot is not inverted and its system not solved *)
Theorem C35_nonsingular_refuted : exists (n : Z) (a b : list Qc) (X : Z -> Z -> Qc) (z : Z -> Qc),
  n * n <= zlen a /\ n <= zlen b /\ is_inverse n (elt a n) X /\ solves n (elt a n) z (znth s0 b) /\
  lis_array_ge n a = Err Krylov.DIV_BY_ZERO /\ lis_array_solve n a b b a = Err Krylov.DIV_BY_ZERO.
Proof.
  exists 2, (map qz [0;1;1;0]), (map qz [5;6]), (elt (map qz [0;1;1;0]) 2), (znth s0 (map qz [6;5])).
  split; [vm_compute; discriminate|]. split; [vm_compute; discriminate|].
  assert (R2 : forall i, 0 <= i < 2 -> i = 0 \/ i = 1) by lia.
  split; [|split; [|split; vm_compute; reflexivity]].
  - split; intros i k Hi Hk; destruct (R2 i Hi) as [-> | ->], (R2 k Hk) as [-> | ->]; apply Qc_is_canon; vm_compute; reflexivity.
  - intros i Hi; destruct (R2 i Hi) as [-> | ->]; apply Qc_is_canon; vm_compute; reflexivity.
Qed.
Print Assumptions C35_nonsingular_refuted.

(** *** C48: elementwise helpers; elements from n on are untouched *)
Theorem C48_copy T (S : Scalar T) n (x y : list T) : 0 <= n -> n <= zlen x -> n <= zlen y ->
  wp (lis_array_copy n x y) (fun y' => zlen y' = zlen y /\ forall i, 0 <= i < zlen y -> znth s0 y' i = if i <? n then znth s0 x i else znth s0 y i).
Proof.
  intros. apply elem_ok with (f := fun i o => znth s0 x i); [lia|]. intros i v Hi Hv. rewrite ?(rd_ok s0) by lia. cbn [bind]. rewrite ?(rd_ok s0) by lia. cbn [bind]. apply wr_ok. lia.
Qed.
Print Assumptions C48_copy.
Theorem C48_axpy T (S : Scalar T) n alpha (x y : list T) : 0 <= n -> n <= zlen x -> n <= zlen y ->
  wp (lis_array_axpy n alpha x y) (fun y' => zlen y' = zlen y /\ forall i, 0 <= i < zlen y -> znth s0 y' i = if i <? n then sadd (smul alpha (znth s0 x i)) (znth s0 y i) else znth s0 y i).
Proof.
  intros. apply elem_ok with (f := fun i o => sadd (smul alpha (znth s0 x i)) o); [lia|]. intros i v Hi Hv. rewrite ?(rd_ok s0) by lia. cbn [bind]. rewrite ?(rd_ok s0) by lia. cbn [bind]. apply wr_ok. lia.
Qed.
Print Assumptions C48_axpy.
Theorem C48_xpay T (S : Scalar T) n alpha (x y : list T) : 0 <= n -> n <= zlen x -> n <= zlen y ->
  wp (lis_array_xpay n x alpha y) (fun y' => zlen y' = zlen y /\ forall i, 0 <= i < zlen y -> znth s0 y' i = if i <? n then sadd (znth s0 x i) (smul alpha (znth s0 y i)) else znth s0 y i).
Proof.
  intros. apply elem_ok with (f := fun i o => sadd (znth s0 x i) (smul alpha o)); [lia|]. intros i v Hi Hv. rewrite ?(rd_ok s0) by lia. cbn [bind]. rewrite ?(rd_ok s0) by lia. cbn [bind]. apply wr_ok. lia.
Qed.
Print Assumptions C48_xpay.
Theorem C48_axpyz T (S : Scalar T) n alpha (x y z : list T) : 0 <= n -> n <= zlen x -> n <= zlen y -> n <= zlen z ->
  wp (lis_array_axpyz n alpha x y z) (fun y' => zlen y' = zlen z /\ forall i, 0 <= i < zlen z -> znth s0 y' i = if i <? n then sadd (smul alpha (znth s0 x i)) (znth s0 y i) else znth s0 z i).
Proof.
  intros. apply elem_ok with (f := fun i o => sadd (smul alpha (znth s0 x i)) (znth s0 y i)); [lia|]. intros i v Hi Hv. rewrite ?(rd_ok s0) by lia. cbn [bind]. rewrite ?(rd_ok s0) by lia. cbn [bind]. apply wr_ok. lia.
Qed.
Print Assumptions C48_axpyz.
Theorem C48_scale T (S : Scalar T) n alpha (x : list T) : 0 <= n <= zlen x ->
  wp (lis_array_scale n alpha x) (fun y' => zlen y' = zlen x /\ forall i, 0 <= i < zlen x -> znth s0 y' i = if i <? n then smul alpha (znth s0 x i) else znth s0 x i).
Proof.
  intros. apply elem_ok with (f := fun i o => smul alpha o); [lia|]. intros i v Hi Hv. rewrite ?(rd_ok s0) by lia. cbn [bind]. rewrite ?(rd_ok s0) by lia. cbn [bind]. apply wr_ok. lia.
Qed.
Print Assumptions C48_scale.
Theorem C48_pmul T (S : Scalar T) n (x y z : list T) : 0 <= n -> n <= zlen x -> n <= zlen y -> n <= zlen z ->
  wp (lis_array_pmul n x y z) (fun y' => zlen y' = zlen z /\ forall i, 0 <= i < zlen z -> znth s0 y' i = if i <? n then smul (znth s0 x i) (znth s0 y i) else znth s0 z i).
Proof.
  intros. apply elem_ok with (f := fun i o => smul (znth s0 x i) (znth s0 y i)); [lia|]. intros i v Hi Hv. rewrite ?(rd_ok s0) by lia. cbn [bind]. rewrite ?(rd_ok s0) by lia. cbn [bind]. apply wr_ok. lia.
Qed.
Print Assumptions C48_pmul.
Theorem C48_set_all T (S : Scalar T) n alpha (x : list T) : 0 <= n <= zlen x ->
  wp (lis_array_set_all n alpha x) (fun y' => zlen y' = zlen x /\ forall i, 0 <= i < zlen x -> znth s0 y' i = if i <? n then alpha else znth s0 x i).
Proof.
  intros. apply elem_ok with (f := fun i o => alpha); [lia|]. intros i v Hi Hv. rewrite ?(rd_ok s0) by lia. cbn [bind]. rewrite ?(rd_ok s0) by lia. cbn [bind]. apply wr_ok. lia.
Qed.
Print Assumptions C48_set_all.
Theorem C48_abs T (S : Scalar T) n (x : list T) : 0 <= n <= zlen x ->
  wp (lis_array_abs n x) (fun y' => zlen y' = zlen x /\ forall i, 0 <= i < zlen x -> znth s0 y' i = if i <? n then sabs (znth s0 x i) else znth s0 x i).
Proof.
  intros. apply elem_ok with (f := fun i o => sabs o); [lia|]. intros i v Hi Hv. rewrite ?(rd_ok s0) by lia. cbn [bind]. rewrite ?(rd_ok s0) by lia. cbn [bind]. apply wr_ok. lia.
Qed.
Print Assumptions C48_abs.
Theorem C48_conjugate T (S : Scalar T) n (x : list T) : 0 <= n <= zlen x ->
  wp (lis_array_conjugate n x) (fun y' => zlen y' = zlen x /\ forall i, 0 <= i < zlen x -> znth s0 y' i = if i <? n then sconj (znth s0 x i) else znth s0 x i).
Proof.
  intros. apply elem_ok with (f := fun i o => sconj o); [lia|]. intros i v Hi Hv. rewrite ?(rd_ok s0) by lia. cbn [bind]. rewrite ?(rd_ok s0) by lia. cbn [bind]. apply wr_ok. lia.
Qed.
Print Assumptions C48_conjugate.
Theorem C48_shift T (S : Scalar T) n sigma (x : list T) : 0 <= n <= zlen x ->
  wp (lis_array_shift n sigma x) (fun y' => zlen y' = zlen x /\ forall i, 0 <= i < zlen x -> znth s0 y' i = if i <? n then ssub (znth s0 x i) sigma else znth s0 x i).
Proof.
  intros. apply elem_ok with (f := fun i o => ssub o sigma); [lia|]. intros i v Hi Hv. rewrite ?(rd_ok s0) by lia. cbn [bind]. rewrite ?(rd_ok s0) by lia. cbn [bind]. apply wr_ok. lia.
Qed.
Print Assumptions C48_shift.
Theorem C48_pdiv T (S : Scalar T) (EQ : eqb_ok S) n (x y z : list T) : 0 <= n -> n <= zlen x -> n <= zlen y -> n <= zlen z ->
  (forall i, 0 <= i < n -> znth s0 y i <> s0) ->
  wp (lis_array_pdiv n x y z) (fun z' => zlen z' = zlen z /\ forall i, 0 <= i < zlen z -> znth s0 z' i = if i <? n then sdiv (znth s0 x i) (znth s0 y i) else znth s0 z i).
Proof.
  intros Hn Hx Hy Hz NZ. apply elem_ok with (f := fun i o => sdiv (znth s0 x i) (znth s0 y i)); [lia|]. intros i v Hi Hv. rewrite ?(rd_ok s0) by lia. cbn [bind]. rewrite ?(rd_ok s0) by lia. cbn [bind].
  unfold Krylov.divz. destruct (seqb _ s0) eqn:E; [apply EQ in E; destruct (NZ i Hi E)|]. cbn [bind]. apply wr_ok. lia.
Qed.
Print Assumptions C48_pdiv.
(** x[i] is replaced by 1/x[i] *)
Theorem C48_reciprocal T (S : Scalar T) (EQ : eqb_ok S) n (x : list T) : 0 <= n <= zlen x -> (forall i, 0 <= i < n -> znth s0 x i <> s0) ->
  wp (lis_array_reciprocal n x) (fun x' => zlen x' = zlen x /\ forall i, 0 <= i < zlen x -> znth s0 x' i = if i <? n then sdiv s1 (znth s0 x i) else znth s0 x i).
Proof.
  intros Hn NZ. unfold lis_array_reciprocal.
  apply (for_wp' (fun m y' => zlen y' = zlen x /\ forall i, 0 <= i < zlen x -> znth s0 y' i = if i <? m then sdiv s1 (znth s0 x i) else znth s0 x i)); [lia| | |auto].
  - split; [reflexivity|]. intros i Hi. destruct (Z.ltb_spec i 0); [lia|reflexivity].
  - intros m y' Hm (A & B). rewrite (rd_ok s0) by lia. cbn [bind]. pose proof (B m ltac:(lia)) as Bm. rewrite Z.ltb_irrefl in Bm. rewrite Bm.
    unfold Krylov.divz. destruct (seqb _ s0) eqn:E; [apply EQ in E; destruct (NZ m Hm E)|]. cbn [bind]. rewrite wr_ok by lia. cbn [wp]. rewrite zlen_zupd. split; [exact A|].
    intros i Hi. rewrite znth_zupd by lia. destruct (Z.eqb_spec i m) as [->|].
    + destruct (Z.ltb_spec m (m + 1)); [reflexivity|lia].
    + rewrite B by lia. destruct (Z.ltb_spec i m), (Z.ltb_spec i (m + 1)); try lia; reflexivity.
Qed.
Print Assumptions C48_reciprocal.
Theorem C48_swap T (S : Scalar T) n (x y : list T) : 0 <= n -> n <= zlen x -> n <= zlen y ->
  wp (lis_array_swap n x y) (fun r => let '(x', y') := r in zlen x' = zlen x /\ zlen y' = zlen y /\
    (forall i, 0 <= i < zlen x -> znth s0 x' i = if i <? n then znth s0 y i else znth s0 x i) /\
    (forall i, 0 <= i < zlen y -> znth s0 y' i = if i <? n then znth s0 x i else znth s0 y i)).
Proof.
  intros Hn Hx Hy. unfold lis_array_swap.
  apply (for_wp' (fun m (r : list T * list T) => let '(x', y') := r in zlen x' = zlen x /\ zlen y' = zlen y /\
    (forall i, 0 <= i < zlen x -> znth s0 x' i = if i <? m then znth s0 y i else znth s0 x i) /\
    (forall i, 0 <= i < zlen y -> znth s0 y' i = if i <? m then znth s0 x i else znth s0 y i))); [lia| | |auto].
  - split; [reflexivity|]. split; [reflexivity|]. split; intros i Hi; destruct (Z.ltb_spec i 0); try lia; reflexivity.
  - intros m [x' y'] Hm (A & B & C & D). rewrite !(rd_ok s0) by lia. cbn [bind]. rewrite ?(rd_ok s0) by lia. cbn [bind]. rewrite wr_ok by lia. cbn [bind]. rewrite wr_ok by lia. cbn [bind wp].
    rewrite !zlen_zupd. split; [exact A|]. split; [exact B|]. pose proof (C m ltac:(lia)) as Cm. pose proof (D m ltac:(lia)) as Dm. rewrite Z.ltb_irrefl in Cm, Dm. rewrite Cm, Dm.
    split; intros i Hi; rewrite znth_zupd by lia; (destruct (Z.eqb_spec i m) as [->|]; [destruct (Z.ltb_spec m (m + 1)); [reflexivity|lia]|]);
      rewrite ?C, ?D by lia; destruct (Z.ltb_spec i m), (Z.ltb_spec i (m + 1)); try lia; reflexivity.
Qed.
Print Assumptions C48_swap.
(** sums *)
Theorem C48_reductions T (S : Scalar T) (RT : is_ring S) n (x y : list T) : 0 <= n -> n <= zlen x -> n <= zlen y ->
  lis_array_dot n x y = Ok (dot_of n (znth s0 x) (znth s0 y)) /\ lis_array_nhdot n x y = Ok (inner n (znth s0 x) (znth s0 y)) /\
  lis_array_nrm1 n x = Ok (sum_to n (fun i => sabs (znth s0 x i))) /\ lis_array_nrm2 n x = Ok (norm_of n (znth s0 x)) /\
  lis_array_sum n x = Ok (sum_to n (znth s0 x)).
Proof.
  intros Hn Hx Hy. split; [|split; [|split; [|split]]].
  - apply (fold_ok n _ _ RT Hn). intros i t Hi. rewrite !(rd_ok s0) by lia. reflexivity.
  - apply (fold_ok n _ _ RT Hn). intros i t Hi. rewrite !(rd_ok s0) by lia. reflexivity.
  - apply (fold_ok n _ _ RT Hn). intros i t Hi. rewrite !(rd_ok s0) by lia. reflexivity.
  - unfold lis_array_nrm2. rewrite (fold_ok n _ (fun i => smul (sconj (znth s0 x i)) (znth s0 x i)) RT Hn); [reflexivity|]. intros i t Hi. rewrite !(rd_ok s0) by lia. reflexivity.
  - apply (fold_ok n _ _ RT Hn). intros i t Hi. rewrite !(rd_ok s0) by lia. reflexivity.
Qed.
Print Assumptions C48_reductions.
(** the maximum norm *)
Theorem C48_nrmi T (S : Scalar T) (TO : total_order (T:=T)) n (x : list T) : 0 <= n <= zlen x ->
  wp (lis_array_nrmi n x) (fun t => (forall i, 0 <= i < n -> sleb (sabs (znth s0 x i)) t = true) /\ sleb s0 t = true /\
     (t = s0 \/ exists i, 0 <= i < n /\ t = sabs (znth s0 x i))).
Proof.
  intros Hn. destruct TO as (TO & TR). assert (RF : forall a : T, sleb a a = true) by (intros a; destruct (TO a a); auto). unfold lis_array_nrmi.
  apply (for_wp' (fun m t => (forall i, 0 <= i < m -> sleb (sabs (znth s0 x i)) t = true) /\ sleb s0 t = true /\ (t = s0 \/ exists i, 0 <= i < m /\ t = sabs (znth s0 x i)))); [lia| | |auto].
  - split; [intros; lia|]. split; [apply RF|left; reflexivity].
  - intros m t Hm (A & B & C). rewrite (rd_ok s0) by lia. cbn [bind wp]. destruct (sleb (sabs (znth s0 x m)) t) eqn:E.
    + split; [|split; [exact B|destruct C as [C|(i & Hi & C)]; [left; exact C|right; exists i; split; [lia|exact C]]]].
      intros i Hi. destruct (Z.eq_dec i m) as [->|]; [exact E|apply A; lia].
    + assert (LT : sleb t (sabs (znth s0 x m)) = true) by (destruct (TO t (sabs (znth s0 x m))); congruence).
      split; [|split; [eapply TR; eauto|right; exists m; split; [lia|reflexivity]]].
      intros i Hi. destruct (Z.eq_dec i m) as [->|]; [apply RF|]. eapply TR; [apply A; lia|exact LT].
Qed.
Print Assumptions C48_nrmi.
Example C48_ex_elementwise :
  lis_array_swap (T:=Z) 2 [1;2;3] [4;5;6] = Ok ([4;5;3], [1;2;6]) /\ lis_array_axpy (T:=Z) 2 10 [1;2] [3;4] = Ok [13;24] /\
  lis_array_xpay (T:=Z) 2 [1;2] 10 [3;4] = Ok [31;42] /\ lis_array_axpyz (T:=Z) 1 10 [1;2] [3;4] [0;9] = Ok [13;9] /\
  lis_array_dot (T:=G) 2 [(0,1);(2,0)] [(1,0);(0,1)] = Ok (0,1) /\ lis_array_nhdot (T:=G) 2 [(0,1);(2,0)] [(1,0);(0,1)] = Ok (0,3) /\
  lis_array_nrmi (T:=Z) 3 [1;-7;3] = Ok 7 /\ lis_array_nrm1 (T:=Z) 3 [1;-7;3] = Ok 11 /\ lis_array_sum (T:=Z) 3 [1;-7;3] = Ok (-3).
Proof. repeat split; vm_compute; reflexivity. Qed.

(** *** C48: Gram-Schmidt.  tol > 0 stands for 1e-12. *)
(** classical: A = Q R, R upper triangular; or the column m whose remainder is shorter than tol ends the loop,
    and only the columns before it are factored *)
Theorem C48_cgs_partial T (S : Scalar T) (FT : is_field S) (EQ : eqb_ok S) tol (Htol : below s0 tol) n a q r junk :
  0 <= n -> n * n <= zlen a -> n * n <= zlen q -> n * n <= zlen r ->
  exists q' r', lis_array_cgs tol n a q r junk = Ok (q', r') /\
   let A := elt a n in let Q := elt q' n in let R := elt r' n in
   upper_triangular n R /\
   (is_product n A Q R /\ (forall c, 0 <= c < n -> ~ below (R c c) tol) \/
    exists m, 0 <= m < n /\ (forall i c, 0 <= i < n -> 0 <= c < m -> A i c = sum_to n (fun j => smul (Q i j) (R j c))) /\
      below (norm_of n (fun i => ssub (A i m) (sum_to m (fun j => smul (Q i j) (R j m))))) tol /\
      (forall i j, 0 <= i < n -> m <= j < n -> Q i j = s0) /\ (forall i j, 0 <= i < n -> m < j < n -> R i j = s0)).
Proof. exact (cgs_final FT EQ tol Htol n a q r junk). Qed.
Print Assumptions C48_cgs_partial.
(** modified: column c of Q R is column c of A, up to a remainder of length R_cc < tol *)
Theorem C48_mgs T (S : Scalar T) (FT : is_field S) (EQ : eqb_ok S) tol (Htol : below s0 tol) n a q r junk :
  0 <= n -> n * n <= zlen a -> n * n <= zlen q -> n * n <= zlen r ->
  exists a' q' r', lis_array_mgs tol n a q r junk = Ok (a', q', r') /\
   let A := elt a n in let Q := elt q' n in let R := elt r' n in
   upper_triangular n R /\
   (forall c, 0 <= c < n -> ~ below (R c c) tol -> forall i, 0 <= i < n -> A i c = sum_to n (fun j => smul (Q i j) (R j c))) /\
   (forall c, 0 <= c < n -> below (R c c) tol -> (forall i, 0 <= i < n -> Q i c = s0) /\
      R c c = norm_of n (fun i => ssub (A i c) (sum_to n (fun j => smul (Q i j) (R j c))))).
Proof. exact (mgs_final FT EQ tol Htol n a q r junk). Qed.
Print Assumptions C48_mgs.
(** real scalars: the columns of Q are orthonormal *)
Theorem C48_cgs_orthonormal (tol : R) n a q r junk : (0 < tol)%R -> 0 <= n -> n * n <= zlen a -> n * n <= zlen q -> n * n <= zlen r ->
  exists q' r', lis_array_cgs tol n a q r junk = Ok (q', r') /\
   (is_product n (elt a n) (elt q' n) (elt r' n) /\ (forall j c, 0 <= j < n -> 0 <= c < n -> dot_of n (fun i => elt q' n i j) (fun i => elt q' n i c) = delta j c) \/
    exists m, 0 <= m < n /\ (forall i c, 0 <= i < n -> m <= c < n -> elt q' n i c = 0%R) /\
      (forall j c, 0 <= j < m -> 0 <= c < m -> dot_of n (fun i => elt q' n i j) (fun i => elt q' n i c) = delta j c)).
Proof. exact (cgs_real tol n a q r junk). Qed.
Print Assumptions C48_cgs_orthonormal.
Theorem C48_mgs_orthonormal (tol : R) n a q r junk : (0 < tol)%R -> 0 <= n -> n * n <= zlen a -> n * n <= zlen q -> n * n <= zlen r ->
  exists a' q' r', lis_array_mgs tol n a q r junk = Ok (a', q', r') /\
   forall j c, 0 <= j < n -> 0 <= c < n ->
     dot_of n (fun i => elt q' n i j) (fun i => elt q' n i c) = if j =? c then (if Rlt_dec (elt r' n c c) tol then 0 else 1)%R else 0%R.
Proof. exact (mgs_real tol n a q r junk). Qed.
Print Assumptions C48_mgs_orthonormal.
Example C48_ex_gram_schmidt :
  lis_array_cgs (qf 1 1000) 2 (map qz [3;4;0;5]) (map qz [9;9;9;9]) (map qz [9;9;9;9]) (fun _ => qz 9) = Ok ([qf 3 5; qf 4 5; qf (-4) 5; qf 3 5], map qz [5;0;4;3]) /\
  (exists a', lis_array_mgs (qf 1 1000) 2 (map qz [3;4;0;5]) (map qz [9;9;9;9]) (map qz [9;9;9;9]) (fun _ => qz 9) = Ok (a', [qf 3 5; qf 4 5; qf (-4) 5; qf 3 5], map qz [5;0;4;3])) /\
  below s0 (qf 1 1000).
Proof.
  split; [|split].
  - qres.
  - eexists. qres.
  - vm_compute. reflexivity.
Qed.
(** a matrix whose second column depends on the first: the third column is not factored, although it is independent *)
Theorem C48_cgs_rank_deficient_refuted : exists (tol : Qc) n a q r, below s0 tol /\ n * n <= zlen a /\
  lis_array_cgs tol n a a a (fun _ => s0) = Ok (q, r) /\
  (exists i, 0 <= i < n /\ elt a n i 2 <> sum_to n (fun j => smul (elt q n i j) (elt r n j 2))) /\
  (exists a' q' r', lis_array_mgs tol n a a a (fun _ => s0) = Ok (a', q', r') /\ is_product n (elt a n) (elt q' n) (elt r' n)).
Proof.
  exists (qf 1 1000), 3, (map qz [1;0;0; 1;0;0; 0;1;0]). do 2 eexists.
  split; [vm_compute; reflexivity|]. split; [vm_compute; discriminate|]. split; [vm_compute; reflexivity|]. split.
  - exists 1. split; [lia|]. intros E. apply (f_equal (fun x : Qc => Qnum x)) in E. vm_compute in E. discriminate.
  - do 3 eexists. split; [vm_compute; reflexivity|]. assert (R3 : forall i, 0 <= i < 3 -> i = 0 \/ i = 1 \/ i = 2) by lia.
    intros i c Hi Hc. destruct (R3 i Hi) as [-> | [-> | ->]], (R3 c Hc) as [-> | [-> | ->]]; apply Qc_is_canon; vm_compute; reflexivity.
Qed.
Print Assumptions C48_cgs_rank_deficient_refuted.
(** complex scalars: the inner product lacks the conjugate, so the columns of Q are not orthogonal, in both variants *)
Theorem C48_complex_refuted : exists (tol : CQ) n a q r a' q' r', below s0 tol /\
  lis_array_cgs tol n a a a (fun _ => s0) = Ok (q, r) /\ lis_array_mgs tol n a a a (fun _ => s0) = Ok (a', q', r') /\
  is_product n (elt a n) (elt q n) (elt r n) /\
  dot_of n (fun i => elt q n i 0) (fun i => elt q n i 1) <> s0 /\ dot_of n (fun i => elt q' n i 0) (fun i => elt q' n i 1) <> s0.
Proof.
  exists (qf 1 1000, 0%Qc), 2, [(qz 3, qz 0); (qz 0, qz 4); (qz 123, qz 48); (qz 64, qz 36)]. do 5 eexists.
  split; [vm_compute; reflexivity|]. split; [vm_compute; reflexivity|]. split; [vm_compute; reflexivity|]. split; [|split].
  - assert (R2 : forall i, 0 <= i < 2 -> i = 0 \/ i = 1) by lia.
    intros i k Hi Hk; destruct (R2 i Hi) as [-> | ->], (R2 k Hk) as [-> | ->]; vm_compute; f_equal; apply Qc_is_canon; reflexivity.
  - intros E. apply (f_equal (fun x : CQ => Qnum (fst x))) in E. vm_compute in E. discriminate.
  - intros E. apply (f_equal (fun x : CQ => Qnum (fst x))) in E. vm_compute in E. discriminate.
Qed.
Print Assumptions C48_complex_refuted.
(** the QR iteration: it stops when |a[1]| < tol or after maxit steps, and reports that number *)
Theorem C48_qr_report_partial T (S : Scalar T) tol maxit n a q r junk a' q' r' it err :
  lis_array_qr tol maxit n a q r junk = Ok (a', q', r', it, err) -> (0 < maxit)%nat ->
  1 <= it <= Z.of_nat maxit /\ err = sabs (znth s0 a' 1) /\ (below err tol \/ it = Z.of_nat maxit).
Proof.
  assert (G : forall fuel iter a q r e, qr_loop tol fuel n junk iter a q r e = Ok (a', q', r', it, err) ->
    (fuel = O /\ it = iter /\ err = e /\ a = a') \/ iter + 1 <= it <= iter + Z.of_nat fuel /\ err = sabs (znth s0 a' 1) /\ (below err tol \/ it = iter + Z.of_nat fuel)).
  { induction fuel as [|f IH]; intros iter a0 q0 r0 e H; cbn [qr_loop] in H.
    - left. inversion H. auto.
    - right. destruct (lis_array_cgs tol n a0 q0 r0 junk) as [[q1 r1]| |]; cbn [bind] in H; try discriminate.
      match type of H with bind ?m _ = _ => destruct m as [a1| |]; cbn [bind] in H; try discriminate end.
      unfold rd in H. destruct (nth_error a1 (Z.to_nat 1)) as [v|] eqn:E1; [|cbn in H; discriminate].
      assert (EV : v = znth s0 a1 1) by (unfold znth; cbn; symmetry; apply nth_error_nth; exact E1).
      cbn [bind Z.ltb Z.compare Z.leb negb] in H.
      match type of H with context [if sltb ?x tol then _ else _] => destruct (sltb x tol) eqn:ES end.
      + inversion H; subst. split; [lia|]. split; [reflexivity|]. left. unfold below. unfold sltb in ES. destruct (sleb tol _); [discriminate|reflexivity].
      + apply IH in H. destruct H as [(-> & -> & -> & <-)|(H1 & H2 & H3)].
        * split; [lia|]. split; [congruence|right; lia].
        * split; [lia|]. split; [exact H2|]. destruct H3; [left; assumption|right; lia]. }
  intros H Hm. apply G in H. destruct H as [(H & _)|(H1 & H2 & H3)]; [lia|]. auto.
Qed.
Print Assumptions C48_qr_report_partial.
Example C48_ex_qr : exists a q r, lis_array_qr (qf 1 1000) 3 2 (map qz [2;0;0;1]) (map qz [0;0;0;0]) (map qz [0;0;0;0]) (fun _ => s0) = Ok (a, q, r, 1, qz 0).
Proof. do 3 eexists. qres. Qed.
(** a 3x3 matrix on which the iteration stops at once with reported error 0 although the result is not triangular *)
Theorem C48_qr_converged_refuted : exists (tol : Qc) a q r a' q' r', below s0 tol /\
  lis_array_qr tol 100 3 a q r (fun _ => s0) = Ok (a', q', r', 1, s0) /\ ~ upper_triangular 3 (elt a' 3) /\ elt a' 3 2 1 = s1.
Proof.
  exists (qf 1 1000), (map qz [2;0;0; 0;0;1; 0;1;0]), (map qz [0;0;0;0;0;0;0;0;0]), (map qz [0;0;0;0;0;0;0;0;0]). do 3 eexists.
  split; [vm_compute; reflexivity|]. split; [qres|]. split.
  - intros H. specialize (H 2 1 ltac:(lia) ltac:(lia) ltac:(lia)). apply (f_equal (fun x : Qc => Qnum x)) in H. vm_compute in H. discriminate.
  - apply Qc_is_canon. vm_compute. reflexivity.
Qed.
Print Assumptions C48_qr_converged_refuted.
(** n = 1: it reads the element a[1] outside the 1x1 array *)
Theorem C48_qr_order1_refuted : exists (tol : Qc) a q r, below s0 tol /\ zlen a = 1 * 1 /\ lis_array_qr tol 100 1 a q r (fun _ => s0) = UB.
Proof. exists (qf 1 1000), [qz 2], [qz 0], [qz 0]. split; [vm_compute; reflexivity|]. split; [reflexivity|]. vm_compute. reflexivity. Qed.
Print Assumptions C48_qr_order1_refuted.
