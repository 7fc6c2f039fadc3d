(** C02, C03: the sorting routines.  [sorts lt d is ie k k' row row'] and
    [jad_sorted] are the specifications, defined in SortProof.v / SortJadProof.v:
    records permuted as a whole inside [is..ie], nothing else touched, keys ordered. *)
Require Import ZArith List Bool Lia Permutation.
From Verif Require Import Base Scalar Sort SortProof SortJadProof ConvFinal.
Import ListNotations.
Open Scope Z_scope.

Theorem C02_sort_i : forall is ie k, 0 <= is -> ie < zlen k ->
  exists k', lis_sort_i is ie k = Ok k' /\ sorts Z.ltb 0 is ie k k' (fun _ => tt) (fun _ => tt).
Proof. exact lis_sort_i_final. Qed.
Print Assumptions C02_sort_i.

Theorem C02_sort_id : forall (D : Type) (d : D) is ie k p, 0 <= is -> ie < zlen k -> zlen p = zlen k ->
  exists k' p', lis_sort_id is ie k p = Ok (k', p') /\ sorts Z.ltb 0 is ie k k' (znth d p) (znth d p').
Proof. exact @lis_sort_id_final. Qed.
Print Assumptions C02_sort_id.

Theorem C02_sort_ii : forall is ie k p, 0 <= is -> ie < zlen k -> zlen p = zlen k ->
  exists k' p', lis_sort_ii is ie k p = Ok (k', p') /\ sorts Z.ltb 0 is ie k k' (znth 0 p) (znth 0 p').
Proof. exact lis_sort_ii_final. Qed.
Print Assumptions C02_sort_ii.

Theorem C02_sortr_ii : forall is ie k p, 0 <= is -> ie < zlen k -> zlen p = zlen k ->
  exists k' p', lis_sortr_ii is ie k p = Ok (k', p') /\ sorts Z.gtb 0 is ie k k' (znth 0 p) (znth 0 p').
Proof. exact lis_sortr_ii_final. Qed.
Print Assumptions C02_sortr_ii.

Theorem C02_sort_iid : forall (D : Type) (d : D) is ie i1 i2 d1,
  0 <= is -> ie < zlen i1 -> zlen i2 = zlen i1 -> zlen d1 = zlen i1 ->
  exists i1' i2' d1', lis_sort_iid is ie i1 i2 d1 = Ok (i1', (i2', d1')) /\
    sorts Z.ltb 0 is ie i1 i1' (fun i => (znth 0 i2 i, znth d d1 i)) (fun i => (znth 0 i2' i, znth d d1' i)).
Proof. exact @lis_sort_iid_final. Qed.
Print Assumptions C02_sort_iid.

Theorem C02_sort_iiid : forall (D : Type) (d : D) is ie i1 i2 i3 d1,
  0 <= is -> ie < zlen i1 -> zlen i2 = zlen i1 -> zlen i3 = zlen i1 -> zlen d1 = zlen i1 ->
  exists i1' i2' i3' d1', lis_sort_iiid is ie i1 i2 i3 d1 = Ok (i1', (i2', i3', d1')) /\
    sorts Z.ltb 0 is ie i1 i1' (fun i => (znth 0 i2 i, znth 0 i3 i, znth d d1 i))
                               (fun i => (znth 0 i2' i, znth 0 i3' i, znth d d1' i)).
Proof. exact @lis_sort_iiid_final. Qed.
Print Assumptions C02_sort_iiid.

(** keys compared by any strict weak order (real parts, or reals without NaN) *)
Theorem C02_sort_d : forall (K : Type) (lt : K -> K -> bool) dk is ie k,
  strict_weak_order lt -> 0 <= is -> ie < zlen k ->
  exists k', lis_sort_d lt is ie k = Ok k' /\ sorts lt dk is ie k k' (fun _ => tt) (fun _ => tt).
Proof. exact @lis_sort_d_final. Qed.
Print Assumptions C02_sort_d.

Theorem C02_sort_di : forall (K : Type) (lt : K -> K -> bool) dk is ie k p,
  strict_weak_order lt -> 0 <= is -> ie < zlen k -> zlen p = zlen k ->
  exists k' p', lis_sort_di lt is ie k p = Ok (k', p') /\ sorts lt dk is ie k k' (znth 0 p) (znth 0 p').
Proof. exact @lis_sort_di_final. Qed.
Print Assumptions C02_sort_di.

Theorem C02_sort_dd : forall (K D : Type) (d : D) (lt : K -> K -> bool) dk is ie k p,
  strict_weak_order lt -> 0 <= is -> ie < zlen k -> zlen p = zlen k ->
  exists k' p', lis_sort_dd lt is ie k p = Ok (k', p') /\ sorts lt dk is ie k k' (znth d p) (znth d p').
Proof. exact @lis_sort_dd_final. Qed.
Print Assumptions C02_sort_dd.

(** Blocks of at most 9 scalars are moved correctly ... *)
Theorem C02_sort_id_block : forall (D : Type) (d : D) js1 bs is ie k d1,
  0 <= bs <= 9 -> 0 <= is -> ie < zlen k -> zlen d1 = bs * zlen k ->
  exists k' d1', lis_sort_id_block js1 is ie k d1 bs = Ok (k', d1') /\ zlen d1' = bs * zlen k /\
     sorts Z.ltb 0 is ie k k' (blk d bs d1) (blk d bs d1').
Proof. exact @lis_sort_id_block_final. Qed.
Print Assumptions C02_sort_id_block.

(** ... and every larger block size overruns the local buffer s1[9]. *)
Theorem C02_sort_id_block_refuted : forall (D : Type) (d : D) js1 bs is ie k (d1 : list D),
  9 < bs -> 0 <= is < ie -> ie < zlen k -> zlen d1 = bs * zlen k ->
  lis_sort_id_block js1 is ie k d1 bs = UB.
Proof. exact @lis_sort_id_block_overflow. Qed.
Print Assumptions C02_sort_id_block_refuted.

Example C02_ex1 : lis_sort_iid 1 4 [9;3;1;3;0;5] [0;1;2;3;4;5] [10;11;12;13;14;15]
   = Ok ([9;0;1;3;3;5], ([0;4;2;3;1;5], [10;14;12;13;11;15])).
Proof. vm_compute. reflexivity. Qed.
Example C02_ex2 : lis_sortr_ii 0 4 [2;0;3;3;1] [0;1;2;3;4] = Ok ([3;3;2;1;0], [2;3;0;4;1]).
Proof. vm_compute. reflexivity. Qed.
Example C02_ex3 : strict_weak_order Z.ltb.
Proof. split; [exact zltb_irrefl|split; [exact zltb_asym|exact zltb_le_trans]]. Qed.
Example C02_ex4 : lis_sort_id_block (fun _ => 0) 0 2 [5;4;3] [50;51;40;41;30;31] 2 = Ok ([3;4;5], [30;31;40;41;50;51]).
Proof. vm_compute. reflexivity. Qed.

Theorem C03_sort_jad : forall j1 j2 is ie maxnzr i1 i2,
  0 <= is <= ie -> ie <= zlen i1 -> ie <= zlen i2 -> 0 <= maxnzr ->
  (forall k, is <= k < ie -> 0 <= znth 0 i1 k <= maxnzr) ->
  exists i1' i2', lis_sort_jad j1 j2 is ie maxnzr i1 i2 = Ok (i1', i2') /\ jad_sorted is ie i1 i1' i2 i2'.
Proof. exact lis_sort_jad_final. Qed.
Print Assumptions C03_sort_jad.

Example C03_ex : lis_sort_jad (fun _ => 77) (fun _ => 88) 0 5 3 [2;0;3;3;1] [0;0;0;0;0] = Ok ([3;3;2;1;0], [2;3;0;4;1]).
Proof. vm_compute. reflexivity. Qed.
