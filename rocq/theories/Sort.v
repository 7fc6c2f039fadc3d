(** Model of src/system/lis_sort.c *)
Require Import ZArith List Bool.
From Verif Require Import Base Scalar.
Import ListNotations.
Open Scope Z_scope.

(** The quicksort shared by lis_sort_i/_id/_id_block/_ii/_iid/_iiid/_di/_d/_dd and
    lis_sortr_ii, lis_sort.c:63-276, 431-548: the nine C functions have literally the
    same text, they differ in the order ([lt a b] is the "<" of the scan loops, the
    other scan uses the mirrored ">") and in the arrays swapped along with the keys
    ([swp p q] swaps the payload arrays at p and q).
    C integer division (is+ie)/2 is Z.quot; integer overflow is not modelled. *)
Section Quick.
Context {K P : Type} (lt : K -> K -> bool) (swp : Z -> Z -> P -> res P).

(** while(i1[i] < v) { i++; } *)
Definition scan_up (fuel : nat) (keys : list K) (v : K) (i : Z) : res Z :=
  while_ fuel (fun i => x <- rd keys i ;; Ok (lt x v)) (fun i => Ok (i + 1)) i.
(** while(i1[j] > v) { j--; } *)
Definition scan_down (fuel : nat) (keys : list K) (v : K) (j : Z) : res Z :=
  while_ fuel (fun j => x <- rd keys j ;; Ok (lt v x)) (fun j => Ok (j - 1)) j.

Fixpoint qsort (fuel : nat) (is ie : Z) (keys : list K) (pay : P) : res (list K * P) :=
  match fuel with
  | O => Err OUT_OF_FUEL
  | S fuel' =>
    if ie <=? is then Ok (keys, pay) else
    let p := Z.quot (is + ie) 2 in
    v <- rd keys p ;;
    keys <- swap keys p ie ;;
    pay <- swp p ie pay ;;
    let len := Z.to_nat (ie - is + 3) in
    ' (i, j, keys, pay) <- while_ len
        (fun s => let '(i, j, keys, pay) := s in Ok (i <=? j))
        (fun s => let '(i, j, keys, pay) := s in
          i <- scan_up len keys v i ;;
          j <- scan_down len keys v j ;;
          if i <=? j then
            (keys <- swap keys i j ;;
             pay <- swp i j pay ;;
             Ok (i + 1, j - 1, keys, pay))
          else Ok (i, j, keys, pay))
        (is, ie, keys, pay) ;;
    ' (keys, pay) <- qsort fuel' is j keys pay ;;
    qsort fuel' i ie keys pay
  end.

(** enough fuel for the recursion *)
Definition quick (is ie : Z) (keys : list K) (pay : P) : res (list K * P) :=
  qsort (Z.to_nat (Z.max 0 (ie - is) + 2)) is ie keys pay.
End Quick.

(** lis_sort_i, lis_sort.c:63-88 *)
Definition lis_sort_i (is ie : Z) (i1 : list Z) : res (list Z) :=
  ' (i1, _) <- quick Z.ltb (fun _ _ u => Ok u) is ie i1 tt ;; Ok i1.

(** lis_sort_id, lis_sort.c:90-118 *)
Definition lis_sort_id {D} (is ie : Z) (i1 : list Z) (d1 : list D) : res (list Z * list D) :=
  quick Z.ltb (fun p q d1 => swap d1 p q) is ie i1 d1.

(** memcpy of bs elements of an array: reads &src[so], result written at &dst[do] *)
Definition copy_block {D} (bs : Z) (src : list D) (so : Z) (dst : list D) (dO : Z) : res (list D) :=
  for_ 0 bs (fun k dst => x <- rd src (so + k) ;; wr dst (dO + k) x) dst.

(** lis_sort_id_block, lis_sort.c:120-152: the payload is swapped in blocks of bs
    through the local buffer s1[9] ([js1]: its arbitrary initial contents). *)
Definition swap_block {D} (js1 : Z -> D) (bs p q : Z) (d1 : list D) : res (list D) :=
  s1 <- copy_block bs d1 (bs * p) (alloc 9 js1) 0 ;;
  d1 <- copy_block bs d1 (bs * q) d1 (bs * p) ;;
  copy_block bs s1 0 d1 (bs * q).
Definition lis_sort_id_block {D} (js1 : Z -> D) (is ie : Z) (i1 : list Z) (d1 : list D) (bs : Z) : res (list Z * list D) :=
  quick Z.ltb (fun p q d1 => swap_block js1 bs p q d1) is ie i1 d1.

(** lis_sort_ii, lis_sort.c:154-181 *)
Definition lis_sort_ii (is ie : Z) (i1 i2 : list Z) : res (list Z * list Z) :=
  quick Z.ltb (fun p q i2 => swap i2 p q) is ie i1 i2.

(** lis_sort_iid, lis_sort.c:183-213 *)
Definition lis_sort_iid {D} (is ie : Z) (i1 i2 : list Z) (d1 : list D) : res (list Z * (list Z * list D)) :=
  quick Z.ltb (fun p q s => let '(i2, d1) := s in
     i2 <- swap i2 p q ;; d1 <- swap d1 p q ;; Ok (i2, d1)) is ie i1 (i2, d1).

(** lis_sort_iiid, lis_sort.c:215-247 *)
Definition lis_sort_iiid {D} (is ie : Z) (i1 i2 i3 : list Z) (d1 : list D) : res (list Z * (list Z * list Z * list D)) :=
  quick Z.ltb (fun p q s => let '(i2, i3, d1) := s in
     i2 <- swap i2 p q ;; i3 <- swap i3 p q ;; d1 <- swap d1 p q ;; Ok (i2, i3, d1)) is ie i1 (i2, i3, d1).

(** lis_sortr_ii, lis_sort.c:249-276: the comparisons are reversed *)
Definition lis_sortr_ii (is ie : Z) (i1 i2 : list Z) : res (list Z * list Z) :=
  quick Z.gtb (fun p q i2 => swap i2 p q) is ie i1 i2.

(** lis_sort_d / lis_sort_di / lis_sort_dd, lis_sort.c:431-548: keys are scalars
    compared with [lt] (double "<", or "<" of the real parts for complex);
    in _dd the payload is an array of vector handles. *)
Definition lis_sort_d {D} (lt : D -> D -> bool) (is ie : Z) (d1 : list D) : res (list D) :=
  ' (d1, _) <- quick lt (fun _ _ u => Ok u) is ie d1 tt ;; Ok d1.
Definition lis_sort_di {D} (lt : D -> D -> bool) (is ie : Z) (d1 : list D) (i1 : list Z) : res (list D * list Z) :=
  quick lt (fun p q i1 => swap i1 p q) is ie d1 i1.
Definition lis_sort_dd {D H} (lt : D -> D -> bool) (is ie : Z) (d1 : list D) (d2 : list H) : res (list D * list H) :=
  quick lt (fun p q d2 => swap d2 p q) is ie d1 d2.

(** lis_sort_jad, lis_sort.c:378-429.  [j1], [j2]: contents of the fresh arrays. *)
Definition lis_sort_jad (j1 j2 : Z -> Z) (is ie maxnzr : Z) (i1 i2 : list Z) : res (list Z * list Z) :=
  let iw := alloc (maxnzr + 2) j1 in
  let iw2 := alloc (maxnzr + 2) j2 in
  iw <- for_ 0 (maxnzr + 2) (fun i iw => wr iw i 0) iw ;;
  iw <- for_ is ie (fun i iw => x <- rd i1 i ;; incr iw ((maxnzr - x) + 1)) iw ;;
  iw <- wr iw 0 is ;;
  iw <- for_ 0 (maxnzr + 1) (fun i iw =>
          a <- rd iw (i + 1) ;; b <- rd iw i ;; wr iw (i + 1) (a + b)) iw ;;
  iw2 <- for_ 0 (maxnzr + 2) (fun i iw2 => a <- rd iw i ;; wr iw2 i a) iw2 ;;
  ' (iw, i2) <- for_ is ie (fun i s => let '(iw, i2) := s in
          x <- rd i1 i ;;
          l <- rd iw (maxnzr - x) ;;
          i2 <- wr i2 l i ;;
          iw <- incr iw (maxnzr - x) ;;
          Ok (iw, i2)) (iw, i2) ;;
  i1 <- for_ 0 (maxnzr + 1) (fun i i1 =>
          lo <- rd iw2 i ;; hi <- rd iw2 (i + 1) ;;
          for_ lo hi (fun j i1 => wr i1 j (maxnzr - i)) i1) i1 ;;
  Ok (i1, i2).
