(** Models of small system routines: the block partition (include/lis.h,
    src/system/lis_init.c), byte swapping (src/system/lis_sort.c), the hash table
    (src/system/lis_hash.c). *)
Require Import ZArith List Bool.
From Verif Require Import Base.
Import ListNotations.
Open Scope Z_scope.

(** ** LIS_GET_ISIE(id,nprocs,n,is,ie), include/lis.h:1066-1077.  C's / and % on
    non-negative operands are Z.quot and Z.rem; division by zero is undefined. *)
Definition get_isie (id nprocs n : Z) : res (Z * Z) :=
  if nprocs =? 0 then UB
  else
    let '(ie, is_) :=
      if id <? Z.rem n nprocs then
        let ie := Z.quot n nprocs + 1 in (ie, ie * id)
      else
        let ie := Z.quot n nprocs in (ie, ie * id + Z.rem n nprocs) in
    Ok (is_, ie + is_).

(** lis_ranges_create, lis_init.c:386-453, on all processes together: what process
    [my_rank] of [nprocs] gets when process r passes local_n = ln r, global_n = gn.
    MPI_Allreduce sums the local sizes; MPI_Allgather collects the ie (or sizes).
    Result: (local_n, global_n, is, ie, ranges). *)
Definition ranges_create (nprocs gn : Z) (ln : Z -> Z) (my_rank : Z) : res (Z * Z * Z * Z * list Z) :=
  let total := fold_right Z.add 0 (map ln (zrange 0 nprocs)) in
  if total =? 0 then
    ' (is_, ie) <- get_isie my_rank nprocs gn ;;
    tr <- for_ 0 nprocs (fun r tr => ' (_, e) <- get_isie r nprocs gn ;; wr tr (r + 1) e) (alloc (nprocs + 1) (fun _ => 0)) ;;
    tr <- wr tr 0 0 ;;
    Ok (ie - is_, gn, is_, ie, tr)
  else
    tr <- for_ 0 nprocs (fun r tr => wr tr (r + 1) (ln r)) (alloc (nprocs + 1) (fun _ => 0)) ;;
    tr <- wr tr 0 0 ;;
    tr <- for_ 0 nprocs (fun i tr => a <- rd tr i ;; b <- rd tr (i + 1) ;; wr tr (i + 1) (b + a)) tr ;;
    g <- rd tr nprocs ;; is_ <- rd tr my_rank ;; ie <- rd tr (my_rank + 1) ;;
    Ok (ln my_rank, g, is_, ie, tr).

(** ** Byte swapping, lis_sort.c:278-376.  A buffer of n elements of [size] bytes each;
    the routines copy element i to t and write pp[b] = pt[k-1-b] for b = 0..k-1, where
    k is the constant written in the source: 4 in lis_bswap_int, 8 in the others. *)
Definition bswap (k size n : Z) (buf : list Z) : res (list Z) :=
  for_ 0 n (fun i buf =>
    t <- for_ 0 size (fun b t => v <- rd buf (i * size + b) ;; Ok (t ++ [v])) [] ;;
    for_ 0 k (fun b buf => v <- rd t (k - 1 - b) ;; wr buf (i * size + b) v) buf) buf.

(** the argument is sizeof(LIS_INT): 4, or 8 when configured with --enable-longlong *)
Definition bswap_int (sizeof_int : Z) := bswap 4 sizeof_int.
Definition bswap_double := bswap 8 8.
(** sizeof(LIS_SCALAR): 8, or 16 when configured with --enable-complex *)
Definition bswap_scalar (sizeof_scalar : Z) := bswap 8 sizeof_scalar.
Definition bswap_size_t := bswap 8 8.

(** ** Hash table, lis_hash.c: an array of 1021 chains of (index, value); new nodes go
    to the front.  index%LIS_HASHTABLE_SIZE is C's remainder. *)
Definition HASHTABLE_SIZE : Z := 1021.
Definition hashtable : Type := list (list (Z * Z)).

(** lis_hashtable_create 64-84, lis_hashtable_clear 113-135 *)
Definition hash_create : hashtable := alloc HASHTABLE_SIZE (fun _ => []).
Definition hash_clear (t : hashtable) : res hashtable :=
  for_ 0 HASHTABLE_SIZE (fun i t => wr t i []) t.

Fixpoint chain_find (p : list (Z * Z)) (index : Z) : option Z :=
  match p with
  | [] => None
  | (i, v) :: p => if i =? index then Some v else chain_find p index
  end.

(** lis_hashtable_search 139-153: the node found (here its value), or NULL *)
Definition hash_search (t : hashtable) (index : Z) : res (option Z) :=
  p <- rd t (Z.rem index HASHTABLE_SIZE) ;; Ok (chain_find p index).

(** lis_hashtable_set_value 157-182 *)
Definition hash_set (t : hashtable) (index value : Z) : res hashtable :=
  p <- rd t (Z.rem index HASHTABLE_SIZE) ;; wr t (Z.rem index HASHTABLE_SIZE) ((index, value) :: p).

(** lis_hashtable_get_value 186-200 *)
Definition hash_get (t : hashtable) (index : Z) : res Z :=
  r <- hash_search t index ;; Ok (match r with Some v => v | None => 0 end).

(** a program: set_value and clear calls *)
Inductive hash_op := HSet (k v : Z) | HClear.
Fixpoint hash_run (ops : list hash_op) (t : hashtable) : res hashtable :=
  match ops with
  | [] => Ok t
  | HSet k v :: ops => t <- hash_set t k v ;; hash_run ops t
  | HClear :: ops => t <- hash_clear t ;; hash_run ops t
  end.
