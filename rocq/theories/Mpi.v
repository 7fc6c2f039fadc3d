(** Distributed matrices: lis_matrix_g2l_csr, lis_matrix_g2l_rco, lis_commtable_create,
    lis_send_recv, lis_reduce (src/matrix/lis_matrix_mpi.c) and the MPI branch of
    lis_matvec / lis_matvech for CSR (src/matvec/lis_matvec.c:68-73, 204-212 with the
    macros of include/lis_matvec.h).  The message passing itself is Net.v. *)
Require Import ZArith List Bool.
From Verif Require Import Base Scalar Spec Matvec.
Import ListNotations.
Open Scope Z_scope.

(** lis_matrix_g2l_csr, lis_matrix_mpi.c:221-317 (the variant compiled: the #if 1 branch with a
    dense map).  Result: the renumbered index array, np, l2g_map.  [junk] is the content of
    fresh memory.  lis_malloc is assumed to succeed (the check after the second malloc tests
    the wrong pointer; out of memory is not modelled here). *)
Definition outside (lo hi j : Z) : bool := (j <? lo) || (hi <=? j).
Definition g2l_mark (lo hi jj : Z) (s : list Z * Z) : res (list Z * Z) :=
  let '(m, np) := s in
  if outside lo hi jj then
    c <- rd m jj ;;
    if c =? 0 then m <- wr m jj 1 ;; Ok (m, np + 1) else Ok (m, np)
  else Ok (m, np).
Definition g2l_list (gn lo hi : Z) (m : list Z) (l2g : list Z) : res (list Z * Z) :=
  for_ 0 gn (fun i '(l2g, ns) =>
    c <- rd m i ;;
    if (c =? 1) && outside lo hi i then l2g <- wr l2g ns i ;; Ok (l2g, ns + 1) else Ok (l2g, ns)) (l2g, 0).
Definition g2l_number (n : Z) (l2g : list Z) (ns : Z) (m : list Z) : res (list Z) :=
  ' (m, _) <- for_ 0 ns (fun i '(m, k) => jj <- rd l2g i ;; m <- wr m jj k ;; Ok (m, k + 1)) (m, n) ;; Ok m.
Definition g2l_one (lo hi : Z) (m : list Z) (jj : Z) : res Z :=
  if (lo <=? jj) && (jj <? hi) then Ok (jj - lo) else rd m jj.

Definition g2l_csr (junk : Z -> Z) (n gn lo hi : Z) (ptr index : list Z) : res (list Z * Z * list Z) :=
  m <- for_ 0 gn (fun i m => wr m i 0) (alloc gn junk) ;;
  ' (m, np) <- for_ptr n ptr (fun _ j s => jj <- rd index j ;; g2l_mark lo hi jj s) (m, n) ;;
  ' (l2g, ns) <- g2l_list gn lo hi m (alloc (np - n) junk) ;;
  m <- g2l_number n l2g ns m ;;
  index <- for_ptr n ptr (fun _ j index => jj <- rd index j ;; v <- g2l_one lo hi m jj ;; wr index j v) index ;;
  Ok (index, np, l2g).

(** lis_matrix_g2l_rco, lis_matrix_mpi.c:319-408: the same for the row lists being assembled
    ([w_row[i]] entries in row i) *)
Definition g2l_rco (junk : Z -> Z) (n gn lo hi : Z) (w_row : list Z) (w_index : list (list Z)) : res (list (list Z) * Z * list Z) :=
  m <- for_ 0 gn (fun i m => wr m i 0) (alloc gn junk) ;;
  ' (m, np) <- for_ 0 n (fun i s => c <- rd w_row i ;;
      for_ 0 c (fun j s => row <- rd w_index i ;; jj <- rd row j ;; g2l_mark lo hi jj s) s) (m, n) ;;
  ' (l2g, ns) <- g2l_list gn lo hi m (alloc (np - n) junk) ;;
  m <- g2l_number n l2g ns m ;;
  w_index <- for_ 0 n (fun i w_index => c <- rd w_row i ;;
      for_ 0 c (fun j w_index => row <- rd w_index i ;; jj <- rd row j ;; v <- g2l_one lo hi m jj ;;
        row <- wr row j v ;; wr w_index i row) w_index) w_index ;;
  Ok (w_index, np, l2g).

(** buffers handed to MPI: [slice a k l] is the [k] elements from address [a]; [blit] stores a
    received message there (a message longer than the posted count [k] is an error, MPI_ERR_TRUNCATE) *)
Definition slice {A} (l : list A) (a k : Z) : res (list A) :=
  if (0 <=? a) && (0 <=? k) && (a + k <=? zlen l) then Ok (firstn (Z.to_nat k) (skipn (Z.to_nat a) l)) else UB.
Definition blit {A} (l : list A) (a k : Z) (m : list A) : res (list A) :=
  if (0 <=? a) && (a + k <=? zlen l) && (zlen m <=? k)
  then Ok (firstn (Z.to_nat a) l ++ m ++ skipn (Z.to_nat (a + zlen m)) l) else UB.

Section Comm.
Context {T : Type} {S : Scalar T}.

(** while( import_index[i]>=A->ranges[k+1] ) k++;   lis_matrix_mpi.c:654, 757 *)
Definition owner_from (fuel : nat) (ranges : list Z) (g k : Z) : res Z :=
  while_ fuel (fun k => h <- rd ranges (k + 1) ;; Ok (h <=? g)) (fun k => Ok (k + 1)) k.

(** the private memory of a process: the local matrix, the tables, and the results of the
    products computed so far *)
Record pst := mkPst {
  s_A : csr T;                 (* renumbered local matrix *)
  s_import : list Z; s_im : list Z;
  s_neib : list Z; s_iptr : list Z; s_eptr : list Z; s_export : list Z;
  s_out : list (list T) }.

Inductive msg := MInt (l : list Z) | MVal (l : list T).
Definition ints (m : msg) : res (list Z) := match m with MInt l => Ok l | MVal _ => UB end.
Definition vals (m : msg) : res (list T) := match m with MVal l => Ok l | MInt _ => UB end.

(** lis_matrix_g2l followed by lis_commtable_create, lis_matrix_mpi.c:612-657, up to MPI_Alltoall *)
Definition prepare (junk : Z -> Z) (nprocs gn : Z) (ranges : list Z) (p : Z) (A : csr T) : res pst :=
  lo <- rd ranges p ;; hi <- rd ranges (p + 1) ;;
  ' (index, np, l2g) <- g2l_csr junk (csr_n A) gn lo hi (csr_ptr A) (csr_index A) ;;
  let ns := np - csr_n A in
  import <- for_ 0 ns (fun i im => v <- rd l2g i ;; wr im i v) (alloc ns junk) ;;
  ' (im, _) <- for_ 0 ns (fun i '(im, k) =>
      v <- rd import i ;; k <- owner_from (Z.to_nat nprocs) ranges v k ;;
      im <- incr im k ;; Ok (im, k)) (repeat 0 (Z.to_nat nprocs), 0) ;;
  Ok (mkPst (mkCsr (csr_n A) np (csr_nnz A) (csr_ptr A) index (csr_value A)) import im [] [] [] [] []).

(** lis_commtable_create, lis_matrix_mpi.c:660-668 and 737-763: the tables, from the own counts
    and the counts received from the other processes *)
Definition tables (junk : Z -> Z) (nprocs : Z) (ranges : list Z) (s : pst) (ex : list Z) : res pst :=
  ' (neibpetot, excount) <- for_ 0 nprocs (fun i '(c, e) =>
      a <- rd (s_im s) i ;; b <- rd ex i ;;
      if negb (a =? 0) || negb (b =? 0) then Ok (c + 1, e + b) else Ok (c, e)) (0, 0) ;;
  iptr <- wr (alloc (neibpetot + 1) junk) 0 0 ;;
  eptr <- wr (alloc (neibpetot + 1) junk) 0 0 ;;
  ' (neib, iptr, eptr, _) <- for_ 0 nprocs (fun i '(neib, iptr, eptr, n1) =>
      if n1 <? neibpetot then
        a <- rd (s_im s) i ;; b <- rd ex i ;;
        if negb (a =? 0) || negb (b =? 0) then
          neib <- wr neib n1 i ;;
          u <- rd iptr n1 ;; iptr <- wr iptr (n1 + 1) (u + a) ;;
          v <- rd eptr n1 ;; eptr <- wr eptr (n1 + 1) (v + b) ;;
          Ok (neib, iptr, eptr, n1 + 1)
        else Ok (neib, iptr, eptr, n1)
      else Ok (neib, iptr, eptr, n1)) (alloc neibpetot junk, iptr, eptr, 0) ;;
  let ns := csr_np (s_A s) - csr_n (s_A s) in
  ' (import, _) <- for_ 0 ns (fun i '(im, k) =>
      v <- rd im i ;; k <- owner_from (Z.to_nat nprocs) ranges v k ;;
      l <- rd ranges k ;; im <- wr im i (v - l) ;; Ok (im, k)) (s_import s, 0) ;;
  Ok (mkPst (s_A s) import (s_im s) neib iptr eptr (alloc excount junk) (s_out s)).

(** MPI_Irecv(&buf[ptr[i]], ptr[i+1]-ptr[i], ...) for every neighbour i *)
Definition receive {A} (ptr : list Z) (ms : list (list A)) (buf : list A) : res (list A) :=
  for_ 0 (zlen ms) (fun i buf =>
    a <- rd ptr i ;; b <- rd ptr (i + 1) ;; m <- rd ms i ;; blit buf a (b - a) m) buf.
Fixpoint all_ok {A B} (f : A -> res B) (l : list A) : res (list B) :=
  match l with [] => Ok [] | a :: l => b <- f a ;; r <- all_ok f l ;; Ok (b :: r) end.

(** realloc to A->np elements (LIS_MATVEC_SENDRECV / LIS_MATVEC_REDUCE0, include/lis_matvec.h:31-72) *)
Definition grow (junk : Z -> T) (np : Z) (x : list T) : list T :=
  x ++ map junk (zrange (zlen x) np).

(** lis_send_recv, lis_matrix_mpi.c:905-915 and 931-936.  commtable->import_index[0] is read even
    if nothing is imported: [slack = None] says this is undefined behaviour, [slack = Some v] that
    the read of an empty malloc block gives [v].  commtable->pad is 0 for CSR. *)
Definition gather_out (s : pst) (x : list T) (t : Z) : res (list T) :=
  a <- rd (s_eptr s) t ;; b <- rd (s_eptr s) (t + 1) ;;
  all_ok (fun i => k <- rd (s_export s) i ;; rd x k) (zrange a b).
Definition first_import (slack : option Z) (s : pst) : res Z :=
  match s_import s with v :: _ => Ok v | [] => match slack with Some v => Ok v | None => UB end end.
Definition scatter_in (slack : option Z) (junk : Z -> T) (s : pst) (x : list T) (ms : list (list T)) : res (list T) :=
  last <- rd (s_iptr s) (zlen (s_neib s)) ;;
  wrbuf <- receive (s_iptr s) ms (alloc last junk) ;;
  k0 <- first_import slack s ;;
  first <- rd (s_iptr s) 0 ;;
  ' (x, _) <- for_ first last (fun i '(x, k) => v <- rd wrbuf i ;; x <- wr x k v ;; Ok (x, k + 1)) (x, k0) ;;
  Ok x.

(** lis_reduce, lis_matrix_mpi.c:971-999 *)
Definition reduce_out (s : pst) (y : list T) (t : Z) : res (list T) :=
  a <- rd (s_iptr s) t ;; b <- rd (s_iptr s) (t + 1) ;;
  all_ok (fun i => k <- rd (s_import s) i ;; rd y k) (zrange a b).
Definition reduce_in (junk : Z -> T) (s : pst) (y : list T) (ms : list (list T)) : res (list T) :=
  last <- rd (s_eptr s) (zlen (s_neib s)) ;;
  wsbuf <- receive (s_eptr s) ms (alloc last junk) ;;
  for_ 0 (zlen (s_neib s)) (fun t y =>
    a <- rd (s_eptr s) t ;; b <- rd (s_eptr s) (t + 1) ;;
    for_ a b (fun i y => k <- rd (s_export s) i ;; v <- rd wsbuf i ;; u <- rd y k ;; wr y k (sadd u v)) y) y.

(** The program of process [p]: round 0 exchanges the counts (MPI_Alltoall), round 1 the wanted
    rows, every further round r is one product: [op (r-2)] true is lis_matvec(A,X,Y), false is
    lis_matvech(A,X,Y), with X = [X (r-2) p] and the old content [Y (r-2) p] of the result.
    (lis_matvech computes the local product before it sends; the model computes it once for each
    message and once more after the messages have arrived.) *)
Section Program.
Variables (ijunk : Z -> Z) (vjunk : Z -> T) (slack : option Z) (nprocs : Z) (ranges : list Z).
Variables (op : nat -> bool) (X Y : nat -> Z -> list T).

Definition partners (r : nat) (p : Z) (s : pst) : list Z :=
  match r with O => zrange 0 nprocs | _ => s_neib s end.

Definition message (r : nat) (p : Z) (s : pst) (t : Z) : res msg :=
  match r with
  | O => v <- rd (s_im s) t ;; Ok (MInt [v])
  | Datatypes.S O => a <- rd (s_iptr s) t ;; b <- rd (s_iptr s) (t + 1) ;; l <- slice (s_import s) a (b - a) ;; Ok (MInt l)
  | Datatypes.S (Datatypes.S k) =>
      let A := s_A s in
      if op k then l <- gather_out s (grow vjunk (csr_np A) (X k p)) t ;; Ok (MVal l)
      else y <- matvech_csr A (X k p) (grow vjunk (csr_np A) (Y k p)) ;;
           l <- reduce_out s y t ;; Ok (MVal l)
  end.

(** lis_matvec_csr after lis_send_recv / lis_matvech_csr followed by lis_reduce,
    lis_matvec.c:68-73 and 204-212, with the messages [ls] that arrive from the neighbours *)
Definition product (k : nat) (p : Z) (s : pst) (ls : list (list T)) : res (list T) :=
  let A := s_A s in
  if op k
  then x <- scatter_in slack vjunk s (grow vjunk (csr_np A) (X k p)) ls ;; matvec_csr A x (Y k p)
  else y <- matvech_csr A (X k p) (grow vjunk (csr_np A) (Y k p)) ;; reduce_in vjunk s y ls.

Definition digest (r : nat) (p : Z) (s : pst) (ms : list msg) : res pst :=
  match r with
  | O => ls <- all_ok ints ms ;;
         ex <- all_ok (fun l => rd l 0) ls ;;
         tables ijunk nprocs ranges s ex
  | Datatypes.S O =>
         ls <- all_ok ints ms ;;
         export <- receive (s_eptr s) ls (s_export s) ;;
         let n := csr_n (s_A s) in let ns := csr_np (s_A s) - n in
         (* k = n; for(i=0;i<ns;i++) import_index[i] = n++;  lis_matrix_mpi.c:784-788 *)
         import <- for_ 0 ns (fun i im => wr im i (n + i)) (s_import s) ;;
         Ok (mkPst (s_A s) import (s_im s) (s_neib s) (s_iptr s) (s_eptr s) export (s_out s))
  | Datatypes.S (Datatypes.S k) =>
         ls <- all_ok vals ms ;;
         y <- product k p s ls ;;
         Ok (mkPst (s_A s) (s_import s) (s_im s) (s_neib s) (s_iptr s) (s_eptr s) (s_export s) (s_out s ++ [y]))
  end.
End Program.
End Comm.
