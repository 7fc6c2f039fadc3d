(** Model of the life cycle of a LIS_MATRIX on one process: lis_matrix_create,
    set_size, set_type, malloc, set_value, set_csr, assemble
    (src/matrix/lis_matrix.c, lis_matrix_rco.c, lis_matrix_csr.c).
    API functions return a pair (error code, matrix after the call). *)
Require Import ZArith List Bool.
From Verif Require Import Base Scalar Spec.
Import ListNotations.
Open Scope Z_scope.

(** include/lis.h:252-279 *)
Definition MATRIX_ASSEMBLING : Z := 0.
Definition MATRIX_CSR : Z := 1.
Definition MATRIX_CSC : Z := 2.
Definition MATRIX_DNS : Z := 11.
Definition MATRIX_RCO : Z := 255.
Definition MATRIX_DECIDING_SIZE : Z := -256.
Definition MATRIX_NULL : Z := -257.
(** include/lis.h:206-207, LIS_SUCCESS and LIS_ERR_ILL_ARG of lis.h *)
Definition INS_VALUE : Z := 0.
Definition ADD_VALUE : Z := 1.
Definition SUCCESS : Z := 0.
Definition ILL_ARG : Z := 1.

Section Assemble.
Context {T : Type} {S : Scalar T}.

(** The fields of struct LIS_MATRIX_STRUCT (include/lis.h) that the life cycle uses.
    w_index[i] and w_value[i] are the row buffers, here as lists of the allocated
    length; w_nnz is NULL (None) until lis_matrix_malloc or the first set_value.
    [m_csr], [m_csc] stand for ptr/index/value when the status says CSR or CSC. *)
Record mat := mkMat {
  m_status : Z; m_type : Z; m_n : Z; m_gn : Z; m_is : Z; m_origin : bool;
  m_annz : Z; m_nnz : option (list Z); m_row : list Z;
  m_index : list (list Z); m_value : list (list T);
  m_csr : option (csr T); m_csc : option (csc T) }.

(** lis_matrix_init + lis_matrix_create, lis_matrix.c:71-88, 200-236;
    LIS_MATRIX_W_ANNZ is 10 (include/lis_matrix.h:57) *)
Definition matrix_create : mat :=
  mkMat MATRIX_DECIDING_SIZE MATRIX_CSR 0 0 0 false 10 None [] [] [] None None.

(** lis_matrix_set_size, lis_matrix.c:240-300, without MPI: lis_ranges_create
    (lis_init.c:386-453) with one process takes local_n if it is not 0 (whatever
    global_n says), else global_n; is = 0.  The status is not examined. *)
Definition set_size (A : mat) (local_n global_n : Z) : Z * mat :=
  if (0 <? global_n) && (global_n <? local_n) then (ILL_ARG, A)
  else if (local_n <? 0) || (global_n <? 0) then (ILL_ARG, A)
  else if (local_n =? 0) && (global_n =? 0) then (ILL_ARG, A)
  else
    let n := if local_n =? 0 then global_n else local_n in
    (SUCCESS, mkMat MATRIX_NULL (m_type A) n n 0 (m_origin A) (m_annz A) (m_nnz A) (m_row A)
                    (m_index A) (m_value A) (m_csr A) (m_csc A)).

Definition not_assembled (A : mat) : bool :=
  (m_status A =? MATRIX_DECIDING_SIZE) || (m_status A =? MATRIX_NULL) || (m_status A =? MATRIX_ASSEMBLING).

(** lis_matrix_check(A,LIS_MATRIX_CHECK_ALL), lis_matrix.c:155-175: the test done first by
    lis_matrix_convert, lis_matrix_copy, lis_matrix_scale, lis_matrix_get_diagonal, ... *)
Definition check_all (A : mat) : Z :=
  if m_status A =? MATRIX_DECIDING_SIZE then ILL_ARG
  else if (m_status A =? MATRIX_NULL) && (0 <? m_n A) then ILL_ARG
  else if (m_status A <=? MATRIX_ASSEMBLING) && (0 <? m_n A) then ILL_ARG
  else SUCCESS.

(** lis_matrix_set_type, lis_matrix.c:879-898 *)
Definition set_type (A : mat) (t : Z) : Z * mat :=
  if negb (not_assembled A) then (ILL_ARG, A)
  else if (t <? MATRIX_CSR) || (MATRIX_DNS <? t) then (ILL_ARG, A)
  else (SUCCESS, mkMat (m_status A) t (m_n A) (m_gn A) (m_is A) (m_origin A) (m_annz A) (m_nnz A) (m_row A)
                       (m_index A) (m_value A) (m_csr A) (m_csc A)).

(** lis_matrix_malloc, lis_matrix.c:959-991, with nnz==NULL *)
Definition matrix_malloc (A : mat) (nnz_row : Z) : Z * mat :=
  if negb (not_assembled A) then (ILL_ARG, A)
  else (SUCCESS, mkMat (m_status A) (m_type A) (m_n A) (m_gn A) (m_is A) (m_origin A) nnz_row
          (Some (map (fun _ => nnz_row) (zrange 0 (m_n A)))) (m_row A) (m_index A) (m_value A) (m_csr A) (m_csc A)).

(** lis_matrix_malloc with an array nnz[] of n row sizes *)
Definition matrix_malloc_rows (A : mat) (nnz : list Z) : res (Z * mat) :=
  if negb (not_assembled A) then Ok (ILL_ARG, A)
  else
    w <- for_ 0 (m_n A) (fun k w => v <- rd nnz k ;; wr w k v) (alloc (m_n A) (fun _ => 0)) ;;
    Ok (SUCCESS, mkMat (m_status A) (m_type A) (m_n A) (m_gn A) (m_is A) (m_origin A) (m_annz A)
          (Some w) (m_row A) (m_index A) (m_value A) (m_csr A) (m_csc A)).

(** lis_matrix_malloc_rco, lis_matrix_rco.c:146-215: one buffer of nnz[i] elements
    per row, of unknown contents (ji, jv); a negative size is not a size *)
Definition malloc_rco (ji : Z -> Z -> Z) (jv : Z -> Z -> T) (n : Z) (nnz : list Z)
    : res (list Z * list (list Z) * list (list T)) :=
  rows <- for_ 0 n (fun i s => c <- rd nnz i ;; if c <? 0 then UB else Ok s) tt ;;
  Ok (map (fun _ => 0) (zrange 0 n),
      map (fun i => alloc (znth 0 nnz i) (ji i)) (zrange 0 n),
      map (fun i => alloc (znth 0 nnz i) (jv i)) (zrange 0 n)).

(** lis_realloc of a row buffer, lis_memory.c:151-187: a new block whose first
    old_size elements are copied; copying more than the new size overruns it *)
Definition realloc {A} (j : Z -> A) (old : list A) (size : Z) : res (list A) :=
  if size <? zlen old then UB
  else Ok (old ++ alloc (size - zlen old) j).

(** for(k=0;k<cnt;k++) if( row[k]==j ) break;   returns k *)
Fixpoint scan (row : list Z) (j : Z) (k : Z) (fuel : nat) : res Z :=
  match fuel with
  | O => Ok k
  | Datatypes.S f => c <- rd row k ;; if c =? j then Ok k else scan row j (k + 1) f
  end.

(** the part of lis_matrix_set_value after the row buffers exist, lis_matrix.c:757-800:
    r is the local row i - is; make room, look for column j, overwrite/add/append.
    ji, jv are the contents of memory allocated by this call. *)
Definition set_core (ji : Z -> Z -> Z) (jv : Z -> Z -> T) (flag r j : Z) (v : T) (annz : Z)
    (nnz row : list Z) (index : list (list Z)) (value : list (list T))
    : res (list Z * list Z * list (list Z) * list (list T)) :=
  cap <- rd nnz r ;; cnt <- rd row r ;;
  idx <- rd index r ;; val <- rd value r ;;
  ' (nnz, idx, val) <-
    (if cap =? cnt then
       let cap := cap + annz in
       nnz <- wr nnz r cap ;;
       idx <- realloc (ji r) idx cap ;; val <- realloc (jv r) val cap ;;
       Ok (nnz, idx, val)
     else Ok (nnz, idx, val)) ;;
  k <- scan idx j 0 (Z.to_nat cnt) ;;
  ' (row, idx, val) <-
    (if k <? cnt then
       if flag =? INS_VALUE then
         val <- wr val k v ;; Ok (row, idx, val)
       else
         o <- rd val k ;; val <- wr val k (sadd o v) ;; Ok (row, idx, val)
     else
       row <- wr row r (cnt + 1) ;;
       idx <- wr idx cnt j ;; val <- wr val cnt v ;;
       Ok (row, idx, val)) ;;
  index <- wr index r idx ;; value <- wr value r val ;;
  Ok (nnz, row, index, value).

(** lis_matrix_set_value, lis_matrix.c:700-802 (non-MPI: every row is local) *)
Definition set_value (ji : Z -> Z -> Z) (jv : Z -> Z -> T) (flag i j : Z) (v : T) (A : mat) : res (Z * mat) :=
  if negb (not_assembled A) then Ok (ILL_ARG, A)
  else
    let i := if m_origin A then i - 1 else i in
    let j := if m_origin A then j - 1 else j in
    if (i <? 0) || (j <? 0) then Ok (ILL_ARG, A)
    else if (m_gn A <=? i) || (m_gn A <=? j) then Ok (ILL_ARG, A)
    else
      ' (st, nnz, row, index, value) <-
        (if m_status A =? MATRIX_NULL then
           let nnz := match m_nnz A with Some w => w | None => map (fun _ => m_annz A) (zrange 0 (m_n A)) end in
           ' (row, index, value) <- malloc_rco ji jv (m_n A) nnz ;;
           Ok (MATRIX_ASSEMBLING, nnz, row, index, value)
         else Ok (m_status A, match m_nnz A with Some w => w | None => [] end, m_row A, m_index A, m_value A)) ;;
      ' (nnz, row, index, value) <- set_core ji jv flag (i - m_is A) j v (m_annz A) nnz row index value ;;
      Ok (SUCCESS, mkMat st (m_type A) (m_n A) (m_gn A) (m_is A) (m_origin A) (m_annz A) (Some nnz) row index value (m_csr A) (m_csc A)).

(** lis_matrix_is_assembled, lis_matrix.c:692-696 *)
Definition is_assembled (A : mat) : bool := negb (m_status A =? MATRIX_NULL).

(** lis_matrix_set_csr, lis_matrix_csr.c:78-107 *)
Definition set_csr (nnz : Z) (ptr index : list Z) (value : list T) (A : mat) : Z * mat :=
  if is_assembled A then (SUCCESS, A)
  else (SUCCESS, mkMat (- MATRIX_CSR) (m_type A) (m_n A) (m_gn A) (m_is A) (m_origin A) (m_annz A) (m_nnz A) (m_row A)
          (m_index A) (m_value A) (Some (mkCsr (m_n A) (m_n A) nnz ptr index value)) (m_csc A)).

(** lis_matrix_convert_rco2csr, lis_matrix_rco.c:254-321, serial *)
Definition convert_rco2csr (jp ji : Z -> Z) (jv : Z -> T) (n : Z) (row : list Z) (w_index : list (list Z)) (w_value : list (list T)) : res (csr T) :=
  nnz <- for_ 0 n (fun i nnz => c <- rd row i ;; Ok (nnz + c)) 0 ;;
  let ptr := alloc (n + 1) jp in
  let index := alloc nnz ji in
  let value := alloc nnz jv in
  ptr <- wr ptr 0 0 ;;
  ptr <- for_ 0 n (fun i ptr => p <- rd ptr i ;; c <- rd row i ;; wr ptr (i + 1) (p + c)) ptr ;;
  ' (index, value) <- for_ 0 n (fun i s =>
      k <- rd ptr i ;; c <- rd row i ;;
      wi <- rd w_index i ;; wv <- rd w_value i ;;
      ' (k, index, value) <- for_ 0 c (fun j s =>
          let '(k, index, value) := s in
          x <- rd wi j ;; index <- wr index k x ;;
          v <- rd wv j ;; value <- wr value k v ;;
          Ok (k + 1, index, value)) (k, fst s, snd s) ;;
      Ok (index, value)) (index, value) ;;
  Ok (mkCsr n n nnz ptr index value).

(** lis_matrix_convert_rco2csc, lis_matrix_rco.c:489-579 *)
Definition convert_rco2csc (jp ji jw : Z -> Z) (jv : Z -> T) (n : Z) (row : list Z) (w_index : list (list Z)) (w_value : list (list T)) : res (csc T) :=
  iw <- for_ 0 n (fun i iw => wr iw i 0) (alloc n jw) ;;
  iw <- for_ 0 n (fun i iw =>
      c <- rd row i ;;
      for_ 0 c (fun j iw => wi <- rd w_index i ;; x <- rd wi j ;; incr iw x) iw) iw ;;
  ptr <- wr (alloc (n + 1) jp) 0 0 ;;
  ' (ptr, iw) <- for_ 0 n (fun i s =>
      let '(ptr, iw) := s in
      p <- rd ptr i ;; c <- rd iw i ;;
      ptr <- wr ptr (i + 1) (p + c) ;;
      p <- rd ptr i ;;
      iw <- wr iw i p ;; Ok (ptr, iw)) (ptr, iw) ;;
  nnz <- rd ptr n ;;
  ' (iw, index, value) <- for_ 0 n (fun i s =>
      c <- rd row i ;;
      for_ 0 c (fun j s =>
        let '(iw, index, value) := s in
        wi <- rd w_index i ;; wv <- rd w_value i ;;
        k <- rd wi j ;; l <- rd iw k ;;
        v <- rd wv j ;;
        value <- wr value l v ;; index <- wr index l i ;;
        iw <- incr iw k ;;
        Ok (iw, index, value)) s) (iw, alloc nnz ji, alloc nnz jv) ;;
  Ok (mkCsc n n nnz ptr index value).

(** lis_matrix_assemble, lis_matrix.c:607-688, without MPI.  In the ASSEMBLING case the
    matrix is replaced by a fresh one (lis_matrix_init: w_annz = 10, no buffers) that
    holds the converted arrays.  Only the target types CSR and CSC are in this
    definition; the others go through CSR (lis_matrix_convert, lis_matrix_ops.c:128). *)
Definition assemble (jp ji jw : Z -> Z) (jv : Z -> T) (A : mat) : res (Z * mat) :=
  if m_status A =? MATRIX_DECIDING_SIZE then Ok (ILL_ARG, A)
  else if (m_status A =? MATRIX_NULL) && (0 <? m_n A) then Ok (ILL_ARG, A)
  else if m_status A =? MATRIX_ASSEMBLING then
    if m_type A =? MATRIX_CSR then
      B <- convert_rco2csr jp ji jv (m_n A) (m_row A) (m_index A) (m_value A) ;;
      Ok (SUCCESS, mkMat MATRIX_CSR MATRIX_CSR (m_n A) (m_gn A) (m_is A) (m_origin A) 10 None [] [] [] (Some B) None)
    else if m_type A =? MATRIX_CSC then
      B <- convert_rco2csc jp ji jw jv (m_n A) (m_row A) (m_index A) (m_value A) ;;
      Ok (SUCCESS, mkMat MATRIX_CSC MATRIX_CSC (m_n A) (m_gn A) (m_is A) (m_origin A) 10 None [] [] [] None (Some B))
    else Err (-1000)  (* target type not modelled here *)
  else if (m_status A <? 0) && (0 <? m_n A) then
    Ok (SUCCESS, mkMat (- m_status A) (- m_status A) (m_n A) (m_gn A) (m_is A) (m_origin A) (m_annz A) (m_nnz A) (m_row A)
          (m_index A) (m_value A) (m_csr A) (m_csc A))
  else Ok (SUCCESS, A).

(** a program: a list of set_value calls, each possibly failing; returns the codes *)
Fixpoint set_values (ji : Z -> Z -> Z -> Z) (jv : Z -> Z -> Z -> T) (ops : list (Z * Z * Z * T)) (c : Z) (A : mat) : res (list Z * mat) :=
  match ops with
  | [] => Ok ([], A)
  | (flag, i, j, v) :: ops =>
      ' (code, A) <- set_value (ji c) (jv c) flag i j v A ;;
      ' (codes, A) <- set_values ji jv ops (c + 1) A ;;
      Ok (code :: codes, A)
  end.

End Assemble.
Arguments mat T : clear implicits.
