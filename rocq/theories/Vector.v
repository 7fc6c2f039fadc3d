(** Model of the vector operations: src/vector/lis_vector_opv.c, lis_vector_ops.c (double
    precision) and the element accessors of lis_vector.c.
    Elementwise operations are parallel loops over shared cells (Omp.v); a vector is a
    handle naming its array, so two arguments may be the same vector. *)
Require Import ZArith List Bool.
From Verif Require Import Base Scalar Omp.
Import ListNotations.
Open Scope Z_scope.

Record vec := mkVec { v_arr : Z; v_n : Z }.
Definition at_ (v : vec) (i : Z) : cell := (v_arr v, i).

Definition V_ILL_ARG : Z := 1.

Section S.
Context {T : Type} {S : Scalar T}.

(** a call: its return code and the parallel region it executes *)
Definition call : Type := Z * list (prog T).
Definition same2 (x y : vec) (k : list (prog T)) : call := if negb (v_n x =? v_n y) then (V_ILL_ARG, []) else (0, k).
Definition same3 (x y z : vec) (k : list (prog T)) : call :=
  if negb (v_n x =? v_n y) || negb (v_n x =? v_n z) then (V_ILL_ARG, []) else (0, k).

(** lis_vector_opv.c:67-103.  t is declared outside the loop and only i is private, so t
    is a cell shared by all threads. *)
Definition shared_t : cell := (-1, 0).
Definition vector_swap (x y : vec) : call :=
  same2 x y (par_for (v_n x) (fun i =>
    Read (at_ y i) (fun a => Write shared_t a (Read (at_ x i) (fun b => Write (at_ y i) b (Read shared_t (fun c => Write (at_ x i) c Done))))))).
(** 109-143 *)
Definition vector_copy (x y : vec) : call :=
  same2 x y (par_for (v_n x) (fun i => Read (at_ x i) (fun a => Write (at_ y i) a Done))).
(** 149-183  y[i] += alpha * x[i] *)
Definition vector_axpy (alpha : T) (x y : vec) : call :=
  same2 x y (par_for (v_n x) (fun i => Read (at_ y i) (fun b => Read (at_ x i) (fun a => Write (at_ y i) (sadd b (smul alpha a)) Done)))).
(** 189-222  y[i] = x[i] + alpha * y[i] *)
Definition vector_xpay (x : vec) (alpha : T) (y : vec) : call :=
  same2 x y (par_for (v_n x) (fun i => Read (at_ x i) (fun a => Read (at_ y i) (fun b => Write (at_ y i) (sadd a (smul alpha b)) Done)))).
(** 228-262  z[i] = alpha * x[i] + y[i] *)
Definition vector_axpyz (alpha : T) (x y z : vec) : call :=
  same3 x y z (par_for (v_n x) (fun i => Read (at_ x i) (fun a => Read (at_ y i) (fun b => Write (at_ z i) (sadd (smul alpha a) b) Done)))).
(** 268-294 *)
Definition vector_scale (alpha : T) (x : vec) : call :=
  (0, par_for (v_n x) (fun i => Read (at_ x i) (fun a => Write (at_ x i) (smul alpha a) Done))).
(** 300-334 *)
Definition vector_pmul (x y z : vec) : call :=
  same3 x y z (par_for (v_n x) (fun i => Read (at_ x i) (fun a => Read (at_ y i) (fun b => Write (at_ z i) (smul a b) Done)))).
(** 340-374 *)
Definition vector_pdiv (x y z : vec) : call :=
  same3 x y z (par_for (v_n x) (fun i => Read (at_ x i) (fun a => Read (at_ y i) (fun b => Write (at_ z i) (sdiv a b) Done)))).
(** 380-406 *)
Definition vector_set_all (alpha : T) (x : vec) : call :=
  (0, par_for (v_n x) (fun i => Write (at_ x i) alpha Done)).
(** 412-436 *)
Definition vector_abs (x : vec) : call :=
  (0, par_for (v_n x) (fun i => Read (at_ x i) (fun a => Write (at_ x i) (sabs a) Done))).
(** 442-466 *)
Definition vector_reciprocal (x : vec) : call :=
  (0, par_for (v_n x) (fun i => Read (at_ x i) (fun a => Write (at_ x i) (sdiv s1 a) Done))).
(** 472-498; in the real build the loop body is empty (sconj is then the identity) *)
Definition vector_conjugate (x : vec) : call :=
  (0, par_for (v_n x) (fun i => Read (at_ x i) (fun a => Write (at_ x i) (sconj a) Done))).
(** 504-528 *)
Definition vector_shift (sigma : T) (x : vec) : call :=
  (0, par_for (v_n x) (fun i => Read (at_ x i) (fun a => Write (at_ x i) (ssub a sigma) Done))).

(** ** Reductions, lis_vector_ops.c:58-478.  Thread r runs the iterations [ids] OpenMP
    gave it, accumulating into its private tmp, and stores tmp in
    lis_vec_tmp[r*LIS_VEC_TMP_PADD]; after the region one thread adds up [nprocs] of
    these, nprocs = omp_get_max_threads(). *)
Definition vec_tmp (r : Z) : cell := (-2, r * 128).
Fixpoint red_thread (r : Z) (term : Z -> (T -> prog T) -> prog T) (op : T -> T -> T) (ids : list Z) (tmp : T) : prog T :=
  match ids with
  | [] => Write (vec_tmp r) tmp Done
  | i :: ids => term i (fun a => red_thread r term op ids (op tmp a))
  end.
(** the region: one list of iterations per thread of the team *)
Definition red_region (term : Z -> (T -> prog T) -> prog T) (op : T -> T -> T) (init : Z -> T) (team : list (list Z)) : list (prog T) :=
  map (fun r => red_thread (Z.of_nat r) term op (nth r team []) (init (Z.of_nat r))) (List.seq 0 (length team)).
Definition red_collect (op : T -> T -> T) (nprocs : Z) (z : T) (s : store T) : T :=
  fold_left (fun d i => op d (s (vec_tmp i))) (zrange 0 nprocs) z.
(** the result of the reduction can be [v], on a team running the iteration lists [team] *)
Definition reduces (term : Z -> (T -> prog T) -> prog T) (op : T -> T -> T) (init : Z -> T) (nprocs : Z) (z : T) (team : list (list Z)) (s : store T) (v : T) : Prop :=
  exists s', exec (red_region term op init team) s s' /\ v = red_collect op nprocs z s'.
(** without OpenMP: one loop *)
Fixpoint serial_red (f : Z -> T) (op : T -> T -> T) (ids : list Z) (tmp : T) : T :=
  match ids with [] => tmp | i :: ids => serial_red f op ids (op tmp (f i)) end.

Definition dot_term (x y : vec) (i : Z) (k : T -> prog T) : prog T := Read (at_ x i) (fun a => Read (at_ y i) (fun b => k (smul (sconj a) b))).
Definition nhdot_term (x y : vec) (i : Z) (k : T -> prog T) : prog T := Read (at_ x i) (fun a => Read (at_ y i) (fun b => k (smul a b))).
Definition sum_term (x : vec) (i : Z) (k : T -> prog T) : prog T := Read (at_ x i) k.
Definition abs_term (x : vec) (i : Z) (k : T -> prog T) : prog T := Read (at_ x i) (fun a => k (sabs a)).
(** if( fabs(x[i]) > tmp ) tmp = fabs(x[i]) *)
Definition max_op (t a : T) : T := if negb (sleb a t) then a else t.
Definition zero_init (r : Z) : T := s0.

Definition vector_dot (x y : vec) := reduces (dot_term x y) sadd zero_init.       (* 58-130 *)
Definition vector_nhdot (x y : vec) := reduces (nhdot_term x y) sadd zero_init.   (* 134-206 *)
Definition vector_nrm2sq (x : vec) := reduces (dot_term x x) sadd zero_init.      (* 210-274, before sqrt *)
Definition vector_nrm1 (x : vec) := reduces (abs_term x) sadd zero_init.          (* 278-340 *)
Definition vector_sum (x : vec) := reduces (sum_term x) sadd zero_init.           (* 418-478 *)
(** 344-414: tmp is set before the region but private in it, so each thread starts with
    an uninitialised tmp [j] *)
Definition vector_nrmi (j : Z -> T) (x : vec) := reduces (abs_term x) max_op j.

(** the serial builds *)
Definition vector_dot_serial (x y : vec) (s : store T) : T := serial_red (fun i => smul (sconj (s (at_ x i))) (s (at_ y i))) sadd (zrange 0 (v_n x)) s0.
Definition vector_nhdot_serial (x y : vec) (s : store T) : T := serial_red (fun i => smul (s (at_ x i)) (s (at_ y i))) sadd (zrange 0 (v_n x)) s0.
Definition vector_nrm2_serial (x : vec) (s : store T) : T := ssqrt (vector_dot_serial x x s).
Definition vector_nrm1_serial (x : vec) (s : store T) : T := serial_red (fun i => sabs (s (at_ x i))) sadd (zrange 0 (v_n x)) s0.
Definition vector_sum_serial (x : vec) (s : store T) : T := serial_red (fun i => s (at_ x i)) sadd (zrange 0 (v_n x)) s0.
Definition vector_nrmi_serial (x : vec) (s : store T) : T := serial_red (fun i => sabs (s (at_ x i))) max_op (zrange 0 (v_n x)) s0.

(** ** Element access, lis_vector.c:561-845, on a vector whose size is set (status is then
    not LIS_VECTOR_NULL).  Local rows is..ie-1 are value[0..ie-is-1]. *)
Record lvec := mkLvec { l_is : Z; l_ie : Z; l_origin : bool; l_value : list T }.
Definition INS : Z := 0.
Definition ADD : Z := 1.

(** 561-605 (set_value0, 514-557, is the same) *)
Definition vector_set_value (flag i : Z) (value : T) (v : lvec) : res (Z * lvec) :=
  let i := if l_origin v then i - 1 else i in
  if (i <? l_is v) || (l_ie v <=? i) then Ok (V_ILL_ARG, v)
  else
    old <- rd (l_value v) (i - l_is v) ;;
    a <- wr (l_value v) (i - l_is v) (if flag =? INS then value else sadd old value) ;;
    Ok (0, mkLvec (l_is v) (l_ie v) (l_origin v) a).

(** 609-674.  In the ADD branch the source says ii++ where INS says ii--. *)
Fixpoint values_loop (fuel : nat) (flag count i : Z) (index : list Z) (value : list T) (v : lvec) : res (Z * lvec) :=
  match fuel with
  | O => Err OUT_OF_FUEL
  | Datatypes.S f =>
      if i <? count then
        ii <- rd index i ;;
        let ii := if l_origin v then (if flag =? INS then ii - 1 else ii + 1) else ii in
        if (ii <? l_is v) || (l_ie v <=? ii) then Ok (V_ILL_ARG, v)
        else
          w <- rd value i ;;
          old <- rd (l_value v) (ii - l_is v) ;;
          a <- wr (l_value v) (ii - l_is v) (if flag =? INS then w else sadd old w) ;;
          values_loop f flag count (i + 1) index value (mkLvec (l_is v) (l_ie v) (l_origin v) a)
      else Ok (0, v)
  end.
Definition vector_set_values (flag count : Z) (index : list Z) (value : list T) (v : lvec) : res (Z * lvec) :=
  values_loop (Datatypes.S (Z.to_nat count)) flag count 0 index value v.

(** 678-743.  The loop overwrites the argument: start = i. *)
Fixpoint values2_loop (fuel : nat) (flag count i : Z) (value : list T) (v : lvec) : res (Z * lvec) :=
  match fuel with
  | O => Err OUT_OF_FUEL
  | Datatypes.S f =>
      if i <? count then
        let start := i in
        let start := if l_origin v then (if flag =? INS then start - 1 else start + 1) else start in
        if (start <? l_is v) || (l_ie v <=? start) then Ok (V_ILL_ARG, v)
        else
          w <- rd value i ;;
          old <- rd (l_value v) (start - l_is v) ;;
          a <- wr (l_value v) (start - l_is v) (if flag =? INS then w else sadd old w) ;;
          values2_loop f flag count (i + 1) value (mkLvec (l_is v) (l_ie v) (l_origin v) a)
      else Ok (0, v)
  end.
Definition vector_set_values2 (flag start count : Z) (value : list T) (v : lvec) : res (Z * lvec) :=
  values2_loop (Datatypes.S (Z.to_nat count)) flag count 0 value v.

(** 783-810: code and the value read, if any *)
Definition vector_get_value (v : lvec) (i : Z) : res (Z * option T) :=
  let i := if l_origin v then i - 1 else i in
  if (i <? l_is v) || (l_ie v <=? i) then Ok (V_ILL_ARG, None)
  else w <- rd (l_value v) (i - l_is v) ;; Ok (0, Some w).

(** 814-848: fills the caller's array [out] *)
Definition vector_get_values (v : lvec) (start count : Z) (out : list T) : res (Z * list T) :=
  let start := if l_origin v then start - 1 else start in
  if (start <? l_is v) || (l_ie v <=? start) then Ok (V_ILL_ARG, out)
  else if l_ie v - l_is v <? start - l_is v + count then Ok (V_ILL_ARG, out)
  else
    out <- for_ 0 count (fun i out => w <- rd (l_value v) (start - l_is v + i) ;; wr out i w) out ;;
    Ok (0, out).

(** ** lis_vector_scatter / gather, lis_vector.c:943-1062, MPI build.  [bufs] are the
    processes' value[] arguments and [vs] their vectors.  MPI_Scatterv sends
    root's value[ranges[p] .. ranges[p+1]) to process p, MPI_Allgatherv sends every
    process' own section to all. *)
Definition section (l : list T) (a b : Z) : list T := map (znth s0 l) (zrange a b).
Definition splice (l : list T) (a : Z) (sec : list T) : res (list T) :=
  for_ 0 (zlen sec) (fun k l => w <- rd sec k ;; wr l (a + k) w) l.
(** the process p: MPI_Scatterv into value+is (in place on the root), then v[i] = value[i+is] *)
Definition scatter_proc (root : list T) (ranges : list Z) (p : Z) (buf v : list T) : res (list T * list T) :=
  a <- rd ranges p ;; b <- rd ranges (p + 1) ;;
  if zlen root <? b then UB
  else
    buf <- (if p =? 0 then Ok buf else splice buf a (section root a b)) ;;
    v <- for_ 0 (b - a) (fun i v => w <- rd buf (i + a) ;; wr v i w) v ;;
    Ok (buf, v).
(** gather: value[i+is] = v[i], then every process' section goes into every buffer *)
Definition gather_local (ranges : list Z) (p : Z) (buf v : list T) : res (list T) :=
  a <- rd ranges p ;; b <- rd ranges (p + 1) ;;
  for_ 0 (b - a) (fun i buf => w <- rd v i ;; wr buf (i + a) w) buf.
Definition allgather (ranges : list Z) (nprocs : Z) (bufs : list (list T)) (buf : list T) : res (list T) :=
  for_ 0 nprocs (fun q buf =>
    a <- rd ranges q ;; b <- rd ranges (q + 1) ;;
    src <- rd bufs q ;;
    if zlen src <? b then UB else splice buf a (section src a b)) buf.
(** the collective calls: every process p of nprocs, with its buffer and its vector *)
Definition vector_scatter (ranges : list Z) (nprocs : Z) (bufs vs : list (list T)) : res (list (list T) * list (list T)) :=
  root <- rd bufs 0 ;;
  for_ 0 nprocs (fun p bv =>
    buf <- rd (fst bv) p ;; v <- rd (snd bv) p ;;
    ' (buf, v) <- scatter_proc root ranges p buf v ;;
    bufs <- wr (fst bv) p buf ;; vs <- wr (snd bv) p v ;;
    Ok (bufs, vs)) (bufs, vs).
Definition vector_gather (ranges : list Z) (nprocs : Z) (bufs vs : list (list T)) : res (list (list T)) :=
  local <- for_ 0 nprocs (fun p bufs =>
    buf <- rd bufs p ;; v <- rd vs p ;;
    buf <- gather_local ranges p buf v ;;
    wr bufs p buf) bufs ;;
  for_ 0 nprocs (fun p bufs =>
    buf <- rd bufs p ;;
    buf <- allgather ranges nprocs local buf ;;
    wr bufs p buf) local.
End S.
Arguments lvec T : clear implicits.
Arguments call T : clear implicits.
