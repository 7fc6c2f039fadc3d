(** Model of the elementwise and reduction helpers of src/array/lis_array.c:84-425.
    The arrays of one call do not overlap.  1/0 is the distinct outcome [Err DIV_BY_ZERO].
    LIS_REAL and LIS_SCALAR share one type, fabs is [sabs]. *)
Require Import ZArith List Bool.
From Verif Require Import Base Scalar.
From Verif Require Krylov.
Import ListNotations.
Open Scope Z_scope.
Section M.
Context {T : Type} {S : Scalar T}.
Notation divz := Krylov.divz.
(** lis_array_swap, 84-100; returns x and y *)
Definition lis_array_swap (n : Z) (x y : list T) : res (list T * list T) :=
  for_ 0 n (fun i s => let '(x, y) := s in
    t <- rd y i ;; v <- rd x i ;; y <- wr y i v ;; x <- wr x i t ;; Ok (x, y)) (x, y).
(** lis_array_copy, 104-117 *)
Definition lis_array_copy (n : Z) (x y : list T) : res (list T) := for_ 0 n (fun i y => v <- rd x i ;; wr y i v) y.
(** lis_array_axpy, 121-134 *)
Definition lis_array_axpy (n : Z) (alpha : T) (x y : list T) : res (list T) :=
  for_ 0 n (fun i y => v <- rd x i ;; o <- rd y i ;; wr y i (sadd (smul alpha v) o)) y.
(** lis_array_xpay, 138-151 *)
Definition lis_array_xpay (n : Z) (x : list T) (alpha : T) (y : list T) : res (list T) :=
  for_ 0 n (fun i y => v <- rd x i ;; o <- rd y i ;; wr y i (sadd v (smul alpha o))) y.
(** lis_array_axpyz, 155-168 *)
Definition lis_array_axpyz (n : Z) (alpha : T) (x y z : list T) : res (list T) :=
  for_ 0 n (fun i z => v <- rd x i ;; o <- rd y i ;; wr z i (sadd (smul alpha v) o)) z.
(** lis_array_scale, 172-185 *)
Definition lis_array_scale (n : Z) (alpha : T) (x : list T) : res (list T) := for_ 0 n (fun i x => v <- rd x i ;; wr x i (smul alpha v)) x.
(** lis_array_pmul, 189-202 *)
Definition lis_array_pmul (n : Z) (x y z : list T) : res (list T) :=
  for_ 0 n (fun i z => v <- rd x i ;; o <- rd y i ;; wr z i (smul v o)) z.
(** lis_array_pdiv, 206-219 *)
Definition lis_array_pdiv (n : Z) (x y z : list T) : res (list T) :=
  for_ 0 n (fun i z => v <- rd x i ;; o <- rd y i ;; q <- divz v o ;; wr z i q) z.
(** lis_array_set_all, 223-236 *)
Definition lis_array_set_all (n : Z) (alpha : T) (x : list T) : res (list T) := for_ 0 n (fun i x => wr x i alpha) x.
(** lis_array_abs, 240-253 *)
Definition lis_array_abs (n : Z) (x : list T) : res (list T) := for_ 0 n (fun i x => v <- rd x i ;; wr x i (sabs v)) x.
(** lis_array_reciprocal, 257-270 *)
Definition lis_array_reciprocal (n : Z) (x : list T) : res (list T) :=
  for_ 0 n (fun i x => v <- rd x i ;; q <- divz s1 v ;; wr x i q) x.
(** lis_array_conjugate, 274-289 *)
Definition lis_array_conjugate (n : Z) (x : list T) : res (list T) := for_ 0 n (fun i x => v <- rd x i ;; wr x i (sconj v)) x.
(** lis_array_shift, 293-306 *)
Definition lis_array_shift (n : Z) (sigma : T) (x : list T) : res (list T) := for_ 0 n (fun i x => v <- rd x i ;; wr x i (ssub v sigma)) x.
(** lis_array_dot, 310-324 *)
Definition lis_array_dot (n : Z) (x y : list T) : res T :=
  for_ 0 n (fun i t => v <- rd x i ;; o <- rd y i ;; Ok (sadd t (smul (sconj v) o))) s0.
(** lis_array_nhdot, 328-342 *)
Definition lis_array_nhdot (n : Z) (x y : list T) : res T :=
  for_ 0 n (fun i t => v <- rd x i ;; o <- rd y i ;; Ok (sadd t (smul v o))) s0.
(** lis_array_nrm1, 346-362 *)
Definition lis_array_nrm1 (n : Z) (x : list T) : res T := for_ 0 n (fun i t => v <- rd x i ;; Ok (sadd t (sabs v))) s0.
(** lis_array_nrm2, 366-382 *)
Definition lis_array_nrm2 (n : Z) (x : list T) : res T :=
  t <- for_ 0 n (fun i t => v <- rd x i ;; Ok (sadd t (smul (sconj v) v))) s0 ;; Ok (ssqrt t).
(** lis_array_nrmi, 386-405: if(t<fabs(x[i])) t = fabs(x[i]) *)
Definition lis_array_nrmi (n : Z) (x : list T) : res T :=
  for_ 0 n (fun i t => v <- rd x i ;; Ok (if sleb (sabs v) t then t else sabs v)) s0.
(** lis_array_sum, 409-425 *)
Definition lis_array_sum (n : Z) (x : list T) : res T := for_ 0 n (fun i t => v <- rd x i ;; Ok (sadd t v)) s0.
End M.
