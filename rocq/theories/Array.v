(** Model of src/array/lis_array.c: the dense kernels on column-major arrays
    (element (i,j) of an array with leading dimension ld is a[i+j*ld]).
    - op: LIS_INS_VALUE 0, LIS_ADD_VALUE 1, LIS_SUB_VALUE 2 (include/lis.h:206-208).
    - the arrays of one call do not overlap.
    - a division by zero is the distinct outcome [Err DIV_BY_ZERO] (inf/NaN in C).
    - LIS_REAL and LIS_SCALAR share one type. *)
Require Import ZArith List Bool.
From Verif Require Import Base Scalar.
From Verif Require Krylov.
Import ListNotations.
Open Scope Z_scope.

Definition LIS_INS_VALUE : Z := 0.
Definition LIS_ADD_VALUE : Z := 1.
Definition LIS_SUB_VALUE : Z := 2.
Notation divz := Krylov.divz.
Notation DIV_BY_ZERO := Krylov.DIV_BY_ZERO.

Section M.
Context {T : Type} {S : Scalar T}.

(** y[i] = t, y[i] -= t, y[i] += t *)
Definition put (op : Z) (y : list T) (i : Z) (t : T) : res (list T) :=
  if op =? LIS_INS_VALUE then wr y i t
  else o <- rd y i ;; if op =? LIS_SUB_VALUE then wr y i (ssub o t) else wr y i (sadd o t).
(** a[i]*x[j] *)
Definition prod (a : list T) (i : Z) (x : list T) (j : Z) : res T := p <- rd a i ;; q <- rd x j ;; Ok (smul p q).
(** conj(a[i])*x[j] *)
Definition prodh (a : list T) (i : Z) (x : list T) (j : Z) : res T := p <- rd a i ;; q <- rd x j ;; Ok (smul (sconj p) q).
Definition sum2 (p q : res T) : res T := a <- p ;; b <- q ;; Ok (sadd a b).
Definition sum3 (p q r : res T) : res T := a <- p ;; b <- q ;; c <- r ;; Ok (sadd (sadd a b) c).
(** t = 0; for(j=0;j<n;j++) t += f(j) *)
Definition accumulate (n : Z) (f : Z -> res T) : res T := for_ 0 n (fun j t => v <- f j ;; Ok (sadd t v)) s0.

(** lis_array_matvec, lis_array.c:429-527 *)
Definition lis_array_matvec (n : Z) (a x y : list T) (op : Z) : res (list T) :=
  match n with
  | 1 => t <- prod a 0 x 0 ;; put op y 0 t
  | 2 =>
      t <- sum2 (prod a 0 x 0) (prod a 2 x 1) ;; y <- put op y 0 t ;;
      t <- sum2 (prod a 1 x 0) (prod a 3 x 1) ;; put op y 1 t
  | 3 =>
      t <- sum3 (prod a 0 x 0) (prod a 3 x 1) (prod a 6 x 2) ;; y <- put op y 0 t ;;
      t <- sum3 (prod a 1 x 0) (prod a 4 x 1) (prod a 7 x 2) ;; y <- put op y 1 t ;;
      t <- sum3 (prod a 2 x 0) (prod a 5 x 1) (prod a 8 x 2) ;; put op y 2 t
  | _ => for_ 0 n (fun i y => t <- accumulate n (fun j => prod a (i + j * n) x j) ;; put op y i t) y
  end.

(** lis_array_matvech, lis_array.c:529-630 *)
Definition lis_array_matvech (n : Z) (a x y : list T) (op : Z) : res (list T) :=
  match n with
  | 1 => t <- prodh a 0 x 0 ;; put op y 0 t
  | 2 =>
      t <- sum2 (prodh a 0 x 0) (prodh a 1 x 1) ;; y <- put op y 0 t ;;
      t <- sum2 (prodh a 2 x 0) (prodh a 3 x 1) ;; put op y 1 t
  | 3 =>
      t <- sum3 (prodh a 0 x 0) (prodh a 1 x 1) (prodh a 2 x 2) ;; y <- put op y 0 t ;;
      t <- sum3 (prodh a 3 x 0) (prodh a 4 x 1) (prodh a 5 x 2) ;; y <- put op y 1 t ;;
      t <- sum3 (prodh a 6 x 0) (prodh a 7 x 1) (prodh a 8 x 2) ;; put op y 2 t
  | _ => for_ 0 n (fun i y => t <- accumulate n (fun j => prodh a (i * n + j) x j) ;; put op y i t) y
  end.

(** lis_array_matvec_ns, lis_array.c:633-711.  For an op that is none of the three
    values the code falls through to the square kernel for n, ignoring m and lda. *)
Definition lis_array_matvec_ns (m n : Z) (a : list T) (lda : Z) (x y : list T) (op : Z) : res (list T) :=
  if (op =? LIS_INS_VALUE) || (op =? LIS_SUB_VALUE) || (op =? LIS_ADD_VALUE) then
    for_ 0 m (fun i y => t <- accumulate n (fun j => prod a (i + j * lda) x j) ;; put op y i t) y
  else lis_array_matvec n a x y op.

(** c[i+j*ldc] op= a[i+k*lda]*b[k+j*ldb] for all i, in the loop order j,k,i *)
Definition matmat_loop (l m n : Z) (a : list T) (lda : Z) (b : list T) (ldb : Z) (c : list T) (ldc : Z) (op : Z) : res (list T) :=
  for_ 0 m (fun j c =>
    c <- (if op =? LIS_INS_VALUE then for_ 0 l (fun i c => wr c (i + j * ldc) s0) c else Ok c) ;;
    for_ 0 n (fun k c =>
      for_ 0 l (fun i c =>
        t <- prod a (i + k * lda) b (k + j * ldb) ;;
        put (if op =? LIS_INS_VALUE then LIS_ADD_VALUE else op) c (i + j * ldc) t) c) c) c.
(** lis_array_matmat, lis_array.c:714-844 *)
Definition lis_array_matmat (n : Z) (a b c : list T) (op : Z) : res (list T) :=
  match n with
  | 1 => t <- prod a 0 b 0 ;; put op c 0 t
  | 2 =>
      t <- sum2 (prod a 0 b 0) (prod a 2 b 1) ;; c <- put op c 0 t ;;
      t <- sum2 (prod a 1 b 0) (prod a 3 b 1) ;; c <- put op c 1 t ;;
      t <- sum2 (prod a 0 b 2) (prod a 2 b 3) ;; c <- put op c 2 t ;;
      t <- sum2 (prod a 1 b 2) (prod a 3 b 3) ;; put op c 3 t
  | 3 =>
      t <- sum3 (prod a 0 b 0) (prod a 3 b 1) (prod a 6 b 2) ;; c <- put op c 0 t ;;
      t <- sum3 (prod a 1 b 0) (prod a 4 b 1) (prod a 7 b 2) ;; c <- put op c 1 t ;;
      t <- sum3 (prod a 2 b 0) (prod a 5 b 1) (prod a 8 b 2) ;; c <- put op c 2 t ;;
      t <- sum3 (prod a 0 b 3) (prod a 3 b 4) (prod a 6 b 5) ;; c <- put op c 3 t ;;
      t <- sum3 (prod a 1 b 3) (prod a 4 b 4) (prod a 7 b 5) ;; c <- put op c 4 t ;;
      t <- sum3 (prod a 2 b 3) (prod a 5 b 4) (prod a 8 b 5) ;; c <- put op c 5 t ;;
      t <- sum3 (prod a 0 b 6) (prod a 3 b 7) (prod a 6 b 8) ;; c <- put op c 6 t ;;
      t <- sum3 (prod a 1 b 6) (prod a 4 b 7) (prod a 7 b 8) ;; c <- put op c 7 t ;;
      t <- sum3 (prod a 2 b 6) (prod a 5 b 7) (prod a 8 b 8) ;; put op c 8 t
  | _ => matmat_loop n n n a n b n c n op
  end.
(** lis_array_matmat_ns, lis_array.c:847-902: C (l x m) = A (l x n) B (n x m) *)
Definition lis_array_matmat_ns (l m n : Z) (a : list T) (lda : Z) (b : list T) (ldb : Z) (c : list T) (ldc : Z) (op : Z) : res (list T) :=
  matmat_loop l m n a lda b ldb c ldc op.

(** the elimination loop of lis_array_ge (918-931) and lis_array_solve (990-1002); no pivoting *)
Definition eliminate (n : Z) (w : list T) : res (list T) :=
  for_ 0 n (fun k w =>
    p <- rd w (k + k * n) ;; q <- divz s1 p ;; w <- wr w (k + k * n) q ;;
    for_ (k + 1) n (fun i w =>
      a <- rd w (i + k * n) ;; d <- rd w (k + k * n) ;;
      let t := smul a d in
      w <- for_ (k + 1) n (fun j w =>
             c <- rd w (i + j * n) ;; e <- rd w (k + j * n) ;;
             wr w (i + j * n) (ssub c (smul t e))) w ;;
      wr w (i + k * n) t) w) w.

(** lis_array_ge, lis_array.c:905-955 (the release of lu by free() instead of lis_free() is in Memory.v) *)
Definition lis_array_ge (n : Z) (a : list T) : res (list T) :=
  lu <- for_ 0 (n * n) (fun i lu => v <- rd a i ;; wr lu i v) (alloc (n * n) (fun _ => s0)) ;;
  lu <- eliminate n lu ;;
  for_ 0 n (fun k a =>
    a <- for_ 0 n (fun i a =>
           t <- for_ 0 i (fun j t => p <- prod lu (i + j * n) a (j + k * n) ;; Ok (ssub t p)) (if i =? k then s1 else s0) ;;
           wr a (i + k * n) t) a ;;
    for_down (n - 1) 0 (fun i a =>
      t <- rd a (i + k * n) ;;
      t <- for_ (i + 1) n (fun j t => p <- prod lu (i + j * n) a (j + k * n) ;; Ok (ssub t p)) t ;;
      d <- rd lu (i + i * n) ;;
      wr a (k * n + i) (smul t d)) a) a.

(** x[i] -= w[k]*x[j] *)
Definition subx (x : list T) (i : Z) (w : list T) (k j : Z) : res (list T) :=
  o <- rd x i ;; p <- prod w k x j ;; wr x i (ssub o p).
(** lis_array_solve, lis_array.c:958-1024; returns x and the work array w *)
Definition lis_array_solve (n : Z) (a b x w : list T) : res (list T * list T) :=
  w <- for_ 0 (n * n) (fun i w => v <- rd a i ;; wr w i v) w ;;
  match n with
  | 1 => p <- rd b 0 ;; q <- rd w 0 ;; v <- divz p q ;; x <- wr x 0 v ;; Ok (x, w)
  | 2 =>
      w0 <- rd w 0 ;; v <- divz s1 w0 ;; w <- wr w 0 v ;;                       (* w[0] = 1/w[0] *)
      w1 <- rd w 1 ;; w0 <- rd w 0 ;; w <- wr w 1 (smul w1 w0) ;;               (* w[1] *= w[0] *)
      w3 <- rd w 3 ;; p <- prod w 1 w 2 ;; w <- wr w 3 (ssub w3 p) ;;           (* w[3] -= w[1]*w[2] *)
      w3 <- rd w 3 ;; v <- divz s1 w3 ;; w <- wr w 3 v ;;                       (* w[3] = 1/w[3] *)
      b0 <- rd b 0 ;; x <- wr x 0 b0 ;;
      b1 <- rd b 1 ;; p <- prod w 1 x 0 ;; x <- wr x 1 (ssub b1 p) ;;
      x1 <- rd x 1 ;; w3 <- rd w 3 ;; x <- wr x 1 (smul x1 w3) ;;
      x <- subx x 0 w 2 1 ;;
      x0 <- rd x 0 ;; w0 <- rd w 0 ;; x <- wr x 0 (smul x0 w0) ;;
      Ok (x, w)
  | _ =>
      w <- eliminate n w ;;
      x <- for_ 0 n (fun i x =>
             v <- rd b i ;; x <- wr x i v ;;
             for_ 0 i (fun j x => subx x i w (i + j * n) j) x) x ;;
      x <- for_down (n - 1) 0 (fun i x =>
             x <- for_ (i + 1) n (fun j x => subx x i w (i + j * n) j) x ;;
             v <- rd x i ;; d <- rd w (i + i * n) ;; wr x i (smul v d)) x ;;
      Ok (x, w)
  end.
End M.
