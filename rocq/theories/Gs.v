(** Model of lis_array_cgs, lis_array_mgs and lis_array_qr, lis_array.c:1026-1175.
    [tol] stands for the constant 1e-12. *)
Require Import ZArith List Bool.
From Verif Require Import Base Scalar Array.
From Verif Require Krylov.
Import ListNotations.
Open Scope Z_scope.

Section M.
Context {T : Type} {S : Scalar T}.
Variable tol : T.
Definition sltb (a b : T) : bool := negb (sleb b a).
(** lis_array_nrm2, lis_array.c:365-384 *)
Definition nrm2 (n : Z) (x : list T) : res T :=
  t <- for_ 0 n (fun i t => v <- rd x i ;; Ok (sadd t (smul (sconj v) v))) s0 ;; Ok (ssqrt t).
(** q[i] = 0.0; r[i] = 0.0 for i < n*n *)
Definition clear (n : Z) (q : list T) : res (list T) := for_ 0 (n * n) (fun i q => wr q i s0) q.
(** for(i=0;i<n;i++) v[i] = a[i+k*n] *)
Definition column (n : Z) (a : list T) (k : Z) (v : list T) : res (list T) :=
  for_ 0 n (fun i v => e <- rd a (i + k * n) ;; wr v i e) v.
(** r[p] = 0; for(i=0;i<n;i++) r[p] += q[i+j*n]*a[i+k*n]   (no conjugate) *)
Definition project (n : Z) (q : list T) (j : Z) (a : list T) (k : Z) (r : list T) (p : Z) : res (list T) :=
  r <- wr r p s0 ;;
  for_ 0 n (fun i r => o <- rd r p ;; t <- prod q (i + j * n) a (i + k * n) ;; wr r p (sadd o t)) r.
(** q[i+k*n] = v[i]/nrm *)
Definition normalise (n : Z) (v : list T) (nrm : T) (q : list T) (k : Z) : res (list T) :=
  for_ 0 n (fun i q => e <- rd v i ;; d <- divz e nrm ;; wr q (i + k * n) d) q.

(** lis_array_cgs, lis_array.c:1029-1079: the flag in the state is the break of the k loop *)
Definition lis_array_cgs (n : Z) (a q r : list T) (junk : Z -> T) : res (list T * list T) :=
  q <- clear n q ;; r <- clear n r ;;
  ' (_, _, q, r) <- for_ 0 n (fun k st =>
    let '(stop, ak, q, r) := st in
    if stop : bool then Ok st else
    ak <- column n a k ak ;;
    ' (ak, r) <- for_ 0 k (fun j st =>
         let '(ak, r) := st in
         r <- project n q j a k r (j + k * n) ;;
         ak <- for_ 0 n (fun i ak => o <- rd ak i ;; t <- prod r (j + k * n) q (i + j * n) ;; wr ak i (ssub o t)) ak ;;
         Ok (ak, r)) (ak, r) ;;
    nrm <- nrm2 n ak ;;
    r <- wr r (k + k * n) nrm ;;
    if sltb nrm tol then Ok (true, ak, q, r) else
    q <- normalise n ak nrm q k ;;
    Ok (false, ak, q, r)) (false, alloc n junk, q, r) ;;
  Ok (q, r).

(** lis_array_mgs, lis_array.c:1084-1131; overwrites a.  When nrm2<tol the normalisation
    loop breaks at i=0 and q's column stays 0. *)
Definition lis_array_mgs (n : Z) (a q r : list T) (junk : Z -> T) : res (list T * list T * list T) :=
  q <- clear n q ;; r <- clear n r ;;
  ' (_, a, q, r) <- for_ 0 n (fun j st =>
    let '(aj, a, q, r) := st in
    aj <- column n a j aj ;;
    nrm <- nrm2 n aj ;;
    r <- wr r (j + j * n) nrm ;;
    q <- (if sltb nrm tol then Ok q else normalise n aj nrm q j) ;;
    ' (a, r) <- for_ (j + 1) n (fun k st =>
         let '(a, r) := st in
         r <- project n q j a k r (j + k * n) ;;
         a <- for_ 0 n (fun i a => o <- rd a (i + k * n) ;; t <- prod r (j + k * n) q (i + j * n) ;; wr a (i + k * n) (ssub o t)) a ;;
         Ok (a, r)) (a, r) ;;
    Ok (aj, a, q, r)) (alloc n junk, a, q, r) ;;
  Ok (a, q, r).

(** lis_array_qr, lis_array.c:1136-1175.  maxit stands for 100000.  Result: a, q, r, qriter, qrerr. *)
Fixpoint qr_loop (fuel : nat) (n : Z) (junk : Z -> T) (iter : Z) (a q r : list T) (err : T) : res (list T * list T * list T * Z * T) :=
  match fuel with
  | O => Ok (a, q, r, iter, err)
  | Datatypes.S f =>
      ' (q, r) <- lis_array_cgs n a q r junk ;;
      a <- for_ 0 n (fun j a => for_ 0 n (fun i a =>
             a <- wr a (i + j * n) s0 ;;
             for_ 0 n (fun k a => o <- rd a (i + j * n) ;; t <- prod r (i + k * n) q (k + j * n) ;; wr a (i + j * n) (sadd o t)) a) a) a ;;
      e <- rd a 1 ;;
      if sltb (sabs e) tol then Ok (a, q, r, iter + 1, sabs e) else qr_loop f n junk (iter + 1) a q r (sabs e)
  end.
Definition lis_array_qr (maxit : nat) (n : Z) (a q r : list T) (junk : Z -> T) : res (list T * list T * list T * Z * T) :=
  qr_loop maxit n junk 0 a q r s0.
End M.
