(** The OpenMP versions of the matrix-vector products whose parallel loops run over
    rows: lis_matvec_csr.c:95-108, lis_matvec_msr.c:86-99, lis_matvec_ell.c:92-132,
    lis_matvec_dns.c:50-88.  x and y are shared arrays; the matrix is never written, so
    its arrays are constants here; every scalar variable is private in the source. *)
Require Import ZArith List Bool.
From Verif Require Import Base Scalar Spec Omp System.
Import ListNotations.
Open Scope Z_scope.

Section S.
Context {T : Type} {S : Scalar T}.

(** t += v*x[j] over the list of (v, j), then y[i] = t *)
Fixpoint row_prog (xa : Z) (vs : list (T * Z)) (t : T) (out : cell) : prog T :=
  match vs with
  | [] => Write out t Done
  | (v, j) :: vs => Read (xa, j) (fun w => row_prog xa vs (sadd t (smul v w)) out)
  end.

Definition omp_matvec_csr (A : csr T) (xa ya : Z) : list (prog T) :=
  par_for (csr_n A) (fun i =>
    row_prog xa (map (fun j => (znth s0 (csr_value A) j, znth 0 (csr_index A) j)) (zrange (znth 0 (csr_ptr A) i) (znth 0 (csr_ptr A) (i + 1)))) s0 (ya, i)).

Definition omp_matvec_msr (A : msr T) (xa ya : Z) : list (prog T) :=
  par_for (msr_n A) (fun i =>
    Read (xa, i) (fun xi =>
    row_prog xa (map (fun j => (znth s0 (msr_value A) j, znth 0 (msr_index A) j)) (zrange (znth 0 (msr_index A) i) (znth 0 (msr_index A) (i + 1))))
      (smul (znth s0 (msr_value A) i) xi) (ya, i))).

(** for i in l, one after the other *)
Definition each (l : list Z) (body : Z -> prog T) : prog T := fold_right (fun i p => seq (body i) p) Done l.
(** rows is..ie-1: y[i] = 0, then for j = 0..m-1: y[i] += a_ji * x[c_ji] *)
Definition col_thread (m : Z) (a : Z -> Z -> T) (c : Z -> Z -> Z) (xa ya is ie : Z) : prog T :=
  seq (each (zrange is ie) (fun i => Write (ya, i) s0 Done))
      (each (zrange 0 m) (fun j => each (zrange is ie) (fun i =>
         Read (ya, i) (fun t => Read (xa, c j i) (fun w => Write (ya, i) (sadd t (smul (a j i) w)) Done))))).
(** one thread per rank, rows given by LIS_GET_ISIE *)
Definition col_region (nprocs n m : Z) (a : Z -> Z -> T) (c : Z -> Z -> Z) (xa ya : Z) : list (prog T) :=
  par_for nprocs (fun r => match get_isie r nprocs n with Ok (is, ie) => col_thread m a c xa ya is ie | _ => Done end).

Definition omp_matvec_ell (nprocs : Z) (A : ell T) (xa ya : Z) : list (prog T) :=
  col_region nprocs (ell_n A) (ell_maxnzr A) (fun j i => znth s0 (ell_value A) (j * ell_n A + i)) (fun j i => znth 0 (ell_index A) (j * ell_n A + i)) xa ya.
Definition omp_matvec_dns (nprocs : Z) (A : dns T) (xa ya : Z) : list (prog T) :=
  col_region nprocs (dns_n A) (dns_np A) (fun j i => znth s0 (dns_value A) (j * dns_n A + i)) (fun j _ => j) xa ya.
End S.
