(** Model of the preconditioners "none", "jacobi" and "ssor" for an assembled CSR matrix
    (double precision, one thread, one process).
    src/precon/lis_precon.c, lis_precon_jacobi.c, lis_precon_ssor.c. *)
Require Import ZArith List Bool.
From Verif Require Import Base Scalar Spec Diag Split.
Import ListNotations.
Open Scope Z_scope.

Section S.
Context {T : Type} {S : Scalar T}.

(** lis_psolve_none, lis_precon.c:363-384: lis_vector_copy(b,x), and lis_psolveh_none *)
Definition psolve_none (n : Z) (b x : list T) : res (list T) :=
  for_ 0 n (fun i x => v <- rd b i ;; wr x i v) x.

(** lis_precon_create_jacobi, lis_precon_jacobi.c:61-85: D = diagonal of A, then
    lis_vector_reciprocal; [jd] is the content of the fresh vector D *)
Definition create_jacobi (jd : Z -> T) (A : csr T) : res (list T) :=
  d <- get_diagonal_csr A (alloc (csr_n A) jd) ;;
  for_ 0 (csr_n A) (fun i d => v <- rd d i ;; wr d i (sdiv s1 v)) d.
(** lis_psolve_jacobi, lis_precon_jacobi.c:118-124 *)
Definition psolve_jacobi (n : Z) (d b x : list T) : res (list T) :=
  for_ 0 n (fun i x => bi <- rd b i ;; di <- rd d i ;; wr x i (smul bi di)) x.
(** lis_psolveh_jacobi, lis_precon_jacobi.c:184-190 *)
Definition psolveh_jacobi (n : Z) (d b x : list T) : res (list T) :=
  for_ 0 n (fun i x => bi <- rd b i ;; di <- rd d i ;; wr x i (smul bi (sconj di))) x.

(** The parts of LIS_MATRIX that lis_precon_create_ssor reads and writes:
    is_splited with L, D, U (None: not split yet), and use_wd==LIS_SOLVER_SOR with WD
    (None: the flag has another value). *)
Record pmat := mkPmat { pm_csr : csr T; pm_split : option (split T); pm_wd : option (list T) }.

(** lis_precon_create_ssor, lis_precon_ssor.c:58-95.  lis_matrix_convert_self does nothing
    without -storage.  lis_matrix_split (lis_matrix_ops.c:860-870) returns at once if A is
    already split.  diag_copy, diag_scale (bn==1, lis_matrix_diag.c:664-672), diag_inverse.
    Simplification: the WD array is made as long as D, i.e. diag_duplicate. *)
Definition create_ssor (jlp jli : Z -> Z) (jlv : Z -> T) (jup jui : Z -> Z) (juv jd : Z -> T) (w : T) (A : pmat) : res pmat :=
  P <- match pm_split A with Some P => Ok P | None => split_csr jlp jli jlv jup jui juv jd (pm_csr A) end ;;
  wd <- match pm_wd A with
        | Some wd => Ok wd
        | None =>
            wd <- for_ 0 (sp_n P) (fun i d => v <- rd d i ;; wr d i (smul w v)) (sp_D P) ;;
            diag_inverse (sp_n P) wd
        end ;;
  Ok (mkPmat (pm_csr A) (Some P) (Some wd)).

(** lis_psolve_ssor / lis_psolveh_ssor, lis_precon_ssor.c:99-141: lis_matrix_solve(h) with
    LIS_MATRIX_SSOR on the matrix of the solver *)
Definition psolve_ssor (A : pmat) (b x : list T) : res (list T) :=
  match pm_split A, pm_wd A with Some P, Some wd => solve_ssor P wd b x | _, _ => UB end.
Definition psolveh_ssor (A : pmat) (b : list T) : res (list T) :=
  match pm_split A, pm_wd A with Some P, Some wd => solveh_ssor P wd b | _, _ => UB end.
End S.
Arguments pmat T : clear implicits.
