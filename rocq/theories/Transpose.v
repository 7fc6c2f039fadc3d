(** Model of the transposition routines. *)
Require Import ZArith List.
From Verif Require Import Base Scalar Spec Csc.
Import ListNotations.
Open Scope Z_scope.

Section S.
Context {T : Type} {S : Scalar T}.
(** lis_matrix_transpose_csr, lis_matrix_csr.c:745-762: the CSC arrays of Ain relabelled as CSR.
    Aout has the same n and np as Ain (they are not changed here). *)
Definition transpose_csr (jp ji jw : Z -> Z) (jv : Z -> T) (A : csr T) : res (csr T) :=
  B <- convert_csr2csc jp ji jw jv A ;;
  Ok (mkCsr (csc_n B) (csc_np B) (csc_nnz B) (csc_ptr B) (csc_index B) (csc_value B)).
(** lis_matrix_transpose_csc, lis_matrix_csc.c:479-489: the CSC arrays of Ain, read as CSR, are converted to CSC *)
Definition transpose_csc (jp ji jw : Z -> Z) (jv : Z -> T) (A : csc T) : res (csc T) :=
  convert_csr2csc jp ji jw jv (mkCsr (csc_n A) (csc_np A) (csc_nnz A) (csc_ptr A) (csc_index A) (csc_value A)).
(** lis_matrix_transpose_coo, lis_matrix_coo.c:518-529: only the type tag of Aout is written *)
Definition transpose_coo (A Aout : coo T) : res (coo T) := Ok Aout.
End S.
