(** Entries and well-formedness of a matrix of any storage type. *)
Require Import ZArith List Bool.
From Verif Require Import Base Scalar Spec Copy Split SpecSplit.
Import ListNotations.
Open Scope Z_scope.

Section S.
Context {T : Type} {S : Scalar T}.
Definition amat_entries (m : amat T) : list (entry T) :=
  match m with
  | MCsr A => csr_entries A | MCsc A => csc_entries A | MMsr A => msr_entries A | MDia A => dia_entries A | MEll A => ell_entries A | MJad A => jad_entries A
  | MBsr A => bsr_entries A | MBsc A => bsc_entries A | MVbr A => vbr_entries A | MCoo A => coo_entries A | MDns A => dns_entries A
  end.
Definition amat_n (m : amat T) : Z :=
  match m with
  | MCsr A => csr_n A | MCsc A => csc_n A | MMsr A => msr_n A | MDia A => dia_n A | MEll A => ell_n A | MJad A => jad_n A
  | MBsr A => bsr_n A | MBsc A => bsc_n A | MVbr A => vbr_n A | MCoo A => coo_n A | MDns A => dns_n A
  end.
Definition amat_np (m : amat T) : Z :=
  match m with
  | MCsr A => csr_np A | MCsc A => csc_np A | MMsr A => msr_np A | MDia A => dia_np A | MEll A => ell_np A | MJad A => jad_np A
  | MBsr A => bsr_np A | MBsc A => bsc_np A | MVbr A => vbr_np A | MCoo A => coo_np A | MDns A => dns_np A
  end.
(** a VBR matrix as lis_matrix_set_vbr expects it: ptr has bnnz+1 elements and the blocks lie
    inside the nnz values *)
Definition vbr_full (A : vbr T) : Prop :=
  vbr_ok A /\ 0 <= vbr_bnnz A /\ vbr_bnnz A + 1 <= zlen (vbr_ptr A) /\ 0 <= vbr_nnz A <= zlen (vbr_value A) /\
  forall bi bj, 0 <= bi < vbr_nr A -> znth 0 (vbr_bptr A) bi <= bj < znth 0 (vbr_bptr A) (bi + 1) ->
     znth 0 (vbr_ptr A) bj + (znth 0 (vbr_row A) (bi + 1) - znth 0 (vbr_row A) bi) *
        (znth 0 (vbr_col A) (znth 0 (vbr_bindex A) bj + 1) - znth 0 (vbr_col A) (znth 0 (vbr_bindex A) bj)) <= vbr_nnz A.
Definition amat_ok (m : amat T) : Prop :=
  match m with
  | MCsr A => csr_ok A | MCsc A => csc_ok A | MMsr A => msr_ok A | MDia A => dia_ok A /\ 0 < dia_n A | MEll A => ell_ok A | MJad A => jad_ok A
  | MBsr A => bsr_ok A | MBsc A => bsc_ok A | MVbr A => vbr_full A | MCoo A => coo_ok A | MDns A => dns_ok A
  end.

(** what the object holds *)
Definition holds (O : mobj T) (m : amat T) : Prop := ob_mat O = Some m /\ ob_split O = None /\ ob_type O = amat_type m /\ ob_status O = amat_type m /\ ob_n O = amat_n m /\ ob_np O = amat_np m.
Definition holds_split (O : mobj T) (P : split T) : Prop := ob_split O = Some P /\ ob_type O = 1 /\ ob_status O = 1 /\ ob_n O = sp_n P /\ ob_np O = sp_np P.
End S.
