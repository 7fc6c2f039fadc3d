(** What lis_matrix_convert needs of the matrix for each source and each target type. *)
Require Import ZArith List Bool.
From Verif Require Import Base Scalar Spec CooProof Copy SpecCopy Convert.
Import ListNotations.
Open Scope Z_scope.

Section S.
Context {T : Type} {S : Scalar T}.

(** the entries that are really there: zeros of ELL, DIA, DNS, BSR, BSC and VBR and of the
    diagonal of MSR are padding *)
Definition stored (m : amat T) : list (entry T) :=
  match m with
  | MCsr _ | MCsc _ | MJad _ | MCoo _ => amat_entries m
  | MMsr A => flat_map (fun i => nz [(i, i, znth s0 (msr_value A) i)] ++
       map (fun k => (i, znth 0 (msr_index A) k, znth s0 (msr_value A) k)) (zrange (znth 0 (msr_index A) i) (znth 0 (msr_index A) (i + 1)))) (zrange 0 (msr_n A))
  | _ => nz (amat_entries m)
  end.

(** the arrays of a COO or CSR matrix have one length; an MSR matrix is as long as it says *)
Definition source_ok (sorted : bool) (m : amat T) : Prop :=
  match m with
  | MCsr A => csr_exact A /\ (sorted = true -> rows_sorted A)
  | MCoo A => coo_exact A
  | MMsr A => msr_stored A = msr_nnz A
  | _ => True
  end.

(** [0 = p(0) <= p(1) <= ... <= p(k) = n] *)
Definition partition (n k : Z) (p : list Z) : Prop := ptr_ok k p /\ znth 0 p k = n.

(** the target types are numbered as in lis.h: 1 CSR, 2 CSC, 3 MSR, 4 DIA, 5 ELL, 6 JAD,
    7 BSR, 8 BSC, 9 VBR, 10 COO, 11 DNS *)
Definition target_ok (ty : Z) (c : conv) (n np : Z) (E : list (entry T)) : Prop :=
  (In ty [3; 4; 7; 8; 9; 11] -> no_dup_pos E) /\
  (In ty [4; 7; 8; 9] -> np = n) /\
  (ty = 3 -> forall i, 0 <= i < n -> exists v, In (i, i, v) E) /\
  (ty = 4 -> E <> []) /\
  (ty = 7 -> 0 < cv_bnr c /\ 0 < cv_bnc c) /\
  (ty = 8 -> 0 < cv_bnr c /\ cv_bnc c = cv_bnr c) /\
  (ty = 9 -> match cv_rowcol c with
             | None => exists e, In e E /\ ecol e = n - 1
             | Some (row, col) => partition n (cv_bnr c) row /\ partition n (cv_bnc c) col
             end).
End S.
