(** Terms used in the statements about the subspace eigensolvers (Properties_Esub.v). *)
Require Import ZArith List Bool Reals.
From Verif Require Import Base Scalar ScalarReal Spec SpecSolver SpecDiag SpecEsolver SpecSub Esolver EsolverTerms.
From Verif Require Import EsolverSub.
Import ListNotations.
Open Scope Z_scope.

(** the esolver and matrix lis_esi needs (it uses the shift only, not the inner shift) *)
Definition sready (e : eenv R) (E : list (entry R)) (rh : list R) : Prop :=
  1 <= ee_maxiter e /\ zlen rh = ee_maxiter e + 2 /\ no_dup_pos E /\ (ee_shift e = 0%R \/ full_diagonal (ee_n e) E).
(** the linear solver never returns an error code (lis_solve returns LIS_SUCCESS also when it did not converge: C40) *)
Definition all_ok (e : eenv R) : Prop := forall k E v, fst (ee_solve e k E v) = 0.

(** the array t holds V^T A V for m < ss orthonormal vectors V_1 .. V_m, V_1 along (1,...,1); its other diagonal entries are 0;
    fewer than ss-1 vectors only if A V_m is within tol of their span *)
Definition lanczos_array (e : eenv R) (E : list (entry R)) (ss : Z) (t : list R) : Prop := let n := ee_n e in
  exists m V, 1 <= m < ss /\ orthonormal n 1 (m + 1) V /\ (forall i, 0 <= i < n -> V 1 i = (1 / nmR n (fun _ => 1))%R) /\
  (forall a b, 0 <= a < m -> 0 <= b < m -> znth 0%R t (a * ss + b) = ipR n (V (a + 1)%Z) (imageR n E (V (b + 1)%Z))) /\
  (forall a, m <= a < ss -> znth 0%R t (a * ss + a) = 0%R) /\
  (m = ss - 1 \/ (nmR n (remainder n 1 (m + 1) E V m) < ee_tol e)%R).
(** the array h (by columns) holds V^T A V for m+1 < ss orthonormal vectors V_0 .. V_m, V_0 along (1,...,1), A V_m within tol of
    their span; the columns after the m-th are 0 *)
Definition arnoldi_array (e : eenv R) (E : list (entry R)) (ss : Z) (h : list R) : Prop := let n := ee_n e in
  exists m V, 0 <= m < ss - 1 /\ orthonormal n 0 (m + 1) V /\ (forall i, 0 <= i < n -> V 0 i = (1 / nmR n (fun _ => 1))%R) /\
  (forall a b, 0 <= a <= m -> 0 <= b <= m -> znth 0%R h (a + b * ss) = ipR n (V a) (imageR n E (V b))) /\
  (forall a b, 0 <= a < ss -> m < b < ss -> znth 0%R h (a + b * ss) = 0%R) /\
  (nmR n (remainder n 0 (m + 1) E V m) < ee_tol e)%R.

(** pair i of (evalue, resid, iter, evector), computed from the Ritz value ev[i] *)
Definition refined (e : eenv R) (E : list (entry R)) (i : Z) (ev : list (option R)) (o : list (option R) * list (option R) * list (option Z) * list (option (list R))) : Prop :=
  let n := ee_n e in let '(ev', rs, it, ec) := o in
  exists th lam r k x, znth None ev i = Some th /\ znth None ev' i = Some lam /\ znth None rs i = Some r /\ znth None it i = Some k /\ znth None ec i = Some x /\
    1 <= k <= ee_maxiter e /\ ((r <= ee_tol e)%R \/ (k = ee_maxiter e /\ (ee_tol e < r)%R)) /\ norm2 n x = 1%R /\
    forall delta, inner_ok e E th delta -> (norm2 n (eig_residual n E lam x) <= (r + delta) * Rabs (lam - th))%R.
Definition pairs_ok (e : eenv R) (E : list (entry R)) (ss : Z) (theta : list (option R)) (o : sout R) : Prop :=
  so_ret o = LIS_SUCCESS /\ so_E o = E /\ (forall i, 0 <= i < ss -> refined e E i theta (so_evalue o, so_resid o, so_iter o, so_evector o)) /\
  exists x0, znth None (so_evector o) 0 = Some x0 /\ forall i, 0 <= i < ee_n e -> vcomp (so_x o) i = vcomp x0 i.
