(** C61: the ILUC (Crout) preconditioner.  [crout_step], [kept], [reduced], [unit_lower_c], [upper_r] are in
    SpecIluc.v; [mat_mul], [mat_vec], [mat_vech], [upper_with] in SpecIlu.v; [split_entries] in SpecSplit.v. *)
Require Import ZArith List Bool Lia QArith Qcanon Reals Lra.
From Verif Require Import Base Scalar ScalarReal Spec SpecSplit SpecIlu Split Ilu SpecIlut SpecIluc Iluc IlucFinal IlucReal Properties_Ilut.
Import ListNotations.
Open Scope Z_scope.

(** For every split matrix A = L+D+U without duplicate positions, every drop tolerance, gamma, number
    lfil of entries kept per row and contents of uninitialised memory, the factorisation
    makes no out-of-range access and yields factors such that row k of U and column k of L are
    entries of the reduced row and column larger than tol*|d_k|, at most lfil, all of them if fewer than lfil;
    M=(I+L)(d+U) equals A off the diagonal except where an entry not larger than tol*|d_min(i,j)|
    was dropped or the row is full; without dropped entries M_ii = gamma*a_ii; psolve solves M x = b and psolveh
    M^H x = b.  What the claim also says, and fails: the entries kept in a full row are the largest
    (C61_uninitialised_refuted); duplicates are accepted (C61_duplicates_refuted). *)
Theorem C61_iluc_partial : forall (T : Type) (S : Scalar T), is_ring S -> is_field S ->
  forall J JV tol gamma lfil (A : split T), total_order S -> eqb_ok S ->
  split_ok A -> sp_np A = sp_n A -> no_dup_pos (csr_entries (sp_L A)) -> no_dup_pos (csr_entries (sp_U A)) -> 0 <= lfil ->
  let n := sp_n A in let a := coef (split_entries A) in
  exists F, create_iluc J JV tol gamma lfil A = Ok F /\ exists d,
    (forall k, 0 <= k < n -> znth s0 (fa_D F) k = sdiv s1 (d k) /\ crout_step n lfil tol gamma a (fa_L F) (fa_Lv F) (fa_U F) (fa_Uv F) d k) /\
    let M := mat_mul 0 n (unit_lower_c (fa_L F) (fa_Lv F)) (upper_with d (fa_U F) (fa_Uv F)) in
    ((forall k, 0 <= k < n -> d k <> s0) ->
      (forall i j, 0 <= i < j -> j < n -> M i j = a i j \/ sleb (sabs (ssub (a i j) (M i j))) (smul (sabs (d i)) tol) = true \/ zlen (znth [] (fa_U F) i) = lfil) /\
      (forall i j, 0 <= j < i -> i < n -> M i j = a i j \/ sleb (sabs (ssub (a i j) (M i j))) (smul (sabs (d j)) tol) = true \/ zlen (znth [] (fa_L F) j) = lfil) /\
      (forall i, 0 <= i < n -> (forall t, 0 <= t < i -> M i t = a i t /\ M t i = a t i) -> M i i = smul gamma (a i i)) /\
      forall b, n <= zlen b ->
        (exists x, psolve_iluc n F b = Ok x /\ zlen x = zlen b /\ forall i, 0 <= i < n -> mat_vec 0 n M (znth s0 x) i = znth s0 b i) /\
        ((forall x : T, sconj x = x) -> exists x, psolveh_iluc n F b = Ok x /\ zlen x = zlen b /\ forall i, 0 <= i < n -> mat_vech 0 n M (znth s0 x) i = znth s0 b i)).
Proof. exact @iluc_final. Qed.
Print Assumptions C61_iluc_partial.

(** Real numbers, room for whole rows: |A-M| off the diagonal is bounded by the drop tolerance, and with
    tol=0, gamma=1 the preconditioner solves A x = b and A^T x = b. *)
Theorem C61_iluc_accuracy : forall J JV tol gamma lfil (A : split R),
  split_ok A -> sp_np A = sp_n A -> no_dup_pos (csr_entries (sp_L A)) -> no_dup_pos (csr_entries (sp_U A)) -> (sp_n A <= lfil)%Z -> (0 <= tol)%R ->
  let n := sp_n A in let a := coef (split_entries A) in
  exists F, create_iluc J JV tol gamma lfil A = Ok F /\ exists d : Z -> R,
    (forall k, (0 <= k < n)%Z -> znth 0%R (fa_D F) k = (1 / d k)%R) /\
    ((forall k, (0 <= k < n)%Z -> d k <> 0%R) ->
      let M := mat_mul 0 n (unit_lower_c (fa_L F) (fa_Lv F)) (upper_with d (fa_U F) (fa_Uv F)) in
      (forall i j, (0 <= i < n)%Z -> (0 <= j < n)%Z -> i <> j -> (Rabs (a i j - M i j) <= tol * Rabs (d (Z.min i j)))%R) /\
      (tol = 0%R -> forall i, (0 <= i < n)%Z -> M i i = (gamma * a i i)%R) /\
      forall b, (n <= zlen b)%Z -> exists x x', psolve_iluc n F b = Ok x /\ psolveh_iluc n F b = Ok x' /\ zlen x = zlen b /\ zlen x' = zlen b /\
        (forall i, (0 <= i < n)%Z -> mat_vec 0 n M (znth 0%R x) i = znth 0%R b i /\ mat_vech 0 n M (znth 0%R x') i = znth 0%R b i) /\
        (tol = 0%R -> gamma = 1%R -> forall i, (0 <= i < n)%Z -> mat_vec 0 n a (znth 0%R x) i = znth 0%R b i /\ mat_vech 0 n a (znth 0%R x') i = znth 0%R b i)).
Proof. exact @iluc_real. Qed.
Print Assumptions C61_iluc_accuracy.

(** ** Examples and refutations *)
Local Notation q k := (Q2Qc (inject_Z k)).
(**  ( 2 1 1 ; 4 5 0 ; 6 0 7 ) *)
Definition exIc : split Qc := mkSplit 3 3 (mkCsr 3 3 2 [0; 0; 1; 2] [0; 0] [q 4; q 6]) [q 2; q 5; q 7] (mkCsr 3 3 2 [0; 2; 2; 2] [1; 2] [q 1; q 1]).
Ltac split_tacI := unfold split_ok, strictly_lower, strictly_upper; repeat match goal with |- _ /\ _ => split end; try reflexivity; try csr_tacT;
  try (intros e He; cbv -[IZR Q2Qc] in He; repeat (destruct He as [<-|He]; [cbv; try reflexivity; try congruence|]); destruct He); try (vm_compute; congruence).
Definition jI := fun _ _ : Z => 77%Z.
Definition jvI := fun _ _ : Z => q 9.
(** the hypotheses are met; with tol=0 the fill at (1,2) and (2,1) is kept, with tol=3/4 it is dropped *)
Example C61_ex : split_ok exIc /\ sp_np exIc = sp_n exIc /\ no_dup_pos (csr_entries (sp_L exIc)) /\ no_dup_pos (csr_entries (sp_U exIc)) /\ total_order ScalarQ /\ eqb_ok ScalarQ /\
  exists F0 F1, create_iluc jI jvI (q 0) (q 1) 3 exIc = Ok F0 /\ create_iluc jI jvI (Q2Qc (3 # 4)) (q 1) 3 exIc = Ok F1 /\
    fa_L F0 = [[1; 2]; [2]; []] /\ fa_U F0 = [[1; 2]; [2]; []] /\ fa_L F1 = [[1; 2]; []; []] /\ fa_U F1 = [[]; []; []] /\
    (forall i, 0 <= i < 3 -> znth s0 (fa_D F0) i <> s0).
Proof.
  split; [split_tacI|]. split; [reflexivity|]. split; [unfold no_dup_pos; vm_compute; repeat constructor; simpl; intuition congruence|]. split; [unfold no_dup_pos; vm_compute; repeat constructor; simpl; intuition congruence|].
  split; [exact Q_total_order|]. split; [exact ScalarQ_eqb|].
  eexists. eexists. split; [vm_compute; reflexivity|]. split; [vm_compute; reflexivity|]. do 4 (split; [reflexivity|]). smallT.
Qed.

(** With room for one entry, row (.,10,1) of the first step keeps 10 or 1 depending on what the fresh array z held:
    the magnitudes compared are |z[j]|, j=0,1, instead of |z[iz[j]]|.  So the factors are not a
    function of the matrix, and the entry kept need not be the largest. *)
Theorem C61_uninitialised_refuted : exists (A : split Qc) F F', split_ok A /\ sp_np A = sp_n A /\ no_dup_pos (csr_entries (sp_L A)) /\ no_dup_pos (csr_entries (sp_U A)) /\
  create_iluc jI (fun _ _ => q 99) (q 0) (q 1) 1 A = Ok F /\ create_iluc jI (fun _ _ => q 0) (q 0) (q 1) 1 A = Ok F' /\
  coef (split_entries A) 0 1 = q 10 /\ coef (split_entries A) 0 2 = q 1 /\ znth [] (fa_U F) 0 = [2] /\ znth [] (fa_U F') 0 = [1].
Proof.
  exists (mkSplit 3 3 (mkCsr 3 3 0 [0; 0; 0; 0] [] []) [q 2; q 5; q 7] (mkCsr 3 3 2 [0; 2; 2; 2] [1; 2] [q 10; q 1])). eexists. eexists.
  split; [split_tacI|]. split; [reflexivity|]. split; [unfold no_dup_pos; vm_compute; repeat constructor; simpl; intuition congruence|]. split; [unfold no_dup_pos; vm_compute; repeat constructor; simpl; intuition congruence|].
  split; [vm_compute; reflexivity|]. split; [vm_compute; reflexivity|]. split; [apply Qc_is_canon; vm_compute; reflexivity|]. split; [apply Qc_is_canon; vm_compute; reflexivity|]. split; vm_compute; reflexivity.
Qed.
Print Assumptions C61_uninitialised_refuted.

(** a row that stores a column repeatedly makes the factorisation write past the arrays of n elements *)
Theorem C61_duplicates_refuted : exists (A : split Qc), split_ok A /\ sp_np A = sp_n A /\ create_iluc jI jvI (q 0) (q 1) 2 A = UB.
Proof.
  exists (mkSplit 2 2 (mkCsr 2 2 0 [0; 0; 0] [] []) [q 2; q 5] (mkCsr 2 2 3 [0; 3; 3] [1; 1; 1] [q 1; q 1; q 1])).
  split; [split_tacI|]. split; [reflexivity|]. vm_compute; reflexivity.
Qed.
Print Assumptions C61_duplicates_refuted.

(** a real matrix meeting the hypotheses of C61_iluc_accuracy *)
Definition exIcR : split R := mkSplit 2 2 (mkCsr 2 2 1 [0; 0; 1] [0] [1%R]) [2%R; 2%R] (mkCsr 2 2 1 [0; 1; 1] [1] [1%R]).
Example C61_exR : split_ok exIcR /\ sp_np exIcR = sp_n exIcR /\ no_dup_pos (csr_entries (sp_L exIcR)) /\ no_dup_pos (csr_entries (sp_U exIcR)).
Proof.
  split; [split_tacI|]. split; [reflexivity|]. split; unfold no_dup_pos, csr_entries; cbv -[IZR]; repeat constructor; simpl; intuition congruence.
Qed.
