(** C59: the I+S preconditioner and the additive Schwarz wrapper.  [lead], [one_minus_s], [refined],
    [defect], [multiplies], [adjoint] are in SpecIsp.v; [mat_mul], [mat_vec], [mat_vech] in SpecIlu.v. *)
Require Import ZArith List Bool Lia QArith Qcanon.
From Verif Require Import Base Scalar Spec SpecIlu SpecSplit Split Matvec Precon SpecIsp Isp IspFinal.
Import ListNotations.
Open Scope Z_scope.

(** Applying I+S to a vector is the multiplication by I - alpha S, where row i of S holds the first m
    stored entries of row i of the upper triangle; the adjoint version is the multiplication by
    the conjugate transpose, for real alpha. *)
Theorem C59_is_psolve : forall (T : Type) (S : Scalar T), is_ring S -> forall (A : split T) w m x y, split_ok A -> sp_np A = sp_n A -> 0 <= m -> sp_n A <= zlen x -> sp_n A <= zlen y ->
  exists y', psolve_is w m A x y = Ok y' /\ zlen y' = zlen y /\ forall i, 0 <= i < sp_n A -> znth s0 y' i = mat_vec 0 (sp_n A) (one_minus_s w m (csr_entries (sp_U A))) (znth s0 x) i.
Proof. exact @is_psolve_final. Qed.
Print Assumptions C59_is_psolve.

Theorem C59_is_psolveh : forall (T : Type) (S : Scalar T), is_ring S -> forall (A : split T) w m x y, conj_ok S -> sconj w = w -> split_ok A -> sp_np A = sp_n A -> 0 <= m -> sp_n A <= zlen x -> sp_n A <= zlen y ->
  exists y', psolveh_is w m A x y = Ok y' /\ zlen y' = zlen y /\ forall i, 0 <= i < sp_n A -> znth s0 y' i = mat_vech 0 (sp_n A) (one_minus_s w m (csr_entries (sp_U A))) (znth s0 x) i.
Proof. exact @is_psolveh_final. Qed.
Print Assumptions C59_is_psolveh.

(** Creating the preconditioner, for every split matrix without repeated positions: it never reads or
    writes outside an array (the counting pass reserves exactly the room the filling pass uses)
    and returns a well-formed CSR matrix with exactly these coefficients, and this right hand side. *)
Theorem C59_is_create : forall (T : Type) (S : Scalar T), is_ring S -> forall jl ju ji jli jui jlv juv jd jb jp jx jv w m (A : split T) b,
  split_ok A -> sp_np A = sp_n A -> 0 <= m -> no_dup_pos (csr_entries (sp_L A)) -> no_dup_pos (csr_entries (sp_U A)) -> sp_n A <= zlen b ->
  exists P pb, create_is jl ju ji jli jui jlv juv jd jb jp jx jv w m A b = Ok (P, pb) /\ csr_ok P /\ csr_n P = sp_n A /\ csr_np P = sp_n A /\ zlen pb = sp_n A /\
    let a := coef (split_entries A) in let n := sp_n A in let E := csr_entries (sp_U A) in
    (forall i c, 0 <= i < n -> 0 <= c < n -> coef (csr_entries P) i c =
       ssub (if i =? c then a i i else smul (a i i) (a i c)) (smul w (ssum (map (fun e => smul (eval e) (a (ecol e) c)) (lead m E i))))) /\
    (forall i, 0 <= i < n -> znth s0 pb i = ssub (smul (a i i) (znth s0 b i)) (smul w (ssum (map (fun e => smul (eval e) (znth s0 b (ecol e))) (lead m E i))))).
Proof. exact @is_create_final. Qed.
Print Assumptions C59_is_create.

(** If every diagonal element is 1 (lis_solve scales A that way for this preconditioner), the new
    system is (I - alpha S) A x = (I - alpha S) b, I - alpha S is unit upper triangular, and the new
    system has exactly the solutions of A x = b.
    What the claim also says, and fails: the same for a matrix that comes in already scaled with
    diagonal elements -1 (C59_is_diagonal_refuted). *)
Theorem C59_is_system_partial : forall (T : Type) (S : Scalar T), is_ring S -> forall jl ju ji jli jui jlv juv jd jb jp jx jv w m (A : split T) b,
  split_ok A -> sp_np A = sp_n A -> 0 <= m -> no_dup_pos (csr_entries (sp_L A)) -> no_dup_pos (csr_entries (sp_U A)) -> sp_n A <= zlen b ->
  (forall i, 0 <= i < sp_n A -> coef (split_entries A) i i = s1) ->
  exists P pb, create_is jl ju ji jli jui jlv juv jd jb jp jx jv w m A b = Ok (P, pb) /\
    let a := coef (split_entries A) in let n := sp_n A in let M := one_minus_s w m (csr_entries (sp_U A)) in
    (forall i c, 0 <= i < n -> 0 <= c < n -> coef (csr_entries P) i c = mat_mul 0 n M a i c) /\
    (forall i, 0 <= i < n -> znth s0 pb i = mat_vec 0 n M (znth s0 b) i) /\
    (forall i, 0 <= i < n -> M i i = s1 /\ forall c, c < i -> M i c = s0) /\
    forall x, (forall i, 0 <= i < n -> mat_vec 0 n (coef (csr_entries P)) x i = znth s0 pb i) <-> (forall i, 0 <= i < n -> mat_vec 0 n a x i = znth s0 b i).
Proof. exact @is_system_final. Qed.
Print Assumptions C59_is_system_partial.

(** Additive Schwarz with [iter] extra steps around an inner preconditioner that multiplies by M: the
    result is G b with G_0 = M, G_(k+1) = G_k + M (I - A G_k), and its residual is
    (I - A M)^(iter+1) b; the adjoint version with the adjoint inner operations is G^H b. *)
Theorem C59_adds : forall (T : Type) (S : Scalar T), is_ring S -> forall n (M a : Z -> Z -> T) inner mvf iter b x w, 0 <= n -> multiplies n inner M -> multiplies n mvf a -> 0 <= iter -> n <= zlen b -> zlen x = n -> zlen w = n ->
  exists x', psolve_adds inner mvf n n iter b x w = Ok x' /\ zlen x' = n /\ (forall i, 0 <= i < n -> znth s0 x' i = mat_vec 0 n (refined n M a (Z.to_nat iter)) (znth s0 b) i) /\
    forall i, 0 <= i < n -> ssub (znth s0 b i) (mat_vec 0 n a (znth s0 x') i) = Nat.iter (Datatypes.S (Z.to_nat iter)) (defect n M a) (znth s0 b) i.
Proof. exact @adds_final. Qed.
Print Assumptions C59_adds.

Theorem C59_addsh : forall (T : Type) (S : Scalar T), is_ring S -> forall n (M a : Z -> Z -> T) inner mvf iter b x w, conj_ok S -> 0 <= n -> multiplies n inner (adjoint M) -> multiplies n mvf (adjoint a) -> 0 <= iter -> n <= zlen b -> zlen x = n -> zlen w = n ->
  exists x', psolveh_adds inner mvf n n iter b x w = Ok x' /\ zlen x' = n /\ forall i, 0 <= i < n -> znth s0 x' i = mat_vech 0 n (refined n M a (Z.to_nat iter)) (znth s0 b) i.
Proof. exact @addsh_final. Qed.
Print Assumptions C59_addsh.

(** the wrapper around the Jacobi preconditioner, for every CSR matrix *)
Theorem C59_adds_jacobi : forall (T : Type) (S : Scalar T), is_ring S -> forall (A : csr T) d iter b x w, csr_ok A -> csr_np A = csr_n A -> zlen d = csr_n A -> 0 <= iter -> csr_n A <= zlen b -> zlen x = csr_n A -> zlen w = csr_n A ->
  let n := csr_n A in let M := fun i c : Z => if i =? c then znth s0 d i else s0 in let a := coef (csr_entries A) in
  exists x', psolve_adds (psolve_jacobi n d) (matvec_csr A) n n iter b x w = Ok x' /\ zlen x' = n /\ (forall i, 0 <= i < n -> znth s0 x' i = mat_vec 0 n (refined n M a (Z.to_nat iter)) (znth s0 b) i) /\
    forall i, 0 <= i < n -> ssub (znth s0 b i) (mat_vec 0 n a (znth s0 x') i) = Nat.iter (Datatypes.S (Z.to_nat iter)) (defect n M a) (znth s0 b) i.
Proof. exact @adds_jacobi_final. Qed.
Print Assumptions C59_adds_jacobi.

(** ** Examples and refutation *)
(** 1 2 3 / 4 1 5 / 6 7 1 *)
Definition exI : split Z := mkSplit 3 3 (mkCsr 3 3 3 [0; 0; 1; 3] [0; 0; 1] [4; 6; 7]) [1; 1; 1] (mkCsr 3 3 3 [0; 2; 3; 3] [1; 2; 2] [2; 3; 5]).
(** the same with diagonal element -1 in row 0 *)
Definition exN : split Z := mkSplit 3 3 (mkCsr 3 3 3 [0; 0; 1; 3] [0; 0; 1] [4; 6; 7]) [-1; 1; 1] (mkCsr 3 3 3 [0; 2; 3; 3] [1; 2; 2] [2; 3; 5]).
Ltac zc k Hk m := lazymatch m with
  | O => exfalso; cbn in Hk; lia
  | Datatypes.S ?m' => let j := eval cbv in (Z.of_nat m') in destruct (Z.eq_dec k j) as [->|?]; [|zc k Hk m'] end.
Ltac csr3 := unfold csr_ok, ptr_ok; repeat match goal with |- _ /\ _ => split end; try (vm_compute; intuition congruence); intros ?k Hk; let m := constr:(6%nat) in zc k Hk m; try (exfalso; vm_compute in Hk; intuition discriminate); vm_compute; intuition congruence.
Ltac split3 := unfold split_ok; repeat match goal with |- _ /\ _ => split end; try reflexivity; try csr3; try (vm_compute; intuition congruence); intros e He; vm_compute in He; repeat (destruct He as [<-|He]; [vm_compute; reflexivity|]); destruct He.
Ltac nodup3 := unfold no_dup_pos; match goal with |- NoDup ?l => let l' := eval vm_compute in l in change (NoDup l') end; repeat (constructor; [cbn; intuition congruence|]); constructor.
Definition jI := fun _ : Z => 77.
Example C59_applies : split_ok exI /\ sp_np exI = sp_n exI /\ no_dup_pos (csr_entries (sp_L exI)) /\ no_dup_pos (csr_entries (sp_U exI)) /\
  (forall i, 0 <= i < sp_n exI -> coef (split_entries exI) i i = s1) /\
  exists P pb, create_is jI jI jI jI jI jI jI jI jI jI jI jI 2 1 exI [1; 1; 1] = Ok (P, pb) /\
    csr_ptr P = [0; 3; 6; 9] /\ csr_value P = [-15; -2; -17; -56; -69; -5; 6; 7; 1] /\ pb = [-3; -9; 1] /\
    psolve_is 2 1 exI [1; 1; 1] [0; 0; 0] = Ok [-3; -9; 1].
Proof.
  split; [split3|]. split; [reflexivity|]. split; [nodup3|]. split; [nodup3|]. split.
  - intros i Hi. let m := constr:(3%nat) in zc i Hi m; reflexivity.
  - eexists. eexists. split; [vm_compute; reflexivity|]. repeat split; vm_compute; reflexivity.
Qed.
(** one extra step with Jacobi of 2 1 / 0 2: x = D^-1 b + D^-1 (b - A D^-1 b) *)
Local Notation q k := (Q2Qc (inject_Z k)).
Definition exJ : csr Qc := mkCsr 2 2 3 [0; 2; 3] [0; 1; 1] [q 2; q 1; q 2].
Example C59_adds_applies : csr_ok exJ /\ exists x', psolve_adds (psolve_jacobi 2 [Q2Qc (1#2); Q2Qc (1#2)]) (matvec_csr exJ) 2 2 1 [q 4; q 4] [q 9; q 9] [q 9; q 9] = Ok x' /\ map this x' = [1; 2]%Q.
Proof. split; [csr3|]. eexists. split; [vm_compute; reflexivity|]. vm_compute. reflexivity. Qed.

(** With a diagonal element -1 (lis_matrix_scale with symmetric scaling leaves such diagonals, and
    lis_solve does not scale a matrix again) the new system loses the solution: x = (1,1,1) solves
    A x = b but not P x = Pb. *)
Theorem C59_is_diagonal_refuted : exists (A : split Z) b P pb x, split_ok A /\ sp_np A = sp_n A /\ no_dup_pos (csr_entries (sp_L A)) /\ no_dup_pos (csr_entries (sp_U A)) /\
  create_is jI jI jI jI jI jI jI jI jI jI jI jI 2 1 A b = Ok (P, pb) /\
  (forall i, 0 <= i < sp_n A -> mat_vec 0 (sp_n A) (coef (split_entries A)) x i = znth 0 b i) /\
  mat_vec 0 (sp_n A) (coef (csr_entries P)) x 0 <> znth 0 pb 0.
Proof.
  exists exN, [4; 10; 14]. eexists. eexists. exists (fun _ => 1). split; [split3|]. split; [reflexivity|]. split; [nodup3|]. split; [nodup3|]. split; [vm_compute; reflexivity|]. split.
  - intros i Hi. let m := constr:(3%nat) in zc i Hi m; vm_compute; reflexivity.
  - vm_compute. discriminate.
Qed.
Print Assumptions C59_is_diagonal_refuted.
