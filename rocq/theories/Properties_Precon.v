(** C45: the preconditioners none, Jacobi, SSOR and ILU(k) solve M x = b for the documented M.
    [mat_vec], [mat_mul], [level_le], [stored_in], [unit_lower], [upper_with] are in SpecIlu.v,
    [diag_part], [ssor_matrix] in SpecPrecon.v. *)
Require Import ZArith List Bool Lia QArith Qcanon.
From Verif Require Import Base Scalar ScalarCQ Spec Split SpecIlu Ilu IluFinal Precon SpecPrecon PreconProof.
Import ListNotations.
Open Scope Z_scope.

(** no preconditioning: x = b *)
Theorem C45_none : forall (T : Type) (S : Scalar T) n (b x : list T), 0 <= n -> n <= zlen b -> n <= zlen x ->
  exists x', psolve_none n b x = Ok x' /\ zlen x' = zlen x /\ (forall i, n <= i -> znth s0 x' i = znth s0 x i) /\ forall i, 0 <= i < n -> znth s0 x' i = znth s0 b i.
Proof. exact @psolve_none_final. Qed.
Print Assumptions C45_none.

(** Jacobi: M is the diagonal of A *)
Theorem C45_jacobi : forall (T : Type) (S : Scalar T), is_ring S -> is_field S -> forall jd (A : csr T), csr_ok A -> no_dup_pos (csr_entries A) ->
  (forall i, 0 <= i < csr_n A -> coef (csr_entries A) i i <> s0) ->
  exists d, create_jacobi jd A = Ok d /\ forall b x, csr_n A <= zlen b -> csr_n A <= zlen x ->
    (exists x', psolve_jacobi (csr_n A) d b x = Ok x' /\ zlen x' = zlen x /\ (forall i, csr_n A <= i -> znth s0 x' i = znth s0 x i) /\
       forall i, 0 <= i < csr_n A -> mat_vec 0 (csr_n A) (diag_part (coef (csr_entries A))) (znth s0 x') i = znth s0 b i) /\
    (conj_ok S -> exists x', psolveh_jacobi (csr_n A) d b x = Ok x' /\ zlen x' = zlen x /\ (forall i, csr_n A <= i -> znth s0 x' i = znth s0 x i) /\
       forall i, 0 <= i < csr_n A -> mat_vech 0 (csr_n A) (diag_part (coef (csr_entries A))) (znth s0 x') i = znth s0 b i).
Proof. exact @jacobi_final. Qed.
Print Assumptions C45_jacobi.

(** ILU(k), rows [is_,ie) handled by one thread (serial: is_=0, ie=n): the pattern of L and U
    is exactly the positions of fill level at most levfill; M=(I+L)(d+U) agrees with A on that
    pattern; psolve and psolveh solve M x = b and M^H x = b. *)
Theorem C45_ilu : forall (T : Type) (S : Scalar T), is_ring S -> is_field S -> forall (A : csr T) levfill is_ ie jj jl jw jlv juv jd jw',
  csr_ok A -> no_dup_pos (csr_entries A) -> 0 <= levfill -> 0 <= is_ <= ie -> ie <= csr_n A ->
  exists F, create_iluk jj jl jw jlv juv jd jw' levfill is_ ie A = Ok F /\
    (forall i c, is_ <= i < ie -> (In c (znth [] (fa_L F) i) <-> c < i /\ level_le (stored_in is_ ie (csr_entries A)) levfill i c) /\
       (In c (znth [] (fa_U F) i) <-> i < c /\ level_le (stored_in is_ ie (csr_entries A)) levfill i c)) /\
    exists d, (forall i, is_ <= i < ie -> znth s0 (fa_D F) i = sdiv s1 (d i)) /\
      let M := mat_mul is_ ie (unit_lower (fa_L F) (fa_Lv F)) (upper_with d (fa_U F) (fa_Uv F)) in
      (forall i c, is_ <= i < ie -> (forall k, is_ <= k < i -> d k <> s0) -> c = i \/ level_le (stored_in is_ ie (csr_entries A)) levfill i c ->
         M i c = coef (csr_entries A) i c) /\
      ((forall i, is_ <= i < ie -> d i <> s0) -> forall b, ie <= zlen b ->
        (exists x, psolve_iluk is_ ie F b = Ok x /\ zlen x = zlen b /\ (forall c, ~ (is_ <= c < ie) -> znth s0 x c = znth s0 b c) /\
           forall i, is_ <= i < ie -> mat_vec is_ ie M (znth s0 x) i = znth s0 b i) /\
        (conj_ok S -> exists x, psolveh_iluk is_ ie F b = Ok x /\ zlen x = zlen b /\ (forall c, ~ (is_ <= c < ie) -> znth s0 x c = znth s0 b c) /\
           forall i, is_ <= i < ie -> mat_vech is_ ie M (znth s0 x) i = znth s0 b i)).
Proof. exact @iluk_final. Qed.
Print Assumptions C45_ilu.

(** with enough levels that no fill is dropped, applying the preconditioner solves A x = b *)
Theorem C45_ilu_exact : forall (T : Type) (S : Scalar T), is_ring S -> is_field S -> forall (A : csr T) levfill is_ ie jj jl jw jlv juv jd jw',
  csr_ok A -> no_dup_pos (csr_entries A) -> 0 <= levfill -> 0 <= is_ <= ie -> ie <= csr_n A ->
  (forall i j l, fills (stored_in is_ ie (csr_entries A)) i j l -> level_le (stored_in is_ ie (csr_entries A)) levfill i j) ->
  exists F, create_iluk jj jl jw jlv juv jd jw' levfill is_ ie A = Ok F /\
    exists d, (forall i, is_ <= i < ie -> znth s0 (fa_D F) i = sdiv s1 (d i)) /\
      ((forall i, is_ <= i < ie -> d i <> s0) -> forall b, ie <= zlen b ->
        exists x, psolve_iluk is_ ie F b = Ok x /\ zlen x = zlen b /\ (forall c, ~ (is_ <= c < ie) -> znth s0 x c = znth s0 b c) /\
           forall i, is_ <= i < ie -> mat_vec is_ ie (coef (csr_entries A)) (znth s0 x) i = znth s0 b i).
Proof. exact @iluk_exact. Qed.
Print Assumptions C45_ilu_exact.

(** SSOR.  The documented matrix is [ssor_matrix n w]; what is proved is that the code solves
    with [ssor_matrix n (1/w)]: the claim holds as documented for w=1 only. *)
Theorem C45_ssor_partial : forall (T : Type) (S : Scalar T), is_ring S -> is_field S -> forall jlp jli jlv jup jui juv jd w (A : csr T),
  csr_ok A -> no_dup_pos (csr_entries A) -> csr_np A = csr_n A ->
  (forall i, 0 <= i < csr_n A -> has_diag (csr_entries A) i = true) -> (forall i, 0 <= i < csr_n A -> coef (csr_entries A) i i <> s0) -> w <> s0 ->
  exists A', create_ssor jlp jli jlv jup jui juv jd w (mkPmat A None None) = Ok A' /\ forall b x, csr_n A <= zlen b -> csr_n A <= zlen x ->
    (exists x', psolve_ssor A' b x = Ok x' /\ zlen x' = zlen x /\
       forall i, 0 <= i < csr_n A -> mat_vec 0 (csr_n A) (ssor_matrix (csr_n A) (sdiv s1 w) (coef (csr_entries A))) (znth s0 x') i = znth s0 b i) /\
    (conj_ok S -> exists x', psolveh_ssor A' b = Ok x' /\ zlen x' = zlen b /\
       forall i, 0 <= i < csr_n A -> mat_vech 0 (csr_n A) (ssor_matrix (csr_n A) (sdiv s1 w) (coef (csr_entries A))) (znth s0 x') i = znth s0 b i).
Proof. exact @create_ssor_wp. Qed.
Print Assumptions C45_ssor_partial.

(** ** Examples and refutations *)
Local Notation q k := (Q2Qc (inject_Z k)).
Definition q2 : Qc := q 2.
Definition exA : csr Qc := mkCsr 3 3 7 [0; 2; 5; 7] [1; 0; 2; 0; 1; 2; 0] [q 1; q 4; q 1; q 1; q 3; q 5; q 2].
Ltac small3 := intros ?k Hk; let K := fresh in assert (K : (k = 0 \/ k = 1 \/ k = 2 \/ k = 3 \/ k = 4 \/ k = 5 \/ k = 6)%Z) by (cbn in Hk; lia);
  repeat (destruct K as [->|K]; [try (vm_compute in Hk; intuition discriminate); try (vm_compute; intuition congruence)|]); try (subst k; try (vm_compute in Hk; intuition discriminate); vm_compute; intuition congruence).
Ltac csr_tac3 := unfold csr_ok, ptr_ok; repeat match goal with |- _ /\ _ => split end; try (vm_compute; intuition congruence); small3.
Example exA_meets : csr_ok exA /\ no_dup_pos (csr_entries exA) /\ csr_np exA = csr_n exA /\ (forall i, 0 <= i < csr_n exA -> has_diag (csr_entries exA) i = true) /\
  (forall i, 0 <= i < csr_n exA -> coef (csr_entries exA) i i <> s0) /\ q2 <> s0.
Proof.
  split; [csr_tac3|]. split; [unfold no_dup_pos; vm_compute; repeat constructor; simpl; intuition congruence|]. split; [reflexivity|]. split; [small3|]. split; [small3|vm_compute; congruence].
Qed.
Ltac qlist := match goal with |- [] = [] => reflexivity | |- _ :: _ = _ :: _ => apply (f_equal2 (@cons Qc)); [apply Qc_is_canon; vm_compute; reflexivity| qlist] end.
Definition jz := fun _ : Z => 77%Z.
Definition jq := fun _ : Z => q 9.
(** a factorisation that fills: ILU(0) drops (2,1), ILU(1) keeps it, and then no fill is dropped *)
Example exA_ilu : exists F0 F1, create_iluk jz jz jz (fun _ => jq) (fun _ => jq) jq jz 0 0 3 exA = Ok F0 /\ create_iluk jz jz jz (fun _ => jq) (fun _ => jq) jq jz 1 0 3 exA = Ok F1 /\
  fa_L F0 = [[]; [0]; [0]] /\ fa_U F0 = [[1]; [2]; []] /\ fa_L F1 = [[]; [0]; [0; 1]] /\ fa_U F1 = [[1]; [2]; []] /\
  (forall i, 0 <= i < 3 -> znth s0 (fa_D F1) i <> s0).
Proof. eexists. eexists. split; [vm_compute; reflexivity|]. split; [vm_compute; reflexivity|]. do 4 (split; [reflexivity|]). small3. Qed.
Example exA_pre : exists d x A' y, create_jacobi jq exA = Ok d /\ psolve_jacobi 3 d [q 4; q 3; q 5] [q 0; q 0; q 0] = Ok x /\ x = [q 1; q 1; q 1] /\
  create_ssor jz jz jq jz jz jq jq q2 (mkPmat exA None None) = Ok A' /\ psolve_ssor A' [q 8; q 7; q 12] [q 0; q 0; q 0] = Ok y /\ y = [Q2Qc (43 # 48); Q2Qc (5 # 6); q 1].
Proof.
  do 4 eexists. split; [vm_compute; reflexivity|]. split; [vm_compute; reflexivity|].
  split; [qlist|]. split; [vm_compute; reflexivity|]. split; [vm_compute; reflexivity|].
  qlist.
Qed.

(** -ssor_omega 2 is not the preconditioner (D/w+L)(I+w D^-1 U) with w=2 *)
Theorem C45_ssor_omega_refuted : exists (w : Qc) (A : csr Qc) A' b x x', csr_ok A /\ no_dup_pos (csr_entries A) /\ csr_np A = csr_n A /\
  (forall i, 0 <= i < csr_n A -> has_diag (csr_entries A) i = true) /\ (forall i, 0 <= i < csr_n A -> coef (csr_entries A) i i <> s0) /\ w <> s0 /\
  csr_n A <= zlen b /\ csr_n A <= zlen x /\
  create_ssor jz jz jq jz jz jq jq w (mkPmat A None None) = Ok A' /\ psolve_ssor A' b x = Ok x' /\
  exists i, 0 <= i < csr_n A /\ mat_vec 0 (csr_n A) (ssor_matrix (csr_n A) w (coef (csr_entries A))) (znth s0 x') i <> znth s0 b i.
Proof.
  exists q2, exA. do 2 eexists. exists [q 0; q 0; q 0]. eexists. destruct exA_meets as (H1 & H2 & H3 & H4 & H5 & H6). do 6 (split; [assumption|]).
  split; [instantiate (1 := [q 8; q 7; q 12]); vm_compute; congruence|]. split; [vm_compute; congruence|]. split; [vm_compute; reflexivity|]. split; [vm_compute; reflexivity|]. exists 0. split; [vm_compute; intuition congruence|]. vm_compute. congruence.
Qed.
Print Assumptions C45_ssor_omega_refuted.

(** Creating the preconditioner again with another omega (a second lis_solve on the same
    matrix) leaves the old one in place: the result solves neither the system of the new
    omega nor that of its inverse. *)
Theorem C45_ssor_recreate_refuted : exists (w w' : Qc) (A : csr Qc) A1 A2 b x x', csr_ok A /\ no_dup_pos (csr_entries A) /\ csr_np A = csr_n A /\
  (forall i, 0 <= i < csr_n A -> has_diag (csr_entries A) i = true) /\ (forall i, 0 <= i < csr_n A -> coef (csr_entries A) i i <> s0) /\ w <> s0 /\ w' <> s0 /\
  create_ssor jz jz jq jz jz jq jq w (mkPmat A None None) = Ok A1 /\ create_ssor jz jz jq jz jz jq jq w' A1 = Ok A2 /\ psolve_ssor A2 b x = Ok x' /\
  exists i, 0 <= i < csr_n A /\ mat_vec 0 (csr_n A) (ssor_matrix (csr_n A) w' (coef (csr_entries A))) (znth s0 x') i <> znth s0 b i /\
    mat_vec 0 (csr_n A) (ssor_matrix (csr_n A) (sdiv s1 w') (coef (csr_entries A))) (znth s0 x') i <> znth s0 b i.
Proof.
  exists q2, (q 3), exA. do 2 eexists. exists [q 8; q 7; q 12], [q 0; q 0; q 0]. eexists. destruct exA_meets as (H1 & H2 & H3 & H4 & H5 & H6). do 6 (split; [assumption|]).
  split; [vm_compute; congruence|]. split; [vm_compute; reflexivity|]. split; [vm_compute; reflexivity|]. split; [vm_compute; reflexivity|]. exists 0. split; [vm_compute; intuition congruence|]. split; vm_compute; congruence.
Qed.
Print Assumptions C45_ssor_recreate_refuted.

(** A row that stores the same column several times, which lis_matrix_set_csr and the
    Matrix Market reader accept, makes the symbolic factorisation write past its buffer. *)
Theorem C45_ilu_duplicates_refuted : exists (A : csr Qc), csr_ok A /\ csr_np A = csr_n A /\
  create_iluk jz jz jz (fun _ => jq) (fun _ => jq) jq jz 0 0 (csr_n A) A = UB.
Proof. exists (mkCsr 2 2 6 [0; 4; 6] [0; 1; 1; 1; 0; 1] [q 1; q 1; q 1; q 1; q 1; q 1]). split; [|split; [reflexivity|vm_compute; reflexivity]]. csr_tac3. Qed.
Print Assumptions C45_ilu_duplicates_refuted.

(** In the OpenMP build lis_psolveh uses D where it needs its conjugate: with complex
    scalars M^H x = b is not solved. *)
Theorem C45_ilu_omp_psolveh_refuted : exists (A : csr CQ) F d b x, csr_ok A /\ no_dup_pos (csr_entries A) /\
  create_iluk jz jz jz (fun _ _ => s0) (fun _ _ => s0) (fun _ => s0) jz 0 0 (csr_n A) A = Ok F /\
  (forall i, 0 <= i < csr_n A -> znth s0 (fa_D F) i = sdiv s1 (d i) /\ d i <> s0) /\
  psolveh_iluk_omp 0 (csr_n A) F b = Ok x /\
  exists i, 0 <= i < csr_n A /\ mat_vech 0 (csr_n A) (mat_mul 0 (csr_n A) (unit_lower (fa_L F) (fa_Lv F)) (upper_with d (fa_U F) (fa_Uv F))) (znth s0 x) i <> znth s0 b i.
Proof.
  exists (mkCsr 1 1 1 [0; 1] [0] [(q 0, q 1)]). eexists. exists (fun _ => (q 0, q 1)), [(q 1, q 0)]. eexists. split; [csr_tac3|]. split; [unfold no_dup_pos; vm_compute; repeat constructor; simpl; intuition congruence|].
  split; [vm_compute; reflexivity|]. split; [intros i Hi; assert (i = 0) by (cbn in Hi; lia); subst i; split; [apply (f_equal2 pair); apply Qc_is_canon; vm_compute; reflexivity|vm_compute; congruence]|]. split; [vm_compute; reflexivity|].
  exists 0. split; [vm_compute; intuition congruence|]. vm_compute. congruence.
Qed.
Print Assumptions C45_ilu_omp_psolveh_refuted.
