(** C58: the SAINV preconditioner.  [rows_at], [rows_ok], [biconjugation], [row_max], [keep_above],
    [sainv_mat], [positive_definite] are in SpecSainv.v; [mat_vec], [mat_vech] in SpecIlu.v. *)
Require Import ZArith List Bool Lia QArith Qcanon Reals Lra.
From Verif Require Import Base Scalar ScalarCQ ScalarReal Spec SpecIlu SpecIlut SpecSainv Sainv SainvFinal.
Import ListNotations.
Open Scope Z_scope.

(** For every matrix with at least 10 rows and every tolerance, creating the preconditioner runs
    without an out-of-range access (the rows of W and Z grow as needed); W and Z are unit lower
    triangular and are the rows of the incomplete biconjugation of A, where an update t is
    dropped in step i exactly if |t|/max|a_i.| <= tol; psolve is the multiplication by
    M = sum_i z_i d_i w_i^H and psolveh the multiplication by M^H.
    What the claim also says, and fails: matrices with fewer than 10 rows (C58_small_refuted),
    and that M approximates the inverse of a complex A (C58_complex_refuted). *)
Theorem C58_sainv_partial : forall (T : Type) (S : Scalar T), is_ring S -> forall jp jc ji jv tol (A : csr T), conj_ok S -> total_order S -> csr_ok A -> 10 <= csr_n A ->
  exists W Z_ d m, create_sainv jp jc ji jv tol A = Ok (W, Z_, d) /\
    let n := csr_n A in let np := csr_np A in
    let w := rows_at (m_nnz W) (m_ix W) (m_v W) in let z := rows_at (m_nnz Z_) (m_ix Z_) (m_v Z_) in
    rows_ok n (m_nnz W) (m_ix W) (m_v W) /\ rows_ok n (m_nnz Z_) (m_ix Z_) (m_v Z_) /\ zlen d = np /\
    (forall i, 0 <= i < n -> row_max (csr_entries A) i (m i)) /\
    biconjugation (keep_above tol m) n (coef (csr_entries A)) w z (znth s0 d) /\
    (forall j c, 0 <= j < n -> j <= c < n -> w j c = delta j c /\ z j c = delta j c) /\
    forall b x t, n <= zlen b -> zlen x = np -> n <= zlen t ->
      (exists y, psolve_sainv n np W Z_ d b x t = Ok y /\ zlen y = np /\ forall c, 0 <= c < np -> znth s0 y c = mat_vec 0 n (sainv_mat n w z (znth s0 d)) (znth s0 b) c) /\
      (exists y, psolveh_sainv n np W Z_ d b x t = Ok y /\ zlen y = np /\ forall c, 0 <= c < np -> znth s0 y c = mat_vech 0 n (sainv_mat n w z (znth s0 d)) (znth s0 b) c).
Proof. exact @sainv_final. Qed.
Print Assumptions C58_sainv_partial.

(** Real positive definite A (not necessarily symmetric), tolerance 0: the preconditioner is the
    inverse, psolve solves A x = b and psolveh solves A^T x = b. *)
Theorem C58_exact_inverse : forall jp jc ji jv (A : csr R), csr_ok A -> (10 <= csr_n A)%Z -> positive_definite (csr_n A) (coef (csr_entries A)) ->
  exists W Z_ d, create_sainv jp jc ji jv 0%R A = Ok (W, Z_, d) /\ forall b x t, (csr_n A <= zlen b)%Z -> zlen x = csr_np A -> (csr_n A <= zlen t)%Z ->
    (exists y, psolve_sainv (csr_n A) (csr_np A) W Z_ d b x t = Ok y /\ forall r, (0 <= r < csr_n A)%Z -> mat_vec 0 (csr_n A) (coef (csr_entries A)) (znth 0%R y) r = znth 0%R b r) /\
    (exists y, psolveh_sainv (csr_n A) (csr_np A) W Z_ d b x t = Ok y /\ forall r, (0 <= r < csr_n A)%Z -> mat_vech 0 (csr_n A) (coef (csr_entries A)) (znth 0%R y) r = znth 0%R b r).
Proof. exact @sainv_real. Qed.
Print Assumptions C58_exact_inverse.

(** With 1 to 9 rows annz = n/10 is 0, the rows are allocated with 0 elements, and the first
    assignment value[0][0] = 1 is out of range: every such matrix. *)
Theorem C58_small_refuted : forall (T : Type) (S : Scalar T) jp jc ji jv tol (A : csr T), csr_ok A -> (0 < csr_n A < 10)%Z -> create_sainv jp jc ji jv tol A = UB.
Proof. exact @sainv_small. Qed.
Print Assumptions C58_small_refuted.

(** ** Examples and refutations *)
Local Notation q k := (Q2Qc (inject_Z k)).
(** tridiagonal (1 4 2), 10 rows *)
Definition exS : csr Qc := mkCsr 10 10 28 [0; 2; 5; 8; 11; 14; 17; 20; 23; 26; 28]
  [0;1; 0;1;2; 1;2;3; 2;3;4; 3;4;5; 4;5;6; 5;6;7; 6;7;8; 7;8;9; 8;9]
  [q 4;q 2; q 1;q 4;q 2; q 1;q 4;q 2; q 1;q 4;q 2; q 1;q 4;q 2; q 1;q 4;q 2; q 1;q 4;q 2; q 1;q 4;q 2; q 1;q 4;q 2; q 1;q 4].
Ltac zcases k Hk m := lazymatch m with
  | O => exfalso; cbn in Hk; lia
  | Datatypes.S ?m' => let j := eval cbv in (Z.of_nat m') in destruct (Z.eq_dec k j) as [->|?]; [|zcases k Hk m'] end.
Ltac ptr_tac := intros ?k Hk; let m := constr:(30%nat) in zcases k Hk m; try (exfalso; vm_compute in Hk; intuition discriminate); try (vm_compute; intuition congruence).
Ltac csr_tacS := unfold csr_ok, ptr_ok; repeat match goal with |- _ /\ _ => split end; try (vm_compute; intuition congruence); ptr_tac.
Definition jzS := fun _ : Z => 77%Z.
Definition jiS := fun _ _ : Z => 77%Z.
Definition jqS := fun _ _ : Z => q 9.
(** with tolerance 0 row 9 of W is full, with tolerance 1/20 it keeps only 2 entries *)
Example C58_applies : csr_ok exS /\ 10 <= csr_n exS /\ exists W Z_ d W' Z_' d',
  create_sainv jzS jzS jiS jqS (q 0) exS = Ok (W, Z_, d) /\ create_sainv jzS jzS jiS jqS (Q2Qc (1#20)) exS = Ok (W', Z_', d') /\
  m_nnz W = [1;2;3;4;5;6;7;8;9;10] /\ m_nnz W' = [1;2;2;2;2;2;2;2;2;2].
Proof.
  split; [csr_tacS|]. split; [cbn; lia|]. do 6 eexists. split; [vm_compute; reflexivity|]. split; [vm_compute; reflexivity|]. split; vm_compute; reflexivity.
Qed.

(** a real matrix meeting the hypotheses of C58_exact_inverse: diagonal 2, and 1 at (1,0) *)
Definition exSR : csr R := mkCsr 10 10 11 [0; 1; 3; 4; 5; 6; 7; 8; 9; 10; 11]%Z [0;0;1;2;3;4;5;6;7;8;9]%Z [2;1;2;2;2;2;2;2;2;2;2]%R.
Lemma exSR_form x : bilinear 10 (coef (csr_entries exSR)) x x = (2 * (x 0%Z * x 0%Z) + x 1%Z * x 0%Z + 2 * (x 1%Z * x 1%Z) + 2 * (x 2%Z * x 2%Z) + 2 * (x 3%Z * x 3%Z) + 2 * (x 4%Z * x 4%Z) + 2 * (x 5%Z * x 5%Z) + 2 * (x 6%Z * x 6%Z) + 2 * (x 7%Z * x 7%Z) + 2 * (x 8%Z * x 8%Z) + 2 * (x 9%Z * x 9%Z))%R.
Proof. cbv -[Rplus Rmult IZR Rle]. ring. Qed.
Example C58_exact_applies : csr_ok exSR /\ (10 <= csr_n exSR)%Z /\ positive_definite (csr_n exSR) (coef (csr_entries exSR)).
Proof.
  split; [|split; [cbn; lia|]].
  - unfold csr_ok, ptr_ok; repeat match goal with |- _ /\ _ => split end; try (cbv; intuition congruence);
    intros k Hk; zcases k Hk 30%nat; try (exfalso; cbv in Hk; intuition discriminate); try (cbv; intuition congruence).
  - intros x [c [Hc Hx]]. change (csr_n exSR) with 10%Z in *. rewrite exSR_form.
    assert (P : forall k, (0 <= x k * x k)%R) by (intros k; apply Rle_0_sqr).
    assert (Q1 : (0 < x c * x c)%R) by (apply Rlt_0_sqr; exact Hx).
    assert (P1 : (0 <= (x 0%Z + x 1%Z) * (x 0%Z + x 1%Z))%R) by apply Rle_0_sqr.
    pose proof (P 0%Z). pose proof (P 1%Z). pose proof (P 2%Z). pose proof (P 3%Z). pose proof (P 4%Z). pose proof (P 5%Z). pose proof (P 6%Z). pose proof (P 7%Z). pose proof (P 8%Z). pose proof (P 9%Z).
    zcases c Hc 10%nat; nra.
Qed.

(** complex scalars: A is the identity plus i at (1,0), tolerance 0; nothing is dropped, but
    psolve multiplies by conj(W) where the inverse needs W, and does not solve A x = b. *)
Local Notation cq a b := ((q a, q b) : CQ).
Definition exSC : csr CQ := mkCsr 10 10 11 [0; 1; 3; 4; 5; 6; 7; 8; 9; 10; 11] [0;0;1;2;3;4;5;6;7;8;9]
  [cq 1 0;cq 0 1;cq 1 0;cq 1 0;cq 1 0;cq 1 0;cq 1 0;cq 1 0;cq 1 0;cq 1 0;cq 1 0].
Definition jcS := fun _ _ : Z => cq 9 9.
Definition zS : list CQ := map (fun _ => cq 0 0) (zrange 0 10).
Theorem C58_complex_refuted : exists W Z_ d y, csr_ok exSC /\ create_sainv jzS jzS jiS jcS (cq 0 0) exSC = Ok (W, Z_, d) /\
  psolve_sainv 10 10 W Z_ d (zupd zS 0 (cq 1 0)) zS zS = Ok y /\
  mat_vec 0 10 (coef (csr_entries exSC)) (znth s0 y) 1 = cq 0 2 /\ znth s0 (zupd zS 0 (cq 1 0)) 1 = cq 0 0.
Proof.
  do 4 eexists. split; [csr_tacS|]. split; [vm_compute; reflexivity|]. split; [vm_compute; reflexivity|]. split; vm_compute; reflexivity.
Qed.
Print Assumptions C58_complex_refuted.
