(** C28, C29: lis_matvec and lis_matvech, one theorem per storage format.
    [mv_spec E np x i] is the sum over j < np of A_ij x_j, [mvh_spec E n x j] the sum
    over i < n of conj(A_ij) x_i, for the coefficients of the stored entries E
    (Spec.v).  x and y may be longer than needed; y starts with arbitrary contents;
    "= Ok y'" says that no access is out of bounds.  The scalars form a ring:
    rounding is not modelled. *)
Require Import ZArith List Bool Lia Permutation.
From Verif Require Import Base Scalar Spec Matvec MatvecProof2 MatvecFinal.
Import ListNotations.
Open Scope Z_scope.

Theorem C28_matvec_csr : forall (T : Type) (S : Scalar T), is_ring S -> forall (A : csr T) x y, csr_ok A ->
  csr_np A <= zlen x -> csr_n A <= zlen y ->
  exists y', matvec_csr A x y = Ok y' /\ zlen y' = zlen y /\
    forall i, 0 <= i < csr_n A -> znth s0 y' i = mv_spec (csr_entries A) (csr_np A) (znth s0 x) i.
Proof. exact @matvec_csr_final. Qed.
Print Assumptions C28_matvec_csr.

Theorem C29_matvech_csr : forall (T : Type) (S : Scalar T), is_ring S -> conj_ok S -> forall (A : csr T) x y, csr_ok A ->
  csr_n A <= zlen x -> csr_np A <= zlen y ->
  exists y', matvech_csr A x y = Ok y' /\ zlen y' = zlen y /\
    forall i, 0 <= i < csr_np A -> znth s0 y' i = mvh_spec (csr_entries A) (csr_n A) (znth s0 x) i.
Proof. exact @matvech_csr_final. Qed.
Print Assumptions C29_matvech_csr.

Theorem C28_matvec_csc : forall (T : Type) (S : Scalar T), is_ring S -> forall (A : csc T) x y, csc_ok A ->
  csc_np A <= zlen x -> csc_n A <= zlen y ->
  exists y', matvec_csc A x y = Ok y' /\ zlen y' = zlen y /\
    forall i, 0 <= i < csc_n A -> znth s0 y' i = mv_spec (csc_entries A) (csc_np A) (znth s0 x) i.
Proof. exact @matvec_csc_final. Qed.
Print Assumptions C28_matvec_csc.

Theorem C29_matvech_csc : forall (T : Type) (S : Scalar T), is_ring S -> conj_ok S -> forall (A : csc T) x y, csc_ok A ->
  csc_n A <= zlen x -> csc_np A <= zlen y ->
  exists y', matvech_csc A x y = Ok y' /\ zlen y' = zlen y /\
    forall i, 0 <= i < csc_np A -> znth s0 y' i = mvh_spec (csc_entries A) (csc_n A) (znth s0 x) i.
Proof. exact @matvech_csc_final. Qed.
Print Assumptions C29_matvech_csc.

Theorem C28_matvec_coo : forall (T : Type) (S : Scalar T), is_ring S -> forall (A : coo T) x y, coo_ok A ->
  coo_np A <= zlen x -> coo_n A <= zlen y ->
  exists y', matvec_coo A x y = Ok y' /\ zlen y' = zlen y /\
    forall i, 0 <= i < coo_n A -> znth s0 y' i = mv_spec (coo_entries A) (coo_np A) (znth s0 x) i.
Proof. exact @matvec_coo_final. Qed.
Print Assumptions C28_matvec_coo.

(** only for values equal to their conjugates: see C29_matvech_coo_refuted *)
Theorem C29_matvech_coo_partial : forall (T : Type) (S : Scalar T), is_ring S -> conj_ok S -> forall (A : coo T) x y, coo_ok A ->
  coo_np A = coo_n A -> coo_n A <= zlen x -> coo_np A <= zlen y -> (forall e, In e (coo_entries A) -> sconj (eval e) = eval e) ->
  exists y', matvech_coo A x y = Ok y' /\ zlen y' = zlen y /\
    forall i, 0 <= i < coo_np A -> znth s0 y' i = mvh_spec (coo_entries A) (coo_n A) (znth s0 x) i.
Proof. exact @matvech_coo_final. Qed.
Print Assumptions C29_matvech_coo_partial.

Theorem C28_matvec_msr : forall (T : Type) (S : Scalar T), is_ring S -> forall (A : msr T) x y, msr_ok A ->
  msr_np A <= zlen x -> msr_n A <= zlen y ->
  exists y', matvec_msr A x y = Ok y' /\ zlen y' = zlen y /\
    forall i, 0 <= i < msr_n A -> znth s0 y' i = mv_spec (msr_entries A) (msr_np A) (znth s0 x) i.
Proof. exact @matvec_msr_final. Qed.
Print Assumptions C28_matvec_msr.

Theorem C29_matvech_msr : forall (T : Type) (S : Scalar T), is_ring S -> conj_ok S -> forall (A : msr T) x y, msr_ok A ->
  msr_np A = msr_n A -> msr_n A <= zlen x -> msr_np A <= zlen y ->
  exists y', matvech_msr A x y = Ok y' /\ zlen y' = zlen y /\
    forall i, 0 <= i < msr_np A -> znth s0 y' i = mvh_spec (msr_entries A) (msr_n A) (znth s0 x) i.
Proof. exact @matvech_msr_final. Qed.
Print Assumptions C29_matvech_msr.

Theorem C28_matvec_ell : forall (T : Type) (S : Scalar T), is_ring S -> forall (A : ell T) x y, ell_ok A ->
  ell_np A <= zlen x -> ell_n A <= zlen y ->
  exists y', matvec_ell A x y = Ok y' /\ zlen y' = zlen y /\
    forall i, 0 <= i < ell_n A -> znth s0 y' i = mv_spec (ell_entries A) (ell_np A) (znth s0 x) i.
Proof. exact @matvec_ell_final. Qed.
Print Assumptions C28_matvec_ell.

Theorem C29_matvech_ell : forall (T : Type) (S : Scalar T), is_ring S -> conj_ok S -> forall (A : ell T) x y, ell_ok A ->
  ell_np A = ell_n A -> ell_n A <= zlen x -> ell_np A <= zlen y ->
  exists y', matvech_ell A x y = Ok y' /\ zlen y' = zlen y /\
    forall i, 0 <= i < ell_np A -> znth s0 y' i = mvh_spec (ell_entries A) (ell_n A) (znth s0 x) i.
Proof. exact @matvech_ell_final. Qed.
Print Assumptions C29_matvech_ell.

Theorem C28_matvec_dns : forall (T : Type) (S : Scalar T), is_ring S -> forall (A : dns T) x y, dns_ok A ->
  dns_np A <= zlen x -> dns_n A <= zlen y ->
  exists y', matvec_dns A x y = Ok y' /\ zlen y' = zlen y /\
    forall i, 0 <= i < dns_n A -> znth s0 y' i = mv_spec (dns_entries A) (dns_np A) (znth s0 x) i.
Proof. exact @matvec_dns_final. Qed.
Print Assumptions C28_matvec_dns.

Theorem C29_matvech_dns : forall (T : Type) (S : Scalar T), is_ring S -> conj_ok S -> forall (A : dns T) x y, dns_ok A ->
  dns_n A <= zlen x -> dns_np A <= zlen y ->
  exists y', matvech_dns A x y = Ok y' /\ zlen y' = zlen y /\
    forall i, 0 <= i < dns_np A -> znth s0 y' i = mvh_spec (dns_entries A) (dns_n A) (znth s0 x) i.
Proof. exact @matvech_dns_final. Qed.
Print Assumptions C29_matvech_dns.

Theorem C28_matvec_dia : forall (T : Type) (S : Scalar T), is_ring S -> forall (A : dia T) x y, dia_ok A ->
  dia_np A <= zlen x -> dia_n A <= zlen y ->
  exists y', matvec_dia A x y = Ok y' /\ zlen y' = zlen y /\
    forall i, 0 <= i < dia_n A -> znth s0 y' i = mv_spec (dia_entries A) (dia_np A) (znth s0 x) i.
Proof. exact @matvec_dia_final. Qed.
Print Assumptions C28_matvec_dia.

Theorem C29_matvech_dia : forall (T : Type) (S : Scalar T), is_ring S -> conj_ok S -> forall (A : dia T) x y, dia_ok A ->
  dia_n A <= zlen x -> dia_np A <= zlen y ->
  exists y', matvech_dia A x y = Ok y' /\ zlen y' = zlen y /\
    forall i, 0 <= i < dia_np A -> znth s0 y' i = mvh_spec (dia_entries A) (dia_n A) (znth s0 x) i.
Proof. exact @matvech_dia_final. Qed.
Print Assumptions C29_matvech_dia.

Theorem C28_matvec_jad : forall (T : Type) (S : Scalar T), is_ring S -> forall jw (A : jad T) x y, jad_ok A ->
  jad_np A <= zlen x -> jad_n A <= zlen y ->
  exists y', matvec_jad jw A x y = Ok y' /\ zlen y' = zlen y /\
    forall i, 0 <= i < jad_n A -> znth s0 y' i = mv_spec (jad_entries A) (jad_np A) (znth s0 x) i.
Proof. exact @matvec_jad_final. Qed.
Print Assumptions C28_matvec_jad.

Theorem C29_matvech_jad : forall (T : Type) (S : Scalar T), is_ring S -> conj_ok S -> forall (A : jad T) x y, jad_ok A ->
  jad_n A <= zlen x -> jad_np A <= zlen y ->
  exists y', matvech_jad A x y = Ok y' /\ zlen y' = zlen y /\
    forall i, 0 <= i < jad_np A -> znth s0 y' i = mvh_spec (jad_entries A) (jad_n A) (znth s0 x) i.
Proof. exact @matvech_jad_final. Qed.
Print Assumptions C29_matvech_jad.

Theorem C28_matvec_bsr : forall (T : Type) (S : Scalar T), is_ring S -> eqb_ok S -> forall (A : bsr T) x y, bsr_ok A ->
  cover (bsr_np A) (bsr_bnc A) <= zlen x -> bsr_nr A * bsr_bnr A <= zlen y ->
  exists y', matvec_bsr A x y = Ok y' /\ zlen y' = zlen y /\
    forall i, 0 <= i < bsr_n A -> znth s0 y' i = mv_spec (bsr_entries A) (bsr_np A) (znth s0 x) i.
Proof. exact @matvec_bsr_final. Qed.
Print Assumptions C28_matvec_bsr.

Theorem C29_matvech_bsr : forall (T : Type) (S : Scalar T), is_ring S -> eqb_ok S -> conj_ok S -> forall (A : bsr T) x y, bsr_ok A ->
  bsr_nr A * bsr_bnr A <= zlen x -> cover (bsr_np A) (bsr_bnc A) <= zlen y -> bsr_n A <= zlen y ->
  exists y', matvech_bsr A x y = Ok y' /\ zlen y' = zlen y /\
    forall i, 0 <= i < bsr_np A -> znth s0 y' i = mvh_spec (bsr_entries A) (bsr_n A) (znth s0 x) i.
Proof. exact @matvech_bsr_final. Qed.
Print Assumptions C29_matvech_bsr.

Theorem C28_matvec_bsc : forall (T : Type) (S : Scalar T), is_ring S -> eqb_ok S -> forall (A : bsc T) x y, bsc_ok A ->
  bsc_nc A * bsc_bnc A <= zlen x -> cover (bsc_n A) (bsc_bnr A) <= zlen y -> bsc_n A <= zlen y ->
  exists y', matvec_bsc A x y = Ok y' /\ zlen y' = zlen y /\
    forall i, 0 <= i < bsc_n A -> znth s0 y' i = mv_spec (bsc_entries A) (bsc_np A) (znth s0 x) i.
Proof. exact @matvec_bsc_final. Qed.
Print Assumptions C28_matvec_bsc.

Theorem C29_matvech_bsc : forall (T : Type) (S : Scalar T), is_ring S -> eqb_ok S -> conj_ok S -> forall (A : bsc T) x y, bsc_ok A ->
  cover (bsc_n A) (bsc_bnr A) <= zlen x -> bsc_nc A * bsc_bnc A <= zlen y ->
  exists y', matvech_bsc A x y = Ok y' /\ zlen y' = zlen y /\
    forall i, 0 <= i < bsc_np A -> znth s0 y' i = mvh_spec (bsc_entries A) (bsc_n A) (znth s0 x) i.
Proof. exact @matvech_bsc_final. Qed.
Print Assumptions C29_matvech_bsc.

Theorem C28_matvec_vbr : forall (T : Type) (S : Scalar T), is_ring S -> forall (A : vbr T) x y, vbr_ok A ->
  vbr_np A <= zlen x -> vbr_n A <= zlen y ->
  exists y', matvec_vbr A x y = Ok y' /\ zlen y' = zlen y /\
    forall i, 0 <= i < vbr_n A -> znth s0 y' i = mv_spec (vbr_entries A) (vbr_np A) (znth s0 x) i.
Proof. exact @matvec_vbr_final. Qed.
Print Assumptions C28_matvec_vbr.

Theorem C29_matvech_vbr : forall (T : Type) (S : Scalar T), is_ring S -> conj_ok S -> forall (A : vbr T) x y, vbr_ok A ->
  vbr_np A = vbr_n A -> vbr_n A <= zlen x -> vbr_np A <= zlen y ->
  exists y', matvech_vbr A x y = Ok y' /\ zlen y' = zlen y /\
    forall i, 0 <= i < vbr_np A -> znth s0 y' i = mvh_spec (vbr_entries A) (vbr_n A) (znth s0 x) i.
Proof. exact @matvech_vbr_final. Qed.
Print Assumptions C29_matvech_vbr.

(** ** what the matrices above look like: concrete instances of every hypothesis *)
Ltac small := intros; repeat match goal with H : _ <= ?k < _ |- _ => progress cbn in H end;
  match goal with k : Z |- _ => first
    [ lia | assert (k = 0) by lia | assert (k = 0 \/ k = 1) by lia | assert (k = 0 \/ k = 1 \/ k = 2) by lia
    | assert (k = 0 \/ k = 1 \/ k = 2 \/ k = 3) by lia | assert (k = 0 \/ k = 1 \/ k = 2 \/ k = 3 \/ k = 4) by lia
    | assert (k = 0 \/ k = 1 \/ k = 2 \/ k = 3 \/ k = 4 \/ k = 5) by lia] end;
  repeat match goal with H : _ \/ _ |- _ => destruct H end; subst; vm_compute; intuition congruence.
Ltac okt := repeat match goal with |- _ /\ _ => split end; try (vm_compute; intuition congruence); try small.

(** [5 0 7; 0 3 0; 2 0 4], with a duplicate (0,0) in the COO version *)
Definition eA : csr Z := mkCsr 3 3 5 [0;2;3;5] [0;2;1;0;2] [5;7;3;2;4].
Definition eC : csc Z := mkCsc 3 3 5 [0;2;3;5] [0;2;1;0;2] [5;2;3;7;4].
Definition eO : coo Z := mkCoo 3 3 6 [2;0;1;0;2;0] [2;2;1;0;0;0] [4;7;3;3;2;2].
Definition eM : msr Z := mkMsr 3 3 5 0 [4;5;5;6;2;0] [5;3;4;99;7;2].
Definition eE : ell Z := mkEll 3 3 2 [0;1;0;2;1;2] [5;3;2;7;0;4].
Definition eD : dns Z := mkDns 3 3 [5;0;2;0;3;0;7;0;4].
Definition eI : dia Z := mkDia 3 3 3 [-2;0;2] [99;99;2;5;3;4;7;99;99].
Definition eJ : jad Z := mkJad 3 3 5 2 [0;2;1] [0;3;5] [0;0;1;2;2] [5;2;3;7;4].
Definition eB : bsr Z := mkBsr 3 3 2 2 2 4 [0;2;4] [0;1;0;1] [5;0;0;3; 7;0;0;0; 2;0;0;0; 4;0;0;0].
Definition eS : bsc Z := mkBsc 3 3 2 2 2 4 [0;2;4] [0;1;0;1] [5;0;0;3; 2;0;0;0; 7;0;0;0; 4;0;0;0].
Definition eV : vbr Z := mkVbr 3 3 2 2 4 9 [0;2;3] [0;2;3] [0;4;6;8;9] [0;2;4] [0;1;0;1] [5;0;0;3; 7;0; 2;0; 4].

Example C28_ex :
  matvec_csr eA [1;2;3] [9;9;9] = Ok [26;6;14] /\ matvec_csc eC [1;2;3] [9;9;9] = Ok [26;6;14] /\
  matvec_coo eO [1;2;3] [9;9;9] = Ok [26;6;14] /\ matvec_msr eM [1;2;3] [9;9;9] = Ok [26;6;14] /\
  matvec_ell eE [1;2;3] [9;9;9] = Ok [26;6;14] /\ matvec_dns eD [1;2;3] [9;9;9] = Ok [26;6;14] /\
  matvec_dia eI [1;2;3] [9;9;9] = Ok [26;6;14] /\ matvec_jad (fun _ => 8) eJ [1;2;3] [9;9;9] = Ok [26;6;14] /\
  matvec_bsr eB [1;2;3;77] [9;9;9;9] = Ok [26;6;14;0] /\ matvec_bsr_gen eB [1;2;3;77] [9;9;9;9] = Ok [26;6;14;9] /\
  matvec_bsc eS [1;2;3;77] [9;9;9;9] = Ok [26;6;14;9] /\ matvec_vbr eV [1;2;3] [9;9;9] = Ok [26;6;14].
Proof. vm_compute. repeat split. Qed.

Example C29_ex :
  matvech_csr eA [1;2;3] [9;9;9] = Ok [11;6;19] /\ matvech_csc eC [1;2;3] [9;9;9] = Ok [11;6;19] /\
  matvech_coo eO [1;2;3] [9;9;9] = Ok [11;6;19] /\ matvech_msr eM [1;2;3] [9;9;9] = Ok [11;6;19] /\
  matvech_ell eE [1;2;3] [9;9;9] = Ok [11;6;19] /\ matvech_dns eD [1;2;3] [9;9;9] = Ok [11;6;19] /\
  matvech_dia eI [1;2;3] [9;9;9] = Ok [11;6;19] /\ matvech_jad eJ [1;2;3] [9;9;9] = Ok [11;6;19] /\
  matvech_bsr eB [1;2;3;0] [9;9;9;9] = Ok [11;6;19;9] /\
  matvech_bsc eS [1;2;3;0] [9;9;9;9] = Ok [11;6;19;9] /\ matvech_vbr eV [1;2;3] [9;9;9] = Ok [11;6;19].
Proof. vm_compute. repeat split. Qed.

Example C28_hyp_csr : csr_ok eA. Proof. unfold csr_ok, ptr_ok; okt. Qed.
Example C28_hyp_csc : csc_ok eC. Proof. unfold csc_ok, ptr_ok; okt. Qed.
Example C28_hyp_coo : coo_ok eO. Proof. unfold coo_ok; okt. Qed.
Example C28_hyp_msr : msr_ok eM.
Proof. unfold msr_ok; repeat match goal with |- _ /\ _ => split end; try (vm_compute; intuition congruence); try small.
  intros k Hk. change (3 < k < 6) in Hk. assert (k = 4 \/ k = 5) as [-> | ->] by lia; vm_compute; intuition congruence. Qed.
Example C28_hyp_ell : ell_ok eE. Proof. unfold ell_ok; okt. Qed.
Example C28_hyp_dns : dns_ok eD. Proof. unfold dns_ok; okt. Qed.
Example C28_hyp_dia : dia_ok eI. Proof. unfold dia_ok; okt. Qed.
Example C28_hyp_jad : jad_ok eJ.
Proof.
  unfold jad_ok, ptr_ok; repeat match goal with |- _ /\ _ => split end; try (vm_compute; intuition congruence); try small.
  vm_compute. apply perm_skip. apply perm_swap.
Qed.
Example C28_hyp_bsr : bsr_ok eB.
Proof.
  unfold bsr_ok, ptr_ok; repeat match goal with |- _ /\ _ => split end; try (vm_compute; intuition congruence); try small.
  intros e He. vm_compute in He. intuition; subst; vm_compute; intuition congruence.
Qed.
Example C28_hyp_bsc : bsc_ok eS.
Proof.
  unfold bsc_ok, ptr_ok; repeat match goal with |- _ /\ _ => split end; try (vm_compute; intuition congruence); try small.
  intros e He. vm_compute in He. intuition; subst; vm_compute; intuition congruence.
Qed.
Example C28_hyp_vbr : vbr_ok eV.
Proof.
  unfold vbr_ok, ptr_ok; repeat match goal with |- _ /\ _ => split end; try (vm_compute; intuition congruence); try small.
  intros bi bj Hi Hj. cbn in Hi. assert (bi = 0 \/ bi = 1) as [-> | ->] by lia; [change (0 <= bj < 2) in Hj|change (2 <= bj < 4) in Hj].
  - assert (bj = 0 \/ bj = 1) as [-> | ->] by lia; vm_compute; intuition congruence.
  - assert (bj = 2 \/ bj = 3) as [-> | ->] by lia; vm_compute; intuition congruence.
Qed.
(** the scalars of the examples satisfy the algebraic hypotheses; so do Gaussian
    integers, where conj is not the identity *)
Example C28_scalars : is_ring ScalarZ /\ eqb_ok ScalarZ /\ conj_ok ScalarZ /\ is_ring ScalarG /\ eqb_ok ScalarG /\ conj_ok ScalarG.
Proof. repeat split; first [apply ScalarZ_ring|apply ScalarZ_eqb|apply ScalarZ_conj|apply ScalarG_ring|apply ScalarG_eqb|apply ScalarG_conj]. Qed.

(** ** C29 fails for complex COO matrices: lis_matvech_coo does not conjugate.
    Scalars are Gaussian integers (re, im); the 1 x 1 matrix [i]. *)
Theorem C29_matvech_coo_refuted :
  exists (A : coo (Z * Z)) x y y', coo_ok A /\ coo_np A = coo_n A /\ matvech_coo A x y = Ok y' /\
    znth s0 y' 0 <> mvh_spec (coo_entries A) (coo_n A) (znth s0 x) 0.
Proof.
  exists (mkCoo 1 1 1 [0] [0] [(0, 1)]), [(1, 0)], [(0, 0)], [(0, 1)].
  split; [unfold coo_ok; okt|]. vm_compute. intuition congruence.
Qed.
Print Assumptions C29_matvech_coo_refuted.
