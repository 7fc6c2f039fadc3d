(** C51: quad-precision vectors and matrix-vector products.

    [elt x i] is element i of a quad vector, [val] its real number (hi + lo),
    [normal] and [fin] as for C50.  [near q s t k]: if q did not overflow, it
    is s up to k * (2^-100 t + 2^-1069).  [q_fast_add] and [no_fma] hold in
    every build configure --enable-quad produces without --enable-fma.
    Vocabulary: SpecQuad.v, SpecQuadVec.v, Spec.v. *)
From Coq Require Import ZArith Reals List Bool Lia.
From Flocq Require Import Core BinarySingleNaN.
From Verif Require Import Base Scalar ScalarReal Spec Quad SpecQuad QuadFinal2 Omp SpecQuadVec QuadVec QuadVecFinal QuadVecFinal2 QuadVecFinal3.
Import ListNotations.
Open Scope Z_scope.

(** * Elementwise operations, scalar or SSE2, with or without OpenMP. *)
Theorem C51_axpy : forall g threads n (alpha : b64 * b64) x y,
  q_fast_add g = true -> no_fma g -> threads_ok threads ->
  0 <= n <= zlen y -> normal alpha -> normal_upto n x ->
  exists y', axpyex g threads n alpha x y = Ok y' /\
    updated n y y' (fun i => val (elt y i)) (fun i => (val alpha * val (elt x i))%R) (fun i => normal (elt y i)).
Proof. intros g threads n alpha x y G NF. exact (f_axpy g G NF threads n alpha x y). Qed.

Theorem C51_axpyz : forall g threads n (alpha : b64 * b64) x y z,
  q_fast_add g = true -> no_fma g -> threads_ok threads ->
  0 <= n <= zlen y -> n <= zlen z -> normal alpha -> normal_upto n x ->
  exists z', axpyzex g threads n alpha x y z = Ok z' /\
    updated n z z' (fun i => val (elt y i)) (fun i => (val alpha * val (elt x i))%R) (fun i => normal (elt y i)).
Proof. intros g threads n alpha x y z G NF. exact (f_axpyz g G NF threads n alpha x y z). Qed.

Theorem C51_xpay : forall g threads n x (alpha : b64 * b64) y,
  q_fast_add g = true -> no_fma g -> threads_ok threads ->
  0 <= n <= zlen x -> normal alpha -> normal_upto n y ->
  exists y', xpayex g threads n x alpha y = Ok y' /\
    updated n y y' (fun i => val (elt x i)) (fun i => (val alpha * val (elt y i))%R) (fun i => normal (elt x i)).
Proof. intros g threads n x alpha y G NF. exact (f_xpay g G NF threads n x alpha y). Qed.

Theorem C51_scale : forall g threads n (alpha : b64 * b64) x,
  no_fma g -> threads_ok threads -> 0 <= n -> normal alpha -> normal_upto n x ->
  exists y, scaleex_mm g threads n alpha x = Ok y /\ zlen y = zlen x /\ (forall i, n <= i -> elt y i = elt x i) /\
    forall i, 0 <= i < n -> fin (elt y i) -> normal (elt y i) /\
      (Rabs (val (elt y i) - val (elt x i) * val alpha) <= bpow radix2 (-102) * Rabs (val (elt x i) * val alpha) + bpow radix2 (-1071))%R.
Proof. intros g threads n alpha x NF. exact (f_scale g NF threads n alpha x). Qed.

Theorem C51_scale_by_double : forall g threads n (alpha : b64) x,
  no_fma g -> threads_ok threads -> 0 <= n -> normal_upto n x ->
  exists y, scaleex_nm g threads n alpha x = Ok y /\ zlen y = zlen x /\ (forall i, n <= i -> elt y i = elt x i) /\
    forall i, 0 <= i < n -> fin (elt y i) -> normal (elt y i) /\
      (Rabs (val (elt y i) - val (elt x i) * real alpha) <= bpow radix2 (-102) * Rabs (val (elt x i) * real alpha) + bpow radix2 (-1071))%R.
Proof. intros g threads n alpha x NF. exact (f_scale_d g NF threads n alpha x). Qed.

(** Copies are exact. *)
Theorem C51_copy : forall n (x y : list (b64 * b64)), 0 <= n <= zlen y -> n <= zlen x ->
  exists y', copyex_mm n x y = Ok y' /\ zlen y' = zlen y /\
    (forall i, 0 <= i < n -> elt y' i = elt x i) /\ (forall i, n <= i -> elt y' i = elt y i).
Proof. exact f_copy. Qed.
Theorem C51_copy_of_doubles : forall n (x : list b64) (y : list (b64 * b64)), 0 <= n <= zlen y -> n <= zlen x ->
  exists y', copyex_nm n x y = Ok y' /\ zlen y' = zlen y /\
    (forall i, 0 <= i < n -> finite (znth (b64_of 0 0) x i) -> normal (elt y' i) /\ val (elt y' i) = real (znth (b64_of 0 0) x i)) /\
    (forall i, n <= i -> elt y' i = elt y i).
Proof. exact f_copy_nm. Qed.
Theorem C51_set_all : forall n (a : b64) (y : list (b64 * b64)), 0 <= n <= zlen y -> finite a ->
  exists y', set_allex_nm n a y = Ok y' /\ zlen y' = zlen y /\
    (forall i, 0 <= i < n -> normal (elt y' i) /\ val (elt y' i) = real a) /\ (forall i, n <= i -> elt y' i = elt y i).
Proof. exact f_set_all. Qed.

(** Reciprocals: without OpenMP, and the scalar variant under every schedule. *)
Theorem C51_reciprocal : forall g n x, no_fma g -> 0 <= n <= zlen x -> (forall i, 0 <= i < n -> invertible (elt x i)) ->
  exists y, reciprocalex g n x = Ok y /\ zlen y = zlen x /\ (forall i, n <= i -> elt y i = elt x i) /\
    forall i, 0 <= i < n -> fin (elt y i) -> normal (elt y i) /\
      (Rabs (val (elt y i) - / val (elt x i)) <= bpow radix2 (-100) * Rabs (/ val (elt x i)))%R.
Proof. exact f_recip. Qed.
Theorem C51_reciprocal_omp_scalar : forall g p n s s', no_fma g -> q_sse2 g = false ->
  (forall i, 0 <= i < n -> invertible (at_cell s i)) ->
  exec (omp_reciprocalex g p n) s s' ->
  forall i, 0 <= i < n -> fin (at_cell s' i) -> normal (at_cell s' i) /\
    (Rabs (val (at_cell s' i) - / val (at_cell s i)) <= bpow radix2 (-100) * Rabs (/ val (at_cell s i)))%R.
Proof. exact f_recip_omp. Qed.

(** * Dot product and norm: n products, the partial sums of the threads. *)
Theorem C51_dot : forall g threads n x y,
  q_fast_add g = true -> no_fma g -> threads_ok threads -> 0 <= n -> normal_upto n x -> normal_upto n y ->
  few (IZR (n + 2 * team threads)) ->
  exists d, dotex g threads n n x y = Ok d /\
    near d (rsum 0 n (fun i => val (elt y i) * val (elt x i))%R) (rsum 0 n (fun i => Rabs (val (elt y i) * val (elt x i))))
      (IZR (n + 2 * team threads)).
Proof. intros g threads n x y G NF. exact (f_dot g G NF threads n x y). Qed.
Theorem C51_dot_sizes_differ : forall g threads nx ny (x y : list (b64 * b64)), nx <> ny ->
  dotex g threads nx ny x y = Err LIS_ERR_ILL_ARG.
Proof. intros g threads nx ny x y H. unfold dotex. apply Z.eqb_neq in H. now rewrite H. Qed.

(** SSE2 variant only (see C51_nrm2_scalar_refuted). *)
Theorem C51_nrm2_partial : forall g threads n x,
  q_fast_add g = true -> no_fma g -> q_sse2 g = true -> threads_ok threads -> 0 <= n -> normal_upto n x ->
  few (IZR (n + 2 * team threads)) ->
  (bpow radix2 (-800) <= rsum 0 n (fun i => val (elt x i) * val (elt x i)))%R ->
  exists code v, nrm2ex g threads n x = Ok (code, v) /\
    (code = LIS_SUCCESS -> fin v -> normal v /\
      (Rabs (val v - R_sqrt.sqrt (rsum 0 n (fun i => val (elt x i) * val (elt x i)))) <=
        IZR (n + 2 * team threads + 1) * bpow radix2 (-99) * R_sqrt.sqrt (rsum 0 n (fun i => val (elt x i) * val (elt x i))))%R).
Proof. intros g threads n x G NF. exact (f_nrm2 g G NF threads n x). Qed.

(** * Matrix-vector products.  The error of element i is counted in the
      products of its row (column): at most 2^-100 each, relative to the sum
      of their absolute values. *)
Theorem C51_matvec_csr : forall g n m ptr index value x y,
  q_fast_add g = true -> no_fma g -> arrays_ok n m ptr index value -> normal_upto m x -> n <= zlen y ->
  exists y', rows_mp g n ptr index value x y = Ok y' /\ zlen y' = zlen y /\ (forall i, n <= i -> elt y' i = elt y i) /\
    forall i, 0 <= i < n -> few (in_row (csr_matrix same n m ptr index value) i + 1)%R ->
      near (elt y' i) (mv_spec (csr_matrix same n m ptr index value) m (fun j => val (elt x j)) i)
        (mv_spec (csr_matrix Rabs n m ptr index value) m (fun j => Rabs (val (elt x j))) i)
        (in_row (csr_matrix same n m ptr index value) i + 1).
Proof. intros g n m ptr index value x y G NF. exact (f_matvec_csr g G NF n m ptr index value x y). Qed.

Theorem C51_matvech_csc : forall g n m ptr index value x y,
  q_fast_add g = true -> no_fma g -> arrays_ok m n ptr index value -> normal_upto n x -> m <= zlen y ->
  exists y', rows_mp g m ptr index value x y = Ok y' /\ zlen y' = zlen y /\ (forall i, m <= i -> elt y' i = elt y i) /\
    forall j, 0 <= j < m -> few (in_col (csc_matrix same n m ptr index value) j + 1)%R ->
      near (elt y' j) (mvh_spec (csc_matrix same n m ptr index value) n (fun i => val (elt x i)) j)
        (mvh_spec (csc_matrix Rabs n m ptr index value) n (fun i => Rabs (val (elt x i))) j)
        (in_col (csc_matrix same n m ptr index value) j + 1).
Proof. intros g n m ptr index value x y G NF. exact (f_matvech_csc g G NF n m ptr index value x y). Qed.

Theorem C51_matvec_csr_split : forall g n m (d : list b64) lp li lv up ui uv x y,
  q_fast_add g = true -> no_fma g ->
  arrays_ok n m lp li lv -> arrays_ok n m up ui uv -> n <= zlen d -> n <= m -> normal_upto m x -> n <= zlen y ->
  exists y', rows_split_mp g n d lp li lv up ui uv x y = Ok y' /\ zlen y' = zlen y /\ (forall i, n <= i -> elt y' i = elt y i) /\
    forall i, 0 <= i < n ->
      let k := (in_row (csr_matrix same n m lp li lv) i + in_row (csr_matrix same n m up ui uv) i + 3)%R in few k ->
      near (elt y' i) (real (znth (b64_of 0 0) d i) * val (elt x i) + mv_spec (csr_matrix same n m lp li lv) m (fun j => val (elt x j)) i +
                       mv_spec (csr_matrix same n m up ui uv) m (fun j => val (elt x j)) i)%R
        (Rabs (real (znth (b64_of 0 0) d i)) * Rabs (val (elt x i)) + mv_spec (csr_matrix Rabs n m lp li lv) m (fun j => Rabs (val (elt x j))) i +
         mv_spec (csr_matrix Rabs n m up ui uv) m (fun j => Rabs (val (elt x j))) i)%R k.
Proof. intros g n m d lp li lv up ui uv x y G NF. exact (f_matvec_split g G NF n m d lp li lv up ui uv x y). Qed.

(** The scattering products; the SSE2 variant needs rows without duplicates. *)
Theorem C51_matvech_csr : forall g n m ptr index value x y,
  q_fast_add g = true -> no_fma g -> arrays_ok n m ptr index value -> 0 <= m <= zlen y -> normal_upto n x ->
  (q_sse2 g = true -> rows_nodup n ptr index) ->
  exists y', scatter_mp g n m ptr index value x y = Ok y' /\ zlen y' = zlen y /\
    forall j, 0 <= j < m -> few (in_col (csr_matrix same n m ptr index value) j)%R ->
      near (elt y' j) (mvh_spec (csr_matrix same n m ptr index value) n (fun i => val (elt x i)) j)
        (mvh_spec (csr_matrix Rabs n m ptr index value) n (fun i => Rabs (val (elt x i))) j)
        (in_col (csr_matrix same n m ptr index value) j).
Proof. intros g n m ptr index value x y G NF. exact (f_matvech_csr g G NF n m ptr index value x y). Qed.

Theorem C51_matvec_csc : forall g n m ptr index value x y,
  q_fast_add g = true -> no_fma g -> arrays_ok m n ptr index value -> 0 <= n <= zlen y -> normal_upto m x ->
  (q_sse2 g = true -> rows_nodup m ptr index) ->
  exists y', scatter_mp g m n ptr index value x y = Ok y' /\ zlen y' = zlen y /\
    forall i, 0 <= i < n -> few (in_row (csc_matrix same n m ptr index value) i)%R ->
      near (elt y' i) (mv_spec (csc_matrix same n m ptr index value) m (fun j => val (elt x j)) i)
        (mv_spec (csc_matrix Rabs n m ptr index value) m (fun j => Rabs (val (elt x j))) i)
        (in_row (csc_matrix same n m ptr index value) i).
Proof. intros g n m ptr index value x y G NF. exact (f_matvec_csc g G NF n m ptr index value x y). Qed.

(** Split, scalar variant only (see C51_matvech_split_sse2_refuted). *)
Theorem C51_matvech_csr_split_partial : forall g stale n m (d : list b64) lp li lv up ui uv x y,
  q_fast_add g = true -> no_fma g -> q_sse2 g = false ->
  arrays_ok n m lp li lv -> arrays_ok n m up ui uv -> n <= m <= zlen d -> normal_upto m x -> m <= zlen y ->
  exists y', scatter_split_mp g stale n m d lp li lv up ui uv x y = Ok y' /\ zlen y' = zlen y /\
    forall j, 0 <= j < m ->
      let k := (in_col (csr_matrix same n m lp li lv) j + in_col (csr_matrix same n m up ui uv) j + 1)%R in few k ->
      near (elt y' j) (real (znth (b64_of 0 0) d j) * val (elt x j) + mvh_spec (csr_matrix same n m lp li lv) n (fun i => val (elt x i)) j +
                       mvh_spec (csr_matrix same n m up ui uv) n (fun i => val (elt x i)) j)%R
        (Rabs (real (znth (b64_of 0 0) d j)) * Rabs (val (elt x j)) + mvh_spec (csr_matrix Rabs n m lp li lv) n (fun i => Rabs (val (elt x i))) j +
         mvh_spec (csr_matrix Rabs n m up ui uv) n (fun i => Rabs (val (elt x i))) j)%R k.
Proof. intros g stale n m d lp li lv up ui uv x y G NF. exact (f_matvech_split g G NF stale n m d lp li lv up ui uv x y). Qed.

(** * Where the claim fails. *)

(** lis_vector_reciprocalex_m with SSE2 and OpenMP: "omp parallel" without
    "for".  Two threads, one element: the reciprocal of 2 comes out as 2. *)
Theorem C51_reciprocal_omp_sse2_refuted :
  exists s s', at_cell s 0 = ex_two /\ exec (omp_reciprocalex g_sse2 2 1) s s' /\ val (at_cell s' 0) = 2%R.
Proof. exact recip_omp_wrong. Qed.
(** The SSE2 product with A^H loses one of two entries at the same position: 1 + 1 gives 1. *)
Theorem C51_matvech_duplicates_sse2_refuted :
  exists y', scatter_mp g_sse2 1 1 [0; 2] [0; 0] [b64_of 1 0; b64_of 1 0] [ex_one] [ex_one] = Ok y' /\ val (elt y' 0) = 1%R.
Proof. exact dup_wrong. Qed.
(** The split SSE2 product with A^H multiplies the last entry of an odd row by
    whatever the work array contains: (1 0; 1 1)^T (1, 1) should be (2, 1). *)
Theorem C51_matvech_split_sse2_refuted : forall stale, stale = ex_one \/ stale = ex_two ->
  exists y', scatter_split_mp g_sse2 stale 2 2 [b64_of 1 0; b64_of 1 0] [0; 0; 1] [0] [b64_of 1 0] [0; 0; 0] [] []
      [ex_one; ex_one] [ex_one; ex_one] = Ok y' /\
    val (elt y' 0) = (1 + val stale)%R.
Proof. exact stale_wrong. Qed.
(** The norm of the zero vector is reported as a failure. *)
Theorem C51_nrm2_zero_refuted : forall g, g = g_scalar \/ g = g_sse2 ->
  exists v, nrm2ex g None 2 [lis_quad_zero; lis_quad_zero : b64 * b64] = Ok (LIS_FAILS, v) /\ val v = 0%R.
Proof. exact zero_norm. Qed.
(** The scalar norm has only double precision: (1, 1) has norm sqrt 2. *)
Theorem C51_nrm2_scalar_refuted : exists v,
  nrm2ex g_scalar None 2 [ex_one; ex_one] = Ok (LIS_SUCCESS, v) /\ fin v /\
  ~ (Rabs (val v - R_sqrt.sqrt (rsum 0 2 (fun i => val (elt [ex_one; ex_one] i) * val (elt [ex_one; ex_one] i)))) <=
     bpow radix2 (-60) * R_sqrt.sqrt (rsum 0 2 (fun i => val (elt [ex_one; ex_one] i) * val (elt [ex_one; ex_one] i))))%R.
Proof. exact scalar_norm_wrong. Qed.

(** * The hypotheses are met. *)
Definition exv : list (b64 * b64) := [ex_one; ex_third; ex_two].
Example C51_exv_normal : normal_upto 3 exv.
Proof.
  split; [vm_compute; discriminate|]. intros i Hi. assert (E : i = 0 \/ i = 1 \/ i = 2) by lia.
  destruct E as [-> | [-> | ->]]; [exact ex_one_n|exact ex_third_n|exact ex_two_n].
Qed.
(** (1 2 0; 0 0 3; 0 0 0), both variants: every element is finite. *)
Example C51_arrays : arrays_ok 3 3 [0; 2; 3; 3] [0; 1; 2] [b64_of 1 0; b64_of 2 0; b64_of 3 0] /\ rows_nodup 3 [0; 2; 3; 3] [0; 1; 2].
Proof.
  split.
  - unfold arrays_ok. repeat split; try (vm_compute; discriminate).
    + intros i Hi. assert (E : i = 0 \/ i = 1 \/ i = 2) by lia. destruct E as [-> | [-> | ->]]; vm_compute; discriminate.
    + assert (E : k = 0 \/ k = 1 \/ k = 2) by (change (znth 0 [0; 2; 3; 3] 3) with 3 in H; lia). destruct E as [-> | [-> | ->]]; vm_compute; discriminate.
    + assert (E : k = 0 \/ k = 1 \/ k = 2) by (change (znth 0 [0; 2; 3; 3] 3) with 3 in H; lia). destruct E as [-> | [-> | ->]]; vm_compute; reflexivity.
  - intros i Hi. assert (E : i = 0 \/ i = 1 \/ i = 2) by lia. destruct E as [-> | [-> | ->]]; vm_compute; repeat constructor; cbn; intuition discriminate.
Qed.
Example C51_matvec_case : forall g, g = g_scalar \/ g = g_sse2 ->
  (let y := getok [] (rows_mp g 3 [0; 2; 3; 3] [0; 1; 2] [b64_of 1 0; b64_of 2 0; b64_of 3 0] exv exv) in
   fin (elt y 0) /\ fin (elt y 1) /\ fin (elt y 2)) /\
  (let y := getok [] (scatter_mp g 3 3 [0; 2; 3; 3] [0; 1; 2] [b64_of 1 0; b64_of 2 0; b64_of 3 0] exv exv) in
   fin (elt y 0) /\ fin (elt y 1) /\ fin (elt y 2)) /\
  (exists d, dotex g (Some 2) 3 3 exv exv = Ok d /\ fin d) /\
  (exists d, nrm2ex g (Some 2) 3 exv = Ok (LIS_SUCCESS, d) /\ fin d).
Proof.
  intros g [-> | ->]; (split; [cbv zeta; repeat split; vm_compute; reflexivity|]; split; [cbv zeta; repeat split; vm_compute; reflexivity|]; split;
    [eexists; split; [apply (getok_ok ex_one); vm_compute; reflexivity|fins] |
     eexists; split; [rewrite (getok_ok (0, ex_one) (nrm2ex _ _ _ _)) at 1 by (vm_compute; reflexivity); rewrite (surjective_pairing (getok _ _)) at 1; reflexivity|fins]]).
Qed.

Print Assumptions C51_dot.
Print Assumptions C51_nrm2_partial.
Print Assumptions C51_matvec_csr_split.
Print Assumptions C51_reciprocal_omp_sse2_refuted.
Print Assumptions C51_axpy.
Print Assumptions C51_axpyz.
Print Assumptions C51_xpay.
Print Assumptions C51_scale.
Print Assumptions C51_scale_by_double.
Print Assumptions C51_copy.
Print Assumptions C51_copy_of_doubles.
Print Assumptions C51_set_all.
Print Assumptions C51_reciprocal.
Print Assumptions C51_reciprocal_omp_scalar.
Print Assumptions C51_dot_sizes_differ.
Print Assumptions C51_matvec_csr.
Print Assumptions C51_matvech_csc.
Print Assumptions C51_matvech_csr.
Print Assumptions C51_matvec_csc.
Print Assumptions C51_matvech_csr_split_partial.
Print Assumptions C51_matvech_duplicates_sse2_refuted.
Print Assumptions C51_matvech_split_sse2_refuted.
Print Assumptions C51_nrm2_zero_refuted.
Print Assumptions C51_nrm2_scalar_refuted.
