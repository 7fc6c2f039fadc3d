{
 "claims": [
  {
   "property": "C01",
   "status": "proved",
   "theorems": [
    "C01_isie_partition",
    "C01_ranges"
   ],
   "note": "thread and process partition"
  },
  {
   "property": "C02",
   "status": "proved",
   "theorems": [
    "C02_sort_i",
    "C02_sort_id",
    "C02_sort_ii",
    "C02_sortr_ii",
    "C02_sort_iid",
    "C02_sort_iiid",
    "C02_sort_d",
    "C02_sort_di",
    "C02_sort_dd",
    "C02_sort_id_block",
    "C02_sort_id_block_refuted"
   ],
   "note": "all nine quicksorts; lis_sort_id_block is correct for bs<=9 and proved to overflow its stack buffer for every larger block size"
  },
  {
   "property": "C03",
   "status": "proved",
   "theorems": [
    "C03_sort_jad"
   ],
   "note": "lis_sort_jad"
  },
  {
   "property": "C04",
   "status": "proved",
   "theorems": [
    "C04_bswap",
    "C04_longlong_refuted",
    "C04_complex_refuted"
   ],
   "note": "32-bit LIS_INT and real scalars (default build); the 64-bit and complex builds are refuted"
  },
  {
   "property": "C05",
   "status": "proved",
   "theorems": [
    "C05_hash",
    "C05_negative_refuted"
   ],
   "note": "any history with non-negative keys; negative keys refuted (out of bounds)"
  },
  {
   "property": "C06",
   "status": "partial",
   "theorems": [
    "C06_registry_partial",
    "C06_shrink_refuted",
    "C06_finalize_refuted",
    "C06_realloc_null_refuted"
   ],
   "note": "registry exact for every history that frees/reallocates live blocks and never shrinks; shrinking (overflow), finalize (frees nothing) and realloc(NULL) refuted"
  },
  {
   "property": "C07",
   "status": "proved",
   "theorems": [
    "C07_text2args",
    "C07_arg2args",
    "C07_long_text_refuted",
    "C07_full_text_refuted"
   ],
   "note": "texts up to 1022 characters; 1023 (over-read) and longer (overflow) refuted; argv variant proved"
  },
  {
   "property": "C08",
   "status": "proved",
   "theorems": [
    "C08_set_option",
    "C08_last_wins",
    "C08_unknown_name",
    "C08_named_values",
    "C08_ilut_refuted",
    "C08_number_unchecked_refuted",
    "C08_precision_number_refuted",
    "C08_bad_real_refuted"
   ],
   "note": "every text up to 1022 characters, every option of the table; five disagreements with the documentation are refuted separately"
  },
  {
   "property": "C09",
   "status": "proved",
   "theorems": [
    "C09_copy",
    "C09_axpy",
    "C09_xpay",
    "C09_axpyz",
    "C09_scale",
    "C09_pmul",
    "C09_pdiv",
    "C09_set_all",
    "C09_abs",
    "C09_reciprocal",
    "C09_conjugate",
    "C09_shift",
    "C09_refuse2",
    "C09_refuse3"
   ],
   "note": "Every elementwise operation, any interleaving, aliasing allowed; swap is C11. shift subtracts, as the User's Guide documents."
  },
  {
   "property": "C10",
   "status": "partial",
   "theorems": [
    "C10_dot_partial",
    "C10_nhdot_partial",
    "C10_nrm2_partial",
    "C10_nrm1_partial",
    "C10_sum_partial",
    "C10_serial",
    "C10_nrmi_serial",
    "C10_nrmi_refuted",
    "C10_small_team_refuted"
   ],
   "note": "dot/nhdot/nrm2/nrm1/sum proved for every division of the iterations when the team is as large as omp_get_max_threads(); serial builds proved; refuted: nrmi under OpenMP (uninitialised private tmp), and a smaller team (stale partial results)."
  },
  {
   "property": "C11",
   "status": "partial",
   "theorems": [
    "C11_swap_serial_partial",
    "C11_swap_refuted",
    "C11_private_temporary"
   ],
   "note": "The property is false of the code (C11_swap_refuted: shared temporary). Proved: the serial loop swaps; with a private temporary every schedule would."
  },
  {
   "property": "C12",
   "status": "partial",
   "theorems": [
    "C12_set_value",
    "C12_get_value",
    "C12_get_values",
    "C12_set_values_partial",
    "C12_set_values_refuted",
    "C12_set_values2_partial",
    "C12_set_values2_refuted"
   ],
   "note": "set_value, get_value, get_values proved; set_values proved when inserting or 0-based and refuted for adding with 1-based indices; set_values2 refuted (ignores start)."
  },
  {
   "property": "C13",
   "status": "proved",
   "theorems": [
    "C13_scatter_gather"
   ],
   "note": "MPI build, any number of processes and any ranges."
  },
  {
   "property": "C14",
   "status": "proved",
   "theorems": [
    "C14_set_value_history",
    "C14_ready_states",
    "C14_malloc_zero_refuted",
    "C14_late_malloc_refuted"
   ],
   "note": "CSR and CSC targets of assemble; histories that first call lis_matrix_malloc(A,0,..) or call lis_matrix_malloc late overrun buffers (refuted theorems)"
  },
  {
   "property": "C15",
   "status": "partial",
   "theorems": [
    "C15_assembled_refuses_changes",
    "C15_index_out_of_range",
    "C15_set_value_before_size",
    "C15_bad_sizes_refused",
    "C15_unassembled_refused",
    "C15_set_size_twice_refuted"
   ],
   "note": "refused calls proved; set_size on an assembled matrix is accepted and discards it (refuted)"
  },
  {
   "property": "C16",
   "status": "partial",
   "theorems": [
    "C16_set_csr_partial",
    "C16_set_csr_ignored_refuted"
   ],
   "note": "holds exactly in status NULL; otherwise SUCCESS is returned and the arrays ignored (refuted)"
  },
  {
   "property": "C17",
   "status": "proved",
   "theorems": [
    "C17_C26_same_coefficients",
    "C17_csr2csc",
    "C17_csc2csr"
   ],
   "note": "both directions, memory safety, exact entries"
  },
  {
   "property": "C18",
   "status": "proved",
   "theorems": [
    "C18_csr2coo",
    "C18_coo2csr"
   ],
   "note": "both directions"
  },
  {
   "property": "C19",
   "status": "partial",
   "theorems": [
    "C19_csr2msr",
    "C19_csr2msr_missing",
    "C19_csr2msr_refuted",
    "C19_msr2csr",
    "C19_msr2csr_overflow_refuted",
    "C19_roundtrip_zero_refuted"
   ],
   "note": "both directions proved when every row has a stored diagonal (and, back, when nnz counts exactly what is stored); otherwise the claim is false: refuted by three theorems (uninitialised diagonal, heap overflow in msr2csr, inconsistent nnz)"
  },
  {
   "property": "C20",
   "status": "proved",
   "theorems": [
    "C20_csr2ell",
    "C20_ell2csr"
   ],
   "note": "both directions"
  },
  {
   "property": "C21",
   "status": "proved",
   "theorems": [
    "C21_csr2dns",
    "C21_dns2csr",
    "C21_csr2dns_duplicates_refuted"
   ],
   "note": "both directions for matrices without duplicate positions; duplicates refuted"
  },
  {
   "property": "C22",
   "status": "proved",
   "theorems": [
    "C22_csr2dia",
    "C22_dia2csr",
    "C22_csr2dia_empty_refuted"
   ],
   "note": "both directions for non-empty square matrices without duplicate positions; nnz=0 proved to be out of bounds"
  },
  {
   "property": "C23",
   "status": "proved",
   "theorems": [
    "C23_csr2jad",
    "C23_jad2csr",
    "C23_vector_orders"
   ],
   "note": "both directions"
  },
  {
   "property": "C24",
   "status": "proved",
   "theorems": [
    "C24_csr2bsr",
    "C24_bsr2csr",
    "C24_round_trip",
    "C24_csr2bsr_duplicates_refuted",
    "C24_bsr2csr_padding_refuted"
   ],
   "note": "Any block size; both directions and the round trip. Refuted: two entries at one position (the last overwrites), non-zero numbers in block padding (out-of-bounds write)."
  },
  {
   "property": "C25",
   "status": "partial",
   "theorems": [
    "C25_csc2bsc",
    "C25_bsc2csr",
    "C25_rectangular_refuted"
   ],
   "note": "Square blocks only (the code is wrong for rectangular ones, refuted); BSC to CSR for any block size."
  },
  {
   "property": "C26",
   "status": "partial",
   "theorems": [
    "C26_csr2vbr_partition",
    "C26_csr2vbr",
    "C26_vbr2csr",
    "C26_round_trip",
    "C26_last_column_refuted"
   ],
   "note": "Any partition given by the caller; with the library's own partition only when the last column has an entry (refuted otherwise: trailing rows are lost)."
  },
  {
   "property": "C27",
   "status": "partial",
   "theorems": [
    "C27_convert",
    "C27_convert_split",
    "C27_not_assembled",
    "C27_blocksize",
    "C27_any_to_msr_refuted",
    "C27_csr_to_csr_refuted",
    "C27_vbr_partition_refuted",
    "C27_blocksize_overrun_refuted",
    "C27_overwrite_refuted"
   ],
   "note": "Any of the 11 types to any other, also from a split CSR matrix, under the conditions each target needs (no duplicates where the format cannot hold them, stored diagonal for MSR, square for DIA/BSR/BSC/VBR, square blocks for BSC, an entry in the last column for automatic VBR); without them refuted. Not modelled: RCO source (Assemble.v), MPI, OpenMP branches, split forms other than CSR."
  },
  {
   "property": "C28",
   "status": "proved",
   "theorems": [
    "C28_matvec_csr",
    "C28_matvec_csc",
    "C28_matvec_coo",
    "C28_matvec_msr",
    "C28_matvec_ell",
    "C28_matvec_dns",
    "C28_matvec_dia",
    "C28_matvec_jad",
    "C28_matvec_bsr",
    "C28_matvec_bsc",
    "C28_matvec_vbr"
   ],
   "note": "serial, unsplit kernels of all eleven formats in exact arithmetic; the OpenMP, split (L+D+U) and MPI branches are not in these theorems"
  },
  {
   "property": "C29",
   "status": "partial",
   "theorems": [
    "C29_matvech_csr",
    "C29_matvech_csc",
    "C29_matvech_coo_partial",
    "C29_matvech_msr",
    "C29_matvech_ell",
    "C29_matvech_dns",
    "C29_matvech_dia",
    "C29_matvech_jad",
    "C29_matvech_bsr",
    "C29_matvech_bsc",
    "C29_matvech_vbr",
    "C29_matvech_coo_refuted"
   ],
   "note": "all formats proved (square matrices where the code zeroes only n entries of y); refuted for complex COO matrices, where lis_matvech_coo omits conj"
  },
  {
   "property": "C30",
   "status": "proved",
   "theorems": [
    "C30_matvec_csr",
    "C30_matvec_msr",
    "C30_matvec_ell",
    "C30_matvec_dns",
    "C30_elementwise"
   ],
   "note": "CSR, MSR (parallel for), ELL, DNS (LIS_GET_ISIE, any number of threads) equal the serial model with no scalar laws; elementwise operations have one outcome."
  },
  {
   "property": "C31",
   "status": "partial",
   "theorems": [
    "C31_bsc_partial",
    "C31_bsc_parts_refuted",
    "C31_bsr",
    "C31_bsr_rectangular",
    "C31_bsr_missing_block_refuted",
    "C31_jad_partial",
    "C31_jad_refuted",
    "C31_split",
    "C31_split_then_merge",
    "C31_merge",
    "C31_split_matvec",
    "C31_split_matvech",
    "C31_missing_diagonal_refuted",
    "C31_repeated_diagonal_refuted",
    "C31_split_matvech_ghost_refuted",
    "C31_vbr_refuted"
   ],
   "note": "proved for CSR matrices that store every diagonal entry once, for BSR matrices (square blocks) that store every diagonal block, and for JAD matrices that store every diagonal entry and have no empty jagged diagonal; for BSC the merge restores the matrix but A->L and A->U hold the wrong triangles (refuted); for VBR lis_matrix_split writes behind its arrays whenever a block outside the diagonal has more than one element (refuted: the numbers of blocks and of elements are exchanged); refuted for a row (block row) without a stored diagonal entry (block): D is uninitialised, and in JAD a row can be cut because lis_matrix_merge_jad does not set maxnzr; refuted for a repeated diagonal entry, and for the transposed product with ghost columns"
  },
  {
   "property": "C32",
   "status": "partial",
   "theorems": [
    "C32_get_diagonal_csr",
    "C32_get_diagonal_csc",
    "C32_get_diagonal_msr",
    "C32_get_diagonal_ell",
    "C32_get_diagonal_dns",
    "C32_get_diagonal_dia",
    "C32_get_diagonal_coo_partial",
    "C32_get_diagonal_coo_refuted",
    "C32_get_diagonal_dia_refuted",
    "C32_get_diagonal_duplicates_refuted",
    "C32_shift_diagonal_csr",
    "C32_shift_diagonal_csc",
    "C32_shift_diagonal_msr",
    "C32_shift_diagonal_coo",
    "C32_shift_diagonal_dns",
    "C32_shift_diagonal_dia",
    "C32_shift_identity_msr",
    "C32_shift_identity_dns",
    "C32_shift_identity_csr_refuted",
    "C32_shift_diagonal_dia_refuted",
    "C32_get_diagonal_jad_partial",
    "C32_get_diagonal_bsr_partial",
    "C32_get_diagonal_bsc_partial",
    "C32_get_diagonal_jad_refuted",
    "C32_get_diagonal_bsr_rectangular_refuted",
    "C32_get_diagonal_vbr_refuted",
    "C32_shift_diagonal_jad",
    "C32_shift_diagonal_ell",
    "C32_shift_diagonal_bsr",
    "C32_shift_diagonal_bsc",
    "C32_shift_identity_bsr",
    "C32_shift_diagonal_vbr_refuted"
   ],
   "note": "get/shift proved for all formats under the stated conditions (CSR, CSC, MSR, ELL, DNS, DIA, COO, JAD, BSR/BSC with square blocks); the documented behaviour is refuted for COO/JAD/BSR/BSC rows without a stored diagonal entry (d keeps its old content), DIA without a main diagonal, duplicates, CSR shift of rows without a diagonal entry, BSR with rectangular blocks, and VBR (blocks located by bjj*bnc)"
  },
  {
   "property": "C33",
   "status": "partial",
   "theorems": [
    "C33_jacobi_csr",
    "C33_jacobi_csc",
    "C33_jacobi_msr",
    "C33_jacobi_ell",
    "C33_jacobi_coo",
    "C33_jacobi_dns",
    "C33_jacobi_dia",
    "C33_symmetric_csr",
    "C33_symmetric_csc",
    "C33_symmetric_msr_partial",
    "C33_symmetric_ell",
    "C33_symmetric_dns",
    "C33_symmetric_dia",
    "C33_scale_jad_partial",
    "C33_symmetric_coo_refuted",
    "C33_symmetric_msr_refuted",
    "C33_jacobi_jad",
    "C33_symmetric_jad",
    "C33_jacobi_bsr",
    "C33_symmetric_bsr",
    "C33_scale_bsr",
    "C33_scale_bsr_length_refuted",
    "C33_jacobi_bsc_refuted",
    "C33_scale_vbr",
    "C33_scale_symm_vbr",
    "C33_jacobi_vbr_refuted"
   ],
   "note": "Jacobi proved for CSR, CSC, MSR, ELL, COO, DNS, DIA, JAD, BSR (square blocks), symmetric for CSR, CSC, ELL, DNS, DIA, JAD, BSR; VBR scaling functions proved; refuted: symmetric COO and MSR, BSC (block column used as block row), VBR through lis_matrix_scale (wrong diagonal)"
  },
  {
   "property": "C34",
   "status": "proved",
   "theorems": [
    "C34_diag_inverse",
    "C34_solve_lower",
    "C34_solve_upper",
    "C34_solve_ssor",
    "C34_solveh_lower",
    "C34_solveh_upper",
    "C34_solveh_ssor"
   ],
   "note": "CSR, one thread"
  },
  {
   "property": "C35",
   "status": "proved",
   "theorems": [
    "C35_matvec",
    "C35_matvech",
    "C35_matvec_ns",
    "C35_matmat",
    "C35_matmat_ns",
    "C35_solve",
    "C35_inverse",
    "C35_nonsingular_refuted"
   ],
   "note": "Every block size incl. the unrolled 1,2,3 cases; inverse/solve characterised exactly by the existence of an LU factorisation without pivoting (C35_nonsingular_refuted: a non-singular matrix with a zero pivot)."
  },
  {
   "property": "C36",
   "status": "proved",
   "theorems": [
    "C36_true_residual",
    "C36_true_residual_nrm1",
    "C36_reported_residual",
    "C36_scaled_residual",
    "C36_nrm1_initial_refuted"
   ],
   "note": "15 Krylov solvers (CG BiCG CGS BiCGSTAB GPBiCG Orthomin BiCGSafe CR BiCR CRS BiCRSTAB GPBiCR BiCRSafe COCG COCR) through lis_solve with any preconditioner, every convergence condition, with and without scaling; the initial test of condition 2 is refuted separately"
  },
  {
   "property": "C37",
   "status": "partial",
   "theorems": [
    "C37_no_undefined_behaviour",
    "C37_iterations_partial",
    "C37_history",
    "C37_maxiter_count_refuted",
    "C37_residual_uninitialised_refuted",
    "C37_bicgstab_breakdown_refuted"
   ],
   "note": "no out-of-bounds access, status/iteration/history relations proved; refuted: MAXITER reports maxiter+1 iterations, the residual is uninitialised for maxiter=0 and on breakdown in iteration 1, BiCGSTAB divides by zero instead of reporting breakdown"
  },
  {
   "property": "C38",
   "status": "partial",
   "theorems": [
    "C38_previous_iterate_partial",
    "C38_refuted",
    "C38_zero_rhs_refuted",
    "C38_omega_ignored_refuted"
   ],
   "note": "claim refuted for Jacobi, Gauss-Seidel and SOR; proved instead: the reported residual is that of the iterate before the returned one"
  },
  {
   "property": "C39",
   "status": "proved",
   "theorems": [
    "C39_accepted",
    "C39_exact_initial_vector",
    "C39_symmetric_scaling_refuted"
   ],
   "note": "proved without scaling for all modelled Krylov solvers; refuted for symmetric diagonal scaling"
  },
  {
   "property": "C40",
   "status": "partial",
   "theorems": [
    "C40_status_tells",
    "C40_refuted"
   ],
   "note": "refuted: lis_solve returns LIS_SUCCESS when the solver gives up; proved: the status query gives the outcome"
  },
  {
   "property": "C41",
   "status": "proved",
   "theorems": [
    "C41_g2l_csr",
    "C41_g2l_rco"
   ],
   "note": "lis_matrix_g2l_csr and lis_matrix_g2l_rco"
  },
  {
   "property": "C42",
   "status": "proved",
   "theorems": [
    "C42_distributed_products",
    "C42_empty_import_refuted"
   ],
   "note": "CSR; asynchronous message passing with per-pair FIFO channels (Net.v), buffered or rendezvous sends, any schedule. Hypothesis: every process imports something, or the read of import_index[0] of an empty array is harmless; C42_empty_import_refuted shows the hypothesis is needed"
  },
  {
   "property": "C43",
   "status": "proved",
   "theorems": [
    "C43_transpose_csr",
    "C43_transpose_entries",
    "C43_transpose_twice",
    "C43_transpose_csc",
    "C43_transpose_coo_refuted"
   ],
   "note": "CSR and CSC square; lis_matrix_transpose_coo does nothing (refuted)"
  },
  {
   "property": "C44",
   "status": "partial",
   "theorems": [
    "C44_copy",
    "C44_copy_duplicate",
    "C44_copy_split",
    "C44_overwrite_refuted",
    "C44_unsized_refuted",
    "C44_size_refuted",
    "C44_csc_onto_csr_refuted"
   ],
   "note": "Copying into a fresh destination of the right size is proved for all eleven formats, and for a split CSR matrix. The code fails in other uses (refuted): an assembled, unsized or differently sized destination returns success without a copy; lis_matrix_copy_csc relabels an assembled CSR destination. Not modelled: the split branch of the other formats."
  },
  {
   "property": "C45",
   "status": "partial",
   "theorems": [
    "C45_none",
    "C45_jacobi",
    "C45_ilu",
    "C45_ilu_exact",
    "C45_ssor_partial",
    "C45_ssor_omega_refuted",
    "C45_ssor_recreate_refuted",
    "C45_ilu_duplicates_refuted",
    "C45_ilu_omp_psolveh_refuted"
   ],
   "note": "none, Jacobi and ILU(k) proved in full for CSR; SSOR: the code solves with (wD+L)(I+(wD)^-1 U), i.e. the documented matrix for 1/omega (C45_ssor_partial), refutations for omega, re-creation, duplicate entries and the OpenMP psolveh"
  },
  {
   "property": "C46",
   "status": "partial",
   "theorems": [
    "C46_input",
    "C46_symmetric",
    "C46_input_array",
    "C46_any_text_file",
    "C46_rejects",
    "C46_round_trip_from_csr",
    "C46_round_trip_to_csr",
    "C46_vector_mm",
    "C46_vector_plain",
    "C46_vector_lis_refuted",
    "C46_vector_mm_integer_refuted",
    "C46_x_refuted",
    "C46_x_only_refuted",
    "C46_open_failure_refuted",
    "C46_unknown_format_refuted",
    "C46_truncated_vector_refuted",
    "C46_column_refuted",
    "C46_uninitialised_refuted",
    "C46_only_b_refuted",
    "C46_array_refuted"
   ],
   "note": "Proved for real scalars, one process: reading coordinate (general/symmetric) and array files into any type, no-UB for any text file read by lis_input_matrix into CSR, matrix round trips (text and binary, both byte orders), Matrix Market and PLAIN vector round trips. Refuted (theorems C46_*_refuted): x section written from b, NULL or missing b/x, LIS vector format keeps only the first element, integer vectors rejected, unknown format silently ignored, fopen failure, truncated vector section, unchecked columns, uninitialised size fields, binary/symmetric array files. Not modelled: Harwell-Boeing files, complex scalars, numeral syntax, several processes."
  },
  {
   "property": "C47",
   "status": "partial",
   "theorems": [
    "C47_power_iteration",
    "C47_power_iteration_vector",
    "C47_inverse_iteration",
    "C47_rayleigh_iteration",
    "C47_rayleigh_iteration_exact",
    "C47_conjugate_gradient",
    "C47_conjugate_residual",
    "C47_no_undefined_behaviour",
    "C47_power_iteration_residual_refuted",
    "C47_shifted_residual_refuted",
    "C47_missing_diagonal_refuted",
    "C47_zero_iterations_refuted",
    "C47_inner_error_refuted",
    "C47_inner_not_converged_refuted",
    "C47_esolve_return_refuted"
   ],
   "note": "lis_epi, lis_eii, lis_erqi, lis_ecg, lis_ecr and lis_esolve for the standard problem in exact real arithmetic with an arbitrary inner solver, preconditioner and 3x3 solver; the literal claim (reported residual = residual of the returned pair, error codes reported, matrix left as it was) is refuted where the code breaks it. Subspace, Lanczos and Arnoldi: C62. Missing: the generalized solvers, floating point"
  },
  {
   "property": "C48",
   "status": "partial",
   "theorems": [
    "C48_copy",
    "C48_axpy",
    "C48_xpay",
    "C48_axpyz",
    "C48_scale",
    "C48_pmul",
    "C48_set_all",
    "C48_abs",
    "C48_conjugate",
    "C48_shift",
    "C48_pdiv",
    "C48_reciprocal",
    "C48_swap",
    "C48_reductions",
    "C48_nrmi",
    "C48_cgs_partial",
    "C48_mgs",
    "C48_cgs_orthonormal",
    "C48_mgs_orthonormal",
    "C48_cgs_rank_deficient_refuted",
    "C48_complex_refuted",
    "C48_qr_report_partial",
    "C48_qr_converged_refuted",
    "C48_qr_order1_refuted"
   ],
   "note": "Elementwise helpers, reductions, mgs proved; cgs proved up to the first dependent column (refuted beyond), complex cgs/mgs refuted (missing conjugate), lis_array_qr: report proved, convergence claim refuted for n>=3, n=1 reads out of bounds."
  },
  {
   "property": "C49",
   "status": "partial",
   "theorems": [
    "C49_fast_two_sum_exact",
    "C49_two_sum_exact",
    "C49_two_diff_exact",
    "C49_split_exact",
    "C49_two_prod_exact",
    "C49_two_sqr_exact",
    "C49_sums_do_not_overflow",
    "C49_products_do_not_overflow",
    "C49_two_prod_fma_refuted"
   ],
   "note": "proved for the builds without HAS_FMA (scalar and, through C50, SSE2) under the hypothesis that no operation overflows, with sufficient bounds; refuted for HAS_FMA: the products have the wrong sign"
  },
  {
   "property": "C50",
   "status": "partial",
   "theorems": [
    "C50_add_accurate",
    "C50_sub_accurate",
    "C50_add_same_sign",
    "C50_mul_accurate",
    "C50_mul_by_double_accurate",
    "C50_sqr_accurate",
    "C50_div_accurate",
    "C50_sqrt_sse2_accurate_partial",
    "C50_minus_exact",
    "C50_max_correct",
    "C50_min_correct",
    "C50_add_does_not_overflow",
    "C50_mul_does_not_overflow",
    "C50_div_does_not_overflow",
    "C50_sqrt_does_not_overflow",
    "C50_scalar_sqrt_refuted",
    "C50_accurate_add_refuted",
    "C50_fma_products_refuted",
    "C50_relative_sub_refuted",
    "C50_sqrt_of_zero_refuted"
   ],
   "note": "add, sub, mul, mul_dd_d, sqr, div proved for the scalar and the SSE2 build, sqrt for the SSE2 build. Refuted: scalar sqrt (double precision only), scalar add without USE_FAST_QUAD_ADD, products with HAS_FMA, relative accuracy of sub, sqrt(0). The SSE2 add without USE_FAST_QUAD_ADD is modelled, its bound not proved"
  },
  {
   "property": "C51",
   "status": "partial",
   "theorems": [
    "C51_axpy",
    "C51_axpyz",
    "C51_xpay",
    "C51_scale",
    "C51_scale_by_double",
    "C51_copy",
    "C51_copy_of_doubles",
    "C51_set_all",
    "C51_reciprocal",
    "C51_reciprocal_omp_scalar",
    "C51_dot",
    "C51_dot_sizes_differ",
    "C51_nrm2_partial",
    "C51_matvec_csr",
    "C51_matvech_csc",
    "C51_matvec_csr_split",
    "C51_matvech_csr",
    "C51_matvec_csc",
    "C51_matvech_csr_split_partial",
    "C51_reciprocal_omp_sse2_refuted",
    "C51_matvech_duplicates_sse2_refuted",
    "C51_matvech_split_sse2_refuted",
    "C51_nrm2_zero_refuted",
    "C51_nrm2_scalar_refuted"
   ],
   "note": "proved for every variant except: nrm2 in the scalar variant (only double precision, refuted; zero vector gives LIS_FAILS, refuted), reciprocal with SSE2+OpenMP (refuted), A^H products of SSE2 with duplicate entries or split matrices (refuted)"
  },
  {
   "property": "C52",
   "status": "proved",
   "theorems": [
    "C52_spd_success",
    "C52_spd_exact",
    "C52_finite_termination",
    "C52_jacobi_scaling_refuted",
    "C52_cg_nonsymmetric_refuted"
   ],
   "note": "exact arithmetic; finite termination without definiteness is proved for CG, COCG, BiCG and BiCR. Refuted where the hypotheses are dropped: COCG with Jacobi scaling (which lis_solve replaces by symmetric scaling only for CG), CG on a nonsymmetric matrix"
  },
  {
   "property": "C53",
   "status": "partial",
   "theorems": [
    "C53_gmres",
    "C53_fgmres",
    "C53_no_breakdown",
    "C53_finite_termination",
    "C53_exact",
    "C53_restart_0_refuted",
    "C53_fgmres_relative_refuted",
    "C53_singular_refuted",
    "C53_gmres_variable_precon_refuted"
   ],
   "note": "GMRES/FGMRES true residual, monotone and optimal history, no breakdown and finite termination proved for restart >= 1 (C53_gmres, C53_fgmres, C53_no_breakdown, C53_finite_termination, C53_exact). Refuted: restart 0 is accepted and writes out of bounds; FGMRES compares the absolute residual with the relative tolerance; singular matrices divide by zero without LIS_BREAKDOWN; GMRES with a changing preconditioner reports a wrong residual."
  },
  {
   "property": "C54",
   "status": "proved",
   "theorems": [
    "C54_run",
    "C54_dominant_rate",
    "C54_dominant_success",
    "C54_dominant_solvable",
    "C54_spd_success",
    "C54_spd_energy",
    "C54_negative_omega_refuted",
    "C54_jacobi_spd_refuted"
   ],
   "note": "real scalars, exact arithmetic (the step-by-step description holds over every field); omega < 0 is accepted by the parameter check and diverges (C54_negative_omega_refuted); Jacobi can diverge on symmetric positive definite matrices (C54_jacobi_spd_refuted)"
  },
  {
   "property": "C55",
   "status": "partial",
   "theorems": [
    "C55_idrs",
    "C55_idr1",
    "C55_bicgstabl",
    "C55_tfqmr_partial",
    "C55_minres",
    "C55_minres_finite",
    "C55_minres_exact",
    "C55_minres_solved_refuted",
    "C55_tfqmr_refuted",
    "C55_minres_preconditioned_refuted",
    "C55_idrs_history_refuted",
    "C55_idrs_zero_refuted",
    "C55_idr1_history_refuted",
    "C55_bicgstabl_guess_refuted",
    "C55_bicgstabl_maxiter_refuted",
    "C55_bicgstabl_history_refuted",
    "C55_tfqmr",
    "C55_tfqmr_bound"
   ],
   "note": "IDR(s), IDR(1), BiCGSTAB(l) from a zero start and MINRES (M A symmetric) proved; TFQMR returns the smoothed CGS iterates of a textbook definition and reports their quasi-residual (C55_tfqmr), which bounds the residual only under a condition on the half-way points (C55_tfqmr_bound) and in general is not the residual (C55_tfqmr_refuted). Refuted: history overrun in IDR(s) for s > maxiter+1, IDR(1) odd maxiter and BiCGSTAB(l) with maxiter+1 not a multiple of l; IDR(0); BiCGSTAB(l) with a starting vector returns x + x0, and at maxiter the unpreconditioned vector; MINRES reports the preconditioned residual and divides by zero when started at a solution"
  },
  {
   "property": "C56",
   "status": "partial",
   "theorems": [
    "C56_bsc_partial",
    "C56_bsc_exchanged_partial",
    "C56_bsc_refuted",
    "C56_bsc_solveh_partial",
    "C56_bsc_solveh_exchanged_partial",
    "C56_bsc_solveh_lower1_refuted",
    "C56_bsc_solveh_lower2_refuted",
    "C56_bsc_solveh_lower3_refuted",
    "C56_bsc_solveh_upper1_refuted",
    "C56_bsc_solveh_ssor1_refuted",
    "C56_bsc_solveh_ssor2_refuted",
    "C56_bsr",
    "C56_bsr_solveh_partial",
    "C56_bsr_solveh_lower2_refuted",
    "C56_bsr_solveh_lower3_refuted",
    "C56_bsr_solveh_upper1_refuted",
    "C56_bsr_solveh_upper2_refuted",
    "C56_jad_partial",
    "C56_jad_refuted",
    "C56_msr_partial",
    "C56_csc_partial",
    "C56_ell",
    "C56_dia",
    "C56_dns",
    "C56_split_csc_overflow_refuted",
    "C56_solveh_msr_refuted",
    "C56_split_ell_junk_refuted",
    "C56_vbr_partial",
    "C56_vbr_wide_refuted",
    "C56_vbr_solveh_refuted",
    "C56_vbr_solveh_ssor_refuted"
   ],
   "note": "ELL, DIA and DNS in full; BSR (square blocks) for lis_matrix_solve, and for lis_matrix_solveh except over complex scalars LOWER with blocks of order 2 or 3 and UPPER with blocks of order 1 or 2 (refuted: conj() is missing); BSC for block symmetric matrices (otherwise refuted: the solves belong to the matrix with blocks (r,c) and (c,r) exchanged); MSR without solveh LOWER/UPPER (refuted: the loops run in the wrong direction); CSC only when the strictly lower and upper parts have equally many entries (otherwise refuted: heap overflow in lis_matrix_split); JAD: every solve of every matrix reads ptr one word past its end (refuted), and is right if that word can be read, whatever it holds. VBR: lis_matrix_solve for every split matrix whose blocks have at most 1024 rows (more overflow the stack array w, refuted); lis_matrix_solveh of VBR does not transpose (refuted). lis_matrix_solveh for BSC: for block symmetric matrices, over complex scalars except LOWER with blocks of order 1 to 3, UPPER with order 1 and SSOR with orders 1 and 2 (each refuted: conj() is missing)."
  },
  {
   "property": "C57",
   "status": "partial",
   "theorems": [
    "C57_ilut_partial",
    "C57_ilut_accuracy",
    "C57_keeps_largest_refuted",
    "C57_psolveh_refuted",
    "C57_duplicates_refuted"
   ],
   "note": "factorisation, accuracy bound, psolve and real psolveh proved; refuted: the kept entries are the largest (the code keeps the smallest), psolveh for complex scalars, memory safety with duplicate positions"
  },
  {
   "property": "C58",
   "status": "partial",
   "theorems": [
    "C58_sainv_partial",
    "C58_exact_inverse",
    "C58_small_refuted",
    "C58_complex_refuted"
   ],
   "note": "proved for n>=10; refuted: every matrix with 1..9 rows is written out of range (C58_small_refuted); for complex matrices conj(W) is applied where W is needed (C58_complex_refuted)"
  },
  {
   "property": "C59",
   "status": "partial",
   "theorems": [
    "C59_is_psolve",
    "C59_is_psolveh",
    "C59_is_create",
    "C59_is_system_partial",
    "C59_adds",
    "C59_addsh",
    "C59_adds_jacobi",
    "C59_is_diagonal_refuted"
   ],
   "note": "refuted: a matrix that is already scaled with diagonal elements -1 gives a system with other solutions (C59_is_diagonal_refuted)"
  },
  {
   "property": "C60",
   "status": "partial",
   "theorems": [
    "C60_hybrid_create",
    "C60_hybrid_psolve",
    "C60_hybrid_stationary_partial",
    "C60_failure_dropped_refuted",
    "C60_transpose_refuted",
    "C60_omega_ignored_refuted",
    "C60_unchecked_options_refuted"
   ],
   "note": "The inner solver runs exactly as configured and M^{-1}b is the inner iterate started from zero; refuted parts: an inner failure is not reported, the transposed application solves A x = b because the LIS_MATVEC pointers are never called through, -hybrid_omega is ignored by the inner SOR, and the inner options are not range-checked"
  },
  {
   "property": "C61",
   "status": "partial",
   "theorems": [
    "C61_iluc_partial",
    "C61_iluc_accuracy",
    "C61_uninitialised_refuted",
    "C61_duplicates_refuted"
   ],
   "note": "proved: memory safety, the contents of every row/column of the factors, the product bound off the diagonal, M_ii, psolve and psolveh, exactness for tol=0/gamma=1. Refuted: in a full row the entries kept depend on uninitialised memory and need not be the largest (|z[j]| is compared instead of |z[iz[j]]|); duplicate positions overflow the work arrays."
  },
  {
   "property": "C62",
   "status": "partial",
   "theorems": [
    "C62_subspace_power",
    "C62_subspace_inverse",
    "C62_subspace_no_undefined_behaviour",
    "C62_lanczos_array_partial",
    "C62_lanczos_array_safe",
    "C62_lanczos_pairs",
    "C62_arnoldi_array_partial",
    "C62_subspace_second_vector_refuted",
    "C62_subspace_status_refuted",
    "C62_subspace_other_refuted",
    "C62_lanczos_ritz_refuted",
    "C62_lanczos_default_refuted",
    "C62_arnoldi_refuted"
   ],
   "note": "lis_esi with one vector (residual and pair, no undefined behaviour), the Lanczos and Arnoldi arrays as V^T A V, and the refined pairs of lis_eli are proved for runs that return; refuted in exact arithmetic: ss >= 2 in lis_esi (second start vector is zero), the status after maxiter, inner methods other than power and inverse iteration, the last Ritz value of lis_eli, lis_eli with the default -ss 1 and every run of lis_eai (out-of-range access). Missing: total termination of lis_eli for ss >= 2, generalized problems, floating point"
  },
  {
   "property": "C63",
   "status": "partial",
   "theorems": [
    "C63_axpy",
    "C63_xpay",
    "C63_axpyz",
    "C63_axpy_other_types",
    "C63_axpy_type_refuted",
    "C63_shift_matrix_csr",
    "C63_shift_matrix_other_types",
    "C63_shift_matrix_refuted"
   ],
   "note": "proved for dense A and B (axpy, xpay, axpyz) and for the shift of a CSR matrix by a matrix in any format; any other format of A: axpy/xpay/axpyz return LIS_ERR_NOT_IMPLEMENTED, lis_matrix_shift_matrix leaves A as it was (C63_shift_matrix_other_types, _refuted); the type of B is not checked: a CSR B is accessed out of bounds (C63_axpy_type_refuted)"
  },
  {
   "property": "C64",
   "status": "partial",
   "theorems": [
    "C64_power",
    "C64_power_pair",
    "C64_inverse",
    "C64_inverse_pair",
    "C64_rayleigh",
    "C64_rayleigh_exact",
    "C64_conjugate_residual",
    "C64_conjugate_gradient_values",
    "C64_conjugate_gradient_vector_refuted",
    "C64_no_undefined_behaviour",
    "C64_stopping_rule_refuted"
   ],
   "note": "Proved for all matrices, shifts and inner solvers: what eigenvalue, residual, status and vector are, the residual bounds for power, inverse, Rayleigh quotient and CR, A restored, no overrun. Refuted: lis_egcg never updates the vector it returns (C64_conjugate_gradient_vector_refuted); the documented stopping rule fails for lis_egpi at every tolerance (C64_stopping_rule_refuted). Quad precision and OpenMP/MPI branches are not covered."
  },
  {
   "property": "C65",
   "status": "partial",
   "theorems": [
    "C65_read",
    "C65_truncated",
    "C65_kind",
    "C65_rectangular",
    "C65_d_exponent_refuted",
    "C65_format_refuted",
    "C65_bad_format_refuted",
    "C65_short_line_refuted"
   ],
   "note": "proved for every legal file without D exponents; the claims about formats, D exponents and short lines are refuted"
  },
  {
   "property": "C66",
   "status": "partial",
   "theorems": [
    "C66_queries_agree",
    "C66_history_partial",
    "C66_unrecorded_refuted",
    "C66_accepted_refuted",
    "C66_first_refuted",
    "C66_before_solve_refuted"
   ],
   "note": "both queries are safe and agree after every solve; with LIS_PRINT_MEM and a start vector that is not accepted at once the values are as claimed (that entry j is the residual of iterate j is not proved for the entries before the last). Refuted: without LIS_PRINT_MEM, or when the start vector is accepted, the values are uninitialised memory; the first value is always 1; lis_solver_get_rhistory before the first solve reads through NULL"
  }
 ]
}