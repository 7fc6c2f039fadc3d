# A machine-checked model of anishida/lis in Coq 8.16.1

## 1. Layout

* `rocq/theories/<Name>.v` – the model, one file per C source file or group; definitions only.
* `rocq/theories/Spec<Name>.v` – what the words of the properties mean; independent of the model code.
* `rocq/theories/<Name>Proof*.v`, `<Name>Final*.v`, … – proofs.
* `rocq/theories/Properties_<Group>.v` – the theorems `Cxx_…`, each with `Print Assumptions`, followed by concrete
  `Example`s that meet the hypotheses. `_refuted`: the literal claim is proved false of the modelled code.
  `_partial`: a weaker statement than the property.
* `seeded/LOG.jsonl` – wrong programs tried against the theorems.

## 2. Modelling decisions

* **Outcome.** `res A := Ok a | Err code | UB`. Every array access in the model is checked: an access outside the array is `UB`.
  A theorem `f … = Ok r ∧ …` (or `wp (f …) Q`) therefore also states the absence of out-of-bounds accesses.
* **Integers.** `LIS_INT` is `Z` (unbounded). Overflow of 32/64-bit ints is *not* modelled.
* **Scalars.** `LIS_SCALAR` is an arbitrary type with raw operations (`Scalar T`), no laws. Theorems that need no law (conversions, bit-exactness,
  schedules) therefore hold for IEEE doubles. Theorems about sums/solutions assume explicitly that the operations form a ring/field:
  they hold "in exact arithmetic". Rounding is analysed only for the double-double
  ("quad") arithmetic (C49–C51), which is modelled on IEEE binary64 (Flocq).
* **Fresh memory.** `malloc` yields arbitrary contents: the model takes an oracle and theorems quantify over it, so a result can never depend on
  uninitialised memory unless the theorem says so. Allocation failure (`LIS_OUT_OF_MEMORY` paths) is not modelled.
* **Threads.** The serial code path is modelled; where the OpenMP path is different code, or for `omp for` loops, separate models with arbitrary
  thread counts / iteration orders / interleavings are given (see C01, C09–C11, C30).
* **MPI.** A process is a local state; message passing is modelled as exchange between the list of local states (C13, C41, C42).
* **Debug/trace macros, timing, printing** are not modelled.
* **Division by zero.** In the solvers `x/0` is the distinct outcome `Err DIV_BY_ZERO` (in C: Inf/NaN that nothing detects). Theorems say when it cannot occur.
* **Files.** A text file is a list of token lines, a binary file a list of records; numbers are assumed to survive printing and scanning.

## 3. Files (rocq/theories)

### Model (definitions only; each cites the file and lines it models)

| File | Content |
|---|---|
| `Base.v` | Framework: outcomes, checked arrays, loops. |
| `Scalar.v` | Scalars: LIS_SCALAR / LIS_REAL as an arbitrary type with raw operations. |
| `ScalarReal.v` | The real numbers as scalars: the instance that shows the exact-arithmetic hypotheses (is_field, ...) are met by the mathematical reals. |
| `Csc.v` | Model of the CSR <-> CSC conversions, src/matrix/lis_matrix_csc.c (single-thread branches; the OpenMP branches are in CscOmp.v). |
| `Sort.v` | Model of src/system/lis_sort.c |
| `Coo.v` | Model of the CSR <-> COO conversions, src/matrix/lis_matrix_coo.c |
| `Dns.v` | Model of the CSR <-> DNS conversions, src/matrix/lis_matrix_dns.c |
| `Ell.v` | Model of the CSR <-> ELL conversions, src/matrix/lis_matrix_ell.c |
| `Msr.v` | Model of the CSR <-> MSR conversions, src/matrix/lis_matrix_msr.c |
| `Dia.v` | Model of lis_matrix_sort_csr (lis_matrix_csr.c) and of the CSR <-> DIA conversions, src/matrix/lis_matrix_dia.c |
| `Jad.v` | Model of the CSR <-> JAD conversions and of the two vector reorderings, src/matrix/lis_matrix_jad.c |
| `Bsr.v` | Model of the CSR <-> BSR conversions (src/matrix/lis_matrix_bsr.c) and of the CSC -> BSC, BSC -> CSR conversions (src/matrix/lis_matrix_bsc.c). |
| `Vbr.v` | Model of the CSR <-> VBR conversions, src/matrix/lis_matrix_vbr.c |
| `Assemble.v` | Model of the life cycle of a LIS_MATRIX on one process: lis_matrix_create, set_size, set_type, malloc, set_value, set_csr, assemble (src/matrix/lis_matrix.c, lis_matrix_rco.c, lis_matrix_csr.c). |
| `Matvec.v` | Model of lis_matvec and lis_matvech (src/matvec/): y = A x and y = A^H x for an unsplit matrix in every storage format, without OpenMP and MPI (nprocs = 1: LIS_GET_ISIE gives is = 0, ie = n). |
| `System.v` | Models of small system routines: the block partition (include/lis.h, src/system/lis_init.c), byte swapping (src/system/lis_sort.c), the hash table (src/system/lis_hash.c). |
| `Memory.v` | Model of the allocation registry, src/system/lis_memory.c:98-330. |
| `Args.v` | Model of lis_text2args and lis_arg2args, src/system/lis_init.c:227-349. |
| `Options.v` | Model of lis_solver_set_option, src/solver/lis_solver.c:168-215 (tables), 1122-1635. |
| `Omp.v` | Shared-memory threads. |
| `Vector.v` | Model of the vector operations: src/vector/lis_vector_opv.c, lis_vector_ops.c (double precision) and the element accessors of lis_vector.c. |
| `OmpMatvec.v` | The OpenMP versions of the matrix-vector products whose parallel loops run over rows: lis_matvec_csr.c:95-108, lis_matvec_msr.c:86-99, lis_matvec_ell.c:92-132, lis_matvec_dns.c:50-88. |
| `Diag.v` | Model of lis_matrix_get_diagonal, lis_matrix_shift_diagonal and lis_matrix_scale (src/matrix/lis_matrix_ops.c:576-830 and lis_matrix_<format>.c), unsplit matrices, one thread, no MPI. |
| `Split.v` | Model of lis_matrix_split_csr, lis_matrix_merge_csr, the split branch of lis_matvec_csr / lis_matvech_csr and lis_matrix_solve_csr / lis_matrix_solveh_csr (one thread, double precision). |
| `Transpose.v` | Model of the transposition routines. |
| `Krylov.v` | Model of the Krylov solvers of src/solver (double precision, one process) on top of the vector operations of C09/C10 and the matrix-vector products of C28/C29. |
| `Krylov2.v` | Model of Orthomin and of the stationary solvers; conventions of Krylov.v. |
| `Solve.v` | Model of lis_solve and lis_solve_kernel (lis_solver.c:367-935), double precision, one process, matrix given by its entries (any storage format, by C17-C23, C28, C29). |
| `Array.v` | Model of src/array/lis_array.c: the dense kernels on column-major arrays (element (i,j) of an array with leading dimension ld is a[i+j*ld]). |
| `Gs.v` | Model of lis_array_cgs, lis_array_mgs and lis_array_qr, lis_array.c:1026-1175. |
| `ScalarCQ.v` | Gaussian rationals: complex scalars that compute and form a field. |
| `ArrayElem.v` | Model of the elementwise and reduction helpers of src/array/lis_array.c:84-425. |
| `Net.v` | Message passing between [P] processes, as used by lis_commtable_create and lis_send_recv (lis_matrix_mpi.c:594-949) and the macro LIS_MATVEC_SENDRECV: rounds in which a process (1) sends one message to every partner, in order (MPI |
| `Mpi.v` | Distributed matrices: lis_matrix_g2l_csr, lis_matrix_g2l_rco, lis_commtable_create, lis_send_recv, lis_reduce (src/matrix/lis_matrix_mpi.c) and the MPI branch of lis_matvec / lis_matvech for CSR (src/matvec/lis_matvec.c:68-73, 204 |
| `Ilu.v` | Model of the ILU(k) preconditioner for CSR matrices, src/precon/lis_precon_iluk.c: lis_symbolic_fact_csr, lis_numerical_fact_csr, lis_psolve_iluk_csr, lis_psolveh_iluk_csr and the CSR case of lis_precon_create_iluk. |
| `Precon.v` | Model of the preconditioners "none", "jacobi" and "ssor" for an assembled CSR matrix (double precision, one thread, one process). |
| `Copy.v` | Model of lis_matrix_copy on one process and one thread: the eleven lis_matrix_elements_copy_*, lis_matrix_copy_* (including the split branch of the CSR version), lis_matrix_set_*, the part of lis_matrix_assemble they reach, and li |
| `Esolver.v` | Model of the eigensolvers for the standard problem A x = lambda x on one process, real arithmetic: lis_epi, lis_eii, lis_erqi, lis_ecg, lis_ecr and the part of lis_esolve around them. |
| `Convert.v` | Model of lis_matrix_convert and lis_matrix_set_blocksize (src/matrix/lis_matrix_ops.c) on one process and one thread. |
| `Io.v` | Model of the Matrix Market, PLAIN and LIS file input and output (src/system/lis_input.c, lis_input_mm.c, lis_output.c, lis_output_mm.c): one process, real scalars, 32-bit LIS_INT (not _LONG__LONG), no OpenMP. |
| `Quad.v` | Model of the double-double ("quad") arithmetic of Lis: include/lis_precision.h (macros) and src/precision/lis_precision.c. |
| `QuadVec.v` | Model of the quad-precision vector and matrix-vector operations: src/precision/lis_precision_vec.c and lis_precision_matvec.c. |
| `Gmres.v` | Model of lis_gmres and lis_fgmres (src/solver/lis_solver_gmres.c), double precision, one process, real scalars; conventions of Krylov.v. |
| `Krylov3.v` | Model of the solvers TFQMR (lis_solver_qmr.c), MINRES (lis_solver_minres.c), BiCGSTAB(l) (lis_solver_bicgstabl.c), IDR(s) and IDR(1) (lis_solver_idrs.c); conventions and simplifications as in Krylov.v. |
| `SplitFmt.v` | Model of lis_matrix_split_*, lis_matrix_solve_* and lis_matrix_solveh_* for the formats CSC, MSR, ELL, DIA and DNS (one thread, one process; CSR is in Split.v). |
| `Ilut.v` | Model of the ILUT preconditioner for CSR matrices, src/precon/lis_precon_ilut.c: lis_precon_create_ilut_csr, lis_psolve_ilut_csr, lis_psolveh_ilut_csr. |
| `Sainv.v` | Model of the SAINV (stabilised approximate inverse) preconditioner for CSR matrices: src/precon/lis_precon_sainv.c lis_precon_create_sainv_csr (the #if 1 branch), lis_psolve_sainv, lis_psolveh_sainv, and the routines of src/matrix |
| `Isp.v` | Model of the I+S preconditioner for split CSR matrices (A = L + D + U) and of the additive Schwarz (defect correction) wrapper around a preconditioner: src/precon/lis_precon_is.c lis_precon_create_is_csr, lis_psolve_is, lis_psolve |
| `Hybrid.v` | Model of the hybrid preconditioner (lis_precon_hybrid.c:60-330), double precision, one process: an inner solver of Krylov.v, Krylov2.v, Krylov3.v, Gmres.v applied to the vector the outer solver hands over. |
| `Iluc.v` | Model of the ILUC (Crout) preconditioner for CSR matrices, src/precon/lis_precon_iluc.c: lis_precon_create_iluc_csr (#else branch, lines 560-921), lis_psolve_iluc (2094-2195), lis_psolveh_iluc (2448-2540). |
| `EsolverSub.v` | Model of the eigensolvers that use a subspace, standard problem A x = lambda x, one process, real arithmetic: lis_esi (lis_esolver_si.c:136-367), lis_eli (lis_esolver_li.c:146-355), lis_eai (lis_esolver_ai.c:150-385). |
| `Diag2.v` | Model of lis_matrix_get_diagonal_<format>, lis_matrix_shift_diagonal_<format> and lis_matrix_scale(_symm)_<format> for the formats Diag.v leaves out: JAD, the ELL shift, BSR, BSC and VBR (src/matrix/lis_matrix_jad.c, lis_matrix_el |
| `MatAxpy.v` | Model of lis_matrix_axpy, lis_matrix_xpay, lis_matrix_axpyz and lis_matrix_shift_matrix (src/matrix/lis_matrix_ops.c, src/matrix/lis_matrix_dns.c) on one process and one thread, unsplit matrices; matrix objects as in Copy.v and Co |
| `Gesolver.v` | Model of the eigensolvers for the generalized problem A x = lambda B x on one process, real arithmetic: lis_egpi, lis_egii, lis_egrqi, lis_egcg, lis_egcr. |
| `Hb.v` | Model of the Harwell-Boeing reader lis_input_hb (src/system/lis_input_hb.c): one process, real scalars, 32-bit LIS_INT, no OpenMP. |
| `BsrSolve.v` | Model of lis_matrix_split_bsr, lis_matrix_merge_bsr, lis_matrix_solve_bsr and of lis_matrix_diag_inverse for blocks (one thread, double precision). |
| `BsrSolveH.v` | Model of lis_matrix_solveh_bsr (one thread, double precision), lis_matrix_bsr.c:1773-2088. |
| `BscSolve.v` | Model of lis_matrix_split_bsc, lis_matrix_merge_bsc and lis_matrix_solve_bsc (one thread, double precision, square blocks, where nr = nc). |
| `JadSolve.v` | Model of lis_matrix_split_jad, lis_matrix_merge_jad, lis_matrix_solve_jad and lis_matrix_solveh_jad (src/matrix/lis_matrix_jad.c; one thread, one process). |
| `VbrSplit.v` | Model of lis_matrix_split_vbr and lis_matrix_merge_vbr (src/matrix/lis_matrix_vbr.c, #else branches; one thread, one process). |
| `VbrSolve.v` | Model of lis_matrix_solve_vbr, lis_matrix_solveh_vbr (src/matrix/lis_matrix_vbr.c) and of lis_matrix_diag_inverse for blocks of different orders (one thread, double precision). |
| `BscSolveH.v` | Model of lis_matrix_solveh_bsc (one thread, double precision, square blocks), lis_matrix_bsc.c:1716-2033. |
| `Rhist.v` | Model of lis_solver_get_rhistory (src/solver/lis_solver.c:1739-1754) and lis_solver_output_rhistory (src/system/lis_output.c:585-655, #else branch; the file can be opened). |

### Specifications (no code of the library)

| File | Content |
|---|---|
| `Spec.v` | What the storage formats mean. |
| `SpecAssemble.v` | What a history of lis_matrix_set_value calls means. |
| `SpecSystem.v` | Specification of the hash table: a finite map. |
| `SpecMemory.v` | What the user of the allocator expects: the set of blocks handed out and not yet returned. |
| `SpecArgs.v` | What option texts mean. |
| `SpecOptions.v` | What the solver options mean: doc/man/man3/lis_solver_set_option.3, and for the options not listed there the names in include/lis.h. |
| `SpecVector.v` | What the vector operations should do. |
| `SpecDiag.v` | What diagonal extraction, shifting and scaling mean, over the entries of Spec.v. |
| `SpecSplit.v` | What splitting A = L + D + U and the triangular systems mean. |
| `SpecSolver.v` | What a linear solver promises. |
| `SpecSolve.v` | The options of lis_solve covered by the theorems of Properties_Solver.v. |
| `SpecArray.v` | Dense matrices as functions. |
| `SpecMpi.v` | Specification vocabulary for distributed matrices (C41, C42). |
| `SpecIlu.v` | What an incomplete LU factorisation with fill level k means. |
| `SpecPrecon.v` | The preconditioning matrices. |
| `SpecCopy.v` | Entries and well-formedness of a matrix of any storage type. |
| `SpecEsolver.v` | What an eigensolver promises. |
| `SpecConvert.v` | What lis_matrix_convert needs of the matrix for each source and each target type. |
| `SpecIo.v` | What a Matrix Market file means (the file format of the User's Guide, appendix). |
| `SpecQuad.v` | Specification vocabulary for the quad-precision properties: IEEE binary64 (Flocq) as the C type [double], the number a pair stands for, and normalised pairs. |
| `SpecQuadVec.v` | Specification vocabulary for the quad vectors and matrix products: sums of real numbers and the matrix of real numbers that CSR or CSC arrays of doubles stand for. |
| `SpecTerm.v` | When the conjugate gradient type solvers must succeed. |
| `SpecGmres.v` | What GMRES and FGMRES promise. |
| `SpecStat.v` | What the stationary solvers promise. |
| `SpecMore.v` | What TFQMR, BiCGSTAB(l), IDR(s), IDR(1) and MINRES promise. |
| `SpecSplitFmt.v` | What the triangular solves mean: sums over the coefficients of the matrix. |
| `SpecIlut.v` | What dropping entries in an incomplete factorisation means (ILUT). |
| `SpecSainv.v` | What an approximate inverse by incomplete biconjugation is (SAINV). |
| `SpecIsp.v` | What the I+S preconditioner and the additive Schwarz wrapper are. |
| `SpecHybrid.v` | What the User's Guide promises about the hybrid preconditioner: applying it to B runs the solver chosen by -hybrid_i on the system A X = B (for the conjugate transpose: A^H X = B) with the tolerance, iteration limit and relaxation |
| `SpecIluc.v` | What the Crout incomplete factorisation means (ILUC). |
| `SpecSub.v` | What a Krylov subspace method promises about its projected matrix. |
| `SpecDiag2.v` | What shifting and scaling mean for the block formats, over the entries of Spec.v. |
| `SpecMatAxpy.v` | What the matrix-matrix operations promise, coefficient by coefficient. |
| `SpecGesolver.v` | What an eigensolver for A x = lambda B x promises. |
| `SpecHb.v` | What a Harwell-Boeing file of an assembled real unsymmetric n x n matrix is (User's Guide for the Harwell-Boeing Sparse Matrix Collection). |
| `SpecTfqmr.v` | Textbook CGS (Sonneveld) with the right preconditioner M, and quasi-minimal residual smoothing (Freund; Zhou and Walker). |
| `SpecBsrSolve.v` | Block triangles of a square matrix of order n with blocks of order b, and what the block triangular solves compute. |
| `SpecBsrSolveH.v` | What the solves with the conjugate transpose of the block triangles compute (lis_matrix_solveh). |
| `SpecBscSolve.v` | Exchanging the two block indices of every entry. |
| `SpecJadSolve.v` | Specification vocabulary for the triangular solves of a split JAD matrix |
| `SpecVbrSplit.v` | Specification vocabulary for splitting a VBR matrix |
| `SpecVbrSolve.v` | Split VBR matrices and what their block triangular solves compute. |
| `SpecRhist.v` | What the residual history of a solve is. |

### Theorems

| File | Content |
|---|---|
| `Properties_Sort.v` | C02, C03: the sorting routines. |
| `Properties_Formats.v` | C17 - C23: conversions between CSR and the unblocked formats. |
| `Properties_Matvec.v` | C28, C29: lis_matvec and lis_matvech, one theorem per storage format. |
| `Properties_Assemble.v` | C14, C15, C16: building a matrix element by element; the life cycle of a matrix. |
| `Properties_System.v` | C01 block partition, C04 byte swapping, C05 hash table, C06 allocation registry, C07 option text. |
| `Properties_Options.v` | C08: lis_solver_set_option. |
| `Properties_Vector.v` | C09 elementwise vector operations, C10 reductions, C11 swap, C12 element access, C13 scatter and gather. |
| `Properties_Omp.v` | C30: the row-parallel kernels give the serial result bit for bit on any number of threads and any interleaving. |
| `Properties_Diag.v` | C32, C33: lis_matrix_get_diagonal, lis_matrix_shift_diagonal and lis_matrix_scale, one theorem per storage format. |
| `Properties_Split.v` | C31 (split and merge), C34 (triangular solves), C43 (transposition). |
| `Properties_Solver.v` | C36-C40: what lis_solve reports about the solution it returns (Solve.v, Krylov.v, Krylov2.v), for every field of scalars (exact arithmetic), every matrix, right-hand side, initial vector, preconditioner, tolerance and iteration li |
| `Properties_Array.v` | C35 and C48: the dense kernels and array helpers of lis_array.c (Array.v, ArrayElem.v, Gs.v), in exact arithmetic. |
| `Properties_Mpi.v` | C41 (local column numbers), C42 (distributed products). |
| `Properties_Precon.v` | C45: the preconditioners none, Jacobi, SSOR and ILU(k) solve M x = b for the documented M. |
| `Properties_Copy.v` | C44: lis_matrix_copy gives a matrix with the same type, size and elements. |
| `Properties_Esolver.v` | C47: eigensolvers lis_epi, lis_eii, lis_erqi, lis_ecg, lis_ecr, lis_esolve (exact real arithmetic). |
| `Properties_Block.v` | C24 - C26: conversions between the compressed and the blocked formats. |
| `Properties_Convert.v` | C27: lis_matrix_convert between any two storage types. |
| `Properties_Io.v` | C46: reading and writing Matrix Market and vector files. |
| `Properties_Quad.v` | C49, C50: double-double ("quad") arithmetic. |
| `Properties_QuadVec.v` | C51: quad-precision vectors and matrix-vector products. |
| `Properties_Term.v` | C52: the conjugate gradient type solvers (CG 1, BiCG 2, CR 14, BiCR 15, COCG 24, COCR 25) finish: on a symmetric positive definite system with a symmetric positive definite preconditioner they succeed within n iterations (exact ar |
| `Properties_Gmres.v` | C53: GMRES (solver 9) and FGMRES (solver 20), real scalars, exact arithmetic. |
| `Properties_Stat.v` | C54: the stationary solvers. |
| `Properties_More.v` | C55: IDR(s) (solver 21), IDR(1) (22), BiCGSTAB(l) (5), TFQMR (7) and MINRES (23). |
| `Properties_SplitFmt.v` | C56: lis_matrix_split followed by lis_matrix_solve / lis_matrix_solveh (flags LOWER, UPPER, SSOR) for matrices in CSC, MSR, ELL, DIA and DNS format. |
| `Properties_Ilut.v` | C57: the ILUT preconditioner. |
| `Properties_Sainv.v` | C58: the SAINV preconditioner. |
| `Properties_Isp.v` | C59: the I+S preconditioner and the additive Schwarz wrapper. |
| `Properties_Hybrid.v` | C60: the hybrid preconditioner (Hybrid.v), for every field of scalars (exact arithmetic), every matrix, vector, inner solver of krylov_list, inner preconditioner, tolerance and iteration limit. |
| `Properties_Iluc.v` | C61: the ILUC (Crout) preconditioner. |
| `Properties_Esub.v` | C62: the eigensolvers that use a subspace: lis_esi, lis_eli, lis_eai (exact real arithmetic). |
| `Properties_Diag2.v` | C32, C33 for the formats Properties_Diag.v leaves out: JAD, the ELL shift, BSR, BSC and VBR. |
| `Properties_Axpy.v` | C63: lis_matrix_axpy, lis_matrix_xpay, lis_matrix_axpyz, lis_matrix_shift_matrix. |
| `Properties_Gesolver.v` | C64: the eigensolvers for A x = lambda B x: lis_egpi, lis_egii, lis_egrqi, lis_egcg, lis_egcr (exact real arithmetic, one process, A in CSR). |
| `Properties_Hb.v` | C65: reading Harwell-Boeing files (lis_input and lis_input_matrix on a file that is not a Matrix Market file). |
| `Properties_Tfqmr.v` | C55, TFQMR (solver 7): which vector lis_solve returns and what the reported number is. |
| `Properties_BsrSolve.v` | C31 and C56 for BSR: lis_matrix_split, lis_matrix_merge, and the block triangular solves of lis_matrix_solve (flags LOWER, UPPER, SSOR) with the inverted diagonal blocks. |
| `Properties_BsrSolveH.v` | C56 for BSR, lis_matrix_solveh: the solves with the conjugate transpose of the block triangles. |
| `Properties_BscSolve.v` | C31 and C56 for BSC: lis_matrix_split, lis_matrix_merge and lis_matrix_solve. |
| `Properties_JadSolve.v` | C31 and C56 for JAD: lis_matrix_split, lis_matrix_merge, lis_matrix_solve and lis_matrix_solveh. |
| `Properties_VbrSplit.v` | C31 for VBR: lis_matrix_split passes the number of blocks and the number of elements to the allocation in the wrong order, so that it writes behind the array of the elements as soon as some block outside the diagonal has more than |
| `Properties_VbrSolve.v` | C56 for VBR: the block triangular solves of lis_matrix_solve on a split VBR matrix, with the diagonal blocks inverted by the library. |
| `Properties_BscSolveH.v` | C56 for BSC, lis_matrix_solveh. |
| `Properties_Rhist.v` | C66: the residual history (lis_solver_get_rhistory, lis_solver_output_rhistory), for the modelled Krylov solvers, exact arithmetic. |

### Proofs

`Items`, `CscProof`, `SortProof`, `SortJadProof`, `CooProof`, `Fmt`, `ConvFinal`, `DnsProof`, `EllProof`, `MsrProof`, `DiaProof`, `JadProof`, `AssembleProof`, `MatvecProof`, `MatvecProof2`, `MatvecFinal`, `FmtFinal`, `SystemProof`, `MemoryProof`, `ArgsProof`, `OptionsProof`, `OmpProof`, `VectorProof`, `OmpMatvecProof`, `DiagProof`, `DiagProof2`, `SplitProof`, `SplitProof2`, `TransposeProof`, `KrylovProof`, `KrylovFinal`, `SolveProof`, `StationaryProof`, `SolverFinal`, `ArrayProof`, `LuProof`, `LuFinal`, `GsProof`, `ArrayElemProof`, `ArrayFinal`, `NetProof`, `G2lProof`, `MpiProof`, `MpiFinal`, `IluProof`, `IluProof2`, `IluFinal`, `PreconProof`, `CopyProof`, `CopyFinal`, `RealVec`, `EsolverTerms`, `EsolverProof`, `EsolverProof2`, `EsolverProof3`, `EsolverFinal`, `BlkProof`, `BlkFill`, `BsrProof`, `BsrFinal`, `Unblk`, `VbrProof`, `VbrFinal`, `VbrAuto`, `BlockFinal`, `ConvertExact`, `ConvertFinal`, `IoProof`, `IoFinal`, `IoFinal2`, `IoFinal3`, `IoSafe`, `QuadReal`, `QuadSqr`, `QuadAcc`, `QuadDiv`, `QuadSqrt`, `QuadB64`, `QuadB64b`, `QuadFinal`, `QuadFinal2`, `QuadVecOp`, `QuadVecSum`, `QuadVecProof`, `QuadVecMv`, `QuadVecFinal`, `QuadVecFinal2`, `QuadVecFinal3`, `Lindep`, `BiorthProof`, `TermProof`, `TermFinal`, `GmresMath`, `GmresProof`, `GmresLoop`, `GmresCycle`, `FgmresCycle`, `GmresOuter`, `GmresFinal`, `GmresSolve`, `StatRun`, `StatConv`, `StatFinal`, `IdrProof`, `BlProof`, `MinresMath`, `MinresProof`, `TfProof`, `MoreFinal`, `MinresFinal`, `TriLoops`, `TriLines`, `TriSolve`, `TriFill`, `SplitMsr`, `SplitCsc`, `SplitEll`, `SplitDia`, `IlutProof`, `IlutElim`, `IlutRow`, `IlutRow2`, `IlutFinal`, `IlutEnd`, `IoRej`, `SainvMath`, `SainvRow`, `SainvStep`, `SainvLoop`, `SainvFinal`, `IspApply`, `AddsProof`, `IspCount`, `IspFill`, `IspFill2`, `IspCreate`, `IspFinal`, `HybridProof`, `IlucLists`, `IlucAcc`, `IlucElim`, `IlucDrop`, `IlucStep`, `IlucCreate`, `IlucFinal`, `IlucReal`, `EsubTerms`, `EsiProof`, `SubFinal`, `LanProof`, `LanFinal`, `ArnProof`, `SubFinal2`, `QrZero`, `EaiNever`, `DiagProof3`, `DiagProof4`, `DiagProof5`, `DiagProof6`, `MatAxpyProof`, `GesTerms`, `GesProof`, `GesProof2`, `GesMath`, `GesFinal`, `HbProof`, `HbData`, `HbCut`, `HbFiles`, `TfMath`, `TfFinal`, `BsrTri`, `BsrSplit`, `BsrSplit2`, `BsrMerge`, `BsrEnd`, `BsrEnd2`, `BsrEnd3`, `BsrEnd4`, `BsrTriH`, `BsrEndH`, `BscProofS`, `JadLay`, `JadSplitP`, `JadWalk`, `JadOut`, `JadMerge`, `JadEnd`, `VbrSplitP`, `VbrTri`, `VbrEnd`, `VbrOut`, `BscEndH`, `RhistP`.

## 4. Plan per property

| Id | What is modelled | How it is proved |
|----|------------------|------------------|
| C01 | `LIS_GET_ISIE`, `lis_ranges_create` | arithmetic on Z (div/mod), loop invariant |
| C02 | all quicksorts of lis_sort.c, fuel-free by range measure | invariant of the Hoare partition, induction on range length; permutation of records |
| C03 | `lis_sort_jad` | counting-sort invariant |
| C04 | `lis_bswap_*` on byte lists | list induction |
| C05 | `lis_hash.c` | refinement to the association list of the history |
| C06 | registry list of lis_memory.c | invariant over all histories (refinement to set of live blocks) |
| C07 | `lis_text2args`, `lis_arg2args` | refinement to a functional tokenizer |
| C08 | option table and `set_option2` and friends | case analysis + frame theorem by induction on the pair list |
| C09 | lis_vector_opv.c loops | pointwise loop lemma, law-free; any iteration order |
| C10 | lis_vector_ops.c reductions with per-thread partial sums | ring induction over the partition |
| C11 | swap loop with a shared temporary, micro-step interleavings | serial: proof; OpenMP: refutation by a schedule |
| C12 | lis_vector.c accessors | case analysis + frame; refutations for the known bugs |
| C13 | scatter/gather over list of processes | index arithmetic on ranges |
| C14 | `lis_matrix_set_value`, `rco2csr`, `rco2csc` | invariant over histories; counting loops |
| C15 | status machine of lis_matrix.c | case analysis over all states |
| C16 | `lis_matrix_set_csr` | refuted: silently ignored in several states; positive theorem for the fresh state |
| C17–C26 | conversion loops of each format | loop invariants; result entries are a permutation of the input entries (zero entries dropped) |
| C27 | composition via CSR | composition of the above |
| C28–C29 | lis_matvec_*.c | loop invariants in an arbitrary ring |
| C30 | loop iterations as tasks over a shared store | commutation of tasks with disjoint footprints |
| C31–C34, C43, C44 | lis_matrix_csr.c | loop invariants |
| C35, C48 | lis_array.c | field algebra, invariants of the elimination loops |
| C36, C37, C39 | solver main loops over an abstract vector space with arbitrary preconditioner | invariant r = b − A x by induction on iterations |
| C38, C40 | jacobi/gs/sor, lis_solve | refuted as stated; true weaker theorem proved |
| C41, C42 | g2l, commtable, send_recv, local matvec | invariants; distributed = serial |
| C45 | precon solves | via triangular-solve theorems |
| C46 | token-level model of the writers/readers | induction on entries |
| C47 | esolver loops | invariants |
| C49, C50 | the macros of lis_precision.h, both builds, over an abstract set of float operations | rounded reals (Flocq) for the error bounds, transferred to binary64 by a simulation relation |
| C51 | lis_precision_vec.c, lis_precision_matvec.c | accumulated error bounds by induction over the loops |
| C52 | the loops of CG, BiCG, CR, BiCR, COCG, COCR | biorthogonality invariant + linear independence: at most n steps |
| C53 | lis_gmres, lis_fgmres | Arnoldi relation, rotated basis, least-squares optimality by induction over the columns |
| C54 | lis_jacobi, lis_gs, lis_sor, lis_solve | contraction for diagonally dominant matrices, energy norm for positive definite ones |
| C55 | lis_tfqmr, lis_bicgstabl, lis_idrs, lis_idr1, lis_minres | invariant r = b − A x, Lanczos relation for MINRES |
| C56 | lis_matrix_split/solve/solveh for CSC, MSR, ELL, DIA, DNS; split/merge/solve/solveh and the block inverse for BSR; split/merge/solve for BSC (the BSR code on the arrays of the block columns); split/merge/solve/solveh for JAD; split/merge/solve/solveh for VBR | each format gives the list of entries of line i; seven loop shapes (gather/scatter, up/down) proved once for any such list; a BSR matrix is seen as a CSR matrix whose values are blocks; the jagged layout is a bijection between (row, position in row) and array positions; the VBR overflow is shown by partial correctness: a run that returns would have written behind the array |
| C57 | lis_precon_create_ilut_csr, psolve, psolveh | loop invariant of the elimination: working row + multipliers*U rows = row of A + dropped updates; selection via the quicksort theorem; factors fed to the triangular-solve lemmas of C45 |
| C58 | lis_precon_create_sainv_csr, psolve, psolveh, ilu row storage | loop invariant: after i steps rows 0..i are final and rows j>i hold the partial biconjugation sums; row axpy via a position array; bilinear algebra gives conjugacy, positive pivots and the inverse |
| C59 | lis_precon_create_is_csr (counting and filling passes), lis_psolve(h)_is, lis_psolve(h)_adds | the set of visited columns of a row is the same in both passes, so the reserved room is used exactly; marker invariant iw[c]=position+1; accumulated sums = row of the product; I - alpha S unit triangular, hence injective; induction on the number of refinement steps |
| C60 | lis_precon_create_hybrid, lis_psolve(h)_hybrid on top of the solver models | the residual invariant of C36 for the inner run; counterexamples for dropped failures, psolveh (LIS_MATVEC is never called through), -hybrid_omega and unchecked options |
| C61 | lis_precon_create_iluc_csr (serial branch) with its linked lists, position caches and work arrays, lis_psolve(h)_iluc | invariant of the Crout loop: lists hold exactly the rows/columns whose next entry is k, accumulators equal the reduced row/column; the factors' product; counterexamples for the uninitialised sort keys and for duplicates |
| C62 | lis_esi, lis_eli, lis_eai (standard problem) on top of the models of lis_eii and lis_array_qr | loop invariants (orthonormal vectors, array entries = inner products with A V); partial-correctness calculus for runs that return; counterexamples and out-of-range accesses for all matrices |
| C63 | lis_matrix_axpy/xpay/axpyz (dense kernels and type dispatch) and lis_matrix_shift_matrix on top of the models of duplicate/convert/copy | loop invariants over the dense array; composition with the proved conversions; counterexamples for the other formats |
| C64 | lis_egpi, lis_egii, lis_egrqi, lis_egcg, lis_egcr over exact reals with an arbitrary inner solver and preconditioner | loop invariants on the iteration, Cauchy-Schwarz in the form of a symmetric non-negative matrix for the residual bounds; counterexample runs for the stopping rule and the CG vector |
| C65 | lis_input_hb and lis_input_hb_get_fmt with fgets, sscanf, atoi, atof, strchr and strncpy, character by character, the line buffer byte by byte | a grammar of legal files in SpecHb.v; induction over fields and records; prefix argument for cut files; counterexample files for the formats that are misread |
| C66 | lis_solver_get_rhistory and lis_solver_output_rhistory on the result of the model of lis_solve (fields retcode, iter, rhistory) | loop invariants of the two copies, composed with the proved facts about the recorded history (C37); counterexample runs for values that are never recorded |

## 5. Outcome per property

| Id | Property | Status | What is covered, what is missing or false of the code |
|---|---|---|---|
| C01 | Row partition covers every row exactly once | proved | thread and process partition |
| C02 | Sorting keeps every record and orders the keys | proved | all nine quicksorts; lis_sort_id_block is correct for bs<=9 and proved to overflow its stack buffer for every larger block size |
| C03 | Counting sort for JAD orders rows by length | proved | lis_sort_jad |
| C04 | Byte swapping is a loss-less involution | proved | 32-bit LIS_INT and real scalars (default build); the 64-bit and complex builds are refuted |
| C05 | The global-to-local hash table is a map | proved | any history with non-negative keys; negative keys refuted (out of bounds) |
| C06 | The allocation registry mirrors the live allocations | partial | registry exact for every history that frees/reallocates live blocks and never shrinks; shrinking (overflow), finalize (frees nothing) and realloc(NULL) refuted |
| C07 | Option text is parsed into the pairs the user wrote | proved | texts up to 1022 characters; 1023 (over-read) and longer (overflow) refuted; argv variant proved |
| C08 | Solver options select exactly the documented setting | proved | every text up to 1022 characters, every option of the table; five disagreements with the documentation are refuted separately |
| C09 | Vector elementwise operations compute the documented formula for every element | proved | Every elementwise operation, any interleaving, aliasing allowed; swap is C11. shift subtracts, as the User's Guide documents. |
| C10 | Vector reductions equal the mathematical sum for any number of threads | partial | dot/nhdot/nrm2/nrm1/sum proved for every division of the iterations when the team is as large as omp_get_max_threads(); serial builds proved; refuted: nrmi under OpenMP (uninitialised private tmp), and a smaller team (stale partial results). |
| C11 | lis_vector_swap is safe under any thread schedule | partial | The property is false of the code (C11_swap_refuted: shared temporary). Proved: the serial loop swaps; with a private temporary every schedule would. |
| C12 | Vector element access honours range, origin and flag | partial | set_value, get_value, get_values proved; set_values proved when inserting or 0-based and refuted for adding with 1-based indices; set_values2 refuted (ignores start). |
| C13 | Scatter then gather reproduces the global vector | proved | MPI build, any number of processes and any ranges. |
| C14 | Element insertion history determines the assembled matrix | proved | CSR and CSC targets of assemble; histories that first call lis_matrix_malloc(A,0,..) or call lis_matrix_malloc late overrun buffers (refuted theorems) |
| C15 | Matrix life cycle is enforced by error codes | partial | refused calls proved; set_size on an assembled matrix is accepted and discards it (refuted) |
| C16 | Arrays handed to lis_matrix_set_csr & co. become the matrix | partial | holds exactly in status NULL; otherwise SUCCESS is returned and the arrays ignored (refuted) |
| C17 | CSR <-> CSC conversion preserves the matrix | proved | both directions, memory safety, exact entries |
| C18 | CSR <-> COO conversion preserves the matrix | proved | both directions |
| C19 | CSR <-> MSR conversion preserves the matrix | partial | both directions proved when every row has a stored diagonal (and, back, when nnz counts exactly what is stored); otherwise the claim is false: refuted by three theorems (uninitialised diagonal, heap overflow in msr2csr, inconsistent nnz) |
| C20 | CSR <-> ELL conversion preserves the matrix | proved | both directions |
| C21 | CSR <-> DNS conversion preserves the matrix | proved | both directions for matrices without duplicate positions; duplicates refuted |
| C22 | CSR <-> DIA conversion preserves the matrix | proved | both directions for non-empty square matrices without duplicate positions; nnz=0 proved to be out of bounds |
| C23 | CSR <-> JAD conversion preserves the matrix | proved | both directions |
| C24 | CSR <-> BSR conversion preserves the matrix | proved | Any block size; both directions and the round trip. Refuted: two entries at one position (the last overwrites), non-zero numbers in block padding (out-of-bounds write). |
| C25 | CSR <-> BSC conversion preserves the matrix | partial | Square blocks only (the code is wrong for rectangular ones, refuted); BSC to CSR for any block size. |
| C26 | CSR <-> VBR conversion preserves the matrix | partial | Any partition given by the caller; with the library's own partition only when the last column has an entry (refuted otherwise: trailing rows are lost). |
| C27 | Converting between any two formats preserves the matrix | partial | Any of the 11 types to any other, also from a split CSR matrix, under the conditions each target needs (no duplicates where the format cannot hold them, stored diagonal for MSR, square for DIA/BSR/BSC/VBR, square blocks for BSC, an entry in the last column for automatic VBR); without them refuted. Not modelled: RCO source (Assemble.v), MPI, OpenMP branches, split forms other than CSR. |
| C28 | lis_matvec computes A*x in every storage format | proved | serial, unsplit kernels of all eleven formats in exact arithmetic; the OpenMP, split (L+D+U) and MPI branches are not in these theorems |
| C29 | lis_matvech computes the conjugate-transpose product in every storage format | partial | all formats proved (square matrices where the code zeroes only n entries of y); refuted for complex COO matrices, where lis_matvech_coo omits conj |
| C30 | Row-parallel kernels give bit-identical results for any thread count and schedule | proved | CSR, MSR (parallel for), ELL, DNS (LIS_GET_ISIE, any number of threads) equal the serial model with no scalar laws; elementwise operations have one outcome. |
| C31 | Splitting and merging A = L + D + U loses nothing | partial | proved for CSR matrices that store every diagonal entry once, for BSR matrices (square blocks) that store every diagonal block, and for JAD matrices that store every diagonal entry and have no empty jagged diagonal; for BSC the merge restores the matrix but A->L and A->U hold the wrong triangles (refuted); for VBR lis_matrix_split writes behind its arrays whenever a block outside the diagonal has more than one element (refuted: the numbers of blocks and of elements are exchanged); refuted for a row (block row) without a stored diagonal entry (block): D is uninitialised, and in JAD a row can be cut because lis_matrix_merge_jad does not set maxnzr; refuted for a repeated diagonal entry, and for the transposed product with ghost columns |
| C32 | Diagonal extraction and shifting act on the diagonal only | partial | get/shift proved for all formats under the stated conditions (CSR, CSC, MSR, ELL, DNS, DIA, COO, JAD, BSR/BSC with square blocks); the documented behaviour is refuted for COO/JAD/BSR/BSC rows without a stored diagonal entry (d keeps its old content), DIA without a main diagonal, duplicates, CSR shift of rows without a diagonal entry, BSR with rectangular blocks, and VBR (blocks located by bjj*bnc) |
| C33 | Diagonal scaling keeps the solution set | partial | Jacobi proved for CSR, CSC, MSR, ELL, COO, DNS, DIA, JAD, BSR (square blocks), symmetric for CSR, CSC, ELL, DNS, DIA, JAD, BSR; VBR scaling functions proved; refuted: symmetric COO and MSR, BSC (block column used as block row), VBR through lis_matrix_scale (wrong diagonal) |
| C34 | Triangular solves invert the triangular factor | proved | CSR, one thread |
| C35 | Dense block kernels compute matrix products and inverses | proved | Every block size incl. the unrolled 1,2,3 cases; inverse/solve characterised exactly by the existence of an LU factorisation without pivoting (C35_nonsingular_refuted: a non-singular matrix with a zero pivot). |
| C36 | A successful Krylov solve reports the true residual of the returned solution | proved | 15 Krylov solvers (CG BiCG CGS BiCGSTAB GPBiCG Orthomin BiCGSafe CR BiCR CRS BiCRSTAB GPBiCR BiCRSafe COCG COCR) through lis_solve with any preconditioner, every convergence condition, with and without scaling; the initial test of condition 2 is refuted separately |
| C37 | Iteration count and status are consistent | partial | no out-of-bounds access, status/iteration/history relations proved; refuted: MAXITER reports maxiter+1 iterations, the residual is uninitialised for maxiter=0 and on breakdown in iteration 1, BiCGSTAB divides by zero instead of reporting breakdown |
| C38 | Stationary solvers report the residual of the returned iterate | partial | claim refuted for Jacobi, Gauss-Seidel and SOR; proved instead: the reported residual is that of the iterate before the returned one |
| C39 | A good initial guess is accepted immediately | proved | proved without scaling for all modelled Krylov solvers; refuted for symmetric diagonal scaling |
| C40 | lis_solve reports failure to converge | partial | refuted: lis_solve returns LIS_SUCCESS when the solver gives up; proved: the status query gives the outcome |
| C41 | Distributed numbering is a bijection onto the needed global columns | proved | lis_matrix_g2l_csr and lis_matrix_g2l_rco |
| C42 | Distributed matvec equals the serial one | proved | CSR; asynchronous message passing with per-pair FIFO channels (Net.v), buffered or rendezvous sends, any schedule. Hypothesis: every process imports something, or the read of import_index[0] of an empty array is harmless; C42_empty_import_refuted shows the hypothesis is needed |
| C43 | Transposition is an involution | proved | CSR and CSC square; lis_matrix_transpose_coo does nothing (refuted) |
| C44 | Copying and duplicating a matrix yields an independent equal matrix | partial | Copying into a fresh destination of the right size is proved for all eleven formats, and for a split CSR matrix. The code fails in other uses (refuted): an assembled, unsized or differently sized destination returns success without a copy; lis_matrix_copy_csc relabels an assembled CSR destination. Not modelled: the split branch of the other formats. |
| C45 | Preconditioner application equals its defining operator | partial | none, Jacobi and ILU(k) proved in full for CSR; SSOR: the code solves with (wD+L)(I+(wD)^-1 U), i.e. the documented matrix for 1/omega (C45_ssor_partial), refutations for omega, re-creation, duplicate entries and the OpenMP psolveh |
| C46 | Matrix and vector files: reading, writing, round trips | partial | Proved for real scalars, one process: reading coordinate (general/symmetric) and array files into any type, no-UB for any text file read by lis_input_matrix into CSR, matrix round trips (text and binary, both byte orders), Matrix Market and PLAIN vector round trips. Refuted (theorems C46_*_refuted): x section written from b, NULL or missing b/x, LIS vector format keeps only the first element, integer vectors rejected, unknown format silently ignored, fopen failure, truncated vector section, unchecked columns, uninitialised size fields, binary/symmetric array files. Not modelled: Harwell-Boeing files, complex scalars, numeral syntax, several processes. |
| C47 | Eigensolvers report a residual that belongs to the returned pair | partial | lis_epi, lis_eii, lis_erqi, lis_ecg, lis_ecr and lis_esolve for the standard problem in exact real arithmetic with an arbitrary inner solver, preconditioner and 3x3 solver; the literal claim (reported residual = residual of the returned pair, error codes reported, matrix left as it was) is refuted where the code breaks it. Subspace, Lanczos and Arnoldi: C62. Missing: the generalized solvers, floating point |
| C48 | Array norms and Gram-Schmidt helpers satisfy their definition | partial | Elementwise helpers, reductions, mgs proved; cgs proved up to the first dependent column (refuted beyond), complex cgs/mgs refuted (missing conjugate), lis_array_qr: report proved, convergence claim refuted for n>=3, n=1 reads out of bounds. |
| C49 | The building blocks of quad precision are error free | partial | proved for the builds without HAS_FMA (scalar and, through C50, SSE2) under the hypothesis that no operation overflows, with sufficient bounds; refuted for HAS_FMA: the products have the wrong sign |
| C50 | Quad-precision arithmetic is accurate to about 100 bits | partial | add, sub, mul, mul_dd_d, sqr, div proved for the scalar and the SSE2 build, sqrt for the SSE2 build. Refuted: scalar sqrt (double precision only), scalar add without USE_FAST_QUAD_ADD, products with HAS_FMA, relative accuracy of sub, sqrt(0). The SSE2 add without USE_FAST_QUAD_ADD is modelled, its bound not proved |
| C51 | Quad-precision vector operations and matrix products keep quad accuracy | partial | proved for every variant except: nrm2 in the scalar variant (only double precision, refuted; zero vector gives LIS_FAILS, refuted), reciprocal with SSE2+OpenMP (refuted), A^H products of SSE2 with duplicate entries or split matrices (refuted) |
| C52 | Conjugate gradient type solvers finish within n iterations | proved | exact arithmetic; finite termination without definiteness is proved for CG, COCG, BiCG and BiCR. Refuted where the hypotheses are dropped: COCG with Jacobi scaling (which lis_solve replaces by symmetric scaling only for CG), CG on a nonsymmetric matrix |
| C53 | GMRES and FGMRES report the true residual and finish within n iterations | partial | GMRES/FGMRES true residual, monotone and optimal history, no breakdown and finite termination proved for restart >= 1 (C53_gmres, C53_fgmres, C53_no_breakdown, C53_finite_termination, C53_exact). Refuted: restart 0 is accepted and writes out of bounds; FGMRES compares the absolute residual with the relative tolerance; singular matrices divide by zero without LIS_BREAKDOWN; GMRES with a changing preconditioner reports a wrong residual. |
| C54 | Jacobi, Gauss-Seidel and SOR converge where the theory says they do | proved | real scalars, exact arithmetic (the step-by-step description holds over every field); omega < 0 is accepted by the parameter check and diverges (C54_negative_omega_refuted); Jacobi can diverge on symmetric positive definite matrices (C54_jacobi_spd_refuted) |
| C55 | TFQMR, BiCGSTAB(l), IDR(s), IDR(1) and MINRES report what they return | partial | IDR(s), IDR(1), BiCGSTAB(l) from a zero start and MINRES (M A symmetric) proved; TFQMR returns the smoothed CGS iterates of a textbook definition and reports their quasi-residual (C55_tfqmr), which bounds the residual only under a condition on the half-way points (C55_tfqmr_bound) and in general is not the residual (C55_tfqmr_refuted). Refuted: history overrun in IDR(s) for s > maxiter+1, IDR(1) odd maxiter and BiCGSTAB(l) with maxiter+1 not a multiple of l; IDR(0); BiCGSTAB(l) with a starting vector returns x + x0, and at maxiter the unpreconditioned vector; MINRES reports the preconditioned residual and divides by zero when started at a solution |
| C56 | Splitting and triangular solves agree with the matrix in the other storage formats | partial | ELL, DIA and DNS in full; BSR (square blocks) for lis_matrix_solve, and for lis_matrix_solveh except over complex scalars LOWER with blocks of order 2 or 3 and UPPER with blocks of order 1 or 2 (refuted: conj() is missing); BSC for block symmetric matrices (otherwise refuted: the solves belong to the matrix with blocks (r,c) and (c,r) exchanged); MSR without solveh LOWER/UPPER (refuted: the loops run in the wrong direction); CSC only when the strictly lower and upper parts have equally many entries (otherwise refuted: heap overflow in lis_matrix_split); JAD: every solve of every matrix reads ptr one word past its end (refuted), and is right if that word can be read, whatever it holds. VBR: lis_matrix_solve for every split matrix whose blocks have at most 1024 rows (more overflow the stack array w, refuted); lis_matrix_solveh of VBR does not transpose (refuted). lis_matrix_solveh for BSC: for block symmetric matrices, over complex scalars except LOWER with blocks of order 1 to 3, UPPER with order 1 and SSOR with orders 1 and 2 (each refuted: conj() is missing). |
| C57 | The ILUT preconditioner is a dual-threshold incomplete factorisation | partial | factorisation, accuracy bound, psolve and real psolveh proved; refuted: the kept entries are the largest (the code keeps the smallest), psolveh for complex scalars, memory safety with duplicate positions |
| C58 | The SAINV preconditioner is the incomplete biconjugation of the matrix | partial | proved for n>=10; refuted: every matrix with 1..9 rows is written out of range (C58_small_refuted); for complex matrices conj(W) is applied where W is needed (C58_complex_refuted) |
| C59 | The I+S preconditioner and the additive Schwarz wrapper are the matrices they stand for | partial | refuted: a matrix that is already scaled with diagonal elements -1 gives a system with other solutions (C59_is_diagonal_refuted) |
| C60 | Applying the hybrid preconditioner solves the system with the solver given by the -hybrid options | partial | The inner solver runs exactly as configured and M^{-1}b is the inner iterate started from zero; refuted parts: an inner failure is not reported, the transposed application solves A x = b because the LIS_MATVEC pointers are never called through, -hybrid_omega is ignored by the inner SOR, and the inner options are not range-checked |
| C61 | The ILUC (Crout) preconditioner keeps the largest entries of each step and its application solves with the product of its factors | partial | proved: memory safety, the contents of every row/column of the factors, the product bound off the diagonal, M_ii, psolve and psolveh, exactness for tol=0/gamma=1. Refuted: in a full row the entries kept depend on uninitialised memory and need not be the largest (/z[j]/ is compared instead of /z[iz[j]]/); duplicate positions overflow the work arrays. |
| C62 | Subspace, Lanczos and Arnoldi eigensolvers return the eigenpairs of the projected matrix | partial | lis_esi with one vector (residual and pair, no undefined behaviour), the Lanczos and Arnoldi arrays as V^T A V, and the refined pairs of lis_eli are proved for runs that return; refuted in exact arithmetic: ss >= 2 in lis_esi (second start vector is zero), the status after maxiter, inner methods other than power and inverse iteration, the last Ritz value of lis_eli, lis_eli with the default -ss 1 and every run of lis_eai (out-of-range access). Missing: total termination of lis_eli for ss >= 2, generalized problems, floating point |
| C63 | Matrix combinations and the matrix shift compute every coefficient | partial | proved for dense A and B (axpy, xpay, axpyz) and for the shift of a CSR matrix by a matrix in any format; any other format of A: axpy/xpay/axpyz return LIS_ERR_NOT_IMPLEMENTED, lis_matrix_shift_matrix leaves A as it was (C63_shift_matrix_other_types, _refuted); the type of B is not checked: a CSR B is accessed out of bounds (C63_axpy_type_refuted) |
| C64 | Generalized eigensolvers report a pair of A x = lambda B x with the residual they claim | partial | Proved for all matrices, shifts and inner solvers: what eigenvalue, residual, status and vector are, the residual bounds for power, inverse, Rayleigh quotient and CR, A restored, no overrun. Refuted: lis_egcg never updates the vector it returns (C64_conjugate_gradient_vector_refuted); the documented stopping rule fails for lis_egpi at every tolerance (C64_stopping_rule_refuted). Quad precision and OpenMP/MPI branches are not covered. |
| C65 | A Harwell-Boeing file is read as it stands or reported | partial | proved for every legal file without D exponents; the claims about formats, D exponents and short lines are refuted |
| C66 | The residual history is the history of the run | partial | both queries are safe and agree after every solve; with LIS_PRINT_MEM and a start vector that is not accepted at once the values are as claimed (that entry j is the residual of iterate j is not proved for the entries before the last). Refuted: without LIS_PRINT_MEM, or when the start vector is accepted, the values are uninitialised memory; the first value is always 1; lis_solver_get_rhistory before the first solve reads through NULL |

## 6. What is modelled and what is not

Modelled (see the citations in the model files): block partition, sorting, byte swap, hash table, allocation registry, option text and
solver options, vectors (serial, OpenMP interleavings, scatter/gather), the life cycle and element-wise construction of matrices, all eleven
storage formats and their conversions, serial matrix–vector products for all formats (OpenMP for CSR/MSR/ELL/DNS), distributed CSR products with
asynchronous message passing, diagonal access and scaling, splitting and triangular solves (CSR, CSC, MSR, ELL, DIA, DNS, BSR, BSC), transposition, copying, the dense kernels, lis_solve with
all 25 solvers (double precision), the preconditioners none/Jacobi/SSOR/ILU(k)/ILUT/SAINV/I+S/additive Schwarz/Hybrid/ILUC, file input/output of Matrix Market, PLAIN and LIS formats,
the eigensolvers PI/II/RQI/CG/CR/SI/LI/AI, and the quad-precision arithmetic, vectors and CSR/CSC products.

Not modelled: the preconditioners ILUC for BSR storage and its OpenMP branch, SAAMG (Fortran); the generalized subspace, Lanczos and Arnoldi eigensolvers; quad-precision and switching versions of the solvers; the free-format reader; the Fortran interface;
OpenMP branches other than those named; overflow of LIS_INT; failure of malloc; timing and printing.

## 7. Trusted base

Coq 8.16.1 kernel; the faithfulness of the hand translation C → Gallina (each definition cites its lines); the modelling decisions of section 2.
No axiom, parameter or hypothesis is added by this development. `Print Assumptions` for each theorem reports only axioms of Coq's standard library:
`ClassicalDedekindReals.sig_not_dec`, `ClassicalDedekindReals.sig_forall_dec`, `FunctionalExtensionality.functional_extensionality_dep` (the real numbers)
and `Classical_Prop.classic` (through Flocq):

**Closed under the global context (no axiom)** – 432 theorems:

C01_isie_partition, C01_ranges, C02_sort_d, C02_sort_dd, C02_sort_di, C02_sort_i, C02_sort_id, C02_sort_id_block, C02_sort_id_block_refuted, C02_sort_ii, C02_sort_iid, C02_sort_iiid, C02_sortr_ii, C03_sort_jad, C04_bswap, C04_complex_refuted, C04_longlong_refuted, C05_hash, C05_negative_refuted, C06_finalize_refuted, C06_realloc_null_refuted, C06_registry_partial, C06_shrink_refuted, C07_arg2args, C07_full_text_refuted, C07_long_text_refuted, C07_text2args, C08_bad_real_refuted, C08_ilut_refuted, C08_last_wins, C08_named_values, C08_number_unchecked_refuted, C08_precision_number_refuted, C08_set_option, C08_unknown_name, C09_abs, C09_axpy, C09_axpyz, C09_conjugate, C09_copy, C09_pdiv, C09_pmul, C09_reciprocal, C09_refuse2, C09_refuse3, C09_scale, C09_set_all, C09_shift, C09_xpay, C10_dot_partial, C10_nhdot_partial, C10_nrm1_partial, C10_nrm2_partial, C10_nrmi_refuted, C10_nrmi_serial, C10_serial, C10_small_team_refuted, C10_sum_partial, C11_private_temporary, C11_swap_refuted, C11_swap_serial_partial, C12_get_value, C12_get_values, C12_set_value, C12_set_values2_partial, C12_set_values2_refuted, C12_set_values_partial, C12_set_values_refuted, C13_scatter_gather, C14_late_malloc_refuted, C14_malloc_zero_refuted, C14_ready_states, C14_set_value_history, C15_assembled_refuses_changes, C15_bad_sizes_refused, C15_index_out_of_range, C15_set_size_twice_refuted, C15_set_value_before_size, C15_unassembled_refused, C16_set_csr_ignored_refuted, C16_set_csr_partial, C17_C26_same_coefficients, C17_csc2csr, C17_csr2csc, C18_coo2csr, C18_csr2coo, C19_csr2msr, C19_csr2msr_missing, C19_csr2msr_refuted, C19_msr2csr, C19_msr2csr_overflow_refuted, C19_roundtrip_zero_refuted, C20_csr2ell, C20_ell2csr, C21_csr2dns, C21_csr2dns_duplicates_refuted, C21_dns2csr, C22_csr2dia, C22_csr2dia_empty_refuted, C22_dia2csr, C23_csr2jad, C23_jad2csr, C23_vector_orders, C24_bsr2csr, C24_bsr2csr_padding_refuted, C24_csr2bsr, C24_csr2bsr_duplicates_refuted, C24_round_trip, C25_bsc2csr, C25_csc2bsc, C25_rectangular_refuted, C26_csr2vbr, C26_csr2vbr_partition, C26_last_column_refuted, C26_round_trip, C26_vbr2csr, C27_any_to_msr_refuted, C27_blocksize, C27_blocksize_overrun_refuted, C27_convert, C27_convert_split, C27_csr_to_csr_refuted, C27_not_assembled, C27_overwrite_refuted, C27_vbr_partition_refuted, C28_matvec_bsc, C28_matvec_bsr, C28_matvec_coo, C28_matvec_csc, C28_matvec_csr, C28_matvec_dia, C28_matvec_dns, C28_matvec_ell, C28_matvec_jad, C28_matvec_msr, C28_matvec_vbr, C29_matvech_bsc, C29_matvech_bsr, C29_matvech_coo_partial, C29_matvech_coo_refuted, C29_matvech_csc, C29_matvech_csr, C29_matvech_dia, C29_matvech_dns, C29_matvech_ell, C29_matvech_jad, C29_matvech_msr, C29_matvech_vbr, C30_elementwise, C30_matvec_csr, C30_matvec_dns, C30_matvec_ell, C30_matvec_msr, C31_bsc_partial, C31_bsc_parts_refuted, C31_bsr, C31_bsr_missing_block_refuted, C31_bsr_rectangular, C31_jad_partial, C31_jad_refuted, C31_merge, C31_missing_diagonal_refuted, C31_repeated_diagonal_refuted, C31_split, C31_split_matvec, C31_split_matvech, C31_split_matvech_ghost_refuted, C31_split_then_merge, C31_vbr_refuted, C32_get_diagonal_bsc_partial, C32_get_diagonal_bsr_partial, C32_get_diagonal_bsr_rectangular_refuted, C32_get_diagonal_coo_partial, C32_get_diagonal_coo_refuted, C32_get_diagonal_csc, C32_get_diagonal_csr, C32_get_diagonal_dia, C32_get_diagonal_dia_refuted, C32_get_diagonal_dns, C32_get_diagonal_duplicates_refuted, C32_get_diagonal_ell, C32_get_diagonal_jad_partial, C32_get_diagonal_jad_refuted, C32_get_diagonal_msr, C32_get_diagonal_vbr_refuted, C32_shift_diagonal_bsc, C32_shift_diagonal_bsr, C32_shift_diagonal_coo, C32_shift_diagonal_csc, C32_shift_diagonal_csr, C32_shift_diagonal_dia, C32_shift_diagonal_dia_refuted, C32_shift_diagonal_dns, C32_shift_diagonal_ell, C32_shift_diagonal_jad, C32_shift_diagonal_msr, C32_shift_diagonal_vbr_refuted, C32_shift_identity_bsr, C32_shift_identity_csr_refuted, C32_shift_identity_dns, C32_shift_identity_msr, C33_jacobi_bsc_refuted, C33_jacobi_bsr, C33_jacobi_coo, C33_jacobi_csc, C33_jacobi_csr, C33_jacobi_dia, C33_jacobi_dns, C33_jacobi_ell, C33_jacobi_jad, C33_jacobi_msr, C33_jacobi_vbr_refuted, C33_scale_bsr, C33_scale_bsr_length_refuted, C33_scale_jad_partial, C33_scale_symm_vbr, C33_scale_vbr, C33_symmetric_bsr, C33_symmetric_coo_refuted, C33_symmetric_csc, C33_symmetric_csr, C33_symmetric_dia, C33_symmetric_dns, C33_symmetric_ell, C33_symmetric_jad, C33_symmetric_msr_partial, C33_symmetric_msr_refuted, C34_diag_inverse, C34_solve_lower, C34_solve_ssor, C34_solve_upper, C34_solveh_lower, C34_solveh_ssor, C34_solveh_upper, C35_inverse, C35_matmat, C35_matmat_ns, C35_matvec, C35_matvec_ns, C35_matvech, C35_nonsingular_refuted, C35_solve, C36_nrm1_initial_refuted, C36_reported_residual, C36_scaled_residual, C36_true_residual, C36_true_residual_nrm1, C37_bicgstab_breakdown_refuted, C37_history, C37_iterations_partial, C37_maxiter_count_refuted, C37_no_undefined_behaviour, C37_residual_uninitialised_refuted, C38_omega_ignored_refuted, C38_previous_iterate_partial, C38_refuted, C38_zero_rhs_refuted, C39_accepted, C39_exact_initial_vector, C39_symmetric_scaling_refuted, C40_refuted, C40_status_tells, C41_g2l_csr, C41_g2l_rco, C42_distributed_products, C42_empty_import_refuted, C43_transpose_coo_refuted, C43_transpose_csc, C43_transpose_csr, C43_transpose_entries, C43_transpose_twice, C44_copy, C44_copy_duplicate, C44_copy_split, C44_csc_onto_csr_refuted, C44_overwrite_refuted, C44_size_refuted, C44_unsized_refuted, C45_ilu, C45_ilu_duplicates_refuted, C45_ilu_exact, C45_ilu_omp_psolveh_refuted, C45_jacobi, C45_none, C45_ssor_omega_refuted, C45_ssor_partial, C45_ssor_recreate_refuted, C46_any_text_file, C46_array_refuted, C46_column_refuted, C46_input, C46_input_array, C46_only_b_refuted, C46_open_failure_refuted, C46_rejects, C46_round_trip_from_csr, C46_round_trip_to_csr, C46_symmetric, C46_truncated_vector_refuted, C46_uninitialised_refuted, C46_unknown_format_refuted, C46_vector_lis_refuted, C46_vector_mm, C46_vector_mm_integer_refuted, C46_vector_plain, C46_x_only_refuted, C46_x_refuted, C47_esolve_return_refuted, C47_inner_error_refuted, C47_inner_not_converged_refuted, C47_missing_diagonal_refuted, C47_power_iteration_residual_refuted, C47_shifted_residual_refuted, C47_zero_iterations_refuted, C48_abs, C48_axpy, C48_axpyz, C48_cgs_partial, C48_cgs_rank_deficient_refuted, C48_complex_refuted, C48_conjugate, C48_copy, C48_mgs, C48_nrmi, C48_pdiv, C48_pmul, C48_qr_converged_refuted, C48_qr_order1_refuted, C48_qr_report_partial, C48_reciprocal, C48_reductions, C48_scale, C48_set_all, C48_shift, C48_swap, C48_xpay, C52_cg_nonsymmetric_refuted, C52_finite_termination, C52_jacobi_scaling_refuted, C53_fgmres_relative_refuted, C53_gmres_variable_precon_refuted, C53_restart_0_refuted, C53_singular_refuted, C54_run, C55_bicgstabl, C55_bicgstabl_guess_refuted, C55_bicgstabl_history_refuted, C55_bicgstabl_maxiter_refuted, C55_idr1, C55_idr1_history_refuted, C55_idrs, C55_idrs_history_refuted, C55_idrs_zero_refuted, C55_minres_preconditioned_refuted, C55_tfqmr_partial, C55_tfqmr_refuted, C56_bsc_exchanged_partial, C56_bsc_partial, C56_bsc_refuted, C56_bsc_solveh_exchanged_partial, C56_bsc_solveh_lower1_refuted, C56_bsc_solveh_lower2_refuted, C56_bsc_solveh_lower3_refuted, C56_bsc_solveh_partial, C56_bsc_solveh_ssor1_refuted, C56_bsc_solveh_ssor2_refuted, C56_bsc_solveh_upper1_refuted, C56_bsr, C56_bsr_solveh_lower2_refuted, C56_bsr_solveh_lower3_refuted, C56_bsr_solveh_partial, C56_bsr_solveh_upper1_refuted, C56_bsr_solveh_upper2_refuted, C56_csc_partial, C56_dia, C56_dns, C56_ell, C56_jad_partial, C56_jad_refuted, C56_msr_partial, C56_solveh_msr_refuted, C56_split_csc_overflow_refuted, C56_split_ell_junk_refuted, C56_vbr_partial, C56_vbr_solveh_refuted, C56_vbr_solveh_ssor_refuted, C56_vbr_wide_refuted, C57_duplicates_refuted, C57_ilut_partial, C57_keeps_largest_refuted, C57_psolveh_refuted, C58_complex_refuted, C58_sainv_partial, C58_small_refuted, C59_adds, C59_adds_jacobi, C59_addsh, C59_is_diagonal_refuted, C59_is_psolve, C59_is_psolveh, C60_failure_dropped_refuted, C60_hybrid_create, C60_hybrid_psolve, C60_hybrid_stationary_partial, C60_omega_ignored_refuted, C60_transpose_refuted, C60_unchecked_options_refuted, C61_duplicates_refuted, C61_iluc_partial, C61_uninitialised_refuted, C63_axpy, C63_axpy_other_types, C63_axpy_type_refuted, C63_axpyz, C63_shift_matrix_csr, C63_shift_matrix_other_types, C63_shift_matrix_refuted, C63_xpay, C65_bad_format_refuted, C65_d_exponent_refuted, C65_format_refuted, C65_kind, C65_read, C65_rectangular, C65_short_line_refuted, C65_truncated, C66_accepted_refuted, C66_before_solve_refuted, C66_first_refuted, C66_history_partial, C66_queries_agree, C66_unrecorded_refuted.

**Axioms `classic`** – 2 theorems:

C59_is_create, C59_is_system_partial.

**Axioms `functional_extensionality_dep`, `sig_forall_dec`, `sig_not_dec`** – 57 theorems:

C47_conjugate_gradient, C47_conjugate_residual, C47_inverse_iteration, C47_no_undefined_behaviour, C47_power_iteration, C47_power_iteration_vector, C47_rayleigh_iteration, C47_rayleigh_iteration_exact, C48_cgs_orthonormal, C48_mgs_orthonormal, C52_spd_exact, C52_spd_success, C53_exact, C53_fgmres, C53_finite_termination, C53_gmres, C53_no_breakdown, C54_dominant_rate, C54_dominant_solvable, C54_dominant_success, C54_jacobi_spd_refuted, C54_negative_omega_refuted, C54_spd_energy, C54_spd_success, C55_minres, C55_minres_exact, C55_minres_finite, C55_minres_solved_refuted, C55_tfqmr, C55_tfqmr_bound, C57_ilut_accuracy, C58_exact_inverse, C61_iluc_accuracy, C62_arnoldi_array_partial, C62_arnoldi_refuted, C62_lanczos_array_partial, C62_lanczos_array_safe, C62_lanczos_default_refuted, C62_lanczos_pairs, C62_lanczos_ritz_refuted, C62_subspace_inverse, C62_subspace_no_undefined_behaviour, C62_subspace_other_refuted, C62_subspace_power, C62_subspace_second_vector_refuted, C62_subspace_status_refuted, C64_conjugate_gradient_values, C64_conjugate_gradient_vector_refuted, C64_conjugate_residual, C64_inverse, C64_inverse_pair, C64_no_undefined_behaviour, C64_power, C64_power_pair, C64_rayleigh, C64_rayleigh_exact, C64_stopping_rule_refuted.

**Axioms `classic`, `functional_extensionality_dep`, `sig_forall_dec`, `sig_not_dec`** – 53 theorems:

C49_fast_two_sum_exact, C49_products_do_not_overflow, C49_split_exact, C49_sums_do_not_overflow, C49_two_diff_exact, C49_two_prod_exact, C49_two_prod_fma_refuted, C49_two_sqr_exact, C49_two_sum_exact, C50_accurate_add_refuted, C50_add_accurate, C50_add_does_not_overflow, C50_add_same_sign, C50_div_accurate, C50_div_does_not_overflow, C50_fma_products_refuted, C50_max_correct, C50_min_correct, C50_minus_exact, C50_mul_accurate, C50_mul_by_double_accurate, C50_mul_does_not_overflow, C50_relative_sub_refuted, C50_scalar_sqrt_refuted, C50_sqr_accurate, C50_sqrt_does_not_overflow, C50_sqrt_of_zero_refuted, C50_sqrt_sse2_accurate_partial, C50_sub_accurate, C51_axpy, C51_axpyz, C51_copy, C51_copy_of_doubles, C51_dot, C51_dot_sizes_differ, C51_matvec_csc, C51_matvec_csr, C51_matvec_csr_split, C51_matvech_csc, C51_matvech_csr, C51_matvech_csr_split_partial, C51_matvech_duplicates_sse2_refuted, C51_matvech_split_sse2_refuted, C51_nrm2_partial, C51_nrm2_scalar_refuted, C51_nrm2_zero_refuted, C51_reciprocal, C51_reciprocal_omp_scalar, C51_reciprocal_omp_sse2_refuted, C51_scale, C51_scale_by_double, C51_set_all, C51_xpay.
