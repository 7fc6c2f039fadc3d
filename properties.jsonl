{"id": "C01", "title": "Row partition covers every row exactly once", "statement": "The block partition used for threads (LIS_GET_ISIE) and for processes (lis_ranges_create with a global size) splits 0..n-1 into consecutive, non-overlapping ranges whose union is everything; range sizes differ by at most one.", "quantifier": "every n>=0, every number of workers >=1, every worker", "why_tests_cant": "n and the worker count are unbounded; off-by-one gaps appear only at particular remainders.", "anchors": ["include/lis.h:LIS_GET_ISIE", "src/system/lis_init.c:lis_ranges_create"]}
{"id": "C02", "title": "Sorting keeps every record and orders the keys", "statement": "lis_sort_i, lis_sort_id, lis_sort_ii, lis_sort_iid, lis_sort_iiid, lis_sort_d, lis_sort_dd, lis_sort_di and lis_sortr_ii terminate, stay inside the requested index range, leave the key array ordered on that range (descending for sortr), move all satellite arrays together with the keys (the records are a permutation of the original records), and leave everything outside the range untouched.", "quantifier": "every array content, including repeated keys, and every sub-range", "why_tests_cant": "Hoare-partition quicksorts fail only on rare pivot/duplicate patterns.", "anchors": ["src/system/lis_sort.c"]}
{"id": "C03", "title": "Counting sort for JAD orders rows by length", "statement": "lis_sort_jad produces a permutation of the row numbers in its range such that row lengths are in non-increasing order, and writes the sorted lengths; no access outside the arrays happens when lengths are in 0..maxnzr.", "quantifier": "every array of row lengths and every sub-range", "why_tests_cant": "unbounded arrays and duplicate lengths", "anchors": ["src/system/lis_sort.c:lis_sort_jad"]}
{"id": "C04", "title": "Byte swapping is a loss-less involution", "statement": "Applying the same byte-swap routine twice to a buffer of ints or doubles gives back the original buffer, and one application reverses the bytes of every element and touches nothing else.", "quantifier": "every buffer length and every byte content", "why_tests_cant": "2^64 values per element, unbounded length", "anchors": ["src/system/lis_sort.c:lis_bswap_int", "src/system/lis_sort.c:lis_bswap_double"]}
{"id": "C05", "title": "The global-to-local hash table is a map", "statement": "After any sequence of lis_hashtable_set_value calls with non-negative keys, lis_hashtable_get_value returns the value most recently stored for that key, and 0 for a key never stored, regardless of collisions.", "quantifier": "every history of insertions and every non-negative lookup key", "why_tests_cant": "collision chains depend on the whole insertion history", "anchors": ["src/system/lis_hash.c"]}
{"id": "C06", "title": "The allocation registry mirrors the live allocations", "statement": "After any history of lis_malloc/lis_calloc/lis_realloc/lis_free calls, lis_is_malloc answers TRUE exactly for the blocks allocated and not yet freed, each registered block is freed at most once, and lis_finalize releases all of them.", "quantifier": "every history of allocation-API calls", "why_tests_cant": "the registry is a global list whose state depends on the entire call history", "anchors": ["src/system/lis_memory.c"]}
{"id": "C07", "title": "Option text is parsed into the pairs the user wrote", "statement": "lis_text2args turns a text into (name,value) pairs by taking blank-separated words two by two, lower-casing them, and dropping an unpaired last word; texts shorter than the internal buffer never overrun it.", "quantifier": "every option text", "why_tests_cant": "unbounded strings", "anchors": ["src/system/lis_init.c:lis_text2args", "src/system/lis_init.c:lis_arg2args"]}
{"id": "C08", "title": "Solver options select exactly the documented setting", "statement": "lis_solver_set_option changes only the settings named in the text; a solver/preconditioner/storage/... name selects the code of that name, the last occurrence of an option wins, an unknown value name yields LIS_ERR_ILL_ARG, and an unknown option name is ignored.", "quantifier": "every sequence of option pairs and every prior solver state", "why_tests_cant": "combinatorially many option sequences", "anchors": ["src/solver/lis_solver.c:lis_solver_set_option2", "src/solver/lis_solver.c:lis_solver_set_option_solver"]}
{"id": "C09", "title": "Vector elementwise operations compute the documented formula for every element", "statement": "copy, axpy, xpay, axpyz, scale, pmul, pdiv, set_all, abs, reciprocal, shift, conjugate and swap write exactly the documented value in every component, read and write only inside the vectors, and reject vectors of different sizes with LIS_ERR_ILL_ARG without changing anything.", "quantifier": "every vector length, every content (bit-exact, no arithmetic laws assumed), and every schedule of the parallel loop iterations", "why_tests_cant": "unbounded lengths and thread schedules", "anchors": ["src/vector/lis_vector_opv.c"]}
{"id": "C10", "title": "Vector reductions equal the mathematical sum for any number of threads", "statement": "dot, nhdot, sum, nrm1 and nrm2 return the mathematical sum over all components (exact arithmetic) however many threads share the work, and nrmi the maximum absolute value.", "quantifier": "every vector, every number of threads", "why_tests_cant": "the partial-sum layout depends on thread count and length", "anchors": ["src/vector/lis_vector_ops.c"]}
{"id": "C11", "title": "lis_vector_swap is safe under any thread schedule", "statement": "Swapping two vectors gives each the other's content for every interleaving of the parallel loop.", "quantifier": "every vector, thread count, interleaving", "why_tests_cant": "data races are schedule dependent", "anchors": ["src/vector/lis_vector_opv.c:lis_vector_swap"]}
{"id": "C12", "title": "Vector element access honours range, origin and flag", "statement": "lis_vector_set_value/get_value/set_values/set_values2/get_values accept exactly the indices of the local range in the chosen numbering (0- or 1-based), INS overwrites, ADD accumulates, all other components keep their value, a bad index yields LIS_ERR_ILL_ARG.", "quantifier": "every sequence of accesses, both origins, both flags", "why_tests_cant": "call histories and indices are unbounded", "anchors": ["src/vector/lis_vector.c:lis_vector_set_value", "src/vector/lis_vector.c:lis_vector_set_values", "src/vector/lis_vector.c:lis_vector_set_values2"]}
{"id": "C13", "title": "Scatter then gather reproduces the global vector", "statement": "lis_vector_scatter followed by lis_vector_gather returns the original array, on any number of processes.", "quantifier": "every array, every process count", "why_tests_cant": "unbounded sizes and process counts", "anchors": ["src/vector/lis_vector.c:lis_vector_scatter", "src/vector/lis_vector.c:lis_vector_gather"]}
{"id": "C14", "title": "Element insertion history determines the assembled matrix", "statement": "After any sequence of successful lis_matrix_set_value(INS/ADD) calls followed by lis_matrix_assemble, the assembled matrix has at (i,j) the last inserted value plus everything added after it, stores each (i,j) at most once, and has nothing where nothing was set.", "quantifier": "every history of set_value calls (any order, duplicates, growth of the row buffers)", "why_tests_cant": "the row buffers are reallocated depending on history", "anchors": ["src/matrix/lis_matrix.c:lis_matrix_set_value", "src/matrix/lis_matrix_rco.c:lis_matrix_convert_rco2csr"]}
{"id": "C15", "title": "Matrix life cycle is enforced by error codes", "statement": "Calls out of order (set_value before set_size, set_size twice, converting an unassembled matrix, changing the type after assembly, index out of range) return the documented error code and leave the matrix unchanged; legal sequences succeed.", "quantifier": "every history of API calls", "why_tests_cant": "histories are unbounded", "anchors": ["src/matrix/lis_matrix.c:lis_matrix_check", "src/matrix/lis_matrix.c:lis_matrix_set_size"]}
{"id": "C16", "title": "Arrays handed to lis_matrix_set_csr & co. become the matrix", "statement": "If lis_matrix_set_csr (or any lis_matrix_set_*) returns LIS_SUCCESS, the matrix refers to the supplied arrays.", "quantifier": "every matrix state", "why_tests_cant": "depends on the state reached by earlier calls", "anchors": ["src/matrix/lis_matrix_csr.c:lis_matrix_set_csr", "src/matrix/lis_matrix.c:lis_matrix_is_assembled"]}
{"id": "C17", "title": "CSR <-> CSC conversion preserves the matrix", "statement": "Converting a well-formed CSR matrix to CSC and back never reads or writes out of bounds and yields a matrix with the same entries (explicit zeros may be dropped). The entries are the same and rows are increasing inside every column when converting from CSR.", "quantifier": "every well-formed CSR/CSC matrix of any size, every content of uninitialised memory", "why_tests_cant": "Tests try a handful of matrices; the claim ranges over every size, sparsity pattern, duplicate pattern and stored value, and over every content of freshly malloc'd memory.", "anchors": ["src/matrix/lis_matrix_csc.c"]}
{"id": "C18", "title": "CSR <-> COO conversion preserves the matrix", "statement": "Converting a well-formed CSR matrix to COO and back never reads or writes out of bounds and yields a matrix with the same entries (explicit zeros may be dropped). The COO->CSR direction sorts the triplets by row.", "quantifier": "every well-formed CSR/COO matrix of any size, every content of uninitialised memory", "why_tests_cant": "Tests try a handful of matrices; the claim ranges over every size, sparsity pattern, duplicate pattern and stored value, and over every content of freshly malloc'd memory.", "anchors": ["src/matrix/lis_matrix_coo.c"]}
{"id": "C19", "title": "CSR <-> MSR conversion preserves the matrix", "statement": "Converting a well-formed CSR matrix to MSR and back never reads or writes out of bounds and yields a matrix with the same entries (explicit zeros may be dropped). Diagonal entries go to the diagonal part.", "quantifier": "every well-formed CSR/MSR matrix of any size, every content of uninitialised memory", "why_tests_cant": "Tests try a handful of matrices; the claim ranges over every size, sparsity pattern, duplicate pattern and stored value, and over every content of freshly malloc'd memory.", "anchors": ["src/matrix/lis_matrix_msr.c"]}
{"id": "C20", "title": "CSR <-> ELL conversion preserves the matrix", "statement": "Converting a well-formed CSR matrix to ELL and back never reads or writes out of bounds and yields a matrix with the same entries (explicit zeros may be dropped). Padding contributes nothing.", "quantifier": "every well-formed CSR/ELL matrix of any size, every content of uninitialised memory", "why_tests_cant": "Tests try a handful of matrices; the claim ranges over every size, sparsity pattern, duplicate pattern and stored value, and over every content of freshly malloc'd memory.", "anchors": ["src/matrix/lis_matrix_ell.c"]}
{"id": "C21", "title": "CSR <-> DNS conversion preserves the matrix", "statement": "Converting a well-formed CSR matrix to DNS and back never reads or writes out of bounds and yields a matrix with the same entries (explicit zeros may be dropped). Requires that no (i,j) is stored twice.", "quantifier": "every well-formed CSR/DNS matrix of any size, every content of uninitialised memory", "why_tests_cant": "Tests try a handful of matrices; the claim ranges over every size, sparsity pattern, duplicate pattern and stored value, and over every content of freshly malloc'd memory.", "anchors": ["src/matrix/lis_matrix_dns.c"]}
{"id": "C22", "title": "CSR <-> DIA conversion preserves the matrix", "statement": "Converting a well-formed CSR matrix to DIA and back never reads or writes out of bounds and yields a matrix with the same entries (explicit zeros may be dropped). Requires that no (i,j) is stored twice.", "quantifier": "every well-formed CSR/DIA matrix of any size, every content of uninitialised memory", "why_tests_cant": "Tests try a handful of matrices; the claim ranges over every size, sparsity pattern, duplicate pattern and stored value, and over every content of freshly malloc'd memory.", "anchors": ["src/matrix/lis_matrix_dia.c"]}
{"id": "C23", "title": "CSR <-> JAD conversion preserves the matrix", "statement": "Converting a well-formed CSR matrix to JAD and back never reads or writes out of bounds and yields a matrix with the same entries (explicit zeros may be dropped). Rows are permuted by decreasing length.", "quantifier": "every well-formed CSR/JAD matrix of any size, every content of uninitialised memory", "why_tests_cant": "Tests try a handful of matrices; the claim ranges over every size, sparsity pattern, duplicate pattern and stored value, and over every content of freshly malloc'd memory.", "anchors": ["src/matrix/lis_matrix_jad.c"]}
{"id": "C24", "title": "CSR <-> BSR conversion preserves the matrix", "statement": "Converting a well-formed CSR matrix to BSR and back never reads or writes out of bounds and yields a matrix with the same entries (explicit zeros may be dropped). Block padding contributes nothing; any block size.", "quantifier": "every well-formed CSR/BSR matrix of any size, every content of uninitialised memory", "why_tests_cant": "Tests try a handful of matrices; the claim ranges over every size, sparsity pattern, duplicate pattern and stored value, and over every content of freshly malloc'd memory.", "anchors": ["src/matrix/lis_matrix_bsr.c"]}
{"id": "C25", "title": "CSR <-> BSC conversion preserves the matrix", "statement": "Converting a well-formed CSR matrix to BSC and back never reads or writes out of bounds and yields a matrix with the same entries (explicit zeros may be dropped). Block padding contributes nothing; any block size.", "quantifier": "every well-formed CSR/BSC matrix of any size, every content of uninitialised memory", "why_tests_cant": "Tests try a handful of matrices; the claim ranges over every size, sparsity pattern, duplicate pattern and stored value, and over every content of freshly malloc'd memory.", "anchors": ["src/matrix/lis_matrix_bsc.c"]}
{"id": "C26", "title": "CSR <-> VBR conversion preserves the matrix", "statement": "Converting a well-formed CSR matrix to VBR and back never reads or writes out of bounds and yields a matrix with the same entries (explicit zeros may be dropped). Block padding contributes nothing; any row/column partition.", "quantifier": "every well-formed CSR/VBR matrix of any size, every content of uninitialised memory", "why_tests_cant": "Tests try a handful of matrices; the claim ranges over every size, sparsity pattern, duplicate pattern and stored value, and over every content of freshly malloc'd memory.", "anchors": ["src/matrix/lis_matrix_vbr.c"]}
{"id": "C27", "title": "Converting between any two formats preserves the matrix", "statement": "lis_matrix_convert from any of the formats to any other yields a matrix with the same coefficient at every (i,j).", "quantifier": "every pair of formats and every well-formed matrix", "why_tests_cant": "Tests try a handful of matrices; the claim ranges over every size, sparsity pattern, duplicate pattern and stored value, and over every content of freshly malloc'd memory.", "anchors": ["src/matrix/lis_matrix_ops.c:lis_matrix_convert"]}
{"id": "C28", "title": "lis_matvec computes A*x in every storage format", "statement": "For every storage format, lis_matvec writes y_i = sum_j A_ij x_j (exact arithmetic) for each row, never touches memory outside the arrays, and does not depend on previous contents of y.", "quantifier": "every well-formed matrix in every format, every x", "why_tests_cant": "Tests try a handful of matrices; the claim ranges over every size, sparsity pattern, duplicate pattern and stored value, and over every content of freshly malloc'd memory.", "anchors": ["src/matvec/lis_matvec.c", "src/matvec/lis_matvec_csr.c"]}
{"id": "C29", "title": "lis_matvech computes the conjugate-transpose product in every storage format", "statement": "For every storage format, lis_matvech writes y_j = sum_i conj(A_ij) x_i.", "quantifier": "every well-formed matrix in every format, every x, real and complex scalars", "why_tests_cant": "Tests try a handful of matrices; the claim ranges over every size, sparsity pattern, duplicate pattern and stored value, and over every content of freshly malloc'd memory.", "anchors": ["src/matvec/lis_matvec.c:lis_matvech"]}
{"id": "C30", "title": "Row-parallel kernels give bit-identical results for any thread count and schedule", "statement": "The row-parallel loops (matvec in CSR/MSR/ELL/DNS, elementwise vector operations) compute the same result, bit for bit, for any number of threads and any interleaving of their iterations.", "quantifier": "every thread count and every interleaving", "why_tests_cant": "schedules cannot be enumerated by testing", "anchors": ["src/matvec/lis_matvec_csr.c", "src/vector/lis_vector_opv.c"]}
{"id": "C31", "title": "Splitting and merging A = L + D + U loses nothing", "statement": "lis_matrix_split followed by lis_matrix_merge gives back the same coefficients; after a split, D holds the diagonal, L the strictly lower and U the strictly upper entries; lis_matvec of the split matrix equals that of the original.", "quantifier": "every square CSR or BSR matrix without repeated diagonal entries", "why_tests_cant": "Tests try a handful of matrices; the claim ranges over every size, sparsity pattern, duplicate pattern and stored value, and over every content of freshly malloc'd memory.", "anchors": ["src/matrix/lis_matrix_csr.c:lis_matrix_split_csr", "src/matrix/lis_matrix_csr.c:lis_matrix_merge_csr", "src/matrix/lis_matrix_bsr.c:lis_matrix_split_bsr", "src/matrix/lis_matrix_bsr.c:lis_matrix_merge_bsr"]}
{"id": "C32", "title": "Diagonal extraction and shifting act on the diagonal only", "statement": "lis_matrix_get_diagonal returns A_ii for every row (0 when absent); lis_matrix_shift_diagonal subtracts sigma from each stored diagonal entry and changes nothing else.", "quantifier": "every matrix without repeated diagonal entries", "why_tests_cant": "Tests try a handful of matrices; the claim ranges over every size, sparsity pattern, duplicate pattern and stored value, and over every content of freshly malloc'd memory.", "anchors": ["src/matrix/lis_matrix_csr.c:lis_matrix_get_diagonal_csr", "src/matrix/lis_matrix_csr.c:lis_matrix_shift_diagonal_csr", "src/matrix/lis_matrix_jad.c:lis_matrix_shift_diagonal_jad", "src/matrix/lis_matrix_bsr.c:lis_matrix_get_diagonal_bsr", "src/matrix/lis_matrix_vbr.c:lis_matrix_get_diagonal_vbr"]}
{"id": "C33", "title": "Diagonal scaling keeps the solution set", "statement": "Jacobi scaling multiplies row i of A and b by 1/A_ii; symmetric scaling forms D A D; any x solves the scaled system iff (D-transformed) x solves the original.", "quantifier": "every matrix with non-zero diagonal (field arithmetic)", "why_tests_cant": "Tests try a handful of matrices; the claim ranges over every size, sparsity pattern, duplicate pattern and stored value, and over every content of freshly malloc'd memory.", "anchors": ["src/matrix/lis_matrix_ops.c:lis_matrix_scale", "src/matrix/lis_matrix_csr.c:lis_matrix_scale_csr", "src/matrix/lis_matrix_bsr.c:lis_matrix_scale_bsr", "src/matrix/lis_matrix_bsc.c:lis_matrix_scale_bsc", "src/matrix/lis_matrix_vbr.c:lis_matrix_scale_vbr"]}
{"id": "C34", "title": "Triangular solves invert the triangular factor", "statement": "lis_matrix_solve with LOWER (UPPER) returns x with (D+L)x=b ((D+U)x=b) whenever WD holds the inverse diagonal; SSOR returns the product form; solveh the conjugate-transposed systems.", "quantifier": "every split CSR matrix with strictly triangular L and U, every b", "why_tests_cant": "Tests try a handful of matrices; the claim ranges over every size, sparsity pattern, duplicate pattern and stored value, and over every content of freshly malloc'd memory.", "anchors": ["src/matrix/lis_matrix_csr.c:lis_matrix_solve_csr", "src/matrix/lis_matrix_csr.c:lis_matrix_solveh_csr"]}
{"id": "C35", "title": "Dense block kernels compute matrix products and inverses", "statement": "lis_array_matvec/matmat (with their unrolled 1x1,2x2,3x3 cases) equal the general product formula; lis_array_ge returns the inverse and lis_array_solve the solution whenever no pivot vanishes.", "quantifier": "every block size and every content (field arithmetic)", "why_tests_cant": "unbounded sizes; unrolled special cases", "anchors": ["src/array/lis_array.c"]}
{"id": "C36", "title": "A successful Krylov solve reports the true residual of the returned solution", "statement": "In exact arithmetic, whenever lis_cg, lis_bicg, lis_cgs, lis_bicgstab (and the other short-recurrence solvers modelled) return LIS_SUCCESS, the recursively updated residual equals b - A*x for the returned x, the reported residual norm is the (scaled) norm of that b - A*x, and it is not above the tolerance.", "quantifier": "every matrix, right-hand side, start vector, preconditioner, tolerance and number of iterations", "why_tests_cant": "needs an invariant over unboundedly many iterations", "anchors": ["src/solver/lis_solver_cg.c:lis_cg", "src/solver/lis_solver_bicgstab.c:lis_bicgstab"]}
{"id": "C37", "title": "Iteration count and status are consistent", "statement": "A solver performs at most maxiter iterations; status SUCCESS is reported only with residual <= tolerance, MAXITER only after exactly maxiter iterations, all inside the residual-history buffer of maxiter+2 entries.", "quantifier": "every solver run", "why_tests_cant": "runs are unbounded", "anchors": ["src/solver/lis_solver_cg.c:lis_cg", "src/solver/lis_solver.c:lis_solve_kernel"]}
{"id": "C38", "title": "Stationary solvers report the residual of the returned iterate", "statement": "When Jacobi, Gauss-Seidel or SOR returns LIS_SUCCESS, the returned x satisfies the tolerance that is reported.", "quantifier": "every system", "why_tests_cant": "the last update happens after the residual is measured; tests on converging systems do not notice", "anchors": ["src/solver/lis_solver_jacobi.c:lis_jacobi", "src/solver/lis_solver_gs.c:lis_gs", "src/solver/lis_solver_sor.c:lis_sor"]}
{"id": "C39", "title": "A good initial guess is accepted immediately", "statement": "If the initial residual already meets the tolerance the solver returns LIS_SUCCESS, leaves x unchanged and reports that residual; otherwise it continues with r = b - A x0.", "quantifier": "every system and start vector", "why_tests_cant": "continuous input space", "anchors": ["src/solver/lis_solver.c:lis_solver_get_initial_residual"]}
{"id": "C40", "title": "lis_solve reports failure to converge", "statement": "The return value of lis_solve tells the caller whether the solver converged; otherwise the status query does.", "quantifier": "every solver outcome", "why_tests_cant": "outcome depends on input", "anchors": ["src/solver/lis_solver.c:lis_solve", "src/solver/lis_solver.c:lis_solver_get_status"]}
{"id": "C41", "title": "Distributed numbering is a bijection onto the needed global columns", "statement": "After assembly on a process, local column numbers are 0..np-1; the first n are the process' own rows, the others correspond one-to-one to the off-process global columns used, and mapping back gives the original global column of every entry.", "quantifier": "every distributed CSR matrix, every process range", "why_tests_cant": "unbounded sizes and sparsity", "anchors": ["src/matrix/lis_matrix_mpi.c:lis_matrix_g2l_csr"]}
{"id": "C42", "title": "Distributed matvec equals the serial one", "statement": "After lis_matrix_assemble on P processes, any sequence of lis_matvec and lis_matvech calls gives every process its rows of the serial product A*x resp. A^H*x, for any number of processes and any order in which processes run and messages are delivered; no process crashes and the processes cannot deadlock.", "quantifier": "every matrix, every number of processes, every partition, every delivery order", "why_tests_cant": "process counts and schedules cannot be exhausted by tests", "anchors": ["src/matrix/lis_matrix_mpi.c:lis_commtable_create", "src/matrix/lis_matrix_mpi.c:lis_send_recv", "src/matrix/lis_matrix_mpi.c:lis_reduce", "include/lis_matvec.h"]}
{"id": "C43", "title": "Transposition is an involution", "statement": "lis_matrix_transpose gives a matrix with B_ij = A_ji, and transposing twice gives the same entries.", "quantifier": "every CSR matrix", "why_tests_cant": "Tests try a handful of matrices; the claim ranges over every size, sparsity pattern, duplicate pattern and stored value, and over every content of freshly malloc'd memory.", "anchors": ["src/matrix/lis_matrix_csr.c:lis_matrix_transpose_csr"]}
{"id": "C44", "title": "Copying and duplicating a matrix yields an independent equal matrix", "statement": "lis_matrix_copy gives the destination the same entries (and the same split parts) as the source, which it leaves unchanged; lis_matrix_duplicate gives an unassembled matrix of the same size and distribution.", "quantifier": "every matrix of every storage type", "why_tests_cant": "Tests try a handful of matrices; the claim ranges over every size, sparsity pattern, duplicate pattern and stored value, and over every content of freshly malloc'd memory.", "anchors": ["src/matrix/lis_matrix_csr.c:lis_matrix_copy_csr"]}
{"id": "C45", "title": "Preconditioner application equals its defining operator", "statement": "Jacobi, SSOR and ILU(0) preconditioner solves return M^-1 b for their documented M; psolve with no preconditioner copies.", "quantifier": "every matrix with the required non-zero pivots", "why_tests_cant": "Tests try a handful of matrices; the claim ranges over every size, sparsity pattern, duplicate pattern and stored value, and over every content of freshly malloc'd memory.", "anchors": ["src/precon/lis_precon_jacobi.c", "src/precon/lis_precon_ssor.c", "src/precon/lis_precon_iluk.c"]}
{"id": "C46", "title": "Matrix and vector files: reading, writing, round trips", "statement": "lis_input / lis_input_matrix of a Matrix Market file (coordinate general or symmetric, with b and x sections; array) gives a matrix of the requested type with exactly the file's elements and the vectors of the sections; lis_output then lis_input gives the same matrix and vectors back, in text and in binary form, also on a machine of the other byte order; lis_output_vector then lis_input_vector gives the vector back; a malformed or truncated text file never makes lis_input_matrix leave its arrays.", "quantifier": "every file of token lines, every matrix, vector, storage type and byte order", "why_tests_cant": "unbounded files and sizes", "anchors": ["src/system/lis_input.c:lis_input", "src/system/lis_input.c:lis_input_vector", "src/system/lis_input_mm.c:lis_input_mm_csr", "src/system/lis_input_mm.c:lis_input_mm_dns", "src/system/lis_output.c:lis_output", "src/system/lis_output.c:lis_output_vector", "src/system/lis_output_mm.c:lis_output_mm_csr"]}
{"id": "C47", "title": "Eigensolvers report a residual that belongs to the returned pair", "statement": "When a power/inverse iteration eigensolver returns LIS_SUCCESS the reported residual is within tolerance and is the residual of the returned eigenpair (exact arithmetic).", "quantifier": "every matrix and start vector", "why_tests_cant": "unbounded iterations", "anchors": ["src/esolver/lis_esolver_pi.c:lis_epi", "src/esolver/lis_esolver_ii.c:lis_eii"]}
{"id": "C48", "title": "Array norms and Gram-Schmidt helpers satisfy their definition", "statement": "lis_array_* vector helpers (nrm2, dot, scale, axpy, ...) compute their definition; lis_array_cgs/mgs/qr factors satisfy A = Q R (exact arithmetic).", "quantifier": "every array", "why_tests_cant": "unbounded sizes", "anchors": ["src/array/lis_array.c:lis_array_mgs", "src/array/lis_array.c:lis_array_qr"]}
{"id": "C49", "title": "The building blocks of quad precision are error free", "statement": "The two-sum, two-difference, split and two-product steps of the double-double arithmetic return the rounded result and its exact rounding error: high + low equals the exact sum, difference or product of the two doubles.", "quantifier": "every pair of IEEE doubles (products: unless the error underflows), every build variant", "why_tests_cant": "2^128 operand pairs; errors show only in the last bits of rare operands", "anchors": ["include/lis_precision.h:LIS_QUAD_FAST_TWO_SUM", "include/lis_precision.h:LIS_QUAD_TWO_SUM", "include/lis_precision.h:LIS_QUAD_TWO_DIFF", "include/lis_precision.h:LIS_QUAD_SPLIT", "include/lis_precision.h:LIS_QUAD_TWO_PROD", "include/lis_precision.h:LIS_QUAD_TWO_SQR"]}
{"id": "C50", "title": "Quad-precision arithmetic is accurate to about 100 bits", "statement": "lis_quad_add, sub, mul, mul_dd_d, sqr, div and sqrt return a normalised pair within about 2^-100 (relative; for sums relative to |b|+|c|) of the exact result; max, min and minus are exact; operands of moderate size never overflow.", "quantifier": "every pair of normalised double-double operands, scalar and SSE2 builds", "why_tests_cant": "2^256 operand pairs; a rounding flaw shows only for rare operands", "anchors": ["src/precision/lis_precision.c:lis_quad_add", "src/precision/lis_precision.c:lis_quad_sub", "src/precision/lis_precision.c:lis_quad_mul", "src/precision/lis_precision.c:lis_quad_mul_dd_d", "src/precision/lis_precision.c:lis_quad_sqr", "src/precision/lis_precision.c:lis_quad_div", "src/precision/lis_precision.c:lis_quad_sqrt", "include/lis_precision.h"]}
{"id": "C51", "title": "Quad-precision vector operations and matrix products keep quad accuracy", "statement": "The extended-precision vector operations (axpy, axpyz, xpay, scale, copy, set_all, reciprocal, dot, nrm2) and the CSR/CSC products with A and A^H return, for every build variant and number of threads, the exact result up to about 2^-100 per term of the sum (relative to the sum of the absolute values), and change no other element.", "quantifier": "every vector and matrix of any size, scalar and SSE2 builds, any number of threads", "why_tests_cant": "unbounded sizes; a lost low-order part or a dropped remainder element of the two-at-a-time loops shows only in the last bits or for odd lengths", "anchors": ["src/precision/lis_precision_vec.c:lis_vector_axpyex_mmm", "src/precision/lis_precision_vec.c:lis_vector_dotex_mmm", "src/precision/lis_precision_vec.c:lis_vector_nrm2ex_mm", "src/precision/lis_precision_vec.c:lis_vector_reciprocalex_m", "src/precision/lis_precision_matvec.c:lis_matvec_csr_mp", "src/precision/lis_precision_matvec.c:lis_matvec_csr_mp2", "src/precision/lis_precision_matvec.c:lis_matvech_csr_mp2", "src/precision/lis_precision_matvec.c:lis_matvec_csc_mp"]}
{"id": "C52", "title": "Conjugate gradient type solvers finish within n iterations", "statement": "On a symmetric positive definite system of order n with a symmetric positive definite preconditioner, -i cg, bicg, cr, bicr, cocg and cocr return LIS_SUCCESS after at most max(1,n) iterations, for any right-hand side, initial vector and tolerance >= 0 (in exact arithmetic; without Jacobi row scaling, except that cg replaces it by symmetric scaling); with tolerance 0 the returned x satisfies A x = b. On any Hermitian (cg), symmetric (cocg) or arbitrary (bicg, bicr) matrix a run with a limit of at least n+2 ends with success or breakdown, never with LIS_MAXITER.", "quantifier": "every order n, matrix, preconditioner, right-hand side, initial vector, tolerance and iteration limit", "why_tests_cant": "termination in n steps is the orthogonality of the whole sequence of residuals and directions; a test cannot distinguish a slightly wrong direction update from slow convergence", "anchors": ["src/solver/lis_solver_cg.c:lis_cg", "src/solver/lis_solver_cg.c:lis_cocg", "src/solver/lis_solver_bicg.c:lis_bicg", "src/solver/lis_solver_cg.c:lis_cr", "src/solver/lis_solver_bicg.c:lis_bicr", "src/solver/lis_solver.c:lis_solve_kernel"]}
{"id": "C53", "title": "GMRES and FGMRES report the true residual and finish within n iterations", "statement": "With restart m >= 1 and real scalars, lis_solve with -i gmres and a linear preconditioner returns an x whose residual 2-norm relative to the initial residual is exactly the reported one; success means it is within the tolerance, LIS_MAXITER that it is not; the recorded history never increases, and its j-th value (j <= m) is the minimum of ||p(AM) r0||/||r0|| over all polynomials p of degree <= j with p(0)=1. FGMRES satisfies the same for ||b-Ax|| with any, even changing, preconditioner. For a nonsingular matrix and preconditioner and tolerance >= 0 no division by zero occurs, and with m >= n and maxiter >= n both succeed within n iterations (tolerance 0: A x = b). Every accepted restart is safe, the convergence condition is relative, breakdowns are reported.", "quantifier": "every order, matrix, linear preconditioner (FGMRES: any sequence of preconditioners), right-hand side, initial vector, tolerance, restart, iteration limit, and contents of uninitialised memory", "why_tests_cant": "the residual is never computed by GMRES: it is read off the rotated Hessenberg factor; whether it is the true and minimal one depends on the whole Arnoldi/Givens history, for all dimensions and restarts", "anchors": ["src/solver/lis_solver_gmres.c:lis_gmres", "src/solver/lis_solver_gmres.c:lis_fgmres", "src/solver/lis_solver_gmres.c:lis_gmres_check_params", "src/solver/lis_solver.c:lis_solve_kernel"]}
{"id": "C54", "title": "Jacobi, Gauss-Seidel and SOR converge where the theory says they do", "statement": "Without preconditioner and scaling, for a non-zero diagonal and right-hand side, lis_solve with -i jacobi, gs or sor always returns: it makes m steps of the method, records the relative residual of each iterate it steps from, and stops with LIS_SUCCESS after the first step from an iterate within the tolerance or with LIS_MAXITER after maxiter steps. For strictly diagonally dominant rows (ratio rho < 1; SOR with 0 < omega <= 1) the returned x is within factor^m of the initial distance from the solution, in every component, and for any positive tolerance some N exists such that every run with maxiter >= N returns LIS_SUCCESS. The same success holds for symmetric positive definite matrices with Gauss-Seidel and with SOR for every 0 < omega < 2, and the energy norm of the error never increases.", "quantifier": "every order, matrix of the class, right-hand side, initial vector, tolerance > 0, relaxation factor and iteration limit", "why_tests_cant": "convergence is a statement about the infinite sequence of iterates for every matrix of a class; a slightly wrong sweep still converges on examples", "anchors": ["src/solver/lis_solver_jacobi.c:lis_jacobi", "src/solver/lis_solver_gs.c:lis_gs", "src/solver/lis_solver_sor.c:lis_sor", "src/solver/lis_solver_sor.c:lis_sor_check_params", "src/solver/lis_solver.c:lis_solve_kernel"]}
{"id": "C55", "title": "TFQMR, BiCGSTAB(l), IDR(s), IDR(1) and MINRES report what they return", "statement": "For IDR(s) and IDR(1) (any preconditioner) and BiCGSTAB(l) from the zero vector, lis_solve reports the norm of b - A x of the x it returns, the status agrees with the tolerance, all recorded norms before the last are above it, and the run ends at a stated iteration. For MINRES with M A symmetric the reported value is |M(b - A x)| relative to the start, the history never increases and each value is the least over the Krylov space; for nonsingular A and M it succeeds within n iterations and with tolerance 0 returns the solution. TFQMR accesses only its own memory, its counts and status agree with its estimates, and over the reals the vector it returns is the TFQMR iterate (the CGS points, smoothed) with its quasi-residual norm as the number reported.", "quantifier": "every order, matrix, right-hand side, preconditioner, initial vector, tolerance, random start vectors, parameters s and l and iteration limit", "why_tests_cant": "the recurrences are long; an error in one update shows only as a residual that drifts for some inputs, and optimality quantifies over a whole Krylov space", "anchors": ["src/solver/lis_solver_qmr.c:lis_tfqmr", "src/solver/lis_solver_bicgstabl.c:lis_bicgstabl", "src/solver/lis_solver_idrs.c:lis_idrs", "src/solver/lis_solver_idrs.c:lis_idr1", "src/solver/lis_solver_minres.c:lis_minres", "src/solver/lis_solver.c:lis_solve_kernel"]}
{"id": "C56", "title": "Splitting and triangular solves agree with the matrix in the other storage formats", "statement": "After lis_matrix_split of a square matrix stored in CSC, MSR, ELL, DIA or DNS format with a nonzero diagonal, or in BSR format with invertible diagonal blocks (blocks in place of entries), lis_matrix_solve with LOWER, UPPER or SSOR returns x with (D+L)x=b, (D+U)x=b or (D+L)D^-1(D+U)x=b, and lis_matrix_solveh the x of the conjugate transposed systems, D, L and U being the diagonal and strictly triangular parts of the matrix that was split; no call reads or writes outside an array.", "quantifier": "every order, every matrix without duplicate positions, every right hand side, every initial x and every content of freshly allocated memory, over any field", "why_tests_cant": "the solves agree on the symmetric patterns tests use; the failures need unsymmetric patterns or the conjugate transposed flags", "anchors": ["src/matrix/lis_matrix_csc.c: lis_matrix_split_csc, lis_matrix_solve_csc, lis_matrix_solveh_csc", "src/matrix/lis_matrix_msr.c: lis_matrix_split_msr, lis_matrix_solve_msr, lis_matrix_solveh_msr", "src/matrix/lis_matrix_ell.c: lis_matrix_split_ell, lis_matrix_solve_ell, lis_matrix_solveh_ell", "src/matrix/lis_matrix_dia.c: lis_matrix_split_dia, lis_matrix_solve_dia, lis_matrix_solveh_dia", "src/matrix/lis_matrix_dns.c: lis_matrix_split_dns, lis_matrix_solve_dns, lis_matrix_solveh_dns", "src/matrix/lis_matrix_bsr.c: lis_matrix_split_bsr, lis_matrix_solve_bsr, lis_matrix_solveh_bsr", "src/matrix/lis_matrix_diag.c: lis_matrix_diag_inverse"]}
{"id": "C57", "title": "The ILUT preconditioner is a dual-threshold incomplete factorisation", "statement": "Creating the ILUT preconditioner of a CSR matrix without duplicate positions touches no memory outside its arrays; each row of the factors consists of at most lfil entries of the row of the elimination, the largest in magnitude; when lfil allows whole rows the product M=LU differs from A by at most one dropped multiplier update per eliminated column, each below drop tolerance times the mean magnitude of the row; applying the preconditioner solves M x = b, and its adjoint M^H x = b.", "quantifier": "every matrix without duplicate positions, every drop tolerance and fill limit, every row range owned by a thread, every right hand side and every content of freshly allocated memory, over any field", "why_tests_cant": "tests see only that the preconditioned solver converged; which entries were kept, the size of the perturbation and the adjoint are properties of all factorisations", "anchors": ["src/precon/lis_precon_ilut.c: lis_precon_create_ilut_csr, lis_psolve_ilut_csr, lis_psolveh_ilut_csr", "src/system/lis_sort.c: lis_sort_di"]}
{"id": "C58", "title": "The SAINV preconditioner is the incomplete biconjugation of the matrix", "statement": "Creating the SAINV preconditioner of a CSR matrix touches no memory outside its arrays, whatever the fill; the factors W and Z are unit triangular and are the rows of the biconjugation of A in which exactly the updates t with |t|/max|a_i.| <= drop tolerance are left out; applying the preconditioner is the multiplication by M = sum z_i d_i w_i^H and its adjoint the one by M^H; with drop tolerance 0 and positive definite A, M is the inverse of A.", "quantifier": "every square CSR matrix, drop tolerance, right hand side and content of freshly allocated memory; exact arithmetic over any ring (inverse: real numbers)", "why_tests_cant": "tests see only that the preconditioned solver converged; growth of the rows, the drop rule and exactness are properties of all matrices and tolerances", "anchors": ["src/precon/lis_precon_sainv.c: lis_precon_create_sainv_csr, lis_psolve_sainv, lis_psolveh_sainv", "src/matrix/lis_matrix_ilu.c: lis_matrix_ilu_premalloc, lis_matrix_ilu_realloc, lis_matvec_ilu, lis_matvech_ilu"]}
{"id": "C59", "title": "The I+S preconditioner and the additive Schwarz wrapper are the matrices they stand for", "statement": "Applying the I+S preconditioner multiplies by I - alpha S, S being the first islevel+1 entries of each row of the upper triangle, and its adjoint version by the conjugate transpose; the matrix and right hand side it builds for the stationary solvers are (I - alpha S) A and (I - alpha S) b, built without any access outside the arrays, and the new system has exactly the solutions of A x = b; the additive Schwarz wrapper with k extra steps around a preconditioner M is the multiplication by G_k, G_0 = M, G_(k+1) = G_k + M (I - A G_k), its residual is (I - A M)^(k+1) b, and its adjoint version multiplies by G_k^H.", "quantifier": "every split CSR matrix, alpha, islevel, number of steps, right hand side and content of freshly allocated memory; any inner preconditioner that is a matrix; exact arithmetic over any ring", "why_tests_cant": "tests see only that the preconditioned solver converged; the sparse product with its marker arrays and the refinement identity are properties of all matrices and step counts", "anchors": ["src/precon/lis_precon_is.c: lis_precon_create_is_csr, lis_psolve_is, lis_psolveh_is", "src/precon/lis_precon_ads.c: lis_psolve_adds, lis_psolveh_adds"]}
{"id": "C60", "title": "Applying the hybrid preconditioner solves the system with the solver given by the -hybrid options", "statement": "lis_psolve with -p hybrid applied to B runs the solver chosen by -hybrid_i on A X = B from the zero vector (or from B) and, whenever that solver ends with LIS_SUCCESS, the relative residual of X is within -hybrid_tol; lis_psolveh does the same for A^H X = B; -hybrid_maxiter, -hybrid_restart, -hybrid_ell and -hybrid_omega reach the inner solver; a failure of the inner solver is reported; unusable options are rejected.", "quantifier": "every matrix, vector, inner solver, inner preconditioner, tolerance and iteration limit; exact arithmetic over any field", "why_tests_cant": "the outer iteration hides what the inner one does: tests see a converging outer solver even if the inner one solves the wrong system, fails, or ignores its options", "anchors": ["src/precon/lis_precon_hybrid.c: lis_precon_create_hybrid, lis_psolve_hybrid, lis_psolveh_hybrid", "src/matvec/lis_matvec.c: LIS_MATVEC, LIS_MATVECH", "src/precon/lis_precon.c: lis_precon_create"]}
{"id": "C61", "title": "The ILUC (Crout) preconditioner keeps the largest entries of each step and its application solves with the product of its factors", "statement": "For every matrix without duplicate positions, drop tolerance, gamma and fill level, the Crout factorisation makes no out-of-range access; row k of U and column k of L hold entries of the reduced row and column larger than tol*|d_k|, at most lfil of them and the largest ones; off the diagonal the product M of the factors differs from A only by dropped entries, M_ii = gamma*a_ii when nothing is dropped; lis_psolve solves M x = b and lis_psolveh M^H x = b; the result depends on the matrix and the options only.", "quantifier": "every split matrix, tolerance, gamma, fill level and content of uninitialised memory; exact arithmetic over any ordered field", "why_tests_cant": "linked lists threaded through the rows and columns, position caches and work arrays carry state from step to step; a stale entry gives a preconditioner that still lets the solver converge", "anchors": ["src/precon/lis_precon_iluc.c: lis_precon_create_iluc_csr, lis_psolve_iluc, lis_psolveh_iluc", "src/system/lis_sort.c: lis_sort_di"]}
{"id": "C62", "title": "Subspace, Lanczos and Arnoldi eigensolvers return the eigenpairs of the projected matrix", "statement": "For every matrix: lis_esi with one vector returns an eigenvalue, residual and vector that belong together and LIS_SUCCESS when the tolerance is met; lis_esi with ss vectors returns ss eigenpairs; the arrays whose eigenvalues lis_eli and lis_eai compute hold V^T A V for ss orthonormal vectors V; every refined pair belongs to its Ritz value; no access outside an array; the matrix is unchanged.", "quantifier": "every matrix, shift, tolerance, subspace size, inner solver and content of uninitialised memory; exact real arithmetic", "why_tests_cant": "a loop that stops one vector early or an array that is one element short still gives plausible numbers on a test matrix", "anchors": ["src/esolver/lis_esolver_si.c: lis_esi", "src/esolver/lis_esolver_li.c: lis_eli", "src/esolver/lis_esolver_ai.c: lis_eai", "src/array/lis_array.c: lis_array_qr"]}
{"id": "C63", "title": "Matrix combinations and the matrix shift compute every coefficient", "statement": "lis_matrix_axpy(alpha,A,B), lis_matrix_xpay and lis_matrix_axpyz leave B + alpha A, A + alpha B and alpha A + B in their result, coefficient by coefficient, without touching memory outside it, or return an error and change nothing; lis_matrix_shift_matrix(A,B,sigma) replaces A by A - sigma B whatever the storage format of A and B.", "quantifier": "every pair of matrices of one shape in every storage format, every alpha and sigma, every content of uninitialised memory; coefficients in any ring", "why_tests_cant": "the operations are exercised through the generalized eigensolvers on CSR matrices only; a format without code and an unchecked argument show nothing there", "anchors": ["src/matrix/lis_matrix_ops.c: lis_matrix_axpy, lis_matrix_xpay, lis_matrix_axpyz, lis_matrix_shift_matrix", "src/matrix/lis_matrix_dns.c: lis_matrix_axpy_dns, lis_matrix_xpay_dns, lis_matrix_axpyz_dns"]}
{"id": "C64", "title": "Generalized eigensolvers report a pair of A x = lambda B x with the residual they claim", "statement": "lis_gesolve with the power, inverse, Rayleigh quotient, conjugate gradient and conjugate residual iterations: the reported eigenvalue, residual, iteration count and status belong to each other, LIS_SUCCESS is returned exactly when the reported residual meets the tolerance, the returned vector has norm 1 and is an approximate eigenvector of the reported eigenvalue whose residual |A x - lambda B x| is bounded by the reported one (documented: |lambda x - B^-1 A x| <= tol |lambda x|), the caller's A has its coefficients back afterwards, and no array is overrun.", "quantifier": "every pair of square matrices, every start vector, shift, tolerance, iteration limit and preconditioner, every inner solver meeting a residual bound; exact real arithmetic", "why_tests_cant": "the bound between reported and true residual is an inequality over all matrices; tests see only converged runs on well-scaled examples, where a vector that is never updated or a stopping test that depends on the scale of A still prints a plausible eigenvalue", "anchors": ["src/esolver/lis_esolver_pi.c: lis_egpi", "src/esolver/lis_esolver_ii.c: lis_egii", "src/esolver/lis_esolver_rqi.c: lis_egrqi", "src/esolver/lis_esolver_cg.c: lis_egcg, lis_egcr"]}
{"id": "C65", "title": "A Harwell-Boeing file is read as it stands or reported", "statement": "lis_input / lis_input_matrix on a Harwell-Boeing file (type RUA, fixed-width integer and real fields) give the matrix the coefficients of the file, in any storage format (in CSC: the arrays of the file); a file that is cut short, is rectangular or is of another type is answered with LIS_ERR_FILE_IO without storing a matrix; formats or fields the reader does not understand (scale factors, F formats, missing repeat counts or parentheses, D exponents, short lines) are not silently read as other numbers.", "quantifier": "every legal file: any size, any field widths, any number of fields per line, any blanks, any contents of the line buffer and of malloc'ed arrays; every cut point of such a file", "why_tests_cant": "the reader parses Fortran formats and slices lines by column; a test uses a few files, while the slicing must be right for every combination of widths, repeat counts and short last lines, and stale buffer contents only show with particular preceding lines", "anchors": ["src/system/lis_input_hb.c: lis_input_hb, lis_input_hb_csr, lis_input_hb_get_fmt", "src/system/lis_io.h: BUFSIZE"]}
{"id": "C66", "title": "The residual history is the history of the run", "statement": "After lis_solve, lis_solver_get_rhistory and lis_solver_output_rhistory show the same values without reading or writing outside their arrays (the vector gets as many as it has room for): the residuals of the run, the initial one first, all but the last above the tolerance, and after convergence the last one the reported residual.", "quantifier": "every matrix, right-hand side, start vector, preconditioner, tolerance and iteration limit, every modelled Krylov solver, every vector length, every content of freshly malloc'ed memory", "why_tests_cant": "a test prints the history of a converging run with the recording switched on; values never recorded look like numbers too and depend on what malloc returns", "anchors": ["src/solver/lis_solver.c: lis_solver_get_rhistory, lis_solver_get_initial_residual, lis_solve_kernel", "src/system/lis_output.c: lis_solver_output_rhistory"]}
