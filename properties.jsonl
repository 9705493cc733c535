{"id": "C01", "title": "ellpack: set_row / get_row round trip", "statement": "After bml_set_row(A,i,row,t) on an ellpack matrix, bml_get_row(A,i) returns row with every entry of magnitude <= t replaced by 0, every other row is unchanged, and no memory outside the matrix is touched, provided at most M entries exceed t.", "quantifier": "all N, M, all well-formed matrices, all rows i, all row vectors, all thresholds", "why_tests_cant": "the input space (sizes, sparsity patterns, values, thresholds) is unbounded; the capacity side condition M is data dependent", "anchors": ["src/C-interface/ellpack/bml_setters_ellpack_typed.c:bml_set_row_ellpack", "src/C-interface/ellpack/bml_getters_ellpack_typed.c:bml_get_row_ellpack"]}
{"id": "C02", "title": "ellpack: bml_set_element followed by bml_get_element", "statement": "bml_set_element(A,i,j,v) followed by bml_get_element(A,i,j) returns v, and every other element is unchanged.", "quantifier": "all well-formed ellpack matrices, all i,j<N, all v", "why_tests_cant": "whether the row has two or fewer entries, and already holds column j, depends on the history of the matrix", "anchors": ["src/C-interface/ellpack/bml_setters_ellpack_typed.c:bml_set_element_ellpack", "src/C-interface/ellpack/bml_getters_ellpack_typed.c:bml_get_element_ellpack"]}
{"id": "C03", "title": "ellpack: import from dense / export to dense round trip", "statement": "bml_export_to_dense(bml_import_from_dense(order,N,M,A,t),order') is the matrix A with entries of magnitude <= t replaced by zero, for every combination of row-major and column-major orders, provided each row has at most M kept entries.", "quantifier": "all N, M, all dense arrays, both orders on each side, all thresholds", "why_tests_cant": "index arithmetic must be right for every size and order", "anchors": ["src/C-interface/ellpack/bml_import_ellpack_typed.c:bml_import_from_dense_ellpack", "src/C-interface/ellpack/bml_export_ellpack_typed.c:bml_export_to_dense_ellpack"]}
{"id": "C04", "title": "ellpack: bml_add computes alpha*A + beta*B", "statement": "bml_add(A,B,alpha,beta,t) leaves in A exactly the matrix whose (i,j) element is x=alpha*A_ij+beta*B_ij if |x|>t and 0 otherwise, never writes outside A when every result row has at most M entries, and leaves a well-formed matrix.", "quantifier": "all N, M_A, M_B, all well-formed A,B, all alpha,beta,t", "why_tests_cant": "the scatter/gather workspace (ix,jx,x) is reused across rows; correctness needs an invariant over arbitrarily many rows and arbitrary sparsity patterns", "anchors": ["src/C-interface/ellpack/bml_add_ellpack_typed.c:bml_add_ellpack"]}
{"id": "C05", "title": "ellpack: bml_multiply_AB computes the matrix product", "statement": "bml_multiply_AB(A,B,C,t) stores in C the product A*B, where off-diagonal elements of magnitude <= t are dropped; it either does that or stops with the documented error when a product row has more than M entries; it never writes outside C.", "quantifier": "all N, M, all well-formed A,B of the same size, all previous contents of C, all thresholds", "why_tests_cant": "needs an invariant of the accumulation workspace over all rows and patterns", "anchors": ["src/C-interface/ellpack/bml_multiply_ellpack_typed.c:bml_multiply_AB_ellpack"]}
{"id": "C06", "title": "ellpack: bml_multiply computes alpha*A*B + beta*C", "statement": "bml_multiply(A,B,C,alpha,beta,t) leaves alpha*A*B+beta*C in C up to the thresholding of the product and of the sum, including when A and B are the same object, and agrees exactly with alpha*A*B+beta*C when t=0.", "quantifier": "all N, M, all well-formed A,B,C, all alpha, beta, aliasing A==B or not", "why_tests_cant": "the code takes different paths for A==B, alpha==1, beta==0", "anchors": ["src/C-interface/ellpack/bml_multiply_ellpack_typed.c:bml_multiply_ellpack"]}
{"id": "C07", "title": "ellpack: bml_multiply_x2 returns X^2 and the traces of X and X^2", "statement": "bml_multiply_x2(X,X2,t) stores X*X in X2 (off-diagonal entries of magnitude <= t dropped) and returns exactly trace(X) and trace(X*X), independently of the threshold.", "quantifier": "all N, M, all well-formed X, all thresholds", "why_tests_cant": "the returned traces are accumulated on the side in a parallel reduction; they must equal the mathematical traces for every matrix", "anchors": ["src/C-interface/ellpack/bml_multiply_ellpack_typed.c:bml_multiply_x2_ellpack"]}
{"id": "C08", "title": "Thresholding: bound on the elementwise error and idempotence", "statement": "bml_threshold/bml_threshold_new with t>=0 change no element by more than t, keep every element of magnitude > t exactly, and are idempotent; consequently bml_add and bml_multiply_AB differ from the exact result by at most t per element.", "quantifier": "all real matrices and all thresholds t>=0", "why_tests_cant": "quantifies over all real data; strictness of the comparison matters only on a measure-zero set", "anchors": ["src/C-interface/ellpack/bml_threshold_ellpack_typed.c", "src/C-interface/csr/bml_threshold_csr_typed.c", "src/C-interface/dense/bml_threshold_dense_typed.c"]}
{"id": "C09", "title": "ellpack: parallel transpose gives the transpose under every schedule", "statement": "bml_transpose_new(A) returns the matrix B with B_ji=A_ij whatever the order in which the OpenMP threads insert elements, provided every column of A has at most M entries.", "quantifier": "all well-formed A and all interleavings of the lock-protected insertions", "why_tests_cant": "the storage order of each row of the result depends on the thread schedule; tests sample a few schedules", "anchors": ["src/C-interface/ellpack/bml_transpose_ellpack_typed.c:bml_transpose_new_ellpack"]}
{"id": "C10", "title": "ellpack/csr: in-place transpose", "statement": "bml_transpose(A) replaces A by its transpose (storage per row permitting), for every sparsity pattern, including structurally unsymmetric ones.", "quantifier": "all well-formed matrices and all sparsity patterns", "why_tests_cant": "the algorithm moves elements between rows while rows are being scanned; its correctness depends on an invariant relating the processed and unprocessed parts of every row", "anchors": ["src/C-interface/ellpack/bml_transpose_ellpack_typed.c:bml_transpose_ellpack", "src/C-interface/csr/bml_transpose_csr_typed.c:bml_transpose_csr"]}
{"id": "C11", "title": "bml_trace_mult(A,B) is the trace of A*B", "statement": "bml_trace_mult(A,B) returns trace(A*B) in every format.", "quantifier": "all matrices A,B of equal size, all formats", "why_tests_cant": "must hold for unsymmetric matrices too; all test matrices may be symmetric", "anchors": ["src/C-interface/ellpack/bml_trace_ellpack_typed.c:bml_trace_mult_ellpack", "src/C-interface/dense/bml_trace_dense_typed.c", "src/C-interface/csr/bml_trace_csr_typed.c", "src/C-interface/ellblock/bml_trace_ellblock_typed.c", "src/C-interface/bml_trace.c"]}
{"id": "C12", "title": "bml_trace is the sum of the diagonal", "statement": "bml_trace(A) returns the sum of A_ii for every format and does not depend on the storage order of rows or on the thread schedule.", "quantifier": "all well-formed matrices", "why_tests_cant": "unbounded sizes and patterns", "anchors": ["src/C-interface/ellpack/bml_trace_ellpack_typed.c", "src/C-interface/csr/bml_trace_csr_typed.c", "src/C-interface/dense/bml_trace_dense_typed.c"]}
{"id": "C13", "title": "bml_add_identity and bml_scale_add_identity", "statement": "bml_add_identity(A,beta,t) computes A+beta*I (thresholded), bml_scale_add_identity(A,alpha,beta,t) computes alpha*A+beta*I, without touching memory outside A.", "quantifier": "all well-formed matrices, including rows without a stored diagonal and full rows", "why_tests_cant": "the position and presence of the diagonal entry depends on history", "anchors": ["src/C-interface/ellpack/bml_add_ellpack_typed.c:bml_add_identity_ellpack", "src/C-interface/csr/bml_add_csr_typed.c:bml_add_identity_csr", "src/C-interface/dense/bml_add_dense_typed.c"]}
{"id": "C14", "title": "bml_scale, bml_copy: exact element-wise meaning and independence of the copy", "statement": "bml_scale multiplies every element by the factor; bml_copy/bml_copy_new produce a matrix with exactly the elements of the source, and later modification of one does not change the other.", "quantifier": "all well-formed matrices, factors, and all later updates", "why_tests_cant": "unbounded data and histories", "anchors": ["src/C-interface/ellpack/bml_scale_ellpack_typed.c", "src/C-interface/ellpack/bml_copy_ellpack_typed.c", "src/C-interface/bml_copy.c"]}
{"id": "C15", "title": "bml_reorder conjugates by the permutation", "statement": "bml_reorder(A,perm) yields the matrix A' with A'[perm(i)][perm(j)] = A[i][j], the same in every format; in particular the trace and spectrum are preserved.", "quantifier": "all matrices, all permutations", "why_tests_cant": "all permutations of all sizes; identity or involutive permutations hide direction errors", "anchors": ["src/C-interface/ellpack/bml_copy_ellpack_typed.c:bml_reorder_ellpack", "src/C-interface/dense/bml_copy_dense_typed.c:bml_reorder_dense"]}
{"id": "C16", "title": "Norm functions", "statement": "bml_sum_squares(A)=sum A_ij^2, bml_sum_AB=sum alpha*A_ij*B_ij, bml_sum_squares2=sum (alpha A_ij+beta B_ij)^2 (over terms above the threshold) in ellpack, csr and dense format.", "quantifier": "all well-formed matrices, all alpha, beta, thresholds", "why_tests_cant": "the accumulators are reused across rows and depend on the pattern overlap of A and B", "anchors": ["src/C-interface/ellpack/bml_norm_ellpack_typed.c", "src/C-interface/csr/bml_norm_csr_typed.c", "src/C-interface/dense/bml_norm_dense_typed.c"]}
{"id": "C17", "title": "bml_fnorm2 is the Frobenius norm of A-B", "statement": "bml_fnorm2(A,B) returns the Frobenius norm of A-B for all A,B (including empty rows, different M, explicit zeros) and under every thread schedule.", "quantifier": "all pairs of well-formed matrices; all OpenMP schedules", "why_tests_cant": "undefined reads and races only show for particular patterns or schedules", "anchors": ["src/C-interface/ellpack/bml_norm_ellpack_typed.c:bml_fnorm2_ellpack", "src/C-interface/dense/bml_norm_dense_typed.c:bml_fnorm2_dense", "src/C-interface/ellblock/bml_norm_ellblock_typed.c"]}
{"id": "C18", "title": "bml_gershgorin bounds every eigenvalue", "statement": "bml_gershgorin(A) returns (emin,emax) such that every real eigenvalue lambda of A satisfies emin <= lambda <= emax.", "quantifier": "all real square matrices and all their eigenpairs", "why_tests_cant": "a statement about the spectra of all matrices", "anchors": ["src/C-interface/ellpack/bml_normalize_ellpack_typed.c:bml_gershgorin_ellpack", "src/C-interface/dense/bml_normalize_dense_typed.c", "src/C-interface/csr/bml_normalize_csr_typed.c", "src/C-interface/ellblock/bml_normalize_ellblock_typed.c"]}
{"id": "C19", "title": "bml_gershgorin returns the Gershgorin extremes", "statement": "The values returned are exactly the minimum over rows of A_ii - sum_{j!=i}|A_ij| and the maximum over rows of A_ii + sum_{j!=i}|A_ij|.", "quantifier": "all real square matrices", "why_tests_cant": "initialisation of the running extremes matters only for matrices whose discs lie on one side of zero", "anchors": ["src/C-interface/ellpack/bml_normalize_ellpack_typed.c:bml_gershgorin_ellpack", "src/C-interface/dense/bml_normalize_dense_typed.c", "src/C-interface/csr/bml_normalize_csr_typed.c", "src/C-interface/ellblock/bml_normalize_ellblock_typed.c"]}
{"id": "C20", "title": "bml_normalize maps the spectrum into [0,1]", "statement": "If emin<emax are the Gershgorin bounds of A then bml_normalize(A,emin,emax) replaces A by (emax*I-A)/(emax-emin), whose real eigenvalues all lie in [0,1].", "quantifier": "all real square matrices with emin<emax", "why_tests_cant": "a statement about all spectra", "anchors": ["src/C-interface/ellpack/bml_normalize_ellpack_typed.c:bml_normalize_ellpack", "src/C-interface/ellblock/bml_normalize_ellblock_typed.c:bml_normalize_ellblock"]}
{"id": "C21", "title": "bml_element_multiply_AB is the elementwise product", "statement": "bml_element_multiply_AB(A,B,C,t) stores C_ij=A_ij*B_ij (off-diagonal entries of magnitude <= t dropped).", "quantifier": "all well-formed A,B, all previous contents of C", "why_tests_cant": "unbounded patterns; workspace reuse across rows", "anchors": ["src/C-interface/ellpack/bml_element_multiply_ellpack_typed.c", "src/C-interface/csr/bml_element_multiply_csr_typed.c", "src/C-interface/dense/bml_element_multiply_dense_typed.c"]}
{"id": "C22", "title": "ellpack structural invariant over every history of API calls", "statement": "Every sequence of API calls that starts from a constructor and does not report an error keeps each ellpack matrix well formed: every row has at most M entries, column indices are < N and no column occurs twice in a row.", "quantifier": "all finite sequences of API calls", "why_tests_cant": "quantifies over all histories; violations appear only after particular combinations of calls", "anchors": ["src/C-interface/ellpack/bml_setters_ellpack_typed.c", "src/C-interface/ellpack/bml_add_ellpack_typed.c", "src/C-interface/ellpack/bml_multiply_ellpack_typed.c", "src/C-interface/ellpack/bml_threshold_ellpack_typed.c"]}
{"id": "C23", "title": "Domain decomposition partitions the rows", "statement": "bml_default_domain(N,M,distributed) gives the ranks contiguous row ranges that are disjoint, cover 0..N-1, differ in size by at most one, and whose element counts/displacements are consistent prefix sums.", "quantifier": "all N, M and all numbers of ranks >= 1", "why_tests_cant": "remainder handling for every N mod nRanks", "anchors": ["src/C-interface/bml_allocate.c:bml_default_domain"]}
{"id": "C24", "title": "csr: bml_set_element / bml_get_element behave like a map for every history", "statement": "For every sequence of bml_set_element calls on a csr matrix, bml_get_element(A,i,j) returns the last value stored at (i,j) (0 if none), rows grow as needed, and no write is out of bounds.", "quantifier": "all sequences of set_element calls, all indices", "why_tests_cant": "row growth (reallocation) happens only after particular numbers of insertions", "anchors": ["src/C-interface/csr/bml_setters_csr_typed.c:csr_set_row_element", "src/C-interface/csr/bml_getters_csr_typed.c", "src/C-interface/csr/bml_allocate_csr.c"]}
{"id": "C25", "title": "csr: bml_add computes alpha*A + beta*B", "statement": "bml_add on csr matrices leaves the thresholded alpha*A+beta*B in A, and never accesses freed memory, also when rows of A must grow.", "quantifier": "all well-formed A,B, all alpha,beta,t", "why_tests_cant": "growth of a row in the middle of the loop invalidates cached pointers only for particular row fill levels", "anchors": ["src/C-interface/csr/bml_add_csr_typed.c:bml_add_csr"]}
{"id": "C26", "title": "csr: multiplication", "statement": "bml_multiply_AB / bml_multiply_x2 on csr matrices store the thresholded product and return the traces of X and X^2.", "quantifier": "all well-formed csr matrices, all thresholds", "why_tests_cant": "workspace invariant over all rows; row growth", "anchors": ["src/C-interface/csr/bml_multiply_csr_typed.c"]}
{"id": "C27", "title": "csr: bml_threshold_new returns the thresholded matrix", "statement": "bml_threshold_new(A,t) on csr matrices returns a matrix whose elements are those of A with magnitude > t and 0 elsewhere.", "quantifier": "all csr matrices and thresholds", "why_tests_cant": "depends on the number of kept entries per row", "anchors": ["src/C-interface/csr/bml_threshold_csr_typed.c:bml_threshold_new_csr"]}
{"id": "C28", "title": "csr hash table behaves as a finite map", "statement": "The column hash table used by csr algorithms returns, for every history of insertions and resets, the position of each inserted key and reports absent keys as absent, irrespective of collisions, and never accesses memory out of range up to its capacity.", "quantifier": "all table sizes, all sequences of insert/lookup/reset", "why_tests_cant": "collision chains depend on the key sequence; capacity limits only show for very large sizes", "anchors": ["src/C-interface/csr/bml_allocate_csr.c:csr_noinit_table"]}
{"id": "C29", "title": "Internal BLAS replacement gemm is correct", "statement": "The internal gemm computes C = alpha*op(A)*op(B) + beta*C for every combination of transposition flags, all sizes and all alpha, beta (including the special cases 0 and 1).", "quantifier": "all m,n,k, all contents, four transposition combinations, all alpha,beta", "why_tests_cant": "many special-cased branches times all sizes", "anchors": ["src/internal-blas/bml_gemm.c:bml_gemm_internal"]}
{"id": "C30", "title": "dense: products", "statement": "bml_multiply, bml_multiply_x2, bml_multiply_AB and bml_multiply_adjust_AB on dense matrices compute alpha*A*B+beta*C, X*X with traces, and A*B (column-major gemm used on row-major storage).", "quantifier": "all N, all dense matrices, alpha, beta", "why_tests_cant": "storage-order confusion is invisible on symmetric test matrices", "anchors": ["src/C-interface/dense/bml_multiply_dense_typed.c"]}
{"id": "C31", "title": "dense: elementwise operations, transposes, thresholds, getters/setters", "statement": "dense bml_add, bml_scale, bml_add_identity, bml_transpose(_new), bml_threshold(_new), bml_set_row/get_row, set/get_element, set/get_diagonal, bml_trace, import/export have their mathematical meaning.", "quantifier": "all N and all dense matrices", "why_tests_cant": "index arithmetic for every size", "anchors": ["src/C-interface/dense/bml_add_dense_typed.c", "src/C-interface/dense/bml_transpose_dense_typed.c", "src/C-interface/dense/bml_threshold_dense_typed.c", "src/C-interface/dense/bml_setters_dense_typed.c", "src/C-interface/dense/bml_getters_dense_typed.c"]}
{"id": "C32", "title": "Format conversion preserves the matrix", "statement": "bml_convert between dense, ellpack and csr preserves every element (N per row permitting), so converting there and back is the identity on the represented matrix.", "quantifier": "all matrices, all pairs of formats", "why_tests_cant": "unbounded data", "anchors": ["src/C-interface/bml_convert.c", "src/C-interface/ellpack/bml_convert_ellpack_typed.c", "src/C-interface/csr/bml_convert_csr_typed.c", "src/C-interface/dense/bml_convert_dense_typed.c"]}
{"id": "C33", "title": "Format independence", "statement": "Computing bml_add, bml_multiply_AB, bml_transpose, bml_scale, bml_trace, bml_element_multiply_AB, norms in dense, ellpack or csr format on equal inputs gives equal results when no threshold is applied.", "quantifier": "all inputs, all pairs of formats", "why_tests_cant": "relational property over all inputs", "anchors": ["src/C-interface/bml_add.c", "src/C-interface/bml_multiply.c", "src/C-interface/bml_norm.c", "src/C-interface/bml_trace.c"]}
{"id": "C34", "title": "bml_extract_submatrix / bml_assign_submatrix", "statement": "Extracting the B_N x B_N block at (irow,icol) returns exactly those elements; assigning a block replaces exactly that block and leaves every other element unchanged; extract after assign returns the assigned block.", "quantifier": "all sizes, positions and patterns", "why_tests_cant": "replacement of already stored elements depends on history", "anchors": ["src/C-interface/ellpack/bml_submatrix_ellpack_typed.c", "src/C-interface/csr/bml_submatrix_csr_typed.c", "src/C-interface/dense/bml_submatrix_dense_typed.c", "src/C-interface/ellblock/bml_submatrix_ellblock_typed.c"]}
{"id": "C35", "title": "Graph functions: adjacency structure", "statement": "bml_adjacency produces xadj/adjncy arrays such that adjncy[xadj[i]..xadj[i+1]) lists exactly the off-diagonal neighbours of row i.", "quantifier": "all ellpack matrices", "why_tests_cant": "depends on which rows store a diagonal element", "anchors": ["src/C-interface/ellpack/bml_submatrix_ellpack.c:bml_adjacency_ellpack"]}
{"id": "C36", "title": "Graph functions: bml_group_matrix is independent of the schedule", "statement": "bml_group_matrix returns the group adjacency (halo-halo) matrix: groups i and k are connected iff some member row of i has a kept element whose column belongs to k; the answer does not depend on how rows are assigned to threads.", "quantifier": "all matrices, groupings and thread schedules", "why_tests_cant": "thread-private markers persist between iterations executed by the same thread", "anchors": ["src/C-interface/ellpack/bml_submatrix_ellpack_typed.c:bml_group_matrix_ellpack"]}
{"id": "C37", "title": "distributed2d: Cannon multiplication", "statement": "On every p x p process grid, bml_multiply on distributed2d matrices leaves on each task the corresponding block of alpha*A*B+beta*C.", "quantifier": "all grid sizes p, all block sizes, all matrices", "why_tests_cant": "all grid sizes; tests run with 1 or 4 tasks", "anchors": ["src/C-interface/distributed2d/bml_multiply_distributed2d_typed.c"]}
{"id": "C38", "title": "distributed2d: bml_get_row, bml_set_row", "statement": "bml_get_row(A,i) on a distributed2d matrix returns the complete row i on every task; bml_set_row sets it.", "quantifier": "all p, N, i", "why_tests_cant": "needs more than 4 tasks to see displacement errors", "anchors": ["src/C-interface/distributed2d/bml_getters_distributed2d_typed.c", "src/C-interface/distributed2d/bml_setters_distributed2d_typed.c"]}
{"id": "C39", "title": "distributed2d: bml_add_identity, bml_scale_add_identity, bml_identity_matrix, bml_set_diagonal", "statement": "bml_add_identity on distributed2d matrices adds beta on the global diagonal only.", "quantifier": "all p, N, all matrices", "why_tests_cant": "relational property across tasks", "anchors": ["src/C-interface/distributed2d/bml_add_distributed2d.c", "src/C-interface/distributed2d/bml_allocate_distributed2d.c"]}
{"id": "C40", "title": "distributed2d: transpose, trace, norms, Gershgorin", "statement": "bml_transpose(_new), bml_trace, bml_sum_squares, bml_gershgorin on distributed2d matrices equal the value for the global matrix.", "quantifier": "all p, N, all matrices", "why_tests_cant": "all grid sizes", "anchors": ["src/C-interface/distributed2d/bml_transpose_distributed2d.c", "src/C-interface/distributed2d/bml_trace_distributed2d.c", "src/C-interface/distributed2d/bml_norm_distributed2d.c", "src/C-interface/distributed2d/bml_normalize_distributed2d_typed.c"]}
{"id": "C41", "title": "distributed2d: import/export of dense matrices", "statement": "Importing a dense matrix in either order distributes block (I,J) of the matrix to task (I,J), and export inverts import.", "quantifier": "all p, N, both orders", "why_tests_cant": "column-major placement errors cancel in import/export round trips", "anchors": ["src/C-interface/distributed2d/bml_import_distributed2d_typed.c", "src/C-interface/distributed2d/bml_export_distributed2d_typed.c"]}
{"id": "C42", "title": "ellblock: block sizes of a new matrix add up to the requested size, whatever was allocated before", "statement": "bml_zero_matrix(ellblock,..,N,M) returns a matrix with bml_get_N equal to N, for every history of earlier allocations.", "quantifier": "all N, M and all histories of allocations", "why_tests_cant": "a process-wide cache of block sizes makes the result history dependent", "anchors": ["src/C-interface/ellblock/bml_allocate_ellblock.c:bml_get_block_sizes"]}
{"id": "C43", "title": "ellblock: set_element / get_element / get_row behave like a map", "statement": "For every block structure and every history of bml_set_element calls that does not report an error, bml_get_element returns the last value stored (0 if none).", "quantifier": "all block sizes, all histories", "why_tests_cant": "unbounded histories and block structures", "anchors": ["src/C-interface/ellblock/bml_setters_ellblock_typed.c", "src/C-interface/ellblock/bml_getters_ellblock_typed.c"]}
{"id": "C44", "title": "ellblock: bml_set_row replaces the row", "statement": "bml_set_row(A,i,row,t) on an ellblock matrix followed by bml_get_row returns the thresholded row.", "quantifier": "all block structures, rows and previous contents", "why_tests_cant": "depends on previous contents of the row", "anchors": ["src/C-interface/ellblock/bml_setters_ellblock_typed.c:bml_set_row_ellblock"]}
{"id": "C45", "title": "ellblock: products and traces", "statement": "bml_multiply_AB stores the block-thresholded product; bml_multiply_x2 returns trace(X) and trace(X^2), for every block structure.", "quantifier": "all block structures", "why_tests_cant": "non-uniform blocks occur only when N is not a multiple of the block size", "anchors": ["src/C-interface/ellblock/bml_multiply_ellblock_typed.c"]}
{"id": "C46", "title": "ellblock: transpose followed by other operations", "statement": "After bml_transpose in place, subsequent operations (bml_add, bml_set_element) behave as on any other matrix with the same elements.", "quantifier": "all histories", "why_tests_cant": "stale block pointers are only observable after a specific sequence of calls", "anchors": ["src/C-interface/ellblock/bml_transpose_ellblock_typed.c", "src/C-interface/ellblock/bml_add_ellblock_typed.c"]}
{"id": "C47", "title": "bml_multiply_adjust_AB terminates", "statement": "bml_multiply_adjust_AB(A,B,C,t) on ellpack matrices terminates and leaves the product thresholded with some t'>=t, for every input.", "quantifier": "all inputs", "why_tests_cant": "non-termination cannot be established by a test", "anchors": ["src/C-interface/ellpack/bml_multiply_ellpack_typed.c:bml_multiply_adjust_AB_ellpack"]}
{"id": "C48", "title": "MatrixMarket write/read round trip", "statement": "bml_write_bml_matrix followed by bml_read_bml_matrix into a zero matrix of the same size restores every element (exact decimal rendering assumed).", "quantifier": "all matrices", "why_tests_cant": "unbounded data", "anchors": ["src/C-interface/ellpack/bml_utilities_ellpack_typed.c", "src/C-interface/csr/bml_utilities_csr_typed.c", "src/C-interface/dense/bml_utilities_dense_typed.c"]}
{"id": "C49", "title": "bml_adjungate_triangle", "statement": "bml_adjungate_triangle(A,'u') makes A symmetric (hermitian) by copying the upper triangle onto the lower triangle, leaving the upper triangle unchanged.", "quantifier": "all matrices", "why_tests_cant": "depends on which entries are already stored in the target triangle", "anchors": ["src/C-interface/ellpack/bml_adjungate_triangle_ellpack_typed.c", "src/C-interface/dense/bml_adjungate_triangle_dense_typed.c"]}
{"id": "C50", "title": "OpenMP row loops are schedule independent", "statement": "The result of bml_add, bml_multiply_AB, bml_multiply_x2, bml_element_multiply_AB and the norms is the same for every assignment of rows to threads and every execution order, including thread-private workspace reuse.", "quantifier": "all numbers of threads, all schedules", "why_tests_cant": "schedules cannot be enumerated by tests", "anchors": ["src/C-interface/ellpack/bml_multiply_ellpack_typed.c", "src/C-interface/ellpack/bml_add_ellpack_typed.c", "src/C-interface/ellpack/bml_norm_ellpack_typed.c"]}
{"id": "C51", "title": "bml_set_diagonal / bml_get_diagonal", "statement": "After bml_set_diagonal(A,d,t), bml_get_diagonal returns d with entries of magnitude <= t replaced by zero and off-diagonal elements are unchanged.", "quantifier": "all well-formed matrices of every format", "why_tests_cant": "presence of stored diagonal entries depends on history", "anchors": ["src/C-interface/ellpack/bml_setters_ellpack_typed.c:bml_set_diagonal_ellpack", "src/C-interface/csr/bml_setters_csr_typed.c", "src/C-interface/dense/bml_setters_dense_typed.c", "src/C-interface/ellblock/bml_setters_ellblock_typed.c"]}
{"id": "C52", "title": "Constructors", "statement": "bml_zero_matrix, bml_identity_matrix, bml_banded_matrix produce well-formed matrices with the documented elements; bml_get_element outside 0..N-1 is rejected with an error, never answered silently.", "quantifier": "all N, M", "why_tests_cant": "all sizes", "anchors": ["src/C-interface/ellpack/bml_allocate_ellpack_typed.c", "src/C-interface/csr/bml_allocate_csr_typed.c", "src/C-interface/dense/bml_allocate_dense_typed.c"]}
{"id": "C53", "title": "Sparsity and bandwidth introspection", "statement": "bml_get_sparsity(A,t) is 1 - (number of elements of magnitude > t)/N^2 and agrees between formats; bml_get_row_bandwidth bounds the number of nonzero elements of the row.", "quantifier": "all matrices and thresholds", "why_tests_cant": "unbounded data", "anchors": ["src/C-interface/ellpack/bml_introspection_ellpack_typed.c", "src/C-interface/csr/bml_introspection_csr_typed.c", "src/C-interface/dense/bml_introspection_dense_typed.c"]}
{"id": "C54", "title": "csr structural invariant over every history of API calls", "statement": "Every sequence of csr API calls that starts from constructors and does not report an error keeps each csr matrix well formed: stored counts within the allocation, every counted slot initialised, no column twice in a row, columns < N; and no call reads uninitialised or freed memory or fails to terminate.", "quantifier": "all finite sequences of API calls", "why_tests_cant": "reallocation happens only for particular histories", "anchors": ["src/C-interface/csr/bml_setters_csr_typed.c", "src/C-interface/csr/bml_add_csr_typed.c", "src/C-interface/csr/bml_transpose_csr_typed.c"]}
{"id": "C55", "title": "csr: row and dense-array round trips", "statement": "bml_set_row followed by bml_get_row returns the thresholded row and changes no other row; bml_import_from_dense followed by bml_export_to_dense (any combination of orders) returns the thresholded array; rows grow as needed, so no capacity condition applies.", "quantifier": "all N, M, arrays, orders, thresholds, schedules", "why_tests_cant": "unbounded data", "anchors": ["src/C-interface/csr/bml_setters_csr_typed.c", "src/C-interface/csr/bml_getters_csr_typed.c", "src/C-interface/csr/bml_import_csr_typed.c", "src/C-interface/csr/bml_export_csr_typed.c"]}
{"id": "C56", "title": "Message passing: exchange programs", "statement": "Every program of the distributed formats consisting of local computations and matched exchanges (bml_mpi_irecv, bml_mpi_send, bml_mpi_irecv_complete) is free of deadlock in every interleaving of the tasks and every mixture of buffered and synchronous sends, terminates, leaves no message behind, and its result does not depend on the interleaving.", "quantifier": "all numbers of tasks, all interleavings, all programs of this shape", "why_tests_cant": "interleavings and task counts cannot be enumerated by tests", "anchors": ["src/C-interface/distributed2d/bml_multiply_distributed2d.c", "src/C-interface/distributed2d/bml_transpose_distributed2d.c", "src/C-interface/bml_parallel.c", "src/C-interface/dense/bml_parallel_dense_typed.c", "src/C-interface/ellpack/bml_parallel_ellpack_typed.c", "src/C-interface/csr/bml_parallel_csr_typed.c"]}
{"id": "C57", "title": "Process grid of distributed2d", "statement": "bml_setcomm_distributed2d accepts exactly the square numbers of tasks and builds the square grid; grid coordinates and ranks correspond one to one; bml_setup_distributed2d accepts a size N exactly when the grid divides it, with blocks of N / p rows.", "quantifier": "all numbers of tasks, all sizes", "why_tests_cant": "square roots of all task counts", "anchors": ["src/C-interface/distributed2d/bml_allocate_distributed2d.c"]}
{"id": "C58", "title": "ellblock: addition", "statement": "bml_add, bml_add_identity and bml_scale_add_identity on ellblock matrices give the sum, thresholded per block, for every schedule, and never touch memory outside the blocks.", "quantifier": "all matrices with the same blocks, all factors, thresholds, schedules", "why_tests_cant": "block layouts and schedules cannot be enumerated", "anchors": ["src/C-interface/ellblock/bml_add_ellblock_typed.c"]}
{"id": "C59", "title": "ellblock: copy, scale, threshold, transpose into a new matrix, clear", "statement": "bml_copy_new, bml_copy, bml_scale, bml_threshold_new, bml_threshold, bml_transpose_new and bml_clear on ellblock matrices return the copied, scaled, elementwise thresholded, transposed and zero matrix and keep the structural invariant.", "quantifier": "all well-formed matrices with any block sizes, all thresholds, schedules", "why_tests_cant": "unbounded data", "anchors": ["src/C-interface/ellblock/bml_copy_ellblock_typed.c", "src/C-interface/ellblock/bml_scale_ellblock_typed.c", "src/C-interface/ellblock/bml_threshold_ellblock_typed.c", "src/C-interface/ellblock/bml_transpose_ellblock_typed.c", "src/C-interface/ellblock/bml_allocate_ellblock_typed.c"]}
{"id": "C60", "title": "ellblock: import, export, conversion, blocks", "statement": "bml_import_from_dense keeps exactly the blocks with an element above the threshold, bml_export_to_dense returns every element, converting from another format keeps every element, bml_set_block stores the block.", "quantifier": "all N, M, block sizes, arrays, orders", "why_tests_cant": "unbounded data", "anchors": ["src/C-interface/ellblock/bml_import_ellblock_typed.c", "src/C-interface/ellblock/bml_export_ellblock_typed.c", "src/C-interface/ellblock/bml_convert_ellblock_typed.c", "src/C-interface/ellblock/bml_setters_ellblock_typed.c"]}
{"id": "C61", "title": "ellblock: reductions", "statement": "bml_trace, bml_sum_squares, bml_sum_squares2, bml_sum_AB, bml_fnorm2, bml_get_sparsity and bml_get_row_bandwidth on ellblock matrices return the sums of the dense matrix.", "quantifier": "all well-formed matrices", "why_tests_cant": "unbounded data", "anchors": ["src/C-interface/ellblock/bml_trace_ellblock_typed.c", "src/C-interface/ellblock/bml_norm_ellblock_typed.c", "src/C-interface/ellblock/bml_introspection_ellblock_typed.c"]}
{"id": "C62", "title": "Core+halo submatrices: index, extraction, assembly", "statement": "bml_matrix2submatrix_index lists exactly the nodes, their neighbours in both graphs (and, with double jump, neighbours of those), each once, cores first; bml_matrix2submatrix copies these rows and columns into a dense matrix; bml_submatrix2matrix writes the core rows back, thresholded, and changes no other row. Extraction followed by assembly restores the core rows of the matrix.", "quantifier": "all ellpack matrices, graphs, node lists, schedules", "why_tests_cant": "graph shapes and schedules cannot be enumerated", "anchors": ["src/C-interface/ellpack/bml_submatrix_ellpack_typed.c"]}
{"id": "C63", "title": "Matrices distributed by rows over MPI ranks", "statement": "In distributed mode every rank computes the rows of its domain; bml_allGatherVParallel gives every rank all rows. For the domains the library makes, addition, products, elementwise product, threshold, scaling, shift, normalization leave the rows of the result on their owners, and the sums (min, max) over the ranks of the local traces, norms and Gershgorin bounds are those of the whole matrix, as in a run on one rank.", "quantifier": "all numbers of ranks, sizes, matrices, domains, schedules of every rank, reduction orders", "why_tests_cant": "numbers of ranks, domains and schedules cannot be enumerated; no test runs this mode with more than one rank on all operations", "anchors": ["src/C-interface/bml_parallel.c", "src/C-interface/bml_allocate.c", "src/C-interface/ellpack/bml_parallel_ellpack_typed.c", "src/C-interface/ellpack/bml_multiply_ellpack_typed.c", "src/C-interface/ellpack/bml_add_ellpack_typed.c", "src/C-interface/ellpack/bml_normalize_ellpack_typed.c", "src/C-interface/dense/bml_parallel_dense_typed.c", "src/C-interface/dense/bml_add_dense_typed.c"]}
{"id": "C64", "title": "Diagonalisation", "statement": "bml_diagonalize on a symmetric (real) or Hermitian (complex) matrix returns the eigenvalues in ascending order and a unitary matrix whose columns are the eigenvectors of the matrix, in the dense, ellpack, csr and ellblock formats, provided LAPACK keeps its promise; it never touches memory outside the matrices.", "quantifier": "all N, matrices, LAPACK routines meeting their contract, schedules", "why_tests_cant": "layout conventions (row- against column-major) are invisible for the real symmetric matrices the tests use; sizes are unbounded", "anchors": ["src/C-interface/dense/bml_diagonalize_dense.c", "src/C-interface/ellpack/bml_diagonalize_ellpack_typed.c", "src/C-interface/csr/bml_diagonalize_csr_typed.c", "src/C-interface/ellblock/bml_diagonalize_ellblock_typed.c"]}
{"id": "C65", "title": "Inverse", "statement": "bml_inverse of an invertible matrix returns the inverse in the dense, ellpack, csr and ellblock formats, provided LAPACK keeps its promise; a singular matrix is reported.", "quantifier": "all N, invertible matrices, LAPACK routines meeting their contract, schedules", "why_tests_cant": "unbounded data", "anchors": ["src/C-interface/dense/bml_inverse_dense_typed.c", "src/C-interface/ellpack/bml_inverse_ellpack_typed.c", "src/C-interface/csr/bml_inverse_csr_typed.c", "src/C-interface/ellblock/bml_inverse_ellblock_typed.c"]}
{"id": "C66", "title": "Typed element getters", "statement": "bml_get_element_{single,double}_{real,complex} (behind bml_get_element of the Fortran interface) return the element (i,j) of the matrix, in every format and precision, and stop with an error for indices out of range.", "quantifier": "all matrices, formats, precisions, i, j", "why_tests_cant": "each precision has its own copy of the loop; which copies agree depends on the sparsity pattern of row 0", "anchors": ["src/C-interface/bml_elemental.c", "src/C-interface/ellpack/bml_elemental_ellpack.c", "src/C-interface/dense/bml_elemental_dense.c"]}
{"id": "C67", "title": "Fortran interface: arrays, indices, matrix variables", "statement": "Importing a Fortran array a gives the matrix with the element a(i,j) in row i and column j (counted from 1), exporting returns it; bml_set_element, bml_set_row, bml_get_row, bml_get_diagonal count from 1. Missing optional arguments mean threshold 0, alpha 1, beta 0. Every sequence of calls leaves each matrix variable null or holding a matrix of its own, never a freed one, and no matrix is lost.", "quantifier": "all arrays and array sections, formats, sizes, thresholds, sequences of calls", "why_tests_cant": "sizes, array descriptors and sequences of calls are unbounded", "anchors": ["src/Fortran-interface/bml_import_m.F90", "src/Fortran-interface/bml_export_m.F90", "src/Fortran-interface/bml_getters_m.F90", "src/Fortran-interface/bml_setters_m.F90", "src/Fortran-interface/bml_copy_m.F90", "src/Fortran-interface/bml_transpose_m.F90", "src/Fortran-interface/bml_types_m.F90"]}
{"id": "C68", "title": "Fortran interface: names and codes", "statement": "The codes the Fortran interface sends for matrix types, precisions and distribution modes are those of the C enumerations, and the names returned by bml_get_type, bml_get_deep_type, bml_get_distribution_mode, bml_get_element_type, bml_get_element_precision for a matrix are the names it was made with. File names are passed without trailing blanks.", "quantifier": "all types, precisions, modes, strings", "why_tests_cant": "the enumerations are kept in step by hand; no test queries a csr matrix, a complex matrix or a graph-distributed one through Fortran", "anchors": ["src/Fortran-interface/bml_interface_m.F90", "src/Fortran-interface/bml_introspection_m.F90", "src/Fortran-interface/bml_fc_tools_m.F90", "src/C-interface/bml_types.h"]}
{"id": "C69", "title": "Rounding errors", "statement": "With every addition and multiplication rounded (error at most u times the result or, where it underflows, u times the smallest normal number), the computed trace, sum of squares, alpha A + beta B, alpha A B + beta C and alpha op(A) op(B) + beta C of real dense matrices and the trace, sum of squares, sum and product of real ellpack matrices differ from the exact values by at most ((1+u)^k - 1) times the same expression in the absolute values (plus a multiple of the smallest normal number), plus the threshold where one applies; k is the number of terms plus a small constant, for the ellpack product the number of elements of the row. Single and double precision have u = 2^-24 and 2^-53.", "quantifier": "all matrices, sizes, schedules, orders of combining threads, rounding functions", "why_tests_cant": "tests compare with a fixed tolerance for a few matrices", "anchors": ["src/internal-blas/bml_gemm.c", "src/C-interface/dense/bml_add_dense_typed.c", "src/C-interface/dense/bml_multiply_dense_typed.c", "src/C-interface/dense/bml_trace_dense_typed.c", "src/C-interface/dense/bml_norm_dense_typed.c", "src/C-interface/ellpack/bml_add_ellpack_typed.c", "src/C-interface/ellpack/bml_multiply_ellpack_typed.c", "src/C-interface/ellpack/bml_trace_ellpack_typed.c", "src/C-interface/ellpack/bml_norm_ellpack_typed.c"]}
{"id": "C70", "title": "Schedules and rounding", "statement": "Computed with rounding, results do not depend on the number of threads, on which thread does which iteration, nor on the order in which a reduction combines the threads.", "quantifier": "all matrices, schedules, orders", "why_tests_cant": "the order of a reduction changes from run to run and cannot be set by a test", "anchors": ["src/C-interface/dense/bml_trace_dense_typed.c", "src/C-interface/ellpack/bml_add_ellpack_typed.c", "src/C-interface/ellpack/bml_multiply_ellpack_typed.c"]}
{"id": "C71", "title": "Memory: no leak, no double free", "statement": "Every function frees the objects it allocates except those that belong to the matrix or array it returns; bml_deallocate frees exactly the objects of the matrix. So a program that deallocates every matrix and array it received leaves nothing allocated, and no call frees an object twice or one it does not own.", "quantifier": "all sequences of calls, formats dense, ellpack, csr and distributed2d over them, sizes, patterns of row growth, allocators", "why_tests_cant": "leaks do not change results; the suite runs without a leak checker, and sequences of calls are unbounded", "anchors": ["src/C-interface/bml_allocate.c", "src/C-interface/dense/bml_allocate_dense.c", "src/C-interface/ellpack/bml_allocate_ellpack.c", "src/C-interface/ellpack/bml_transpose_ellpack_typed.c", "src/C-interface/ellpack/bml_submatrix_ellpack.c", "src/C-interface/csr/bml_allocate_csr_typed.c", "src/C-interface/csr/bml_submatrix_csr_typed.c", "src/C-interface/distributed2d/bml_export_distributed2d_typed.c", "src/C-interface/distributed2d/bml_getters_distributed2d_typed.c", "src/C-interface/distributed2d/bml_convert_distributed2d.c"]}
{"id": "C72", "title": "Memory of ellblock matrices", "statement": "At any time the live blocks of an ellblock matrix are those in the slots in use, so that bml_deallocate, which frees the blocks in use, frees all of them, each once.", "quantifier": "all matrices, block sizes, calls", "why_tests_cant": "the result of a call does not show which blocks are live", "anchors": ["src/C-interface/ellblock/bml_allocate_ellblock.c", "src/C-interface/ellblock/bml_add_ellblock_typed.c", "src/C-interface/ellblock/bml_copy_ellblock_typed.c", "src/C-interface/ellblock/bml_threshold_ellblock_typed.c", "src/C-interface/ellblock/bml_transpose_ellblock_typed.c"]}
{"id": "C73", "title": "Integer overflow in indices and sizes", "statement": "For every matrix whose dimensions are ints and whose arrays fit in memory, the index of every element and the size of every array is computed without overflow of int.", "quantifier": "all N, M, i < N, j < M, element sizes", "why_tests_cant": "matrices with more than 2^31 elements are out of reach of a test suite", "anchors": ["src/macros.h", "src/C-interface/dense/bml_allocate_dense_typed.c", "src/C-interface/dense/bml_diagonalize_dense.c", "src/C-interface/ellpack/bml_allocate_ellpack_typed.c", "src/C-interface/ellpack/bml_introspection_ellpack_typed.c", "src/C-interface/csr/bml_introspection_csr_typed.c", "src/C-interface/ellblock/bml_copy_ellblock_typed.c", "src/C-interface/ellblock/bml_add_ellblock_typed.c", "src/C-interface/distributed2d/bml_import_distributed2d_typed.c", "src/C-interface/distributed2d/bml_introspection_distributed2d.c"]}
{"id": "C74", "title": "Data races", "statement": "In a parallel loop no two threads access the same memory cell at the same time with one of them writing, whatever the interleaving of the single reads and writes of the threads; so the loop can be treated as if its iterations (or critical sections) were atomic, it does not deadlock and its result is the same in every interleaving.", "quantifier": "all matrices, schedules, numbers of threads, interleavings of single accesses", "why_tests_cant": "a run shows one interleaving out of exponentially many, and races seldom change the result of a small test", "anchors": ["src/C-interface/ellpack/bml_multiply_ellpack_typed.c", "src/C-interface/ellpack/bml_add_ellpack_typed.c", "src/C-interface/ellpack/bml_threshold_ellpack_typed.c", "src/C-interface/ellpack/bml_import_ellpack_typed.c", "src/C-interface/ellpack/bml_export_ellpack_typed.c", "src/C-interface/ellpack/bml_trace_ellpack_typed.c", "src/C-interface/ellpack/bml_transpose_ellpack_typed.c", "src/C-interface/ellpack/bml_adjungate_triangle_ellpack_typed.c", "src/C-interface/ellpack/bml_allocate_ellpack_typed.c", "src/C-interface/ellpack/bml_norm_ellpack_typed.c", "src/C-interface/dense/bml_transpose_dense_typed.c", "src/C-interface/dense/bml_adjungate_triangle_dense_typed.c", "src/C-interface/dense/bml_threshold_dense_typed.c", "src/C-interface/dense/bml_element_multiply_dense_typed.c", "src/C-interface/dense/bml_trace_dense_typed.c", "src/C-interface/dense/bml_norm_dense_typed.c", "src/C-interface/csr/bml_scale_csr_typed.c", "src/C-interface/csr/bml_threshold_csr_typed.c", "src/C-interface/csr/bml_norm_csr_typed.c", "src/C-interface/csr/bml_trace_csr_typed.c", "src/C-interface/csr/bml_export_csr_typed.c", "src/C-interface/csr/bml_allocate_csr_typed.c", "src/C-interface/csr/bml_normalize_csr_typed.c"]}
{"id": "C75", "title": "Values in Matrix Market files", "statement": "A number written by bml_write_bml_matrix and read by bml_read_bml_matrix is the number that was written, in every precision; and writing the matrix that was read gives the same file.", "quantifier": "all numbers of the types float and double (normal range), all matrices", "why_tests_cant": "there are 2^64 doubles, and the ones in a test matrix usually have few digits", "anchors": ["src/C-interface/ellpack/bml_utilities_ellpack_typed.c", "src/C-interface/csr/bml_utilities_csr_typed.c", "src/C-interface/dense/bml_utilities_dense_typed.c", "src/C-interface/ellblock/bml_utilities_ellblock_typed.c"]}
