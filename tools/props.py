#!/usr/bin/env python3
"""Writes ../properties.jsonl (one JSON object per line)."""
import json, os
P=[]
E='src/C-interface/ellpack/'; C='src/C-interface/csr/'; D='src/C-interface/dense/'; B='src/C-interface/ellblock/'; G='src/C-interface/distributed2d/'; I='src/C-interface/'
def p(title, statement, quant, why, anchors):
    P.append(dict(id='C%02d'%(len(P)+1), title=title, statement=statement, quantifier=quant, why_tests_cant=why, anchors=anchors))

p('ellpack: set_row / get_row round trip',
  'After bml_set_row(A,i,row,t) on an ellpack matrix, bml_get_row(A,i) returns row with every entry of magnitude <= t replaced by 0, every other row is unchanged, and no memory outside the matrix is touched, provided at most M entries exceed t.',
  'all N, M, all well-formed matrices, all rows i, all row vectors, all thresholds', 'the input space (sizes, sparsity patterns, values, thresholds) is unbounded; the capacity side condition M is data dependent',
  [E+'bml_setters_ellpack_typed.c:bml_set_row_ellpack', E+'bml_getters_ellpack_typed.c:bml_get_row_ellpack'])
p('ellpack: bml_set_element followed by bml_get_element',
  'bml_set_element(A,i,j,v) followed by bml_get_element(A,i,j) returns v, and every other element is unchanged.',
  'all well-formed ellpack matrices, all i,j<N, all v', 'whether the row has two or fewer entries, and already holds column j, depends on the history of the matrix',
  [E+'bml_setters_ellpack_typed.c:bml_set_element_ellpack', E+'bml_getters_ellpack_typed.c:bml_get_element_ellpack'])
p('ellpack: import from dense / export to dense round trip',
  'bml_export_to_dense(bml_import_from_dense(order,N,M,A,t),order\') is the matrix A with entries of magnitude <= t replaced by zero, for every combination of row-major and column-major orders, provided each row has at most M kept entries.',
  'all N, M, all dense arrays, both orders on each side, all thresholds', 'index arithmetic must be right for every size and order',
  [E+'bml_import_ellpack_typed.c:bml_import_from_dense_ellpack', E+'bml_export_ellpack_typed.c:bml_export_to_dense_ellpack'])
p('ellpack: bml_add computes alpha*A + beta*B',
  'bml_add(A,B,alpha,beta,t) leaves in A exactly the matrix whose (i,j) element is x=alpha*A_ij+beta*B_ij if |x|>t and 0 otherwise, never writes outside A when every result row has at most M entries, and leaves a well-formed matrix.',
  'all N, M_A, M_B, all well-formed A,B, all alpha,beta,t', 'the scatter/gather workspace (ix,jx,x) is reused across rows; correctness needs an invariant over arbitrarily many rows and arbitrary sparsity patterns',
  [E+'bml_add_ellpack_typed.c:bml_add_ellpack'])
p('ellpack: bml_multiply_AB computes the matrix product',
  'bml_multiply_AB(A,B,C,t) stores in C the product A*B, where off-diagonal elements of magnitude <= t are dropped; it either does that or stops with the documented error when a product row has more than M entries; it never writes outside C.',
  'all N, M, all well-formed A,B of the same size, all previous contents of C, all thresholds', 'needs an invariant of the accumulation workspace over all rows and patterns',
  [E+'bml_multiply_ellpack_typed.c:bml_multiply_AB_ellpack'])
p('ellpack: bml_multiply computes alpha*A*B + beta*C',
  'bml_multiply(A,B,C,alpha,beta,t) leaves alpha*A*B+beta*C in C up to the thresholding of the product and of the sum, including when A and B are the same object, and agrees exactly with alpha*A*B+beta*C when t=0.',
  'all N, M, all well-formed A,B,C, all alpha, beta, aliasing A==B or not', 'the code takes different paths for A==B, alpha==1, beta==0',
  [E+'bml_multiply_ellpack_typed.c:bml_multiply_ellpack'])
p('ellpack: bml_multiply_x2 returns X^2 and the traces of X and X^2',
  'bml_multiply_x2(X,X2,t) stores X*X in X2 (off-diagonal entries of magnitude <= t dropped) and returns exactly trace(X) and trace(X*X), independently of the threshold.',
  'all N, M, all well-formed X, all thresholds', 'the returned traces are accumulated on the side in a parallel reduction; they must equal the mathematical traces for every matrix',
  [E+'bml_multiply_ellpack_typed.c:bml_multiply_x2_ellpack'])
p('Thresholding: bound on the elementwise error and idempotence',
  'bml_threshold/bml_threshold_new with t>=0 change no element by more than t, keep every element of magnitude > t exactly, and are idempotent; consequently bml_add and bml_multiply_AB differ from the exact result by at most t per element.',
  'all real matrices and all thresholds t>=0', 'quantifies over all real data; strictness of the comparison matters only on a measure-zero set',
  [E+'bml_threshold_ellpack_typed.c', C+'bml_threshold_csr_typed.c', D+'bml_threshold_dense_typed.c'])
p('ellpack: parallel transpose gives the transpose under every schedule',
  'bml_transpose_new(A) returns the matrix B with B_ji=A_ij whatever the order in which the OpenMP threads insert elements, provided every column of A has at most M entries.',
  'all well-formed A and all interleavings of the lock-protected insertions', 'the storage order of each row of the result depends on the thread schedule; tests sample a few schedules',
  [E+'bml_transpose_ellpack_typed.c:bml_transpose_new_ellpack'])
p('ellpack/csr: in-place transpose',
  'bml_transpose(A) replaces A by its transpose (storage per row permitting), for every sparsity pattern, including structurally unsymmetric ones.',
  'all well-formed matrices and all sparsity patterns', 'the algorithm moves elements between rows while rows are being scanned; its correctness depends on an invariant relating the processed and unprocessed parts of every row',
  [E+'bml_transpose_ellpack_typed.c:bml_transpose_ellpack', C+'bml_transpose_csr_typed.c:bml_transpose_csr'])
p('bml_trace_mult(A,B) is the trace of A*B',
  'bml_trace_mult(A,B) returns trace(A*B) in every format.',
  'all matrices A,B of equal size, all formats', 'must hold for unsymmetric matrices too; all test matrices may be symmetric',
  [E+'bml_trace_ellpack_typed.c:bml_trace_mult_ellpack', D+'bml_trace_dense_typed.c', C+'bml_trace_csr_typed.c', B+'bml_trace_ellblock_typed.c', I+'bml_trace.c'])
p('bml_trace is the sum of the diagonal',
  'bml_trace(A) returns the sum of A_ii for every format and does not depend on the storage order of rows or on the thread schedule.',
  'all well-formed matrices', 'unbounded sizes and patterns',
  [E+'bml_trace_ellpack_typed.c', C+'bml_trace_csr_typed.c', D+'bml_trace_dense_typed.c'])
p('bml_add_identity and bml_scale_add_identity',
  'bml_add_identity(A,beta,t) computes A+beta*I (thresholded), bml_scale_add_identity(A,alpha,beta,t) computes alpha*A+beta*I, without touching memory outside A.',
  'all well-formed matrices, including rows without a stored diagonal and full rows', 'the position and presence of the diagonal entry depends on history',
  [E+'bml_add_ellpack_typed.c:bml_add_identity_ellpack', C+'bml_add_csr_typed.c:bml_add_identity_csr', D+'bml_add_dense_typed.c'])
p('bml_scale, bml_copy: exact element-wise meaning and independence of the copy',
  'bml_scale multiplies every element by the factor; bml_copy/bml_copy_new produce a matrix with exactly the elements of the source, and later modification of one does not change the other.',
  'all well-formed matrices, factors, and all later updates', 'unbounded data and histories',
  [E+'bml_scale_ellpack_typed.c', E+'bml_copy_ellpack_typed.c', I+'bml_copy.c'])
p('bml_reorder conjugates by the permutation',
  'bml_reorder(A,perm) yields the matrix A\' with A\'[perm(i)][perm(j)] = A[i][j], the same in every format; in particular the trace and spectrum are preserved.',
  'all matrices, all permutations', 'all permutations of all sizes; identity or involutive permutations hide direction errors',
  [E+'bml_copy_ellpack_typed.c:bml_reorder_ellpack', D+'bml_copy_dense_typed.c:bml_reorder_dense'])
p('Norm functions',
  'bml_sum_squares(A)=sum A_ij^2, bml_sum_AB=sum alpha*A_ij*B_ij, bml_sum_squares2=sum (alpha A_ij+beta B_ij)^2 (over terms above the threshold) in ellpack, csr and dense format.',
  'all well-formed matrices, all alpha, beta, thresholds', 'the accumulators are reused across rows and depend on the pattern overlap of A and B',
  [E+'bml_norm_ellpack_typed.c', C+'bml_norm_csr_typed.c', D+'bml_norm_dense_typed.c'])
p('bml_fnorm2 is the Frobenius norm of A-B',
  'bml_fnorm2(A,B) returns the Frobenius norm of A-B for all A,B (including empty rows, different M, explicit zeros) and under every thread schedule.',
  'all pairs of well-formed matrices; all OpenMP schedules', 'undefined reads and races only show for particular patterns or schedules',
  [E+'bml_norm_ellpack_typed.c:bml_fnorm2_ellpack', D+'bml_norm_dense_typed.c:bml_fnorm2_dense', B+'bml_norm_ellblock_typed.c'])
p('bml_gershgorin bounds every eigenvalue',
  'bml_gershgorin(A) returns (emin,emax) such that every real eigenvalue lambda of A satisfies emin <= lambda <= emax.',
  'all real square matrices and all their eigenpairs', 'a statement about the spectra of all matrices',
  [E+'bml_normalize_ellpack_typed.c:bml_gershgorin_ellpack', D+'bml_normalize_dense_typed.c', C+'bml_normalize_csr_typed.c', B+'bml_normalize_ellblock_typed.c'])
p('bml_gershgorin returns the Gershgorin extremes',
  'The values returned are exactly the minimum over rows of A_ii - sum_{j!=i}|A_ij| and the maximum over rows of A_ii + sum_{j!=i}|A_ij|.',
  'all real square matrices', 'initialisation of the running extremes matters only for matrices whose discs lie on one side of zero',
  [E+'bml_normalize_ellpack_typed.c:bml_gershgorin_ellpack', D+'bml_normalize_dense_typed.c', C+'bml_normalize_csr_typed.c', B+'bml_normalize_ellblock_typed.c'])
p('bml_normalize maps the spectrum into [0,1]',
  'If emin<emax are the Gershgorin bounds of A then bml_normalize(A,emin,emax) replaces A by (emax*I-A)/(emax-emin), whose real eigenvalues all lie in [0,1].',
  'all real square matrices with emin<emax', 'a statement about all spectra',
  [E+'bml_normalize_ellpack_typed.c:bml_normalize_ellpack', B+'bml_normalize_ellblock_typed.c:bml_normalize_ellblock'])
p('bml_element_multiply_AB is the elementwise product',
  'bml_element_multiply_AB(A,B,C,t) stores C_ij=A_ij*B_ij (off-diagonal entries of magnitude <= t dropped).',
  'all well-formed A,B, all previous contents of C', 'unbounded patterns; workspace reuse across rows',
  [E+'bml_element_multiply_ellpack_typed.c', C+'bml_element_multiply_csr_typed.c', D+'bml_element_multiply_dense_typed.c'])
p('ellpack structural invariant over every history of API calls',
  'Every sequence of API calls that starts from a constructor and does not report an error keeps each ellpack matrix well formed: every row has at most M entries, column indices are < N and no column occurs twice in a row.',
  'all finite sequences of API calls', 'quantifies over all histories; violations appear only after particular combinations of calls',
  [E+'bml_setters_ellpack_typed.c', E+'bml_add_ellpack_typed.c', E+'bml_multiply_ellpack_typed.c', E+'bml_threshold_ellpack_typed.c'])
p('Domain decomposition partitions the rows',
  'bml_default_domain(N,M,distributed) gives the ranks contiguous row ranges that are disjoint, cover 0..N-1, differ in size by at most one, and whose element counts/displacements are consistent prefix sums.',
  'all N, M and all numbers of ranks >= 1', 'remainder handling for every N mod nRanks',
  [I+'bml_allocate.c:bml_default_domain'])
p('csr: bml_set_element / bml_get_element behave like a map for every history',
  'For every sequence of bml_set_element calls on a csr matrix, bml_get_element(A,i,j) returns the last value stored at (i,j) (0 if none), rows grow as needed, and no write is out of bounds.',
  'all sequences of set_element calls, all indices', 'row growth (reallocation) happens only after particular numbers of insertions',
  [C+'bml_setters_csr_typed.c:csr_set_row_element', C+'bml_getters_csr_typed.c', C+'bml_allocate_csr.c'])
p('csr: bml_add computes alpha*A + beta*B',
  'bml_add on csr matrices leaves the thresholded alpha*A+beta*B in A, and never accesses freed memory, also when rows of A must grow.',
  'all well-formed A,B, all alpha,beta,t', 'growth of a row in the middle of the loop invalidates cached pointers only for particular row fill levels',
  [C+'bml_add_csr_typed.c:bml_add_csr'])
p('csr: multiplication',
  'bml_multiply_AB / bml_multiply_x2 on csr matrices store the thresholded product and return the traces of X and X^2.',
  'all well-formed csr matrices, all thresholds', 'workspace invariant over all rows; row growth',
  [C+'bml_multiply_csr_typed.c'])
p('csr: bml_threshold_new returns the thresholded matrix',
  'bml_threshold_new(A,t) on csr matrices returns a matrix whose elements are those of A with magnitude > t and 0 elsewhere.',
  'all csr matrices and thresholds', 'depends on the number of kept entries per row',
  [C+'bml_threshold_csr_typed.c:bml_threshold_new_csr'])
p('csr hash table behaves as a finite map',
  'The column hash table used by csr algorithms returns, for every history of insertions and resets, the position of each inserted key and reports absent keys as absent, irrespective of collisions, and never accesses memory out of range up to its capacity.',
  'all table sizes, all sequences of insert/lookup/reset', 'collision chains depend on the key sequence; capacity limits only show for very large sizes',
  [C+'bml_allocate_csr.c:csr_noinit_table'])
p('Internal BLAS replacement gemm is correct',
  'The internal gemm computes C = alpha*op(A)*op(B) + beta*C for every combination of transposition flags, all sizes and all alpha, beta (including the special cases 0 and 1).',
  'all m,n,k, all contents, four transposition combinations, all alpha,beta', 'many special-cased branches times all sizes',
  ['src/internal-blas/bml_gemm.c:bml_gemm_internal'])
p('dense: products',
  'bml_multiply, bml_multiply_x2, bml_multiply_AB and bml_multiply_adjust_AB on dense matrices compute alpha*A*B+beta*C, X*X with traces, and A*B (column-major gemm used on row-major storage).',
  'all N, all dense matrices, alpha, beta', 'storage-order confusion is invisible on symmetric test matrices',
  [D+'bml_multiply_dense_typed.c'])
p('dense: elementwise operations, transposes, thresholds, getters/setters',
  'dense bml_add, bml_scale, bml_add_identity, bml_transpose(_new), bml_threshold(_new), bml_set_row/get_row, set/get_element, set/get_diagonal, bml_trace, import/export have their mathematical meaning.',
  'all N and all dense matrices', 'index arithmetic for every size',
  [D+'bml_add_dense_typed.c', D+'bml_transpose_dense_typed.c', D+'bml_threshold_dense_typed.c', D+'bml_setters_dense_typed.c', D+'bml_getters_dense_typed.c'])
p('Format conversion preserves the matrix',
  'bml_convert between dense, ellpack and csr preserves every element (N per row permitting), so converting there and back is the identity on the represented matrix.',
  'all matrices, all pairs of formats', 'unbounded data',
  [I+'bml_convert.c', E+'bml_convert_ellpack_typed.c', C+'bml_convert_csr_typed.c', D+'bml_convert_dense_typed.c'])
p('Format independence',
  'Computing bml_add, bml_multiply_AB, bml_transpose, bml_scale, bml_trace, bml_element_multiply_AB, norms in dense, ellpack or csr format on equal inputs gives equal results when no threshold is applied.',
  'all inputs, all pairs of formats', 'relational property over all inputs',
  [I+'bml_add.c', I+'bml_multiply.c', I+'bml_norm.c', I+'bml_trace.c'])
p('bml_extract_submatrix / bml_assign_submatrix',
  'Extracting the B_N x B_N block at (irow,icol) returns exactly those elements; assigning a block replaces exactly that block and leaves every other element unchanged; extract after assign returns the assigned block.',
  'all sizes, positions and patterns', 'replacement of already stored elements depends on history',
  [E+'bml_submatrix_ellpack_typed.c', C+'bml_submatrix_csr_typed.c', D+'bml_submatrix_dense_typed.c', B+'bml_submatrix_ellblock_typed.c'])
p('Graph functions: adjacency structure',
  'bml_adjacency produces xadj/adjncy arrays such that adjncy[xadj[i]..xadj[i+1]) lists exactly the off-diagonal neighbours of row i.',
  'all ellpack matrices', 'depends on which rows store a diagonal element',
  [E+'bml_submatrix_ellpack.c:bml_adjacency_ellpack'])
p('Graph functions: bml_group_matrix is independent of the schedule',
  'bml_group_matrix returns the group adjacency (halo-halo) matrix: groups i and k are connected iff some member row of i has a kept element whose column belongs to k; the answer does not depend on how rows are assigned to threads.',
  'all matrices, groupings and thread schedules', 'thread-private markers persist between iterations executed by the same thread',
  [E+'bml_submatrix_ellpack_typed.c:bml_group_matrix_ellpack'])
p('distributed2d: Cannon multiplication',
  'On every p x p process grid, bml_multiply on distributed2d matrices leaves on each task the corresponding block of alpha*A*B+beta*C.',
  'all grid sizes p, all block sizes, all matrices', 'all grid sizes; tests run with 1 or 4 tasks',
  [G+'bml_multiply_distributed2d_typed.c'])
p('distributed2d: bml_get_row, bml_set_row',
  'bml_get_row(A,i) on a distributed2d matrix returns the complete row i on every task; bml_set_row sets it.',
  'all p, N, i', 'needs more than 4 tasks to see displacement errors',
  [G+'bml_getters_distributed2d_typed.c', G+'bml_setters_distributed2d_typed.c'])
p('distributed2d: bml_add_identity, bml_scale_add_identity, bml_identity_matrix, bml_set_diagonal',
  'bml_add_identity on distributed2d matrices adds beta on the global diagonal only.',
  'all p, N, all matrices', 'relational property across tasks',
  [G+'bml_add_distributed2d.c', G+'bml_allocate_distributed2d.c'])
p('distributed2d: transpose, trace, norms, Gershgorin',
  'bml_transpose(_new), bml_trace, bml_sum_squares, bml_gershgorin on distributed2d matrices equal the value for the global matrix.',
  'all p, N, all matrices', 'all grid sizes',
  [G+'bml_transpose_distributed2d.c', G+'bml_trace_distributed2d.c', G+'bml_norm_distributed2d.c', G+'bml_normalize_distributed2d_typed.c'])
p('distributed2d: import/export of dense matrices',
  'Importing a dense matrix in either order distributes block (I,J) of the matrix to task (I,J), and export inverts import.',
  'all p, N, both orders', 'column-major placement errors cancel in import/export round trips',
  [G+'bml_import_distributed2d_typed.c', G+'bml_export_distributed2d_typed.c'])
p('ellblock: block sizes of a new matrix add up to the requested size, whatever was allocated before',
  'bml_zero_matrix(ellblock,..,N,M) returns a matrix with bml_get_N equal to N, for every history of earlier allocations.',
  'all N, M and all histories of allocations', 'a process-wide cache of block sizes makes the result history dependent',
  [B+'bml_allocate_ellblock.c:bml_get_block_sizes'])
p('ellblock: set_element / get_element / get_row behave like a map',
  'For every block structure and every history of bml_set_element calls that does not report an error, bml_get_element returns the last value stored (0 if none).',
  'all block sizes, all histories', 'unbounded histories and block structures',
  [B+'bml_setters_ellblock_typed.c', B+'bml_getters_ellblock_typed.c'])
p('ellblock: bml_set_row replaces the row',
  'bml_set_row(A,i,row,t) on an ellblock matrix followed by bml_get_row returns the thresholded row.',
  'all block structures, rows and previous contents', 'depends on previous contents of the row',
  [B+'bml_setters_ellblock_typed.c:bml_set_row_ellblock'])
p('ellblock: products and traces',
  'bml_multiply_AB stores the block-thresholded product; bml_multiply_x2 returns trace(X) and trace(X^2), for every block structure.',
  'all block structures', 'non-uniform blocks occur only when N is not a multiple of the block size',
  [B+'bml_multiply_ellblock_typed.c'])
p('ellblock: transpose followed by other operations',
  'After bml_transpose in place, subsequent operations (bml_add, bml_set_element) behave as on any other matrix with the same elements.',
  'all histories', 'stale block pointers are only observable after a specific sequence of calls',
  [B+'bml_transpose_ellblock_typed.c', B+'bml_add_ellblock_typed.c'])
p('bml_multiply_adjust_AB terminates',
  'bml_multiply_adjust_AB(A,B,C,t) on ellpack matrices terminates and leaves the product thresholded with some t\'>=t, for every input.',
  'all inputs', 'non-termination cannot be established by a test',
  [E+'bml_multiply_ellpack_typed.c:bml_multiply_adjust_AB_ellpack'])
p('MatrixMarket write/read round trip',
  'bml_write_bml_matrix followed by bml_read_bml_matrix into a zero matrix of the same size restores every element (exact decimal rendering assumed).',
  'all matrices', 'unbounded data',
  [E+'bml_utilities_ellpack_typed.c', C+'bml_utilities_csr_typed.c', D+'bml_utilities_dense_typed.c'])
p('bml_adjungate_triangle',
  'bml_adjungate_triangle(A,\'u\') makes A symmetric (hermitian) by copying the upper triangle onto the lower triangle, leaving the upper triangle unchanged.',
  'all matrices', 'depends on which entries are already stored in the target triangle',
  [E+'bml_adjungate_triangle_ellpack_typed.c', D+'bml_adjungate_triangle_dense_typed.c'])
p('OpenMP row loops are schedule independent',
  'The result of bml_add, bml_multiply_AB, bml_multiply_x2, bml_element_multiply_AB and the norms is the same for every assignment of rows to threads and every execution order, including thread-private workspace reuse.',
  'all numbers of threads, all schedules', 'schedules cannot be enumerated by tests',
  [E+'bml_multiply_ellpack_typed.c', E+'bml_add_ellpack_typed.c', E+'bml_norm_ellpack_typed.c'])
p('bml_set_diagonal / bml_get_diagonal',
  'After bml_set_diagonal(A,d,t), bml_get_diagonal returns d with entries of magnitude <= t replaced by zero and off-diagonal elements are unchanged.',
  'all well-formed matrices of every format', 'presence of stored diagonal entries depends on history',
  [E+'bml_setters_ellpack_typed.c:bml_set_diagonal_ellpack', C+'bml_setters_csr_typed.c', D+'bml_setters_dense_typed.c', B+'bml_setters_ellblock_typed.c'])
p('Constructors',
  'bml_zero_matrix, bml_identity_matrix, bml_banded_matrix produce well-formed matrices with the documented elements; bml_get_element outside 0..N-1 is rejected with an error, never answered silently.',
  'all N, M', 'all sizes',
  [E+'bml_allocate_ellpack_typed.c', C+'bml_allocate_csr_typed.c', D+'bml_allocate_dense_typed.c'])
p('Sparsity and bandwidth introspection',
  'bml_get_sparsity(A,t) is 1 - (number of elements of magnitude > t)/N^2 and agrees between formats; bml_get_row_bandwidth bounds the number of nonzero elements of the row.',
  'all matrices and thresholds', 'unbounded data',
  [E+'bml_introspection_ellpack_typed.c', C+'bml_introspection_csr_typed.c', D+'bml_introspection_dense_typed.c'])
p('csr structural invariant over every history of API calls',
  'Every sequence of csr API calls that starts from constructors and does not report an error keeps each csr matrix well formed: stored counts within the allocation, every counted slot initialised, no column twice in a row, columns < N; and no call reads uninitialised or freed memory or fails to terminate.',
  'all finite sequences of API calls', 'reallocation happens only for particular histories',
  [C+'bml_setters_csr_typed.c', C+'bml_add_csr_typed.c', C+'bml_transpose_csr_typed.c'])
p('csr: row and dense-array round trips',
  'bml_set_row followed by bml_get_row returns the thresholded row and changes no other row; bml_import_from_dense followed by bml_export_to_dense (any combination of orders) returns the thresholded array; rows grow as needed, so no capacity condition applies.',
  'all N, M, arrays, orders, thresholds, schedules', 'unbounded data',
  [C+'bml_setters_csr_typed.c', C+'bml_getters_csr_typed.c', C+'bml_import_csr_typed.c', C+'bml_export_csr_typed.c'])
p('Message passing: exchange programs',
  'Every program of the distributed formats consisting of local computations and matched exchanges (bml_mpi_irecv, bml_mpi_send, bml_mpi_irecv_complete) is free of deadlock in every interleaving of the tasks and every mixture of buffered and synchronous sends, terminates, leaves no message behind, and its result does not depend on the interleaving.',
  'all numbers of tasks, all interleavings, all programs of this shape', 'interleavings and task counts cannot be enumerated by tests',
  [G+'bml_multiply_distributed2d.c', G+'bml_transpose_distributed2d.c', 'src/C-interface/bml_parallel.c', 'src/C-interface/dense/bml_parallel_dense_typed.c', E+'bml_parallel_ellpack_typed.c', C+'bml_parallel_csr_typed.c'])
p('Process grid of distributed2d',
  'bml_setcomm_distributed2d accepts exactly the square numbers of tasks and builds the square grid; grid coordinates and ranks correspond one to one; bml_setup_distributed2d accepts a size N exactly when the grid divides it, with blocks of N / p rows.',
  'all numbers of tasks, all sizes', 'square roots of all task counts',
  [G+'bml_allocate_distributed2d.c'])
p('ellblock: addition',
  'bml_add, bml_add_identity and bml_scale_add_identity on ellblock matrices give the sum, thresholded per block, for every schedule, and never touch memory outside the blocks.',
  'all matrices with the same blocks, all factors, thresholds, schedules', 'block layouts and schedules cannot be enumerated',
  [B+'bml_add_ellblock_typed.c'])
p('ellblock: copy, scale, threshold, transpose into a new matrix, clear',
  'bml_copy_new, bml_copy, bml_scale, bml_threshold_new, bml_threshold, bml_transpose_new and bml_clear on ellblock matrices return the copied, scaled, elementwise thresholded, transposed and zero matrix and keep the structural invariant.',
  'all well-formed matrices with any block sizes, all thresholds, schedules', 'unbounded data',
  [B+'bml_copy_ellblock_typed.c', B+'bml_scale_ellblock_typed.c', B+'bml_threshold_ellblock_typed.c', B+'bml_transpose_ellblock_typed.c', B+'bml_allocate_ellblock_typed.c'])
p('ellblock: import, export, conversion, blocks',
  'bml_import_from_dense keeps exactly the blocks with an element above the threshold, bml_export_to_dense returns every element, converting from another format keeps every element, bml_set_block stores the block.',
  'all N, M, block sizes, arrays, orders', 'unbounded data',
  [B+'bml_import_ellblock_typed.c', B+'bml_export_ellblock_typed.c', B+'bml_convert_ellblock_typed.c', B+'bml_setters_ellblock_typed.c'])
p('ellblock: reductions',
  'bml_trace, bml_sum_squares, bml_sum_squares2, bml_sum_AB, bml_fnorm2, bml_get_sparsity and bml_get_row_bandwidth on ellblock matrices return the sums of the dense matrix.',
  'all well-formed matrices', 'unbounded data',
  [B+'bml_trace_ellblock_typed.c', B+'bml_norm_ellblock_typed.c', B+'bml_introspection_ellblock_typed.c'])
p('Core+halo submatrices: index, extraction, assembly',
  'bml_matrix2submatrix_index lists exactly the nodes, their neighbours in both graphs (and, with double jump, neighbours of those), each once, cores first; bml_matrix2submatrix copies these rows and columns into a dense matrix; bml_submatrix2matrix writes the core rows back, thresholded, and changes no other row. Extraction followed by assembly restores the core rows of the matrix.',
  'all ellpack matrices, graphs, node lists, schedules', 'graph shapes and schedules cannot be enumerated',
  [E+'bml_submatrix_ellpack_typed.c'])
p('Matrices distributed by rows over MPI ranks',
  'In distributed mode every rank computes the rows of its domain; bml_allGatherVParallel gives every rank all rows. For the domains the library makes, addition, products, elementwise product, threshold, scaling, shift, normalization leave the rows of the result on their owners, and the sums (min, max) over the ranks of the local traces, norms and Gershgorin bounds are those of the whole matrix, as in a run on one rank.',
  'all numbers of ranks, sizes, matrices, domains, schedules of every rank, reduction orders', 'numbers of ranks, domains and schedules cannot be enumerated; no test runs this mode with more than one rank on all operations',
  ['src/C-interface/bml_parallel.c', 'src/C-interface/bml_allocate.c', E+'bml_parallel_ellpack_typed.c', E+'bml_multiply_ellpack_typed.c', E+'bml_add_ellpack_typed.c', E+'bml_normalize_ellpack_typed.c', D+'bml_parallel_dense_typed.c', D+'bml_add_dense_typed.c'])
p('Diagonalisation',
  'bml_diagonalize on a symmetric (real) or Hermitian (complex) matrix returns the eigenvalues in ascending order and a unitary matrix whose columns are the eigenvectors of the matrix, in the dense, ellpack, csr and ellblock formats, provided LAPACK keeps its promise; it never touches memory outside the matrices.',
  'all N, matrices, LAPACK routines meeting their contract, schedules', 'layout conventions (row- against column-major) are invisible for the real symmetric matrices the tests use; sizes are unbounded',
  [D+'bml_diagonalize_dense.c', E+'bml_diagonalize_ellpack_typed.c', C+'bml_diagonalize_csr_typed.c', B+'bml_diagonalize_ellblock_typed.c'])
p('Inverse',
  'bml_inverse of an invertible matrix returns the inverse in the dense, ellpack, csr and ellblock formats, provided LAPACK keeps its promise; a singular matrix is reported.',
  'all N, invertible matrices, LAPACK routines meeting their contract, schedules', 'unbounded data',
  [D+'bml_inverse_dense_typed.c', E+'bml_inverse_ellpack_typed.c', C+'bml_inverse_csr_typed.c', B+'bml_inverse_ellblock_typed.c'])
p('Typed element getters',
  'bml_get_element_{single,double}_{real,complex} (behind bml_get_element of the Fortran interface) return the element (i,j) of the matrix, in every format and precision, and stop with an error for indices out of range.',
  'all matrices, formats, precisions, i, j', 'each precision has its own copy of the loop; which copies agree depends on the sparsity pattern of row 0',
  [I+'bml_elemental.c', E+'bml_elemental_ellpack.c', D+'bml_elemental_dense.c'])
p('Fortran interface: arrays, indices, matrix variables',
  'Importing a Fortran array a gives the matrix with the element a(i,j) in row i and column j (counted from 1), exporting returns it; bml_set_element, bml_set_row, bml_get_row, bml_get_diagonal count from 1. Missing optional arguments mean threshold 0, alpha 1, beta 0. Every sequence of calls leaves each matrix variable null or holding a matrix of its own, never a freed one, and no matrix is lost.',
  'all arrays and array sections, formats, sizes, thresholds, sequences of calls', 'sizes, array descriptors and sequences of calls are unbounded',
  ['src/Fortran-interface/bml_import_m.F90', 'src/Fortran-interface/bml_export_m.F90', 'src/Fortran-interface/bml_getters_m.F90', 'src/Fortran-interface/bml_setters_m.F90', 'src/Fortran-interface/bml_copy_m.F90', 'src/Fortran-interface/bml_transpose_m.F90', 'src/Fortran-interface/bml_types_m.F90'])
p('Fortran interface: names and codes',
  'The codes the Fortran interface sends for matrix types, precisions and distribution modes are those of the C enumerations, and the names returned by bml_get_type, bml_get_deep_type, bml_get_distribution_mode, bml_get_element_type, bml_get_element_precision for a matrix are the names it was made with. File names are passed without trailing blanks.',
  'all types, precisions, modes, strings', 'the enumerations are kept in step by hand; no test queries a csr matrix, a complex matrix or a graph-distributed one through Fortran',
  ['src/Fortran-interface/bml_interface_m.F90', 'src/Fortran-interface/bml_introspection_m.F90', 'src/Fortran-interface/bml_fc_tools_m.F90', I+'bml_types.h'])
p('Rounding errors',
  'With every addition and multiplication rounded (error at most u times the result or, where it underflows, u times the smallest normal number), the computed trace, sum of squares, alpha A + beta B, alpha A B + beta C and alpha op(A) op(B) + beta C of real dense matrices and the trace, sum of squares, sum and product of real ellpack matrices differ from the exact values by at most ((1+u)^k - 1) times the same expression in the absolute values (plus a multiple of the smallest normal number), plus the threshold where one applies; k is the number of terms plus a small constant, for the ellpack product the number of elements of the row. Single and double precision have u = 2^-24 and 2^-53.',
  'all matrices, sizes, schedules, orders of combining threads, rounding functions', 'tests compare with a fixed tolerance for a few matrices',
  ['src/internal-blas/bml_gemm.c', D+'bml_add_dense_typed.c', D+'bml_multiply_dense_typed.c', D+'bml_trace_dense_typed.c', D+'bml_norm_dense_typed.c', E+'bml_add_ellpack_typed.c', E+'bml_multiply_ellpack_typed.c', E+'bml_trace_ellpack_typed.c', E+'bml_norm_ellpack_typed.c'])
p('Schedules and rounding',
  'Computed with rounding, results do not depend on the number of threads, on which thread does which iteration, nor on the order in which a reduction combines the threads.',
  'all matrices, schedules, orders', 'the order of a reduction changes from run to run and cannot be set by a test',
  [D+'bml_trace_dense_typed.c', E+'bml_add_ellpack_typed.c', E+'bml_multiply_ellpack_typed.c'])
p('Memory: no leak, no double free',
  'Every function frees the objects it allocates except those that belong to the matrix or array it returns; bml_deallocate frees exactly the objects of the matrix. So a program that deallocates every matrix and array it received leaves nothing allocated, and no call frees an object twice or one it does not own.',
  'all sequences of calls, formats dense, ellpack, csr and distributed2d over them, sizes, patterns of row growth, allocators', 'leaks do not change results; the suite runs without a leak checker, and sequences of calls are unbounded',
  [I+'bml_allocate.c', D+'bml_allocate_dense.c', E+'bml_allocate_ellpack.c', E+'bml_transpose_ellpack_typed.c', E+'bml_submatrix_ellpack.c', C+'bml_allocate_csr_typed.c', C+'bml_submatrix_csr_typed.c', G+'bml_export_distributed2d_typed.c', G+'bml_getters_distributed2d_typed.c', G+'bml_convert_distributed2d.c'])
p('Memory of ellblock matrices',
  'At any time the live blocks of an ellblock matrix are those in the slots in use, so that bml_deallocate, which frees the blocks in use, frees all of them, each once.',
  'all matrices, block sizes, calls', 'the result of a call does not show which blocks are live',
  [B+'bml_allocate_ellblock.c', B+'bml_add_ellblock_typed.c', B+'bml_copy_ellblock_typed.c', B+'bml_threshold_ellblock_typed.c', B+'bml_transpose_ellblock_typed.c'])
p('Integer overflow in indices and sizes',
  'For every matrix whose dimensions are ints and whose arrays fit in memory, the index of every element and the size of every array is computed without overflow of int.',
  'all N, M, i < N, j < M, element sizes', 'matrices with more than 2^31 elements are out of reach of a test suite',
  ['src/macros.h', D+'bml_allocate_dense_typed.c', D+'bml_diagonalize_dense.c', E+'bml_allocate_ellpack_typed.c', E+'bml_introspection_ellpack_typed.c', C+'bml_introspection_csr_typed.c', B+'bml_copy_ellblock_typed.c', B+'bml_add_ellblock_typed.c', G+'bml_import_distributed2d_typed.c', G+'bml_introspection_distributed2d.c'])
p('Data races',
  'In a parallel loop no two threads access the same memory cell at the same time with one of them writing, whatever the interleaving of the single reads and writes of the threads; so the loop can be treated as if its iterations (or critical sections) were atomic, it does not deadlock and its result is the same in every interleaving.',
  'all matrices, schedules, numbers of threads, interleavings of single accesses', 'a run shows one interleaving out of exponentially many, and races seldom change the result of a small test',
  [E+'bml_multiply_ellpack_typed.c', E+'bml_add_ellpack_typed.c', E+'bml_threshold_ellpack_typed.c', E+'bml_import_ellpack_typed.c', E+'bml_export_ellpack_typed.c', E+'bml_trace_ellpack_typed.c', E+'bml_transpose_ellpack_typed.c', E+'bml_adjungate_triangle_ellpack_typed.c', E+'bml_allocate_ellpack_typed.c', E+'bml_norm_ellpack_typed.c', D+'bml_transpose_dense_typed.c', D+'bml_adjungate_triangle_dense_typed.c', D+'bml_threshold_dense_typed.c', D+'bml_element_multiply_dense_typed.c', D+'bml_trace_dense_typed.c', D+'bml_norm_dense_typed.c', C+'bml_scale_csr_typed.c', C+'bml_threshold_csr_typed.c', C+'bml_norm_csr_typed.c', C+'bml_trace_csr_typed.c', C+'bml_export_csr_typed.c', C+'bml_allocate_csr_typed.c', C+'bml_normalize_csr_typed.c'])
p('Values in Matrix Market files',
  'A number written by bml_write_bml_matrix and read by bml_read_bml_matrix is the number that was written, in every precision; and writing the matrix that was read gives the same file.',
  'all numbers of the types float and double (normal range), all matrices', 'there are 2^64 doubles, and the ones in a test matrix usually have few digits',
  [E+'bml_utilities_ellpack_typed.c', C+'bml_utilities_csr_typed.c', D+'bml_utilities_dense_typed.c', B+'bml_utilities_ellblock_typed.c'])
if __name__=='__main__':
    out=os.path.join(os.path.dirname(os.path.abspath(__file__)),'..','properties.jsonl')
    with open(out,'w') as f:
        for x in P: f.write(json.dumps(x)+'\n')
    print(len(P))
