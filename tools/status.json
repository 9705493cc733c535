{
 "C01": [
  "proved",
  ""
 ],
 "C02": [
  "partial",
  "False as stated: rows with at most 2 entries get a duplicate entry (refuted theorem). The remaining cases are proved."
 ],
 "C03": [
  "proved",
  ""
 ],
 "C04": [
  "proved",
  ""
 ],
 "C05": [
  "proved",
  ""
 ],
 "C06": [
  "proved",
  "C a different object than A and B; false when all three are the same object (refuted theorem)."
 ],
 "C07": [
  "proved",
  ""
 ],
 "C09": [
  "proved",
  "ellpack and csr"
 ],
 "C13": [
  "partial",
  "csr: proved. ellpack: proved when every row has a stored diagonal or a free slot; a full row without a diagonal is out of bounds (refuted theorem). dense: proved."
 ],
 "C21": [
  "proved",
  "ellpack and csr dense: proved."
 ],
 "C08": [
  "proved",
  "ellpack and csr: error bound, preservation above t, idempotence of threshold (ellpack also threshold_new), and for ellpack the bounds for add and multiply_AB, over the real numbers. csr threshold_new is C27. dense: threshold error bound, preservation, idempotence."
 ],
 "C10": [
  "partial",
  "csr: proved for every pattern. ellpack: proved when the symmetrised pattern fits in M; refuted when only the result fits (cyclic permutation with M = 1)."
 ],
 "C11": [
  "partial",
  "csr: proved. ellpack: trace_mult is the elementwise sum, equal to tr(AB) only for symmetric B; refuted in general, and an empty row of B is an uninitialised read. dense: elementwise sum, equal to tr(AB) for symmetric B, refuted in general."
 ],
 "C17": [
  "partial",
  "ellpack: proved for equal M, equal empty rows and no stored zeros in A; three refuted cases. dense: proved for traces without interleaving inside an iteration; a race on the shared temporary is refuted."
 ],
 "C18": [
  "proved",
  "ellpack, csr, dense (schedules and max/min reductions) and distributed2d (every number of tasks, every order of the reductions), ellblock (any block sizes); real eigenvalues."
 ],
 "C19": [
  "partial",
  "ellpack and csr: exact unless every disc ends below DBL_MIN; refuted for the matrix (-1) (emax starts at DBL_MIN, the smallest positive double). dense: same as the other formats. distributed2d: same, on every grid. ellblock: same partial theorem and refutation."
 ],
 "C20": [
  "partial",
  "csr: proved when the bounds differ. ellpack: in addition every row needs a stored diagonal or a free slot; the 1x1 identity has equal bounds (division by zero). dense: proved when the bounds differ. distributed2d: proved when the bounds differ. ellblock: proved for blocks of one size, the own default sizes and room for the diagonal block of every block row; equal bounds refuted."
 ],
 "C22": [
  "partial",
  "invariant proved for every guarded program over 22 API calls; refuted without the guard (set_element duplicates, overflow past M)."
 ],
 "C47": [
  "partial",
  "terminates after one pass if the exact product fits, otherwise diverges (general theorem and concrete witness)."
 ],
 "C50": [
  "proved",
  "ellpack and csr multiply_AB, multiply_x2, element_multiply (and ellpack add, csr threshold) give identical stored rows for all schedules; the other parallel loops are proved correct for every schedule in their own property."
 ],
 "C53": [
  "proved",
  "dense, ellpack, csr and distributed2d, thresholds >= 0 (keep 0 = false); ellblock counts in C61."
 ],
 "C12": [
  "proved",
  "ellpack, csr, dense for every schedule; ellblock and distributed2d (every number of tasks, every order of the reduction) as well."
 ],
 "C14": [
  "partial",
  "ellpack and csr: scale, copy_new proved; csr copy stops with an error when a row of the target is too small (proved exactly when, with a witness). dense: proved."
 ],
 "C15": [
  "partial",
  "ellpack. dense: refuted (only the columns move, in the inverse direction); what it computes is proved."
 ],
 "C16": [
  "partial",
  "ellpack and dense: proved. csr: sum_AB and sum_squares2 proved for rows of at most table_max entries (the hash table grows no further). dense sum_squares_submatrix differs from the other formats (refuted). ellblock: row sums and Frobenius norm proved."
 ],
 "C24": [
  "proved",
  "single calls and every history of calls from the zero matrix."
 ],
 "C25": [
  "partial",
  "proved when no row has to grow; refuted otherwise (use of a freed array), and refuted for A == B."
 ],
 "C26": [
  "proved",
  "multiply_AB, multiply_x2 for every input; the alpha/beta variants inherit the restriction of csr add."
 ],
 "C27": [
  "partial",
  "proved when each row keeps at most one entry; refuted otherwise."
 ],
 "C28": [
  "partial",
  "proved for all histories up to capacity and all table sizes up to 174762; larger sizes read past the array of sizes (refuted)."
 ],
 "C34": [
  "partial",
  "extract: proved for ellpack, csr, dense. assign: dense proved; ellpack and csr proved into a block without stored entries, refuted otherwise (a second entry is appended). ellblock: whole blocks are extracted and assigned; proved for blocks with the sizes of the stored defaults and, for assign, rows without blocks; refuted otherwise (the result takes its size from the defaults, not from the request; other block sizes run past the block; assign puts a second block beside an existing one)."
 ],
 "C51": [
  "partial",
  "ellpack and csr. dense: proved."
 ],
 "C52": [
  "partial",
  "ellpack and csr; csr get_element does not check the column (refuted). dense: constructors proved; get_element accepts out-of-range indices (refuted). The random constructors of ellpack and csr are proved too."
 ],
 "C54": [
  "partial",
  "invariant and absence of undefined behaviour for every guarded program over 25 csr API calls; the guards exclude the defects of C25, C27, C34."
 ],
 "C55": [
  "proved",
  ""
 ],
 "C29": [
  "proved",
  "All four N/T combinations, all sizes, alpha, beta. Padding (lda > rows) and conjugation for flag C are refuted in separate theorems."
 ],
 "C30": [
  "partial",
  "multiply, multiply_AB, multiply_x2 proved for N > 0; N = 0 is rejected with an error; multiply_adjust_AB stores the transpose of the product (refuted theorem)."
 ],
 "C31": [
  "proved",
  "Every listed function, any schedule of its parallel loops. With A == B bml_add gives alpha(1+beta)A (refuted theorem for the aliased call)."
 ],
 "C49": [
  "partial",
  "dense: both triangles proved for any conjugation. ellpack: proved when the target triangle holds no entries and M >= N, any schedule; refuted when it holds entries (duplicates) and when M < N (lock array overrun). csr: the function is not implemented."
 ],
 "C23": [
  "proved",
  "default domain (sequential, distributed) and update_domain; integers unbounded, minLocalExtent/maxLocalExtent not modelled"
 ],
 "C32": [
  "proved",
  "Exact between any two of dense, ellpack, csr and ellblock, for ellpack with M >= N, and there and back. Outside the statement: with M < N every conversion to ellpack overruns its arrays (c32_convert_ellpack_overruns). distributed2d: conversion of the blocks keeps the matrix."
 ],
 "C33": [
  "partial",
  "dense, ellpack, csr: per call and for whole programs, and what the programs compute; ellblock: the same programs compute the same numbers unless they multiply elementwise or add to a transposed or squared matrix. Refuted for trace_mult, the norm of add_norm, the threshold argument with dense, and the elementwise product in ellblock."
 ],
 "C37": [
  "proved",
  "For every p x p grid, block size, interleaving of the tasks, and all three block formats: alpha A B + beta C when no nonzero element is thresholded. With a threshold the sparse formats lose partial products (refuted theorem)."
 ],
 "C38": [
  "partial",
  "set_row proved; get_row is right on 1 and 4 tasks and wrong on every larger grid in every format (refuted theorem)."
 ],
 "C39": [
  "partial",
  "identity, zero and set_diagonal proved; add_identity and scale_add_identity add the identity to every block, refuted on every grid of more than one task."
 ],
 "C40": [
  "proved",
  "transposes (every execution), trace, sums, elementwise operations, gershgorin, normalize, Frobenius norm: value for the global matrix, every grid. Besides: trace_mult of csr blocks refuted, add_norm of csr blocks not implemented."
 ],
 "C41": [
  "partial",
  "Row-major import, export and the round trip in either order proved; column-major import transposes the blocks (refuted) and an imported matrix has no precision set."
 ],
 "C56": [
  "proved",
  ""
 ],
 "C57": [
  "proved",
  ""
 ],
 "C42": [
  "partial",
  "Refuted as stated: the default block sizes of the first matrix are used for every later one, so a later matrix has the size of the first (c42_size_refuted, for all N, n) or the call stops; a first call of bml_noinit_matrix stops. Proved: the first matrix is right; what a whole history of constructor calls produces (c42_history_actual); the identity."
 ],
 "C43": [
  "proved",
  "Every history of set_element calls on a matrix without stale pointers (what constructors, import and copy produce), any block sizes; with enough room it never stops, otherwise the exact outcome when a row is full. For other calls in between see C46."
 ],
 "C44": [
  "partial",
  "Refuted: elements of the new row that are not above the threshold keep their old value, and a row with more blocks than slots is written into the next row or past the end. Proved: what it computes (c44_set_row_actual) and the claim for rows that were zero."
 ],
 "C45": [
  "partial",
  "multiply_AB and multiply_x2 proved for every well-formed input with blocks of at most 6 rows, any schedule, including the outcome when a row is full; trace(X^2) refuted for blocks of different sizes and proved for equal sizes. alpha A B + beta C proved for blocks of one size, or a new C with any sizes."
 ],
 "C46": [
  "partial",
  "The in-place transpose itself is proved for every well-formed matrix with room. Refuted: a following set_element may stop and a following bml_add overwrites another block; the same after bml_clear and bml_multiply_x2 (use of freed memory)."
 ],
 "C58": [
  "partial",
  "Proved when every kept block fits the slot it is put in, in particular for blocks of one size. Refuted otherwise (heap overflow); add_identity refuted for converted matrices whose number of slots differs from the default. add_norm: proved that it returns when the slots exist, the matrix and the number it does return; that the number is the squared norm is refuted (squares of block sums), blocks of B without a slot in A crash (refuted), blocks of more than 25 elements overrun (refuted)."
 ],
 "C59": [
  "proved",
  "In-place threshold is stated with the room its merging of slots needs; blocks may have different sizes. copy_new stops when a block has 10 or more rows."
 ],
 "C60": [
  "proved",
  "Import into default sizes of N rows (see C42 for other sizes)."
 ],
 "C61": [
  "partial",
  "trace, trace_mult (c45), sum_squares, sum_squares2, sparsity, bandwidth proved. bml_sum_AB adds absolute values (refuted, actual result proved); bml_fnorm2 reads an uninitialised pointer when a block row of one matrix is empty (refuted)."
 ],
 "C35": [
  "partial",
  "proved when all rows store their diagonal or none does, both bases, any schedules; refuted otherwise (only row 0 is inspected): wrong offsets or writes outside. The variant for listed nodes is proved; its 1-based form needs one extra element (refuted without)."
 ],
 "C36": [
  "partial",
  "no wrong connection for any schedule; all connections when every thread runs at most one row; refuted for threads that run several rows (the marker array is never reset). The code path for IBM compilers resets it and is proved for every schedule."
 ],
 "C62": [
  "partial",
  "index list, extraction, assembly and round trip proved when the rows read hold at least one entry; an empty row is refuted (uninitialised vector). A row with too many kept elements is written before the length check (refuted)."
 ],
 "C48": [
  "proved",
  "Any writer followed by any reader into an empty matrix, for all matrices and any value rendering fmt with fmt 0 = 0 (exact rendering: fmt = identity); room in the rows is required for ellpack and MB >= NB for ellblock. Beyond the property: symmetric files are read correctly by ellpack and csr only; the digits written do not restore every double (refuted)."
 ],
 "C63": [
  "partial",
  "proved for ellpack and dense; refuted for bml_add_dense with more than one rank (byte offset); bml_trace_mult and bml_fnorm2 need rows stored in both matrices, as on one rank; a product needs its second factor on every rank"
 ],
 "C64": [
  "partial",
  "proved for real symmetric matrices where the rows (blocks) of the eigenvectors fit; refuted for complex matrices: the vectors returned are the conjugates of the eigenvectors, because the row-major array is given to LAPACK as a column-major one; ellpack with M < N overruns, csr stops when the target rows are short. LAPACK itself is a parameter with a stated contract"
 ],
 "C65": [
  "partial",
  "proved where the rows of the inverse fit; refuted: ellpack with M < N loses elements, a singular matrix is not reported. LAPACK itself is a parameter with a stated contract"
 ],
 "C66": [
  "partial",
  "proved for dense and for ellpack in single real precision; refuted for ellpack in the three other precisions (the column indices of row 0 are searched instead of those of row i) and for csr and ellblock (no case in the dispatch)"
 ],
 "C67": [
  "partial",
  "proved for whole square arrays, all formats but ellblock, all sequences of the modelled calls; refuted for array sections (the elements behind the first one in memory are taken) and for arrays with fewer columns than rows (read beyond the end)"
 ],
 "C68": [
  "partial",
  "codes sent are proved; refuted: bml_get_type stops on csr and calls distributed matrices csr, bml_get_distribution_mode stops on graph_distributed, bml_get_element_precision stops on complex matrices"
 ],
 "C69": [
  "proved",
  "rounding, with gradual underflow, is a function on the reals: overflow is excluded, and so are fused operations and reassociation by the compiler"
 ],
 "C70": [
  "partial",
  "refuted for reductions (the trace in double precision depends on the number of threads and on the order of combining them), with a bound of the difference; proved for the ellpack sum and product"
 ],
 "C71": [
  "partial",
  "proved for programs over import, export, copy, product, sum, inverse, diagonalization, reorder, set_row in the dense, ellpack and csr formats and for the distributed2d functions listed, with any allocator and any growth of csr rows; refuted for ellpack transpose_new and adjacency_group, csr extract_submatrix, distributed2d export, get_row and convert, each with the exact number of objects lost. Which functions allocate what is transcribed from the code; contents are not in this model"
 ],
 "C72": [
  "partial",
  "deallocate, the constructors, set_element, set_row, set_diagonal, set_block, scale, threshold, clear and the in-place transpose are proved to keep the property; refuted for add and copy. multiply, the five arrays of the struct and the work arrays are not covered"
 ],
 "C73": [
  "partial",
  "sizes written sizeof first are right for all dimensions; indices and sizes computed in int first are right exactly up to 2^31 elements and refuted beyond. The expressions are transcribed site by site; the rest of the development keeps its unbounded indices"
 ],
 "C74": [
  "partial",
  "proved for ellpack multiply_AB, multiply_x2, add, threshold, import, export, trace, sum_squares and transpose_new (locks), and for dense transpose (in place and new), triangle transpose/adjungate, threshold (in place and new), element_multiply, trace, trace_mult and sum_squares, and for csr scale_inplace, threshold, sum_squares (whole and submatrix), trace, trace_mult, export and gershgorin; refuted for adjungate 'u', the banded constructors of ellpack and csr (rand), multiply_AB with C == B, multiply_x2 with X2 == X or a row that does not fit, and dense fnorm2 (shared temp); csr loops that make rows grow, and the loops of ellblock, are not done at this level"
 ],
 "C75": [
  "partial",
  "float: proved for every value, read directly or through a double, and for whole matrices in four formats. double: refuted (15 digits, 16 in ellblock, are too few: 1 + 2^-52 comes back as 1); proved instead: the error is at most 6e-15 of the value, whole numbers below 10^15 are exact, and with 15 digits the second file is equal to the first (values in the normal range). Correct rounding of fprintf/fscanf is assumed"
 ]
}