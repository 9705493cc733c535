{
 "claims": [
  {
   "property": "C01",
   "status": "proved",
   "theorems": [
    "c01_ellpack_set_row_get_row"
   ],
   "note": ""
  },
  {
   "property": "C02",
   "status": "partial",
   "theorems": [
    "c02_ellpack_set_element_partial",
    "c02_ellpack_set_element_refuted",
    "c02_set_element_new",
    "c02_set_element_new_refuted",
    "c02_set_element_new_full_refuted"
   ],
   "note": "False as stated: rows with at most 2 entries get a duplicate entry (refuted theorem). The remaining cases are proved."
  },
  {
   "property": "C03",
   "status": "proved",
   "theorems": [
    "c03_ellpack_import_export"
   ],
   "note": ""
  },
  {
   "property": "C04",
   "status": "proved",
   "theorems": [
    "c04_ellpack_add",
    "c04_ellpack_add_same_object",
    "c04_ellpack_add_norm"
   ],
   "note": ""
  },
  {
   "property": "C05",
   "status": "proved",
   "theorems": [
    "c05_ellpack_multiply_AB"
   ],
   "note": ""
  },
  {
   "property": "C06",
   "status": "proved",
   "theorems": [
    "c06_ellpack_multiply",
    "c06_ellpack_multiply_same_object",
    "c06_ellpack_multiply_exact",
    "c06_ellpack_multiply_same_object_exact",
    "c06_ellpack_multiply_all_same_refuted"
   ],
   "note": "C a different object than A and B; false when all three are the same object (refuted theorem)."
  },
  {
   "property": "C07",
   "status": "proved",
   "theorems": [
    "c07_ellpack_multiply_x2"
   ],
   "note": ""
  },
  {
   "property": "C08",
   "status": "proved",
   "theorems": [
    "c08_csr_threshold",
    "c08_csr_threshold_bound",
    "c08_dense_threshold_bound",
    "c08_ellpack_threshold",
    "c08_ellpack_threshold_new",
    "c08_ellpack_threshold_bound",
    "c08_ellpack_threshold_new_bound",
    "c08_ellpack_add_bound",
    "c08_ellpack_multiply_AB_bound"
   ],
   "note": "ellpack and csr: error bound, preservation above t, idempotence of threshold (ellpack also threshold_new), and for ellpack the bounds for add and multiply_AB, over the real numbers. csr threshold_new is C27. dense: threshold error bound, preservation, idempotence."
  },
  {
   "property": "C09",
   "status": "proved",
   "theorems": [
    "c09_csr_transpose_new",
    "c09_ellpack_transpose_new"
   ],
   "note": "ellpack and csr"
  },
  {
   "property": "C10",
   "status": "partial",
   "theorems": [
    "c10_csr_transpose",
    "c10_ellpack_transpose_partial",
    "c10_ellpack_transpose_refuted"
   ],
   "note": "csr: proved for every pattern. ellpack: proved when the symmetrised pattern fits in M; refuted when only the result fits (cyclic permutation with M = 1)."
  },
  {
   "property": "C11",
   "status": "partial",
   "theorems": [
    "c11_csr_trace_mult",
    "c11_dense_trace_mult_partial",
    "c11_dense_trace_mult_symmetric_partial",
    "c11_dense_trace_mult_rejects",
    "c11_dense_trace_mult_refuted",
    "c11_ellpack_trace_mult_partial",
    "c11_ellpack_trace_mult_symmetric_partial",
    "c11_ellpack_trace_mult_refuted",
    "c11_ellpack_trace_mult_uninitialised_refuted"
   ],
   "note": "csr: proved. ellpack: trace_mult is the elementwise sum, equal to tr(AB) only for symmetric B; refuted in general, and an empty row of B is an uninitialised read. dense: elementwise sum, equal to tr(AB) for symmetric B, refuted in general."
  },
  {
   "property": "C12",
   "status": "proved",
   "theorems": [
    "c12_csr_trace",
    "c12_dense_trace",
    "c12_dist2d_trace",
    "c12_ellblock_trace",
    "c12_ellpack_trace"
   ],
   "note": "ellpack, csr, dense for every schedule; ellblock and distributed2d (every number of tasks, every order of the reduction) as well."
  },
  {
   "property": "C13",
   "status": "partial",
   "theorems": [
    "c13_csr_add_identity",
    "c13_csr_scale_add_identity",
    "c13_dense_add_identity",
    "c13_dense_scale_add_identity",
    "c13_ellpack_add_identity",
    "c13_ellpack_scale_add_identity",
    "c13_ellpack_add_identity_refuted"
   ],
   "note": "csr: proved. ellpack: proved when every row has a stored diagonal or a free slot; a full row without a diagonal is out of bounds (refuted theorem). dense: proved."
  },
  {
   "property": "C14",
   "status": "partial",
   "theorems": [
    "c14_csr_scale_inplace",
    "c14_csr_scale_new",
    "c14_csr_scale",
    "c14_csr_copy_new",
    "c14_csr_copy",
    "c14_csr_copy_error_refuted",
    "c14_dense_scale_inplace",
    "c14_dense_scale_new",
    "c14_dense_scale",
    "c14_dense_copy_new",
    "c14_dense_copy",
    "c14_ellpack_scale_inplace",
    "c14_ellpack_scale",
    "c14_ellpack_scale_new",
    "c14_ellpack_copy",
    "c14_ellpack_copy_new"
   ],
   "note": "ellpack and csr: scale, copy_new proved; csr copy stops with an error when a row of the target is too small (proved exactly when, with a witness). dense: proved."
  },
  {
   "property": "C15",
   "status": "partial",
   "theorems": [
    "c15_dense_reorder_partial",
    "c15_dense_reorder_refuted",
    "c15_ellpack_reorder"
   ],
   "note": "ellpack. dense: refuted (only the columns move, in the inverse direction); what it computes is proved."
  },
  {
   "property": "C16",
   "status": "partial",
   "theorems": [
    "c16_csr_sum_squares",
    "c16_csr_sum_squares_submatrix",
    "c16_csr_sum_AB",
    "c16_csr_sum_squares2",
    "c16_dense_sum_squares",
    "c16_dense_sum_AB",
    "c16_dense_sum_squares2",
    "c16_dense_sum_squares_submatrix_partial",
    "c16_dense_sum_squares_submatrix_refuted",
    "c16_ellblock_row_sums",
    "c16_ellblock_fnorm",
    "c16_ellpack_sum_squares",
    "c16_ellpack_sum_squares_submatrix",
    "c16_ellpack_sum_AB",
    "c16_ellpack_sum_squares2"
   ],
   "note": "ellpack and dense: proved. csr: sum_AB and sum_squares2 proved for rows of at most table_max entries (the hash table grows no further). dense sum_squares_submatrix differs from the other formats (refuted). ellblock: row sums and Frobenius norm proved."
  },
  {
   "property": "C17",
   "status": "partial",
   "theorems": [
    "c17_dense_fnorm2_partial",
    "c17_dense_fnorm2_race_refuted",
    "c17_ellpack_fnorm2_partial",
    "c17_ellpack_fnorm2_uninitialised_refuted",
    "c17_ellpack_fnorm2_stored_zero_refuted",
    "c17_ellpack_fnorm2_different_M_refuted"
   ],
   "note": "ellpack: proved for equal M, equal empty rows and no stored zeros in A; three refuted cases. dense: proved for traces without interleaving inside an iteration; a race on the shared temporary is refuted."
  },
  {
   "property": "C18",
   "status": "proved",
   "theorems": [
    "c18_csr_gershgorin_bounds",
    "c18_dense_gershgorin_bounds",
    "c18_dist2d_gershgorin_bounds",
    "c18_ellblock_gershgorin_bounds",
    "c18_ellpack_gershgorin_bounds"
   ],
   "note": "ellpack, csr, dense (schedules and max/min reductions) and distributed2d (every number of tasks, every order of the reductions), ellblock (any block sizes); real eigenvalues."
  },
  {
   "property": "C19",
   "status": "partial",
   "theorems": [
    "c19_csr_gershgorin_exact_partial",
    "c19_csr_gershgorin_refuted",
    "c19_csr_accumulate_offdiag",
    "c19_dense_gershgorin_exact_partial",
    "c19_dense_gershgorin_refuted",
    "c19_dense_accumulate_offdiag",
    "c19_dist2d_gershgorin_exact_partial",
    "c19_dist2d_gershgorin_refuted",
    "c19_ellblock_gershgorin_partial",
    "c19_ellblock_gershgorin_refuted",
    "c19_ellpack_gershgorin_exact_partial",
    "c19_ellpack_gershgorin_refuted",
    "c19_ellpack_accumulate_offdiag"
   ],
   "note": "ellpack and csr: exact unless every disc ends below DBL_MIN; refuted for the matrix (-1) (emax starts at DBL_MIN, the smallest positive double). dense: same as the other formats. distributed2d: same, on every grid. ellblock: same partial theorem and refutation."
  },
  {
   "property": "C20",
   "status": "partial",
   "theorems": [
    "c20_csr_normalize_partial",
    "c20_csr_normalize_equal_bounds_refuted",
    "c20_dense_normalize_partial",
    "c20_dense_normalize_equal_bounds_refuted",
    "c20_dist2d_normalize_partial",
    "c20_dist2d_normalize_equal_bounds_refuted",
    "c20_ellblock_normalize_partial",
    "c20_ellblock_normalize_equal_bounds_refuted",
    "c20_ellpack_normalize_partial",
    "c20_ellpack_normalize_equal_bounds_refuted"
   ],
   "note": "csr: proved when the bounds differ. ellpack: in addition every row needs a stored diagonal or a free slot; the 1x1 identity has equal bounds (division by zero). dense: proved when the bounds differ. distributed2d: proved when the bounds differ. ellblock: proved for blocks of one size, the own default sizes and room for the diagonal block of every block row; equal bounds refuted."
  },
  {
   "property": "C21",
   "status": "proved",
   "theorems": [
    "c21_csr_element_multiply",
    "c21_dense_element_multiply_AB",
    "c21_ellpack_element_multiply"
   ],
   "note": "ellpack and csr dense: proved."
  },
  {
   "property": "C22",
   "status": "partial",
   "theorems": [
    "c22_ellpack_history_partial",
    "c22_ellpack_history_duplicate_refuted",
    "c22_ellpack_history_overflow_refuted",
    "c22_clear"
   ],
   "note": "invariant proved for every guarded program over 22 API calls; refuted without the guard (set_element duplicates, overflow past M)."
  },
  {
   "property": "C23",
   "status": "proved",
   "theorems": [
    "c23_default_domain_partition",
    "c23_sequential_domain_full",
    "c23_update_domain_partition",
    "c23_save_update_restore"
   ],
   "note": "default domain (sequential, distributed) and update_domain; integers unbounded, minLocalExtent/maxLocalExtent not modelled"
  },
  {
   "property": "C24",
   "status": "proved",
   "theorems": [
    "c24_csr_set_element",
    "c24_csr_set_element_history"
   ],
   "note": "single calls and every history of calls from the zero matrix."
  },
  {
   "property": "C25",
   "status": "partial",
   "theorems": [
    "c25_csr_add_partial",
    "c25_csr_add_stale_pointer_refuted",
    "c25_csr_add_self_partial",
    "c25_csr_add_self_refuted"
   ],
   "note": "proved when no row has to grow; refuted otherwise (use of a freed array), and refuted for A == B."
  },
  {
   "property": "C26",
   "status": "proved",
   "theorems": [
    "c26_csr_multiply_AB",
    "c26_csr_multiply_x2",
    "c26_csr_multiply_partial",
    "c26_csr_multiply_sq_partial"
   ],
   "note": "multiply_AB, multiply_x2 for every input; the alpha/beta variants inherit the restriction of csr add."
  },
  {
   "property": "C27",
   "status": "partial",
   "theorems": [
    "c27_csr_threshold_new_partial",
    "c27_csr_threshold_new_refuted",
    "c27_csr_threshold_new_duplicates_refuted"
   ],
   "note": "proved when each row keeps at most one entry; refuted otherwise."
  },
  {
   "property": "C28",
   "status": "partial",
   "theorems": [
    "c28_csr_table_history",
    "c28_csr_table_size_refuted"
   ],
   "note": "proved for all histories up to capacity and all table sizes up to 174762; larger sizes read past the array of sizes (refuted)."
  },
  {
   "property": "C29",
   "status": "proved",
   "theorems": [
    "c29_gemm",
    "c29_gemm_rejects",
    "c29_gemm_ld_ignored",
    "c29_gemm_lda_refuted",
    "c29_gemm_conj_refuted"
   ],
   "note": "All four N/T combinations, all sizes, alpha, beta. Padding (lda > rows) and conjugation for flag C are refuted in separate theorems."
  },
  {
   "property": "C30",
   "status": "partial",
   "theorems": [
    "c30_dense_multiply_partial",
    "c30_dense_multiply_N0_refuted",
    "c30_dense_multiply_AB_partial",
    "c30_dense_multiply_x2_partial",
    "c30_dense_multiply_adjust_AB_partial",
    "c30_dense_multiply_adjust_AB_refuted"
   ],
   "note": "multiply, multiply_AB, multiply_x2 proved for N > 0; N = 0 is rejected with an error; multiply_adjust_AB stores the transpose of the product (refuted theorem)."
  },
  {
   "property": "C31",
   "status": "proved",
   "theorems": [
    "c31_dense_add",
    "c31_dense_add_norm",
    "c31_dense_add_self_partial",
    "c31_dense_add_self_refuted",
    "c31_dense_set_element",
    "c31_dense_get_element",
    "c31_dense_set_row",
    "c31_dense_get_row",
    "c31_dense_import",
    "c31_dense_export",
    "c31_dense_import_export",
    "c31_dense_transpose_new",
    "c31_dense_transpose",
    "c31_dense_threshold",
    "c31_dense_threshold_new"
   ],
   "note": "Every listed function, any schedule of its parallel loops. With A == B bml_add gives alpha(1+beta)A (refuted theorem for the aliased call)."
  },
  {
   "property": "C32",
   "status": "proved",
   "theorems": [
    "c32_dist2d_convert",
    "c32_convert",
    "c32_convert_elements",
    "c32_convert_roundtrip",
    "c32_convert_ellpack_overruns",
    "c32_convert_ellpack_refuted",
    "c32_four_formats",
    "c32_four_formats_elements",
    "c32_four_formats_roundtrip"
   ],
   "note": "Exact between any two of dense, ellpack, csr and ellblock, for ellpack with M >= N, and there and back. Outside the statement: with M < N every conversion to ellpack overruns its arrays (c32_convert_ellpack_overruns). distributed2d: conversion of the blocks keeps the matrix."
  },
  {
   "property": "C33",
   "status": "partial",
   "theorems": [
    "c33_add",
    "c33_add_identity",
    "c33_scale_add_identity",
    "c33_multiply_AB",
    "c33_multiply",
    "c33_multiply_x2",
    "c33_element_multiply",
    "c33_transpose_new",
    "c33_transpose",
    "c33_scale_inplace",
    "c33_copy_new",
    "c33_threshold",
    "c33_set_diagonal",
    "c33_get_element",
    "c33_get_row",
    "c33_trace",
    "c33_sum_squares",
    "c33_sum_AB",
    "c33_sum_squares2",
    "c33_programs",
    "c33_programs_with_room",
    "c33_trace_mult_refuted",
    "c33_add_norm_refuted",
    "c33_threshold_argument_refuted",
    "c33_program_means",
    "c33_program_means_roomy",
    "c33_ellblock_means",
    "c33_ellblock_agree",
    "c33_ellblock_converted",
    "c33_ellblock_element_multiply_refuted"
   ],
   "note": "dense, ellpack, csr: per call and for whole programs, and what the programs compute; ellblock: the same programs compute the same numbers unless they multiply elementwise or add to a transposed or squared matrix. Refuted for trace_mult, the norm of add_norm, the threshold argument with dense, and the elementwise product in ellblock."
  },
  {
   "property": "C34",
   "status": "partial",
   "theorems": [
    "c34_csr_extract",
    "c34_csr_assign_partial",
    "c34_csr_assign_refuted",
    "c34_dense_extract_submatrix",
    "c34_dense_assign_submatrix",
    "c34_ellblock_extract_partial",
    "c34_ellblock_extract_size_refuted",
    "c34_ellblock_extract_sizes_refuted",
    "c34_ellblock_assign_partial",
    "c34_ellblock_assign_refuted",
    "c34_ellpack_extract",
    "c34_ellpack_assign_partial",
    "c34_ellpack_assign_extract_partial",
    "c34_ellpack_assign_refuted"
   ],
   "note": "extract: proved for ellpack, csr, dense. assign: dense proved; ellpack and csr proved into a block without stored entries, refuted otherwise (a second entry is appended). ellblock: whole blocks are extracted and assigned; proved for blocks with the sizes of the stored defaults and, for assign, rows without blocks; refuted otherwise (the result takes its size from the defaults, not from the request; other block sizes run past the block; assign puts a second block beside an existing one)."
  },
  {
   "property": "C35",
   "status": "partial",
   "theorems": [
    "c35_adjacency_partial",
    "c35_adjacency_refuted",
    "c35_adjacency_overrun_refuted",
    "c35_adjacency_negative_refuted",
    "c35_adjacency_group",
    "c35_adjacency_group_refuted"
   ],
   "note": "proved when all rows store their diagonal or none does, both bases, any schedules; refuted otherwise (only row 0 is inspected): wrong offsets or writes outside. The variant for listed nodes is proved; its 1-based form needs one extra element (refuted without)."
  },
  {
   "property": "C36",
   "status": "partial",
   "theorems": [
    "c36_group_matrix_partial",
    "c36_group_matrix_ibm",
    "c36_group_matrix_refuted"
   ],
   "note": "no wrong connection for any schedule; all connections when every thread runs at most one row; refuted for threads that run several rows (the marker array is never reset). The code path for IBM compilers resets it and is proved for every schedule."
  },
  {
   "property": "C37",
   "status": "proved",
   "theorems": [
    "c37_cannon",
    "c37_cannon_thresholded",
    "c37_threshold_refuted"
   ],
   "note": "For every p x p grid, block size, interleaving of the tasks, and all three block formats: alpha A B + beta C when no nonzero element is thresholded. With a threshold the sparse formats lose partial products (refuted theorem)."
  },
  {
   "property": "C38",
   "status": "partial",
   "theorems": [
    "c38_set_row",
    "c38_get_row_partial",
    "c38_get_row_actual",
    "c38_get_row_refuted"
   ],
   "note": "set_row proved; get_row is right on 1 and 4 tasks and wrong on every larger grid in every format (refuted theorem)."
  },
  {
   "property": "C39",
   "status": "partial",
   "theorems": [
    "c39_add_identity_actual",
    "c39_scale_add_identity_actual",
    "c39_add_identity_refuted",
    "c39_scale_add_identity_refuted",
    "c39_identity",
    "c39_zero",
    "c39_set_diagonal"
   ],
   "note": "identity, zero and set_diagonal proved; add_identity and scale_add_identity add the identity to every block, refuted on every grid of more than one task."
  },
  {
   "property": "C40",
   "status": "proved",
   "theorems": [
    "c40_transpose_new",
    "c40_transpose",
    "c40_trace",
    "c40_sum_squares",
    "c40_sum_AB",
    "c40_sum_squares2",
    "c40_trace_mult_dense",
    "c40_trace_mult_ellpack",
    "c40_trace_mult_csr_actual",
    "c40_trace_mult_csr_refuted",
    "c40_add",
    "c40_scale_inplace",
    "c40_threshold",
    "c40_threshold_new",
    "c40_copy_new",
    "c40_copy",
    "c40_scale",
    "c40_scale_new",
    "c40_add_norm_dense",
    "c40_add_norm_ellpack",
    "c40_add_norm_csr",
    "c40_fnorm"
   ],
   "note": "transposes (every execution), trace, sums, elementwise operations, gershgorin, normalize, Frobenius norm: value for the global matrix, every grid. Besides: trace_mult of csr blocks refuted, add_norm of csr blocks not implemented."
  },
  {
   "property": "C41",
   "status": "partial",
   "theorems": [
    "c41_import",
    "c41_export",
    "c41_round_trip",
    "c41_col_major_refuted",
    "c41_imported_unusable"
   ],
   "note": "Row-major import, export and the round trip in either order proved; column-major import transposes the blocks (refuted) and an imported matrix has no precision set."
  },
  {
   "property": "C42",
   "status": "partial",
   "theorems": [
    "c42_first",
    "c42_later_actual",
    "c42_history_actual",
    "c42_size_refuted",
    "c42_noinit_refuted",
    "c42_identity",
    "c42_noinit"
   ],
   "note": "Refuted as stated: the default block sizes of the first matrix are used for every later one, so a later matrix has the size of the first (c42_size_refuted, for all N, n) or the call stops; a first call of bml_noinit_matrix stops. Proved: the first matrix is right; what a whole history of constructor calls produces (c42_history_actual); the identity."
  },
  {
   "property": "C43",
   "status": "proved",
   "theorems": [
    "c43_get_element",
    "c43_get_element_range",
    "c43_get_row",
    "c43_get_diagonal",
    "c43_set_element",
    "c43_set_element_full",
    "c43_history",
    "c43_history_room",
    "c43_set_diagonal"
   ],
   "note": "Every history of set_element calls on a matrix without stale pointers (what constructors, import and copy produce), any block sizes; with enough room it never stops, otherwise the exact outcome when a row is full. For other calls in between see C46."
  },
  {
   "property": "C44",
   "status": "partial",
   "theorems": [
    "c44_set_row_actual",
    "c44_set_row_partial",
    "c44_set_row_refuted",
    "c44_set_row_overflow_refuted"
   ],
   "note": "Refuted: elements of the new row that are not above the threshold keep their old value, and a row with more blocks than slots is written into the next row or past the end. Proved: what it computes (c44_set_row_actual) and the claim for rows that were zero."
  },
  {
   "property": "C45",
   "status": "partial",
   "theorems": [
    "c45_multiply_AB",
    "c45_multiply_AB_full",
    "c45_multiply_x2",
    "c45_multiply_x2_full",
    "c45_trace_refuted",
    "c45_multiply",
    "c45_multiply_exact",
    "c45_multiply_new",
    "c45_multiply_square",
    "c45_square",
    "c45_trace_mult"
   ],
   "note": "multiply_AB and multiply_x2 proved for every well-formed input with blocks of at most 6 rows, any schedule, including the outcome when a row is full; trace(X^2) refuted for blocks of different sizes and proved for equal sizes. alpha A B + beta C proved for blocks of one size, or a new C with any sizes."
  },
  {
   "property": "C46",
   "status": "partial",
   "theorems": [
    "c46_transpose",
    "c46_after_transpose_refuted",
    "c46_add_after_transpose_refuted",
    "c46_after_clear_refuted",
    "c46_after_x2_refuted"
   ],
   "note": "The in-place transpose itself is proved for every well-formed matrix with room. Refuted: a following set_element may stop and a following bml_add overwrites another block; the same after bml_clear and bml_multiply_x2 (use of freed memory)."
  },
  {
   "property": "C47",
   "status": "partial",
   "theorems": [
    "c47_ellpack_adjust_AB_partial",
    "c47_ellpack_adjust_AB_diverges",
    "c47_ellpack_adjust_AB_refuted"
   ],
   "note": "terminates after one pass if the exact product fits, otherwise diverges (general theorem and concrete witness)."
  },
  {
   "property": "C48",
   "status": "proved",
   "theorems": [
    "c48_ellpack_write",
    "c48_csr_write",
    "c48_dense_write",
    "c48_ellblock_write",
    "c48_ellpack_read",
    "c48_csr_read",
    "c48_dense_read_partial",
    "c48_ellblock_read_partial",
    "c48_ellblock_read_room_partial",
    "c48_ellpack_round_trip",
    "c48_csr_round_trip",
    "c48_dense_round_trip",
    "c48_ellblock_round_trip",
    "c48_short_file",
    "c48_digits_refuted",
    "c48_dense_symmetric_refuted",
    "c48_ellblock_symmetric_refuted",
    "c48_ellblock_symmetric_lost_refuted",
    "c48_read_over_refuted",
    "c48_ellpack_overflow_refuted"
   ],
   "note": "Any writer followed by any reader into an empty matrix, for all matrices and any value rendering fmt with fmt 0 = 0 (exact rendering: fmt = identity); room in the rows is required for ellpack and MB >= NB for ellblock. Beyond the property: symmetric files are read correctly by ellpack and csr only; the digits written do not restore every double (refuted)."
  },
  {
   "property": "C49",
   "status": "partial",
   "theorems": [
    "c49_dense_adjungate",
    "c49_dense_transpose_triangle",
    "c49_ellpack_adjungate_partial",
    "c49_ellpack_adjungate_refuted",
    "c49_ellpack_adjungate_lock_refuted"
   ],
   "note": "dense: both triangles proved for any conjugation. ellpack: proved when the target triangle holds no entries and M >= N, any schedule; refuted when it holds entries (duplicates) and when M < N (lock array overrun). csr: the function is not implemented."
  },
  {
   "property": "C50",
   "status": "proved",
   "theorems": [
    "c50_csr_multiply_AB_schedule",
    "c50_csr_multiply_x2_schedule",
    "c50_csr_element_multiply_schedule",
    "c50_csr_threshold_schedule",
    "c50_ellpack_add",
    "c50_ellpack_multiply_AB",
    "c50_ellpack_element_multiply",
    "c50_ellpack_multiply_x2"
   ],
   "note": "ellpack and csr multiply_AB, multiply_x2, element_multiply (and ellpack add, csr threshold) give identical stored rows for all schedules; the other parallel loops are proved correct for every schedule in their own property."
  },
  {
   "property": "C51",
   "status": "partial",
   "theorems": [
    "c51_csr_diagonal",
    "c51_dense_set_diagonal",
    "c51_dense_get_diagonal",
    "c51_ellpack_set_get_diagonal"
   ],
   "note": "ellpack and csr. dense: proved."
  },
  {
   "property": "C52",
   "status": "partial",
   "theorems": [
    "c52_csr_constructors",
    "c52_csr_get_element_partial",
    "c52_csr_get_element_refuted",
    "c52_dense_zero",
    "c52_dense_identity",
    "c52_dense_banded",
    "c52_dense_random",
    "c52_dense_get_element_checked",
    "c52_dense_get_element_refuted",
    "c52_ellpack_zero",
    "c52_ellpack_identity",
    "c52_ellpack_banded",
    "c52_ellpack_get_element",
    "c52_ellpack_get_row",
    "c52_ellpack_random",
    "c52_csr_random"
   ],
   "note": "ellpack and csr; csr get_element does not check the column (refuted). dense: constructors proved; get_element accepts out-of-range indices (refuted). The random constructors of ellpack and csr are proved too."
  },
  {
   "property": "C53",
   "status": "proved",
   "theorems": [
    "c53_csr_nnz_above",
    "c53_csr_row_bandwidth",
    "c53_csr_bandwidth",
    "c53_dense_nnz_above",
    "c53_dense_row_bandwidth",
    "c53_dense_bandwidth",
    "c53_sparsity",
    "c53_dist2d_sparsity",
    "c53_ellpack_nnz",
    "c53_ellpack_row_bandwidth",
    "c53_ellpack_bandwidth"
   ],
   "note": "dense, ellpack, csr and distributed2d, thresholds >= 0 (keep 0 = false); ellblock counts in C61."
  },
  {
   "property": "C54",
   "status": "partial",
   "theorems": [
    "c54_csr_history"
   ],
   "note": "invariant and absence of undefined behaviour for every guarded program over 25 csr API calls; the guards exclude the defects of C25, C27, C34."
  },
  {
   "property": "C55",
   "status": "proved",
   "theorems": [
    "c55_csr_set_row",
    "c55_csr_import_export",
    "c55_csr_get_sparse_row"
   ],
   "note": ""
  },
  {
   "property": "C56",
   "status": "proved",
   "theorems": [
    "c56_exchange_programs",
    "c56_terminates"
   ],
   "note": ""
  },
  {
   "property": "C57",
   "status": "proved",
   "theorems": [
    "c57_setcomm",
    "c57_block_size",
    "c57_coordinates"
   ],
   "note": ""
  },
  {
   "property": "C58",
   "status": "partial",
   "theorems": [
    "c58_add",
    "c58_add_uniform",
    "c58_add_identity",
    "c58_scale_add_identity",
    "c58_add_refuted",
    "c58_add_identity_refuted",
    "c58_add_norm_returns_partial",
    "c58_add_norm_partial",
    "c58_add_norm_value_refuted",
    "c58_add_norm_null_refuted",
    "c58_add_norm_size_refuted"
   ],
   "note": "Proved when every kept block fits the slot it is put in, in particular for blocks of one size. Refuted otherwise (heap overflow); add_identity refuted for converted matrices whose number of slots differs from the default. add_norm: proved that it returns when the slots exist, the matrix and the number it does return; that the number is the squared norm is refuted (squares of block sums), blocks of B without a slot in A crash (refuted), blocks of more than 25 elements overrun (refuted)."
  },
  {
   "property": "C59",
   "status": "proved",
   "theorems": [
    "c59_copy_new",
    "c59_copy",
    "c59_scale",
    "c59_threshold_new",
    "c59_threshold",
    "c59_transpose_new",
    "c59_clear"
   ],
   "note": "In-place threshold is stated with the room its merging of slots needs; blocks may have different sizes. copy_new stops when a block has 10 or more rows."
  },
  {
   "property": "C60",
   "status": "proved",
   "theorems": [
    "c60_import",
    "c60_export",
    "c60_convert",
    "c60_set_block",
    "c60_set_block_absent"
   ],
   "note": "Import into default sizes of N rows (see C42 for other sizes)."
  },
  {
   "property": "C61",
   "status": "partial",
   "theorems": [
    "c61_trace",
    "c61_sum_squares",
    "c61_sum_squares2",
    "c61_sum_squares2_exact",
    "c61_sum_AB_actual",
    "c61_sum_AB_refuted",
    "c61_sum_AB_overflow_actual",
    "c61_fnorm2_refuted",
    "c61_nnz_above",
    "c61_row_bandwidth",
    "c61_fnorm2"
   ],
   "note": "trace, trace_mult (c45), sum_squares, sum_squares2, sparsity, bandwidth proved. bml_sum_AB adds absolute values (refuted, actual result proved); bml_fnorm2 reads an uninitialised pointer when a block row of one matrix is empty (refuted)."
  },
  {
   "property": "C62",
   "status": "partial",
   "theorems": [
    "c62_index",
    "c62_index_graph",
    "c62_extract_partial",
    "c62_assemble",
    "c62_round_trip_partial",
    "c62_extract_refuted",
    "c62_assemble_refuted"
   ],
   "note": "index list, extraction, assembly and round trip proved when the rows read hold at least one entry; an empty row is refuted (uninitialised vector). A row with too many kept elements is written before the length check (refuted)."
  },
  {
   "property": "C63",
   "status": "partial",
   "theorems": [
    "c63_default_domain",
    "c63_updated_domain",
    "c63_gather_rows",
    "c63_gather",
    "c63_add",
    "c63_add_norm",
    "c63_multiply_AB",
    "c63_multiply_needs_gather_refuted",
    "c63_multiply",
    "c63_multiply_gather",
    "c63_multiply_x2",
    "c63_element_multiply",
    "c63_threshold",
    "c63_threshold_new",
    "c63_scale",
    "c63_add_identity",
    "c63_scale_add_identity",
    "c63_copy",
    "c63_trace",
    "c63_trace_mult_partial",
    "c63_sum_squares",
    "c63_fnorm",
    "c63_sum_AB",
    "c63_sum_squares2",
    "c63_fnorm2_partial",
    "c63_gershgorin_bounds",
    "c63_gershgorin_partial",
    "c63_normalize",
    "c63_dense_gather",
    "c63_dense_scale",
    "c63_dense_add_partial",
    "c63_dense_add_refuted",
    "c63_dense_add_alignment_refuted",
    "c63_dense_add_identity",
    "c63_dense_threshold",
    "c63_dense_element_multiply",
    "c63_dense_transpose_new",
    "c63_dense_multiply",
    "c63_dense_trace",
    "c63_dense_sum_squares",
    "c63_dense_trace_mult"
   ],
   "note": "proved for ellpack and dense; refuted for bml_add_dense with more than one rank (byte offset); bml_trace_mult and bml_fnorm2 need rows stored in both matrices, as on one rank; a product needs its second factor on every rank"
  },
  {
   "property": "C64",
   "status": "partial",
   "theorems": [
    "c64_dense_real",
    "c64_ellpack_real",
    "c64_csr_real",
    "c64_ellblock_real",
    "c64_dense_complex_partial",
    "c64_ellpack_complex_partial",
    "c64_csr_complex_partial",
    "c64_ellblock_complex_partial",
    "c64_dense_complex_refuted",
    "c64_ellpack_complex_refuted",
    "c64_csr_complex_refuted",
    "c64_ellblock_complex_refuted",
    "c64_ellpack_room_refuted",
    "c64_csr_room_refuted"
   ],
   "note": "proved for real symmetric matrices where the rows (blocks) of the eigenvectors fit; refuted for complex matrices: the vectors returned are the conjugates of the eigenvectors, because the row-major array is given to LAPACK as a column-major one; ellpack with M < N overruns, csr stops when the target rows are short. LAPACK itself is a parameter with a stated contract"
  },
  {
   "property": "C65",
   "status": "partial",
   "theorems": [
    "c65_dense",
    "c65_ellpack",
    "c65_csr",
    "c65_ellblock",
    "c65_ellpack_room_refuted",
    "c65_singular_refuted"
   ],
   "note": "proved where the rows of the inverse fit; refuted: ellpack with M < N loses elements, a singular matrix is not reported. LAPACK itself is a parameter with a stated contract"
  },
  {
   "property": "C66",
   "status": "partial",
   "theorems": [
    "c66_dense",
    "c66_ellpack_single",
    "c66_bounds",
    "c66_ellpack_exact",
    "c66_ellpack_partial",
    "c66_ellpack_refuted",
    "c66_csr_refuted"
   ],
   "note": "proved for dense and for ellpack in single real precision; refuted for ellpack in the three other precisions (the column indices of row 0 are searched instead of those of row i) and for csr and ellblock (no case in the dispatch)"
  },
  {
   "property": "C67",
   "status": "partial",
   "theorems": [
    "c67_import",
    "c67_export",
    "c67_round_trip",
    "c67_import_missing_m",
    "c67_import_section_refuted",
    "c67_import_narrow_refuted",
    "c67_get_element",
    "c67_get_row",
    "c67_get_diagonal",
    "c67_set_element",
    "c67_set_row",
    "c67_multiply_default",
    "c67_add_default",
    "c67_variable_import",
    "c67_variable_transpose",
    "c67_variable_copy",
    "c67_variable_read",
    "c67_variable_deallocate",
    "c67_alias",
    "c67_histories",
    "c67_no_leak"
   ],
   "note": "proved for whole square arrays, all formats but ellblock, all sequences of the modelled calls; refuted for array sections (the elements behind the first one in memory are taken) and for arrays with fewer columns than rows (read beyond the end)"
  },
  {
   "property": "C68",
   "status": "partial",
   "theorems": [
    "c68_matrix_id",
    "c68_dmode_id",
    "c68_element_id",
    "c68_get_type_partial",
    "c68_get_type_refuted",
    "c68_get_distribution_mode_partial",
    "c68_get_distribution_mode_refuted",
    "c68_get_element_type",
    "c68_get_element_precision_partial",
    "c68_get_element_precision_refuted",
    "c68_file_name"
   ],
   "note": "codes sent are proved; refuted: bml_get_type stops on csr and calls distributed matrices csr, bml_get_distribution_mode stops on graph_distributed, bml_get_element_precision stops on complex matrices"
  },
  {
   "property": "C69",
   "status": "proved",
   "theorems": [
    "c69_rnd64",
    "c69_rnd32",
    "c69_rnd64_relative_refuted",
    "c69_without_underflow",
    "c69_gam_first_order",
    "c69_dense_trace",
    "c69_dense_sum_squares",
    "c69_dense_add",
    "c69_dense_scale",
    "c69_gemm",
    "c69_dense_multiply",
    "c69_ellpack_trace",
    "c69_ellpack_sum_squares",
    "c69_ellpack_add",
    "c69_ellpack_add_bound",
    "c69_ellpack_multiply_AB",
    "c69_ellpack_multiply_AB_bound",
    "c69_without_rounding_gemm",
    "c69_without_rounding_dense_multiply",
    "c69_without_rounding_dense_add",
    "c69_without_rounding_dense_scale",
    "c69_without_rounding_dense_trace",
    "c69_without_rounding_dense_sum_squares",
    "c69_without_rounding_ell_trace",
    "c69_without_rounding_ell_sum_squares",
    "c69_without_rounding_ell_add",
    "c69_without_rounding_ell_multiply_AB"
   ],
   "note": "rounding, with gradual underflow, is a function on the reals: overflow is excluded, and so are fused operations and reassociation by the compiler"
  },
  {
   "property": "C70",
   "status": "partial",
   "theorems": [
    "c70_trace_schedule_refuted",
    "c70_trace_order_refuted",
    "c70_trace_schedules_close",
    "c70_multiply_AB_schedule",
    "c70_add_schedule"
   ],
   "note": "refuted for reductions (the trace in double precision depends on the number of threads and on the order of combining them), with a bound of the difference; proved for the ellpack sum and product"
  },
  {
   "property": "C71",
   "status": "partial",
   "theorems": [
    "c71_programs",
    "c71_programs_closed",
    "c71_deallocate",
    "c71_deallocate_twice",
    "c71_zero",
    "c71_import",
    "c71_random",
    "c71_copy_new",
    "c71_multiply",
    "c71_inverse",
    "c71_diagonalize",
    "c71_reorder",
    "c71_csr_rows",
    "c71_transpose_new",
    "c71_transpose_new_refuted",
    "c71_adjacency_group_refuted",
    "c71_extract_submatrix_refuted",
    "c71_dist_deallocate",
    "c71_dist_new",
    "c71_dist_ops",
    "c71_dist_export_refuted",
    "c71_dist_get_row_refuted",
    "c71_dist_convert_refuted",
    "c71_small"
   ],
   "note": "proved for programs over import, export, copy, product, sum, inverse, diagonalization, reorder, set_row in the dense, ellpack and csr formats and for the distributed2d functions listed, with any allocator and any growth of csr rows; refuted for ellpack transpose_new and adjacency_group, csr extract_submatrix, distributed2d export, get_row and convert, each with the exact number of objects lost. Which functions allocate what is transcribed from the code; contents are not in this model"
  },
  {
   "property": "C72",
   "status": "partial",
   "theorems": [
    "c72_deallocate",
    "c72_new",
    "c72_keep",
    "c72_add_refuted",
    "c72_copy_refuted"
   ],
   "note": "deallocate, the constructors, set_element, set_row, set_diagonal, set_block, scale, threshold, clear and the in-place transpose are proved to keep the property; refuted for add and copy. multiply, the five arrays of the struct and the work arrays are not covered"
  },
  {
   "property": "C73",
   "status": "partial",
   "theorems": [
    "c73_sizes_NN",
    "c73_sizes_NM",
    "c73_int_sizes_NN",
    "c73_int_sizes_NM",
    "c73_int_sizes_refuted",
    "c73_index",
    "c73_index_refuted",
    "c73_square_limit",
    "c73_dense_refuted",
    "c73_sparsity_refuted",
    "c73_work_arrays"
   ],
   "note": "sizes written sizeof first are right for all dimensions; indices and sizes computed in int first are right exactly up to 2^31 elements and refuted beyond. The expressions are transcribed site by site; the rest of the development keeps its unbounded indices"
  },
  {
   "property": "C74",
   "status": "partial",
   "theorems": [
    "c74_multiply",
    "c74_add",
    "c74_threshold",
    "c74_import",
    "c74_export",
    "c74_trace",
    "c74_transpose_new",
    "c74_multiply_x2",
    "c74_sum_squares",
    "c74_dense_transpose",
    "c74_dense_triangle",
    "c74_dense_transpose_new",
    "c74_dense_threshold",
    "c74_dense_threshold_new",
    "c74_dense_element_multiply",
    "c74_dense_trace",
    "c74_dense_trace_mult",
    "c74_dense_sum_squares",
    "c74_csr_scale",
    "c74_csr_threshold",
    "c74_csr_sum_squares",
    "c74_csr_trace_mult",
    "c74_csr_sum_squares_sub",
    "c74_csr_trace",
    "c74_csr_export",
    "c74_csr_gershgorin",
    "c74_csr_banded_refuted",
    "c74_dense_fnorm2_refuted",
    "c74_multiply_x2_overflow_refuted",
    "c74_adjungate_refuted",
    "c74_banded_refuted",
    "c74_multiply_same_BC_refuted",
    "c74_multiply_same_BC_wrong_refuted",
    "c74_multiply_x2_same_refuted"
   ],
   "note": "proved for ellpack multiply_AB, multiply_x2, add, threshold, import, export, trace, sum_squares and transpose_new (locks), and for dense transpose (in place and new), triangle transpose/adjungate, threshold (in place and new), element_multiply, trace, trace_mult and sum_squares, and for csr scale_inplace, threshold, sum_squares (whole and submatrix), trace, trace_mult, export and gershgorin; refuted for adjungate 'u', the banded constructors of ellpack and csr (rand), multiply_AB with C == B, multiply_x2 with X2 == X or a row that does not fit, and dense fnorm2 (shared temp); csr loops that make rows grow, and the loops of ellblock, are not done at this level"
  },
  {
   "property": "C75",
   "status": "partial",
   "theorems": [
    "c75_single",
    "c75_single_via_double",
    "c75_double_stable",
    "c75_double_error",
    "c75_double_whole",
    "c75_ellpack_single",
    "c75_csr_single",
    "c75_dense_single",
    "c75_ellblock_single",
    "c75_ellpack_double",
    "c75_double_refuted",
    "c75_double_16_refuted"
   ],
   "note": "float: proved for every value, read directly or through a double, and for whole matrices in four formats. double: refuted (15 digits, 16 in ellblock, are too few: 1 + 2^-52 comes back as 1); proved instead: the error is at most 6e-15 of the value, whole numbers below 10^15 are exact, and with 15 digits the second file is equal to the first (values in the normal range). Correct rounding of fprintf/fscanf is assumed"
  }
 ]
}