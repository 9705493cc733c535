OUT = 'PropsDist2d.v'
HEADER = '''(** Theorems about distributed 2d matrices, for every number of tasks: Cannon multiplication (C37), rows (C38), identity
    and diagonal (C39), transpose and sums (C40), import and export (C41). *)
From Verif Require Import Base Spec EllpackModel EllpackSpec EllpackExact EllpackCheck CsrModel CsrSpec CsrHash
  GemmModel DenseModel DenseSpec FormatModel FormatSpec FormatHistModel FormatHistSpec FormatCheck
  MpiModel MpiSpec MpiFacts MpiRun Dist2dModel Dist2dSpec Dist2dLocal Dist2dFacts Dist2dCannon Dist2dOps Dist2dMore Dist2dIO Dist2dCheck Dist2dRestModel Dist2dRest.
'''
ITEMS = [
('c37_cannon', 'cannon_product', 'C37: every execution ends, with alpha A B + beta C in C and A, B unchanged (thresholds that keep all nonzero elements, or dense blocks)'),
('c37_cannon_thresholded', 'cannon_blocks', 'for any threshold: what each block holds, the threshold being applied after every partial product'),
'''Example c37_instance : forall t, exists A B C : dist Zscalar, dist_ok t A /\\ dist_ok t B /\\ dist_ok t C /\\ dist_roomy A /\\ dist_roomy B /\\ dist_roomy C /\\
  same_grid A B /\\ same_grid A C /\\ tprec A = true /\\ keeps_nonzero (gtZ 0 : Zscalar -> bool) /\\ no_cut t (gtZ 0 : Zscalar -> bool) /\\
  (forall r k, (r < tasks A)%nat -> good_schedules (tn A) (exSeq r k)) /\\
  mmul 4 (gmx A) (gmx B) 2 0 = 12%Z /\\ tp A = 2%nat.
Proof. exact exGrids. Qed.''',
('c37_threshold_refuted', 'cannon_threshold_refuted', 'with a threshold the result is not the thresholded product'),
('c38_set_row', 'dist_set_row_ok', 'C38: set_row'),
('c38_get_row_partial', 'dist_get_row_small', 'get_row on one or four tasks'),
('c38_get_row_actual', 'dist_get_row_actual', 'get_row on any grid: the first block of columns is right, the second holds some other block, the rest is zero'),
('c38_get_row_refuted', 'get_row_refuted', 'on every larger grid and in every format a row of the identity is read wrongly'),
'''Example c38_instance : forall t, exists A : dist Zscalar, dist_ok t A /\\ dist_roomy A /\\ tprec A = true /\\ (tp A <= 2)%nat /\\ (2 < tN A)%nat /\\
  gmx A 2 1 = 6%Z.
Proof. exact exOne. Qed.''',
('c39_add_identity_actual', 'dist_add_identity_ok', 'C39: add_identity adds the identity to every block'),
('c39_scale_add_identity_actual', 'dist_scale_add_identity_ok', None),
('c39_add_identity_refuted', 'add_identity_refuted', '... which on every grid of more than one task is not the identity matrix'),
('c39_scale_add_identity_refuted', 'scale_add_identity_refuted', None),
('c39_identity', 'dist_identity_ok', 'the constructors and set_diagonal'),
('c39_zero', 'dist_zero_ok', None),
('c39_set_diagonal', 'dist_set_diagonal_ok', None),
('c40_transpose_new', 'dist_transpose_new_ok', 'C40: the transposes, every execution'),
('c40_transpose', 'dist_transpose_ok', None),
('c40_trace', 'dist_trace_ok', 'sums over all tasks in any order'),
('c12_dist2d_trace', 'dist_trace_ok', None),
('c40_sum_squares', 'dist_sum_squares_ok', None),
('c40_sum_AB', 'dist_sum_AB_ok', None),
('c40_sum_squares2', 'dist_sum_squares2_ok', None),
('c40_trace_mult_dense', 'dist_trace_mult_dense', 'trace_mult: dense and ellpack blocks give the sum of A_ij B_ij, csr blocks something else'),
('c40_trace_mult_ellpack', 'dist_trace_mult_ell', None),
('c40_trace_mult_csr_actual', 'dist_trace_mult_csr', None),
('c40_trace_mult_csr_refuted', 'trace_mult_csr_refuted', None),
('c40_add', 'dist_add_ok', 'elementwise operations'),
('c40_scale_inplace', 'dist_scale_inplace_ok', None),
('c40_threshold', 'dist_threshold_ok', None),
('c40_threshold_new', 'dist_threshold_new_ok', None),
('c40_copy_new', 'dist_copy_new_ok', None),
('c40_copy', 'dist_copy_ok', None),
('c40_scale', 'dist_scale_ok', None),
('c40_scale_new', 'dist_scale_new_ok', None),
('c40_add_norm_dense', 'dist_add_norm_dense', 'the number add_norm returns depends on the format of the blocks'),
('c40_add_norm_ellpack', 'dist_add_norm_ell', None),
('c40_add_norm_csr', 'dist_add_norm_csr', None),
('c32_dist2d_convert', 'dist_convert_ok', 'C32: conversion of the blocks; the matrix is unchanged'),
('c41_import', 'dist_import_ok', 'C41: import; for column-major arrays the blocks are transposed as blocks'),
('c41_export', 'dist_export_ok', None),
('c41_round_trip', 'dist_round_trip', 'export inverts import in either order'),
('c41_col_major_refuted', 'import_col_major_refuted', 'a column-major array is not the matrix that is imported'),
('c41_imported_unusable', 'imported_unusable', 'the result of import has no precision set: these calls on it end in an error'),
'''Example c41_instance : (length exArr = 4 * 4)%nat /\\ (4 = 2 * (4 / 2))%nat /\\ (4 / 2 <= table_max)%nat /\\ good_schedules (4 / 2) (seq_env 2 : env Zscalar).
Proof. split; [reflexivity|]. split; [reflexivity|]. split; [apply table_max_big; cbv; lia|apply seq_env_good]. Qed.''',
]
