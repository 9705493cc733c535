OUT = 'PropsFormat.v'
HEADER = '''(** Theorems about the format-independent interface: conversion (C32) and
    independence of results from the storage format (C33), for the formats
    dense, ellpack and csr. *)
From Verif Require Import Base Spec EllpackModel EllpackSpec EllpackExact EllpackCheck CsrModel CsrSpec CsrHash
  GemmModel DenseModel DenseSpec FormatModel FormatSpec FormatFacts FormatConv FormatHistModel FormatHistSpec FormatHist FormatCheck.
Local Open Scope K_scope.
'''
ITEMS = [
('c32_convert', 'bml_convert_ok', 'C32: conversion between any two formats is exact; ellpack needs M >= N'),
('c32_convert_elements', 'bml_convert_element', '... as seen through the getters'),
('c32_convert_roundtrip', 'bml_convert_roundtrip', 'there and back'),
'''Example c32_instance : bwf (fA FEll) /\\ keeps_nonzero (gtZ 0 : Zscalar -> bool) /\\ (0 < 3)%nat /\\ (bml_get_N (fA FEll) <= 3)%nat.
Proof. split; [apply fA_wf|]. split; [apply gtZ0_exact|]. simpl. lia. Qed.''',
('c32_convert_ellpack_overruns', 'convert_ell_ub', 'with fewer slots than N every conversion to ellpack writes past the end of the arrays, because zeros are stored too ...'),
('c32_convert_ellpack_refuted', 'convert_ell_refuted', '... also when the nonzero elements of each row fit'),
('c33_add', 'add_formats', 'C33: the same call on the same matrices in two formats'),
('c33_add_identity', 'add_identity_formats', None),
('c33_scale_add_identity', 'scale_add_identity_formats', None),
('c33_multiply_AB', 'multiply_AB_formats', None),
('c33_multiply', 'multiply_formats', None),
('c33_multiply_x2', 'multiply_x2_formats', None),
('c33_element_multiply', 'element_multiply_formats', None),
('c33_transpose_new', 'transpose_new_formats', None),
('c33_transpose', 'transpose_formats', None),
('c33_scale_inplace', 'scale_inplace_formats', None),
('c33_copy_new', 'copy_new_formats', None),
('c33_threshold', 'threshold_formats', None),
('c33_set_diagonal', 'set_diagonal_formats', None),
('c33_get_element', 'get_element_formats', None),
('c33_get_row', 'get_row_formats', None),
('c33_trace', 'trace_formats', None),
('c33_sum_squares', 'sum_squares_formats', None),
('c33_sum_AB', 'sum_AB_formats', None),
('c33_sum_squares2', 'sum_squares2_formats', None),
'''Example c33_instance : forall t1 t2, bwf (fA t1) /\\ bwf (fB t1) /\\ alike (fA t1) (fB t1) /\\ same_matrix (fA t1) (fA t2) /\\ same_matrix (fB t1) (fB t2) /\\
  good_env (fA t1) exEnv /\\ comparable (gtZ 0) (fA t1) (fA t2) /\\ add_room (gtZ 0) (2%Z : Zscalar) (3%Z : Zscalar) (fA t1) (fB t1) /\\
  product_room (fA t1) (fB t1) (fB t1).
Proof.
  intros t1 t2. split; [apply fA_wf|]. split; [apply fB_wf|]. split; [apply fAB_alike|]. split; [apply fA_same|]. split; [apply fB_same|].
  split; [apply exEnv_good|]. split; [left; apply gtZ0_exact|]. split; [apply fAB_add_room|apply fAB_product_room].
Qed.''',
('c33_programs', 'programs_agree', 'any program whose calls are legal in both runs: same matrices and same numbers'),
('c33_programs_with_room', 'programs_agree_roomy', 'any program on dense matrices, ellpack matrices with M >= N and csr matrices with space for N entries per row; no run-time hypotheses'),
'''Example c33_program_instance : program 3 (length (exStore FDense)) exProg /\\ Forall exact_instr exProg /\\
  (forall t, uniform 3 3 t (exStore t)) /\\ good_schedules 3 exEnv /\\
  length exOut = 8%nat /\\ forall t, exists st, brun (map (fun c => (c, exEnv)) exProg) (exStore t, []) = Ok (st, exOut).
Proof.
  split; [apply exProg_ok|]. split; [apply exProg_exact|]. split; [exact exStore_uniform|].
  split; [apply exEnv_good3|]. exact exProg_runs.
Qed.''',
('c33_trace_mult_refuted', 'trace_mult_formats_refuted', 'not format independent: trace_mult'),
('c33_add_norm_refuted', 'add_norm_formats_refuted', 'not format independent: the norm returned by add_norm'),
('c33_threshold_argument_refuted', 'threshold_arg_formats_refuted', 'not format independent: the threshold argument of add'),
]
