OUT = 'PropsFortran.v'
HEADER = '''(** C66, C67, C68.  FortranSpec.v: fa_at a i j is the element a(i, j) of a Fortran array, [whole a n] says that it is
    a whole n x n array, [holds s v] is the matrix of variable v, [f_ok s] says that no variable dangles, no matrix is
    shared or lost. *)
From Coq Require Import String Ascii ZArith.
From Verif Require Import Base Spec SpecFacts EllpackModel EllpackSpec CsrModel CsrSpec GemmModel DenseModel DenseSpec
  EllpackCheck FormatModel FormatSpec FormatCheck FortranModel FortranSpec FortranFacts FortranVars FortranCheck.
From Coq Require Import Permutation.
Local Open Scope string_scope.
Local Open Scope nat_scope.
'''
ITEMS = [
('c66_dense', 'dense_typed_ok', None),
('c66_ellpack_single', 'ell_single_ok', None),
('c66_bounds', 'typed_bounds', 'indices out of range are reported'),
('c66_ellpack_exact', 'ell_typed_exact', 'ellpack: what is returned in each precision; all but single real look up the columns of row 0'),
('c66_ellpack_partial', 'ell_typed_same', '... which is right where row 0 has the same columns in the same slots'),
('c66_ellpack_partial_instance', 'exFull_same', None, 'FortranCheck.v'),
('c66_ellpack_refuted', 'typed_refuted', 'in general it is wrong', 'FortranCheck.v'),
('c66_csr_refuted', 'typed_csr_refuted', 'csr matrices are rejected', 'FortranCheck.v'),
('c67_import', 'f_import_ok', None),
('c67_import_instance', 'exArr_ok', None, 'FortranCheck.v'),
('c67_export', 'f_export_ok', None),
('c67_round_trip', 'f_round_trip', None),
('c67_import_missing_m', 'f_import_missing_m', 'the number of elements per row cannot be omitted for sparse formats'),
('c67_import_section_refuted', 'section_refuted', 'array sections are imported wrongly', 'FortranCheck.v'),
('c67_import_narrow_refuted', 'f_import_narrow', 'arrays with fewer columns than rows are read beyond their end'),
('c67_import_narrow_instance', 'exNarrow_ub', None, 'FortranCheck.v'),
('c67_get_element', 'f_get_element_ok', 'element (i, j) counted from one; for the other cases see C66'),
('c67_get_row', 'f_get_row_ok', None),
('c67_get_diagonal', 'f_get_diagonal_ok', None),
('c67_set_element', 'f_set_element_ok', None),
('c67_set_row', 'f_set_row_ok', None),
('c67_multiply_default', 'f_multiply_default', 'alpha = 1, beta = 0, threshold = 0 when left out'),
('c67_add_default', 'f_add_default', None),
('c67_default_instance', 'exDefault_ok', None, 'FortranCheck.v'),
('c67_variable_import', 'fs_import_ok', None),
('c67_variable_transpose', 'fs_transpose_ok', None),
('c67_variable_copy', 'fs_copy_new_ok', None),
('c67_variable_read', 'f_deref_ok', 'reading a variable gives its matrix or an error, never a freed matrix'),
('c67_variable_deallocate', 'f_deallocate_ok', None),
('c67_variable_instance', 'exSt_ok', None, 'FortranCheck.v'),
('c67_alias', 'fs_alias', 'the result variable cannot be the operand: its matrix is lost'),
('c67_histories', 'fs_run_inv', 'every sequence of calls'),
('c67_histories_instance', 'exProg_runs', None, 'FortranCheck.v'),
('c67_no_leak', 'live_count', 'as many live matrices as associated variables'),
('c68_matrix_id', 'matrix_id_ok', None, 'FortranCheck.v'),
('c68_dmode_id', 'dmode_id_ok', None, 'FortranCheck.v'),
('c68_element_id', 'element_id_ok', None, 'FortranCheck.v'),
('c68_get_type_partial', 'get_type_ok', 'all types but csr', 'FortranCheck.v'),
('c68_get_type_refuted', 'get_type_refuted', 'csr matrices are unknown, distributed matrices are called csr', 'FortranCheck.v'),
('c68_get_distribution_mode_partial', 'get_dmode_ok', None, 'FortranCheck.v'),
('c68_get_distribution_mode_refuted', 'get_dmode_refuted', None, 'FortranCheck.v'),
('c68_get_element_type', 'get_element_type_ok', None, 'FortranCheck.v'),
('c68_get_element_precision_partial', 'get_element_precision_ok', None, 'FortranCheck.v'),
('c68_get_element_precision_refuted', 'get_element_precision_refuted', None, 'FortranCheck.v'),
('c68_file_name', 'c_string_ok', None, 'FortranCheck.v'),
]
