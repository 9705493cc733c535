OUT = 'PropsLapack.v'
HEADER = '''(** C64, C65.  LapackSpec.v says what LAPACK promises ([eig_call], [inv_call]) and what an eigensystem
    and an inverse are; denm, emat, cmat, ebmx are the matrices that dense, ellpack, csr and ellblock matrices stand for. *)
From Verif Require Import Base Spec SpecFacts EllpackModel EllpackSpec EllpackExact EllpackCheck CsrModel CsrSpec GemmModel DenseModel DenseSpec
  EllblockModel EllblockSpec EllblockFacts EllblockHeap EllblockCheck LapackModel LapackSpec LapackFacts LapackCheck.
From Coq Require Import Permutation Qcanon.
Local Close Scope Q_scope.
Local Close Scope Qc_scope.
Local Open Scope nat_scope.
'''
ITEMS = [
('c64_dense_real', 'dense_diagonalize_real', 'real symmetric matrices; LAPACK is any routine that keeps its promise on the arrays that store A by rows'),
('c64_dense_real_instance', 'qA_diagonalize', None, 'LapackCheck.v'),
('c64_ellpack_real', 'ell_diagonalize_real', 'ellpack, where a row can hold N elements'),
('c64_ellpack_real_instance', 'qE_diagonalize', None, 'LapackCheck.v'),
('c64_csr_real', 'csr_diagonalize_real', 'csr, where the rows of the matrix of eigenvectors can hold N elements'),
('c64_csr_real_instance', 'qC_diagonalize', None, 'LapackCheck.v'),
('c64_ellblock_real', 'eb_diagonalize_real', 'ellblock, where the slots of the matrix of eigenvectors are empty or large enough'),
('c64_ellblock_real_instance', 'qB_diagonalize', None, 'LapackCheck.v'),
('c64_dense_complex_partial', 'dense_diagonalize_complex', 'complex Hermitian matrices: the conjugates of the vectors returned are the eigenvectors'),
('c64_dense_complex_instance', 'cA_diagonalize', None, 'LapackCheck.v'),
('c64_ellpack_complex_partial', 'ell_diagonalize_complex', None),
('c64_csr_complex_partial', 'csr_diagonalize_complex', None),
('c64_ellblock_complex_partial', 'eb_diagonalize_complex', None),
('c64_dense_complex_refuted', 'dense_diagonalize_wrong', '... and the vectors returned are never eigenvectors of A unless A is symmetric too, whatever LAPACK returns'),
('c64_dense_complex_refuted_instance', 'cA_wrong', None, 'LapackCheck.v'),
('c64_ellpack_complex_refuted', 'ell_diagonalize_wrong', None),
('c64_csr_complex_refuted', 'csr_diagonalize_wrong', None),
('c64_ellblock_complex_refuted', 'eb_diagonalize_wrong', None),
('c64_ellpack_room_refuted', 'ell_diagonalize_room_refuted', 'ellpack: the eigenvectors of a sparse matrix do not fit', 'LapackCheck.v'),
('c64_csr_room_refuted', 'csr_diagonalize_room_refuted', 'csr: they do not fit a new matrix of zeros; the call stops with an error', 'LapackCheck.v'),
('c65_dense', 'dense_inverse_ok', None),
('c65_dense_instance', 'iD_inverse', None, 'LapackCheck.v'),
('c65_ellpack', 'ell_inverse_ok', 'ellpack, where a row can hold N elements'),
('c65_ellpack_instance', 'iE_inverse', None, 'LapackCheck.v'),
('c65_csr', 'csr_inverse_ok', None),
('c65_csr_instance', 'iC_inverse', None, 'LapackCheck.v'),
('c65_ellblock', 'eb_inverse_ok', None),
('c65_ellblock_instance', 'iB_inverse', None, 'LapackCheck.v'),
('c65_ellpack_room_refuted', 'ell_inverse_room_refuted', 'ellpack: elements of the inverse that do not fit are lost', 'LapackCheck.v'),
('c65_singular_refuted', 'inverse_singular_refuted', 'a singular matrix is not reported', 'LapackCheck.v'),
]
