OUT='PropsMmFp.v'
HEADER='''(** C75: the values in Matrix Market files. *)
From Coq Require Import Reals ZArith Lia Lra.
From Flocq Require Import Core.
From Verif Require Import Base Spec EllpackModel EllpackSpec EllpackCheck CsrModel CsrSpec DenseModel DenseSpec
  EllblockModel EllblockSpec MmModel MmSpec RealSpec MmFpModel MmFpFacts MmFpMat MmFpCheck.
Local Open Scope R_scope.
'''
ITEMS=[
("c75_single","single_exact","every float survives, however many digits beyond 14 are written"),
("c75_single_via_double","single_via_double_exact","also when it is read into a double first"),
("c75_double_stable","double_stable","a double that was read writes the same 15 digits again"),
("c75_double_error","double_file_error",None),
("c75_double_whole","whole_exact","whole numbers of at most 15 digits survive"),
r'''Example c75_values_instance : is_single (3 / 8) /\ normal_or_0 (1 / 3) /\ (Z.abs (-271828182845904) < 10 ^ 15)%Z.
Proof. exact values_instance. Qed.''',
("c75_ellpack_single","ell_single_file","whole matrices of floats are restored exactly"),
("c75_csr_single","csr_single_file",None),
("c75_dense_single","dense_single_file",None),
("c75_ellblock_single","eb_single_file",None),
("c75_ellpack_double","ell_double_file","a matrix of doubles: the elements are close, and the file written from the matrix that was read describes the same matrix"),
r'''Example c75_matrix_instance : wf exF /\ entries_in is_single (eN exF) (emat exF) /\ entries_in normal_or_0 (eN exF) (emat exF) /\
  wf exZ /\ eN exZ = eN exF /\ (eM exF <= eM exZ)%nat /\ (forall i, (i < eN exZ)%nat -> erow exZ i = []) /\ emat exF 0%nat 1%nat = 3 / 8.
Proof. exact matrix_instance. Qed.''',
("c75_double_refuted","ell_double_lost","a double is in general not restored: 1 + 2^-52 comes back as 1"),
("c75_double_16_refuted","eps2_lost","nor with the 16 digits of ellblock: 2^54 comes back as 2^54 - 4"),
]
def sub(x): return [(x+' (file', x+' (F:=Rscalar) (file')]
SUBST={'c75_ellpack_single':sub('ell_write'),'c75_csr_single':sub('csr_write'),'c75_dense_single':sub('dense_write'),
  'c75_ellblock_single':sub('eb_write'),'c75_ellpack_double':sub('ell_write'),'c75_double_refuted':sub('ell_write')}
