OUT = 'PropsDist2dReal.v'
HEADER = '''(** Theorems about distributed 2d matrices over the real numbers, for every number of tasks: Gershgorin bounds (C18, C19),
    normalize (C20), Frobenius norm (C40) and sparsity (C53). *)
From Coq Require Import Reals.
From Verif Require Import Base Spec RealSpec EllpackModel EllpackSpec EllpackExact GershModel
  GemmModel DenseModel DenseSpec FormatModel FormatSpec FormatHistModel FormatHistSpec
  MpiModel MpiSpec Dist2dModel Dist2dSpec Dist2dLocal Dist2dRestModel Dist2dReal Dist2dRealCheck.
Local Open Scope R_scope.
'''
ITEMS = [
('c18_dist2d_gershgorin_bounds', 'dist_gershgorin_bounds', 'C18: every eigenvalue lies between the bounds, whatever the order of the reductions'),
('c19_dist2d_gershgorin_exact_partial', 'dist_gershgorin_exact', 'C19, when some disc ends at or above DBL_MIN'),
('c19_dist2d_gershgorin_refuted', 'dist_gershgorin_refuted', 'on every grid and in every format: all discs on the negative axis, the reported maximum is positive'),
('c20_dist2d_normalize_partial', 'dist_normalize_spec', 'C20, when the bounds differ'),
('c20_dist2d_normalize_equal_bounds_refuted', 'dist_normalize_refuted', 'for the identity on any grid both bounds are equal: normalize divides by zero'),
'''Example c18_dist2d_instance : forall t, exists A : dist Rscalar, dist_ok t A /\\ dist_roomy A /\\ tp A = 2%nat /\\
  (forall r, (r < tasks A)%nat -> Permutation (row_order 2 r) (seq 0 (tp A))) /\\
  (forall r (k : nat), (r < tasks A)%nat -> good_schedules (tn A) (seq_env 1 : env Rscalar)) /\\
  eigenvalue (tN A) (gmx A) 2 /\\ dist_gershgorin A (row_order 2) (seq 0 (tasks A)) (seq 0 (tasks A)) = Ok (-2, 2) /\\ -2 < 2 /\\
  (exists i, (i < tN A)%nat /\\ DBL_MIN <= gmx A i i + radius (tN A) (gmx A) i) /\\ (exists i, (i < tN A)%nat /\\ gmx A i i - radius (tN A) (gmx A) i <= DBL_MAX).
Proof. exact exDistReal. Qed.''',
('c40_fnorm', 'dist_fnorm_ok', 'C40: the Frobenius norm'),
('c53_sparsity', 'bml_get_sparsity_ok', 'C53: dense, ellpack and csr matrices'),
('c53_dist2d_sparsity', 'dist_get_sparsity_ok', 'C53, distributed: sparsity is one minus the fraction of elements that the threshold keeps'),
'''Example c53_dist2d_instance : forall t, exists A : dist Rscalar, dist_ok t A /\\ dist_roomy A /\\ gtR 0 0 = false /\\
  dist_get_sparsity (gtR 0) A (seq 0 (tasks A)) = Ok (/ 2).
Proof. exact exSparsity. Qed.''',
]
