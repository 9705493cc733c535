OUT = 'PropsFp.v'
HEADER = '''(** C69, C70: rounding.  FpModel.v has the kernels with a rounding [rnd] after every operation.  FpSpec.v: [rounds u lam rnd],
    every rounded result is off by at most the fraction u of itself or of lam, the smallest normal number; [gam u k] = (1 + u)^k - 1; [mabs X], the matrix of absolute
    values.  [rnd64] and [rnd32] (FpCheck.v) are rounding to nearest even in double and single precision, with
    gradual underflow; overflow is not modelled. *)
From Coq Require Import Reals Lra Permutation.
From Verif Require Import Base Spec EllpackModel EllpackSpec EllpackCheck GemmModel DenseModel DenseSpec RealSpec FpModel FpSpec
  FpFacts FpKernels FpGemm FpEll FpExact FpCheck.
Local Open Scope R_scope.
Local Notation madd := (madd (F := Rscalar)).
Local Notation mscale := (mscale (F := Rscalar)).
Local Notation mmul := (mmul (F := Rscalar)).
Local Notation bigsum := (bigsum (F := Rscalar)).
Local Notation cut := (cut (F := Rscalar)).
Local Notation opm := (opm (F := Rscalar)).
'''
ITEMS = [
('c69_rnd64', 'rnd64_rounds', 'C69: rounding in double precision: 2^-53 and 2^-1022 ...'),
('c69_rnd32', 'rnd32_rounds', '... and in single precision 2^-24 and 2^-126'),
('c69_rnd64_relative_refuted', 'rnd64_not_relative', 'because of underflow the error is not relative'),
('c69_without_underflow', 'rnd_unbounded_rounds', 'with an unbounded exponent it would be: the theorems below with lam = 0'),
('c69_gam_first_order', 'gam_first_order', 'the bounds in first order'),
('c69_dense_trace', 'fp_dense_trace_ok', 'the trace, for every schedule and every order of combining the threads'),
('c69_dense_sum_squares', 'fp_dense_sum_squares_ok', 'the sum of the squares: a relative error, up to underflow'),
('c69_dense_add', 'fp_dense_add_ok', 'alpha A + beta B'),
('c69_dense_scale', 'fp_dense_scale_ok', None),
('c69_gemm', 'fp_gemm_ok', 'the internal gemm'),
('c69_dense_multiply', 'fp_dense_multiply_ok', 'alpha A B + beta C'),
'''Example c69_dense_instance : dwf exTr /\\ full_sched (dN exTr) 2 two_threads /\\ full_sched (dN exTr * dN exTr) 1 (map (fun i => (0, i)%nat) (seq 0 9)) /\\
  Permutation [1; 0]%nat (seq 0 2) /\\ (0 < dN exTr)%nat /\\ rounds (/ 2 ^ 53) (/ 2 ^ 1022) rnd64.
Proof.
  split; [reflexivity|]. split; [apply two_threads_full|]. split; [apply full_schedb; reflexivity|]. split; [apply perm_swap|].
  split; [simpl; auto|apply rnd64_rounds].
Qed.''',
('c69_ellpack_trace', 'fp_ell_trace_ok', 'ellpack'),
('c69_ellpack_sum_squares', 'fp_ell_sum_squares_ok', None),
('c69_ellpack_add', 'fp_ell_add_ok', 'the computed sum x, before the threshold; either_cols, the columns in row i of A or of B'),
('c69_ellpack_add_bound', 'fp_ell_add_bound', 'rounding and threshold together'),
('c69_ellpack_multiply_AB', 'fp_ell_multiply_AB_ok', 'the error grows with the number of elements of the row, not with N'),
('c69_ellpack_multiply_AB_bound', 'fp_ell_multiply_AB_bound', None),
'''Example c69_ellpack_instance : wf exFA /\\ wf exFC /\\ full_sched (eN exFA) 2 exF_sched /\\ (forall i, (i < eN exFA)%nat -> (prod_cols exFA exFA i <= eM exFC)%nat) /\\
  (forall i, (i < eN exFA)%nat -> (either_cols exFA exFA i <= eM exFA)%nat) /\\ nnz exFA 0 = 2%nat.
Proof.
  split; [apply exFA_wf|]. split; [apply exFC_wf|]. split; [apply exF_full|].
  split; [|split; [|reflexivity]]; intros i Hi; destruct i as [|[|i]]; simpl in Hi; try lia; vm_compute; repeat constructor.
Qed.''',
('c69_without_rounding_gemm', 'gemm_exact', 'without rounding these kernels are those of the other properties'),
('c69_without_rounding_dense_multiply', 'dense_multiply_exact', None),
('c69_without_rounding_dense_add', 'dense_add_exact', None),
('c69_without_rounding_dense_scale', 'dense_scale_exact', None),
('c69_without_rounding_dense_trace', 'dense_trace_exact', None),
('c69_without_rounding_dense_sum_squares', 'dense_sum_squares_exact', None),
('c69_without_rounding_ell_trace', 'ell_trace_exact', None),
('c69_without_rounding_ell_sum_squares', 'ell_sum_squares_exact', None),
('c69_without_rounding_ell_add', 'ell_add_exact', None),
('c69_without_rounding_ell_multiply_AB', 'ell_multiply_AB_exact', None),
('c70_trace_schedule_refuted', 'trace_schedule_refuted', 'C70: in double precision the trace depends on the schedule ...'),
('c70_trace_order_refuted', 'trace_order_refuted', '... and on the order in which the threads are combined'),
('c70_trace_schedules_close', 'trace_schedules_close', 'by no more than this'),
('c70_multiply_AB_schedule', 'fp_ell_multiply_AB_sched', 'the product does not depend on it, element for element and bit for bit ...'),
('c70_add_schedule', 'fp_ell_add_sched', '... nor does the sum'),
'''Example c70_instance : exists C1 C2, fp_ell_multiply_AB rnd64 (gtR 0) exFA exFA exFC exF_sched = Ok C1 /\\
  fp_ell_multiply_AB rnd64 (gtR 0) exFA exFA exFC [(0, 0); (0, 1)]%nat = Ok C2.
Proof.
  destruct (fp_ell_multiply_AB_rows rnd64 (gtR 0) exFA exFA exFC exF_sched) as (C1 & E1 & _);
    [apply exFA_wf|apply exFA_wf|apply exFC_wf|auto|auto|apply exF_full|intros i Hi; apply c69_ellpack_instance; auto|].
  destruct (fp_ell_multiply_AB_rows rnd64 (gtR 0) exFA exFA exFC [(0, 0); (0, 1)]%nat) as (C2 & E2 & _);
    [apply exFA_wf|apply exFA_wf|apply exFC_wf|auto|auto|apply Permutation_refl|intros i Hi; apply c69_ellpack_instance; auto|].
  eauto.
Qed.''',
]
