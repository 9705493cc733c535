OUT = 'PropsRow.v'
HEADER = '''(** C63: matrices distributed by rows over the ranks.  [held P d N M As X]: rank r has the rows of X that the domain d gives
    it; [replicated]: every rank has all of X (RowSpec.v). *)
From Coq Require Import Reals.
From Verif Require Import Base Spec SpecFacts RealSpec EllpackModel EllpackSpec EllpackFacts EllpackCheck EllpackNorm DenseModel DenseSpec DenseCheck
  GershModel RealCheck DomainModel DomainSpec RowModel RowSpec RowOps RowMore RowDense RowRealModel RowReal RowCheck RowRealCheck.
'''
ITEMS = [
('c63_default_domain', 'default_row_domain', 'the domains the library makes are row domains'),
('c63_updated_domain', 'update_row_domain', None),
('c63_gather_rows', 'row_gather_rows', 'after bml_allGatherVParallel every rank has the rows of their owners'),
('c63_gather', 'row_gather_ok', None),
'''Example c63_gather_instance : row_domain 2 3 3 exDom /\\ held 2 exDom 3 3 exAs (emat exA) /\\
  exists Bs, row_gather exDom exAs = Ok Bs /\\ replicated 2 3 3 Bs (emat exA) /\\ ~ meq 3 (emat exA0) (emat exA1).
Proof. split; [exact exDom_rows|]. split; [exact exAs_held|exact exGather]. Qed.''',
('c63_add', 'row_add_ok', None),
'''Example c63_add_instance : fits 3 3 (gtZ 0) (madd (mscale (F:=Zscalar) 2%Z (emat exA)) (mscale (F:=Zscalar) 3%Z (emat exB))) /\\
  (forall r, r < 2 -> rank_sched exDom r 2 (exRanks r)) /\\ held 2 exDom 3 3 exBs (emat exB).
Proof. split; [apply fitsb_ok; reflexivity|]. split; [exact exRanks_ok|exact exBs_held]. Qed.''',
('c63_add_norm', 'row_add_norm_ok', None),
('c63_multiply_AB', 'row_multiply_AB_ok', 'the second factor must be on every rank'),
('c63_multiply_needs_gather_refuted', 'row_multiply_needs_gather', 'and may not be distributed'),
('c63_multiply', 'row_multiply_ok', None),
('c63_multiply_gather', 'row_multiply_gather_ok', None),
'''Example c63_multiply_instance : replicated 2 3 3 exBs (emat exB) /\\
  (forall r (A B : ell Zscalar) i, nth_error exAs r = Some A -> nth_error exBs r = Some B -> owns exDom r i -> prod_cols A B i <= 3) /\\
  exists Ds, row_multiply (F:=Zscalar) exDom (gtZ 0) 1%Z 2%Z exAs exBs exBs exRanks exRanks (fun _ => 5%Z) (fun _ => 7) = Ok Ds /\\
  held 2 exDom 3 3 Ds (madd (mscale (F:=Zscalar) 2%Z (emat exB)) (mmul 3 (emat exA) (emat exB))) /\\
  madd (mscale (F:=Zscalar) 2%Z (emat exB)) (mmul 3 (emat exA) (emat exB)) 1 1 = 30%Z.
Proof. split; [exact exBs_repl|]. split; [exact exProd|exact exMult]. Qed.''',
('c63_multiply_x2', 'row_multiply_x2_ok', None),
('c63_element_multiply', 'row_element_multiply_ok', None),
('c63_threshold', 'row_threshold_ok', None),
('c63_threshold_new', 'row_threshold_new_ok', None),
('c63_scale', 'row_scale_ok', None),
('c63_add_identity', 'row_add_identity_ok', None),
('c63_scale_add_identity', 'row_scale_add_identity_ok', None),
('c63_copy', 'row_copy_ok', None),
('c63_trace', 'row_trace_ok', 'the sum of the values of the ranks'),
'''Example c63_trace_instance : exists vs, row_trace exAs 2 exRanks = Ok vs /\\ vs = [6; 0]%Z /\\ allreduce_sum (F:=Zscalar) [1; 0] vs = Ok 6%Z.
Proof. exact exTrace. Qed.''',
('c63_trace_mult_partial', 'row_trace_mult_ok', None),
('c63_sum_squares', 'row_sum_squares_ok', None),
('c63_fnorm', 'row_fnorm_ok', None),
('c63_sum_AB', 'row_sum_AB_ok', None),
('c63_sum_squares2', 'row_sum_squares2_ok', None),
('c63_fnorm2_partial', 'row_fnorm2_ok', None),
('c63_gershgorin_bounds', 'row_gershgorin_bounds', None),
('c63_gershgorin_partial', 'row_gershgorin_exact', 'exact unless all discs lie below DBL_MIN'),
('c63_normalize', 'row_normalize_ok', None),
'''Example c63_gershgorin_instance : exists emin emax, row_gershgorin exDom2 [exR; exR] exRanks2 [1; 0] [0; 1] = Ok (emin, emax) /\\
  eigenvalue 2 (emat exR) 2%R /\\ (emin <= 2 <= emax)%R.
Proof. exact exRow_gershgorin. Qed.
Example c63_normalize_instance : exists Cs, row_normalize exDom2 [exR; exR] (-2) 2 (fun _ => exRS) = Ok Cs /\\
  held 2 exDom2 2 2 Cs (fun i j => (2 * mid (F:=Rscalar) i j - emat exR i j) / (2 - -2))%R.
Proof. exact exRow_normalize. Qed.''',
('c63_dense_gather', 'row_gather_dense_ok', None),
('c63_dense_scale', 'row_scale_dense_ok', None),
('c63_dense_add_partial', 'row_add_dense_elements_ok', 'dense addition with an offset counted in elements ...'),
('c63_dense_add_refuted', 'row_add_dense_refuted', '... but the offset is counted in bytes'),
('c63_dense_add_alignment_refuted', 'row_add_dense_alignment_refuted', None),
('c63_dense_add_identity', 'row_add_identity_dense_ok', None),
('c63_dense_threshold', 'row_threshold_dense_ok', None),
('c63_dense_element_multiply', 'row_element_multiply_dense_ok', None),
('c63_dense_transpose_new', 'row_transpose_new_dense_ok', None),
('c63_dense_multiply', 'row_multiply_dense_ok', None),
('c63_dense_trace', 'row_trace_dense_ok', None),
('c63_dense_sum_squares', 'row_sum_squares_dense_ok', None),
('c63_dense_trace_mult', 'row_trace_mult_dense_ok', None),
'''Example c63_dense_instance : row_domain 2 4 4 exDom4 /\\ held_dense 2 exDom4 4 [exOnes; exOnes] (denm exOnes) /\\
  row_domain 2 3 3 exDom /\\ held_dense 2 exDom 3 [exD; exD] (denm exD) /\\ my_cells exDom 3 1 = [6; 7; 8].
Proof.
  split; [exact exDom4_rows|]. split; [apply (held_dense_same 2); reflexivity|]. split; [exact exDom_rows|].
  split; [apply (held_dense_same 2); reflexivity|reflexivity].
Qed.''',
]
SUBST = {
 'c63_dense_add_refuted': [('row_add_dense d 8', 'row_add_dense (F:=Zscalar) d 8')],
 'c63_dense_add_alignment_refuted': [('row_add_dense d 8', 'row_add_dense (F:=Zscalar) d 8')],
 'c63_normalize': [('mid i j', 'mid (F:=Rscalar) i j')],
}
