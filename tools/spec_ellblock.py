OUT = 'PropsEllblock.v'
HEADER = '''(** Theorems about block ellpack matrices: default block sizes (C42), element access (C43), set_row (C44), products (C45),
    in-place transpose (C46), sums (C58), copies, scaling, threshold and transpose into a new matrix (C59), import, export,
    conversion and blocks (C60), reductions (C61). *)
From Verif Require Import Base Spec SpecFacts EllpackModel EllpackSpec EllpackExact EllpackCheck
  EllblockModel EllblockSpec EllblockFacts EllblockHeap EllblockRead EllblockBuild EllblockMake EllblockSet EllblockCopy
  EllblockAdd EllblockProd EllblockPtr EllblockConv EllblockTrans EllblockNorm EllblockHist EllblockCheck FormatCheck.
'''
W = 'ebwf exEA /\\ clean exEA /\\ ebwf exEB /\\ clean exEB /\\ eb_dims exEA exEB /\\ bMB exEA = bMB exEB'
ITEMS = [
('c42_first', 'eb_zero_first', 'C42: with no default sizes set, the matrix has the size asked for'),
('c42_later_actual', 'eb_zero_again', 'later matrices have the size of the first, or the call stops'),
('c42_history_actual', 'make_all_sizes', 'over a history of constructor calls'),
('c42_size_refuted', 'zero_size_refuted', None),
('c42_noinit_refuted', 'noinit_refuted', None),
('c42_identity', 'eb_identity_ok', 'the identity, when the default sizes are those of N rows'),
'''Example c42_instance : exists d, bml_get_block_sizes None 7 3 = Ok d /\\ sizes_for d 7 /\\ s_bsize d = [4; 3] /\\ sizes_for d222 6 /\\
  exists (A : eb Zscalar) (l : list (eb Zscalar)) c, make_all [(7, 3); (9, 2)] None = Ok (c, l) /\\ length l = 2 /\\ In A l /\\ bN A = 7.
Proof. eexists. split; [reflexivity|]. split; [repeat split; cbn; lia|]. split; [reflexivity|]. split; [repeat split; cbn; lia|].
  do 3 eexists. split; [vm_compute; reflexivity|]. split; [reflexivity|]. split; [left; reflexivity|reflexivity]. Qed.''',
('c43_get_element', 'eb_get_element_ok', 'C43'),
('c43_get_element_range', 'eb_get_element_oob', None),
('c43_get_row', 'eb_get_row_ok', None),
('c43_get_diagonal', 'eb_get_diagonal_ok', None),
('c43_set_element', 'eb_set_element_ok', None),
('c43_set_element_full', 'eb_set_element_full', None),
('c43_history', 'eb_set_history', 'any sequence of set_element calls on a matrix without stale pointers'),
('c43_history_room', 'eb_set_history_room', None),
('c43_set_diagonal', 'eb_set_diagonal_ok', None),
'''Example c43_instance : ebwf exEN /\\ clean exEN /\\ bsz (bbs exEN) 1 = 1 /\\ bsz (bbs exEN) 2 = 2 /\\ bcols exEN 0 = [0; 1] /\\ ~ In (blk_of exEN 4) (bcols exEN (blk_of exEN 0)) /\\
  bnz exEN (blk_of exEN 0) < bMB exEN /\\ bNB exEN <= bMB exEN /\\ ebmx exEN 2 4 = 3%Z /\\
  dkeep (bbs exEN) (gtZ 0) ([0; 7; 0; 0; 1]%Z : list Zscalar) 0 = true /\\
  exists A', set_all [(0, 4, 9%Z : Zscalar); (2, 4, 0%Z : Zscalar); (0, 4, 8%Z : Zscalar)] Zg exEN = Ok A' /\\ ebmx A' 0 4 = 8%Z /\\ ebmx A' 1 2 = 2%Z.
Proof. split; [apply exEN_wf|]. split; [apply exEN_wf|]. split; [reflexivity|]. split; [reflexivity|]. split; [reflexivity|]. split; [vm_compute; intuition discriminate|].
  split; [vm_compute; lia|]. split; [vm_compute; lia|]. split; [reflexivity|]. split; [reflexivity|]. eexists. split; [vm_compute; reflexivity|]. split; reflexivity. Qed.''',
('c44_set_row_actual', 'eb_set_row_ok', 'C44: kept elements are stored, the others keep their old value'),
('c44_set_row_partial', 'eb_set_row_fresh', 'missing: rows with stored elements, rows with more blocks than slots'),
('c44_set_row_refuted', 'set_row_refuted', None, 'EllblockCheck.v'),
('c44_set_row_overflow_refuted', 'set_row_overflow_refuted', None, 'EllblockCheck.v'),
'''Example c44_instance : ebwf exEB /\\ clean exEB /\\ count (bNB exEB) (row_cols (gtZ 0) exEB 2 ([0; 0; 3; 0; 0; 4]%Z : list Zscalar)) <= bMB exEB /\\
  forall j, j < bN exEB -> ebmx exEB 2 j = 0%Z.
Proof. split; [apply exEB_wf|]. split; [apply exEB_wf|]. split; [vm_compute; lia|]. intros j Hj. change (bN exEB) with 6 in Hj. do 6 (destruct j as [|j]; [reflexivity|]). lia. Qed.''',
('c45_multiply_AB', 'eb_multiply_AB_ok', 'C45: the product with a threshold per block, any schedule'),
('c45_multiply_AB_full', 'eb_multiply_AB_full', 'too many blocks in a row: the call stops'),
('c45_multiply_x2', 'eb_multiply_x2_ok', 'trace(X) always, trace(X^2) when all blocks have the same size'),
('c45_multiply_x2_full', 'eb_multiply_x2_full', None),
('c45_trace_refuted', 'trace_x2_refuted', None, 'EllblockCheck.v'),
('c45_multiply', 'eb_multiply_ok', 'alpha A B + beta C'),
('c45_multiply_exact', 'eb_multiply_exact', None),
('c45_multiply_new', 'eb_multiply_new_ok', None),
('c45_multiply_square', 'eb_multiply_sq_ok', None),
('c45_square', 'eb_multiply_sq_square', None),
('c45_trace_mult', 'eb_trace_mult_ok', None),
'''Example c45_instance : '''+W+''' /\\ small_blocks exEA /\\ uniform 2 exEA /\\ roomy (2 * 2) exEB /\\ small_blocks exEN /\\
  (forall ib, ib < bNB exEA -> length (mul_cols exEA exEB ib) <= bMB exEA) /\\ (forall ib, ib < bNB exEA -> length (mul_cols exEA exEA ib) <= bMB exEA) /\\
  (forall ib, ib < bNB exEA -> length (touch_all (bcols exEB ib) (mul_cols exEA exEA ib)) <= bMB exEB) /\\
  full_sched (bNB exEA) 2 [(1, 2); (0, 0); (1, 1)] /\\ mmul 6 (ebmx exEA) (ebmx exEB) 1 4 = 6%Z /\\ good_cache (Some d222).
Proof. split; [apply exEA_wf|]. split; [apply exEA_wf|]. split; [apply exEB_wf|]. split; [apply exEB_wf|]. split; [repeat split|]. split; [reflexivity|].
  split; [intros ib Hi; rows3 Hi|]. split; [intros ib Hi; rows3 Hi|]. split; [exact exEB_roomy|]. split; [intros ib Hi; rows3 Hi|].
  split; [intros ib Hi; rows3 Hi|]. split; [intros ib Hi; rows3 Hi|]. split; [intros ib Hi; rows3 Hi|]. split; [exact exE_sched|]. split; [reflexivity|discriminate]. Qed.''',
('c46_transpose', 'eb_transpose_ok', 'C46: the in-place transpose itself'),
('c46_after_transpose_refuted', 'after_transpose_refuted', 'but a following set_element may stop', 'EllblockCheck.v'),
('c46_add_after_transpose_refuted', 'add_after_transpose_refuted', 'and a following bml_add overwrite another block', 'EllblockCheck.v'),
('c46_after_clear_refuted', 'after_clear_refuted', 'the same after bml_clear and bml_multiply_x2', 'EllblockCheck.v'),
('c46_after_x2_refuted', 'after_x2_refuted', None, 'EllblockCheck.v'),
'''Example c46_instance : ebwf exEN /\\ (forall r, r < bNB exEN -> count (bNB exEN) (fun c => has_block exEN r c || has_block exEN c r) <= bMB exEN) /\\
  exists B, eb_transpose exEN Zg = Ok B /\\ ebmx B 4 2 = 3%Z /\\ ebmx B 0 4 = (-5)%Z.
Proof. split; [apply exEN_wf|]. split; [intros r Hr; rows3 Hr|]. eexists. split; [vm_compute; reflexivity|]. split; reflexivity. Qed.''',
('c58_add', 'eb_add_ok', 'C58: addition, when every kept block fits into the slot it is put in'),
('c58_add_uniform', 'eb_add_uniform', 'blocks of one size always fit'),
('c58_add_identity', 'eb_add_identity_ok', None),
('c58_scale_add_identity', 'eb_scale_add_identity_ok', None),
('c58_add_refuted', 'add_overflow_refuted', 'with blocks of different sizes a block may be written into a smaller one', 'EllblockCheck.v'),
('c58_add_identity_refuted', 'add_identity_refuted', 'a converted matrix and the identity have different numbers of slots', 'EllblockCheck.v'),
'''Example c58_instance : '''+W+''' /\\ uniform 2 exEA /\\ roomy (2 * 2) exEA /\\ own_sizes (Some d222) exEA /\\ 0 < bN exEA /\\
  (forall ib, ib < bNB exEA -> length (add_cols (2%Z : Zscalar) (3%Z : Zscalar) exEA exEB ib) <= bMB exEA) /\\
  (forall ib, ib < bNB exEA -> In ib (bcols exEA ib) \\/ bnz exEA ib < bMB exEA) /\\ full_sched (bNB exEA) 2 [(1, 2); (0, 0); (1, 1)] /\\
  add_fits (gtZ 0) (1%Z : Zscalar) (1%Z : Zscalar) exEN exEN /\\ tidy exEN.
Proof. split; [apply exEA_wf|]. split; [apply exEA_wf|]. split; [apply exEB_wf|]. split; [apply exEB_wf|]. split; [repeat split|]. split; [reflexivity|].
  split; [intros ib Hi; rows3 Hi|]. split; [exact exEA_roomy|]. split; [reflexivity|]. split; [cbn; lia|]. split; [intros ib Hi; rows3 Hi|].
  split; [intros ib Hi; rows3 Hi|]. split; [exact exE_sched|]. split.
  - intros ib Hi. do 3 (destruct ib as [|ib]; [split; [vm_compute; lia|]; intros q Hq; do 3 (destruct q as [|q]; [first [vm_compute in Hq; lia | right; eexists; split; [vm_compute; reflexivity|vm_compute; lia]]|]); vm_compute in Hq; lia|]). cbn in Hi; lia.
  - apply ownb_ok. vm_compute. reflexivity. Qed.''',
('c59_copy_new', 'eb_copy_new_ok', 'C59'),
('c59_copy', 'eb_copy_ok', None),
('c59_scale', 'eb_scale_inplace_ok', None),
('c59_threshold_new', 'eb_threshold_new_ok', None),
('c59_threshold', 'eb_threshold_ok', None),
('c59_transpose_new', 'eb_transpose_new_ok', None),
('c59_clear', 'eb_clear_zero', None),
'''Example c59_instance : ebwf exEN /\\ eb_shape exEN /\\ tidy exEN /\\ good_cache (Some d212) /\\ good_cache None /\\ (forall ib, ib < bNB exEN -> 0 < bsz (bbs exEN) ib < 10) /\\
  (forall jb, jb < bNB exEN -> count (bNB exEN) (fun ib => has_block exEN ib jb) <= bMB exEN) /\\
  (forall ib jp, ib < bNB exEN -> jp < bnz exEN ib -> slot_fits exEN ib jp (bsz (bbs exEN) ib * bsz (bbs exEN) (scol exEN ib jp))) /\\
  full_sched (bNB exEN) 2 [(1, 2); (0, 0); (1, 1)] /\\ mcut (gtZ 2) (ebmx exEN) 2 4 = 3%Z /\\ mcut (gtZ 2) (ebmx exEN) 1 2 = 0%Z.
Proof. split; [apply exEN_wf|]. split; [apply exEN_wf|]. split; [apply ownb_ok; vm_compute; reflexivity|]. split; [discriminate|]. split; [exact I|]. split; [intros ib Hi; rows3 Hi|].
  split; [intros ib Hi; rows3 Hi|]. split; [|split; [exact exE_sched|split; reflexivity]].
  intros ib jp Hi Hj. destruct (proj2 (proj2 (proj1 exEN_wf)) ib Hi) as [_ _ H]. right. exact (H jp Hj). Qed.''',
('c60_import', 'eb_import_ok', 'C60: import keeps blocks with an element above the threshold'),
('c60_export', 'eb_export_ok', None),
('c60_convert', 'eb_convert_ok', None),
('c60_set_block', 'eb_set_block_ok', None),
('c60_set_block_absent', 'eb_set_block_absent', None),
'''Example c60_instance : bml_get_block_sizes (Some d212) 5 5 = Ok d212 /\\ sizes_for d212 5 /\\ ebwf exEN /\\ (forall ib, ib < bNB exEN -> 0 < bsz (bbs exEN) ib) /\\
  In 1 (bcols exEN 0) /\\ ~ In 2 (bcols exEN 0) /\\ exists D, eb_export exEN col_major = Ok D /\\ length D = 25 /\\
  (forall ib, ib < s_nb d212 -> count (s_nb d212) (blk_keep (s_bsize d212) (gtZ 2) (dmat col_major 5 D) ib) <= s_mb d212) /\\
  bcut [2; 1; 2] (gtZ 2) (dmat col_major 5 D) 1 2 = 0%Z.
Proof. split; [reflexivity|]. split; [repeat split; cbn; lia|]. split; [apply exEN_wf|]. split; [intros ib Hi; rows3 Hi|]. split; [vm_compute; auto|]. split; [vm_compute; intuition discriminate|].
  eexists. split; [vm_compute; reflexivity|]. split; [reflexivity|]. split; [intros ib Hi; rows3 Hi|]. reflexivity. Qed.''',
('c61_trace', 'eb_trace_ok', 'C61'),
('c12_ellblock_trace', 'eb_trace_ok', None),
('c61_sum_squares', 'eb_sum_squares_ok', None),
('c61_sum_squares2', 'eb_sum_squares2_ok', 'the threshold is applied to blocks'),
('c61_sum_squares2_exact', 'eb_sum_squares2_exact', None),
('c61_sum_AB_actual', 'eb_sum_AB_ok', 'absolute values are added, over blocks above the threshold'),
('c61_sum_AB_refuted', 'eb_sum_AB_refuted', None, 'EllblockCheck.v'),
('c61_sum_AB_overflow_actual', 'eb_sum_AB_overflow', None),
('c61_fnorm2_refuted', 'eb_fnorm2_refuted', None, 'EllblockCheck.v'),
('c61_nnz_above', 'eb_nnz_above_ok', 'number of elements above a threshold (sparsity)'),
('c61_row_bandwidth', 'eb_row_bandwidth_ok', None),
'''Example c61_instance : '''+W+''' /\\ bNB exEA <= bMB exEA /\\ keeps_nonzero (gtZ 0 : Zscalar -> bool) /\\ gtZ 0 0%Z = false /\\
  eb_trace exEN = Ok 1%Z /\\ eb_sum_squares2 (gtZ 0) 1%Z 2%Z exEA exEB = Ok 308%Z /\\ eb_row_bandwidth exEN 0 = Ok 3.
Proof. split; [apply exEA_wf|]. split; [apply exEA_wf|]. split; [apply exEB_wf|]. split; [apply exEB_wf|]. split; [repeat split|]. split; [reflexivity|].
  split; [cbn; lia|]. split; [apply gtZ0_exact|]. split; [reflexivity|]. split; [vm_compute; reflexivity|]. split; vm_compute; reflexivity. Qed.''',
]
SUBST = {
 'c42_later_actual': [('eb_zero (Some d) N M = Err', 'eb_zero (F:=F) (Some d) N M = Err')],
 'c42_history_actual': [('None = Err', 'None = @Err (cache * list (eb F))')],
 'c42_noinit_refuted': [('eb_noinit None N M', 'eb_noinit (F:=Zscalar) None N M')],
}
