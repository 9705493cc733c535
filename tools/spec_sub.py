OUT = 'PropsSub.v'
HEADER = '''(** Theorems about the submatrix and graph functions of the ellpack format: extract and assign (C34), adjacency (C35),
    matrix of groups (C36), adjungate triangle (C49), core+halo submatrices (C62). *)
From Verif Require Import Base Spec SpecFacts EllpackModel EllpackSpec EllpackExact EllpackCheck
  DenseModel DenseSpec SubModel SubSpec SubIndex SubBlock SubSame SubAdj SubGroup SubCheck.
'''
ITEMS = [
('c34_ellpack_extract', 'ell_extract_ok', 'C34'),
('c34_ellpack_assign_partial', 'ell_assign_ok', 'missing: blocks with stored elements, rows without room'),
('c34_ellpack_assign_extract_partial', 'ell_assign_extract', None),
('c34_ellpack_assign_refuted', 'ell_assign_refuted', None, 'SubCheck.v'),
'''Example c34_ellpack_instance : wf exG /\\ 1 + 2 <= eN exG /\\ (forall i, i < 2 -> block_count exG 1 2 (1 + i) <= 2) /\\
  wf exDg /\\ (exists B : ell Zscalar, ell_extract exG 1 1 2 2 = Ok B /\\ emat B 1 0 = 5%Z /\\ wf B /\\ 0 + eN B <= eN exDg /\\ 2 + eN B <= eN exDg /\\
    (forall i, i < eN B -> nnz exDg (0 + i) + nnz B i <= eM exDg) /\\
    exists A', ell_assign exDg B 0 2 = Ok A' /\\ emat A' 1 2 = 5%Z /\\ emat A' 1 1 = 2%Z) /\\
  (forall i j, i < 2 -> j < 2 -> stored exDg (0 + i) (2 + j) = false).
Proof. split; [apply exG_wf|]. split; [simpl; lia|]. split; [intros i Hi; do 2 (destruct i as [|i]; [vm_compute; lia|]); lia|]. split; [apply wfb_ok; reflexivity|]. split.
  - eexists. split; [vm_compute; reflexivity|]. split; [reflexivity|]. split; [apply wfb_ok; reflexivity|]. split; [simpl; lia|]. split; [simpl; lia|].
    split; [intros i Hi; simpl in Hi; do 2 (destruct i as [|i]; [vm_compute; lia|]); lia|]. eexists. split; [vm_compute; reflexivity|]. split; reflexivity.
  - intros i j Hi Hj. do 2 (destruct i as [|i]; [do 2 (destruct j as [|j]; [reflexivity|]); lia|]). lia. Qed.''',
('c35_adjacency_partial', 'ell_adjacency_ok', 'C35: all rows store their diagonal, or none does; missing: other matrices'),
('c35_adjacency_refuted', 'adjacency_refuted', None, 'SubCheck.v'),
('c35_adjacency_overrun_refuted', 'adjacency_overrun_refuted', None, 'SubCheck.v'),
('c35_adjacency_negative_refuted', 'adjacency_negative_refuted', None, 'SubCheck.v'),
('c35_adjacency_group', 'ell_adjacency_group_ok', 'among listed rows; 1-based output needs one extra element in adjncy'),
('c35_adjacency_group_refuted', 'adjacency_group_refuted', None, 'SubCheck.v'),
'''Example c35_instance : wf exG /\\ (forall i, i < eN exG -> has_diag exG i = true) /\\ nsum (eN exG) (deg exG) = 4 /\\ full_sched (eN exG) 2 exS4 /\\
  ell_adjacency exG [9; 9; 9; 9; 9] [9; 9; 9; 9] true exS4 exS4 exS4 = Ok ([1; 2; 3; 4; 5], [4; 3; 2; 1]) /\\
  nbr_nodes exG [1; 2; 4] 0 = [0; 2].
Proof. split; [apply exG_wf|]. split; [intros i Hi; simpl in Hi; do 4 (destruct i as [|i]; [reflexivity|]); lia|]. split; [reflexivity|]. split; [apply exS4_full|]. split; reflexivity. Qed.''',
('c36_group_matrix_partial', 'ell_group_matrix_ok', 'C36: never too many connections; all of them when every thread runs at most one row.  Missing: threads that run several rows (refuted)'),
('c36_group_matrix_ibm', 'ell_group_matrix_ibm_ok', 'the variant compiled by the IBM compilers, any schedule'),
('c36_group_matrix_refuted', 'group_matrix_refuted', None, 'SubCheck.v'),
'''Example c36_instance : wf exG /\\ groups_ok (eN exG) [1; 2; 4] /\\ full_sched 3 3 exS3each /\\ NoDup (map fst exS3each) /\\
  exists B, ell_group_matrix (gtZ 0) exG [1; 2; 4] (fun _ => k0) (fun _ => 0) exS3each = Ok B /\\ stored B 0 2 = true /\\ stored B 0 1 = false.
Proof. split; [apply exG_wf|]. split; [repeat split; try (simpl; lia); intros i Hi; simpl in Hi; do 2 (destruct i as [|i]; [simpl; lia|]); lia|].
  split; [apply full_schedb; reflexivity|]. split; [apply nodupb_ok; reflexivity|]. eexists. split; [vm_compute; reflexivity|]. split; reflexivity. Qed.''',
('c49_ellpack_adjungate_partial', 'ell_adjungate_ok', 'C49: the target triangle holds no elements and M is at least N; missing: other matrices (refuted)'),
('c49_ellpack_adjungate_refuted', 'ell_adjungate_refuted', None, 'SubCheck.v'),
('c49_ellpack_adjungate_lock_refuted', 'ell_adjungate_lock_refuted', None, 'SubCheck.v'),
'''Example c49_ellpack_instance : wf exUp /\\ eN exUp <= eM exUp /\\ (forall i j, i < j < eN exUp -> stored exUp j i = false) /\\ full_sched (eN exUp) 2 exS /\\
  exists A', ell_adjungate (fun x => x) exUp TriU exS = Ok A' /\\ emat A' 2 1 = 4%Z /\\ emat A' 1 2 = 4%Z.
Proof. split; [apply exUp_wf|]. split; [simpl; lia|]. split; [intros i j H; simpl in H; destruct j as [|[|[|j]]]; try lia; destruct i as [|[|[|i]]]; try lia; reflexivity|].
  split; [apply exS_full|]. eexists. split; [vm_compute; reflexivity|]. split; reflexivity. Qed.''',
('c62_index', 'ell_sub_index_ok', 'C62'),
('c62_index_graph', 'ell_sub_index_graph_ok', None),
('c62_extract_partial', 'ell_sub_extract_ok', 'missing: rows without stored elements (refuted)'),
('c62_assemble', 'ell_sub_assemble_ok', None),
('c62_round_trip_partial', 'ell_sub_round_trip', 'missing: core or halo rows without stored elements'),
('c62_extract_refuted', 'sub_extract_refuted', None, 'SubCheck.v'),
('c62_assemble_refuted', 'sub_assemble_refuted', None, 'SubCheck.v'),
'''Example c62_instance : wf exG /\\ wf exA /\\ (forall k, k < eN exG -> 0 < nnz exG k) /\\
  ell_sub_index exG exG [3; 1; 3] [0; 0; 0; 0] false = Ok ([3; 1; 0; 2], 4, 2) /\\ full_sched 4 2 exS4 /\\ full_sched 2 1 [(0, 1); (0, 0)] /\\
  exists (D : dense Zscalar) (C : ell Zscalar), ell_sub_extract exG (@mkDense Zscalar 4 (repeat 0%Z 16)) [3; 1; 0; 2] exS4 = Ok D /\\ denm D 0 2 = 7%Z /\\
    ell_sub_assemble (gtZ 0) D (@mkEll Zscalar 4 2 (repeat 0%Z 8) (repeat 0 8) (repeat 0 4)) [3; 1; 0; 2] [(0, 1); (0, 0)] = Ok C /\\ emat C 3 0 = 7%Z /\\ emat C 0 3 = 0%Z.
Proof. split; [apply exG_wf|]. split; [apply exA_wf|]. split; [intros k Hk; simpl in Hk; do 4 (destruct k as [|k]; [vm_compute; lia|]); lia|].
  split; [reflexivity|]. split; [apply exS4_full|]. split; [apply full_schedb; reflexivity|].
  do 2 eexists. split; [vm_compute; reflexivity|]. split; [reflexivity|]. split; [vm_compute; reflexivity|]. split; reflexivity. Qed.''',
]
