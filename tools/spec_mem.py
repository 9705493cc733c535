OUT = 'PropsMem.v'
HEADER = '''(** C71, C72: objects allocated and freed.  [uses take m give lost] (MemSpec.v): started with the live objects [take] and any others, the
    call [m] returns without freeing an object that is not live, and afterwards the live objects are the others, those the result owns ([give])
    and [lost] more.  [own_mat], [own_csr], ...: the objects of a matrix; [good_alloc fresh]: the allocator hands out no live object.
    [orphans A]: blocks of the heap of an ellblock matrix that are live but in no slot in use (EllblockMemSpec.v). *)
From Coq Require Import ZArith Permutation.
From Verif Require Import Base BaseFacts Spec MemModel MemSpec MemProg
  EllpackModel EllpackSpec EllpackCheck EllblockModel EllblockSpec EllblockCheck EllblockMemModel EllblockMemSpec MemThms.
'''
ITEMS = [
('c71_programs', 'run_ok', 'any sequence of calls, in any formats, started with the variables [vs]: it returns, and afterwards exactly the objects of the variables and n others are live; n is computed by [q_run] from the formats of the variables'),
('c71_programs_closed', 'run_closed', 'started with nothing, and every matrix and array deallocated by the caller: the objects left are the n lost ones; none if the program calls neither bml_transpose_new nor bml_extract_submatrix'),
'''Example c71_programs_instance : good_alloc next_addr /\\ q_run exProg [] = Some (repeat None 5, 0) /\\ forallb harmless exProg = true /\\
  q_run exLeak [] = Some (repeat None 4, 5) /\\ exists vs h, m_run next_addr exLeak [] (mkHeap 0 []) = Ok (vs, h) /\\ length (hlive h) = 5.
Proof. split; [exact next_addr_good|]. split; [apply exProg_ok|]. split; [apply exProg_ok|]. exact exLeak_ok. Qed.''',
('c71_deallocate', 'mem_deallocate', 'bml_deallocate frees every object of a dense, ellpack or csr matrix, once'),
('c71_deallocate_twice', 'mem_double_free', 'a second call is undefined behaviour'),
('c71_zero', 'mem_zero', None),
('c71_import', 'mem_import', None),
('c71_random', 'mem_random', None),
('c71_copy_new', 'mem_copy_new', None),
('c71_multiply', 'mem_multiply', 'the temporary product and the trace array are freed in each of the cases A == B, alpha == 1, beta == 0'),
('c71_inverse', 'mem_inverse', None),
('c71_diagonalize', 'mem_diagonalize', None),
('c71_reorder', 'mem_reorder', None),
('c71_csr_rows', 'mem_csr_rows', 'csr set_row, add (a hash table per row), sums over A and B, conversion'),
('c71_transpose_new', 'mem_transpose_new', 'dense and csr'),
('c71_transpose_new_refuted', 'mem_transpose_new_refuted', 'ellpack: the array of locks is not freed'),
('c71_adjacency_group_refuted', 'mem_adjacency_refuted', 'ellpack: the copy of the vertices is not freed'),
('c71_extract_submatrix_refuted', 'mem_extract_refuted', 'csr: two arrays per row are not freed'),
('c71_dist_deallocate', 'mem_dist_deallocate', None),
('c71_dist_new', 'mem_dist_new', None),
('c71_dist_ops', 'mem_dist_ops', 'Cannon product, transpose, Gershgorin bounds on one task'),
('c71_dist_export_refuted', 'mem_dist_export_refuted', 'the send buffer is not freed'),
('c71_dist_get_row_refuted', 'mem_dist_get_row_refuted', 'on the tasks that hold a part of the row, that part is not freed'),
('c71_dist_convert_refuted', 'mem_dist_convert_refuted', 'the local matrix made first is lost with all its objects'),
'''Example c71_instance : fine_growth (QCsr 3) [(0, (true, false)); (2, (true, true))] /\\ Forall (grows_in 2) [[(0, (true, true))]; []] /\\
  length (cs_rows (mkMCsr 1 2 [mkMRow 3 4 5; mkMRow 6 7 8])) = 2 /\\ size_of (q_new KCsr 4) = 14 /\\
  extract_loss [[(0, (true, true))]; []] (MCsr (mkMCsr 1 2 [])) = 4.
Proof. repeat split; repeat constructor. Qed.''',
('c72_deallocate', 'ellblock_deallocate', 'bml_deallocate of an ellblock matrix frees each block in use once; what is left are the orphans'),
('c72_new', 'ellblock_new_orphans', 'matrices made by the constructors have none'),
('c72_keep', 'ellblock_keep_orphans', 'these calls make none'),
'''Example c72_instance : ebwf exEA /\\ orphans exEA = 0%Z /\\ blocks exEA = 4 /\\
  exists A A', eb_set_element (F:=Zscalar) exEA 3 5 9%Z (fun _ => 7%Z) = Ok A /\\ eb_threshold (F:=Zscalar) (gtZ 4) A = Ok A' /\\
    blocks A = 5 /\\ blocks A' = 2 /\\ orphans A' = 0%Z.
Proof. split; [apply exEA_wf|]. split; [reflexivity|]. split; [reflexivity|]. vm_compute. eexists _, _. repeat split; reflexivity. Qed.''',
('c72_add_refuted', 'ellblock_add_refuted', 'bml_add: blocks below the threshold leave the rows but not the memory; bml_deallocate does not find them'),
('c72_copy_refuted', 'ellblock_copy_refuted', 'bml_copy over a matrix with more blocks'),
]
SUBST = {'c72_add_refuted': [], 'c72_copy_refuted': []}
