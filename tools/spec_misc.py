OUT='PropsMisc.v'
HEADER='''(** C02, C22, C42, C55, C61, C71: set_element_new, clear, get_sparse_row, ellblock noinit and fnorm2, the memory of two more calls. *)
From Verif Require Import Base Spec EllpackModel EllpackSpec EllpackCheck CsrModel CsrSpec CsrCheck MemModel MemSpec MemThms MiscFacts
  EllblockModel EllblockSpec EllblockHist EllblockCheck EllblockFnorm2.
'''
ITEMS=[
("c02_set_element_new","ell_set_element_new_ok2","bml_set_element_new of an element that is not stored, in a row with room"),
("c02_set_element_new_refuted","ell_set_element_new_dup","of a stored element: a second entry, and the old value is still the one found"),
("c02_set_element_new_full_refuted","ell_set_element_new_full","in a full last row: a write past the end of the arrays"),
'''Example c02_set_element_new_instance : wf exA /\\ nnz exA 2 < eM exA /\\ stored exA 2 1 = false /\\ stored exA 2 0 = true.
Proof. split; [apply exA_wf|]. repeat split; vm_compute; auto. Qed.''',
("c22_clear","ell_clear_ok","bml_clear: whatever the rows held"),
("c55_csr_get_sparse_row","csr_get_sparse_row_spec","the sparse row of a csr matrix"),
"Example c55_csr_get_sparse_row_instance : cwf exCA /\\ csr_get_sparse_row exCA 1 = Ok [(2, 5%Z); (1, 2%Z)].\nProof. split; [apply exCA_wf|reflexivity]. Qed.",
("c71_small","mem_small","scale into a new dense matrix; the temporary rows of ellpack trace_mult and matrix2submatrix"),
"Example c71_small_instance : good_alloc next_addr.\nProof. exact next_addr_good. Qed.",
("c42_noinit","eb_noinit_again","bml_noinit_matrix (ellblock) once default sizes are set: their size, or it stops"),
("c61_fnorm2","eb_fnorm2_ok","ellblock fnorm2: where every block of B has a counterpart in A and no block row is empty in B alone, the sum of the squares of A - B"),
'''Definition exEF : eb Zscalar := Eval vm_compute in got (imported (Some d222) 6 6 (tab [(0, 4, 1%Z); (2, 3, 3%Z); (4, 0, 2%Z)])).
Example c61_fnorm2_instance : ebwf exEA /\\ ebwf exEF /\\ eb_dims exEA exEF /\\ bMB exEA = bMB exEF /\\
  (forall ib, ib < bNB exEA -> incl (bcols exEF ib) (bcols exEA ib)) /\\ (forall ib, ib < bNB exEA -> bcols exEF ib = [] -> bcols exEA ib = []) /\\
  eb_fnorm2_sq exEA exEF = Ok 82%Z /\\ sizes_for d222 6.
Proof.
  split; [ebwf_now|]. split; [ebwf_now|]. split; [repeat split|]. split; [reflexivity|].
  split; [intros [|[|[|ib]]] H; [vm_compute; tauto..|vm_compute in H; lia]|].
  split; [intros [|[|[|ib]]] H; [vm_compute; intros E; congruence..|vm_compute in H; lia]|].
  split; [reflexivity|repeat split; cbn; lia].
Qed.''',
]
SUBST = {'c42_noinit': [('eb_noinit (Some d) N M = Err', 'eb_noinit (F:=F) (Some d) N M = Err')]}
