(** C71, C72: objects allocated and freed.  [uses take m give lost] (MemSpec.v): started with the live objects [take] and any others, the
    call [m] returns without freeing an object that is not live, and afterwards the live objects are the others, those the result owns ([give])
    and [lost] more.  [own_mat], [own_csr], ...: the objects of a matrix; [good_alloc fresh]: the allocator hands out no live object.
    [orphans A]: blocks of the heap of an ellblock matrix that are live but in no slot in use (EllblockMemSpec.v). *)
From Coq Require Import ZArith Permutation.
From Verif Require Import Base BaseFacts Spec MemModel MemSpec MemProg
  EllpackModel EllpackSpec EllpackCheck EllblockModel EllblockSpec EllblockCheck EllblockMemModel EllblockMemSpec MemThms.

(** any sequence of calls, in any formats, started with the variables [vs]: it returns, and afterwards exactly the objects of the variables and n others are live; n is computed by [q_run] from the formats of the variables *)
Theorem c71_programs :
  forall fresh : nat -> list nat -> nat,
  good_alloc fresh ->
  forall (p : list mop) (vs : mvars) (h : heap) (rest : list nat) (ks : okinds) (n : nat),
  NoDup (hlive h) ->
  Permutation (hlive h) (own_vars vs ++ rest) ->
  q_run p (kinds_of vs) = Some (ks, n) ->
  exists (vs' : mvars) (h' : heap) (out : list nat),
    m_run fresh p vs h = Ok (vs', h') /\
    NoDup (hlive h') /\ Permutation (hlive h') (own_vars vs' ++ out ++ rest) /\ length out = n /\ kinds_of vs' = ks.
Proof. exact (@run_ok). Qed.
Print Assumptions c71_programs.

(** started with nothing, and every matrix and array deallocated by the caller: the objects left are the n lost ones; none if the program calls neither bml_transpose_new nor bml_extract_submatrix *)
Theorem c71_programs_closed :
  forall fresh : nat -> list nat -> nat,
  good_alloc fresh ->
  forall (p : list mop) (k n : nat),
  q_run p [] = Some (repeat None k, n) ->
  exists (vs : mvars) (h : heap),
    m_run fresh p [] {| htime := 0; hlive := [] |} = Ok (vs, h) /\
    length (hlive h) = n /\ (forallb harmless p = true -> hlive h = []).
Proof. exact (@run_closed). Qed.
Print Assumptions c71_programs_closed.

Example c71_programs_instance : good_alloc next_addr /\ q_run exProg [] = Some (repeat None 5, 0) /\ forallb harmless exProg = true /\
  q_run exLeak [] = Some (repeat None 4, 5) /\ exists vs h, m_run next_addr exLeak [] (mkHeap 0 []) = Ok (vs, h) /\ length (hlive h) = 5.
Proof. split; [exact next_addr_good|]. split; [apply exProg_ok|]. split; [apply exProg_ok|]. exact exLeak_ok. Qed.

(** bml_deallocate frees every object of a dense, ellpack or csr matrix, once *)
Theorem c71_deallocate :
  forall A : mmat, uses (own_mat A) (m_deallocate A) nothing 0.
Proof. exact (@mem_deallocate). Qed.
Print Assumptions c71_deallocate.

(** a second call is undefined behaviour *)
Theorem c71_deallocate_twice :
  forall (A : mmat) (h : heap) (rest : list nat),
  NoDup (hlive h) ->
  Permutation (hlive h) (own_mat A ++ rest) -> exists h' : heap, m_deallocate A h = Ok (tt, h') /\ m_deallocate A h' = UB.
Proof. exact (@mem_double_free). Qed.
Print Assumptions c71_deallocate_twice.

Theorem c71_zero :
  forall fresh : nat -> list nat -> nat,
  good_alloc fresh -> forall (k : mkind) (N : nat), uses [] (m_zero fresh k N) own_mat 0.
Proof. exact (@mem_zero). Qed.
Print Assumptions c71_zero.

Theorem c71_import :
  forall fresh : nat -> list nat -> nat,
  good_alloc fresh ->
  forall (k : mkind) (N : nat) (g : growth), fine_growth (q_new k N) g -> uses [] (m_import fresh k N g) own_mat 0.
Proof. exact (@mem_import). Qed.
Print Assumptions c71_import.

Theorem c71_random :
  forall fresh : nat -> list nat -> nat,
  good_alloc fresh ->
  forall (N : nat) (g : growth),
  grows_in N g -> uses [] (m_random_ellpack fresh) own_ellpack 0 /\ uses [] (m_random_csr fresh N g) own_csr 0.
Proof. exact (@mem_random). Qed.
Print Assumptions c71_random.

Theorem c71_copy_new :
  forall fresh : nat -> list nat -> nat, good_alloc fresh -> forall A : mmat, uses [] (m_copy_new fresh A) own_mat 0.
Proof. exact (@mem_copy_new). Qed.
Print Assumptions c71_copy_new.

(** the temporary product and the trace array are freed in each of the cases A == B, alpha == 1, beta == 0 *)
Theorem c71_multiply :
  forall fresh : nat -> list nat -> nat,
  good_alloc fresh ->
  forall (same plain : bool) (g1 : growth) (ts : list (list bool)) (g2 : growth) (C : mmat),
  fine_growth (kind_mat C) g1 ->
  fine_growth (kind_mat C) g2 -> uses (own_mat C) (m_multiply fresh same plain g1 ts g2 C) own_mat 0.
Proof. exact (@mem_multiply). Qed.
Print Assumptions c71_multiply.

Theorem c71_inverse :
  forall fresh : nat -> list nat -> nat,
  good_alloc fresh -> forall (g : growth) (A : mmat), fine_growth (kind_mat A) g -> uses [] (m_inverse fresh g A) own_mat 0.
Proof. exact (@mem_inverse). Qed.
Print Assumptions c71_inverse.

Theorem c71_diagonalize :
  forall fresh : nat -> list nat -> nat,
  good_alloc fresh ->
  forall (c : bool) (g : growth) (A : mmat), fine_growth (kind_mat A) g -> uses [] (m_diagonalize fresh c g A) nothing 0.
Proof. exact (@mem_diagonalize). Qed.
Print Assumptions c71_diagonalize.

Theorem c71_reorder :
  forall fresh : nat -> list nat -> nat,
  good_alloc fresh -> uses [] (m_reorder_dense fresh) nothing 0 /\ uses [] (m_reorder_ellpack fresh) nothing 0.
Proof. exact (@mem_reorder). Qed.
Print Assumptions c71_reorder.

(** csr set_row, add (a hash table per row), sums over A and B, conversion *)
Theorem c71_csr_rows :
  forall fresh : nat -> list nat -> nat,
  good_alloc fresh ->
  forall (N : nat) (ts : list (list bool)) (g : growth) (gs : list growth) (A : mcsr),
  length (cs_rows A) = N ->
  grows_in N g ->
  Forall (grows_in N) gs ->
  uses (own_csr A) (m_set_row_csr fresh g A) own_csr 0 /\
  uses (own_csr A) (m_add_csr fresh ts g A) own_csr 0 /\
  uses [] (m_sums_csr fresh ts) nothing 0 /\ uses [] (m_convert_csr fresh N gs) own_csr 0.
Proof. exact (@mem_csr_rows). Qed.
Print Assumptions c71_csr_rows.

(** dense and csr *)
Theorem c71_transpose_new :
  forall fresh : nat -> list nat -> nat,
  good_alloc fresh ->
  forall (g : growth) (A : mmat),
  fine_growth (kind_mat A) g -> kind_mat A <> QEll -> uses [] (m_transpose_new fresh g A) own_mat 0.
Proof. exact (@mem_transpose_new). Qed.
Print Assumptions c71_transpose_new.

(** ellpack: the array of locks is not freed *)
Theorem c71_transpose_new_refuted :
  forall fresh : nat -> list nat -> nat, good_alloc fresh -> uses [] (m_transpose_new_ellpack fresh) own_ellpack 1.
Proof. exact (@mem_transpose_new_refuted). Qed.
Print Assumptions c71_transpose_new_refuted.

(** ellpack: the copy of the vertices is not freed *)
Theorem c71_adjacency_group_refuted :
  forall fresh : nat -> list nat -> nat, good_alloc fresh -> uses [] (m_adjacency_group_ellpack fresh) nothing 1.
Proof. exact (@mem_adjacency_refuted). Qed.
Print Assumptions c71_adjacency_group_refuted.

(** csr: two arrays per row are not freed *)
Theorem c71_extract_submatrix_refuted :
  forall fresh : nat -> list nat -> nat,
  good_alloc fresh ->
  forall (BN : nat) (gs : list growth) (A : mmat),
  match A with
  | MCsr _ => Forall (grows_in BN) gs
  | _ => True
  end -> uses [] (m_extract_submatrix fresh BN gs A) own_mat (extract_loss gs A).
Proof. exact (@mem_extract_refuted). Qed.
Print Assumptions c71_extract_submatrix_refuted.

Theorem c71_dist_deallocate :
  forall A : mdist, uses (own_dist A) (m_deallocate_dist A) nothing 0.
Proof. exact (@mem_dist_deallocate). Qed.
Print Assumptions c71_dist_deallocate.

Theorem c71_dist_new :
  forall fresh : nat -> list nat -> nat,
  good_alloc fresh ->
  forall (root : bool) (nt : nat) (k : mkind) (n : nat) (g : growth) (A : mdist),
  fine_growth (q_new k n) g ->
  uses [] (m_zero_dist fresh k n) own_dist 0 /\
  uses [] (m_import_dist fresh root nt k n g) own_dist 0 /\ uses [] (m_copy_new_dist fresh A) own_dist 0.
Proof. exact (@mem_dist_new). Qed.
Print Assumptions c71_dist_new.

(** Cannon product, transpose, Gershgorin bounds on one task *)
Theorem c71_dist_ops :
  forall fresh : nat -> list nat -> nat,
  good_alloc fresh ->
  forall (gs : list (growth * list (list bool) * growth)) (b : bool) (A B C : mdist),
  Forall
    (fun x : growth * list (list bool) * growth =>
     fine_growth (kind_mat (di_mat C)) (fst (fst x)) /\ fine_growth (kind_mat (di_mat C)) (snd x)) gs ->
  uses (own_dist C) (m_multiply_dist fresh gs A B C) own_dist 0 /\
  uses [] (m_transpose_dist fresh A) nothing 0 /\ uses [] (m_gershgorin_dist fresh b) (fun p : nat => [p]) 0.
Proof. exact (@mem_dist_ops). Qed.
Print Assumptions c71_dist_ops.

(** the send buffer is not freed *)
Theorem c71_dist_export_refuted :
  forall fresh : nat -> list nat -> nat,
  good_alloc fresh -> forall (root : bool) (nt : nat), uses [] (m_export_dist fresh root nt) own_opt 1.
Proof. exact (@mem_dist_export_refuted). Qed.
Print Assumptions c71_dist_export_refuted.

(** on the tasks that hold a part of the row, that part is not freed *)
Theorem c71_dist_get_row_refuted :
  forall fresh : nat -> list nat -> nat,
  good_alloc fresh ->
  uses [] (m_get_row_dist fresh true) (fun p : nat => [p]) 1 /\ uses [] (m_get_row_dist fresh false) (fun p : nat => [p]) 0.
Proof. exact (@mem_dist_get_row_refuted). Qed.
Print Assumptions c71_dist_get_row_refuted.

(** the local matrix made first is lost with all its objects *)
Theorem c71_dist_convert_refuted :
  forall fresh : nat -> list nat -> nat,
  good_alloc fresh ->
  forall (k : mkind) (n : nat) (g : growth),
  fine_growth (q_new k n) g -> uses [] (m_convert_dist fresh k n g) own_dist (size_of (q_new k n)).
Proof. exact (@mem_dist_convert_refuted). Qed.
Print Assumptions c71_dist_convert_refuted.

Example c71_instance : fine_growth (QCsr 3) [(0, (true, false)); (2, (true, true))] /\ Forall (grows_in 2) [[(0, (true, true))]; []] /\
  length (cs_rows (mkMCsr 1 2 [mkMRow 3 4 5; mkMRow 6 7 8])) = 2 /\ size_of (q_new KCsr 4) = 14 /\
  extract_loss [[(0, (true, true))]; []] (MCsr (mkMCsr 1 2 [])) = 4.
Proof. repeat split; repeat constructor. Qed.

(** bml_deallocate of an ellblock matrix frees each block in use once; what is left are the orphans *)
Theorem c72_deallocate :
  forall (F : scalar) (A : eb F),
  ebwf A -> exists h : list (option (list F)), eb_deallocate A = Ok h /\ Z.of_nat (nlive h) = orphans A.
Proof. exact (@ellblock_deallocate). Qed.
Print Assumptions c72_deallocate.

(** matrices made by the constructors have none *)
Theorem c72_new :
  forall (F : scalar) (c c' : cache) (B : eb F),
  (exists N M : nat, eb_zero c N M = Ok (c', B)) \/
  (exists (N M : nat) (g : nat -> F), eb_identity c N M g = Ok (c', B)) \/
  (exists (o : dorder) (N : nat) (D : list F) (keep : F -> bool) (M : nat) (g : nat -> F),
     eb_import c o N D keep M g = Ok (c', B)) \/
  (exists (N : nat) (get : nat -> nat -> res F) (M : nat) (g : nat -> F), eb_convert c N get M g = Ok (c', B)) \/
  (exists (keep : F -> bool) (A : eb F) (g : nat -> F), eb_threshold_new c keep A g = Ok (c', B)) \/
  (exists (A : eb F) (g : nat -> F), eb_transpose_new c A g = Ok (c', B)) \/
  (exists (A : eb F) (g : nat -> F) (nth_ : nat) (sched : list (nat * nat)),
     ebwf A /\ full_sched (bNB A) nth_ sched /\ eb_copy_new c A g sched = Ok (c', B)) -> orphans B = 0%Z.
Proof. exact (@ellblock_new_orphans). Qed.
Print Assumptions c72_new.

(** these calls make none *)
Theorem c72_keep :
  forall (F : scalar) (A A' : eb F),
  (exists (i j : nat) (v : F) (g : nat -> F), eb_set_element A i j v g = Ok A') \/
  (exists (keep : F -> bool) (i : nat) (row : list F) (g : nat -> F), eb_set_row keep A i row g = Ok A') \/
  (exists (keep : F -> bool) (d : list F) (g : nat -> F), eb_set_diagonal keep A d g = Ok A') \/
  (exists (ib jb : nat) (x : list F), eb_set_block A ib jb x = Ok A') \/
  (exists a : F, eb_scale_inplace a A = Ok A') \/
  (exists g : nat -> F, eb_transpose A g = Ok A') \/
  (exists keep : F -> bool, ebwf A /\ eb_threshold keep A = Ok A') \/ ebwf A /\ eb_clear A = Ok A' -> 
  orphans A' = orphans A.
Proof. exact (@ellblock_keep_orphans). Qed.
Print Assumptions c72_keep.

Example c72_instance : ebwf exEA /\ orphans exEA = 0%Z /\ blocks exEA = 4 /\
  exists A A', eb_set_element (F:=Zscalar) exEA 3 5 9%Z (fun _ => 7%Z) = Ok A /\ eb_threshold (F:=Zscalar) (gtZ 4) A = Ok A' /\
    blocks A = 5 /\ blocks A' = 2 /\ orphans A' = 0%Z.
Proof. split; [apply exEA_wf|]. split; [reflexivity|]. split; [reflexivity|]. vm_compute. eexists _, _. repeat split; reflexivity. Qed.

(** bml_add: blocks below the threshold leave the rows but not the memory; bml_deallocate does not find them *)
Theorem c72_add_refuted :
  exists (A A' : eb Zscalar) (h : list (option (list Zscalar))),
    ebwf A /\
    clean A /\
    orphans A = 0%Z /\
    eb_add (gtZ 0) 1%Z (-1)%Z A A (fun _ : nat => 7%Z) [(0, 0); (1, 1); (0, 2)] = Ok A' /\
    ebwf A' /\ eb_deallocate A' = Ok h /\ nlive h = 4.
Proof. exact (@ellblock_add_refuted). Qed.
Print Assumptions c72_add_refuted.

(** bml_copy over a matrix with more blocks *)
Theorem c72_copy_refuted :
  exists (A B B' : eb Zscalar) (h : list (option (list Zscalar))),
    ebwf A /\
    ebwf B /\
    orphans A = 0%Z /\
    orphans B = 0%Z /\
    eb_copy A B (fun _ : nat => 7%Z) [(0, 0); (1, 1); (0, 2)] = Ok B' /\ ebwf B' /\ eb_deallocate B' = Ok h /\ nlive h = 1.
Proof. exact (@ellblock_copy_refuted). Qed.
Print Assumptions c72_copy_refuted.
