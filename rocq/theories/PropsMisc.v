(** C02, C22, C42, C55, C61, C71: set_element_new, clear, get_sparse_row, ellblock noinit and fnorm2, the memory of two more calls. *)
From Verif Require Import Base Spec EllpackModel EllpackSpec EllpackCheck CsrModel CsrSpec CsrCheck MemModel MemSpec MemThms MiscFacts
  EllblockModel EllblockSpec EllblockHist EllblockCheck EllblockFnorm2.

(** bml_set_element_new of an element that is not stored, in a row with room *)
Theorem c02_set_element_new :
  forall (F : scalar) (A : ell F) (i j : nat) (v : F),
  wf A ->
  i < eN A ->
  j < eN A ->
  nnz A i < eM A ->
  stored A i j = false ->
  exists A' : ell F,
    ell_set_element_new A i j v = Ok A' /\
    wf A' /\
    EllpackSpec.same_dims A A' /\
    (forall i' j' : nat, i' < eN A -> emat A' i' j' = (if (i' =? i) && (j' =? j) then v else emat A i' j')).
Proof. exact (@ell_set_element_new_ok2). Qed.
Print Assumptions c02_set_element_new.

(** of a stored element: a second entry, and the old value is still the one found *)
Theorem c02_set_element_new_refuted :
  forall (F : scalar) (A : ell F) (i j : nat) (v : F),
  wf A ->
  i < eN A ->
  nnz A i < eM A ->
  stored A i j = true -> exists A' : ell F, ell_set_element_new A i j v = Ok A' /\ ~ wf A' /\ emat A' i j = emat A i j.
Proof. exact (@ell_set_element_new_dup). Qed.
Print Assumptions c02_set_element_new_refuted.

(** in a full last row: a write past the end of the arrays *)
Theorem c02_set_element_new_full_refuted :
  forall (F : scalar) (A : ell F) (j : nat) (v : F),
  shape A -> 0 < eN A -> nnz A (eN A - 1) = eM A -> ell_set_element_new A (eN A - 1) j v = UB.
Proof. exact (@ell_set_element_new_full). Qed.
Print Assumptions c02_set_element_new_full_refuted.

Example c02_set_element_new_instance : wf exA /\ nnz exA 2 < eM exA /\ stored exA 2 1 = false /\ stored exA 2 0 = true.
Proof. split; [apply exA_wf|]. repeat split; vm_compute; auto. Qed.

(** bml_clear: whatever the rows held *)
Theorem c22_clear :
  forall (F : scalar) (A : ell F),
  shape A ->
  EllpackSpec.same_dims A (ell_clear A) /\
  wf (ell_clear A) /\ (forall i j : nat, i < eN A -> emat (ell_clear A) i j = 0%K /\ nnz (ell_clear A) i = 0).
Proof. exact (@ell_clear_ok). Qed.
Print Assumptions c22_clear.

(** the sparse row of a csr matrix *)
Theorem c55_csr_get_sparse_row :
  forall (F : scalar) (A : csr F) (i : nat),
  cwf A ->
  i < cN A ->
  exists E : list (nat * F),
    csr_get_sparse_row A i = Ok E /\
    NoDup (SpecFacts.cols E) /\
    (forall k : nat, In k (SpecFacts.cols E) -> k < cN A) /\
    (forall (k : nat) (x : F), In (k, x) E -> cmat A i k = x) /\
    (forall k : nat, ~ In k (SpecFacts.cols E) -> cmat A i k = 0%K).
Proof. exact (@csr_get_sparse_row_spec). Qed.
Print Assumptions c55_csr_get_sparse_row.

Example c55_csr_get_sparse_row_instance : cwf exCA /\ csr_get_sparse_row exCA 1 = Ok [(2, 5%Z); (1, 2%Z)].
Proof. split; [apply exCA_wf|reflexivity]. Qed.

(** scale into a new dense matrix; the temporary rows of ellpack trace_mult and matrix2submatrix *)
Theorem c71_small :
  forall fresh : nat -> list nat -> nat,
  good_alloc fresh ->
  forall n : nat, uses [] (m_scale_new_dense fresh) own_dense 0 /\ uses [] (m_vectors_ellpack fresh n) nothing 0.
Proof. exact (@mem_small). Qed.
Print Assumptions c71_small.

Example c71_small_instance : good_alloc next_addr.
Proof. exact next_addr_good. Qed.

(** bml_noinit_matrix (ellblock) once default sizes are set: their size, or it stops *)
Theorem c42_noinit :
  forall (F : scalar) (d : defaults) (n N M : nat),
  sizes_for d n ->
  (n < M -> eb_noinit (F:=F) (Some d) N M = Err) /\
  (M <= n -> exists A : eb F, eb_noinit (Some d) N M = Ok (Some d, A) /\ zero_matrix d n M A).
Proof. exact (@eb_noinit_again). Qed.
Print Assumptions c42_noinit.

(** ellblock fnorm2: where every block of B has a counterpart in A and no block row is empty in B alone, the sum of the squares of A - B *)
Theorem c61_fnorm2 :
  forall (F : scalar) (A B : eb F),
  ebwf A ->
  ebwf B ->
  eb_dims A B ->
  bMB A = bMB B ->
  (forall ib : nat, ib < bNB A -> incl (bcols B ib) (bcols A ib)) ->
  (forall ib : nat, ib < bNB A -> bcols B ib = [] -> bcols A ib = []) ->
  eb_fnorm2_sq A B = Ok (msum (bN A) (fun i j : nat => ((ebmx A i j - ebmx B i j) * (ebmx A i j - ebmx B i j))%K)).
Proof. exact (@eb_fnorm2_ok). Qed.
Print Assumptions c61_fnorm2.

Definition exEF : eb Zscalar := Eval vm_compute in got (imported (Some d222) 6 6 (tab [(0, 4, 1%Z); (2, 3, 3%Z); (4, 0, 2%Z)])).
Example c61_fnorm2_instance : ebwf exEA /\ ebwf exEF /\ eb_dims exEA exEF /\ bMB exEA = bMB exEF /\
  (forall ib, ib < bNB exEA -> incl (bcols exEF ib) (bcols exEA ib)) /\ (forall ib, ib < bNB exEA -> bcols exEF ib = [] -> bcols exEA ib = []) /\
  eb_fnorm2_sq exEA exEF = Ok 82%Z /\ sizes_for d222 6.
Proof.
  split; [ebwf_now|]. split; [ebwf_now|]. split; [repeat split|]. split; [reflexivity|].
  split; [intros [|[|[|ib]]] H; [vm_compute; tauto..|vm_compute in H; lia]|].
  split; [intros [|[|[|ib]]] H; [vm_compute; intros E; congruence..|vm_compute in H; lia]|].
  split; [reflexivity|repeat split; cbn; lia].
Qed.
