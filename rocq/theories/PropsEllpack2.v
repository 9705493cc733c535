(** Theorems about the ellpack format (properties C10, C11, C15-C17, C22, C47, C50, C53). *)
From Verif Require Import Base BaseFacts Spec SpecFacts EllpackModel EllpackSpec EllpackFacts EllpackOps EllpackMul EllpackMore EllpackNorm EllpackReorder EllpackTrans EllpackAdjust EllpackHistModel EllpackHist EllpackCheck EllpackCheck2.
Local Open Scope K_scope.

(** C10 (ellpack): in-place transposition, when every row of the symmetrised
    pattern fits in M entries. *)
Theorem c10_ellpack_transpose_partial : forall (F : scalar) (A : ell F), wf A ->
  (forall r, (r < eN A)%nat -> (count (eN A) (fun c => stored A r c || stored A c r) <= eM A)%nat) ->
  exists B, ell_transpose A = Ok B /\ wf B /\ same_dims A B /\ meq (eN A) (emat B) (mtrans (emat A)).
Proof. exact @ell_transpose_ok. Qed.
Print Assumptions c10_ellpack_transpose_partial.
Example c10_instance : wf exA /\
  (forall r, (r < eN exA)%nat -> (count (eN exA) (fun c => stored exA r c || stored exA c r) <= eM exA)%nat).
Proof.
  split; [apply exA_wf|]. apply (below_ok 3 (fun r => count 3 (fun c => stored exA r c || stored exA c r) <=? 3)%nat); [|reflexivity].
  intros i H. apply Nat.leb_le in H. exact H.
Qed.

(** It is not enough that the transposed matrix fits. *)
Theorem c10_ellpack_transpose_refuted : exists (A : ell Zscalar), wf A /\
  (forall r, (r < eN A)%nat -> (colcount A r <= eM A)%nat) /\
  ((exists B i j, ell_transpose A = Ok B /\ (i < eN A)%nat /\ (j < eN A)%nat /\ emat B i j <> emat A j i) \/ ell_transpose A = UB).
Proof. exact transpose_refuted. Qed.
Print Assumptions c10_ellpack_transpose_refuted.

(** C11 (ellpack): what trace_mult computes is the sum of the elementwise
    product, provided no row is empty in B only ... *)
Theorem c11_ellpack_trace_mult_partial : forall (F : scalar) (A B : ell F) nth sched,
  wf A -> wf B -> same_dims A B -> full_sched (eN A) nth sched ->
  (forall i, (i < eN A)%nat -> nnz A i = 0%nat \/ nnz B i <> 0%nat) ->
  ell_trace_mult A B nth sched = Ok (msum (eN A) (mhad (emat A) (emat B))).
Proof. exact @ell_trace_mult_ok. Qed.
Print Assumptions c11_ellpack_trace_mult_partial.

(** ... which is the trace of A B when B is symmetric. *)
Theorem c11_ellpack_trace_mult_symmetric_partial : forall (F : scalar) (A B : ell F) nth sched,
  wf A -> wf B -> same_dims A B -> full_sched (eN A) nth sched ->
  (forall i, (i < eN A)%nat -> nnz A i = 0%nat \/ nnz B i <> 0%nat) ->
  meq (eN A) (emat B) (mtrans (emat B)) ->
  ell_trace_mult A B nth sched = Ok (mtrace (eN A) (mmul (eN A) (emat A) (emat B))).
Proof. exact @trace_mult_symmetric. Qed.
Print Assumptions c11_ellpack_trace_mult_symmetric_partial.
Example c11_instance : wf exA /\ wf exSym /\ same_dims exA exSym /\ full_sched (eN exA) 2 exS /\
  (forall i, (i < eN exA)%nat -> nnz exA i = 0%nat \/ nnz exSym i <> 0%nat) /\
  meq (eN exA) (emat exSym) (mtrans (emat exSym)).
Proof. exact exSym_ok. Qed.

Theorem c11_ellpack_trace_mult_refuted : exists (A B : ell Zscalar) nth sched,
  wf A /\ wf B /\ same_dims A B /\ full_sched (eN A) nth sched /\
  exists t, ell_trace_mult A B nth sched = Ok t /\ t <> mtrace (eN A) (mmul (eN A) (emat A) (emat B)).
Proof. exact trace_mult_refuted. Qed.
Print Assumptions c11_ellpack_trace_mult_refuted.

Theorem c11_ellpack_trace_mult_uninitialised_refuted : exists (A B : ell Zscalar) nth sched,
  wf A /\ wf B /\ same_dims A B /\ full_sched (eN A) nth sched /\ ell_trace_mult A B nth sched = UB.
Proof. exact trace_mult_uninit. Qed.
Print Assumptions c11_ellpack_trace_mult_uninitialised_refuted.

(** C15 (ellpack) *)
Theorem c15_ellpack_reorder : forall (F : scalar) (A : ell F) perm s1 s2 (gv : nat -> F) (gi : nat -> nat),
  wf A -> Permutation perm (seq 0 (eN A)) ->
  Permutation (map snd s1) (seq 0 (eN A)) -> Permutation (map snd s2) (seq 0 (eN A)) ->
  exists B, ell_reorder A perm s1 s2 gv gi = Ok B /\ wf B /\ same_dims A B /\
    forall i j, (i < eN A)%nat -> (j < eN A)%nat -> emat B (nth i perm 0%nat) (nth j perm 0%nat) = emat A i j.
Proof. exact @reorder_spec. Qed.
Print Assumptions c15_ellpack_reorder.
Example c15_instance : wf exA /\ Permutation [2; 0; 1]%nat (seq 0 (eN exA)) /\ Permutation (map snd exS) (seq 0 (eN exA)).
Proof. split; [apply exA_wf|]. split; [apply permb_ok; reflexivity|apply exS_perm]. Qed.

(** C16 (ellpack): sum_AB and sum_squares2 *)
Theorem c16_ellpack_sum_AB : forall (F : scalar) (keep : F -> bool) (alpha : F) (A B : ell F) nth sched,
  wf A -> wf B -> eN A = eN B -> full_sched (eN A) nth sched ->
  ell_sum_AB keep alpha A B nth sched = Ok (msum (eN A) (mcut keep (mscale alpha (mhad (emat A) (emat B))))).
Proof. exact @ell_sum_AB_ok. Qed.
Print Assumptions c16_ellpack_sum_AB.

Theorem c16_ellpack_sum_squares2 : forall (F : scalar) (keep : F -> bool) (alpha beta : F) (A B : ell F) nth sched,
  wf A -> wf B -> eN A = eN B -> full_sched (eN A) nth sched ->
  ell_sum_squares2 keep alpha beta A B nth sched =
    Ok (let Z := mcut keep (madd (mscale alpha (emat A)) (mscale beta (emat B))) in msum (eN A) (mhad Z Z)).
Proof. exact @ell_sum_squares2_ok. Qed.
Print Assumptions c16_ellpack_sum_squares2.
Example c16_two_instance : wf exA /\ wf exB /\ eN exA = eN exB /\ full_sched (eN exA) 2 exS.
Proof. split; [apply exA_wf|]. split; [apply exB_wf|]. split; [reflexivity|apply exS_full]. Qed.

(** C17 (ellpack): squared Frobenius distance, when the matrices have the same
    M, the same empty rows and A stores no explicit zero. *)
Theorem c17_ellpack_fnorm2_partial : forall (F : scalar) (A B : ell F) nth sched,
  wf A -> wf B -> same_dims A B -> full_sched (eN A) nth sched ->
  (forall i, (i < eN A)%nat -> (nnz A i = 0%nat <-> nnz B i = 0%nat)) ->
  (forall i, (i < eN A)%nat -> forall kv, In kv (erow A i) -> snd kv <> 0) ->
  ell_fnorm2_sq A B nth sched =
    Ok (msum (eN A) (fun i j => (emat A i j - emat B i j) * (emat A i j - emat B i j))).
Proof. exact @ell_fnorm2_ok. Qed.
Print Assumptions c17_ellpack_fnorm2_partial.
Example c17_instance : wf exA /\ wf exB /\ same_dims exA exB /\ full_sched (eN exA) 2 exS /\
  (forall i, (i < eN exA)%nat -> (nnz exA i = 0%nat <-> nnz exB i = 0%nat)) /\
  (forall i, (i < eN exA)%nat -> forall kv, In kv (erow exA i) -> snd kv <> k0).
Proof.
  split; [apply exA_wf|]. split; [apply exB_wf|]. split; [split; reflexivity|]. split; [apply exS_full|]. split.
  - intros [|[|[|i]]] Hi; simpl in Hi; try lia; vm_compute; split; discriminate.
  - intros [|[|[|i]]] Hi kv; simpl in Hi; try lia; vm_compute; intros H; repeat destruct H as [<-|H]; try discriminate; contradiction.
Qed.

Theorem c17_ellpack_fnorm2_uninitialised_refuted : exists (A B : ell Zscalar) nth sched,
  wf A /\ wf B /\ same_dims A B /\ full_sched (eN A) nth sched /\ ell_fnorm2_sq A B nth sched = UB.
Proof. exact fnorm2_uninit. Qed.
Print Assumptions c17_ellpack_fnorm2_uninitialised_refuted.

Theorem c17_ellpack_fnorm2_stored_zero_refuted : exists (A B : ell Zscalar) nth sched,
  wf A /\ wf B /\ same_dims A B /\ full_sched (eN A) nth sched /\
  (forall i, (i < eN A)%nat -> (nnz A i = 0%nat <-> nnz B i = 0%nat)) /\
  exists t, ell_fnorm2_sq A B nth sched = Ok t /\
    t <> msum (eN A) (fun i j => (emat A i j - emat B i j) * (emat A i j - emat B i j)).
Proof. exact fnorm2_zero. Qed.
Print Assumptions c17_ellpack_fnorm2_stored_zero_refuted.

Theorem c17_ellpack_fnorm2_different_M_refuted : exists (A B : ell Zscalar) nth sched,
  wf A /\ wf B /\ eN A = eN B /\ full_sched (eN A) nth sched /\
  (forall i, (i < eN A)%nat -> (nnz A i = 0%nat <-> nnz B i = 0%nat)) /\
  (forall i, (i < eN A)%nat -> forall kv, In kv (erow A i) -> snd kv <> k0) /\
  exists t, ell_fnorm2_sq A B nth sched = Ok t /\
    t <> msum (eN A) (fun i j => (emat A i j - emat B i j) * (emat A i j - emat B i j)).
Proof. exact fnorm2_dims. Qed.
Print Assumptions c17_ellpack_fnorm2_different_M_refuted.

(** C22 (ellpack): every program of API calls whose calls respect [guard]
    (EllpackHistModel.v) keeps all matrices well formed and never reaches
    undefined behaviour; Err is the library's own LOG_ERROR exit. *)
Theorem c22_ellpack_history_partial : forall (F : scalar) (cs : list (cmd F)) st,
  Forall wf st -> guarded cs st ->
  run cs st = Err \/ exists st', run cs st = Ok st' /\ Forall wf st'.
Proof. exact @run_ok. Qed.
Print Assumptions c22_ellpack_history_partial.
Example c22_instance : Forall (wf (F:=Zscalar)) [] /\ guarded (firstn 4 exProg) [].
Proof. split; [constructor|exact exProg_guarded]. Qed.

(** Without the guard on set_element the invariant is lost. *)
Theorem c22_ellpack_history_duplicate_refuted : exists (cs : list (cmd Zscalar)) st, run cs [] = Ok st /\ ~ Forall wf st.
Proof. exact history_refuted. Qed.
Print Assumptions c22_ellpack_history_duplicate_refuted.

(** Setting more than M elements of a row is not detected. *)
Theorem c22_ellpack_history_overflow_refuted : exists (cs : list (cmd Zscalar)) st A,
  run cs [] = Ok st /\ nth_error st 0 = Some A /\ (eM A < nnz A 0)%nat /\ ~ wf A.
Proof. exact overflow_refuted. Qed.
Print Assumptions c22_ellpack_history_overflow_refuted.

(** C47: adjust_AB terminates after one pass when the exact product fits ... *)
Theorem c47_ellpack_adjust_AB_partial : forall (F : scalar) fuel n (keeps : nat -> F -> bool) (A B C : ell F) nth scheds,
  wf A -> wf B -> eN A = eN B -> wf C -> eN C = eN A -> full_sched (eN A) nth (scheds n) -> (0 < fuel)%nat ->
  (forall i, (i < eN A)%nat -> (prod_cols A B i <= eM C)%nat) ->
  exists C', ell_adjust fuel n keeps A B C nth scheds = Ok C' /\ wf C' /\ same_dims C C' /\
    meq (eN A) (emat C') (mcut_offdiag (keeps n) (mmul (eN A) (emat A) (emat B))).
Proof. exact @adjust_terminates. Qed.
Print Assumptions c47_ellpack_adjust_AB_partial.
Example c47_instance : wf exA /\ wf exB /\ full_sched (eN exA) 2 exS /\ (forall i, (i < eN exA)%nat -> (prod_cols exA exB i <= eM exA)%nat).
Proof.
  split; [apply exA_wf|]. split; [apply exB_wf|]. split; [apply exS_full|].
  apply (below_ok 3 (fun r => prod_cols exA exB r <=? 3)%nat); [|reflexivity]. intros i H. apply Nat.leb_le in H. exact H.
Qed.

(** ... and otherwise, for every threshold sequence whose results fit, it
    runs forever. *)
Theorem c47_ellpack_adjust_AB_diverges : forall (F : scalar) fuel n (keeps : nat -> F -> bool) (A B C : ell F) nth scheds i,
  wf A -> wf B -> eN A = eN B -> wf C -> eN C = eN A -> (forall n, full_sched (eN A) nth (scheds n)) ->
  (forall n i, (i < eN A)%nat ->
     (count (eN A) (fun k => (k =? i)%nat || keeps n (mmul (eN A) (emat A) (emat B) i k)) <= eM C)%nat) ->
  (i < eN A)%nat -> (eM C < prod_cols A B i)%nat ->
  ell_adjust fuel n keeps A B C nth scheds = Loop.
Proof. exact @adjust_diverges. Qed.
Print Assumptions c47_ellpack_adjust_AB_diverges.

Theorem c47_ellpack_adjust_AB_refuted : exists (keeps : nat -> Zscalar -> bool) (A B C : ell Zscalar) nth scheds,
  wf A /\ wf B /\ eN A = eN B /\ wf C /\ eN C = eN A /\ (forall n, full_sched (eN A) nth (scheds n)) /\
  forall fuel, ell_adjust fuel 0 keeps A B C nth scheds = Loop.
Proof. exact adjust_refuted. Qed.
Print Assumptions c47_ellpack_adjust_AB_refuted.

(** C50 (ellpack): the stored rows, in order, do not depend on the schedule. *)
Theorem c50_ellpack_add : forall (F : scalar) (keep : F -> bool) (alpha beta : F) (A B : ell F) s1 s2,
  wf A -> wf B -> eN A = eN B -> Permutation (map snd s1) (seq 0 (eN A)) -> Permutation (map snd s2) (seq 0 (eN A)) ->
  fits (eN A) (eM A) keep (madd (mscale alpha (emat A)) (mscale beta (emat B))) ->
  exists A1 A2, ell_add keep alpha beta A B s1 = Ok A1 /\ ell_add keep alpha beta A B s2 = Ok A2 /\
    same_dims A1 A2 /\ forall i, (i < eN A)%nat -> erow A1 i = erow A2 i.
Proof. exact @add_sched. Qed.
Print Assumptions c50_ellpack_add.
Example c50_instance : wf exA /\ wf exB /\ eN exA = eN exB /\ Permutation (map snd exS) (seq 0 (eN exA)) /\
  Permutation (map snd [(0, 0); (1, 1); (2, 2)]%nat) (seq 0 (eN exA)) /\
  fits (eN exA) (eM exA) (gtZ 1) (madd (mscale (2%Z : Zscalar) (emat exA)) (mscale (3%Z : Zscalar) (emat exB))).
Proof.
  split; [apply exA_wf|]. split; [apply exB_wf|]. split; [reflexivity|]. split; [apply exS_perm|].
  split; [apply permb_ok; reflexivity|]. apply fitsb_ok. reflexivity.
Qed.

Theorem c50_ellpack_multiply_AB : forall (F : scalar) (keep : F -> bool) (A B C : ell F) s1 s2,
  wf A -> wf B -> eN A = eN B -> wf C -> eN C = eN A ->
  Permutation (map snd s1) (seq 0 (eN A)) -> Permutation (map snd s2) (seq 0 (eN A)) ->
  (ell_multiply_AB keep A B C s1 = Err /\ ell_multiply_AB keep A B C s2 = Err) \/
  exists C1 C2, ell_multiply_AB keep A B C s1 = Ok C1 /\ ell_multiply_AB keep A B C s2 = Ok C2 /\
    same_dims C1 C2 /\ forall i, (i < eN A)%nat -> erow C1 i = erow C2 i.
Proof. exact @multiply_AB_sched. Qed.
Print Assumptions c50_ellpack_multiply_AB.

Theorem c50_ellpack_element_multiply : forall (F : scalar) (keep : F -> bool) (A B C : ell F) s1 s2,
  wf A -> wf B -> eN A = eN B -> wf C -> eN C = eN A -> (eM A <= eM C)%nat ->
  Permutation (map snd s1) (seq 0 (eN A)) -> Permutation (map snd s2) (seq 0 (eN A)) ->
  exists C1 C2, ell_element_multiply keep A B C s1 = Ok C1 /\ ell_element_multiply keep A B C s2 = Ok C2 /\
    same_dims C1 C2 /\ forall i, (i < eN A)%nat -> erow C1 i = erow C2 i.
Proof. exact @element_multiply_sched. Qed.
Print Assumptions c50_ellpack_element_multiply.

Theorem c50_ellpack_multiply_x2 : forall (F : scalar) (keep : F -> bool) (X X2 : ell F) n1 n2 s1 s2,
  wf X -> wf X2 -> eN X2 = eN X -> full_sched (eN X) n1 s1 -> full_sched (eN X) n2 s2 ->
  (forall i, (i < eN X)%nat ->
     (count (eN X) (fun j => (i =? j)%nat || keep (mmul (eN X) (emat X) (emat X) i j)) <= eM X2)%nat) ->
  exists C1 C2 t t2, ell_multiply_x2 keep X X2 n1 s1 = Ok (C1, t, t2) /\ ell_multiply_x2 keep X X2 n2 s2 = Ok (C2, t, t2) /\
    same_dims C1 C2 /\ forall i, (i < eN X)%nat -> erow C1 i = erow C2 i.
Proof. exact @multiply_x2_sched. Qed.
Print Assumptions c50_ellpack_multiply_x2.

(** C53 (ellpack): sparsity counts the elements above the threshold, the
    bandwidth of a row is between the number of its nonzeros and M, the
    bandwidth of the matrix is the largest row bandwidth. *)
Theorem c53_ellpack_nnz : forall (F : scalar) (keep : F -> bool) (A : ell F), wf A -> keep 0 = false ->
  ell_nnz_above keep A = Ok (nsum (eN A) (fun i => count (eN A) (fun j => keep (emat A i j)))).
Proof. exact @nnz_above_ok. Qed.
Print Assumptions c53_ellpack_nnz.

Theorem c53_ellpack_row_bandwidth : forall (F : scalar) (nz : F -> bool) (A : ell F) i, wf A -> (i < eN A)%nat -> nz 0 = false ->
  exists n, ell_row_bandwidth A i = Ok n /\ (count (eN A) (fun j => nz (emat A i j)) <= n <= eM A)%nat.
Proof. exact @row_bandwidth_ok. Qed.
Print Assumptions c53_ellpack_row_bandwidth.

Theorem c53_ellpack_bandwidth : forall (F : scalar) (A : ell F), wf A ->
  exists n, ell_bandwidth A = Ok n /\ (forall i, (i < eN A)%nat -> ell_row_bandwidth A i = Ok n \/ exists m, ell_row_bandwidth A i = Ok m /\ (m < n)%nat) /\
    ((0 < eN A)%nat -> exists i, (i < eN A)%nat /\ ell_row_bandwidth A i = Ok n).
Proof. exact @bandwidth_max. Qed.
Print Assumptions c53_ellpack_bandwidth.
Example c53_instance : wf exA /\ gtZ 1 0%Z = false /\ ell_bandwidth exA = Ok 2%nat.
Proof. split; [apply exA_wf|]. split; reflexivity. Qed.
