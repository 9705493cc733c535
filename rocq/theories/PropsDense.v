(** Theorems about the built-in gemm and the dense format, over every
    commutative ring of scalars. *)
From Verif Require Import Base BaseFacts Spec SpecFacts EllpackModel EllpackSpec EllpackCheck
  GemmModel DenseModel DenseSpec GemmFacts DenseFacts DenseOps DenseCheck.
Local Open Scope K_scope.

(** C29: every combination of flags, every size, every alpha and beta; the leading dimensions are the row counts, and conjugation is trivial if a flag is C *)
Theorem c29_gemm : forall (F : scalar) (conj : F -> F) ta tb m n k (alpha : F) (a b : list F) (beta : F) (c : list F),
  ta <> TrOther -> tb <> TrOther -> (ta = TrC \/ tb = TrC -> forall x, conj x = x) ->
  (m * k <= length a)%nat -> (k * n <= length b)%nat -> (m * n <= length c)%nat ->
  let lda := Nat.max 1 (if is_N ta then m else k) in
  let ldb := Nat.max 1 (if is_N tb then k else n) in
  exists c', gemm ta tb m n k alpha a lda b ldb beta c (Nat.max 1 m) = Ok c' /\ length c' = length c /\
    (forall i j, (i < m)%nat -> (j < n)%nat ->
       colm m c' i j = alpha * bigsum k (fun l => opm conj ta (colm lda a) i l * opm conj tb (colm ldb b) l j)
                       + beta * colm m c i j) /\
    (forall p, (m * n <= p)%nat -> nth p c' 0 = nth p c 0).
Proof. exact @gemm_spec. Qed.
Print Assumptions c29_gemm.

Example c29_instance : TrN <> TrOther /\ TrT <> TrOther /\ (3 * 2 <= length (dmx exD))%nat /\ (2 * 3 <= length (dmx exE))%nat /\
  (3 * 3 <= length (dmx exD))%nat.
Proof. split; [discriminate|]. split; [discriminate|]. simpl. lia. Qed.

(** unknown flags and too small leading dimensions are rejected *)
Theorem c29_gemm_rejects : forall (F : scalar) ta tb m n k (alpha : F) (a : list F) lda (b : list F) ldb (beta : F) (c : list F) ldc,
  ta = TrOther \/ tb = TrOther \/ (lda < Nat.max 1 (if is_N ta then m else k))%nat \/
  (ldb < Nat.max 1 (if is_N tb then k else n))%nat \/ (ldc < Nat.max 1 m)%nat ->
  gemm ta tb m n k alpha a lda b ldb beta c ldc = Err.
Proof. exact @gemm_rejects. Qed.
Print Assumptions c29_gemm_rejects.

(** larger leading dimensions are accepted and ignored ... *)
Theorem c29_gemm_ld_ignored : forall (F : scalar) ta tb m n k (alpha : F) (a : list F) lda (b : list F) ldb (beta : F) (c : list F) ldc,
  Nat.max 1 (if is_N ta then m else k) <= lda -> Nat.max 1 (if is_N tb then k else n) <= ldb -> Nat.max 1 m <= ldc ->
  gemm ta tb m n k alpha a lda b ldb beta c ldc =
  gemm ta tb m n k alpha a (Nat.max 1 (if is_N ta then m else k)) b (Nat.max 1 (if is_N tb then k else n)) beta c (Nat.max 1 m).
Proof. exact @gemm_ld_ignored. Qed.
Print Assumptions c29_gemm_ld_ignored.

(** ... so the product of a matrix with padding is wrong *)
Theorem c29_gemm_lda_refuted : (exists (a b c c' : list Zscalar) m n k lda,
  Nat.max 1 m <= lda /\ k * lda <= length a /\ k * n <= length b /\ m * n <= length c /\
  gemm TrN TrN m n k (1%Z : Zscalar) a lda b (Nat.max 1 k) (0%Z : Zscalar) c (Nat.max 1 m) = Ok c' /\
  exists i j, i < m /\ j < n /\ colm m c' i j <> bigsum k (fun l => kmul (colm lda a i l) (colm (Nat.max 1 k) b l j)))%nat.
Proof. exact gemm_lda_refuted. Qed.
Print Assumptions c29_gemm_lda_refuted.

(** the flag C transposes without conjugating: wrong for complex numbers (here Gaussian integers) *)
Theorem c29_gemm_conj_refuted : (exists (a b c c' : list Gscalar) m n k,
  m * k <= length a /\ k * n <= length b /\ m * n <= length c /\
  gemm TrC TrN m n k (k1 : Gscalar) a (Nat.max 1 k) b (Nat.max 1 k) (k0 : Gscalar) c (Nat.max 1 m) = Ok c' /\
  exists i j, i < m /\ j < n /\
  colm m c' i j <> bigsum k (fun l => kmul (opm (Gconj : Gscalar -> Gscalar) TrC (colm (Nat.max 1 k) a) i l) (colm (Nat.max 1 k) b l j)))%nat.
Proof. exact gemm_conj_refuted. Qed.
Print Assumptions c29_gemm_conj_refuted.

(** C30, for N > 0 *)
Theorem c30_dense_multiply_partial : forall (F : scalar) (alpha beta : F) (A B C : dense F),
  dwf A -> dwf B -> dwf C -> dN A = dN B -> dN A = dN C -> (0 < dN A)%nat ->
  exists C', dense_multiply alpha beta A B C = Ok C' /\ dwf C' /\ dN C' = dN A /\
    meq (dN A) (denm C') (madd (mscale alpha (mmul (dN A) (denm A) (denm B))) (mscale beta (denm C))).
Proof. exact @dense_multiply_ok. Qed.
Print Assumptions c30_dense_multiply_partial.

(** the 0 x 0 product is rejected (leading dimension 0) *)
Theorem c30_dense_multiply_N0_refuted : forall (F : scalar) (alpha beta : F) (A B C : dense F),
  dN A = 0%nat -> dense_multiply alpha beta A B C = Err.
Proof. exact @dense_multiply_N0. Qed.
Print Assumptions c30_dense_multiply_N0_refuted.

Theorem c30_dense_multiply_AB_partial : forall (F : scalar) (A B C : dense F),
  dwf A -> dwf B -> dwf C -> dN A = dN B -> dN A = dN C -> (0 < dN A)%nat ->
  exists C', dense_multiply_AB A B C = Ok C' /\ dwf C' /\ dN C' = dN A /\
    meq (dN A) (denm C') (mmul (dN A) (denm A) (denm B)).
Proof. exact @dense_multiply_AB_ok. Qed.
Print Assumptions c30_dense_multiply_AB_partial.

Theorem c30_dense_multiply_x2_partial : forall (F : scalar) (X X2 : dense F) nth s1 s2,
  dwf X -> dwf X2 -> dN X = dN X2 -> (0 < dN X)%nat ->
  full_sched (dN X) nth s1 -> full_sched (dN X) nth s2 ->
  exists Y, dense_multiply_x2 X X2 nth s1 s2 = Ok (Y, mtrace (dN X) (denm X), mtrace (dN X) (mmul (dN X) (denm X) (denm X))) /\
    dwf Y /\ dN Y = dN X /\ meq (dN X) (denm Y) (mmul (dN X) (denm X) (denm X)).
Proof. exact @dense_multiply_x2_ok. Qed.
Print Assumptions c30_dense_multiply_x2_partial.

(** multiply_adjust_AB stores the transpose of the product *)
Theorem c30_dense_multiply_adjust_AB_partial : forall (F : scalar) (A B C : dense F),
  dwf A -> dwf B -> dwf C -> dN A = dN B -> dN A = dN C -> (0 < dN A)%nat ->
  exists C', dense_multiply_adjust_AB A B C = Ok C' /\ dwf C' /\ dN C' = dN A /\
    meq (dN A) (denm C') (mtrans (mmul (dN A) (denm A) (denm B))).
Proof. exact @dense_multiply_adjust_AB_ok. Qed.
Print Assumptions c30_dense_multiply_adjust_AB_partial.

(** ... which is not the product *)
Theorem c30_dense_multiply_adjust_AB_refuted : (exists (A B C C' : dense Zscalar), dwf A /\ dwf B /\ dwf C /\ dN A = dN B /\ dN A = dN C /\
  dense_multiply_adjust_AB A B C = Ok C' /\ exists i j, i < dN A /\ j < dN A /\ denm C' i j <> mmul (dN A) (denm A) (denm B) i j)%nat.
Proof. exact dense_adjust_AB_refuted. Qed.
Print Assumptions c30_dense_multiply_adjust_AB_refuted.

Example c30_instance : dwf exD /\ dwf exE /\ dN exD = dN exE /\ (0 < dN exD)%nat /\ full_sched (dN exD) 2 exS.
Proof. split; [apply exD_wf|]. split; [apply exE_wf|]. split; [auto|]. split; [simpl; lia|apply exS_full]. Qed.

(** C31 *)
Theorem c31_dense_add : forall (F : scalar) (alpha beta : F) (A B : dense F),
  dwf A -> dwf B -> dN A = dN B ->
  exists A', dense_add alpha beta A B = Ok A' /\ dwf A' /\ dN A' = dN A /\
    meq (dN A) (denm A') (madd (mscale alpha (denm A)) (mscale beta (denm B))).
Proof. exact @dense_add_ok. Qed.
Print Assumptions c31_dense_add.

Theorem c31_dense_add_norm : forall (F : scalar) (alpha beta : F) (A B : dense F) nth sched,
  dwf A -> dwf B -> dN A = dN B -> full_sched (dN A * dN A) nth sched ->
  exists A', dense_add_norm alpha beta A B nth sched = Ok (A', msum (dN A) (mhad (denm B) (denm B))) /\ dwf A' /\ dN A' = dN A /\
    meq (dN A) (denm A') (madd (mscale alpha (denm A)) (mscale beta (denm B))).
Proof. exact @dense_add_norm_ok. Qed.
Print Assumptions c31_dense_add_norm.

(** with B the same object as A: alpha (1 + beta) A *)
Theorem c31_dense_add_self_partial : forall (F : scalar) (alpha beta : F) (A : dense F),
  dwf A ->
  exists A', dense_add_self alpha beta A = Ok A' /\ dwf A' /\ dN A' = dN A /\
    meq (dN A) (denm A') (mscale (alpha * (1 + beta)) (denm A)).
Proof. exact @dense_add_self_ok. Qed.
Print Assumptions c31_dense_add_self_partial.

(** ... which is not (alpha + beta) A *)
Theorem c31_dense_add_self_refuted : (exists (A A' : dense Zscalar) (alpha beta : Zscalar), dwf A /\
  dense_add_self alpha beta A = Ok A' /\ exists i j, i < dN A /\ j < dN A /\ denm A' i j <> kmul (kadd alpha beta) (denm A i j))%nat.
Proof. exact dense_add_self_refuted. Qed.
Print Assumptions c31_dense_add_self_refuted.

Theorem c31_dense_set_element : forall (F : scalar) (A : dense F) i j v,
  dwf A -> (i < dN A)%nat -> (j < dN A)%nat ->
  exists A', dense_set_element A i j v = Ok A' /\ dwf A' /\ dN A' = dN A /\
    forall a b, (a < dN A)%nat -> (b < dN A)%nat -> denm A' a b = if ((a =? i) && (b =? j))%nat then v else denm A a b.
Proof. exact @dense_set_element_ok. Qed.
Print Assumptions c31_dense_set_element.

Theorem c31_dense_get_element : forall (F : scalar) (A : dense F) i j,
  dwf A -> (i < dN A)%nat -> (j < dN A)%nat ->
  dense_get_element A i j = Ok (denm A i j).
Proof. exact @dense_get_element_ok. Qed.
Print Assumptions c31_dense_get_element.

Theorem c31_dense_set_row : forall (F : scalar) (A : dense F) i (row : list F),
  dwf A -> (i < dN A)%nat -> (dN A <= length row)%nat ->
  exists A', dense_set_row A i row = Ok A' /\ dwf A' /\ dN A' = dN A /\
    forall a b, (a < dN A)%nat -> (b < dN A)%nat -> denm A' a b = if (a =? i)%nat then nth b row 0 else denm A a b.
Proof. exact @dense_set_row_ok. Qed.
Print Assumptions c31_dense_set_row.

Theorem c31_dense_get_row : forall (F : scalar) (A : dense F) i,
  dwf A -> (i < dN A)%nat ->
  dense_get_row A i = Ok (map (fun j => denm A i j) (seq 0 (dN A))).
Proof. exact @dense_get_row_ok. Qed.
Print Assumptions c31_dense_get_row.

Theorem c31_dense_import : forall (F : scalar) o N (D : list F),
  length D = (N * N)%nat ->
  exists A, dense_import o N D = Ok A /\ dwf A /\ dN A = N /\ meq N (denm A) (dmat o N D).
Proof. exact @dense_import_ok. Qed.
Print Assumptions c31_dense_import.

Theorem c31_dense_export : forall (F : scalar) (A : dense F) o,
  dwf A ->
  exists D, dense_export A o = Ok D /\ length D = (dN A * dN A)%nat /\ meq (dN A) (dmat o (dN A) D) (denm A).
Proof. exact @dense_export_ok. Qed.
Print Assumptions c31_dense_export.

Theorem c31_dense_import_export : forall (F : scalar) (A : dense F) o,
  dwf A ->
  exists D B, dense_export A o = Ok D /\ dense_import o (dN A) D = Ok B /\ dwf B /\ dN B = dN A /\ meq (dN A) (denm B) (denm A).
Proof. exact @dense_import_export. Qed.
Print Assumptions c31_dense_import_export.

Theorem c31_dense_transpose_new : forall (F : scalar) (A : dense F) (gv : nat -> F) sched,
  dwf A -> Permutation (map snd sched) (seq 0 (dN A)) ->
  exists B, dense_transpose_new A gv sched = Ok B /\ dwf B /\ dN B = dN A /\ meq (dN A) (denm B) (mtrans (denm A)).
Proof. exact @dense_transpose_new_ok. Qed.
Print Assumptions c31_dense_transpose_new.

(** in place, any schedule of the outer loop *)
Theorem c31_dense_transpose : forall (F : scalar) (A : dense F) sched,
  dwf A -> Permutation (map snd sched) (seq 0 (dN A - 1)) ->
  exists A', dense_transpose A sched = Ok A' /\ dwf A' /\ dN A' = dN A /\ meq (dN A) (denm A') (mtrans (denm A)).
Proof. exact @dense_transpose_ok. Qed.
Print Assumptions c31_dense_transpose.

Theorem c31_dense_threshold : forall (F : scalar) (keep : F -> bool) (A : dense F) sched,
  dwf A -> Permutation (map snd sched) (seq 0 (dN A * dN A)) ->
  exists B, dense_threshold keep A sched = Ok B /\ dwf B /\ dN B = dN A /\ meq (dN A) (denm B) (mcut keep (denm A)).
Proof. exact @dense_threshold_ok. Qed.
Print Assumptions c31_dense_threshold.

Theorem c31_dense_threshold_new : forall (F : scalar) (keep : F -> bool) (A : dense F) sched,
  dwf A -> Permutation (map snd sched) (seq 0 (dN A * dN A)) ->
  exists B, dense_threshold_new keep A sched = Ok B /\ dwf B /\ dN B = dN A /\ meq (dN A) (denm B) (mcut keep (denm A)).
Proof. exact @dense_threshold_new_ok. Qed.
Print Assumptions c31_dense_threshold_new.

Example c31_instance : dwf exD /\ dwf exE /\ dN exD = dN exE /\ full_sched (dN exD * dN exD) 2 exS9 /\
  Permutation (map snd exS9) (seq 0 (dN exD * dN exD)) /\ Permutation (map snd exS) (seq 0 (dN exD)) /\
  Permutation (map snd [(1, 1); (0, 0)]%nat) (seq 0 (dN exD - 1)) /\ (1 < dN exD)%nat /\ (dN exD <= length (dmx exE))%nat /\
  length (dmx exD) = (3 * 3)%nat.
Proof.
  split; [apply exD_wf|]. split; [apply exE_wf|]. split; [auto|]. split; [apply exS9_full|]. split; [apply exS9_perm|].
  split; [apply exS_perm|]. split; [apply permb_ok; reflexivity|]. simpl. lia.
Qed.

(** C11: the elementwise sum ... *)
Theorem c11_dense_trace_mult_partial : forall (F : scalar) (A B : dense F) nth sched,
  dwf A -> dwf B -> dN A = dN B -> full_sched (dN A * dN A) nth sched ->
  dense_trace_mult A B nth sched = Ok (msum (dN A) (mhad (denm A) (denm B))).
Proof. exact @dense_trace_mult_ok. Qed.
Print Assumptions c11_dense_trace_mult_partial.

(** ... which is tr(A B) when B is symmetric *)
Theorem c11_dense_trace_mult_symmetric_partial : forall (F : scalar) (A B : dense F) nth sched,
  dwf A -> dwf B -> dN A = dN B ->
  full_sched (dN A * dN A) nth sched -> meq (dN A) (denm B) (mtrans (denm B)) ->
  dense_trace_mult A B nth sched = Ok (mtrace (dN A) (mmul (dN A) (denm A) (denm B))).
Proof. exact @dense_trace_mult_symmetric. Qed.
Print Assumptions c11_dense_trace_mult_symmetric_partial.

Theorem c11_dense_trace_mult_rejects : forall (F : scalar) (A B : dense F) nth sched,
  dN A <> dN B -> dense_trace_mult A B nth sched = Err.
Proof. exact @dense_trace_mult_rejects. Qed.
Print Assumptions c11_dense_trace_mult_rejects.

(** ... but not in general *)
Theorem c11_dense_trace_mult_refuted : (exists (A B : dense Zscalar) nth sched t, dwf A /\ dwf B /\ dN A = dN B /\
  full_sched (dN A * dN A) nth sched /\ dense_trace_mult A B nth sched = Ok t /\
  t <> mtrace (dN A) (mmul (dN A) (denm A) (denm B)))%nat.
Proof. exact dense_trace_mult_refuted. Qed.
Print Assumptions c11_dense_trace_mult_refuted.

(** C12 *)
Theorem c12_dense_trace : forall (F : scalar) (A : dense F) nth sched,
  dwf A -> full_sched (dN A) nth sched ->
  dense_trace A nth sched = Ok (mtrace (dN A) (denm A)).
Proof. exact @dense_trace_ok. Qed.
Print Assumptions c12_dense_trace.

(** C13 *)
Theorem c13_dense_add_identity : forall (F : scalar) (beta : F) (A : dense F) sched,
  dwf A -> Permutation (map snd sched) (seq 0 (dN A)) ->
  exists A', dense_add_identity beta A sched = Ok A' /\ dwf A' /\ dN A' = dN A /\
    meq (dN A) (denm A') (madd (denm A) (mscale beta mid)).
Proof. exact @dense_add_identity_ok. Qed.
Print Assumptions c13_dense_add_identity.

Theorem c13_dense_scale_add_identity : forall (F : scalar) (alpha beta : F) (A : dense F) sched,
  dwf A -> Permutation (map snd sched) (seq 0 (dN A)) ->
  exists A', dense_scale_add_identity alpha beta A sched = Ok A' /\ dwf A' /\ dN A' = dN A /\
    meq (dN A) (denm A') (madd (mscale alpha (denm A)) (mscale beta mid)).
Proof. exact @dense_scale_add_identity_ok. Qed.
Print Assumptions c13_dense_scale_add_identity.

(** C14 *)
Theorem c14_dense_scale_inplace : forall (F : scalar) (s : F) (A : dense F),
  dwf A ->
  exists A', dense_scale_inplace s A = Ok A' /\ dwf A' /\ dN A' = dN A /\ meq (dN A) (denm A') (mscale s (denm A)).
Proof. exact @dense_scale_inplace_ok. Qed.
Print Assumptions c14_dense_scale_inplace.

Theorem c14_dense_scale_new : forall (F : scalar) (s : F) (A : dense F) (gv : nat -> F),
  dwf A ->
  exists B, dense_scale_new s A gv = Ok B /\ dwf B /\ dN B = dN A /\ meq (dN A) (denm B) (mscale s (denm A)).
Proof. exact @dense_scale_new_ok. Qed.
Print Assumptions c14_dense_scale_new.

Theorem c14_dense_scale : forall (F : scalar) (s : F) (A B : dense F),
  dwf A -> dwf B -> dN A = dN B ->
  exists B', dense_scale s A B = Ok B' /\ dwf B' /\ dN B' = dN A /\ meq (dN A) (denm B') (mscale s (denm A)).
Proof. exact @dense_scale_ok. Qed.
Print Assumptions c14_dense_scale.

Theorem c14_dense_copy_new : forall (F : scalar) (A : dense F) (gv : nat -> F),
  dwf A -> dense_copy_new A gv = Ok A.
Proof. exact @dense_copy_new_ok. Qed.
Print Assumptions c14_dense_copy_new.

Theorem c14_dense_copy : forall (F : scalar) (A B : dense F),
  dwf A -> dwf B -> dN A = dN B -> dense_copy A B = Ok A.
Proof. exact @dense_copy_ok. Qed.
Print Assumptions c14_dense_copy.

(** C15: what the code computes: the columns are permuted in the inverse direction, the rows stay *)
Theorem c15_dense_reorder_partial : forall (F : scalar) (A : dense F) perm (gv : nat -> F) s1 s2,
  dwf A -> length perm = dN A ->
  (forall i, (i < dN A)%nat -> (nth i perm 0 < dN A)%nat) ->
  Permutation (map snd s1) (seq 0 (dN A)) -> Permutation (map snd s2) (seq 0 (dN A)) ->
  exists A', dense_reorder A perm gv s1 s2 = Ok A' /\ dwf A' /\ dN A' = dN A /\
    meq (dN A) (denm A') (fun i j => denm A i (List.nth j perm 0%nat)).
Proof. exact @dense_reorder_ok. Qed.
Print Assumptions c15_dense_reorder_partial.

Example c15_dense_instance : dwf exD /\ length [1; 2; 0]%nat = dN exD /\ (forall i, (i < dN exD)%nat -> (nth i [1; 2; 0] 0 < dN exD)%nat).
Proof. split; [apply exD_wf|]. split; [auto|]. intros [|[|[|i]]] H; simpl in *; lia. Qed.

(** C15 is false for dense: even the trace changes *)
Theorem c15_dense_reorder_refuted : (exists (A A' : dense Zscalar) perm (gv : nat -> Zscalar) s, dwf A /\ Permutation perm (seq 0 (dN A)) /\
  Permutation (map snd s) (seq 0 (dN A)) /\ dense_reorder A perm gv s s = Ok A' /\
  mtrace (dN A) (denm A') <> mtrace (dN A) (denm A) /\
  exists i j, i < dN A /\ j < dN A /\ denm A' (nth i perm 0) (nth j perm 0) <> denm A i j)%nat.
Proof. exact dense_reorder_refuted. Qed.
Print Assumptions c15_dense_reorder_refuted.

(** C16 *)
Theorem c16_dense_sum_squares : forall (F : scalar) (A : dense F) nth sched,
  dwf A -> full_sched (dN A * dN A) nth sched ->
  dense_sum_squares A nth sched = Ok (msum (dN A) (mhad (denm A) (denm A))).
Proof. exact @dense_sum_squares_ok. Qed.
Print Assumptions c16_dense_sum_squares.

Theorem c16_dense_sum_AB : forall (F : scalar) (keep : F -> bool) (A B : dense F) (alpha : F) nth sched,
  dwf A -> dwf B -> dN A = dN B -> full_sched (dN A * dN A) nth sched ->
  dense_sum_AB keep A B alpha nth sched = Ok (msum (dN A) (mcut keep (mscale alpha (mhad (denm A) (denm B))))).
Proof. exact @dense_sum_AB_ok. Qed.
Print Assumptions c16_dense_sum_AB.

Theorem c16_dense_sum_squares2 : forall (F : scalar) (keep : F -> bool) (A B : dense F) (alpha beta : F) nth sched,
  dwf A -> dwf B -> dN A = dN B -> full_sched (dN A * dN A) nth sched ->
  dense_sum_squares2 keep A B alpha beta nth sched =
  Ok (let S := mcut keep (madd (mscale alpha (denm A)) (mscale beta (denm B))) in msum (dN A) (mhad S S)).
Proof. exact @dense_sum_squares2_ok. Qed.
Print Assumptions c16_dense_sum_squares2.

(** the sub-matrix norm sums the complete first rows ... *)
Theorem c16_dense_sum_squares_submatrix_partial : forall (F : scalar) (A : dense F) core nth sched,
  dwf A -> (core <= dN A)%nat -> full_sched (core * dN A) nth sched ->
  dense_sum_squares A nth sched = Ok (bigsum core (fun i => bigsum (dN A) (fun j => denm A i j * denm A i j))).
Proof. exact @dense_sum_squares_submatrix_ok. Qed.
Print Assumptions c16_dense_sum_squares_submatrix_partial.

(** ... unlike the other formats, which sum the core x core block *)
Theorem c16_dense_sum_squares_submatrix_refuted : (exists (A : dense Zscalar) (E : ell Zscalar) core nth s1 s2 x y, dwf A /\ wf E /\ dN A = eN E /\
  meq (dN A) (denm A) (emat E) /\ core <= dN A /\ full_sched (core * dN A) nth s1 /\ full_sched core nth s2 /\
  dense_sum_squares A nth s1 = Ok x /\ ell_sum_squares_submatrix E core nth s2 = Ok y /\ x <> y)%nat.
Proof. exact dense_submatrix_norm_refuted. Qed.
Print Assumptions c16_dense_sum_squares_submatrix_refuted.

(** C17, when no other thread runs between the two statements of an iteration *)
Theorem c17_dense_fnorm2_partial : forall (F : scalar) (A B : dense F) nth sched,
  dwf A -> dwf B -> dN A = dN B -> full_sched (dN A * dN A) nth sched ->
  dense_fnorm2_sq A B nth (atomic_trace sched) =
  Ok (msum (dN A) (fun i j => (denm A i j - denm B i j) * (denm A i j - denm B i j))).
Proof. exact @dense_fnorm2_atomic_ok. Qed.
Print Assumptions c17_dense_fnorm2_partial.

(** C17 is false in general: temp is shared, an interleaving of two threads that keeps the order of each thread gives a wrong norm *)
Theorem c17_dense_fnorm2_race_refuted : (exists (A B : dense Zscalar) nth sched trace x, dwf A /\ dwf B /\ dN A = dN B /\
  full_sched (dN A * dN A) nth sched /\
  (forall t, filter (fun te => fst te =? t) trace = filter (fun te => fst te =? t) (atomic_trace sched)) /\
  dense_fnorm2_sq A B nth trace = Ok x /\
  x <> msum (dN A) (fun i j => kmul (ksub (denm A i j) (denm B i j)) (ksub (denm A i j) (denm B i j))))%nat.
Proof. exact dense_fnorm2_race_refuted. Qed.
Print Assumptions c17_dense_fnorm2_race_refuted.

(** C21 (dense applies no threshold) *)
Theorem c21_dense_element_multiply_AB : forall (F : scalar) (A B C : dense F) sched,
  dwf A -> dwf B -> dwf C -> dN A = dN B -> dN A = dN C ->
  Permutation (map snd sched) (seq 0 (dN A * dN A)) ->
  exists C', dense_element_multiply_AB A B C sched = Ok C' /\ dwf C' /\ dN C' = dN A /\
    meq (dN A) (denm C') (mhad (denm A) (denm B)).
Proof. exact @dense_element_multiply_AB_ok. Qed.
Print Assumptions c21_dense_element_multiply_AB.

(** C34 *)
Theorem c34_dense_extract_submatrix : forall (F : scalar) (A : dense F) irow icol BN,
  dwf A -> (irow + BN <= dN A)%nat -> (icol + BN <= dN A)%nat ->
  exists B, dense_extract_submatrix A irow icol BN = Ok B /\ dwf B /\ dN B = BN /\
    meq BN (denm B) (fun i j => denm A (irow + i)%nat (icol + j)%nat).
Proof. exact @dense_extract_submatrix_ok. Qed.
Print Assumptions c34_dense_extract_submatrix.

Theorem c34_dense_assign_submatrix : forall (F : scalar) (A B : dense F) irow icol,
  dwf A -> dwf B -> (irow + dN B <= dN A)%nat -> (icol + dN B <= dN A)%nat ->
  exists A', dense_assign_submatrix A B irow icol = Ok A' /\ dwf A' /\ dN A' = dN A /\
    meq (dN A) (denm A') (fun i j => if ((irow <=? i) && (i <? irow + dN B) && (icol <=? j) && (j <? icol + dN B))%nat
                                     then denm B (i - irow)%nat (j - icol)%nat else denm A i j).
Proof. exact @dense_assign_submatrix_ok. Qed.
Print Assumptions c34_dense_assign_submatrix.

Example c34_dense_instance : dwf exD /\ dwf (@mkDense Zscalar 2 [1; 2; 3; 4]%Z) /\ (1 + 2 <= dN exD)%nat.
Proof. split; [apply exD_wf|]. split; [reflexivity|simpl; lia]. Qed.

(** C49: the upper triangle is copied (conjugated) onto the lower one *)
Theorem c49_dense_adjungate : forall (F : scalar) (conj : F -> F) (A : dense F) t sched,
  dwf A -> Permutation (map snd sched) (seq 0 (dN A)) ->
  match t with
  | TriOther => dense_adjungate_triangle conj A t sched = Err
  | _ => exists A', dense_adjungate_triangle conj A t sched = Ok A' /\ dwf A' /\ dN A' = dN A /\
           meq (dN A) (denm A') (fun i j => match t with
             | TriU => if (j <? i)%nat then conj (denm A j i) else denm A i j
             | TriL => if (i <? j)%nat then conj (denm A j i) else denm A i j
             | TriOther => denm A i j
             end)
  end.
Proof. exact @dense_adjungate_triangle_ok. Qed.
Print Assumptions c49_dense_adjungate.

Theorem c49_dense_transpose_triangle : forall (F : scalar) (A : dense F) t sched,
  dwf A -> Permutation (map snd sched) (seq 0 (dN A)) ->
  exists A', dense_transpose_triangle A t sched = Ok A' /\ dwf A' /\ dN A' = dN A /\
    meq (dN A) (denm A') (fun i j => match t with
      | TriU => if (j <? i)%nat then denm A j i else denm A i j
      | TriL => if (i <? j)%nat then denm A j i else denm A i j
      | TriOther => denm A i j
      end).
Proof. exact @dense_transpose_triangle_ok. Qed.
Print Assumptions c49_dense_transpose_triangle.

(** C51 (dense applies no threshold) *)
Theorem c51_dense_set_diagonal : forall (F : scalar) (A : dense F) (diag : list F),
  dwf A -> (dN A <= length diag)%nat ->
  exists A', dense_set_diagonal A diag = Ok A' /\ dwf A' /\ dN A' = dN A /\
    forall a b, (a < dN A)%nat -> (b < dN A)%nat -> denm A' a b = if (a =? b)%nat then nth a diag 0 else denm A a b.
Proof. exact @dense_set_diagonal_ok. Qed.
Print Assumptions c51_dense_set_diagonal.

Theorem c51_dense_get_diagonal : forall (F : scalar) (A : dense F),
  dwf A ->
  dense_get_diagonal A = Ok (map (fun j => denm A j j) (seq 0 (dN A))).
Proof. exact @dense_get_diagonal_ok. Qed.
Print Assumptions c51_dense_get_diagonal.

(** C52 *)
Theorem c52_dense_zero : forall (F : scalar) N,
  dwf (dense_zero N : dense F) /\ dN (dense_zero N : dense F) = N /\ forall i j, denm (dense_zero N : dense F) i j = 0.
Proof. exact @dense_zero_ok. Qed.
Print Assumptions c52_dense_zero.

Theorem c52_dense_identity : forall (F : scalar) N sched,
  Permutation (map snd sched) (seq 0 N) ->
  exists A, dense_identity N sched = Ok A /\ dwf A /\ dN A = N /\ meq N (denm A) (mid : mat F).
Proof. exact @dense_identity_ok. Qed.
Print Assumptions c52_dense_identity.

Theorem c52_dense_banded : forall (F : scalar) N M (rnd : nat -> nat -> F) sched,
  Permutation (map snd sched) (seq 0 N) ->
  exists A, dense_banded N M rnd sched = Ok A /\ dwf A /\ dN A = N /\
    forall i j, (i < N)%nat -> (j < N)%nat ->
      denm A i j = if ((i - M / 2 <=? j) && (j <? i + (M - M / 2)))%nat then rnd i j else 0.
Proof. exact @dense_banded_ok. Qed.
Print Assumptions c52_dense_banded.

Theorem c52_dense_random : forall (F : scalar) N (rnd : nat -> nat -> F),
  exists A, dense_random N rnd = Ok A /\ dwf A /\ dN A = N /\ meq N (denm A) rnd.
Proof. exact @dense_random_ok. Qed.
Print Assumptions c52_dense_random.

(** the bounds-checked accessor *)
Theorem c52_dense_get_element_checked : forall (F : scalar) (A : dense F) i j,
  dwf A ->
  dense_get_element_checked A i j = if ((i <? dN A) && (j <? dN A))%nat then Ok (denm A i j) else Err.
Proof. exact @dense_get_element_checked_ok. Qed.
Print Assumptions c52_dense_get_element_checked.

(** the function behind bml_get_element checks nothing *)
Theorem c52_dense_get_element_refuted : (exists (A : dense Zscalar), dwf A /\
  dense_get_element A 0 (dN A) = Ok (denm A 1 0) /\ dense_get_element A (dN A) 0 = UB)%nat.
Proof. exact dense_get_element_refuted. Qed.
Print Assumptions c52_dense_get_element_refuted.

(** C53 *)
Theorem c53_dense_nnz_above : forall (F : scalar) (keep : F -> bool) (A : dense F),
  dwf A ->
  dense_nnz_above keep A = Ok (nsum (dN A) (fun i => count (dN A) (fun j => keep (denm A i j)))).
Proof. exact @dense_nnz_above_ok. Qed.
Print Assumptions c53_dense_nnz_above.

Theorem c53_dense_row_bandwidth : forall (F : scalar) (nz : F -> bool) (A : dense F) i,
  dwf A -> (i < dN A)%nat ->
  dense_row_bandwidth nz A i = Ok (count (dN A) (fun j => nz (denm A i j))).
Proof. exact @dense_row_bandwidth_ok. Qed.
Print Assumptions c53_dense_row_bandwidth.

Theorem c53_dense_bandwidth : forall (F : scalar) (nz : F -> bool) (A : dense F),
  dwf A ->
  exists n, dense_bandwidth nz A = Ok n /\ (forall i, (i < dN A)%nat -> (count (dN A) (fun j => nz (denm A i j)) <= n)%nat) /\
    (n = 0%nat \/ exists i, (i < dN A)%nat /\ n = count (dN A) (fun j => nz (denm A i j))).
Proof. exact @dense_bandwidth_ok. Qed.
Print Assumptions c53_dense_bandwidth.
