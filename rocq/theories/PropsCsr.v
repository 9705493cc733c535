(** Theorems about the csr format, over every commutative ring of scalars. *)
From Verif Require Import Base BaseFacts Spec SpecFacts EllpackModel EllpackSpec EllpackFacts EllpackCheck
  CsrModel CsrSpec CsrHash CsrMore CsrTrans CsrTop CsrHistModel CsrHist CsrCheck.
Local Open Scope K_scope.

(** C24: one call *)
Theorem c24_csr_set_element : forall (F : scalar) (A : csr F) i j (v : F),
  cwf A -> (i < cN A)%nat -> (j < cN A)%nat ->
  exists A', csr_set_element A i j v = Ok A' /\ cwf A' /\ cdims A A' /\
    forall i' j', cmat A' i' j' = if ((i' =? i) && (j' =? j))%nat then v else cmat A i' j'.
Proof. exact @cset_element_spec. Qed.
Print Assumptions c24_csr_set_element.

(** C24: every history of calls from the zero matrix *)
Theorem c24_csr_set_element_history : forall (F : scalar) (N M : nat) (ops : list (nat * nat * F)),
  (forall i j v, In (i, j, v) ops -> (i < N)%nat /\ (j < N)%nat) ->
  exists A, set_all ops (csr_zero N M) = Ok A /\ cwf A /\
    forall i j, (i < N)%nat -> csr_get_element A i j = Ok (match last_write ops i j with Some v => v | None => 0 end).
Proof. exact @set_all_get. Qed.
Print Assumptions c24_csr_set_element_history.

Example c24_instance : forall i j v, In (i, j, v) [(0, 1, 5%Z); (2, 1, 7%Z); (0, 1, 6%Z)]%nat -> (i < 3)%nat /\ (j < 3)%nat.
Proof. intros i j v [H|[H|[H|[]]]]; inversion H; subst; lia. Qed.
Example c24_instance2 : cwf exCA /\ (1 < cN exCA)%nat.
Proof. split; [apply exCA_wf|simpl; lia]. Qed.

(** C25, when no row of A has to grow (and rows are short enough for the hash table) *)
Theorem c25_csr_add_partial : forall (F : scalar) (keep : F -> bool) alpha beta (A B : csr F) s1 s2,
  cwf A -> cwf B -> cN A = cN B ->
  Permutation (map snd s1) (seq 0 (cN A)) -> Permutation (map snd s2) (seq 0 (cN A)) ->
  (forall i, (i < cN A)%nat -> (length (crow A i) <= table_max)%nat) ->
  (forall i, (i < cN A)%nat -> (union_cols A B i <= calloc A i)%nat) ->
  exists A', csr_add keep alpha beta A B s1 s2 = Ok A' /\ cwf A' /\ cdims A A' /\
    meq (cN A) (cmat A') (mcut keep (madd (mscale alpha (cmat A)) (mscale beta (cmat B)))).
Proof. exact @cadd_spec. Qed.
Print Assumptions c25_csr_add_partial.

Example c25_instance : cwf exCA /\ cwf exCB /\ cN exCA = cN exCB /\ Permutation (map snd exS) (seq 0 (cN exCA)) /\
  (forall i, (i < cN exCA)%nat -> (length (crow exCA i) <= table_max)%nat) /\
  (forall i, (i < cN exCA)%nat -> (union_cols exCA exCB i <= calloc exCA i)%nat).
Proof.
  split; [apply exCA_wf|]. split; [apply exCB_wf|]. split; [reflexivity|]. split; [apply exS_perm|].
  split; [apply exCA_small|apply exCAB_room].
Qed.

(** C25 is false when a row grows: the update of an existing column goes through the freed array *)
Theorem c25_csr_add_stale_pointer_refuted : (exists (A B : csr Zscalar) s, cwf A /\ cwf B /\ cN A = cN B /\
  Permutation (map snd s) (seq 0 (cN A)) /\ csr_add (gtZ 0) (1%Z : Zscalar) (1%Z : Zscalar) A B s s = UB)%nat.
Proof. exact csr_add_refuted. Qed.
Print Assumptions c25_csr_add_stale_pointer_refuted.

(** C25 with B the same object as A: the result is alpha (1 + beta) A *)
Theorem c25_csr_add_self_partial : forall (F : scalar) (keep : F -> bool) alpha beta (A : csr F) s1 s2,
  cwf A ->
  Permutation (map snd s1) (seq 0 (cN A)) -> Permutation (map snd s2) (seq 0 (cN A)) ->
  (forall i, (i < cN A)%nat -> (length (crow A i) <= table_max)%nat) ->
  exists A', csr_add_self keep alpha beta A s1 s2 = Ok A' /\ cwf A' /\ cdims A A' /\
    meq (cN A) (cmat A') (mcut keep (mscale (alpha * (1 + beta)) (cmat A))).
Proof. exact @cadd_self_spec. Qed.
Print Assumptions c25_csr_add_self_partial.

(** ... which is not (alpha + beta) A *)
Theorem c25_csr_add_self_refuted : (exists (A A' : csr Zscalar) (alpha beta : Zscalar) s i j, cwf A /\
  Permutation (map snd s) (seq 0 (cN A)) /\ (i < cN A)%nat /\ (j < cN A)%nat /\
  csr_add_self (gtZ 0) alpha beta A s s = Ok A' /\ cmat A' i j <> (alpha * cmat A i j + beta * cmat A i j)%K)%nat.
Proof. exact csr_add_self_refuted. Qed.
Print Assumptions c25_csr_add_self_refuted.

(** C26 *)
Theorem c26_csr_multiply_AB : forall (F : scalar) (keep : F -> bool) (A B C : csr F) sched,
  cwf A -> cwf B -> cN A = cN B -> cwf C -> cN C = cN A ->
  Permutation (map snd sched) (seq 0 (cN A)) ->
  exists C', csr_multiply_AB keep A B C sched = Ok C' /\ cwf C' /\ cdims C C' /\
    meq (cN A) (cmat C') (mcut_offdiag keep (mmul (cN A) (cmat A) (cmat B))).
Proof. exact @cmultiply_AB_spec. Qed.
Print Assumptions c26_csr_multiply_AB.

Theorem c26_csr_multiply_x2 : forall (F : scalar) (keep : F -> bool) (X X2 : csr F) nth sched,
  cwf X -> cwf X2 -> cN X2 = cN X -> full_sched (cN X) nth sched ->
  exists C, csr_multiply_x2 keep X X2 nth sched =
      Ok (C, mtrace (cN X) (cmat X), mtrace (cN X) (mmul (cN X) (cmat X) (cmat X))) /\
    cwf C /\ cdims X2 C /\ meq (cN X) (cmat C) (mcut_offdiag keep (mmul (cN X) (cmat X) (cmat X))).
Proof. exact @cmultiply_x2_spec. Qed.
Print Assumptions c26_csr_multiply_x2.

(** alpha A B + beta C through csr add, hence the same restriction on growing rows *)
Theorem c26_csr_multiply_partial : forall (F : scalar) (keep : F -> bool) alpha beta (A B C : csr F) s1 s2 s3,
  cwf A -> cwf B -> cN A = cN B -> cwf C -> cN C = cN A ->
  Permutation (map snd s1) (seq 0 (cN C)) ->
  Permutation (map snd s2) (seq 0 (cN C)) -> Permutation (map snd s3) (seq 0 (cN C)) ->
  (forall i, (i < cN C)%nat -> (length (crow C i) <= table_max)%nat) ->
  (forall i, (i < cN C)%nat -> (mul_room keep A B C i <= calloc C i)%nat) ->
  exists C', csr_multiply keep alpha beta A B C s1 s2 s3 = Ok C' /\ cwf C' /\ cdims C C' /\
    meq (cN C) (cmat C') (mcut keep (madd (mscale beta (cmat C)) (mscale alpha (mcut_offdiag keep (mmul (cN A) (cmat A) (cmat B)))))).
Proof. exact @cmultiply_spec. Qed.
Print Assumptions c26_csr_multiply_partial.

Theorem c26_csr_multiply_sq_partial : forall (F : scalar) (keep : F -> bool) alpha beta (A C : csr F) nth s1 s2 s3,
  cwf A -> cwf C -> cN C = cN A -> full_sched (cN C) nth s1 ->
  Permutation (map snd s2) (seq 0 (cN C)) -> Permutation (map snd s3) (seq 0 (cN C)) ->
  (forall i, (i < cN C)%nat -> (length (crow C i) <= table_max)%nat) ->
  (forall i, (i < cN C)%nat -> (mul_room keep A A C i <= calloc C i)%nat) ->
  exists C', csr_multiply_sq keep alpha beta A C nth s1 s2 s3 = Ok C' /\ cwf C' /\ cdims C C' /\
    meq (cN C) (cmat C') (if keqb alpha 1 && keqb beta 0 then mcut_offdiag keep (mmul (cN A) (cmat A) (cmat A))
      else mcut keep (madd (mscale beta (cmat C)) (mscale alpha (mcut_offdiag keep (mmul (cN A) (cmat A) (cmat A)))))).
Proof. exact @cmultiply_sq_spec. Qed.
Print Assumptions c26_csr_multiply_sq_partial.

Example c26_instance : cwf exCA /\ cwf exCB /\ cN exCA = cN exCB /\ full_sched (cN exCA) 2%nat exS /\ Permutation (map snd exS) (seq 0 (cN exCA)) /\
  (forall i, (i < cN exCA)%nat -> (mul_room (gtZ 0) exCB exCA exCA i <= calloc exCA i)%nat) /\
  (forall i, (i < cN exCA)%nat -> (mul_room (gtZ 0) exCB exCB exCA i <= calloc exCA i)%nat).
Proof.
  split; [apply exCA_wf|]. split; [apply exCB_wf|]. split; [reflexivity|]. split; [apply exS_full|]. split; [apply exS_perm|].
  split; [apply exCAB_mulroom2|apply exCAB_mulroom].
Qed.

(** C27, when each row keeps at most one entry *)
Theorem c27_csr_threshold_new_partial : forall (F : scalar) (keep : F -> bool) (A : csr F) sched,
  cwf A -> Permutation (map snd sched) (seq 0 (cN A)) ->
  (forall i, (i < cN A)%nat -> (count (cN A) (fun j => cstored A i j && keep (cmat A i j)) <= 1)%nat) ->
  exists B, csr_threshold_new keep A sched = Ok B /\ cwf B /\ cdims A B /\ meq (cN A) (cmat B) (mcut keep (cmat A)).
Proof. exact @cthreshold_new_spec. Qed.
Print Assumptions c27_csr_threshold_new_partial.

Example c27_instance : cwf exCA /\ Permutation (map snd exS) (seq 0 (cN exCA)) /\
  (forall i, (i < cN exCA)%nat -> (count (cN exCA) (fun j => cstored exCA i j && gtZ 4 (cmat exCA i j)) <= 1)%nat).
Proof. split; [apply exCA_wf|]. split; [apply exS_perm|apply exCA_thr1]. Qed.

(** C27 is false otherwise: kept entries overwrite each other *)
Theorem c27_csr_threshold_new_refuted : (exists (A B : csr Zscalar) s i j, cwf A /\
  Permutation (map snd s) (seq 0 (cN A)) /\ (i < cN A)%nat /\ (j < cN A)%nat /\
  csr_threshold_new (gtZ 0) A s = Ok B /\ cmat B i j <> mcut (gtZ 0) (cmat A) i j)%nat.
Proof. exact csr_threshold_new_refuted. Qed.
Print Assumptions c27_csr_threshold_new_refuted.

(** ... and the result can hold a column twice *)
Theorem c27_csr_threshold_new_duplicates_refuted : (exists (A B : csr Zscalar) s, cwf A /\
  Permutation (map snd s) (seq 0 (cN A)) /\ csr_threshold_new (gtZ 0) A s = Ok B /\ ~ cwf B)%nat.
Proof. exact csr_threshold_new_dup_refuted. Qed.
Print Assumptions c27_csr_threshold_new_duplicates_refuted.

(** bml_threshold (in place) is correct *)
Theorem c08_csr_threshold : forall (F : scalar) (keep : F -> bool) (A : csr F) sched,
  cwf A -> Permutation (map snd sched) (seq 0 (cN A)) ->
  exists B, csr_threshold keep A sched = Ok B /\ cwf B /\ cdims A B /\ meq (cN A) (cmat B) (mcut keep (cmat A)).
Proof. exact @cthreshold_spec. Qed.
Print Assumptions c08_csr_threshold.

(** C28, for every table size up to table_max = 2^18 * 2 / 3 and every history that never holds more than ts keys at once *)
Theorem c28_csr_table_history : forall ts cs key,
  ((ts <= table_max)%nat -> (peak_from 0 cs <= ts)%nat ->
  exists t0 t v, table_new ts = Ok t0 /\ trun cs t0 = Ok t /\ table_lookup t key = Ok v /\
  match v with
  | Some p => (p < length (live_from [] cs))%nat /\ nth p (live_from [] cs) 0 = key /\
              forall q, (p < q < length (live_from [] cs))%nat -> nth q (live_from [] cs) 0 <> key
  | None => ~ In key (live_from [] cs)
  end)%nat.
Proof. exact table_history. Qed.
Print Assumptions c28_csr_table_history.

Example c28_instance : (10 <= table_max)%nat /\
  (peak_from 0 [TInsert 3; TInsert 35; TReset; TInsert 7; TInsert 23; TInsert 39] <= 10)%nat.
Proof. split; [apply table_max_big; lia|simpl; lia]. Qed.

(** C28 is false for larger tables: the array of sizes is read past its end *)
Theorem c28_csr_table_size_refuted : forall ts,
  ((table_max < ts)%nat -> table_new ts = UB)%nat.
Proof. exact table_new_refuted. Qed.
Print Assumptions c28_csr_table_size_refuted.

(** C10: every sparsity pattern, no condition on room *)
Theorem c10_csr_transpose : forall (F : scalar) (A0 : csr F),
  cwf A0 ->
  exists B, csr_transpose A0 = Ok B /\ cwf B /\ cdims A0 B /\ meq (cN A0) (cmat B) (mtrans (cmat A0)).
Proof. exact @csr_transpose_ok. Qed.
Print Assumptions c10_csr_transpose.

(** C09 for csr: any order of the insertions *)
Theorem c09_csr_transpose_new : forall (F : scalar) (A : csr F) ev,
  cwf A -> Permutation ev (c_slots A) ->
  exists B, csr_transpose_new A ev = Ok B /\ cwf B /\ cdims A B /\ meq (cN A) (cmat B) (mtrans (cmat A)).
Proof. exact @ctranspose_new_spec. Qed.
Print Assumptions c09_csr_transpose_new.

Example c09_csr_instance : cwf exCA /\ Permutation (rev (c_slots exCA)) (c_slots exCA).
Proof. split; [apply exCA_wf|apply Permutation_sym, Permutation_rev]. Qed.

(** C11 *)
Theorem c11_csr_trace_mult : forall (F : scalar) (A B : csr F) nth sched,
  cwf A -> cwf B -> cN A = cN B -> full_sched (cN A) nth sched ->
  csr_trace_mult A B nth sched = Ok (mtrace (cN A) (mmul (cN A) (cmat A) (cmat B))).
Proof. exact @csr_trace_mult_ok. Qed.
Print Assumptions c11_csr_trace_mult.

(** C12 *)
Theorem c12_csr_trace : forall (F : scalar) (A : csr F) nth sched,
  cwf A -> full_sched (cN A) nth sched ->
  csr_trace A nth sched = Ok (mtrace (cN A) (cmat A)).
Proof. exact @csr_trace_ok. Qed.
Print Assumptions c12_csr_trace.

(** C13 *)
Theorem c13_csr_add_identity : forall (F : scalar) (keep : F -> bool) beta (A : csr F) s1 s2,
  cwf A ->
  Permutation (map snd s1) (seq 0 (cN A)) -> Permutation (map snd s2) (seq 0 (cN A)) ->
  exists A', csr_add_identity keep beta A s1 s2 = Ok A' /\ cwf A' /\ cdims A A' /\
    meq (cN A) (cmat A') (mcut keep (madd (cmat A) (mscale beta mid))).
Proof. exact @cadd_identity_spec. Qed.
Print Assumptions c13_csr_add_identity.

Theorem c13_csr_scale_add_identity : forall (F : scalar) (keep : F -> bool) alpha beta (A : csr F) s0 s1 s2,
  cwf A ->
  Permutation (map snd s0) (seq 0 (cN A)) ->
  Permutation (map snd s1) (seq 0 (cN A)) -> Permutation (map snd s2) (seq 0 (cN A)) ->
  exists A', csr_scale_add_identity keep alpha beta A s0 s1 s2 = Ok A' /\ cwf A' /\ cdims A A' /\
    meq (cN A) (cmat A') (mcut keep (madd (mscale alpha (cmat A)) (mscale beta mid))).
Proof. exact @cscale_add_identity_spec. Qed.
Print Assumptions c13_csr_scale_add_identity.

(** C14 *)
Theorem c14_csr_scale_inplace : forall (F : scalar) a (A : csr F) sched,
  cwf A -> Permutation (map snd sched) (seq 0 (cN A)) ->
  exists B, csr_scale_inplace a A sched = Ok B /\ cwf B /\ cdims A B /\ meq (cN A) (cmat B) (mscale a (cmat A)).
Proof. exact @cscale_inplace_spec. Qed.
Print Assumptions c14_csr_scale_inplace.

Theorem c14_csr_scale_new : forall (F : scalar) a (A : csr F) s1 s2,
  cwf A ->
  Permutation (map snd s1) (seq 0 (cN A)) -> Permutation (map snd s2) (seq 0 (cN A)) ->
  exists B, csr_scale_new a A s1 s2 = Ok B /\ cwf B /\ cdims A B /\ meq (cN A) (cmat B) (mscale a (cmat A)).
Proof. exact @cscale_new_spec. Qed.
Print Assumptions c14_csr_scale_new.

Theorem c14_csr_scale : forall (F : scalar) a (A B : csr F) s1 s2,
  cwf A -> cwf B -> cN A = cN B ->
  (forall i, (i < cN A)%nat -> (length (crow A i) <= calloc B i)%nat) ->
  Permutation (map snd s1) (seq 0 (cN A)) -> Permutation (map snd s2) (seq 0 (cN A)) ->
  exists B', csr_scale a A B s1 s2 = Ok B' /\ cwf B' /\ cdims B B' /\ meq (cN A) (cmat B') (mscale a (cmat A)).
Proof. exact @cscale_spec. Qed.
Print Assumptions c14_csr_scale.

Theorem c14_csr_copy_new : forall (F : scalar) (A : csr F) sched,
  cwf A -> Permutation (map snd sched) (seq 0 (cN A)) ->
  exists B, csr_copy_new A sched = Ok B /\ cwf B /\ cdims A B /\ forall i j, (i < cN A)%nat -> cmat B i j = cmat A i j.
Proof. exact @ccopy_new_spec. Qed.
Print Assumptions c14_csr_copy_new.

(** bml_copy reports an error exactly when a row of B is too small *)
Theorem c14_csr_copy : forall (F : scalar) (A B : csr F) sched,
  cwf A -> cwf B -> cN A = cN B -> Permutation (map snd sched) (seq 0 (cN A)) ->
  (csr_copy A B sched = Err /\ exists i, (i < cN A)%nat /\ (calloc B i < length (crow A i))%nat) \/
  (exists B', csr_copy A B sched = Ok B' /\ cwf B' /\ cdims B B' /\ forall i j, (i < cN A)%nat -> cmat B' i j = cmat A i j).
Proof. exact @ccopy_spec. Qed.
Print Assumptions c14_csr_copy.

(** ... which happens although A and B have the same size *)
Theorem c14_csr_copy_error_refuted : (exists (A B : csr Zscalar) s, cwf A /\ cwf B /\ cN A = cN B /\
  Permutation (map snd s) (seq 0 (cN A)) /\ csr_copy A B s = Err)%nat.
Proof. exact csr_copy_refuted. Qed.
Print Assumptions c14_csr_copy_error_refuted.

(** C16 *)
Theorem c16_csr_sum_squares : forall (F : scalar) (A : csr F) nth sched,
  cwf A -> full_sched (cN A) nth sched ->
  csr_sum_squares A nth sched = Ok (msum (cN A) (mhad (cmat A) (cmat A))).
Proof. exact @csr_sum_squares_ok. Qed.
Print Assumptions c16_csr_sum_squares.

Theorem c16_csr_sum_squares_submatrix : forall (F : scalar) (A : csr F) core nth sched,
  cwf A -> (core <= cN A)%nat ->
  full_sched core nth sched ->
  csr_sum_squares_submatrix A core nth sched = Ok (msum core (mhad (cmat A) (cmat A))).
Proof. exact @csr_sum_squares_submatrix_ok. Qed.
Print Assumptions c16_csr_sum_squares_submatrix.

Theorem c16_csr_sum_AB : forall (F : scalar) (keep : F -> bool) alpha (A B : csr F),
  cwf A -> cwf B -> cN A = cN B ->
  (forall i, (i < cN A)%nat -> (length (crow A i) <= table_max)%nat) ->
  csr_sum_AB keep alpha A B = Ok (msum (cN A) (mcut keep (mscale alpha (mhad (cmat A) (cmat B))))).
Proof. exact @csr_sum_AB_ok. Qed.
Print Assumptions c16_csr_sum_AB.

Theorem c16_csr_sum_squares2 : forall (F : scalar) (keep : F -> bool) alpha beta (A B : csr F),
  cwf A -> cwf B -> cN A = cN B ->
  (forall i, (i < cN A)%nat -> (length (crow A i) <= table_max)%nat) ->
  csr_sum_squares2 keep alpha beta A B =
    Ok (let Z := mcut keep (madd (mscale alpha (cmat A)) (mscale beta (cmat B))) in msum (cN A) (mhad Z Z)).
Proof. exact @csr_sum_squares2_ok. Qed.
Print Assumptions c16_csr_sum_squares2.

Example c16_csr_instance : cwf exCA /\ cwf exCB /\ full_sched (cN exCA) 2%nat exS /\ (2 <= cN exCA)%nat /\ full_sched 2 1 [(0, 1); (0, 0)]%nat /\
  csr_sum_squares exCA 2 exS = Ok (95%Z : Zscalar).
Proof.
  split; [apply exCA_wf|]. split; [apply exCB_wf|]. split; [apply exS_full|]. split; [simpl; lia|].
  split; [apply full_schedb; reflexivity|reflexivity].
Qed.

(** C21 *)
Theorem c21_csr_element_multiply : forall (F : scalar) (keep : F -> bool) (A B C : csr F) sched,
  cwf A -> cwf B -> cN A = cN B -> cwf C -> cN C = cN A ->
  Permutation (map snd sched) (seq 0 (cN A)) ->
  exists C', csr_element_multiply keep A B C sched = Ok C' /\ cwf C' /\ cdims C C' /\
    meq (cN A) (cmat C') (mcut_offdiag keep (mhad (cmat A) (cmat B))).
Proof. exact @celement_multiply_spec. Qed.
Print Assumptions c21_csr_element_multiply.

(** C34: extraction (entries are kept by the test keep0, |x| > 0 in the code) *)
Theorem c34_csr_extract : forall (F : scalar) (keep0 : F -> bool) (A : csr F) irow icol BN BM,
  cwf A -> (irow + BN <= cN A)%nat ->
  exists B, csr_extract keep0 A irow icol BN BM = Ok B /\ cwf B /\ cN B = BN /\ cM B = BM /\
    forall i j, (i < BN)%nat -> (j < BN)%nat -> cmat B i j = cut keep0 (cmat A (irow + i)%nat (icol + j)%nat).
Proof. exact @csr_extract_ok. Qed.
Print Assumptions c34_csr_extract.

(** C34: assignment into a block without stored entries *)
Theorem c34_csr_assign_partial : forall (F : scalar) (A B : csr F) irow icol,
  cwf A -> cwf B -> (irow + cN B <= cN A)%nat -> (icol + cN B <= cN A)%nat ->
  (forall i j, (i < cN B)%nat -> (j < cN B)%nat -> cstored A (irow + i) (icol + j) = false) ->
  exists A', csr_assign A B irow icol = Ok A' /\ cwf A' /\ cdims A A' /\
    forall i j, (i < cN A)%nat -> (j < cN A)%nat -> cmat A' i j =
      if ((irow <=? i) && (i <? irow + cN B) && (icol <=? j) && (j <? icol + cN B))%nat
      then cmat B (i - irow)%nat (j - icol)%nat else cmat A i j.
Proof. exact @csr_assign_ok. Qed.
Print Assumptions c34_csr_assign_partial.

Example c34_csr_instance : cwf exCA /\ cwf (@csr_of Zscalar 1 1 10 [[(0%nat, 9%Z)]]) /\
  forall i j, (i < cN (@csr_of Zscalar 1 1 10 [[(0%nat, 9%Z)]]))%nat -> (j < cN (@csr_of Zscalar 1 1 10 [[(0%nat, 9%Z)]]))%nat ->
  cstored exCA (0 + i)%nat (2 + j)%nat = false.
Proof. split; [apply exCA_wf|]. split; [apply cwfb_ok; reflexivity|apply exCA_assign]. Qed.

(** C34 is false over stored entries: a second entry is appended and reads still find the old one *)
Theorem c34_csr_assign_refuted : (exists (A B A' : csr Zscalar) irow icol i j, cwf A /\ cwf B /\
  (irow + cN B <= cN A)%nat /\ (icol + cN B <= cN A)%nat /\ csr_assign A B irow icol = Ok A' /\
  (i < cN B)%nat /\ (j < cN B)%nat /\ csr_get_element A' (irow + i) (icol + j) <> csr_get_element B i j /\ ~ cwf A')%nat.
Proof. exact csr_assign_refuted. Qed.
Print Assumptions c34_csr_assign_refuted.

(** C50: the stored rows, in order, are the same for all schedules *)
Theorem c50_csr_multiply_AB_schedule : forall (F : scalar) keep (A B C : csr F) s1 s2,
  cwf A -> cwf B -> cN A = cN B -> cwf C -> cN C = cN A ->
  Permutation (map snd s1) (seq 0 (cN A)) -> Permutation (map snd s2) (seq 0 (cN A)) ->
  exists C1 C2, csr_multiply_AB keep A B C s1 = Ok C1 /\ csr_multiply_AB keep A B C s2 = Ok C2 /\
    cdims C1 C2 /\ forall i, i < cN A -> crow C1 i = crow C2 i.
Proof. exact @cmultiply_AB_sched. Qed.
Print Assumptions c50_csr_multiply_AB_schedule.

Theorem c50_csr_multiply_x2_schedule : forall (F : scalar) keep (X X2 : csr F) n1 n2 s1 s2,
  cwf X -> cwf X2 -> cN X2 = cN X -> full_sched (cN X) n1 s1 -> full_sched (cN X) n2 s2 ->
  exists C1 C2 t t2, csr_multiply_x2 keep X X2 n1 s1 = Ok (C1, t, t2) /\ csr_multiply_x2 keep X X2 n2 s2 = Ok (C2, t, t2) /\
    cdims C1 C2 /\ forall i, i < cN X -> crow C1 i = crow C2 i.
Proof. exact @cmultiply_x2_sched. Qed.
Print Assumptions c50_csr_multiply_x2_schedule.

Theorem c50_csr_element_multiply_schedule : forall (F : scalar) keep (A B C : csr F) s1 s2,
  cwf A -> cwf B -> cN A = cN B -> cwf C -> cN C = cN A ->
  Permutation (map snd s1) (seq 0 (cN A)) -> Permutation (map snd s2) (seq 0 (cN A)) ->
  exists C1 C2, csr_element_multiply keep A B C s1 = Ok C1 /\ csr_element_multiply keep A B C s2 = Ok C2 /\
    cdims C1 C2 /\ forall i, i < cN A -> crow C1 i = crow C2 i.
Proof. exact @celement_multiply_sched. Qed.
Print Assumptions c50_csr_element_multiply_schedule.

Theorem c50_csr_threshold_schedule : forall (F : scalar) (keep : F -> bool) (A : csr F) s1 s2,
  cwf A ->
  Permutation (map snd s1) (seq 0 (cN A)) -> Permutation (map snd s2) (seq 0 (cN A)) ->
  exists B1 B2, csr_threshold keep A s1 = Ok B1 /\ csr_threshold keep A s2 = Ok B2 /\
    cdims B1 B2 /\ forall i, i < cN A -> crow B1 i = crow B2 i.
Proof. exact @cthreshold_sched. Qed.
Print Assumptions c50_csr_threshold_schedule.

(** C51 *)
Theorem c51_csr_diagonal : forall (F : scalar) (keep : F -> bool) (A : csr F) (diag : list F),
  cwf A -> length diag = cN A ->
  exists B, csr_set_diagonal keep A diag = Ok B /\ cwf B /\ cdims A B /\
    csr_get_diagonal B = Ok (map (cut keep) diag) /\
    (forall i j, (i < cN A)%nat -> (j < cN A)%nat -> i <> j -> cmat B i j = cmat A i j).
Proof. exact @cset_diagonal_spec. Qed.
Print Assumptions c51_csr_diagonal.

(** row round trip for csr (C01 is the ellpack statement) *)
Theorem c55_csr_set_row : forall (F : scalar) (keep : F -> bool) (A : csr F) i (vals : list F),
  cwf A -> (i < cN A)%nat -> length vals = cN A ->
  exists A', csr_set_row keep A i vals = Ok A' /\ cwf A' /\ cdims A A' /\
    csr_get_row A' i = Ok (map (cut keep) vals) /\
    (forall i', (i' < cN A)%nat -> i' <> i -> csr_get_row A' i' = csr_get_row A i').
Proof. exact @cset_row_spec. Qed.
Print Assumptions c55_csr_set_row.

(** import and export of dense arrays for csr (C03 is the ellpack statement) *)
Theorem c55_csr_import_export : forall (F : scalar) (keep : F -> bool) o o' N M (D : list F) s1 s2,
  length D = (N * N)%nat ->
  Permutation (map snd s1) (seq 0 N) -> Permutation (map snd s2) (seq 0 N) ->
  exists A D', csr_import o N M keep D s1 = Ok A /\ cwf A /\ cN A = N /\ cM A = M /\
    meq N (cmat A) (mcut keep (dmat o N D)) /\
    csr_export o' A s2 = Ok D' /\ length D' = (N * N)%nat /\
    meq N (dmat o' N D') (mcut keep (dmat o N D)).
Proof. exact @cimport_export_spec. Qed.
Print Assumptions c55_csr_import_export.

Example c55_csr_instance : length [1; 2; 0; 3]%Z = (2 * 2)%nat /\ Permutation (map snd [(0, 1); (1, 0)]%nat) (seq 0 2).
Proof. split; [reflexivity|apply permb_ok; reflexivity]. Qed.

(** C52 *)
Theorem c52_csr_constructors : forall (F : scalar) N M (rnd : nat -> nat -> F) sched,
  Permutation (map snd sched) (seq 0 N) ->
  (cwf (csr_zero N M : csr F) /\ meq N (cmat (csr_zero N M : csr F)) mzero) /\
  (exists A : csr F, csr_identity N M sched = Ok A /\ cN A = N /\ cM A = M /\ cwf A /\ meq N (cmat A) mid) /\
  (exists A : csr F, csr_banded N M rnd sched = Ok A /\ cN A = N /\ cM A = M /\ cwf A /\
     meq N (cmat A) (fun i j => if ((i <=? j + M / 2) && (j + M / 2 <? i + M))%nat then rnd i j else 0)).
Proof. exact @cconstructors_spec. Qed.
Print Assumptions c52_csr_constructors.

(** C52: a row index out of range is rejected ... *)
Theorem c52_csr_get_element_partial : forall (F : scalar) (A : csr F) i j,
  cwf A -> csr_get_element A i j = if (i <? cN A)%nat then Ok (cmat A i j) else Err.
Proof. exact @cget_element_spec. Qed.
Print Assumptions c52_csr_get_element_partial.

(** ... a column index out of range is answered silently *)
Theorem c52_csr_get_element_refuted : (exists (A : csr Zscalar) i j v, cwf A /\ (cN A <= j)%nat /\ csr_get_element A i j = Ok v)%nat.
Proof. exact csr_get_element_refuted. Qed.
Print Assumptions c52_csr_get_element_refuted.

(** C53: the count bml_get_sparsity divides by N^2 *)
Theorem c53_csr_nnz_above : forall (F : scalar) (keep : F -> bool) (A : csr F),
  cwf A -> keep 0 = false ->
  csr_nnz_above keep A = Ok (nsum (cN A) (fun i => count (cN A) (fun j => keep (cmat A i j)))).
Proof. exact @csr_nnz_above_ok. Qed.
Print Assumptions c53_csr_nnz_above.

Theorem c53_csr_row_bandwidth : forall (F : scalar) (nz : F -> bool) (A : csr F) i,
  cwf A -> (i < cN A)%nat -> nz 0 = false ->
  exists n, csr_row_bandwidth A i = Ok n /\ (count (cN A) (fun j => nz (cmat A i j)) <= n <= cN A)%nat.
Proof. exact @csr_row_bandwidth_ok. Qed.
Print Assumptions c53_csr_row_bandwidth.

Theorem c53_csr_bandwidth : forall (F : scalar) (A : csr F), cwf A -> (0 < cN A)%nat ->
  exists n, csr_bandwidth A = Ok n /\ (forall i, (i < cN A)%nat -> exists m, csr_row_bandwidth A i = Ok m /\ (m <= n)%nat) /\
    exists i, (i < cN A)%nat /\ csr_row_bandwidth A i = Ok n.
Proof. exact @csr_bandwidth_max. Qed.
Print Assumptions c53_csr_bandwidth.

(** C54: the structural invariant over every guarded program; no undefined behaviour and no endless loop *)
Theorem c54_csr_history : forall (F : scalar) (cs : list (ccmd F)),
  forall st, Forall cwf st -> cguarded cs st ->
  crun cs st = Err \/ exists st', crun cs st = Ok st' /\ Forall cwf st'.
Proof. exact @crun_ok. Qed.
Print Assumptions c54_csr_history.

Example c54_instance : Forall (cwf (F:=Zscalar)) [] /\ cguarded (firstn 6 exCProg) [] /\
  exists st, crun (firstn 6 exCProg) [] = Ok st /\ length st = 2%nat.
Proof. split; [constructor|]. split; [exact exCProg_guarded|exact exCProg_run]. Qed.
