(** Theorems about distributed 2d matrices, for every number of tasks: Cannon multiplication (C37), rows (C38), identity
    and diagonal (C39), transpose and sums (C40), import and export (C41). *)
From Verif Require Import Base Spec EllpackModel EllpackSpec EllpackExact EllpackCheck CsrModel CsrSpec CsrHash
  GemmModel DenseModel DenseSpec FormatModel FormatSpec FormatHistModel FormatHistSpec FormatCheck
  MpiModel MpiSpec MpiFacts MpiRun Dist2dModel Dist2dSpec Dist2dLocal Dist2dFacts Dist2dCannon Dist2dOps Dist2dMore Dist2dIO Dist2dCheck Dist2dRestModel Dist2dRest.

(** C37: every execution ends, with alpha A B + beta C in C and A, B unchanged (thresholds that keep all nonzero elements, or dense blocks) *)
Theorem c37_cannon :
  forall (F : scalar) (t : fmt) (keep nz : F -> bool) (alpha beta : F) (A B C : dist F) (E : nat -> nat -> env F),
  dist_ok t A ->
  dist_ok t B ->
  dist_ok t C ->
  dist_roomy A ->
  dist_roomy B ->
  dist_roomy C ->
  same_grid A B ->
  same_grid A C ->
  keeps_nonzero nz ->
  no_cut t keep ->
  (forall r k : nat, r < tasks A -> good_schedules (tn A) (E r k)) ->
  tprec A = true ->
  exists (prog : list (block (cstate F) (bmat F))) (s : nat -> cstate F),
    dist_multiply keep nz alpha beta A E = Ok prog /\
    always_ends (tasks A) prog (cannon_start A B C) s /\
    dist_ok t (gather C qC s) /\
    dist_roomy (gather C qC s) /\
    meq (tN A) (gmx (gather C qC s)) (madd (mscale beta (gmx C)) (mscale alpha (mmul (tN A) (gmx A) (gmx B)))).
Proof. exact (@cannon_product). Qed.
Print Assumptions c37_cannon.

(** for any threshold: what each block holds, the threshold being applied after every partial product *)
Theorem c37_cannon_thresholded :
  forall (F : scalar) (t : fmt) (keep nz : F -> bool) (alpha beta : F) (A B C : dist F) (E : nat -> nat -> env F),
  dist_ok t A ->
  dist_ok t B ->
  dist_ok t C ->
  dist_roomy A ->
  dist_roomy B ->
  dist_roomy C ->
  same_grid A B ->
  same_grid A C ->
  keeps_nonzero nz ->
  (forall r k : nat, r < tasks A -> good_schedules (tn A) (E r k)) ->
  tprec A = true ->
  exists (prog : list (block (cstate F) (bmat F))) (s : nat -> cstate F),
    dist_multiply keep nz alpha beta A E = Ok prog /\
    always_ends (tasks A) prog (cannon_start A B C) s /\
    (forall r : nat, r < tasks A -> qA (s r) = blk A r /\ qB (s r) = blk B r) /\
    dist_ok t (gather C qC s) /\
    dist_roomy (gather C qC s) /\
    (forall I J : nat,
     I < tp A ->
     J < tp A ->
     meq (tn A) (sub (tn A) I J (gmx (gather C qC s)))
       (cannon_block (fcut t keep) (foff t keep) (tp A) (tn A) alpha beta (gmx A) (gmx B) (gmx C) I J (tp A - 1))).
Proof. exact (@cannon_blocks). Qed.
Print Assumptions c37_cannon_thresholded.

Example c37_instance : forall t, exists A B C : dist Zscalar, dist_ok t A /\ dist_ok t B /\ dist_ok t C /\ dist_roomy A /\ dist_roomy B /\ dist_roomy C /\
  same_grid A B /\ same_grid A C /\ tprec A = true /\ keeps_nonzero (gtZ 0 : Zscalar -> bool) /\ no_cut t (gtZ 0 : Zscalar -> bool) /\
  (forall r k, (r < tasks A)%nat -> good_schedules (tn A) (exSeq r k)) /\
  mmul 4 (gmx A) (gmx B) 2 0 = 12%Z /\ tp A = 2%nat.
Proof. exact exGrids. Qed.

(** with a threshold the result is not the thresholded product *)
Theorem c37_threshold_refuted :
  exists
    (A B C : dist Zscalar) (keep nz : Zscalar -> bool) (prog : list (block (cstate Zscalar) (bmat Zscalar))) 
  (s : nat -> cstate Zscalar),
    dist_ok FEll A /\
    dist_ok FEll B /\
    dist_ok FEll C /\
    dist_roomy A /\
    dist_roomy B /\
    dist_roomy C /\
    same_grid A B /\
    same_grid A C /\
    keeps_nonzero nz /\
    tprec A = true /\
    dist_multiply keep nz 1%Z 0%Z A (fun _ _ : nat => seq_env (tn A)) = Ok prog /\
    always_ends (tasks A) prog (cannon_start A B C) s /\
    mcut keep (mmul (tN A) (gmx A) (gmx B)) 0 0 = 2%Z /\ gmx (gather C qC s) 0 0 = 0%Z.
Proof. exact (@cannon_threshold_refuted). Qed.
Print Assumptions c37_threshold_refuted.

(** C38: set_row *)
Theorem c38_set_row :
  forall (F : scalar) (t : fmt) (A : dist F),
  dist_ok t A ->
  dist_roomy A ->
  forall (keep : F -> bool) (i : nat) (row : list F),
  tprec A = true ->
  i < tN A ->
  length row = tN A ->
  exists C : dist F,
    dist_set_row keep A i row = Ok C /\
    becomes t A C (fun a b : nat => if a =? i then fcut t keep (fun _ b0 : nat => nth b0 row 0%K) a b else gmx A a b) /\
    tprec C = true.
Proof. exact (@dist_set_row_ok). Qed.
Print Assumptions c38_set_row.

(** get_row on one or four tasks *)
Theorem c38_get_row_partial :
  forall (F : scalar) (t : fmt) (A : dist F) (i : nat) (order : list nat),
  dist_ok t A ->
  dist_roomy A ->
  tprec A = true ->
  i < tN A -> Permutation order (seq 0 (tasks A)) -> tp A <= 2 -> dist_get_row A i order = Ok (map (gmx A i) (seq 0 (tN A))).
Proof. exact (@dist_get_row_small). Qed.
Print Assumptions c38_get_row_partial.

(** get_row on any grid: the first block of columns is right, the second holds some other block, the rest is zero *)
Theorem c38_get_row_actual :
  forall (F : scalar) (t : fmt) (A : dist F) (i : nat) (order : list nat),
  dist_ok t A ->
  dist_roomy A ->
  tprec A = true ->
  i < tN A ->
  Permutation order (seq 0 (tasks A)) ->
  exists row : list F,
    dist_get_row A i order = Ok row /\
    length row = tN A /\
    (forall c : nat, c < tn A -> nth c row 0%K = gmx A i c) /\
    (forall c : nat, 2 * tn A <= c < tN A -> nth c row 0%K = 0%K) /\
    (1 < tp A ->
     exists J : nat,
       1 <= J < tp A /\ (forall c : nat, tn A <= c < 2 * tn A -> nth c row 0%K = gmx A i (J * tn A + (c - tn A)))).
Proof. exact (@dist_get_row_actual). Qed.
Print Assumptions c38_get_row_actual.

(** on every larger grid and in every format a row of the identity is read wrongly *)
Theorem c38_get_row_refuted :
  forall (t : fmt) (p : nat),
  3 <= p ->
  exists (A : dist Zscalar) (row : list Zscalar),
    dist_identity t p p p (fun _ : nat => seq_env 1) = Ok A /\
    dist_ok t A /\
    dist_roomy A /\
    gmx A (p - 1) (p - 1) = 1%Z /\ dist_get_row A (p - 1) (seq 0 (p * p)) = Ok row /\ nth (p - 1) row 0%Z = 0%Z.
Proof. exact (@get_row_refuted). Qed.
Print Assumptions c38_get_row_refuted.

Example c38_instance : forall t, exists A : dist Zscalar, dist_ok t A /\ dist_roomy A /\ tprec A = true /\ (tp A <= 2)%nat /\ (2 < tN A)%nat /\
  gmx A 2 1 = 6%Z.
Proof. exact exOne. Qed.

(** C39: add_identity adds the identity to every block *)
Theorem c39_add_identity_actual :
  forall (F : scalar) (t : fmt) (A : dist F),
  dist_ok t A ->
  dist_roomy A ->
  forall (keep : F -> bool) (beta : F) (E : nat -> env F),
  (forall r : nat, r < tasks A -> good_schedules (tn A) (E r)) ->
  exists C : dist F,
    dist_add_identity keep beta A E = Ok C /\
    becomes t A C (fcut t keep (madd (gmx A) (mscale beta (tiled_identity (tn A))))) /\ tprec C = tprec A.
Proof. exact (@dist_add_identity_ok). Qed.
Print Assumptions c39_add_identity_actual.

Theorem c39_scale_add_identity_actual :
  forall (F : scalar) (t : fmt) (A : dist F),
  dist_ok t A ->
  dist_roomy A ->
  forall (keep : F -> bool) (alpha beta : F) (E : nat -> env F),
  (forall r : nat, r < tasks A -> good_schedules (tn A) (E r)) ->
  exists C : dist F,
    dist_scale_add_identity keep alpha beta A E = Ok C /\
    becomes t A C (fcut t keep (madd (mscale alpha (gmx A)) (mscale beta (tiled_identity (tn A))))) /\ tprec C = tprec A.
Proof. exact (@dist_scale_add_identity_ok). Qed.
Print Assumptions c39_scale_add_identity_actual.

(** ... which on every grid of more than one task is not the identity matrix *)
Theorem c39_add_identity_refuted :
  forall (t : fmt) (p : nat),
  2 <= p ->
  exists A C : dist Zscalar,
    dist_zero t p p p = Ok A /\
    dist_ok t A /\
    dist_roomy A /\ dist_add_identity (gtZ 0) 1%Z A (fun _ : nat => seq_env 1) = Ok C /\ gmx A 0 1 = 0%Z /\ gmx C 0 1 = 1%Z.
Proof. exact (@add_identity_refuted). Qed.
Print Assumptions c39_add_identity_refuted.

Theorem c39_scale_add_identity_refuted :
  forall (t : fmt) (p : nat),
  2 <= p ->
  exists A C : dist Zscalar,
    dist_zero t p p p = Ok A /\
    dist_ok t A /\
    dist_roomy A /\
    dist_scale_add_identity (gtZ 0) 1%Z 1%Z A (fun _ : nat => seq_env 1) = Ok C /\ gmx A 0 1 = 0%Z /\ gmx C 0 1 = 1%Z.
Proof. exact (@scale_add_identity_refuted). Qed.
Print Assumptions c39_scale_add_identity_refuted.

(** the constructors and set_diagonal *)
Theorem c39_identity :
  forall (F : scalar) (t : fmt) (p N M : nat) (E : nat -> env F),
  0 < p ->
  0 < N ->
  N = p * (N / p) ->
  N / p <= M / p ->
  N / p <= table_max ->
  (forall r : nat, r < p * p -> good_schedules (N / p) (E r)) ->
  exists D : dist F,
    dist_identity t p N M E = Ok D /\
    tp D = p /\ tN D = N /\ tM D = M /\ tprec D = true /\ dist_ok t D /\ dist_roomy D /\ meq N (gmx D) mid.
Proof. exact (@dist_identity_ok). Qed.
Print Assumptions c39_identity.

Theorem c39_zero :
  forall (F : scalar) (t : fmt) (p N M : nat),
  0 < p ->
  0 < N ->
  N = p * (N / p) ->
  N / p <= M / p ->
  N / p <= table_max ->
  exists D : dist F,
    dist_zero t p N M = Ok D /\
    tp D = p /\ tN D = N /\ tM D = M /\ tprec D = true /\ dist_ok t D /\ dist_roomy D /\ meq N (gmx D) mzero.
Proof. exact (@dist_zero_ok). Qed.
Print Assumptions c39_zero.

Theorem c39_set_diagonal :
  forall (F : scalar) (t : fmt) (A : dist F),
  dist_ok t A ->
  dist_roomy A ->
  forall (keep : F -> bool) (diag : list F),
  tprec A = true ->
  length diag = tN A ->
  exists C : dist F,
    dist_set_diagonal keep A diag = Ok C /\
    becomes t A C (fun a b : nat => if a =? b then fcut t keep (fun a0 _ : nat => nth a0 diag 0%K) a b else gmx A a b) /\
    tprec C = true.
Proof. exact (@dist_set_diagonal_ok). Qed.
Print Assumptions c39_set_diagonal.

(** C40: the transposes, every execution *)
Theorem c40_transpose_new :
  forall (F : scalar) (t : fmt) (nz : F -> bool) (A : dist F) (E : nat -> nat -> env F),
  dist_ok t A ->
  dist_roomy A ->
  keeps_nonzero nz ->
  (forall r k : nat, r < tasks A -> good_schedules (tn A) (E r k)) ->
  exists s : nat -> tstate F,
    always_ends (tasks A) (dist_transpose_new nz (tp A) (tN A) (tM A) E) (transpose_start A) s /\
    (forall r : nat, r < tasks A -> uA (s r) = blk A r) /\ becomes t A (gather A uB s) (mtrans (gmx A)).
Proof. exact (@dist_transpose_new_ok). Qed.
Print Assumptions c40_transpose_new.

Theorem c40_transpose :
  forall (F : scalar) (t : fmt) (nz : F -> bool) (A : dist F) (E : nat -> nat -> env F),
  dist_ok t A ->
  dist_roomy A ->
  keeps_nonzero nz ->
  (forall r k : nat, r < tasks A -> good_schedules (tn A) (E r k)) ->
  exists s : nat -> tstate F,
    always_ends (tasks A) (dist_transpose nz (tp A) (tN A) (tM A) E) (transpose_start A) s /\
    becomes t A (gather A uA s) (mtrans (gmx A)).
Proof. exact (@dist_transpose_ok). Qed.
Print Assumptions c40_transpose.

(** sums over all tasks in any order *)
Theorem c40_trace :
  forall (F : scalar) (t : fmt) (A : dist F),
  dist_ok t A ->
  dist_roomy A ->
  forall (E : nat -> env F) (order : list nat),
  (forall r : nat, r < tasks A -> good_schedules (tn A) (E r)) ->
  Permutation order (seq 0 (tasks A)) -> dist_trace A E order = Ok (mtrace (tN A) (gmx A)).
Proof. exact (@dist_trace_ok). Qed.
Print Assumptions c40_trace.

Theorem c12_dist2d_trace :
  forall (F : scalar) (t : fmt) (A : dist F),
  dist_ok t A ->
  dist_roomy A ->
  forall (E : nat -> env F) (order : list nat),
  (forall r : nat, r < tasks A -> good_schedules (tn A) (E r)) ->
  Permutation order (seq 0 (tasks A)) -> dist_trace A E order = Ok (mtrace (tN A) (gmx A)).
Proof. exact (@dist_trace_ok). Qed.
Print Assumptions c12_dist2d_trace.

Theorem c40_sum_squares :
  forall (F : scalar) (t : fmt) (A : dist F),
  dist_ok t A ->
  dist_roomy A ->
  forall (E : nat -> env F) (order : list nat),
  (forall r : nat, r < tasks A -> good_schedules (tn A) (E r)) ->
  Permutation order (seq 0 (tasks A)) -> dist_sum_squares A E order = Ok (msum (tN A) (mhad (gmx A) (gmx A))).
Proof. exact (@dist_sum_squares_ok). Qed.
Print Assumptions c40_sum_squares.

Theorem c40_sum_AB :
  forall (F : scalar) (t : fmt) (A : dist F),
  dist_ok t A ->
  dist_roomy A ->
  forall (E : nat -> env F) (order : list nat),
  (forall r : nat, r < tasks A -> good_schedules (tn A) (E r)) ->
  Permutation order (seq 0 (tasks A)) ->
  forall B : dist F,
  dist_ok t B ->
  dist_roomy B ->
  same_grid A B ->
  forall (keep : F -> bool) (alpha : F),
  dist_sum_AB keep alpha A B E order = Ok (msum (tN A) (mcut keep (mscale alpha (mhad (gmx A) (gmx B))))).
Proof. exact (@dist_sum_AB_ok). Qed.
Print Assumptions c40_sum_AB.

Theorem c40_sum_squares2 :
  forall (F : scalar) (t : fmt) (A : dist F),
  dist_ok t A ->
  dist_roomy A ->
  forall (E : nat -> env F) (order : list nat),
  (forall r : nat, r < tasks A -> good_schedules (tn A) (E r)) ->
  Permutation order (seq 0 (tasks A)) ->
  forall B : dist F,
  dist_ok t B ->
  dist_roomy B ->
  same_grid A B ->
  forall (keep : F -> bool) (alpha beta : F),
  dist_sum_squares2 keep alpha beta A B E order =
  Ok (let Z := mcut keep (madd (mscale alpha (gmx A)) (mscale beta (gmx B))) in msum (tN A) (mhad Z Z)).
Proof. exact (@dist_sum_squares2_ok). Qed.
Print Assumptions c40_sum_squares2.

(** trace_mult: dense and ellpack blocks give the sum of A_ij B_ij, csr blocks something else *)
Theorem c40_trace_mult_dense :
  forall (F : scalar) (t : fmt) (A : dist F),
  dist_ok t A ->
  dist_roomy A ->
  forall (E : nat -> env F) (order : list nat),
  (forall r : nat, r < tasks A -> good_schedules (tn A) (E r)) ->
  Permutation order (seq 0 (tasks A)) ->
  forall B : dist F,
  dist_ok t B ->
  dist_roomy B -> same_grid A B -> t = FDense -> dist_trace_mult A B E order = Ok (msum (tN A) (mhad (gmx A) (gmx B))).
Proof. exact (@dist_trace_mult_dense). Qed.
Print Assumptions c40_trace_mult_dense.

Theorem c40_trace_mult_ellpack :
  forall (F : scalar) (t : fmt) (A : dist F),
  dist_ok t A ->
  dist_roomy A ->
  forall (E : nat -> env F) (order : list nat),
  (forall r : nat, r < tasks A -> good_schedules (tn A) (E r)) ->
  Permutation order (seq 0 (tasks A)) ->
  forall B : dist F,
  dist_ok t B ->
  dist_roomy B ->
  same_grid A B ->
  t = FEll ->
  (forall (r : nat) (a b : ell F) (i : nat),
   r < tasks A -> blk A r = BEll a -> blk B r = BEll b -> i < tn A -> nnz a i = 0 \/ nnz b i <> 0) ->
  dist_trace_mult A B E order = Ok (msum (tN A) (mhad (gmx A) (gmx B))).
Proof. exact (@dist_trace_mult_ell). Qed.
Print Assumptions c40_trace_mult_ellpack.

Theorem c40_trace_mult_csr_actual :
  forall (F : scalar) (t : fmt) (A : dist F),
  dist_ok t A ->
  dist_roomy A ->
  forall (E : nat -> env F) (order : list nat),
  (forall r : nat, r < tasks A -> good_schedules (tn A) (E r)) ->
  Permutation order (seq 0 (tasks A)) ->
  forall B : dist F,
  dist_ok t B ->
  dist_roomy B ->
  same_grid A B ->
  t = FCsr ->
  dist_trace_mult A B E order =
  Ok
    (bigsum (tp A)
       (fun I : nat =>
        bigsum (tp A) (fun J : nat => mtrace (tn A) (mmul (tn A) (sub (tn A) I J (gmx A)) (sub (tn A) I J (gmx B)))))).
Proof. exact (@dist_trace_mult_csr). Qed.
Print Assumptions c40_trace_mult_csr_actual.

Theorem c40_trace_mult_csr_refuted :
  exists (A B : dist Zscalar) (v : Zscalar),
    dist_ok FCsr A /\
    dist_ok FCsr B /\
    dist_roomy A /\
    dist_roomy B /\
    same_grid A B /\
    dist_trace_mult A B (fun _ : nat => seq_env (tn A)) (seq 0 (tasks A)) = Ok v /\
    v <> mtrace (tN A) (mmul (tN A) (gmx A) (gmx B)) /\ v <> msum (tN A) (mhad (gmx A) (gmx B)).
Proof. exact (@trace_mult_csr_refuted). Qed.
Print Assumptions c40_trace_mult_csr_refuted.

(** elementwise operations *)
Theorem c40_add :
  forall (F : scalar) (t : fmt) (A : dist F),
  dist_ok t A ->
  dist_roomy A ->
  forall (keep : F -> bool) (alpha beta : F) (B : dist F) (E : nat -> env F),
  dist_ok t B ->
  dist_roomy B ->
  same_grid A B ->
  (forall r : nat, r < tasks A -> good_schedules (tn A) (E r)) ->
  exists C : dist F,
    dist_add keep alpha beta A B E = Ok C /\
    becomes t A C (fcut t keep (madd (mscale alpha (gmx A)) (mscale beta (gmx B)))) /\ tprec C = tprec A.
Proof. exact (@dist_add_ok). Qed.
Print Assumptions c40_add.

Theorem c40_scale_inplace :
  forall (F : scalar) (t : fmt) (A : dist F),
  dist_ok t A ->
  dist_roomy A ->
  forall (a : F) (E : nat -> env F),
  (forall r : nat, r < tasks A -> good_schedules (tn A) (E r)) ->
  exists C : dist F, dist_scale_inplace a A E = Ok C /\ becomes t A C (mscale a (gmx A)) /\ tprec C = tprec A.
Proof. exact (@dist_scale_inplace_ok). Qed.
Print Assumptions c40_scale_inplace.

Theorem c40_threshold :
  forall (F : scalar) (t : fmt) (A : dist F),
  dist_ok t A ->
  dist_roomy A ->
  forall (keep : F -> bool) (E : nat -> env F),
  (forall r : nat, r < tasks A -> good_schedules (tn A) (E r)) ->
  exists C : dist F, dist_threshold keep A E = Ok C /\ becomes t A C (mcut keep (gmx A)) /\ tprec C = tprec A.
Proof. exact (@dist_threshold_ok). Qed.
Print Assumptions c40_threshold.

Theorem c40_threshold_new :
  forall (F : scalar) (t : fmt) (A : dist F),
  dist_ok t A ->
  dist_roomy A ->
  forall (keep : F -> bool) (E : nat -> nat -> env F),
  (forall r k : nat, r < tasks A -> good_schedules (tn A) (E r k)) ->
  exists C : dist F, dist_threshold_new keep A E = Ok C /\ becomes t A C (mcut keep (gmx A)) /\ tprec C = true.
Proof. exact (@dist_threshold_new_ok). Qed.
Print Assumptions c40_threshold_new.

Theorem c40_copy_new :
  forall (F : scalar) (t : fmt) (A : dist F),
  dist_ok t A ->
  dist_roomy A ->
  forall E : nat -> nat -> env F,
  (forall r k : nat, r < tasks A -> good_schedules (tn A) (E r k)) ->
  exists C : dist F, dist_copy_new A E = Ok C /\ becomes t A C (gmx A) /\ tprec C = true.
Proof. exact (@dist_copy_new_ok). Qed.
Print Assumptions c40_copy_new.

Theorem c40_copy :
  forall (F : scalar) (t : fmt) (A : dist F),
  dist_ok t A ->
  dist_roomy A ->
  forall (B : dist F) (E : nat -> env F),
  dist_ok t B ->
  dist_roomy B ->
  same_grid B A ->
  (forall r : nat, r < tasks A -> good_schedules (tn A) (E r)) ->
  exists C : dist F, dist_copy A B E = Ok C /\ becomes t B C (gmx A) /\ tprec C = tprec B.
Proof. exact (@dist_copy_ok). Qed.
Print Assumptions c40_copy.

Theorem c40_scale :
  forall (F : scalar) (t : fmt) (A : dist F),
  dist_ok t A ->
  dist_roomy A ->
  forall (a : F) (B : dist F) (E : nat -> env F),
  dist_ok t B ->
  dist_roomy B ->
  same_grid B A ->
  (forall r : nat, r < tasks A -> good_schedules (tn A) (E r)) ->
  exists C : dist F, dist_scale a A B E = Ok C /\ becomes t B C (mscale a (gmx A)) /\ tprec C = tprec B.
Proof. exact (@dist_scale_ok). Qed.
Print Assumptions c40_scale.

Theorem c40_scale_new :
  forall (F : scalar) (t : fmt) (A : dist F),
  dist_ok t A ->
  dist_roomy A ->
  forall (a : F) (E : nat -> nat -> env F),
  (forall r k : nat, r < tasks A -> good_schedules (tn A) (E r k)) ->
  exists C : dist F, dist_scale_new a A E = Ok C /\ becomes t A C (mscale a (gmx A)) /\ tprec C = true.
Proof. exact (@dist_scale_new_ok). Qed.
Print Assumptions c40_scale_new.

(** the number add_norm returns depends on the format of the blocks *)
Theorem c40_add_norm_dense :
  forall (F : scalar) (A B : dist F) (keep : F -> bool) (alpha beta : F) (E : nat -> env F) (order : list nat),
  dist_roomy A ->
  dist_roomy B ->
  same_grid A B ->
  (forall r : nat, r < tasks A -> good_schedules (tn A) (E r)) ->
  Permutation order (seq 0 (tasks A)) ->
  dist_ok FDense A ->
  dist_ok FDense B ->
  exists C : dist F,
    dist_add_norm keep alpha beta A B E order = Ok (C, msum (tN A) (fun i j : nat => (gmx B i j * gmx B i j)%K)) /\
    becomes FDense A C (madd (mscale alpha (gmx A)) (mscale beta (gmx B))).
Proof. exact (@dist_add_norm_dense). Qed.
Print Assumptions c40_add_norm_dense.

Theorem c40_add_norm_ellpack :
  forall (F : scalar) (A B : dist F) (keep : F -> bool) (alpha beta : F) (E : nat -> env F) (order : list nat),
  dist_roomy A ->
  dist_roomy B ->
  same_grid A B ->
  (forall r : nat, r < tasks A -> good_schedules (tn A) (E r)) ->
  Permutation order (seq 0 (tasks A)) ->
  dist_ok FEll A ->
  dist_ok FEll B ->
  exists C : dist F,
    dist_add_norm keep alpha beta A B E order =
    Ok (C, msum (tN A) (fun i j : nat => ((gmx A i j - gmx B i j) * (gmx A i j - gmx B i j))%K)) /\
    becomes FEll A C (mcut keep (madd (mscale alpha (gmx A)) (mscale beta (gmx B)))).
Proof. exact (@dist_add_norm_ell). Qed.
Print Assumptions c40_add_norm_ellpack.

Theorem c40_add_norm_csr :
  forall (F : scalar) (A B : dist F) (keep : F -> bool) (alpha beta : F) (E : nat -> env F) (order : list nat),
  same_grid A B -> dist_ok FCsr A -> dist_ok FCsr B -> dist_add_norm keep alpha beta A B E order = Err.
Proof. exact (@dist_add_norm_csr). Qed.
Print Assumptions c40_add_norm_csr.

(** C32: conversion of the blocks; the matrix is unchanged *)
Theorem c32_dist2d_convert :
  forall (F : scalar) (t : fmt) (A : dist F),
  dist_ok t A ->
  dist_roomy A ->
  forall (nz : F -> bool) (t' : fmt) (M : nat),
  keeps_nonzero nz ->
  0 < M ->
  exists C : dist F,
    dist_convert nz A t' M = Ok C /\
    dist_ok t' C /\ tp C = tp A /\ tN C = tN A /\ tM C = M /\ tprec C = true /\ meq (tN A) (gmx C) (gmx A).
Proof. exact (@dist_convert_ok). Qed.
Print Assumptions c32_dist2d_convert.

(** C41: import; for column-major arrays the blocks are transposed as blocks *)
Theorem c41_import :
  forall (F : scalar) (t : fmt) (o : dorder) (p N M : nat) (keep : F -> bool) (D : list F) (E : nat -> env F),
  0 < p ->
  0 < N ->
  N = p * (N / p) ->
  M / p = N / p ->
  N / p <= table_max ->
  length D = N * N ->
  (forall r : nat, r < p * p -> good_schedules (N / p) (E r)) ->
  exists A : dist F,
    dist_import t o p N M keep D E = Ok A /\
    tp A = p /\
    tN A = N /\
    tM A = M /\
    tprec A = false /\ dist_ok t A /\ dist_roomy A /\ meq N (gmx A) (fcut t keep (placed o (N / p) (dmat o N D))).
Proof. exact (@dist_import_ok). Qed.
Print Assumptions c41_import.

Theorem c41_export :
  forall (F : scalar) (t : fmt) (A : dist F) (o : dorder) (E : nat -> env F),
  dist_ok t A ->
  dist_roomy A ->
  (forall r : nat, r < tasks A -> good_schedules (tn A) (E r)) ->
  exists D : list F,
    dist_export A o E = Ok D /\ length D = tN A * tN A /\ meq (tN A) (placed o (tn A) (dmat o (tN A) D)) (gmx A).
Proof. exact (@dist_export_ok). Qed.
Print Assumptions c41_export.

(** export inverts import in either order *)
Theorem c41_round_trip :
  forall (F : scalar) (t : fmt) (o : dorder) (p N M : nat) (keep : F -> bool) (D : list F) (E E' : nat -> env F),
  0 < p ->
  0 < N ->
  N = p * (N / p) ->
  M / p = N / p ->
  N / p <= table_max ->
  length D = N * N ->
  (forall r : nat, r < p * p -> good_schedules (N / p) (E r)) ->
  (forall r : nat, r < p * p -> good_schedules (N / p) (E' r)) ->
  exists (A : dist F) (D' : list F),
    dist_import t o p N M keep D E = Ok A /\
    dist_export A o E' = Ok D' /\ length D' = N * N /\ meq N (dmat o N D') (fcut t keep (dmat o N D)).
Proof. exact (@dist_round_trip). Qed.
Print Assumptions c41_round_trip.

(** a column-major array is not the matrix that is imported *)
Theorem c41_col_major_refuted :
  forall t : fmt,
  exists (D : list Zscalar) (A : dist Zscalar),
    length D = 4 /\
    dist_import t col_major 2 2 2 (gtZ 0) D (fun _ : nat => seq_env 1) = Ok A /\
    dmat col_major 2 D 0 1 = 5%Z /\ gmx A 0 1 = 0%Z.
Proof. exact (@import_col_major_refuted). Qed.
Print Assumptions c41_col_major_refuted.

(** the result of import has no precision set: these calls on it end in an error *)
Theorem c41_imported_unusable :
  forall (F : scalar) (t : fmt) (o : dorder) (p N M : nat) (keep : F -> bool) (D : list F) (E : nat -> env F) (A : dist F),
  dist_import t o p N M keep D E = Ok A ->
  (forall (keep0 nz : F -> bool) (alpha beta : F) (E0 : nat -> nat -> env F), dist_multiply keep0 nz alpha beta A E0 = Err) /\
  (forall (i : nat) (order : list nat), dist_get_row A i order = Err) /\
  (forall (keep0 : F -> bool) (i : nat) (row : list F), dist_set_row keep0 A i row = Err) /\
  (forall (keep0 : F -> bool) (diag : list F), dist_set_diagonal keep0 A diag = Err).
Proof. exact (@imported_unusable). Qed.
Print Assumptions c41_imported_unusable.

Example c41_instance : (length exArr = 4 * 4)%nat /\ (4 = 2 * (4 / 2))%nat /\ (4 / 2 <= table_max)%nat /\ good_schedules (4 / 2) (seq_env 2 : env Zscalar).
Proof. split; [reflexivity|]. split; [reflexivity|]. split; [apply table_max_big; cbv; lia|apply seq_env_good]. Qed.
