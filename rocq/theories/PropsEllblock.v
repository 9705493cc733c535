(** Theorems about block ellpack matrices: default block sizes (C42), element access (C43), set_row (C44), products (C45),
    in-place transpose (C46), sums (C58), copies, scaling, threshold and transpose into a new matrix (C59), import, export,
    conversion and blocks (C60), reductions (C61). *)
From Verif Require Import Base Spec SpecFacts EllpackModel EllpackSpec EllpackExact EllpackCheck
  EllblockModel EllblockSpec EllblockFacts EllblockHeap EllblockRead EllblockBuild EllblockMake EllblockSet EllblockCopy
  EllblockAdd EllblockProd EllblockPtr EllblockConv EllblockTrans EllblockNorm EllblockHist EllblockCheck FormatCheck.

(** C42: with no default sizes set, the matrix has the size asked for *)
Theorem c42_first :
  forall (F : scalar) (N M : nat),
  0 < M ->
  M <= N ->
  exists (d : defaults) (A : eb F),
    eb_zero None N M = Ok (Some d, A) /\
    sizes_for d N /\
    zero_matrix d N M A /\
    (forall ib : nat, S ib < s_nb d -> bsz (s_bsize d) ib = 4) /\
    (forall ib : nat, ib < s_nb d -> 1 <= bsz (s_bsize d) ib <= 4) /\ (M <= 4 * s_mb d \/ s_mb d = s_nb d).
Proof. exact (@eb_zero_first). Qed.
Print Assumptions c42_first.

(** later matrices have the size of the first, or the call stops *)
Theorem c42_later_actual :
  forall (F : scalar) (d : defaults) (n N M : nat),
  M <= N ->
  sizes_for d n ->
  (n < M -> eb_zero (F:=F) (Some d) N M = Err) /\
  (M <= n -> exists A : eb F, eb_zero (Some d) N M = Ok (Some d, A) /\ zero_matrix d n M A).
Proof. exact (@eb_zero_again). Qed.
Print Assumptions c42_later_actual.

(** over a history of constructor calls *)
Theorem c42_history_actual :
  forall (F : scalar) (N M : nat) (reqs : list (nat * nat)),
  0 < M ->
  M <= N ->
  (forall n m : nat, In (n, m) reqs -> m <= n) ->
  make_all ((N, M) :: reqs) None = @Err (cache * list (eb F)) \/
  (exists (c : cache) (l : list (eb F)),
     make_all ((N, M) :: reqs) None = Ok (c, l) /\
     length l = S (length reqs) /\
     (forall n m : nat, In (n, m) reqs -> m <= N) /\ (forall A : eb F, In A l -> ebwf A /\ bN A = N /\ meq N (ebmx A) mzero)).
Proof. exact (@make_all_sizes). Qed.
Print Assumptions c42_history_actual.

Theorem c42_size_refuted :
  forall N M n m : nat,
  0 < M <= N ->
  0 < m <= n ->
  m <= N ->
  n <> N ->
  exists (c : cache) (A B : eb Zscalar),
    eb_zero None N M = Ok (c, A) /\ bN A = N /\ eb_zero c n m = Ok (c, B) /\ bN B = N /\ bN B <> n.
Proof. exact (@zero_size_refuted). Qed.
Print Assumptions c42_size_refuted.

Theorem c42_noinit_refuted :
  forall N M : nat, eb_noinit (F:=Zscalar) None N M = Err.
Proof. exact (@noinit_refuted). Qed.
Print Assumptions c42_noinit_refuted.

(** the identity, when the default sizes are those of N rows *)
Theorem c42_identity :
  forall (F : scalar) (c : cache) (N M : nat) (d : defaults) (g : nat -> F),
  M <= N ->
  bml_get_block_sizes c N M = Ok d ->
  sizes_for d N ->
  exists A : eb F,
    eb_identity c N M g = Ok (Some d, A) /\
    ebwf A /\
    clean A /\
    bN A = N /\
    bM A = M /\
    bNB A = s_nb d /\
    bMB A = s_mb d /\ bbs A = s_bsize d /\ (forall ib : nat, ib < bNB A -> bcols A ib = [ib]) /\ meq N (ebmx A) mid.
Proof. exact (@eb_identity_ok). Qed.
Print Assumptions c42_identity.

Example c42_instance : exists d, bml_get_block_sizes None 7 3 = Ok d /\ sizes_for d 7 /\ s_bsize d = [4; 3] /\ sizes_for d222 6 /\
  exists (A : eb Zscalar) (l : list (eb Zscalar)) c, make_all [(7, 3); (9, 2)] None = Ok (c, l) /\ length l = 2 /\ In A l /\ bN A = 7.
Proof. eexists. split; [reflexivity|]. split; [repeat split; cbn; lia|]. split; [reflexivity|]. split; [repeat split; cbn; lia|].
  do 3 eexists. split; [vm_compute; reflexivity|]. split; [reflexivity|]. split; [left; reflexivity|reflexivity]. Qed.

(** C43 *)
Theorem c43_get_element :
  forall (F : scalar) (A : eb F) (i j : nat), ebwf A -> i < bN A -> j < bN A -> eb_get_element A i j = Ok (ebmx A i j).
Proof. exact (@eb_get_element_ok). Qed.
Print Assumptions c43_get_element.

Theorem c43_get_element_range :
  forall (F : scalar) (A : eb F) (i j : nat), bN A <= i \/ bN A <= j -> eb_get_element A i j = Err.
Proof. exact (@eb_get_element_oob). Qed.
Print Assumptions c43_get_element_range.

Theorem c43_get_row :
  forall (F : scalar) (A : eb F) (i : nat),
  ebwf A ->
  i < bN A ->
  exists r : list F, eb_get_row A i = Ok r /\ length r = bN A /\ (forall j : nat, j < bN A -> nth j r 0%K = ebmx A i j).
Proof. exact (@eb_get_row_ok). Qed.
Print Assumptions c43_get_row.

Theorem c43_get_diagonal :
  forall (F : scalar) (A : eb F),
  ebwf A ->
  exists d : list F, eb_get_diagonal A = Ok d /\ length d = bN A /\ (forall i : nat, i < bN A -> nth i d 0%K = ebmx A i i).
Proof. exact (@eb_get_diagonal_ok). Qed.
Print Assumptions c43_get_diagonal.

Theorem c43_set_element :
  forall (F : scalar) (A : eb F) (i j : nat) (v : F) (g : nat -> F),
  ebwf A ->
  clean A ->
  i < bN A ->
  j < bN A ->
  In (blk_of A j) (bcols A (blk_of A i)) \/ bnz A (blk_of A i) < bMB A ->
  exists A' : eb F,
    eb_set_element A i j v g = Ok A' /\
    ebwf A' /\
    clean A' /\ kin A A' /\ meq (bN A) (ebmx A') (fun i' j' : nat => if (i' =? i) && (j' =? j) then v else ebmx A i' j').
Proof. exact (@eb_set_element_ok). Qed.
Print Assumptions c43_set_element.

Theorem c43_set_element_full :
  forall (F : scalar) (A : eb F) (i j : nat) (v : F) (g : nat -> F),
  ebwf A ->
  i < bN A ->
  j < bN A -> ~ In (blk_of A j) (bcols A (blk_of A i)) -> bnz A (blk_of A i) = bMB A -> eb_set_element A i j v g = Err.
Proof. exact (@eb_set_element_full). Qed.
Print Assumptions c43_set_element_full.

(** any sequence of set_element calls on a matrix without stale pointers *)
Theorem c43_history :
  forall (F : scalar) (A : eb F) (ops : list (nat * nat * F)) (g : nat -> F),
  ebwf A ->
  clean A ->
  (forall (i j : nat) (v : F), In (i, j, v) ops -> i < bN A /\ j < bN A) ->
  set_all ops g A = Err \/
  (exists A' : eb F,
     set_all ops g A = Ok A' /\
     ebwf A' /\
     clean A' /\
     same_dims A A' /\
     (forall i j : nat,
      i < bN A -> j < bN A -> eb_get_element A' i j = Ok match last_set ops i j with
                                                         | Some v => v
                                                         | None => ebmx A i j
                                                         end) /\
     meq (bN A) (ebmx A') (fun i j : nat => match last_set ops i j with
                                            | Some v => v
                                            | None => ebmx A i j
                                            end)).
Proof. exact (@eb_set_history). Qed.
Print Assumptions c43_history.

Theorem c43_history_room :
  forall (F : scalar) (A : eb F) (ops : list (nat * nat * F)) (g : nat -> F),
  ebwf A ->
  clean A ->
  bNB A <= bMB A ->
  (forall (i j : nat) (v : F), In (i, j, v) ops -> i < bN A /\ j < bN A) ->
  exists A' : eb F,
    set_all ops g A = Ok A' /\
    ebwf A' /\
    clean A' /\
    same_dims A A' /\
    meq (bN A) (ebmx A') (fun i j : nat => match last_set ops i j with
                                           | Some v => v
                                           | None => ebmx A i j
                                           end).
Proof. exact (@eb_set_history_room). Qed.
Print Assumptions c43_history_room.

Theorem c43_set_diagonal :
  forall (F : scalar) (keep : F -> bool) (A : eb F) (diag : list F) (g : nat -> F),
  ebwf A ->
  length diag = bN A ->
  (forall ib : nat, ib < bNB A -> dkeep (bbs A) keep diag ib = true -> In ib (bcols A ib) \/ bnz A ib < bMB A) ->
  exists A' : eb F,
    eb_set_diagonal keep A diag g = Ok A' /\
    ebwf A' /\
    (clean A -> clean A') /\
    (forall n : nat, roomy n A -> roomy n A') /\
    same_dims A A' /\ meq (bN A) (ebmx A') (set_diag (bbs A) keep diag (ebmx A)).
Proof. exact (@eb_set_diagonal_ok). Qed.
Print Assumptions c43_set_diagonal.

Example c43_instance : ebwf exEN /\ clean exEN /\ bsz (bbs exEN) 1 = 1 /\ bsz (bbs exEN) 2 = 2 /\ bcols exEN 0 = [0; 1] /\ ~ In (blk_of exEN 4) (bcols exEN (blk_of exEN 0)) /\
  bnz exEN (blk_of exEN 0) < bMB exEN /\ bNB exEN <= bMB exEN /\ ebmx exEN 2 4 = 3%Z /\
  dkeep (bbs exEN) (gtZ 0) ([0; 7; 0; 0; 1]%Z : list Zscalar) 0 = true /\
  exists A', set_all [(0, 4, 9%Z : Zscalar); (2, 4, 0%Z : Zscalar); (0, 4, 8%Z : Zscalar)] Zg exEN = Ok A' /\ ebmx A' 0 4 = 8%Z /\ ebmx A' 1 2 = 2%Z.
Proof. split; [apply exEN_wf|]. split; [apply exEN_wf|]. split; [reflexivity|]. split; [reflexivity|]. split; [reflexivity|]. split; [vm_compute; intuition discriminate|].
  split; [vm_compute; lia|]. split; [vm_compute; lia|]. split; [reflexivity|]. split; [reflexivity|]. eexists. split; [vm_compute; reflexivity|]. split; reflexivity. Qed.

(** C44: kept elements are stored, the others keep their old value *)
Theorem c44_set_row_actual :
  forall (F : scalar) (keep : F -> bool) (A : eb F) (i : nat) (row : list F) (g : nat -> F),
  ebwf A ->
  i < bN A ->
  length row = bN A ->
  count (bNB A) (row_cols keep A i row) <= bMB A ->
  exists A' : eb F,
    eb_set_row keep A i row g = Ok A' /\
    ebwf A' /\
    (clean A -> clean A') /\
    same_dims A A' /\
    meq (bN A) (ebmx A') (fun i' j' : nat => if (i' =? i) && keep (nth j' row 0%K) then nth j' row 0%K else ebmx A i' j').
Proof. exact (@eb_set_row_ok). Qed.
Print Assumptions c44_set_row_actual.

(** missing: rows with stored elements, rows with more blocks than slots *)
Theorem c44_set_row_partial :
  forall (F : scalar) (keep : F -> bool) (A : eb F) (i : nat) (row : list F) (g : nat -> F),
  ebwf A ->
  i < bN A ->
  length row = bN A ->
  count (bNB A) (row_cols keep A i row) <= bMB A ->
  (forall j : nat, j < bN A -> ebmx A i j = 0%K) ->
  exists A' : eb F,
    eb_set_row keep A i row g = Ok A' /\
    ebwf A' /\
    (clean A -> clean A') /\
    same_dims A A' /\ meq (bN A) (ebmx A') (fun i' j' : nat => if i' =? i then cut keep (nth j' row 0%K) else ebmx A i' j').
Proof. exact (@eb_set_row_fresh). Qed.
Print Assumptions c44_set_row_partial.

Theorem c44_set_row_refuted :
  exists (A A' : eb Zscalar) (row : list Zscalar), ebwf A /\ clean A /\ length row = bN A /\
  eb_set_row (gtZ 0) A 0 row Zg = Ok A' /\ nth 1 row 0%Z = 0%Z /\ ebmx A' 0 1 = 2%Z.
Proof. exact (@set_row_refuted). Qed.
Print Assumptions c44_set_row_refuted.

Theorem c44_set_row_overflow_refuted :
  exists c (A A1 A2 : eb Zscalar), eb_zero None 20 4 = Ok (c, A) /\
  eb_set_element A 4 4 6%Z Zg = Ok A1 /\ ebwf A1 /\ ebmx A1 4 4 = 6%Z /\
  eb_set_row (gtZ 0) A1 0 row20 Zg = Ok A2 /\ ebmx A2 4 4 = 0%Z /\ ebmx A2 4 16 = 1%Z /\
  eb_set_row (gtZ 0) A 19 row20 Zg = UB.
Proof. exact (@set_row_overflow_refuted). Qed.
Print Assumptions c44_set_row_overflow_refuted.

Example c44_instance : ebwf exEB /\ clean exEB /\ count (bNB exEB) (row_cols (gtZ 0) exEB 2 ([0; 0; 3; 0; 0; 4]%Z : list Zscalar)) <= bMB exEB /\
  forall j, j < bN exEB -> ebmx exEB 2 j = 0%Z.
Proof. split; [apply exEB_wf|]. split; [apply exEB_wf|]. split; [vm_compute; lia|]. intros j Hj. change (bN exEB) with 6 in Hj. do 6 (destruct j as [|j]; [reflexivity|]). lia. Qed.

(** C45: the product with a threshold per block, any schedule *)
Theorem c45_multiply_AB :
  forall (F : scalar) (keep : F -> bool) (A B C : eb F) (g : nat -> F) (nth_ : nat) (sched : list (nat * nat)),
  ebwf A ->
  ebwf B ->
  eb_shape C ->
  eb_dims A B ->
  eb_dims A C ->
  small_blocks A ->
  full_sched (bNB A) nth_ sched ->
  (forall ib : nat, ib < bNB A -> length (mul_cols A B ib) <= bMB C) ->
  exists C' : eb F,
    eb_multiply_AB keep A B C g sched = Ok C' /\
    ebwf C' /\
    same_dims C C' /\
    (forall ib c : nat, ib < bNB A -> In c (bcols C' ib) -> In c (mul_cols A B ib)) /\
    meq (bN A) (ebmx C') (bcut_offdiag (bbs A) keep (mmul (bN A) (ebmx A) (ebmx B))) /\
    ((forall ib jp : nat, ib < bNB C -> jp < bMB C -> saddr C ib jp = None) -> clean C') /\
    (forall n : nat, roomy n C -> roomy n C').
Proof. exact (@eb_multiply_AB_ok). Qed.
Print Assumptions c45_multiply_AB.

(** too many blocks in a row: the call stops *)
Theorem c45_multiply_AB_full :
  forall (F : scalar) (keep : F -> bool) (A B C : eb F) (g : nat -> F) (nth_ : nat) (sched : list (nat * nat)) (ib : nat),
  ebwf A ->
  ebwf B ->
  eb_shape C ->
  eb_dims A B ->
  eb_dims A C ->
  small_blocks A ->
  full_sched (bNB A) nth_ sched -> ib < bNB A -> bMB C < length (mul_cols A B ib) -> eb_multiply_AB keep A B C g sched = Err.
Proof. exact (@eb_multiply_AB_full). Qed.
Print Assumptions c45_multiply_AB_full.

(** trace(X) always, trace(X^2) when all blocks have the same size *)
Theorem c45_multiply_x2 :
  forall (F : scalar) (keep : F -> bool) (X Y : eb F) (g : nat -> F) (nth_ : nat) (sched : list (nat * nat)),
  ebwf X ->
  ebwf Y ->
  eb_dims X Y ->
  bMB Y = bMB X ->
  small_blocks X ->
  full_sched (bNB X) nth_ sched ->
  (forall ib : nat, ib < bNB X -> length (mul_cols X X ib) <= bMB X) ->
  exists (Y' : eb F) (tx2 : F),
    eb_multiply_x2 keep X Y nth_ g sched = Ok (Y', mtrace (bN X) (ebmx X), tx2) /\
    ebwf Y' /\
    same_dims Y Y' /\
    (forall ib c : nat, ib < bNB X -> In c (bcols Y' ib) -> In c (mul_cols X X ib)) /\
    meq (bN X) (ebmx Y') (bcut_offdiag (bbs X) keep (mmul (bN X) (ebmx X) (ebmx X))) /\
    (forall s : nat, uniform s X -> tx2 = mtrace (bN X) (mmul (bN X) (ebmx X) (ebmx X))) /\
    ((forall ib jp : nat, ib < bNB Y -> jp < bMB Y -> saddr Y ib jp = None) -> clean Y').
Proof. exact (@eb_multiply_x2_ok). Qed.
Print Assumptions c45_multiply_x2.

Theorem c45_multiply_x2_full :
  forall (F : scalar) (keep : F -> bool) (X Y : eb F) (g : nat -> F) (nth_ : nat) (sched : list (nat * nat)) (ib : nat),
  ebwf X ->
  ebwf Y ->
  eb_dims X Y ->
  bMB Y = bMB X ->
  small_blocks X ->
  full_sched (bNB X) nth_ sched ->
  ib < bNB X -> bMB X < length (mul_cols X X ib) -> eb_multiply_x2 keep X Y nth_ g sched = Err.
Proof. exact (@eb_multiply_x2_full). Qed.
Print Assumptions c45_multiply_x2_full.

Theorem c45_trace_refuted :
  exists c (A X Y : eb Zscalar) t, eb_zero None 5 5 = Ok (c, A) /\
  set_all [(4, 4, 1%Z : Zscalar); (4, 0, 1%Z : Zscalar); (0, 4, 1%Z : Zscalar); (4, 1, 3%Z : Zscalar); (1, 4, 2%Z : Zscalar)] Zg A = Ok X /\ ebwf X /\
  eb_multiply_x2 (gtZ 0) X A 1 Zg (seq_sched 2) = Ok (Y, mtrace 5 (ebmx X), t) /\ t <> mtrace 5 (mmul 5 (ebmx X) (ebmx X)).
Proof. exact (@trace_x2_refuted). Qed.
Print Assumptions c45_trace_refuted.

(** alpha A B + beta C *)
Theorem c45_multiply :
  forall (F : scalar) (s : nat) (c : cache) (keep : F -> bool) (alpha beta : F) (A B C : eb F) (g : nat -> F) 
    (n1 : nat) (s1 : list (nat * nat)) (n2 : nat) (s2 : list (nat * nat)),
  ebwf A ->
  ebwf B ->
  ebwf C ->
  eb_dims A B ->
  eb_dims A C ->
  good_cache c ->
  uniform s A ->
  0 < s <= 6 ->
  roomy (s * s) C ->
  (forall ib : nat, ib < bNB A -> length (touch_all (bcols C ib) (mul_cols A B ib)) <= bMB C) ->
  full_sched (bNB A) n1 s1 ->
  full_sched (bNB A) n2 s2 ->
  exists C' : eb F,
    eb_multiply c keep alpha beta A B C g s1 s2 = Ok (cache_after c (bNB C) (bMB C) (bbs C), C') /\
    ebwf C' /\
    roomy (s * s) C' /\
    same_dims C C' /\
    meq (bN A) (ebmx C')
      (bcut (bbs A) keep
         (madd (mscale beta (ebmx C)) (mscale alpha (bcut_offdiag (bbs A) keep (mmul (bN A) (ebmx A) (ebmx B)))))).
Proof. exact (@eb_multiply_ok). Qed.
Print Assumptions c45_multiply.

Theorem c45_multiply_exact :
  forall (F : scalar) (s : nat) (c : cache) (keep : F -> bool) (alpha beta : F) (A B C : eb F) (g : nat -> F) 
    (n1 : nat) (s1 : list (nat * nat)) (n2 : nat) (s2 : list (nat * nat)),
  keeps_nonzero keep ->
  ebwf A ->
  ebwf B ->
  ebwf C ->
  eb_dims A B ->
  eb_dims A C ->
  good_cache c ->
  uniform s A ->
  0 < s <= 6 ->
  roomy (s * s) C ->
  (forall ib : nat, ib < bNB A -> length (touch_all (bcols C ib) (mul_cols A B ib)) <= bMB C) ->
  full_sched (bNB A) n1 s1 ->
  full_sched (bNB A) n2 s2 ->
  exists C' : eb F,
    eb_multiply c keep alpha beta A B C g s1 s2 = Ok (cache_after c (bNB C) (bMB C) (bbs C), C') /\
    ebwf C' /\
    roomy (s * s) C' /\
    same_dims C C' /\ meq (bN A) (ebmx C') (madd (mscale beta (ebmx C)) (mscale alpha (mmul (bN A) (ebmx A) (ebmx B)))).
Proof. exact (@eb_multiply_exact). Qed.
Print Assumptions c45_multiply_exact.

Theorem c45_multiply_new :
  forall (F : scalar) (c : cache) (keep : F -> bool) (alpha beta : F) (A B C : eb F) (g : nat -> F) 
    (n1 : nat) (s1 : list (nat * nat)) (n2 : nat) (s2 : list (nat * nat)),
  ebwf A ->
  ebwf B ->
  ebwf C ->
  eb_dims A B ->
  eb_dims A C ->
  good_cache c ->
  small_blocks A ->
  clean C ->
  (forall ib : nat, ib < bNB C -> bnz C ib = 0) ->
  (forall ib : nat, ib < bNB A -> length (mul_cols A B ib) <= bMB C) ->
  full_sched (bNB A) n1 s1 ->
  full_sched (bNB A) n2 s2 ->
  exists C' : eb F,
    eb_multiply c keep alpha beta A B C g s1 s2 = Ok (cache_after c (bNB C) (bMB C) (bbs C), C') /\
    ebwf C' /\
    tidy C' /\
    same_dims C C' /\
    meq (bN A) (ebmx C') (bcut (bbs A) keep (mscale alpha (bcut_offdiag (bbs A) keep (mmul (bN A) (ebmx A) (ebmx B))))).
Proof. exact (@eb_multiply_new_ok). Qed.
Print Assumptions c45_multiply_new.

Theorem c45_multiply_square :
  forall (F : scalar) (s : nat) (c : cache) (keep : F -> bool) (alpha beta : F) (A C : eb F) (g : nat -> F) 
    (n1 : nat) (s1 : list (nat * nat)) (n2 : nat) (s2 : list (nat * nat)),
  ebwf A ->
  ebwf C ->
  eb_dims A C ->
  bMB C = bMB A ->
  alpha <> 1%K \/ beta <> 0%K ->
  good_cache c ->
  uniform s A ->
  0 < s <= 6 ->
  roomy (s * s) C ->
  (forall ib : nat, ib < bNB A -> length (touch_all (bcols C ib) (mul_cols A A ib)) <= bMB C) ->
  full_sched (bNB A) n1 s1 ->
  full_sched (bNB A) n2 s2 ->
  exists C' : eb F,
    eb_multiply_sq c keep alpha beta A C n1 g s1 s2 = Ok (cache_after c (bNB C) (bMB C) (bbs C), C') /\
    ebwf C' /\
    roomy (s * s) C' /\
    same_dims C C' /\
    meq (bN A) (ebmx C')
      (bcut (bbs A) keep
         (madd (mscale beta (ebmx C)) (mscale alpha (bcut_offdiag (bbs A) keep (mmul (bN A) (ebmx A) (ebmx A)))))).
Proof. exact (@eb_multiply_sq_ok). Qed.
Print Assumptions c45_multiply_square.

Theorem c45_square :
  forall (F : scalar) (c : cache) (keep : F -> bool) (A C : eb F) (g : nat -> F) (n1 : nat) (s1 s2 : list (nat * nat)),
  ebwf A ->
  ebwf C ->
  eb_dims A C ->
  bMB C = bMB A ->
  small_blocks A ->
  (forall ib : nat, ib < bNB A -> length (mul_cols A A ib) <= bMB A) ->
  full_sched (bNB A) n1 s1 ->
  exists C' : eb F,
    eb_multiply_sq c keep 1%K 0%K A C n1 g s1 s2 = Ok (c, C') /\
    ebwf C' /\ same_dims C C' /\ meq (bN A) (ebmx C') (bcut_offdiag (bbs A) keep (mmul (bN A) (ebmx A) (ebmx A))).
Proof. exact (@eb_multiply_sq_square). Qed.
Print Assumptions c45_square.

Theorem c45_trace_mult :
  forall (F : scalar) (A B : eb F),
  ebwf A -> ebwf B -> eb_dims A B -> bMB A = bMB B -> eb_trace_mult A B = Ok (mtrace (bN A) (mmul (bN A) (ebmx A) (ebmx B))).
Proof. exact (@eb_trace_mult_ok). Qed.
Print Assumptions c45_trace_mult.

Example c45_instance : ebwf exEA /\ clean exEA /\ ebwf exEB /\ clean exEB /\ eb_dims exEA exEB /\ bMB exEA = bMB exEB /\ small_blocks exEA /\ uniform 2 exEA /\ roomy (2 * 2) exEB /\ small_blocks exEN /\
  (forall ib, ib < bNB exEA -> length (mul_cols exEA exEB ib) <= bMB exEA) /\ (forall ib, ib < bNB exEA -> length (mul_cols exEA exEA ib) <= bMB exEA) /\
  (forall ib, ib < bNB exEA -> length (touch_all (bcols exEB ib) (mul_cols exEA exEA ib)) <= bMB exEB) /\
  full_sched (bNB exEA) 2 [(1, 2); (0, 0); (1, 1)] /\ mmul 6 (ebmx exEA) (ebmx exEB) 1 4 = 6%Z /\ good_cache (Some d222).
Proof. split; [apply exEA_wf|]. split; [apply exEA_wf|]. split; [apply exEB_wf|]. split; [apply exEB_wf|]. split; [repeat split|]. split; [reflexivity|].
  split; [intros ib Hi; rows3 Hi|]. split; [intros ib Hi; rows3 Hi|]. split; [exact exEB_roomy|]. split; [intros ib Hi; rows3 Hi|].
  split; [intros ib Hi; rows3 Hi|]. split; [intros ib Hi; rows3 Hi|]. split; [intros ib Hi; rows3 Hi|]. split; [exact exE_sched|]. split; [reflexivity|discriminate]. Qed.

(** C46: the in-place transpose itself *)
Theorem c46_transpose :
  forall (F : scalar) (A : eb F) (g : nat -> F),
  ebwf A ->
  (forall r : nat, r < bNB A -> count (bNB A) (fun c : nat => has_block A r c || has_block A c r) <= bMB A) ->
  exists B : eb F,
    eb_transpose A g = Ok B /\
    ebwf B /\
    same_dims A B /\
    meq (bN A) (ebmx B) (mtrans (ebmx A)) /\
    (forall r c : nat, r < bNB A -> In c (bcols B r) <-> c < bNB A /\ In r (bcols A c)).
Proof. exact (@eb_transpose_ok). Qed.
Print Assumptions c46_transpose.

(** but a following set_element may stop *)
Theorem c46_after_transpose_refuted :
  exists A A' : eb Zscalar, ebwf A /\ clean A /\ eb_transpose A Zg = Ok A' /\ ebwf A' /\ bnz A' 0 = 0 /\
  eb_set_element A' 0 0 9%Z Zg = Err.
Proof. exact (@after_transpose_refuted). Qed.
Print Assumptions c46_after_transpose_refuted.

(** and a following bml_add overwrite another block *)
Theorem c46_add_after_transpose_refuted :
  exists A B A' A2 : eb Zscalar, ebwf A /\ clean A /\ ebwf B /\ clean B /\ eb_dims A B /\ bMB A = bMB B /\
  eb_transpose A Zg = Ok A' /\ ebwf A' /\ ebmx A' 4 0 = 3%Z /\ ebmx B 4 0 = 0%Z /\
  eb_add (gtZ 0) 1%Z 1%Z A' B Zg (seq_sched 2) = Ok A2 /\ ebmx A2 4 0 = 1%Z.
Proof. exact (@add_after_transpose_refuted). Qed.
Print Assumptions c46_add_after_transpose_refuted.

(** the same after bml_clear and bml_multiply_x2 *)
Theorem c46_after_clear_refuted :
  exists A A' : eb Zscalar, ebwf A /\ clean A /\ eb_clear A = Ok A' /\ ebwf A' /\ meq (bN A') (ebmx A') mzero /\
  eb_add (gtZ 0) 1%Z 1%Z A' A Zg (seq_sched 2) = UB /\ eb_set_element A' 0 0 1%Z Zg = Err.
Proof. exact (@after_clear_refuted). Qed.
Print Assumptions c46_after_clear_refuted.

Theorem c46_after_x2_refuted :
  exists (A C C' : eb Zscalar) a b, ebwf A /\ clean A /\ ebwf C /\ clean C /\ eb_multiply_x2 (gtZ 0) A C 1 Zg (seq_sched 2) = Ok (C', a, b) /\ ebwf C' /\
  eb_add (gtZ 0) 1%Z 1%Z C' C Zg (seq_sched 2) = UB.
Proof. exact (@after_x2_refuted). Qed.
Print Assumptions c46_after_x2_refuted.

Example c46_instance : ebwf exEN /\ (forall r, r < bNB exEN -> count (bNB exEN) (fun c => has_block exEN r c || has_block exEN c r) <= bMB exEN) /\
  exists B, eb_transpose exEN Zg = Ok B /\ ebmx B 4 2 = 3%Z /\ ebmx B 0 4 = (-5)%Z.
Proof. split; [apply exEN_wf|]. split; [intros r Hr; rows3 Hr|]. eexists. split; [vm_compute; reflexivity|]. split; reflexivity. Qed.

(** C58: addition, when every kept block fits into the slot it is put in *)
Theorem c58_add :
  forall (F : scalar) (keep : F -> bool) (alpha beta : F) (A B : eb F) (g : nat -> F) (nth_ : nat)
    (sched : list (nat * nat)),
  ebwf A ->
  tidy A ->
  ebwf B ->
  eb_dims A B ->
  bMB A = bMB B ->
  add_fits keep alpha beta A B ->
  full_sched (bNB A) nth_ sched ->
  exists A' : eb F,
    eb_add keep alpha beta A B g sched = Ok A' /\
    ebwf A' /\
    tidy A' /\
    (forall n : nat, roomy n A -> roomy n A') /\
    same_dims A A' /\ meq (bN A) (ebmx A') (bcut (bbs A) keep (madd (mscale alpha (ebmx A)) (mscale beta (ebmx B)))).
Proof. exact (@eb_add_ok). Qed.
Print Assumptions c58_add.

(** blocks of one size always fit *)
Theorem c58_add_uniform :
  forall (F : scalar) (s : nat) (keep : F -> bool) (alpha beta : F) (A B : eb F) (g : nat -> F) 
    (nth_ : nat) (sched : list (nat * nat)),
  ebwf A ->
  ebwf B ->
  eb_dims A B ->
  bMB A = bMB B ->
  uniform s A ->
  roomy (s * s) A ->
  (forall ib : nat, ib < bNB A -> length (add_cols alpha beta A B ib) <= bMB A) ->
  full_sched (bNB A) nth_ sched ->
  exists A' : eb F,
    eb_add keep alpha beta A B g sched = Ok A' /\
    ebwf A' /\
    roomy (s * s) A' /\
    same_dims A A' /\ meq (bN A) (ebmx A') (bcut (bbs A) keep (madd (mscale alpha (ebmx A)) (mscale beta (ebmx B)))).
Proof. exact (@eb_add_uniform). Qed.
Print Assumptions c58_add_uniform.

Theorem c58_add_identity :
  forall (F : scalar) (s : nat) (c : cache) (keep : F -> bool) (beta : F) (A : eb F) (g : nat -> F) 
    (nth_ : nat) (sched : list (nat * nat)),
  ebwf A ->
  0 < bN A ->
  own_sizes c A ->
  uniform s A ->
  roomy (s * s) A ->
  (forall ib : nat, ib < bNB A -> In ib (bcols A ib) \/ bnz A ib < bMB A) ->
  full_sched (bNB A) nth_ sched ->
  exists A' : eb F,
    eb_add_identity c keep beta A g sched = Ok (c, A') /\
    ebwf A' /\
    roomy (s * s) A' /\ same_dims A A' /\ meq (bN A) (ebmx A') (bcut (bbs A) keep (madd (ebmx A) (mscale beta mid))).
Proof. exact (@eb_add_identity_ok). Qed.
Print Assumptions c58_add_identity.

Theorem c58_scale_add_identity :
  forall (F : scalar) (s : nat) (c : cache) (keep : F -> bool) (alpha beta : F) (A : eb F) (g : nat -> F) 
    (nth_ : nat) (sched : list (nat * nat)),
  ebwf A ->
  0 < bN A ->
  own_sizes c A ->
  uniform s A ->
  roomy (s * s) A ->
  (forall ib : nat, ib < bNB A -> In ib (bcols A ib) \/ bnz A ib < bMB A) ->
  full_sched (bNB A) nth_ sched ->
  exists A' : eb F,
    eb_scale_add_identity c keep alpha beta A g sched = Ok (c, A') /\
    ebwf A' /\
    roomy (s * s) A' /\
    same_dims A A' /\ meq (bN A) (ebmx A') (bcut (bbs A) keep (madd (mscale alpha (ebmx A)) (mscale beta mid))).
Proof. exact (@eb_scale_add_identity_ok). Qed.
Print Assumptions c58_scale_add_identity.

(** with blocks of different sizes a block may be written into a smaller one *)
Theorem c58_add_refuted :
  exists ca cb (A B : eb Zscalar),
  imported None 5 5 (tab [(0, 4, 3%Z)]) = Ok (ca, A) /\ imported None 5 5 (tab [(0, 4, 3%Z); (1, 1, 1%Z)]) = Ok (cb, B) /\
  ebwf A /\ clean A /\ ebwf B /\ clean B /\ eb_dims A B /\ bMB A = bMB B /\ eb_add (gtZ 0) 1%Z (-1)%Z A B Zg (seq_sched 2) = UB.
Proof. exact (@add_overflow_refuted). Qed.
Print Assumptions c58_add_refuted.

(** a converted matrix and the identity have different numbers of slots *)
Theorem c58_add_identity_refuted :
  exists c c' (Z A : eb Zscalar), eb_zero None 20 4 = Ok (c, Z) /\
  eb_convert c 20 (fun i j => Ok (tab [(0, 0, 1%Z); (5, 5, 2%Z)] i j : Zscalar)) 4 Zg = Ok (c', A) /\ ebwf A /\ clean A /\
  eb_add_identity c' (gtZ 0) 1%Z A Zg (seq_sched 5) = UB.
Proof. exact (@add_identity_refuted). Qed.
Print Assumptions c58_add_identity_refuted.

Example c58_instance : ebwf exEA /\ clean exEA /\ ebwf exEB /\ clean exEB /\ eb_dims exEA exEB /\ bMB exEA = bMB exEB /\ uniform 2 exEA /\ roomy (2 * 2) exEA /\ own_sizes (Some d222) exEA /\ 0 < bN exEA /\
  (forall ib, ib < bNB exEA -> length (add_cols (2%Z : Zscalar) (3%Z : Zscalar) exEA exEB ib) <= bMB exEA) /\
  (forall ib, ib < bNB exEA -> In ib (bcols exEA ib) \/ bnz exEA ib < bMB exEA) /\ full_sched (bNB exEA) 2 [(1, 2); (0, 0); (1, 1)] /\
  add_fits (gtZ 0) (1%Z : Zscalar) (1%Z : Zscalar) exEN exEN /\ tidy exEN.
Proof. split; [apply exEA_wf|]. split; [apply exEA_wf|]. split; [apply exEB_wf|]. split; [apply exEB_wf|]. split; [repeat split|]. split; [reflexivity|].
  split; [intros ib Hi; rows3 Hi|]. split; [exact exEA_roomy|]. split; [reflexivity|]. split; [cbn; lia|]. split; [intros ib Hi; rows3 Hi|].
  split; [intros ib Hi; rows3 Hi|]. split; [exact exE_sched|]. split.
  - intros ib Hi. do 3 (destruct ib as [|ib]; [split; [vm_compute; lia|]; intros q Hq; do 3 (destruct q as [|q]; [first [vm_compute in Hq; lia | right; eexists; split; [vm_compute; reflexivity|vm_compute; lia]]|]); vm_compute in Hq; lia|]). cbn in Hi; lia.
  - apply ownb_ok. vm_compute. reflexivity. Qed.

(** C59 *)
Theorem c59_copy_new :
  forall (F : scalar) (c : cache) (A : eb F) (g : nat -> F) (nth_ : nat) (sched : list (nat * nat)),
  ebwf A ->
  good_cache c ->
  full_sched (bNB A) nth_ sched ->
  (forall ib : nat, ib < bNB A -> 0 < bsz (bbs A) ib < 10) ->
  exists B : eb F,
    eb_copy_new c A g sched = Ok (cache_after c (bNB A) (bMB A) (bbs A), B) /\
    ebwf B /\ clean B /\ same_dims A B /\ meq (bN A) (ebmx B) (ebmx A).
Proof. exact (@eb_copy_new_ok). Qed.
Print Assumptions c59_copy_new.

Theorem c59_copy :
  forall (F : scalar) (A B : eb F) (g : nat -> F) (nth_ : nat) (sched : list (nat * nat)),
  ebwf A ->
  eb_shape B ->
  tidy B ->
  full_sched (bNB A) nth_ sched ->
  eb_dims A B ->
  bMB A = bMB B ->
  (forall ib jp : nat, ib < bNB A -> jp < bnz A ib -> slot_fits B ib jp (bsz (bbs A) ib * bsz (bbs A) (scol A ib jp))) ->
  exists B' : eb F, eb_copy A B g sched = Ok B' /\ ebwf B' /\ tidy B' /\ same_dims B B' /\ meq (bN A) (ebmx B') (ebmx A).
Proof. exact (@eb_copy_ok). Qed.
Print Assumptions c59_copy.

Theorem c59_scale :
  forall (F : scalar) (a : F) (A : eb F),
  ebwf A ->
  exists A' : eb F,
    eb_scale_inplace a A = Ok A' /\
    ebwf A' /\
    (clean A -> clean A') /\
    (forall n : nat, roomy n A -> roomy n A') /\
    same_dims A A' /\ (forall ib : nat, ib < bNB A -> bcols A' ib = bcols A ib) /\ meq (bN A) (ebmx A') (mscale a (ebmx A)).
Proof. exact (@eb_scale_inplace_ok). Qed.
Print Assumptions c59_scale.

Theorem c59_threshold_new :
  forall (F : scalar) (c : cache) (keep : F -> bool) (A : eb F) (g : nat -> F),
  ebwf A ->
  good_cache c ->
  exists B : eb F,
    eb_threshold_new c keep A g = Ok (cache_after c (bNB A) (bMB A) (bbs A), B) /\
    ebwf B /\ clean B /\ same_dims A B /\ meq (bN A) (ebmx B) (mcut keep (ebmx A)).
Proof. exact (@eb_threshold_new_ok). Qed.
Print Assumptions c59_threshold_new.

Theorem c59_threshold :
  forall (F : scalar) (keep : F -> bool) (A : eb F),
  ebwf A ->
  exists A' : eb F,
    eb_threshold keep A = Ok A' /\
    ebwf A' /\
    (clean A -> clean A') /\
    (forall n : nat, roomy n A -> roomy n A') /\ same_dims A A' /\ meq (bN A) (ebmx A') (mcut keep (ebmx A)).
Proof. exact (@eb_threshold_ok). Qed.
Print Assumptions c59_threshold.

Theorem c59_transpose_new :
  forall (F : scalar) (c : cache) (A : eb F) (g : nat -> F),
  ebwf A ->
  good_cache c ->
  (forall jb : nat, jb < bNB A -> count (bNB A) (fun ib : nat => has_block A ib jb) <= bMB A) ->
  exists B : eb F,
    eb_transpose_new c A g = Ok (cache_after c (bNB A) (bMB A) (bbs A), B) /\
    ebwf B /\ clean B /\ same_dims A B /\ meq (bN A) (ebmx B) (mtrans (ebmx A)).
Proof. exact (@eb_transpose_new_ok). Qed.
Print Assumptions c59_transpose_new.

Theorem c59_clear :
  forall (F : scalar) (A : eb F),
  ebwf A ->
  exists A' : eb F, eb_clear A = Ok A' /\ ebwf A' /\ same_dims A A' /\ bptr A' = bptr A /\ meq (bN A) (ebmx A') mzero.
Proof. exact (@eb_clear_zero). Qed.
Print Assumptions c59_clear.

Example c59_instance : ebwf exEN /\ eb_shape exEN /\ tidy exEN /\ good_cache (Some d212) /\ good_cache None /\ (forall ib, ib < bNB exEN -> 0 < bsz (bbs exEN) ib < 10) /\
  (forall jb, jb < bNB exEN -> count (bNB exEN) (fun ib => has_block exEN ib jb) <= bMB exEN) /\
  (forall ib jp, ib < bNB exEN -> jp < bnz exEN ib -> slot_fits exEN ib jp (bsz (bbs exEN) ib * bsz (bbs exEN) (scol exEN ib jp))) /\
  full_sched (bNB exEN) 2 [(1, 2); (0, 0); (1, 1)] /\ mcut (gtZ 2) (ebmx exEN) 2 4 = 3%Z /\ mcut (gtZ 2) (ebmx exEN) 1 2 = 0%Z.
Proof. split; [apply exEN_wf|]. split; [apply exEN_wf|]. split; [apply ownb_ok; vm_compute; reflexivity|]. split; [discriminate|]. split; [exact I|]. split; [intros ib Hi; rows3 Hi|].
  split; [intros ib Hi; rows3 Hi|]. split; [|split; [exact exE_sched|split; reflexivity]].
  intros ib jp Hi Hj. destruct (proj2 (proj2 (proj1 exEN_wf)) ib Hi) as [_ _ H]. right. exact (H jp Hj). Qed.

(** C60: import keeps blocks with an element above the threshold *)
Theorem c60_import :
  forall (F : scalar) (c : cache) (o : dorder) (N : nat) (D : list F) (keep : F -> bool) (M : nat) 
    (d : defaults) (g : nat -> F),
  M <= N ->
  bml_get_block_sizes c N M = Ok d ->
  sizes_for d N ->
  length D = N * N ->
  (forall ib : nat, ib < s_nb d -> count (s_nb d) (blk_keep (s_bsize d) keep (dmat o N D) ib) <= s_mb d) ->
  exists A : eb F,
    eb_import c o N D keep M g = Ok (Some d, A) /\
    ebwf A /\
    clean A /\
    bN A = N /\
    bM A = M /\ bNB A = s_nb d /\ bMB A = s_mb d /\ bbs A = s_bsize d /\ meq N (ebmx A) (bcut (s_bsize d) keep (dmat o N D)).
Proof. exact (@eb_import_ok). Qed.
Print Assumptions c60_import.

Theorem c60_export :
  forall (F : scalar) (A : eb F) (o : dorder),
  ebwf A ->
  (forall ib : nat, ib < bNB A -> 0 < bsz (bbs A) ib) ->
  exists D : list F, eb_export A o = Ok D /\ length D = bN A * bN A /\ meq (bN A) (dmat o (bN A) D) (ebmx A).
Proof. exact (@eb_export_ok). Qed.
Print Assumptions c60_export.

Theorem c60_convert :
  forall (F : scalar) (c : cache) (N : nat) (get : nat -> nat -> res F) (X : mat F) (M : nat) (d : defaults) (g : nat -> F),
  M <= N ->
  bml_get_block_sizes c N N = Ok d ->
  sizes_for d N ->
  (forall i j : nat, i < N -> j < N -> get i j = Ok (X i j)) ->
  exists A : eb F,
    eb_convert c N get M g = Ok (Some d, A) /\
    ebwf A /\ clean A /\ bN A = N /\ bM A = M /\ bNB A = s_nb d /\ bMB A = s_nb d /\ bbs A = s_bsize d /\ meq N (ebmx A) X.
Proof. exact (@eb_convert_ok). Qed.
Print Assumptions c60_convert.

Theorem c60_set_block :
  forall (F : scalar) (A : eb F) (ib jb : nat) (x : list F),
  ebwf A ->
  ib < bNB A ->
  In jb (bcols A ib) ->
  bsz (bbs A) ib * bsz (bbs A) jb <= length x ->
  exists A' : eb F,
    eb_set_block A ib jb x = Ok A' /\
    ebwf A' /\
    same_dims A A' /\
    (clean A -> clean A') /\
    (forall i : nat, i < bNB A -> bcols A' i = bcols A i) /\
    (forall i c k : nat,
     i < bNB A ->
     c < bNB A ->
     k < bsz (bbs A) i * bsz (bbs A) c -> bel A' i c k = (if (i =? ib) && (c =? jb) then nth k x 0%K else bel A i c k)).
Proof. exact (@eb_set_block_ok). Qed.
Print Assumptions c60_set_block.

Theorem c60_set_block_absent :
  forall (F : scalar) (A : eb F) (ib jb : nat) (x : list F),
  ebwf A -> ib < bNB A -> ~ In jb (bcols A ib) -> eb_set_block A ib jb x = Err.
Proof. exact (@eb_set_block_absent). Qed.
Print Assumptions c60_set_block_absent.

Example c60_instance : bml_get_block_sizes (Some d212) 5 5 = Ok d212 /\ sizes_for d212 5 /\ ebwf exEN /\ (forall ib, ib < bNB exEN -> 0 < bsz (bbs exEN) ib) /\
  In 1 (bcols exEN 0) /\ ~ In 2 (bcols exEN 0) /\ exists D, eb_export exEN col_major = Ok D /\ length D = 25 /\
  (forall ib, ib < s_nb d212 -> count (s_nb d212) (blk_keep (s_bsize d212) (gtZ 2) (dmat col_major 5 D) ib) <= s_mb d212) /\
  bcut [2; 1; 2] (gtZ 2) (dmat col_major 5 D) 1 2 = 0%Z.
Proof. split; [reflexivity|]. split; [repeat split; cbn; lia|]. split; [apply exEN_wf|]. split; [intros ib Hi; rows3 Hi|]. split; [vm_compute; auto|]. split; [vm_compute; intuition discriminate|].
  eexists. split; [vm_compute; reflexivity|]. split; [reflexivity|]. split; [intros ib Hi; rows3 Hi|]. reflexivity. Qed.

(** C61 *)
Theorem c61_trace :
  forall (F : scalar) (A : eb F), ebwf A -> eb_trace A = Ok (mtrace (bN A) (ebmx A)).
Proof. exact (@eb_trace_ok). Qed.
Print Assumptions c61_trace.

Theorem c12_ellblock_trace :
  forall (F : scalar) (A : eb F), ebwf A -> eb_trace A = Ok (mtrace (bN A) (ebmx A)).
Proof. exact (@eb_trace_ok). Qed.
Print Assumptions c12_ellblock_trace.

Theorem c61_sum_squares :
  forall (F : scalar) (A : eb F), ebwf A -> eb_sum_squares A = Ok (msum (bN A) (mhad (ebmx A) (ebmx A))).
Proof. exact (@eb_sum_squares_ok). Qed.
Print Assumptions c61_sum_squares.

(** the threshold is applied to blocks *)
Theorem c61_sum_squares2 :
  forall (F : scalar) (keepn : F -> bool) (alpha beta : F) (A B : eb F),
  ebwf A ->
  ebwf B ->
  eb_dims A B ->
  bMB A = bMB B ->
  eb_sum_squares2 keepn alpha beta A B =
  Ok (kept_sum keepn (bNB A) (blk_sq (bbs A) (madd (mscale alpha (ebmx A)) (mscale beta (ebmx B))))).
Proof. exact (@eb_sum_squares2_ok). Qed.
Print Assumptions c61_sum_squares2.

Theorem c61_sum_squares2_exact :
  forall (F : scalar) (keepn : F -> bool) (alpha beta : F) (A B : eb F),
  ebwf A ->
  ebwf B ->
  eb_dims A B ->
  bMB A = bMB B ->
  keeps_nonzero keepn ->
  eb_sum_squares2 keepn alpha beta A B =
  Ok
    (msum (bN A)
       (mhad (madd (mscale alpha (ebmx A)) (mscale beta (ebmx B))) (madd (mscale alpha (ebmx A)) (mscale beta (ebmx B))))).
Proof. exact (@eb_sum_squares2_exact). Qed.
Print Assumptions c61_sum_squares2_exact.

(** absolute values are added, over blocks above the threshold *)
Theorem c61_sum_AB_actual :
  forall (F : scalar) (abs : F -> F) (keepn : F -> bool) (alpha : F) (A B : eb F),
  ebwf A ->
  ebwf B ->
  eb_dims A B ->
  bMB A = bMB B ->
  bNB A <= bMB A ->
  abs 0%K = 0%K ->
  eb_sum_AB abs keepn alpha A B = Ok (kept_sum keepn (bNB A) (blk_prod (bbs A) abs (mscale alpha (mhad (ebmx A) (ebmx B))))).
Proof. exact (@eb_sum_AB_ok). Qed.
Print Assumptions c61_sum_AB_actual.

Theorem c61_sum_AB_refuted :
  exists A B : eb Zscalar, ebwf A /\ ebwf B /\ eb_dims A B /\ bMB A = bMB B /\ bNB A <= bMB A /\
  eb_sum_AB (Z.abs : Zscalar -> Zscalar) (gtZ 0) 1%Z A B <> Ok (msum (bN A) (mhad (ebmx A) (ebmx B))).
Proof. exact (@eb_sum_AB_refuted). Qed.
Print Assumptions c61_sum_AB_refuted.

Theorem c61_sum_AB_overflow_actual :
  forall (F : scalar) (abs : F -> F) (keepn : F -> bool) (alpha : F) (A B : eb F),
  eb_shape A -> bMB A < bNB A -> eb_sum_AB abs keepn alpha A B = UB.
Proof. exact (@eb_sum_AB_overflow). Qed.
Print Assumptions c61_sum_AB_overflow_actual.

Theorem c61_fnorm2_refuted :
  exists c c' (A Z : eb Zscalar), imported None 8 8 (tab [(0, 0, 1%Z)]) = Ok (c, A) /\ eb_zero c 8 8 = Ok (c', Z) /\ ebwf A /\ ebwf Z /\
  eb_fnorm2_sq A Z = UB /\ eb_fnorm2_sq Z A = UB.
Proof. exact (@eb_fnorm2_refuted). Qed.
Print Assumptions c61_fnorm2_refuted.

(** number of elements above a threshold (sparsity) *)
Theorem c61_nnz_above :
  forall (F : scalar) (keep : F -> bool) (A : eb F),
  ebwf A ->
  keep 0%K = false ->
  eb_nnz_above keep A = Ok (nsum (bN A) (fun i : nat => count (bN A) (fun j : nat => keep (ebmx A i j)))).
Proof. exact (@eb_nnz_above_ok). Qed.
Print Assumptions c61_nnz_above.

Theorem c61_row_bandwidth :
  forall (F : scalar) (A : eb F) (i : nat),
  ebwf A ->
  i < bN A ->
  eb_row_bandwidth A i =
  Ok (nsum (bNB A) (fun jb : nat => if existsb (Nat.eqb jb) (bcols A (fst (bloc (bbs A) i))) then bsz (bbs A) jb else 0)).
Proof. exact (@eb_row_bandwidth_ok). Qed.
Print Assumptions c61_row_bandwidth.

Example c61_instance : ebwf exEA /\ clean exEA /\ ebwf exEB /\ clean exEB /\ eb_dims exEA exEB /\ bMB exEA = bMB exEB /\ bNB exEA <= bMB exEA /\ keeps_nonzero (gtZ 0 : Zscalar -> bool) /\ gtZ 0 0%Z = false /\
  eb_trace exEN = Ok 1%Z /\ eb_sum_squares2 (gtZ 0) 1%Z 2%Z exEA exEB = Ok 308%Z /\ eb_row_bandwidth exEN 0 = Ok 3.
Proof. split; [apply exEA_wf|]. split; [apply exEA_wf|]. split; [apply exEB_wf|]. split; [apply exEB_wf|]. split; [repeat split|]. split; [reflexivity|].
  split; [cbn; lia|]. split; [apply gtZ0_exact|]. split; [reflexivity|]. split; [vm_compute; reflexivity|]. split; vm_compute; reflexivity. Qed.
