(** Theorems about the format-independent interface: conversion (C32) and
    independence of results from the storage format (C33), for the formats
    dense, ellpack and csr. *)
From Verif Require Import Base Spec EllpackModel EllpackSpec EllpackExact EllpackCheck CsrModel CsrSpec CsrHash
  GemmModel DenseModel DenseSpec FormatModel FormatSpec FormatFacts FormatConv FormatHistModel FormatHistSpec FormatHist FormatCheck.
Local Open Scope K_scope.

(** C32: conversion between any two formats is exact; ellpack needs M >= N *)
Theorem c32_convert :
  forall (F : scalar) (nz : F -> bool) (A : bmat F) (t : fmt) (M : nat),
  bwf A ->
  keeps_nonzero nz ->
  (t = FEll -> 0 < M /\ bml_get_N A <= M) ->
  exists B : bmat F, bml_convert nz A t M = Ok B /\ bwf B /\ bml_get_type B = t /\ same_matrix A B.
Proof. exact (@bml_convert_ok). Qed.
Print Assumptions c32_convert.

(** ... as seen through the getters *)
Theorem c32_convert_elements :
  forall (F : scalar) (nz : F -> bool) (A : bmat F) (t : fmt) (M : nat),
  bwf A ->
  keeps_nonzero nz ->
  (t = FEll -> 0 < M /\ bml_get_N A <= M) ->
  exists B : bmat F,
    bml_convert nz A t M = Ok B /\
    bml_get_type B = t /\
    bml_get_N B = bml_get_N A /\
    (forall i j : nat, i < bml_get_N A -> j < bml_get_N A -> bml_get_element B i j = bml_get_element A i j) /\
    (forall i : nat, i < bml_get_N A -> bml_get_row B i = bml_get_row A i).
Proof. exact (@bml_convert_element). Qed.
Print Assumptions c32_convert_elements.

(** there and back *)
Theorem c32_convert_roundtrip :
  forall (F : scalar) (nz : F -> bool) (A : bmat F) (t : fmt) (M M' : nat),
  bwf A ->
  keeps_nonzero nz ->
  (t = FEll -> 0 < M /\ bml_get_N A <= M) ->
  (bml_get_type A = FEll -> 0 < M' /\ bml_get_N A <= M') ->
  exists B A' : bmat F,
    bml_convert nz A t M = Ok B /\ bml_convert nz B (bml_get_type A) M' = Ok A' /\ bwf A' /\ alike A A' /\ same_matrix A A'.
Proof. exact (@bml_convert_roundtrip). Qed.
Print Assumptions c32_convert_roundtrip.

Example c32_instance : bwf (fA FEll) /\ keeps_nonzero (gtZ 0 : Zscalar -> bool) /\ (0 < 3)%nat /\ (bml_get_N (fA FEll) <= 3)%nat.
Proof. split; [apply fA_wf|]. split; [apply gtZ0_exact|]. simpl. lia. Qed.

(** with fewer slots than N every conversion to ellpack writes past the end of the arrays, because zeros are stored too ... *)
Theorem c32_convert_ellpack_overruns :
  forall (F : scalar) (A : bmat F) (M : nat), bwf A -> 0 < M -> M < bml_get_N A -> convert_ell A M = UB.
Proof. exact (@convert_ell_ub). Qed.
Print Assumptions c32_convert_ellpack_overruns.

(** ... also when the nonzero elements of each row fit *)
Theorem c32_convert_ellpack_refuted :
  exists (A : bmat Zscalar) (M : nat),
    bwf A /\
    0 < M /\
    (forall i : nat, i < bml_get_N A -> count (bml_get_N A) (fun j : nat => gtZ 0 (bmx A i j)) <= M) /\
    bml_convert (gtZ 0) A FEll M = UB.
Proof. exact (@convert_ell_refuted). Qed.
Print Assumptions c32_convert_ellpack_refuted.

(** C33: the same call on the same matrices in two formats *)
Theorem c33_add :
  forall (F : scalar) (A1 A2 B1 B2 : bmat F) (e1 e2 : env F),
  bwf A1 ->
  bwf A2 ->
  same_matrix A1 A2 ->
  good_env A1 e1 ->
  good_env A2 e2 ->
  forall (keep : F -> bool) (alpha beta : F),
  bwf B1 ->
  bwf B2 ->
  alike A1 B1 ->
  alike A2 B2 ->
  same_matrix B1 B2 ->
  comparable keep A1 A2 ->
  add_room keep alpha beta A1 B1 ->
  add_room keep alpha beta A2 B2 ->
  exists C1 C2 : bmat F,
    bml_add keep alpha beta A1 B1 e1 = Ok C1 /\ bml_add keep alpha beta A2 B2 e2 = Ok C2 /\ agree A1 A2 C1 C2.
Proof. exact (@add_formats). Qed.
Print Assumptions c33_add.

Theorem c33_add_identity :
  forall (F : scalar) (A1 A2 : bmat F) (e1 e2 : env F),
  bwf A1 ->
  bwf A2 ->
  same_matrix A1 A2 ->
  good_env A1 e1 ->
  good_env A2 e2 ->
  forall (keep : F -> bool) (beta : F),
  comparable keep A1 A2 ->
  identity_room beta A1 ->
  identity_room beta A2 ->
  exists C1 C2 : bmat F,
    bml_add_identity keep beta A1 e1 = Ok C1 /\ bml_add_identity keep beta A2 e2 = Ok C2 /\ agree A1 A2 C1 C2.
Proof. exact (@add_identity_formats). Qed.
Print Assumptions c33_add_identity.

Theorem c33_scale_add_identity :
  forall (F : scalar) (A1 A2 : bmat F) (e1 e2 : env F),
  bwf A1 ->
  bwf A2 ->
  same_matrix A1 A2 ->
  good_env A1 e1 ->
  good_env A2 e2 ->
  forall (keep : F -> bool) (alpha beta : F),
  comparable keep A1 A2 ->
  identity_room beta A1 ->
  identity_room beta A2 ->
  exists C1 C2 : bmat F,
    bml_scale_add_identity keep alpha beta A1 e1 = Ok C1 /\
    bml_scale_add_identity keep alpha beta A2 e2 = Ok C2 /\ agree A1 A2 C1 C2.
Proof. exact (@scale_add_identity_formats). Qed.
Print Assumptions c33_scale_add_identity.

Theorem c33_multiply_AB :
  forall (F : scalar) (A1 A2 B1 B2 D1 D2 : bmat F) (e1 e2 : env F),
  bwf A1 ->
  bwf A2 ->
  same_matrix A1 A2 ->
  good_env A1 e1 ->
  good_env A2 e2 ->
  forall keep : F -> bool,
  bwf B1 ->
  bwf B2 ->
  bwf D1 ->
  bwf D2 ->
  alike A1 B1 ->
  alike A2 B2 ->
  alike A1 D1 ->
  alike A2 D2 ->
  same_matrix B1 B2 ->
  comparable keep A1 A2 ->
  product_room A1 B1 D1 ->
  product_room A2 B2 D2 ->
  exists C1 C2 : bmat F,
    bml_multiply_AB keep A1 B1 D1 e1 = Ok C1 /\ bml_multiply_AB keep A2 B2 D2 e2 = Ok C2 /\ agree D1 D2 C1 C2.
Proof. exact (@multiply_AB_formats). Qed.
Print Assumptions c33_multiply_AB.

Theorem c33_multiply :
  forall (F : scalar) (A1 A2 B1 B2 D1 D2 : bmat F) (e1 e2 : env F),
  bwf A1 ->
  bwf A2 ->
  same_matrix A1 A2 ->
  good_env A1 e1 ->
  good_env A2 e2 ->
  forall (keep : F -> bool) (alpha beta : F),
  bwf B1 ->
  bwf B2 ->
  bwf D1 ->
  bwf D2 ->
  alike A1 B1 ->
  alike A2 B2 ->
  alike A1 D1 ->
  alike A2 D2 ->
  same_matrix B1 B2 ->
  same_matrix D1 D2 ->
  comparable keep A1 A2 ->
  multiply_room keep alpha beta A1 B1 D1 ->
  multiply_room keep alpha beta A2 B2 D2 ->
  exists C1 C2 : bmat F,
    bml_multiply keep alpha beta A1 B1 D1 e1 = Ok C1 /\
    bml_multiply keep alpha beta A2 B2 D2 e2 = Ok C2 /\ agree D1 D2 C1 C2.
Proof. exact (@multiply_formats). Qed.
Print Assumptions c33_multiply.

Theorem c33_multiply_x2 :
  forall (F : scalar) (A1 A2 D1 D2 : bmat F) (e1 e2 : env F),
  bwf A1 ->
  bwf A2 ->
  same_matrix A1 A2 ->
  good_env A1 e1 ->
  good_env A2 e2 ->
  forall keep : F -> bool,
  bwf D1 ->
  bwf D2 ->
  alike A1 D1 ->
  alike A2 D2 ->
  comparable keep A1 A2 ->
  square_room keep A1 D1 ->
  square_room keep A2 D2 ->
  exists (C1 C2 : bmat F) (t t2 : F),
    bml_multiply_x2 keep A1 D1 e1 = Ok (C1, t, t2) /\ bml_multiply_x2 keep A2 D2 e2 = Ok (C2, t, t2) /\ agree D1 D2 C1 C2.
Proof. exact (@multiply_x2_formats). Qed.
Print Assumptions c33_multiply_x2.

Theorem c33_element_multiply :
  forall (F : scalar) (A1 A2 B1 B2 D1 D2 : bmat F) (e1 e2 : env F),
  bwf A1 ->
  bwf A2 ->
  same_matrix A1 A2 ->
  good_env A1 e1 ->
  good_env A2 e2 ->
  forall keep : F -> bool,
  bwf B1 ->
  bwf B2 ->
  bwf D1 ->
  bwf D2 ->
  alike A1 B1 ->
  alike A2 B2 ->
  alike A1 D1 ->
  alike A2 D2 ->
  same_matrix B1 B2 ->
  comparable keep A1 A2 ->
  had_room A1 D1 ->
  had_room A2 D2 ->
  exists C1 C2 : bmat F,
    bml_element_multiply_AB keep A1 B1 D1 e1 = Ok C1 /\
    bml_element_multiply_AB keep A2 B2 D2 e2 = Ok C2 /\ agree D1 D2 C1 C2.
Proof. exact (@element_multiply_formats). Qed.
Print Assumptions c33_element_multiply.

Theorem c33_transpose_new :
  forall (F : scalar) (A1 A2 : bmat F) (e1 e2 : env F),
  bwf A1 ->
  bwf A2 ->
  same_matrix A1 A2 ->
  good_env A1 e1 ->
  good_env A2 e2 ->
  transpose_room A1 ->
  transpose_room A2 ->
  exists C1 C2 : bmat F, bml_transpose_new A1 e1 = Ok C1 /\ bml_transpose_new A2 e2 = Ok C2 /\ agree A1 A2 C1 C2.
Proof. exact (@transpose_new_formats). Qed.
Print Assumptions c33_transpose_new.

Theorem c33_transpose :
  forall (F : scalar) (A1 A2 : bmat F) (e1 e2 : env F),
  bwf A1 ->
  bwf A2 ->
  same_matrix A1 A2 ->
  good_env A1 e1 ->
  good_env A2 e2 ->
  transpose_inplace_room A1 ->
  transpose_inplace_room A2 ->
  exists C1 C2 : bmat F, bml_transpose A1 e1 = Ok C1 /\ bml_transpose A2 e2 = Ok C2 /\ agree A1 A2 C1 C2.
Proof. exact (@transpose_formats). Qed.
Print Assumptions c33_transpose.

Theorem c33_scale_inplace :
  forall (F : scalar) (A1 A2 : bmat F) (e1 e2 : env F),
  bwf A1 ->
  bwf A2 ->
  same_matrix A1 A2 ->
  good_env A1 e1 ->
  good_env A2 e2 ->
  forall a : F,
  exists C1 C2 : bmat F, bml_scale_inplace a A1 e1 = Ok C1 /\ bml_scale_inplace a A2 e2 = Ok C2 /\ agree A1 A2 C1 C2.
Proof. exact (@scale_inplace_formats). Qed.
Print Assumptions c33_scale_inplace.

Theorem c33_copy_new :
  forall (F : scalar) (A1 A2 : bmat F) (e1 e2 : env F),
  bwf A1 ->
  bwf A2 ->
  same_matrix A1 A2 ->
  good_env A1 e1 ->
  good_env A2 e2 -> exists C1 C2 : bmat F, bml_copy_new A1 e1 = Ok C1 /\ bml_copy_new A2 e2 = Ok C2 /\ agree A1 A2 C1 C2.
Proof. exact (@copy_new_formats). Qed.
Print Assumptions c33_copy_new.

Theorem c33_threshold :
  forall (F : scalar) (A1 A2 : bmat F) (e1 e2 : env F),
  bwf A1 ->
  bwf A2 ->
  same_matrix A1 A2 ->
  good_env A1 e1 ->
  good_env A2 e2 ->
  forall keep : F -> bool,
  exists C1 C2 : bmat F, bml_threshold keep A1 e1 = Ok C1 /\ bml_threshold keep A2 e2 = Ok C2 /\ agree A1 A2 C1 C2.
Proof. exact (@threshold_formats). Qed.
Print Assumptions c33_threshold.

Theorem c33_set_diagonal :
  forall (F : scalar) (A1 A2 : bmat F),
  bwf A1 ->
  bwf A2 ->
  same_matrix A1 A2 ->
  forall (keep : F -> bool) (diag : list F),
  length diag = bml_get_N A1 ->
  comparable keep A1 A2 ->
  diag_room keep A1 diag ->
  diag_room keep A2 diag ->
  exists C1 C2 : bmat F, bml_set_diagonal keep A1 diag = Ok C1 /\ bml_set_diagonal keep A2 diag = Ok C2 /\ agree A1 A2 C1 C2.
Proof. exact (@set_diagonal_formats). Qed.
Print Assumptions c33_set_diagonal.

Theorem c33_get_element :
  forall (F : scalar) (A1 A2 : bmat F),
  bwf A1 ->
  bwf A2 ->
  same_matrix A1 A2 ->
  forall i j : nat,
  i < bml_get_N A1 -> j < bml_get_N A1 -> exists v : F, bml_get_element A1 i j = Ok v /\ bml_get_element A2 i j = Ok v.
Proof. exact (@get_element_formats). Qed.
Print Assumptions c33_get_element.

Theorem c33_get_row :
  forall (F : scalar) (A1 A2 : bmat F),
  bwf A1 ->
  bwf A2 ->
  same_matrix A1 A2 ->
  forall i : nat, i < bml_get_N A1 -> exists r : list F, bml_get_row A1 i = Ok r /\ bml_get_row A2 i = Ok r.
Proof. exact (@get_row_formats). Qed.
Print Assumptions c33_get_row.

Theorem c33_trace :
  forall (F : scalar) (A1 A2 : bmat F) (e1 e2 : env F),
  bwf A1 ->
  bwf A2 ->
  same_matrix A1 A2 -> good_env A1 e1 -> good_env A2 e2 -> exists t : F, bml_trace A1 e1 = Ok t /\ bml_trace A2 e2 = Ok t.
Proof. exact (@trace_formats). Qed.
Print Assumptions c33_trace.

Theorem c33_sum_squares :
  forall (F : scalar) (A1 A2 : bmat F) (e1 e2 : env F),
  bwf A1 ->
  bwf A2 ->
  same_matrix A1 A2 ->
  good_env A1 e1 -> good_env A2 e2 -> exists t : F, bml_sum_squares A1 e1 = Ok t /\ bml_sum_squares A2 e2 = Ok t.
Proof. exact (@sum_squares_formats). Qed.
Print Assumptions c33_sum_squares.

Theorem c33_sum_AB :
  forall (F : scalar) (A1 A2 B1 B2 : bmat F) (e1 e2 : env F),
  bwf A1 ->
  bwf A2 ->
  same_matrix A1 A2 ->
  good_env A1 e1 ->
  good_env A2 e2 ->
  forall (keep : F -> bool) (alpha : F),
  bwf B1 ->
  bwf B2 ->
  alike A1 B1 ->
  alike A2 B2 ->
  same_matrix B1 B2 ->
  norm_room A1 ->
  norm_room A2 -> exists t : F, bml_sum_AB keep alpha A1 B1 e1 = Ok t /\ bml_sum_AB keep alpha A2 B2 e2 = Ok t.
Proof. exact (@sum_AB_formats). Qed.
Print Assumptions c33_sum_AB.

Theorem c33_sum_squares2 :
  forall (F : scalar) (A1 A2 B1 B2 : bmat F) (e1 e2 : env F),
  bwf A1 ->
  bwf A2 ->
  same_matrix A1 A2 ->
  good_env A1 e1 ->
  good_env A2 e2 ->
  forall (keep : F -> bool) (alpha beta : F),
  bwf B1 ->
  bwf B2 ->
  alike A1 B1 ->
  alike A2 B2 ->
  same_matrix B1 B2 ->
  norm_room A1 ->
  norm_room A2 ->
  exists t : F, bml_sum_squares2 keep alpha beta A1 B1 e1 = Ok t /\ bml_sum_squares2 keep alpha beta A2 B2 e2 = Ok t.
Proof. exact (@sum_squares2_formats). Qed.
Print Assumptions c33_sum_squares2.

Example c33_instance : forall t1 t2, bwf (fA t1) /\ bwf (fB t1) /\ alike (fA t1) (fB t1) /\ same_matrix (fA t1) (fA t2) /\ same_matrix (fB t1) (fB t2) /\
  good_env (fA t1) exEnv /\ comparable (gtZ 0) (fA t1) (fA t2) /\ add_room (gtZ 0) (2%Z : Zscalar) (3%Z : Zscalar) (fA t1) (fB t1) /\
  product_room (fA t1) (fB t1) (fB t1).
Proof.
  intros t1 t2. split; [apply fA_wf|]. split; [apply fB_wf|]. split; [apply fAB_alike|]. split; [apply fA_same|]. split; [apply fB_same|].
  split; [apply exEnv_good|]. split; [left; apply gtZ0_exact|]. split; [apply fAB_add_room|apply fAB_product_room].
Qed.

(** any program whose calls are legal in both runs: same matrices and same numbers *)
Theorem c33_programs :
  forall (F : scalar) (p1 p2 : list (instr * env F)) (st1 st2 : list (bmat F)),
  map fst p1 = map fst p2 ->
  Forall bwf st1 ->
  Forall bwf st2 ->
  Forall2 same_matrix st1 st2 ->
  Forall exact_instr (map fst p1) \/ same_kind st1 st2 ->
  legal p1 (st1, []) ->
  legal p2 (st2, []) ->
  exists (st1' st2' : list (bmat F)) (out : list F),
    brun p1 (st1, []) = Ok (st1', out) /\
    brun p2 (st2, []) = Ok (st2', out) /\ Forall bwf st1' /\ Forall bwf st2' /\ Forall2 same_matrix st1' st2'.
Proof. exact (@programs_agree). Qed.
Print Assumptions c33_programs.

(** any program on dense matrices, ellpack matrices with M >= N and csr matrices with space for N entries per row; no run-time hypotheses *)
Theorem c33_programs_with_room :
  forall (F : scalar) (N M1 M2 : nat) (t1 t2 : fmt) (p1 p2 : list (instr * env F)) (st1 st2 : list (bmat F)),
  0 < N ->
  uniform N M1 t1 st1 ->
  uniform N M2 t2 st2 ->
  Forall2 same_matrix st1 st2 ->
  map fst p1 = map fst p2 ->
  program N (length st1) (map fst p1) ->
  Forall exact_instr (map fst p1) \/ t1 = t2 ->
  Forall (fun p : instr * env F => good_schedules N (snd p)) p1 ->
  Forall (fun p : instr * env F => good_schedules N (snd p)) p2 ->
  exists (st1' st2' : list (bmat F)) (out : list F),
    brun p1 (st1, []) = Ok (st1', out) /\
    brun p2 (st2, []) = Ok (st2', out) /\ Forall bwf st1' /\ Forall bwf st2' /\ Forall2 same_matrix st1' st2'.
Proof. exact (@programs_agree_roomy). Qed.
Print Assumptions c33_programs_with_room.

Example c33_program_instance : program 3 (length (exStore FDense)) exProg /\ Forall exact_instr exProg /\
  (forall t, uniform 3 3 t (exStore t)) /\ good_schedules 3 exEnv /\
  length exOut = 8%nat /\ forall t, exists st, brun (map (fun c => (c, exEnv)) exProg) (exStore t, []) = Ok (st, exOut).
Proof.
  split; [apply exProg_ok|]. split; [apply exProg_exact|]. split; [exact exStore_uniform|].
  split; [apply exEnv_good3|]. exact exProg_runs.
Qed.

(** not format independent: trace_mult *)
Theorem c33_trace_mult_refuted :
  exists (A1 B1 A2 B2 : bmat Zscalar) (e : env Zscalar) (t1 t2 : Zscalar),
    bwf A1 /\
    bwf B1 /\
    bwf A2 /\
    bwf B2 /\
    alike A1 B1 /\
    alike A2 B2 /\
    same_matrix A1 A2 /\
    same_matrix B1 B2 /\
    good_env A1 e /\ good_env A2 e /\ bml_trace_mult A1 B1 e = Ok t1 /\ bml_trace_mult A2 B2 e = Ok t2 /\ t1 <> t2.
Proof. exact (@trace_mult_formats_refuted). Qed.
Print Assumptions c33_trace_mult_refuted.

(** not format independent: the norm returned by add_norm *)
Theorem c33_add_norm_refuted :
  exists (A1 B1 A2 B2 : bmat Zscalar) (e : env Zscalar) (C1 C2 : bmat Zscalar) (t1 t2 : Zscalar),
    bwf A1 /\
    bwf B1 /\
    bwf A2 /\
    bwf B2 /\
    alike A1 B1 /\
    alike A2 B2 /\
    same_matrix A1 A2 /\
    same_matrix B1 B2 /\
    good_env A1 e /\
    good_env A2 e /\
    bml_add_norm (gtZ 0) 1 1 A1 B1 e = Ok (C1, t1) /\ bml_add_norm (gtZ 0) 1 1 A2 B2 e = Ok (C2, t2) /\ t1 <> t2.
Proof. exact (@add_norm_formats_refuted). Qed.
Print Assumptions c33_add_norm_refuted.

(** not format independent: the threshold argument of add *)
Theorem c33_threshold_argument_refuted :
  exists (A1 B1 A2 B2 : bmat Zscalar) (e : env Zscalar) (C1 C2 : bmat Zscalar) (i j : nat),
    bwf A1 /\
    bwf B1 /\
    bwf A2 /\
    bwf B2 /\
    alike A1 B1 /\
    alike A2 B2 /\
    same_matrix A1 A2 /\
    same_matrix B1 B2 /\
    good_env A1 e /\
    good_env A2 e /\
    bml_add (gtZ 2) 1 1 A1 B1 e = Ok C1 /\
    bml_add (gtZ 2) 1 1 A2 B2 e = Ok C2 /\
    i < bml_get_N A1 /\ j < bml_get_N A1 /\ bml_get_element C1 i j <> bml_get_element C2 i j.
Proof. exact (@threshold_arg_formats_refuted). Qed.
Print Assumptions c33_threshold_argument_refuted.
