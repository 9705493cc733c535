(** More of C32 and C33: conversion from and to block ellpack, the meaning of programs, and programs on block ellpack
    matrices.  ProgSpec.v: [mrun N p (Ms, [])] is what program p means for matrices Ms.  EbProgSpec.v: [amx] is the
    matrix of any of the four formats; [eb_stands d N A X], matrix A of size N with the default block sizes d stands for
    X; [ebprogram] allows every call but the elementwise product, and does not add to the results of bml_transpose and
    bml_multiply_x2 (see C46). *)
From Verif Require Import Base Spec EllpackModel EllpackSpec EllpackExact EllpackCheck CsrModel CsrSpec
  GemmModel DenseModel DenseSpec FormatModel FormatSpec FormatHistModel FormatHistSpec FormatCheck
  EllblockModel EllblockSpec EllblockCheck ProgSpec ProgFacts EbProgModel EbProgSpec EbProgFacts EbConv EbProgCheck.

(** C32: conversion between any two of the four formats *)
Theorem c32_four_formats :
  forall (F : scalar) (c : option defaults) (nz : F -> bool) (A : amat F) (t : afmt) (M : nat) (g : nat -> F),
  awf A ->
  keeps_nonzero nz ->
  (t = TB FEll -> 0 < M /\ aml_get_N A <= M) ->
  (t = TEb -> 0 < aml_get_N A /\ M <= aml_get_N A /\ (forall d : defaults, c = Some d -> sizes_for d (aml_get_N A))) ->
  exists (c' : cache) (B : amat F),
    aml_convert c nz A t M g = Ok (c', B) /\
    awf B /\ aml_get_type B = t /\ aml_get_N B = aml_get_N A /\ meq (aml_get_N A) (amx B) (amx A).
Proof. exact (@aml_convert_ok). Qed.
Print Assumptions c32_four_formats.

(** ... as seen through the getters *)
Theorem c32_four_formats_elements :
  forall (F : scalar) (c : option defaults) (nz : F -> bool) (A : amat F) (t : afmt) (M : nat) (g : nat -> F),
  awf A ->
  keeps_nonzero nz ->
  (t = TB FEll -> 0 < M /\ aml_get_N A <= M) ->
  (t = TEb -> 0 < aml_get_N A /\ M <= aml_get_N A /\ (forall d : defaults, c = Some d -> sizes_for d (aml_get_N A))) ->
  exists (c' : cache) (B : amat F),
    aml_convert c nz A t M g = Ok (c', B) /\
    aml_get_type B = t /\
    aml_get_N B = aml_get_N A /\
    (forall i j : nat, i < aml_get_N A -> j < aml_get_N A -> aml_get_element B i j = aml_get_element A i j) /\
    (forall i : nat, i < aml_get_N A -> aml_get_row B i = aml_get_row A i).
Proof. exact (@aml_convert_element). Qed.
Print Assumptions c32_four_formats_elements.

(** there and back *)
Theorem c32_four_formats_roundtrip :
  forall (F : scalar) (c c2 : option defaults) (nz : F -> bool) (A : amat F) (t : afmt) (M M' : nat) (g : nat -> F),
  awf A ->
  keeps_nonzero nz ->
  (t = TB FEll -> 0 < M /\ aml_get_N A <= M) ->
  (aml_get_type A = TB FEll -> 0 < M' /\ aml_get_N A <= M') ->
  (t = TEb -> 0 < aml_get_N A /\ M <= aml_get_N A /\ (forall d : defaults, c = Some d -> sizes_for d (aml_get_N A))) ->
  (aml_get_type A = TEb ->
   0 < aml_get_N A /\ M' <= aml_get_N A /\ (forall d : defaults, c2 = Some d -> sizes_for d (aml_get_N A))) ->
  exists (c' : cache) (B : amat F) (c'' : cache) (A' : amat F),
    aml_convert c nz A t M g = Ok (c', B) /\
    aml_convert c2 nz B (aml_get_type A) M' g = Ok (c'', A') /\
    awf A' /\ aml_get_type A' = aml_get_type A /\ aml_get_N A' = aml_get_N A /\ meq (aml_get_N A) (amx A') (amx A).
Proof. exact (@aml_convert_roundtrip). Qed.
Print Assumptions c32_four_formats_roundtrip.

Example c32_four_formats_instance : awf (AEb exEA) /\ awf (AB (fA FCsr)) /\ keeps_nonzero (gtZ 0 : Zscalar -> bool) /\
  aml_get_N (AEb exEA) = 6 /\ ebmx exEA 3 2 = (-1)%Z /\
  (exists B, aml_convert (Some d222) (gtZ 0) (AEb exEA) (TB FEll) 6 (fun _ => 0%Z) = Ok (Some d222, B) /\ amx B 3 2 = (-1)%Z) /\
  exists d B, aml_convert None (gtZ 0) (AB (fA FCsr)) TEb 3 (fun _ => 0%Z) = Ok (Some d, AEb B) /\ bnz B 0 = 1.
Proof.
  split; [apply exEA_wf|]. split; [apply fA_wf|]. split; [apply gtZ0_exact|]. split; [reflexivity|]. split; [reflexivity|].
  split; [eexists|eexists _, _]; split; vm_compute; reflexivity.
Qed.

(** C33: what a legal program computes, in every format *)
Theorem c33_program_means :
  forall (F : scalar) (N : nat) (p : list (instr * env F)) (st : list (bmat F)) (Ms : list (mat F)),
  Forall bwf st ->
  Forall2 (fun (A : bmat F) (X : mat F) => bml_get_N A = N /\ meq N (bmx A) X) st Ms ->
  legal p (st, []) ->
  Forall exact_instr (map fst p) ->
  exists st' : list (bmat F),
    brun p (st, []) = Ok (st', snd (mrun N (map fst p) (Ms, []))) /\
    Forall bwf st' /\
    Forall2 (fun (A : bmat F) (X : mat F) => bml_get_N A = N /\ meq N (bmx A) X) st' (fst (mrun N (map fst p) (Ms, []))).
Proof. exact (@program_means). Qed.
Print Assumptions c33_program_means.

(** ... with room for N elements per row and thresholds that keep every nonzero number *)
Theorem c33_program_means_roomy :
  forall (F : scalar) (N M : nat) (t : fmt) (p : list (instr * env F)) (st : list (bmat F)) (Ms : list (mat F)),
  0 < N ->
  FormatHistSpec.uniform N M t st ->
  Forall2 (fun (A : bmat F) (X : mat F) => meq N (bmx A) X) st Ms ->
  program N (length st) (map fst p) ->
  Forall exact_instr (map fst p) ->
  Forall (fun q : instr * env F => good_schedules N (snd q)) p ->
  exists st' : list (bmat F),
    brun p (st, []) = Ok (st', snd (mrun N (map fst p) (Ms, []))) /\
    Forall bwf st' /\
    Forall2 (fun (A : bmat F) (X : mat F) => bml_get_N A = N /\ meq N (bmx A) X) st' (fst (mrun N (map fst p) (Ms, []))).
Proof. exact (@program_means_roomy). Qed.
Print Assumptions c33_program_means_roomy.

Example c33_program_means_instance : program 3 (length (exStore FCsr)) exProg /\ Forall exact_instr exProg /\
  FormatHistSpec.uniform 3 3 FCsr (exStore FCsr) /\ good_schedules 3 exEnv /\
  snd (mrun 3 exProg (map bmx (exStore FCsr), [])) = exOut /\ exOut <> repeat 0%Z (length exOut).
Proof.
  split; [apply exProg_ok|]. split; [apply exProg_exact|]. split; [apply exStore_uniform|]. split; [apply exEnv_good3|].
  split; [vm_compute; reflexivity|vm_compute; discriminate].
Qed.

(** block ellpack: what a program computes *)
Theorem c33_ellblock_means :
  forall (F : scalar) (s : nat) (d : defaults) (N : nat) (fl : list bool) (p : list (instr * env F)) 
    (st : list (eb F)) (Ms : list (mat F)),
  block_sizes s d N ->
  Forall2 (eb_stands d N) st Ms ->
  flagged s fl st ->
  ebprogram N fl (map fst p) ->
  Forall exact_instr (map fst p) ->
  Forall (fun q : instr * env F => eb_schedules d (snd q)) p ->
  exists st' : list (eb F),
    ebrun p (Some d, st, []) = Ok (Some d, st', snd (mrun N (map fst p) (Ms, []))) /\
    Forall2 (eb_stands d N) st' (fst (mrun N (map fst p) (Ms, []))).
Proof. exact (@eb_program_means). Qed.
Print Assumptions c33_ellblock_means.

(** ... which is what it computes in any other format *)
Theorem c33_ellblock_agree :
  forall (F : scalar) (s : nat) (d : defaults) (N M : nat) (t : fmt) (fl : list bool) (p1 p2 : list (instr * env F))
    (st1 : list (eb F)) (st2 : list (bmat F)),
  block_sizes s d N ->
  Forall2 (fun (A : eb F) (B : bmat F) => eb_stands d N A (bmx B)) st1 st2 ->
  flagged s fl st1 ->
  FormatHistSpec.uniform N M t st2 ->
  map fst p1 = map fst p2 ->
  ebprogram N fl (map fst p1) ->
  Forall exact_instr (map fst p1) ->
  Forall (fun q : instr * env F => eb_schedules d (snd q)) p1 ->
  Forall (fun q : instr * env F => good_schedules N (snd q)) p2 ->
  exists (st1' : list (eb F)) (st2' : list (bmat F)) (out : list F),
    ebrun p1 (Some d, st1, []) = Ok (Some d, st1', out) /\
    brun p2 (st2, []) = Ok (st2', out) /\
    Forall bwf st2' /\ Forall2 (fun (A : eb F) (B : bmat F) => eb_stands d N A (bmx B) /\ bml_get_N B = N) st1' st2'.
Proof. exact (@eb_programs_agree). Qed.
Print Assumptions c33_ellblock_agree.

Example c33_ellblock_instance : block_sizes 2 d222 6 /\ Forall2 (eb_stands d222 6) [exEA; exEB] [ebmx exEA; ebmx exEB] /\
  flagged 2 [true; true] [exEA; exEB] /\ ebprogram 6 [true; true] (ebProg exE_diag) /\ Forall exact_instr (ebProg exE_diag) /\
  eb_schedules d222 exE_env /\ length exE_out = 11 /\ exE_out <> repeat 0%Z 11 /\
  exists st, ebrun (map (fun c => (c, exE_env)) (ebProg exE_diag)) (Some d222, [exEA; exEB], []) = Ok (Some d222, st, exE_out).
Proof.
  split; [apply d222_sizes|]. split; [apply exE_stands|]. split; [apply exE_flagged|]. split; [apply ebProg_ok; [lia|reflexivity]|].
  split; [apply ebProg_exact|]. split; [apply exE_env_ok|]. exact exE_runs.
Qed.

(** matrices converted to block ellpack, N a multiple of the default block size: same numbers *)
Theorem c33_ellblock_converted :
  forall (F : scalar) (nz : F -> bool) (q N M Mb : nat) (t : fmt) (p1 p2 : list (instr * env F)) 
    (st : list (bmat F)) (g : nat -> F),
  N = 4 * q ->
  0 < q ->
  FormatHistSpec.uniform N M t st ->
  st <> [] ->
  Mb <= N ->
  map fst p1 = map fst p2 ->
  ebprogram N (map (fun _ : bmat F => true) st) (map fst p1) ->
  Forall exact_instr (map fst p1) ->
  Forall (fun r : instr * env F => forall k : nat, full_sched q (e_nth (snd r)) (e_rows (snd r) k)) p1 ->
  Forall (fun r : instr * env F => good_schedules N (snd r)) p2 ->
  exists (d : defaults) (sb sb' : list (eb F)) (st' : list (bmat F)) (out : list F),
    convert_all None nz (map AB st) TEb Mb g = Ok (Some d, map AEb sb) /\
    ebrun p1 (Some d, sb, []) = Ok (Some d, sb', out) /\
    brun p2 (st, []) = Ok (st', out) /\
    Forall ebwf sb' /\
    Forall bwf st' /\ Forall2 (fun (A : eb F) (B : bmat F) => bN A = N /\ bml_get_N B = N /\ meq N (ebmx A) (bmx B)) sb' st'.
Proof. exact (@converted_programs_agree). Qed.
Print Assumptions c33_ellblock_converted.

Example c33_ellblock_converted_instance : 8 = 4 * 2 /\ FormatHistSpec.uniform 8 8 FDense exS8 /\ exS8 <> [] /\
  ebprogram 8 (map (fun _ => true) exS8) (ebProg exS8_diag) /\ Forall exact_instr (ebProg exS8_diag) /\
  forall k, full_sched 2 (e_nth exS8_env) (e_rows exS8_env k).
Proof.
  split; [reflexivity|]. split; [apply exS8_uniform|]. split; [discriminate|]. split; [apply (ebProg_ok 8); [lia|reflexivity]|].
  split; [apply ebProg_exact|]. apply exS8_sched.
Qed.

(** the elementwise product does not exist in block ellpack *)
Theorem c33_ellblock_element_multiply_refuted :
  exists
    (d : defaults) (st1 : list (eb Zscalar)) (st2 : list (bmat Zscalar)) (p : list instr) (e1 e2 : env Zscalar) 
  (st2' : list (bmat Zscalar)) (out : list Zscalar),
    block_sizes 2 d 6 /\
    Forall2 (fun (A : eb Zscalar) (B : bmat Zscalar) => eb_stands d 6 A (bmx B)) st1 st2 /\
    flagged 2 [true; true] st1 /\
    FormatHistSpec.uniform 6 6 FDense st2 /\
    program 6 2 p /\
    Forall exact_instr p /\
    eb_schedules d e1 /\
    good_schedules 6 e2 /\
    brun (map (fun c : instr => (c, e2)) p) (st2, []) = Ok (st2', out) /\
    ebrun (map (fun c : instr => (c, e1)) p) (Some d, st1, []) = Err.
Proof. exact (@eb_element_multiply_refuted). Qed.
Print Assumptions c33_ellblock_element_multiply_refuted.
