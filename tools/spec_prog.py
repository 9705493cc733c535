OUT = 'PropsProg.v'
HEADER = '''(** More of C32 and C33: conversion from and to block ellpack, the meaning of programs, and programs on block ellpack
    matrices.  ProgSpec.v: [mrun N p (Ms, [])] is what program p means for matrices Ms.  EbProgSpec.v: [amx] is the
    matrix of any of the four formats; [eb_stands d N A X], matrix A of size N with the default block sizes d stands for
    X; [ebprogram] allows every call but the elementwise product, and does not add to the results of bml_transpose and
    bml_multiply_x2 (see C46). *)
From Verif Require Import Base Spec EllpackModel EllpackSpec EllpackExact EllpackCheck CsrModel CsrSpec
  GemmModel DenseModel DenseSpec FormatModel FormatSpec FormatHistModel FormatHistSpec FormatCheck
  EllblockModel EllblockSpec EllblockCheck ProgSpec ProgFacts EbProgModel EbProgSpec EbProgFacts EbConv EbProgCheck.
'''
ITEMS = [
('c32_four_formats', 'aml_convert_ok', 'C32: conversion between any two of the four formats'),
('c32_four_formats_elements', 'aml_convert_element', '... as seen through the getters'),
('c32_four_formats_roundtrip', 'aml_convert_roundtrip', 'there and back'),
'''Example c32_four_formats_instance : awf (AEb exEA) /\\ awf (AB (fA FCsr)) /\\ keeps_nonzero (gtZ 0 : Zscalar -> bool) /\\
  aml_get_N (AEb exEA) = 6 /\\ ebmx exEA 3 2 = (-1)%Z /\\
  (exists B, aml_convert (Some d222) (gtZ 0) (AEb exEA) (TB FEll) 6 (fun _ => 0%Z) = Ok (Some d222, B) /\\ amx B 3 2 = (-1)%Z) /\\
  exists d B, aml_convert None (gtZ 0) (AB (fA FCsr)) TEb 3 (fun _ => 0%Z) = Ok (Some d, AEb B) /\\ bnz B 0 = 1.
Proof.
  split; [apply exEA_wf|]. split; [apply fA_wf|]. split; [apply gtZ0_exact|]. split; [reflexivity|]. split; [reflexivity|].
  split; [eexists|eexists _, _]; split; vm_compute; reflexivity.
Qed.''',
('c33_program_means', 'program_means', 'C33: what a legal program computes, in every format'),
('c33_program_means_roomy', 'program_means_roomy', '... with room for N elements per row and thresholds that keep every nonzero number'),
'''Example c33_program_means_instance : program 3 (length (exStore FCsr)) exProg /\\ Forall exact_instr exProg /\\
  FormatHistSpec.uniform 3 3 FCsr (exStore FCsr) /\\ good_schedules 3 exEnv /\\
  snd (mrun 3 exProg (map bmx (exStore FCsr), [])) = exOut /\\ exOut <> repeat 0%Z (length exOut).
Proof.
  split; [apply exProg_ok|]. split; [apply exProg_exact|]. split; [apply exStore_uniform|]. split; [apply exEnv_good3|].
  split; [vm_compute; reflexivity|vm_compute; discriminate].
Qed.''',
('c33_ellblock_means', 'eb_program_means', 'block ellpack: what a program computes'),
('c33_ellblock_agree', 'eb_programs_agree', '... which is what it computes in any other format'),
'''Example c33_ellblock_instance : block_sizes 2 d222 6 /\\ Forall2 (eb_stands d222 6) [exEA; exEB] [ebmx exEA; ebmx exEB] /\\
  flagged 2 [true; true] [exEA; exEB] /\\ ebprogram 6 [true; true] (ebProg exE_diag) /\\ Forall exact_instr (ebProg exE_diag) /\\
  eb_schedules d222 exE_env /\\ length exE_out = 11 /\\ exE_out <> repeat 0%Z 11 /\\
  exists st, ebrun (map (fun c => (c, exE_env)) (ebProg exE_diag)) (Some d222, [exEA; exEB], []) = Ok (Some d222, st, exE_out).
Proof.
  split; [apply d222_sizes|]. split; [apply exE_stands|]. split; [apply exE_flagged|]. split; [apply ebProg_ok; [lia|reflexivity]|].
  split; [apply ebProg_exact|]. split; [apply exE_env_ok|]. exact exE_runs.
Qed.''',
('c33_ellblock_converted', 'converted_programs_agree', 'matrices converted to block ellpack, N a multiple of the default block size: same numbers'),
'''Example c33_ellblock_converted_instance : 8 = 4 * 2 /\\ FormatHistSpec.uniform 8 8 FDense exS8 /\\ exS8 <> [] /\\
  ebprogram 8 (map (fun _ => true) exS8) (ebProg exS8_diag) /\\ Forall exact_instr (ebProg exS8_diag) /\\
  forall k, full_sched 2 (e_nth exS8_env) (e_rows exS8_env k).
Proof.
  split; [reflexivity|]. split; [apply exS8_uniform|]. split; [discriminate|]. split; [apply (ebProg_ok 8); [lia|reflexivity]|].
  split; [apply ebProg_exact|]. apply exS8_sched.
Qed.''',
('c33_ellblock_element_multiply_refuted', 'eb_element_multiply_refuted', 'the elementwise product does not exist in block ellpack'),
]
