OUT = 'PropsEllblockAddNorm.v'
HEADER = '''(** C58 for bml_add_norm of the block ellpack format.  [ebmx A] is the matrix A stands for, [bcut] the threshold per block,
    [an_slots]: every kept block finds an object that is large enough in the slot it is put in, [blk_norm4 bs NB X]: the sum over the
    blocks of X of the square of the sum of their squares (EllblockAddNormSpec.v); [add_fits]: such an object or none (EllblockSpec.v). *)
From Verif Require Import Base Spec SpecFacts EllpackModel EllpackSpec EllpackCheck
  EllblockModel EllblockSpec EllblockCheck EllblockAddNormModel EllblockAddNorm EllblockAddNormSpec EllblockAddNormTotal EllblockAddNormCheck.
'''
ITEMS = [
('c58_add_norm_returns_partial', 'eb_add_norm_ok', 'where the slots needed exist and blocks have at most 25 elements, for any factors: it returns, A is the sum, and the number is the sum over the blocks of A - B of the squares of their sums of squares'),
'''Example c58_add_norm_returns_instance : ebwf exEA /\\ tidy exEA /\\ ebwf exEC /\\ eb_dims exEA exEC /\\ bMB exEA = bMB exEC /\\
  an_slots (F:=Zscalar) (gtZ 0) 2%Z 3%Z exEA exEC /\\ an_slots (F:=Zscalar) (gtZ 0) 0%Z 3%Z exEA exEC /\\
  (forall ib jb, ib < bNB exEA -> jb < bNB exEA -> bsz (bbs exEA) ib * bsz (bbs exEA) jb <= BMAXSIZE) /\\
  blk_norm4 (F:=Zscalar) (bbs exEA) (bNB exEA) (fun i j => (ebmx exEA i j - ebmx exEC i j)%Z) = 2854%Z.
Proof. split; [apply exEA_wf|]. split; [apply exEA_roomy|]. split; [apply exEC_wf|]. split; [exact exEAC_dims|]. split; [reflexivity|]. split; [apply exAN_slots|]. split; [apply exAN_slots|]. split; [exact exAN_size|exact exAN_value]. Qed.''',
('c58_add_norm_partial', 'eb_add_norm_sum', 'where it returns, for blocks of at most 25 elements and factors other than 0, A is the sum; that it returns is not proved, and false in general'),
'''Example c58_add_norm_instance : ebwf exEA /\\ clean exEA /\\ ebwf exEC /\\ eb_dims exEA exEC /\\ bMB exEA = bMB exEC /\\ add_fits (gtZ 0) 2%Z 3%Z exEA exEC /\\
  (forall ib jb, ib < bNB exEA -> jb < bNB exEA -> bsz (bbs exEA) ib * bsz (bbs exEA) jb <= BMAXSIZE) /\\
  eb_add_norm (F:=Zscalar) (gtZ 0) 2%Z 3%Z exEA exEC = Ok (exAN, 2854%Z) /\\ ebmx exAN 1 5 = 12%Z /\\ ebmx exAN 5 0 = 15%Z.
Proof. split; [apply exEA_wf|]. split; [apply exEA_wf|]. split; [apply exEC_wf|]. split; [exact exEAC_dims|]. split; [reflexivity|]. split; [exact exEAC_fits|]. split; [exact exAN_size|exact exAN_ok]. Qed.''',
('c58_add_norm_value_refuted', 'eb_add_norm_value_refuted', 'the number returned is not the squared Frobenius norm of A - B'),
('c58_add_norm_null_refuted', 'eb_add_norm_null_refuted', 'a block of B where A has no slot is written through a null pointer'),
('c58_add_norm_size_refuted', 'eb_add_norm_size_refuted', 'the work arrays have 25 elements per block whatever the block sizes are'),
]
SUBST = {'c58_add_norm_value_refuted': [('bigsum (bN A) (fun j', 'bigsum (F:=Zscalar) (bN A) (fun j'), ('eb_add_norm (gtZ 0) 1%Z', 'eb_add_norm (F:=Zscalar) (gtZ 0) 1%Z')],
  'c58_add_norm_null_refuted': [('eb_add_norm (gtZ 0)', 'eb_add_norm (F:=Zscalar) (gtZ 0)')], 'c58_add_norm_size_refuted': [('eb_add_norm (gtZ 0)', 'eb_add_norm (F:=Zscalar) (gtZ 0)')]}
