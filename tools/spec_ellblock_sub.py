OUT = 'PropsEllblockSub.v'
HEADER = '''(** C34 for the block ellpack format.  [ebmx A] is the matrix A stands for, boff bs k the first row of block k (EllblockSpec.v);
    [sub_sizes bs bs' b nb]: blocks b, b+1, ... b+nb-1 of bs have the sizes of the first nb blocks of bs' (EllblockSubSpec.v). *)
From Verif Require Import Base Spec SpecFacts EllpackModel EllpackSpec EllpackCheck SubSpec
  EllblockModel EllblockSpec EllblockCheck EllblockSubModel EllblockSubSpec EllblockSub EllblockSubCheck.
'''
ITEMS = [
('c34_ellblock_extract_partial', 'eb_extract_ok', 'submatrices of whole blocks, whose sizes are those of the default block sizes; the result has the size n of the defaults'),
('c34_ellblock_extract_size_refuted', 'eb_extract_size_refuted', 'with the defaults of A itself the result is as large as A'),
('c34_ellblock_extract_sizes_refuted', 'eb_extract_sizes_refuted', 'and with blocks of different sizes its elements cannot be read'),
('c34_ellblock_assign_partial', 'eb_assign_ok', 'where A has no blocks'),
('c34_ellblock_assign_refuted', 'eb_assign_refuted', 'and not where it has some'),
'''Example c34_ellblock_instance : ebwf exEA /\\ positive (bbs exEA) /\\ sizes_for d22 4 /\\
  (exists B, eb_extract (Some d22) exEA 2 0 4 4 Zg = Ok (Some d22, B) /\\ ebwf B /\\ bN B = 4 /\\
    meq 4 (ebmx B) (sub_at (ebmx exEA) 2 0) /\\ ebmx B 3 0 = 6%Z) /\\
  exists A', eb_assign exE6 exE4 2 2 Zg = Ok A' /\\ ebwf A' /\\
    meq 6 (ebmx A') (paste (ebmx exE6) (ebmx exE4) 2 2 4) /\\ ebmx A' 3 5 = 9%Z /\\ ebmx A' 4 0 = 7%Z.
Proof. split; [apply exEA_wf|]. split; [exact exEA_positive|]. split; [exact d22_sizes|]. split; [exact exExtract|exact exAssign]. Qed.''',
]
