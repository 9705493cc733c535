OUT = 'PropsEllblockReal.v'
HEADER = '''(** C16, C18, C19, C20 for the block ellpack format, over the reals.  [ebmx A] is the matrix A stands for (EllblockSpec.v). *)
From Coq Require Import Reals.
From Verif Require Import Base Spec SpecFacts RealSpec EllpackModel EllpackSpec GershModel
  EllblockModel EllblockSpec EllblockRealModel EllblockReal EllblockRealCheck.
Local Open Scope R_scope.
'''
ITEMS = [
('c18_ellblock_gershgorin_bounds', 'eb_gershgorin_bounds', None),
'''Example c18_ellblock_instance : ebwf exER /\\ eigenvalue (bN exER) (ebmx exER) 2 /\\ exists emin emax, eb_gershgorin exER = Ok (emin, emax) /\\ emin <= 2 <= emax.
Proof. split; [apply exER_wf|]. split; [exact exER_eigenvalue|exact exER_gershgorin]. Qed.''',
('c19_ellblock_gershgorin_partial', 'eb_gershgorin_exact', 'exact unless all discs lie below DBL_MIN'),
'''Example c19_ellblock_instance : (exists i, (i < bN exER)%nat /\\ DBL_MIN <= ebmx exER i i + radius (bN exER) (ebmx exER) i) /\\
  (exists i, (i < bN exER)%nat /\\ ebmx exER i i - radius (bN exER) (ebmx exER) i <= DBL_MAX).
Proof. exact exER_exact. Qed.''',
('c19_ellblock_gershgorin_refuted', 'eb_gershgorin_refuted', 'and not in that case: the upper bound is positive although all discs are negative'),
('c20_ellblock_normalize_partial', 'eb_normalize_ok', 'blocks of one size, and room for the diagonal block of every row'),
'''Example c20_ellblock_instance : exists A', eb_normalize exERc exER (-7) 7 (fun _ => 3) exERS = Ok (exERc, A') /\\ ebwf A' /\\
  ebmx A' 2%nat 2%nat = 1 / 2 /\\ ebmx A' 1%nat 3%nat = - 5 / 14.
Proof. exact exER_normalize. Qed.''',
('c20_ellblock_normalize_equal_bounds_refuted', 'eb_normalize_equal_refuted', 'the bounds may be equal (normalize divides by their difference)'),
('c16_ellblock_row_sums', 'eb_accumulate_ok', 'sums of the absolute values of the rows, without or with the diagonal'),
('c16_ellblock_fnorm', 'eb_fnorm_ok', None),
'''Example c16_ellblock_instance : ebwf exER /\\ radius (bN exER) (ebmx exER) 1%nat = 7.
Proof. split; [apply exER_wf|apply exER_radius]. Qed.''',
]
SUBST = {'c20_ellblock_normalize_partial': [('mid i j', 'mid (F:=Rscalar) i j')]}
