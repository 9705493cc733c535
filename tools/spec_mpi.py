OUT = 'PropsMpi.v'
HEADER = '''(** Theorems about message passing: exchange programs (C56), the process
    grid (C57). *)
From Verif Require Import Base Spec EllpackCheck FormatModel MpiModel MpiSpec MpiFacts Dist2dModel Dist2dSpec Dist2dFacts Dist2dCheck.
'''
ITEMS = [
('c56_exchange_programs', 'exchange_programs', 'C56: every interleaving of a program of matched exchanges is free of deadlock and failure and ends in the one state computed in lockstep'),
('c56_terminates', 'step_shortens', '... and each step shortens what is left to do'),
'''Example c56_instance : forall t, exists (A B C : dist Zscalar) prog s,
  dist_ok t A /\\ dist_multiply (gtZ 0) (gtZ 0) (2%Z : Zscalar) (3%Z : Zscalar) A exSeq = Ok prog /\\ tasks A = 4%nat /\\ Forall (valid 4) prog /\\
  always_ends 4 prog (cannon_start A B C) s /\\ length prog = 8%nat.
Proof. exact exCannon. Qed.''',
('c57_setcomm', 'setcomm_ok', 'C57: exactly the square numbers of tasks are accepted, and the grid is the square root'),
('c57_block_size', 'setup_exact', 'the block size N / p is accepted exactly when p divides N'),
('c57_coordinates', 'grid_bijection', 'coordinates and ranks are inverse to each other'),
]
