OUT = 'PropsMm.v'
HEADER = '''(** Theorems about Matrix Market files (C48). *)
From Verif Require Import Base Spec SpecFacts EllpackModel EllpackSpec EllpackCheck CsrModel CsrSpec CsrCheck
  DenseModel DenseSpec DenseCheck EllblockModel EllblockSpec EllblockCheck MmModel MmSpec MmFacts MmCheck.
'''
ITEMS = [
('c48_ellpack_write', 'ell_write_ok', 'C48: the file a writer makes describes the matrix, up to the rounding of the values'),
('c48_csr_write', 'csr_write_ok', None),
('c48_dense_write', 'dense_write_ok', None),
('c48_ellblock_write', 'eb_write_ok', None),
('c48_ellpack_read', 'ell_read_ok', 'readers: the described cells are stored, the others keep their values'),
('c48_csr_read', 'csr_read_ok', None),
('c48_dense_read_partial', 'dense_read_ok', 'missing: symmetric files (refuted)'),
('c48_ellblock_read_partial', 'eb_read_ok', 'missing: symmetric files (refuted)'),
('c48_ellblock_read_room_partial', 'eb_read_room', None),
('c48_ellpack_round_trip', 'ell_read_written', 'a file of any of the writers, read into an empty matrix of any format'),
('c48_csr_round_trip', 'csr_read_written', None),
('c48_dense_round_trip', 'dense_read_written', None),
('c48_ellblock_round_trip', 'eb_read_written', None),
('c48_short_file', 'read_short', 'a truncated file is never accepted'),
('c48_digits_refuted', 'digits_refuted', 'values are not restored exactly', 'MmCheck.v'),
('c48_dense_symmetric_refuted', 'dense_symmetric_refuted', None, 'MmCheck.v'),
('c48_ellblock_symmetric_refuted', 'eb_symmetric_refuted', None, 'MmCheck.v'),
('c48_ellblock_symmetric_lost_refuted', 'eb_symmetric_lost_refuted', None, 'MmCheck.v'),
('c48_read_over_refuted', 'read_over_refuted', None, 'MmCheck.v'),
('c48_ellpack_overflow_refuted', 'ell_read_overflow_refuted', None, 'MmCheck.v'),
'''Example c48_instance : wf exA /\\ cwf exCA /\\ dwf exD /\\ ebwf exEA /\\ wf (emptyE 3 2) /\\ cwf (emptyC 3) /\\ dwf (zeroD 3) /\\ ebwf emptyB /\\ bNB emptyB <= bMB emptyB /\\
  digits 15 0 = 0%Z /\\ (forall i, i < eN (emptyE 3 2) -> erow (emptyE 3 2) i = []) /\\ (forall i, i < cN (emptyC 3) -> crow (emptyC 3) i = []) /\\
  (exists f C, dense_write (F:=Zscalar) (digits 15) exD = Ok f /\\ mm_nnz f = 5 /\\ (forall i, i < 3 -> mm_row_count f i <= 2) /\\
    ell_read (emptyE 3 2) f = Ok C /\\ emat C 1 2 = 5%Z /\\ emat C 0 2 = 0%Z) /\\
  (exists f C, eb_write (F:=Zscalar) (digits 16) exEA = Ok f /\\ eb_read emptyB f (fun _ => 9%Z) = Ok C /\\ ebmx C 1 5 = 3%Z /\\ ebmx C 5 0 = 6%Z) /\\
  (exists C, mm_good 2 symf /\\ ell_read (emptyE 2 2) symf = Ok C /\\ emat C 0 1 = 5%Z).
Proof.
  split; [apply exA_wf|]. split; [apply exCA_wf|]. split; [apply exD_wf|]. split; [apply ebwfb_ok; reflexivity|]. split; [apply wfb_ok; reflexivity|].
  split; [apply cwfb_ok; reflexivity|]. split; [reflexivity|]. split; [apply ebwfb_ok; reflexivity|]. split; [cbn; lia|]. split; [reflexivity|].
  split; [intros i Hi; cbn in Hi; do 3 (destruct i as [|i]; [reflexivity|]); lia|]. split; [intros i Hi; cbn in Hi; do 3 (destruct i as [|i]; [reflexivity|]); lia|].
  split; [eexists _, _; split; [vm_compute; reflexivity|]; split; [reflexivity|]; split; [intros i Hi; do 3 (destruct i as [|i]; [vm_compute; lia|]); lia|]; split; [vm_compute; reflexivity|split; reflexivity]|].
  split; [eexists _, _; split; [vm_compute; reflexivity|]; split; [vm_compute; reflexivity|split; vm_compute; reflexivity]|].
  eexists. split; [apply symf_good|]. split; [vm_compute; reflexivity|reflexivity].
Qed.''',
]
