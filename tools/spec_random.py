OUT = 'PropsRandom.v'
HEADER = '''(** C52: the random constructors of the sparse formats.  The columns tried in row i are i and then the drawn ones. *)
From Verif Require Import Base Spec SpecFacts EllpackModel EllpackSpec CsrModel CsrSpec EllpackRandom.
'''
ITEMS = [
('c52_ellpack_random', 'ell_random_spec', 'the columns of row i are those tried, each with the value of its first trial'),
('c52_csr_random', 'csr_random_spec', None),
'''Example c52_random_instance : exists (A : ell Zscalar) (B : csr Zscalar),
  @ell_random Zscalar 3 3 (fun i k => Z.of_nat (i * 3 + k + 1)) (fun i k => (i + 2 * k)%nat) = Ok A /\\ erow A 1 = [(1%nat, 4%Z); (0%nat, 6%Z)] /\\
  @csr_random Zscalar 3 3 (fun i k => Z.of_nat (i * 3 + k + 1)) (fun i k => ((i + 2 * k) mod 3)%nat) = Ok B /\\ crow B 1 = [(1%nat, 4%Z); (0%nat, 6%Z)] /\\
  forall i k, ((i + 2 * k) mod 3 < 3)%nat.
Proof.
  eexists. eexists. split; [vm_compute; reflexivity|]. split; [vm_compute; reflexivity|]. split; [vm_compute; reflexivity|]. split; [vm_compute; reflexivity|].
  intros i k. apply Nat.mod_upper_bound. discriminate.
Qed.''',
]
