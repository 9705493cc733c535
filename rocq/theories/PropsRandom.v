(** C52: the random constructors of the sparse formats.  The columns tried in row i are i and then the drawn ones. *)
From Verif Require Import Base Spec SpecFacts EllpackModel EllpackSpec CsrModel CsrSpec EllpackRandom.

(** the columns of row i are those tried, each with the value of its first trial *)
Theorem c52_ellpack_random :
  forall (F : scalar) (N M : nat) (rv : nat -> nat -> F) (rc : nat -> nat -> nat),
  0 < M ->
  exists A : ell F,
    ell_random N M rv rc = Ok A /\
    eN A = N /\
    eM A = M /\
    wf A /\
    (forall i j : nat,
     i < N -> In j (cols (erow A i)) <-> (exists k : nat, k < M /\ j = tried (fun i0 k0 : nat => rc i0 k0 mod N) i k)) /\
    (forall i k : nat,
     i < N ->
     k < M ->
     (forall k' : nat,
      k' < k -> tried (fun i0 k0 : nat => rc i0 k0 mod N) i k' <> tried (fun i0 k0 : nat => rc i0 k0 mod N) i k) ->
     emat A i (tried (fun i0 k0 : nat => rc i0 k0 mod N) i k) = rv i k).
Proof. exact (@ell_random_spec). Qed.
Print Assumptions c52_ellpack_random.

Theorem c52_csr_random :
  forall (F : scalar) (N M : nat) (rv : nat -> nat -> F) (rc : nat -> nat -> nat),
  (forall i j : nat, rc i j < N) ->
  exists A : csr F,
    csr_random N M rv rc = Ok A /\
    cN A = N /\
    cM A = M /\
    cwf A /\
    (forall i j : nat, i < N -> In j (cols (crow A i)) <-> (exists k : nat, k < M /\ j = tried rc i k)) /\
    (forall i k : nat,
     i < N -> k < M -> (forall k' : nat, k' < k -> tried rc i k' <> tried rc i k) -> cmat A i (tried rc i k) = rv i k).
Proof. exact (@csr_random_spec). Qed.
Print Assumptions c52_csr_random.

Example c52_random_instance : exists (A : ell Zscalar) (B : csr Zscalar),
  @ell_random Zscalar 3 3 (fun i k => Z.of_nat (i * 3 + k + 1)) (fun i k => (i + 2 * k)%nat) = Ok A /\ erow A 1 = [(1%nat, 4%Z); (0%nat, 6%Z)] /\
  @csr_random Zscalar 3 3 (fun i k => Z.of_nat (i * 3 + k + 1)) (fun i k => ((i + 2 * k) mod 3)%nat) = Ok B /\ crow B 1 = [(1%nat, 4%Z); (0%nat, 6%Z)] /\
  forall i k, ((i + 2 * k) mod 3 < 3)%nat.
Proof.
  eexists. eexists. split; [vm_compute; reflexivity|]. split; [vm_compute; reflexivity|]. split; [vm_compute; reflexivity|]. split; [vm_compute; reflexivity|].
  intros i k. apply Nat.mod_upper_bound. discriminate.
Qed.
