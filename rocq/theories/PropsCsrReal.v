(** Theorems over the reals about csr (properties C08, C18, C19, C20). *)
From Coq Require Import Reals Lra.
From Verif Require Import Base BaseFacts Spec SpecFacts RealSpec EllpackModel EllpackSpec GershModel GershFacts EllpackCheck RealCheck
  CsrModel CsrSpec CsrFacts CsrCheck CsrGershModel CsrGersh CsrReal CsrRealCheck.
Local Open Scope R_scope.

(** C08 *)
Theorem c08_csr_threshold_bound : forall (t : R) (A : csr Rscalar) sched,
  0 <= t -> cwf A -> Permutation (map snd sched) (seq 0 (cN A)) ->
  exists B, csr_threshold (gtR t : Rscalar -> bool) A sched = Ok B /\ cwf B /\ cdims A B /\
  (forall i j, (i < cN A)%nat -> (j < cN A)%nat -> Rabs (cmat B i j - cmat A i j) <= t) /\
  (forall i j, (i < cN A)%nat -> (j < cN A)%nat -> t < Rabs (cmat A i j) -> cmat B i j = cmat A i j) /\
  exists C, csr_threshold (gtR t : Rscalar -> bool) B sched = Ok C /\ meq (cN A) (cmat C) (cmat B).
Proof. exact csr_threshold_bounds. Qed.
Print Assumptions c08_csr_threshold_bound.

Example c08_csr_real_instance : cwf exCR /\ Permutation (map snd exRS) (seq 0 (cN exCR)) /\ 0 <= 1.
Proof. split; [apply exCR_wf|]. split; [apply exCR_perm|lra]. Qed.

(** C18 *)
Theorem c18_csr_gershgorin_bounds : forall (A : csr Rscalar) sched,
  cwf A -> Permutation (map snd sched) (seq 0 (cN A)) ->
  exists emin emax, csr_gershgorin A (cN A) sched = Ok (emin, emax) /\
  forall lambda, eigenvalue (cN A) (cmat A) lambda -> emin <= lambda <= emax.
Proof. exact csr_gershgorin_bounds. Qed.
Print Assumptions c18_csr_gershgorin_bounds.

Example c18_csr_instance : cwf exCR /\ Permutation (map snd exRS) (seq 0 (cN exCR)) /\ eigenvalue (cN exCR) (cmat exCR) 2.
Proof. split; [apply exCR_wf|]. split; [apply exCR_perm|apply exCR_eigenvalue]. Qed.

(** C19, when some disc ends at or above DBL_MIN *)
Theorem c19_csr_gershgorin_exact_partial : forall (A : csr Rscalar) n sched,
  cwf A -> (n <= cN A)%nat -> Permutation (map snd sched) (seq 0 n) ->
  (exists i, (i < n)%nat /\ DBL_MIN <= cmat A i i + radius (cN A) (cmat A) i) ->
  (exists i, (i < n)%nat /\ cmat A i i - radius (cN A) (cmat A) i <= DBL_MAX) ->
  exists emin emax, csr_gershgorin A n sched = Ok (emin, emax) /\
  (forall i, (i < n)%nat -> emin <= cmat A i i - radius (cN A) (cmat A) i) /\
  (exists i, (i < n)%nat /\ emin = cmat A i i - radius (cN A) (cmat A) i) /\
  (forall i, (i < n)%nat -> cmat A i i + radius (cN A) (cmat A) i <= emax) /\
  (exists i, (i < n)%nat /\ emax = cmat A i i + radius (cN A) (cmat A) i).
Proof. exact csr_gershgorin_exact. Qed.
Print Assumptions c19_csr_gershgorin_exact_partial.

(** All discs on the negative axis: the reported maximum is positive *)
Theorem c19_csr_gershgorin_refuted : exists (A : csr Rscalar) sched emin emax, cwf A /\
  Permutation (map snd sched) (seq 0 (cN A)) /\ csr_gershgorin A (cN A) sched = Ok (emin, emax) /\
  (0 < cN A)%nat /\ forall i, (i < cN A)%nat -> cmat A i i + radius (cN A) (cmat A) i < 0 < emax.
Proof. exact csr_gershgorin_refuted. Qed.
Print Assumptions c19_csr_gershgorin_refuted.

Theorem c19_csr_accumulate_offdiag : forall (A : csr Rscalar) (incl : bool),
  cwf A ->
  csr_accumulate_offdiag A incl =
  Ok (map (fun i => if incl then Rsum (cN A) (fun j => Rabs (cmat A i j)) else radius (cN A) (cmat A) i) (seq 0 (cN A))).
Proof. exact csr_accumulate_offdiag_ok. Qed.
Print Assumptions c19_csr_accumulate_offdiag.

(** C20, when the bounds differ *)
Theorem c20_csr_normalize_partial : forall (A : csr Rscalar) sched s0 s1 s2 emin emax,
  cwf A -> Permutation (map snd sched) (seq 0 (cN A)) ->
  Permutation (map snd s0) (seq 0 (cN A)) -> Permutation (map snd s1) (seq 0 (cN A)) -> Permutation (map snd s2) (seq 0 (cN A)) ->
  csr_gershgorin A (cN A) sched = Ok (emin, emax) -> emin < emax ->
  exists B, csr_normalize A emin emax s0 s1 s2 = Ok B /\ cwf B /\ cdims A B /\
  (forall i j, (i < cN A)%nat -> (j < cN A)%nat ->
    cmat B i j = ((if Nat.eqb i j then emax else 0) - cmat A i j) / (emax - emin)) /\
  forall mu, eigenvalue (cN A) (cmat B) mu -> 0 <= mu <= 1.
Proof. exact csr_normalize_spec. Qed.
Print Assumptions c20_csr_normalize_partial.

Example c20_csr_instance : csr_gershgorin exCR (cN exCR) exRS = Ok (-2, 2) /\ -2 < 2.
Proof. exact exCR_gersh. Qed.

(** For the 1 x 1 identity both bounds are equal: normalize divides by zero *)
Theorem c20_csr_normalize_equal_bounds_refuted : exists (A : csr Rscalar) sched e, cwf A /\
  Permutation (map snd sched) (seq 0 (cN A)) /\ (0 < cN A)%nat /\ csr_gershgorin A (cN A) sched = Ok (e, e).
Proof. exact csr_normalize_refuted. Qed.
Print Assumptions c20_csr_normalize_equal_bounds_refuted.
