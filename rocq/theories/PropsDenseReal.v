(** Theorems over the reals about dense (properties C08, C18, C19, C20). *)
From Coq Require Import Reals Lra.
From Verif Require Import Base BaseFacts Spec SpecFacts RealSpec EllpackModel EllpackSpec GershModel GershFacts EllpackCheck RealCheck
  DenseModel DenseSpec DenseFacts DenseRealModel DenseReal DenseRealCheck.
Local Open Scope R_scope.

(** C08 *)
Theorem c08_dense_threshold_bound : forall (t : R) (A : dense Rscalar) sched s2,
  0 <= t -> dwf A ->
  Permutation (map snd sched) (seq 0 (dN A * dN A)) -> Permutation (map snd s2) (seq 0 (dN A * dN A)) ->
  exists B, dense_threshold (gtR t : Rscalar -> bool) A sched = Ok B /\ dwf B /\ dN B = dN A /\
  (forall i j, (i < dN A)%nat -> (j < dN A)%nat -> Rabs (denm B i j - denm A i j) <= t) /\
  (forall i j, (i < dN A)%nat -> (j < dN A)%nat -> t < Rabs (denm A i j) -> denm B i j = denm A i j) /\
  exists C, dense_threshold (gtR t : Rscalar -> bool) B s2 = Ok C /\ meq (dN A) (denm C) (denm B).
Proof. exact dense_threshold_bounds. Qed.
Print Assumptions c08_dense_threshold_bound.

Example c08_dense_instance : 0 <= 1 /\ dwf exDR /\ Permutation (map snd [(0, 1); (1, 3); (1, 0); (0, 2)]%nat) (seq 0 (dN exDR * dN exDR)).
Proof. split; [lra|]. split; [apply exDR_wf|apply exDR_perm4]. Qed.

(** C18 *)
Theorem c18_dense_gershgorin_bounds : forall (A : dense Rscalar) nth sched,
  dwf A -> full_sched (dN A) nth sched ->
  exists emin emax, dense_gershgorin A nth sched = Ok (emin, emax) /\
  forall lambda, eigenvalue (dN A) (denm A) lambda -> emin <= lambda <= emax.
Proof. exact dense_gershgorin_bounds. Qed.
Print Assumptions c18_dense_gershgorin_bounds.

Example c18_dense_instance : dwf exDR /\ full_sched (dN exDR) 2 exDRS /\ eigenvalue (dN exDR) (denm exDR) 2.
Proof. split; [apply exDR_wf|]. split; [apply exDR_full|apply exDR_eigenvalue]. Qed.

(** C19, when some disc ends at or above DBL_MIN; n = N, or n = nrows for the partial variant *)
Theorem c19_dense_gershgorin_exact_partial : forall (A : dense Rscalar) n nth sched,
  dwf A -> (n <= dN A)%nat -> full_sched n nth sched ->
  (exists i, (i < n)%nat /\ DBL_MIN <= denm A i i + radius (dN A) (denm A) i) ->
  (exists i, (i < n)%nat /\ denm A i i - radius (dN A) (denm A) i <= DBL_MAX) ->
  exists emin emax, dense_gershgorin A nth sched = Ok (emin, emax) /\
  (forall i, (i < n)%nat -> emin <= denm A i i - radius (dN A) (denm A) i) /\
  (exists i, (i < n)%nat /\ emin = denm A i i - radius (dN A) (denm A) i) /\
  (forall i, (i < n)%nat -> denm A i i + radius (dN A) (denm A) i <= emax) /\
  (exists i, (i < n)%nat /\ emax = denm A i i + radius (dN A) (denm A) i).
Proof. exact dense_gershgorin_exact. Qed.
Print Assumptions c19_dense_gershgorin_exact_partial.

(** All discs on the negative axis: the reported maximum is positive *)
Theorem c19_dense_gershgorin_refuted : exists (A : dense Rscalar) nth sched emin emax, dwf A /\
  full_sched (dN A) nth sched /\ dense_gershgorin A nth sched = Ok (emin, emax) /\
  (0 < dN A)%nat /\ forall i, (i < dN A)%nat -> denm A i i + radius (dN A) (denm A) i < 0 < emax.
Proof. exact dense_gershgorin_refuted. Qed.
Print Assumptions c19_dense_gershgorin_refuted.

Theorem c19_dense_accumulate_offdiag : forall (A : dense Rscalar) (incl : bool),
  dwf A ->
  dense_accumulate_offdiag A incl =
  Ok (map (fun i => if incl then Rsum (dN A) (fun j => Rabs (denm A i j)) else radius (dN A) (denm A) i) (seq 0 (dN A))).
Proof. exact dense_accumulate_offdiag_ok. Qed.
Print Assumptions c19_dense_accumulate_offdiag.

(** C20, when the bounds differ *)
Theorem c20_dense_normalize_partial : forall (A : dense Rscalar) nth sched s1 emin emax,
  dwf A -> full_sched (dN A) nth sched ->
  Permutation (map snd s1) (seq 0 (dN A)) ->
  dense_gershgorin A nth sched = Ok (emin, emax) -> emin < emax ->
  exists B, dense_normalize A emin emax s1 = Ok B /\ dwf B /\ dN B = dN A /\
  (forall i j, (i < dN A)%nat -> (j < dN A)%nat ->
    denm B i j = ((if Nat.eqb i j then emax else 0) - denm A i j) / (emax - emin)) /\
  forall mu, eigenvalue (dN A) (denm B) mu -> 0 <= mu <= 1.
Proof. exact dense_normalize_spec. Qed.
Print Assumptions c20_dense_normalize_partial.

Example c20_dense_instance : dense_gershgorin exDR 2 exDRS = Ok (-2, 2) /\ -2 < 2.
Proof. exact exDR_gersh. Qed.

(** For the 1 x 1 identity both bounds are equal: normalize divides by zero *)
Theorem c20_dense_normalize_equal_bounds_refuted : exists (A : dense Rscalar) nth sched e, dwf A /\
  full_sched (dN A) nth sched /\ (0 < dN A)%nat /\ dense_gershgorin A nth sched = Ok (e, e).
Proof. exact dense_normalize_refuted. Qed.
Print Assumptions c20_dense_normalize_equal_bounds_refuted.
