(** Theorems over the reals about ellpack (properties C08, C18, C19, C20). *)
From Coq Require Import Reals Lra.
From Verif Require Import Base BaseFacts Spec SpecFacts RealSpec EllpackModel EllpackSpec GershModel GershFacts EllpackCheck RealCheck.
Local Open Scope R_scope.

(** C08: no element moves by more than t, elements above t are unchanged, and
    a second application changes nothing. *)
Theorem c08_ellpack_threshold_bound : forall (t : R) (A : ell Rscalar) sched, 0 <= t -> wf A ->
  Permutation (map snd sched) (seq 0 (eN A)) ->
  exists B, ell_threshold (gtR t : Rscalar -> bool) A sched = Ok B /\ wf B /\ same_dims A B /\
    (forall i j, (i < eN A)%nat -> (j < eN A)%nat -> Rabs (emat B i j - emat A i j) <= t) /\
    (forall i j, (i < eN A)%nat -> (j < eN A)%nat -> t < Rabs (emat A i j) -> emat B i j = emat A i j) /\
    exists C, ell_threshold (gtR t : Rscalar -> bool) B sched = Ok C /\ meq (eN A) (emat C) (emat B).
Proof. exact threshold_bounds. Qed.
Print Assumptions c08_ellpack_threshold_bound.
Example c08_real_instance : wf exR /\ Permutation (map snd exRS) (seq 0 (eN exR)) /\ (0 < eM exR)%nat.
Proof. split; [apply exR_wf|]. split; [apply exRS_perm|simpl; auto]. Qed.

Theorem c08_ellpack_threshold_new_bound : forall (t : R) (A : ell Rscalar) sched, 0 <= t -> wf A -> (0 < eM A)%nat ->
  Permutation (map snd sched) (seq 0 (eN A)) ->
  exists B, ell_threshold_new (gtR t : Rscalar -> bool) A sched = Ok B /\ wf B /\ same_dims A B /\
    (forall i j, (i < eN A)%nat -> (j < eN A)%nat -> Rabs (emat B i j - emat A i j) <= t) /\
    (forall i j, (i < eN A)%nat -> (j < eN A)%nat -> t < Rabs (emat A i j) -> emat B i j = emat A i j) /\
    exists C, ell_threshold_new (gtR t : Rscalar -> bool) B sched = Ok C /\ meq (eN A) (emat C) (emat B).
Proof. exact threshold_new_bounds. Qed.
Print Assumptions c08_ellpack_threshold_new_bound.

Theorem c08_ellpack_add_bound : forall (t alpha beta : R) (A B : ell Rscalar) sched, 0 <= t -> wf A -> wf B -> eN A = eN B ->
  Permutation (map snd sched) (seq 0 (eN A)) ->
  fits (F:=Rscalar) (eN A) (eM A) (gtR t) (madd (mscale (alpha : Rscalar) (emat A)) (mscale (beta : Rscalar) (emat B))) ->
  exists A', ell_add (gtR t : Rscalar -> bool) (alpha : Rscalar) (beta : Rscalar) A B sched = Ok A' /\ wf A' /\ same_dims A A' /\
    forall i j, (i < eN A)%nat -> (j < eN A)%nat -> Rabs (emat A' i j - (alpha * emat A i j + beta * emat B i j)) <= t.
Proof. exact add_bounds. Qed.
Print Assumptions c08_ellpack_add_bound.

Theorem c08_ellpack_multiply_AB_bound : forall (t : R) (A B C : ell Rscalar) sched, 0 <= t ->
  wf A -> wf B -> eN A = eN B -> wf C -> eN C = eN A -> Permutation (map snd sched) (seq 0 (eN A)) ->
  (ell_multiply_AB (gtR t : Rscalar -> bool) A B C sched = Err /\ exists i, (i < eN A)%nat /\ (eM C < prod_cols A B i)%nat) \/
  (exists C', ell_multiply_AB (gtR t : Rscalar -> bool) A B C sched = Ok C' /\ wf C' /\ same_dims C C' /\
    forall i j, (i < eN A)%nat -> (j < eN A)%nat -> Rabs (emat C' i j - mmul (eN A) (emat A) (emat B) i j) <= t).
Proof. exact multiply_AB_bounds. Qed.
Print Assumptions c08_ellpack_multiply_AB_bound.

(** C18 *)
Theorem c18_ellpack_gershgorin_bounds : forall (A : ell Rscalar) sched, wf A -> Permutation (map snd sched) (seq 0 (eN A)) ->
  exists emin emax, ell_gershgorin A (eN A) sched = Ok (emin, emax) /\
    forall lambda, eigenvalue (eN A) (emat A) lambda -> emin <= lambda <= emax.
Proof. exact ell_gershgorin_bounds. Qed.
Print Assumptions c18_ellpack_gershgorin_bounds.
Example c18_instance : wf exR /\ Permutation (map snd exRS) (seq 0 (eN exR)) /\ eigenvalue (eN exR) (emat exR) 2.
Proof. split; [apply exR_wf|]. split; [apply exRS_perm|apply exR_eigenvalue]. Qed.

(** C19: the bounds are the extreme ends of the discs of the first n rows,
    when some disc ends at or above DBL_MIN (and some begins at or below
    DBL_MAX).  n = N is bml_gershgorin, n < N is bml_gershgorin_partial. *)
Theorem c19_ellpack_gershgorin_exact_partial : forall (A : ell Rscalar) n sched, wf A -> (n <= eN A)%nat ->
  Permutation (map snd sched) (seq 0 n) ->
  (exists i, (i < n)%nat /\ DBL_MIN <= emat A i i + radius (eN A) (emat A) i) ->
  (exists i, (i < n)%nat /\ emat A i i - radius (eN A) (emat A) i <= DBL_MAX) ->
  exists emin emax, ell_gershgorin A n sched = Ok (emin, emax) /\
    (forall i, (i < n)%nat -> emin <= emat A i i - radius (eN A) (emat A) i) /\
    (exists i, (i < n)%nat /\ emin = emat A i i - radius (eN A) (emat A) i) /\
    (forall i, (i < n)%nat -> emat A i i + radius (eN A) (emat A) i <= emax) /\
    (exists i, (i < n)%nat /\ emax = emat A i i + radius (eN A) (emat A) i).
Proof. exact ell_gershgorin_exact. Qed.
Print Assumptions c19_ellpack_gershgorin_exact_partial.
Example c19_instance : DBL_MIN <= emat exR 0%nat 0%nat + radius (eN exR) (emat exR) 0%nat /\ emat exR 0%nat 0%nat - radius (eN exR) (emat exR) 0%nat <= DBL_MAX.
Proof.
  destruct (exR_radius 0%nat ltac:(lia)) as [Ea Eb]; rewrite Ea, Eb. assert (P1 := DBL_MIN_le1). assert (P2 := DBL_MAX_ge1). split; lra.
Qed.

(** All discs on the negative axis: the reported maximum is positive. *)
Theorem c19_ellpack_gershgorin_refuted : exists (A : ell Rscalar) sched emin emax, wf A /\
  Permutation (map snd sched) (seq 0 (eN A)) /\ ell_gershgorin A (eN A) sched = Ok (emin, emax) /\
  (0 < eN A)%nat /\ forall i, (i < eN A)%nat -> emat A i i + radius (eN A) (emat A) i < 0 < emax.
Proof. exact gershgorin_refuted. Qed.
Print Assumptions c19_ellpack_gershgorin_refuted.

Theorem c19_ellpack_accumulate_offdiag : forall (A : ell Rscalar) (incl : bool), wf A ->
  ell_accumulate_offdiag A incl =
  Ok (map (fun i => if incl then Rsum (eN A) (fun j => Rabs (emat A i j)) else radius (eN A) (emat A) i) (seq 0 (eN A))).
Proof. exact ell_accumulate_offdiag_ok. Qed.
Print Assumptions c19_ellpack_accumulate_offdiag.

(** C20: normalize with the Gershgorin bounds gives (emax I - A) / (emax - emin),
    with spectrum in [0,1], when the bounds differ and each row has a stored
    diagonal or a free slot. *)
Theorem c20_ellpack_normalize_partial : forall (A : ell Rscalar) sched emin emax, wf A ->
  Permutation (map snd sched) (seq 0 (eN A)) ->
  ell_gershgorin A (eN A) sched = Ok (emin, emax) -> emin < emax ->
  (forall i, (i < eN A)%nat -> emax = 0 \/ In i (cols (erow A i)) \/ (nnz A i < eM A)%nat) ->
  exists B, ell_normalize A emin emax sched = Ok B /\ wf B /\ same_dims A B /\
    (forall i j, (i < eN A)%nat -> (j < eN A)%nat ->
      emat B i j = ((if Nat.eqb i j then emax else 0) - emat A i j) / (emax - emin)) /\
    forall mu, eigenvalue (eN A) (emat B) mu -> 0 <= mu <= 1.
Proof. exact ell_normalize_spec. Qed.
Print Assumptions c20_ellpack_normalize_partial.
Example c20_instance : ell_gershgorin exR (eN exR) exRS = Ok (-2, 2) /\ -2 < 2 /\
  (forall i, (i < eN exR)%nat -> 2 = 0 \/ In i (cols (erow exR i)) \/ (nnz exR i < eM exR)%nat).
Proof. exact exR_gersh. Qed.

(** For the 1 x 1 identity both bounds are equal: normalize divides by zero. *)
Theorem c20_ellpack_normalize_equal_bounds_refuted : exists (A : ell Rscalar) sched e, wf A /\
  Permutation (map snd sched) (seq 0 (eN A)) /\ (0 < eN A)%nat /\ ell_gershgorin A (eN A) sched = Ok (e, e).
Proof. exact normalize_refuted. Qed.
Print Assumptions c20_ellpack_normalize_equal_bounds_refuted.
