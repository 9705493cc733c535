(** Theorems about distributed 2d matrices over the real numbers, for every number of tasks: Gershgorin bounds (C18, C19),
    normalize (C20), Frobenius norm (C40) and sparsity (C53). *)
From Coq Require Import Reals.
From Verif Require Import Base Spec RealSpec EllpackModel EllpackSpec EllpackExact GershModel
  GemmModel DenseModel DenseSpec FormatModel FormatSpec FormatHistModel FormatHistSpec
  MpiModel MpiSpec Dist2dModel Dist2dSpec Dist2dLocal Dist2dRestModel Dist2dReal Dist2dRealCheck.
Local Open Scope R_scope.

(** C18: every eigenvalue lies between the bounds, whatever the order of the reductions *)
Theorem c18_dist2d_gershgorin_bounds :
  forall (t : fmt) (A : dist Rscalar),
  dist_ok t A ->
  dist_roomy A ->
  forall (rowo : nat -> list nat) (omin omax : list nat),
  (forall r : nat, (r < tasks A)%nat -> Permutation (rowo r) (seq 0 (tp A))) ->
  Permutation omin (seq 0 (tasks A)) ->
  Permutation omax (seq 0 (tasks A)) ->
  exists emin emax : R,
    dist_gershgorin A rowo omin omax = Ok (emin, emax) /\
    (forall lambda : R, eigenvalue (tN A) (gmx A) lambda -> emin <= lambda <= emax).
Proof. exact (@dist_gershgorin_bounds). Qed.
Print Assumptions c18_dist2d_gershgorin_bounds.

(** C19, when some disc ends at or above DBL_MIN *)
Theorem c19_dist2d_gershgorin_exact_partial :
  forall (t : fmt) (A : dist Rscalar),
  dist_ok t A ->
  dist_roomy A ->
  forall (rowo : nat -> list nat) (omin omax : list nat),
  (forall r : nat, (r < tasks A)%nat -> Permutation (rowo r) (seq 0 (tp A))) ->
  Permutation omin (seq 0 (tasks A)) ->
  Permutation omax (seq 0 (tasks A)) ->
  (exists i : nat, (i < tN A)%nat /\ DBL_MIN <= gmx A i i + radius (tN A) (gmx A) i) ->
  (exists i : nat, (i < tN A)%nat /\ gmx A i i - radius (tN A) (gmx A) i <= DBL_MAX) ->
  exists emin emax : R,
    dist_gershgorin A rowo omin omax = Ok (emin, emax) /\
    (forall i : nat, (i < tN A)%nat -> emin <= gmx A i i - radius (tN A) (gmx A) i) /\
    (exists i : nat, (i < tN A)%nat /\ emin = gmx A i i - radius (tN A) (gmx A) i) /\
    (forall i : nat, (i < tN A)%nat -> gmx A i i + radius (tN A) (gmx A) i <= emax) /\
    (exists i : nat, (i < tN A)%nat /\ emax = gmx A i i + radius (tN A) (gmx A) i).
Proof. exact (@dist_gershgorin_exact). Qed.
Print Assumptions c19_dist2d_gershgorin_exact_partial.

(** on every grid and in every format: all discs on the negative axis, the reported maximum is positive *)
Theorem c19_dist2d_gershgorin_refuted :
  forall (t : fmt) (p : nat),
  (0 < p)%nat ->
  exists (A : dist Rscalar) (rowo : nat -> list nat) (o : list nat) (emin emax : R),
    dist_ok t A /\
    dist_roomy A /\
    tp A = p /\
    (forall r : nat, (r < tasks A)%nat -> Permutation (rowo r) (seq 0 p)) /\
    Permutation o (seq 0 (tasks A)) /\
    dist_gershgorin A rowo o o = Ok (emin, emax) /\
    (forall i : nat, (i < tN A)%nat -> gmx A i i + radius (tN A) (gmx A) i < 0 < emax).
Proof. exact (@dist_gershgorin_refuted). Qed.
Print Assumptions c19_dist2d_gershgorin_refuted.

(** C20, when the bounds differ *)
Theorem c20_dist2d_normalize_partial :
  forall (t : fmt) (A : dist Rscalar),
  dist_ok t A ->
  dist_roomy A ->
  forall (rowo : nat -> list nat) (omin omax : list nat) (emin emax : R) (E : nat -> nat -> env Rscalar),
  (forall r : nat, (r < tasks A)%nat -> Permutation (rowo r) (seq 0 (tp A))) ->
  Permutation omin (seq 0 (tasks A)) ->
  Permutation omax (seq 0 (tasks A)) ->
  (forall r k : nat, (r < tasks A)%nat -> good_schedules (tn A) (E r k)) ->
  dist_gershgorin A rowo omin omax = Ok (emin, emax) ->
  emin < emax ->
  exists B : dist Rscalar,
    dist_normalize A emin emax E = Ok B /\
    becomes t A B (fun i j : nat => ((if i =? j then emax else 0) - gmx A i j) / (emax - emin)) /\
    (forall mu : R, eigenvalue (tN A) (gmx B) mu -> 0 <= mu <= 1).
Proof. exact (@dist_normalize_spec). Qed.
Print Assumptions c20_dist2d_normalize_partial.

(** for the identity on any grid both bounds are equal: normalize divides by zero *)
Theorem c20_dist2d_normalize_equal_bounds_refuted :
  forall (t : fmt) (p : nat),
  (0 < p)%nat ->
  exists (A : dist Rscalar) (rowo : nat -> list nat) (o : list nat) (e : R),
    dist_ok t A /\
    dist_roomy A /\
    tp A = p /\
    (forall r : nat, (r < tasks A)%nat -> Permutation (rowo r) (seq 0 p)) /\
    Permutation o (seq 0 (tasks A)) /\ dist_gershgorin A rowo o o = Ok (e, e).
Proof. exact (@dist_normalize_refuted). Qed.
Print Assumptions c20_dist2d_normalize_equal_bounds_refuted.

Example c18_dist2d_instance : forall t, exists A : dist Rscalar, dist_ok t A /\ dist_roomy A /\ tp A = 2%nat /\
  (forall r, (r < tasks A)%nat -> Permutation (row_order 2 r) (seq 0 (tp A))) /\
  (forall r (k : nat), (r < tasks A)%nat -> good_schedules (tn A) (seq_env 1 : env Rscalar)) /\
  eigenvalue (tN A) (gmx A) 2 /\ dist_gershgorin A (row_order 2) (seq 0 (tasks A)) (seq 0 (tasks A)) = Ok (-2, 2) /\ -2 < 2 /\
  (exists i, (i < tN A)%nat /\ DBL_MIN <= gmx A i i + radius (tN A) (gmx A) i) /\ (exists i, (i < tN A)%nat /\ gmx A i i - radius (tN A) (gmx A) i <= DBL_MAX).
Proof. exact exDistReal. Qed.

(** C40: the Frobenius norm *)
Theorem c40_fnorm :
  forall (t : fmt) (A : dist Rscalar),
  dist_ok t A ->
  dist_roomy A ->
  forall (E : nat -> env Rscalar) (order : list nat),
  (forall r : nat, (r < tasks A)%nat -> good_schedules (tn A) (E r)) ->
  Permutation order (seq 0 (tasks A)) -> dist_fnorm A E order = Ok (sqrt (msum (tN A) (mhad (gmx A) (gmx A)))).
Proof. exact (@dist_fnorm_ok). Qed.
Print Assumptions c40_fnorm.

(** C53: dense, ellpack and csr matrices *)
Theorem c53_sparsity :
  forall (keep : R -> bool) (A : bmat Rscalar),
  bwf A ->
  keep 0 = false ->
  bml_get_sparsity keep A =
  Ok
    (1 -
     INR (nsum (bml_get_N A) (fun i : nat => count (bml_get_N A) (fun j : nat => keep (bmx A i j)))) /
     INR (bml_get_N A * bml_get_N A)).
Proof. exact (@bml_get_sparsity_ok). Qed.
Print Assumptions c53_sparsity.

(** C53, distributed: sparsity is one minus the fraction of elements that the threshold keeps *)
Theorem c53_dist2d_sparsity :
  forall (t : fmt) (A : dist Rscalar),
  dist_ok t A ->
  dist_roomy A ->
  forall (keep : R -> bool) (order : list nat),
  keep 0 = false ->
  Permutation order (seq 0 (tasks A)) ->
  dist_get_sparsity keep A order =
  Ok (1 - INR (nsum (tN A) (fun i : nat => count (tN A) (fun j : nat => keep (gmx A i j)))) / INR (tN A * tN A)).
Proof. exact (@dist_get_sparsity_ok). Qed.
Print Assumptions c53_dist2d_sparsity.

Example c53_dist2d_instance : forall t, exists A : dist Rscalar, dist_ok t A /\ dist_roomy A /\ gtR 0 0 = false /\
  dist_get_sparsity (gtR 0) A (seq 0 (tasks A)) = Ok (/ 2).
Proof. exact exSparsity. Qed.
