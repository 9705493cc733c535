(** C16, C18, C19, C20 for the block ellpack format, over the reals.  [ebmx A] is the matrix A stands for (EllblockSpec.v). *)
From Coq Require Import Reals.
From Verif Require Import Base Spec SpecFacts RealSpec EllpackModel EllpackSpec GershModel
  EllblockModel EllblockSpec EllblockRealModel EllblockReal EllblockRealCheck.
Local Open Scope R_scope.

Theorem c18_ellblock_gershgorin_bounds :
  forall A : eb Rscalar,
  ebwf A ->
  exists emin emax : R,
    eb_gershgorin A = Ok (emin, emax) /\ (forall lambda : R, eigenvalue (bN A) (ebmx A) lambda -> emin <= lambda <= emax).
Proof. exact (@eb_gershgorin_bounds). Qed.
Print Assumptions c18_ellblock_gershgorin_bounds.

Example c18_ellblock_instance : ebwf exER /\ eigenvalue (bN exER) (ebmx exER) 2 /\ exists emin emax, eb_gershgorin exER = Ok (emin, emax) /\ emin <= 2 <= emax.
Proof. split; [apply exER_wf|]. split; [exact exER_eigenvalue|exact exER_gershgorin]. Qed.

(** exact unless all discs lie below DBL_MIN *)
Theorem c19_ellblock_gershgorin_partial :
  forall A : eb Rscalar,
  ebwf A ->
  (exists i : nat, (i < bN A)%nat /\ DBL_MIN <= ebmx A i i + radius (bN A) (ebmx A) i) ->
  (exists i : nat, (i < bN A)%nat /\ ebmx A i i - radius (bN A) (ebmx A) i <= DBL_MAX) ->
  exists emin emax : R,
    eb_gershgorin A = Ok (emin, emax) /\
    (forall i : nat, (i < bN A)%nat -> emin <= ebmx A i i - radius (bN A) (ebmx A) i) /\
    (exists i : nat, (i < bN A)%nat /\ emin = ebmx A i i - radius (bN A) (ebmx A) i) /\
    (forall i : nat, (i < bN A)%nat -> ebmx A i i + radius (bN A) (ebmx A) i <= emax) /\
    (exists i : nat, (i < bN A)%nat /\ emax = ebmx A i i + radius (bN A) (ebmx A) i).
Proof. exact (@eb_gershgorin_exact). Qed.
Print Assumptions c19_ellblock_gershgorin_partial.

Example c19_ellblock_instance : (exists i, (i < bN exER)%nat /\ DBL_MIN <= ebmx exER i i + radius (bN exER) (ebmx exER) i) /\
  (exists i, (i < bN exER)%nat /\ ebmx exER i i - radius (bN exER) (ebmx exER) i <= DBL_MAX).
Proof. exact exER_exact. Qed.

(** and not in that case: the upper bound is positive although all discs are negative *)
Theorem c19_ellblock_gershgorin_refuted :
  exists (A : eb Rscalar) (emin emax : R),
    ebwf A /\
    eb_gershgorin A = Ok (emin, emax) /\
    (0 < bN A)%nat /\ (forall i : nat, (i < bN A)%nat -> ebmx A i i + radius (bN A) (ebmx A) i < 0 < emax).
Proof. exact (@eb_gershgorin_refuted). Qed.
Print Assumptions c19_ellblock_gershgorin_refuted.

(** blocks of one size, and room for the diagonal block of every row *)
Theorem c20_ellblock_normalize_partial :
  forall (s : nat) (c : cache) (A : eb Rscalar) (mineval maxeval : R) (g : nat -> R) (nth_ : nat) (sched : list (nat * nat)),
  ebwf A ->
  (0 < bN A)%nat ->
  own_sizes c A ->
  uniform s A ->
  roomy (s * s) A ->
  (forall ib : nat, (ib < bNB A)%nat -> In ib (bcols A ib) \/ (bnz A ib < bMB A)%nat) ->
  full_sched (bNB A) nth_ sched ->
  mineval <> maxeval ->
  exists A' : eb Rscalar,
    eb_normalize c A mineval maxeval g sched = Ok (c, A') /\
    ebwf A' /\
    same_dims A A' /\
    (forall i j : nat,
     (i < bN A)%nat -> (j < bN A)%nat -> ebmx A' i j = (maxeval * mid (F:=Rscalar) i j - ebmx A i j) / (maxeval - mineval)).
Proof. exact (@eb_normalize_ok). Qed.
Print Assumptions c20_ellblock_normalize_partial.

Example c20_ellblock_instance : exists A', eb_normalize exERc exER (-7) 7 (fun _ => 3) exERS = Ok (exERc, A') /\ ebwf A' /\
  ebmx A' 2%nat 2%nat = 1 / 2 /\ ebmx A' 1%nat 3%nat = - 5 / 14.
Proof. exact exER_normalize. Qed.

(** the bounds may be equal (normalize divides by their difference) *)
Theorem c20_ellblock_normalize_equal_bounds_refuted :
  exists (A : eb Rscalar) (e : R), ebwf A /\ (0 < bN A)%nat /\ eb_gershgorin A = Ok (e, e).
Proof. exact (@eb_normalize_equal_refuted). Qed.
Print Assumptions c20_ellblock_normalize_equal_bounds_refuted.

(** sums of the absolute values of the rows, without or with the diagonal *)
Theorem c16_ellblock_row_sums :
  forall (A : eb Rscalar) (diag : bool),
  ebwf A ->
  exists s : list R,
    eb_accumulate_offdiag A diag = Ok s /\
    length s = bN A /\
    (forall i : nat,
     (i < bN A)%nat -> nth i s 0 = Rsum (bN A) (fun j : nat => if negb (i =? j) || diag then Rabs (ebmx A i j) else 0)).
Proof. exact (@eb_accumulate_ok). Qed.
Print Assumptions c16_ellblock_row_sums.

Theorem c16_ellblock_fnorm :
  forall A : eb Rscalar,
  ebwf A -> eb_fnorm A = Ok (sqrt (Rsum (bN A) (fun i : nat => Rsum (bN A) (fun j : nat => ebmx A i j * ebmx A i j)))).
Proof. exact (@eb_fnorm_ok). Qed.
Print Assumptions c16_ellblock_fnorm.

Example c16_ellblock_instance : ebwf exER /\ radius (bN exER) (ebmx exER) 1%nat = 7.
Proof. split; [apply exER_wf|apply exER_radius]. Qed.
