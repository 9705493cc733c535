(** Instances and counterexamples for distributed real matrices. *)
From Coq Require Import Reals Lra.
From Verif Require Import Base BaseFacts Spec SpecFacts RealSpec EllpackModel EllpackSpec EllpackExact EllpackCheck CsrModel CsrSpec CsrHash GershModel GershFacts RealCheck
  GemmModel DenseModel DenseSpec FormatModel FormatSpec FormatFacts FormatHistModel FormatHistSpec FormatHist FormatCheck
  MpiModel MpiSpec MpiFacts MpiRun Dist2dModel Dist2dSpec Dist2dLocal Dist2dFacts Dist2dCannon Dist2dOps Dist2dMore Dist2dIO Dist2dRestModel Dist2dRest Dist2dReal.
Local Open Scope R_scope.

(** [ 0 2 ; 2 0 ], one element per task *)
Lemma exDR2 t : exists A : dist Rscalar, dist_ok t A /\ dist_roomy A /\ tp A = 2%nat /\ tN A = 2%nat /\
  forall i j, (i < 2)%nat -> (j < 2)%nat -> gmx A i j = (if Nat.eqb i j then 0 else 2).
Proof.
  destruct (dist_import_ok (F:=Rscalar) t row_major 2 2 2 (gtR 0) [0; 2; 2; 0] (fun _ => seq_env 1)) as (A & _ & P0 & N0 & M0 & _ & O0 & R0 & X0); try lia; try reflexivity.
  { change (2 / 2)%nat with 1%nat. apply table_max_big. lia. } { intros; apply seq_env_good. }
  exists A. split; [exact O0|]. split; [exact R0|]. split; [exact P0|]. split; [exact N0|]. intros i j Hi Hj. rewrite X0 by auto.
  assert (FC : forall Y : mat Rscalar, fcut (F:=Rscalar) t (gtR 0) Y i j = Y i j) by (intros Y; destruct t; cbn [fcut]; auto; apply cut_exact, gtR0_nonzero).
  rewrite FC. cbn [placed]. destruct i as [|[|i]], j as [|[|j]]; try lia; reflexivity.
Qed.

Definition row_order (p : nat) (r : nat) : list nat := seq 0 p.

Lemma exDistReal : forall t, exists A : dist Rscalar, dist_ok t A /\ dist_roomy A /\ tp A = 2%nat /\
  (forall r, (r < tasks A)%nat -> Permutation (row_order 2 r) (seq 0 (tp A))) /\
  (forall r (k : nat), (r < tasks A)%nat -> good_schedules (tn A) (seq_env 1 : env Rscalar)) /\
  eigenvalue (tN A) (gmx A) 2 /\ dist_gershgorin A (row_order 2) (seq 0 (tasks A)) (seq 0 (tasks A)) = Ok (-2, 2) /\ -2 < 2 /\
  (exists i, (i < tN A)%nat /\ DBL_MIN <= gmx A i i + radius (tN A) (gmx A) i) /\ (exists i, (i < tN A)%nat /\ gmx A i i - radius (tN A) (gmx A) i <= DBL_MAX).
Proof.
  intros t. destruct (exDR2 t) as (A & OA & RA & PA & NA & MA). exists A. split; [exact OA|]. split; [exact RA|]. split; [exact PA|].
  assert (HR : forall r, (r < tasks A)%nat -> Permutation (row_order 2 r) (seq 0 (tp A))) by (intros r _; rewrite PA; apply Permutation_refl).
  split; [exact HR|]. split; [intros r k _; unfold tn; rewrite PA, NA; apply seq_env_good|].
  assert (D : forall i, (i < 2)%nat -> gmx A i i = 0) by (intros i Hi; rewrite MA, Nat.eqb_refl by auto; reflexivity).
  assert (RD : forall i, (i < 2)%nat -> radius 2 (gmx A) i = 2).
  { intros i Hi. unfold radius. cbn [Rsum]. rewrite !MA by lia. destruct i as [|[|i]]; try lia; cbn [Nat.eqb]; rewrite Rabs_right by lra; change (K Rscalar) with R; lra. }
  assert (P1 := DBL_MIN_le1). assert (P2 := DBL_MAX_ge1).
  assert (H1 : exists i, (i < tN A)%nat /\ DBL_MIN <= gmx A i i + radius (tN A) (gmx A) i).
  { exists 0%nat. rewrite NA. split; [lia|]. rewrite D, RD by lia. lra. }
  assert (H2 : exists i, (i < tN A)%nat /\ gmx A i i - radius (tN A) (gmx A) i <= DBL_MAX).
  { exists 0%nat. rewrite NA. split; [lia|]. rewrite D, RD by lia. lra. }
  split; [|split; [|split; [lra|split; [exact H1|exact H2]]]].
  - exists (fun _ => 1). rewrite NA. split; [exists 0%nat; split; [lia|lra]|]. intros i Hi. cbn [Rsum]. rewrite !MA by lia. destruct i as [|[|i]]; try lia; cbn [Nat.eqb]; lra.
  - destruct (dist_gershgorin_exact t A OA RA (row_order 2) (seq 0 (tasks A)) (seq 0 (tasks A)) HR (Permutation_refl _) (Permutation_refl _) H1 H2) as (emin & emax & E & _ & (i & Hi & E1) & _ & (k & Hk & E2)).
    rewrite NA in *. rewrite D, RD in E1 by auto. rewrite D, RD in E2 by auto. rewrite E. f_equal. apply pair_eq; lra.
Qed.

(** c times the identity, one element per task, on any grid *)
Lemma exDiag t p (c : R) : (0 < p)%nat -> exists A : dist Rscalar, dist_ok t A /\ dist_roomy A /\ tp A = p /\ tN A = p /\ tprec A = true /\
  forall i j, (i < p)%nat -> (j < p)%nat -> gmx A i j = (if Nat.eqb i j then c else 0).
Proof.
  intros Hp. assert (DP : (p / p = 1)%nat) by (apply Nat.div_same; lia).
  destruct (dist_identity_ok (F:=Rscalar) t p p p (fun _ => seq_env 1)) as (A0 & _ & P0 & N0 & M0 & Q0 & O0 & R0 & X0); try lia.
  { rewrite DP. apply table_max_big. lia. } { intros. rewrite DP. apply seq_env_good. }
  destruct (dist_scale_inplace_ok t A0 O0 R0 (c : Rscalar) (fun _ => seq_env 1)) as (A & _ & (O & R & (G1 & G2 & G3) & M) & Q).
  { intros r Hr. unfold tn. rewrite P0, N0, DP. apply seq_env_good. }
  exists A. split; [exact O|]. split; [exact R|]. split; [congruence|]. split; [congruence|]. split; [congruence|].
  intros i j Hi Hj. rewrite M by (rewrite N0; auto). unfold mscale. rewrite X0 by auto. unfold mid. change (kmul (s:=Rscalar)) with Rmult.
  destruct (Nat.eqb i j); [change (k1 (s:=Rscalar)) with 1|change (k0 (s:=Rscalar)) with 0]; rring.
Qed.
Lemma exDiag_radius t p c (A : dist Rscalar) : (0 < p)%nat -> dist_ok t A -> (forall i j, (i < p)%nat -> (j < p)%nat -> gmx A i j = (if Nat.eqb i j then c else 0)) ->
  forall i, (i < p)%nat -> gmx A i i = c /\ radius p (gmx A) i = 0.
Proof.
  intros Hp O H i Hi. split; [rewrite H, Nat.eqb_refl by auto; reflexivity|]. unfold radius. rewrite (Rsum_ext p _ (fun _ => 0)); [apply Rsum_0|].
  intros j Hj. rewrite H by auto. destruct (Nat.eqb i j); [reflexivity|apply Rabs_R0].
Qed.

(** all discs on the negative axis: the reported maximum is positive *)
Lemma dist_gershgorin_refuted : forall t p, (0 < p)%nat -> exists (A : dist Rscalar) rowo o emin emax, dist_ok t A /\ dist_roomy A /\ tp A = p /\
  (forall r, (r < tasks A)%nat -> Permutation (rowo r) (seq 0 p)) /\ Permutation o (seq 0 (tasks A)) /\
  dist_gershgorin A rowo o o = Ok (emin, emax) /\ forall i, (i < tN A)%nat -> gmx A i i + radius (tN A) (gmx A) i < 0 < emax.
Proof.
  intros t p Hp. destruct (exDiag t p (-1) Hp) as (A & O & R & P & N & _ & M). assert (H := exDiag_radius t p (-1) A Hp O M).
  assert (HR : forall r, (r < tasks A)%nat -> Permutation (row_order p r) (seq 0 (tp A))) by (intros r _; rewrite P; apply Permutation_refl).
  destruct (dist_gershgorin_post t A O R (row_order p) (seq 0 (tasks A)) (seq 0 (tasks A)) HR (Permutation_refl _) (Permutation_refl _)) as (emin & emax & E & _ & E2 & _).
  exists A, (row_order p), (seq 0 (tasks A)), emin, emax. split; [exact O|]. split; [exact R|]. split; [exact P|]. split; [intros; apply Permutation_refl|]. split; [apply Permutation_refl|].
  split; [exact E|]. rewrite N. intros i Hi. destruct (H i Hi) as [-> ->]. cbn [snd] in E2. assert (Q := DBL_MIN_pos). split; lra.
Qed.

(** the identity: both bounds are 1, and normalize divides by their difference *)
Lemma dist_normalize_refuted : forall t p, (0 < p)%nat -> exists (A : dist Rscalar) rowo o e, dist_ok t A /\ dist_roomy A /\ tp A = p /\
  (forall r, (r < tasks A)%nat -> Permutation (rowo r) (seq 0 p)) /\ Permutation o (seq 0 (tasks A)) /\ dist_gershgorin A rowo o o = Ok (e, e).
Proof.
  intros t p Hp. destruct (exDiag t p 1 Hp) as (A & O & R & P & N & _ & M). assert (H := exDiag_radius t p 1 A Hp O M).
  assert (HR : forall r, (r < tasks A)%nat -> Permutation (row_order p r) (seq 0 (tp A))) by (intros r _; rewrite P; apply Permutation_refl).
  assert (P1 := DBL_MIN_le1). assert (P2 := DBL_MAX_ge1). destruct (H 0%nat Hp) as [HA HB].
  destruct (dist_gershgorin_exact t A O R (row_order p) (seq 0 (tasks A)) (seq 0 (tasks A)) HR (Permutation_refl _) (Permutation_refl _)) as (emin & emax & E & _ & (i & Hi & E1) & _ & (k & Hk & E2)).
  { exists 0%nat. rewrite N. split; [exact Hp|]. rewrite HA, HB. lra. }
  { exists 0%nat. rewrite N. split; [exact Hp|]. rewrite HA, HB. lra. }
  exists A, (row_order p), (seq 0 (tasks A)), 1. split; [exact O|]. split; [exact R|]. split; [exact P|]. split; [intros; apply Permutation_refl|]. split; [apply Permutation_refl|].
  rewrite E. rewrite N in *. destruct (H i Hi) as [Q1 Q2]. destruct (H k Hk) as [Q3 Q4]. rewrite Q1, Q2 in E1. rewrite Q3, Q4 in E2. f_equal. apply pair_eq; lra.
Qed.

(** a distributed matrix the sparsity of which is not trivial *)
Lemma exSparsity : forall t, exists A : dist Rscalar, dist_ok t A /\ dist_roomy A /\ gtR 0 0 = false /\
  dist_get_sparsity (gtR 0) A (seq 0 (tasks A)) = Ok (/ 2).
Proof.
  intros t. destruct (exDR2 t) as (A & OA & RA & PA & NA & MA). exists A. split; [exact OA|]. split; [exact RA|].
  assert (Z : gtR 0 0 = false) by (apply gtR_false; rewrite Rabs_R0; lra). split; [exact Z|].
  rewrite (dist_get_sparsity_ok t A OA RA (gtR 0) _ Z (Permutation_refl _)). rewrite NA. cbn [nsum]. unfold count. cbn [seq filter]. rewrite !MA by lia. cbn [Nat.eqb].
  assert (T : gtR 0 2 = true) by (apply gtR_true; rewrite Rabs_right; lra). rewrite Z, T. cbn [length Nat.add Nat.mul INR]. f_equal. field.
Qed.
