(** csr over the reals: threshold error bounds and normalize. *)
From Coq Require Import Reals Lra.
From Verif Require Import Base BaseFacts Spec SpecFacts RealSpec EllpackModel EllpackSpec EllpackExact GershModel GershFacts
  CsrModel CsrSpec CsrFacts CsrOps CsrHash CsrMore CsrTop CsrGershModel CsrGersh.
Local Open Scope R_scope.

Lemma csr_threshold_bounds (t : R) (A : csr Rscalar) sched : 0 <= t -> cwf A -> Permutation (map snd sched) (seq 0 (cN A)) ->
  exists B, csr_threshold (gtR t : Rscalar -> bool) A sched = Ok B /\ cwf B /\ cdims A B /\
    (forall i j, (i < cN A)%nat -> (j < cN A)%nat -> Rabs (cmat B i j - cmat A i j) <= t) /\
    (forall i j, (i < cN A)%nat -> (j < cN A)%nat -> t < Rabs (cmat A i j) -> cmat B i j = cmat A i j) /\
    exists C, csr_threshold (gtR t : Rscalar -> bool) B sched = Ok C /\ meq (cN A) (cmat C) (cmat B).
Proof.
  intros Ht HA HP. destruct (cthreshold_spec (F:=Rscalar) (gtR t) A sched HA HP) as (B & E & Hw & [D1 D2] & Hm).
  exists B. split; auto. split; auto. split; [split; auto|]. split; [|split].
  - intros i j Hi Hj. rewrite (Hm i j) by auto. apply cut_bound; auto.
  - intros i j Hi Hj Hgt. rewrite (Hm i j) by auto. apply cut_kept; auto.
  - rewrite D1 in HP. destruct (cthreshold_spec (F:=Rscalar) (gtR t) B sched Hw HP) as (C & E2 & _ & _ & Hm2).
    exists C. split; auto. intros i j Hi Hj. rewrite (Hm2 i j) by congruence. rewrite (Hm i j) by auto.
    unfold mcut. rewrite (Hm i j) by auto. apply cut_idem; auto.
Qed.

Lemma csr_normalize_ok (A : csr Rscalar) (mn mx : R) s0 s1 s2 : cwf A -> mn <> mx ->
  Permutation (map snd s0) (seq 0 (cN A)) -> Permutation (map snd s1) (seq 0 (cN A)) -> Permutation (map snd s2) (seq 0 (cN A)) ->
  exists B, csr_normalize A mn mx s0 s1 s2 = Ok B /\ cwf B /\ cdims A B /\
    forall i j, (i < cN A)%nat -> (j < cN A)%nat ->
      cmat B i j = ((if Nat.eqb i j then mx else 0) - cmat A i j) / (mx - mn).
Proof.
  intros HA Hne P0 P1 P2. unfold csr_normalize.
  destruct (cscale_inplace_spec (F:=Rscalar) (-1 / (mx - mn)) A s0 HA P0) as (A1 & E1 & Hw1 & [D1 D2] & Hm1).
  rewrite E1. cbn [bind].
  destruct (cadd_identity_spec (F:=Rscalar) (gtR 0) (mx / (mx - mn)) A1 s1 s2 Hw1) as (B & E & Hw & [D3 D4] & Hm);
    [rewrite <- D1; auto|rewrite <- D1; auto|].
  exists B. split; auto. split; auto. split; [split; congruence|]. intros i j Hi Hj. rewrite (Hm i j) by congruence.
  unfold mcut. rewrite (cut_exact (F:=Rscalar) (gtR 0) _ gtR0_nonzero).
  unfold madd, mscale, mid. rewrite (Hm1 i j) by auto. unfold mscale. simpl.
  destruct (Nat.eqb i j); simpl; rfield; lra.
Qed.

Lemma csr_normalize_spec (A : csr Rscalar) sched s0 s1 s2 emin emax : cwf A -> Permutation (map snd sched) (seq 0 (cN A)) ->
  Permutation (map snd s0) (seq 0 (cN A)) -> Permutation (map snd s1) (seq 0 (cN A)) -> Permutation (map snd s2) (seq 0 (cN A)) ->
  csr_gershgorin A (cN A) sched = Ok (emin, emax) -> emin < emax ->
  exists B, csr_normalize A emin emax s0 s1 s2 = Ok B /\ cwf B /\ cdims A B /\
    (forall i j, (i < cN A)%nat -> (j < cN A)%nat ->
      cmat B i j = ((if Nat.eqb i j then emax else 0) - cmat A i j) / (emax - emin)) /\
    forall mu, eigenvalue (cN A) (cmat B) mu -> 0 <= mu <= 1.
Proof.
  intros HA HP P0 P1 P2 EG Hlt. destruct (csr_normalize_ok A emin emax s0 s1 s2 HA ltac:(lra) P0 P1 P2) as (B & E & Hw & D & Hm).
  exists B. repeat (split; [assumption|]). intros mu Hmu.
  apply (normalize_spectrum (cmat A) (cmat B) (cN A) emin emax mu); auto.
  destruct (csr_gershgorin_bounds A sched HA HP) as (a & b & E2 & Hb). rewrite EG in E2. inversion E2; subst. auto.
Qed.

