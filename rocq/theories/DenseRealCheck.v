(** Concrete real dense matrices: instances and witnesses for PropsDenseReal.v. *)
From Coq Require Import Reals Lra.
From Verif Require Import Base BaseFacts Spec SpecFacts RealSpec EllpackModel EllpackSpec EllpackFacts GershModel GershFacts EllpackCheck RealCheck
  DenseModel DenseSpec DenseFacts DenseOps DenseRealModel DenseReal.
Local Open Scope R_scope.

(** [ 0 2 ; 2 0 ] *)
Definition exDR : dense Rscalar := @mkDense Rscalar 2 [0; 2; 2; 0].
Definition exDRS : list (nat * nat) := [(1, 1); (0, 0)]%nat.
Lemma exDR_wf : dwf exDR. Proof. reflexivity. Qed.
Lemma exDR_denm : denm exDR 0%nat 0%nat = 0 /\ denm exDR 0%nat 1%nat = 2 /\ denm exDR 1%nat 0%nat = 2 /\ denm exDR 1%nat 1%nat = 0.
Proof. repeat split. Qed.
Lemma exDR_full : full_sched (dN exDR) 2 exDRS. Proof. apply full_schedb; reflexivity. Qed.
Lemma exDR_perm4 : Permutation (map snd [(0, 1); (1, 3); (1, 0); (0, 2)]%nat) (seq 0 (dN exDR * dN exDR)). Proof. apply permb_ok. reflexivity. Qed.

Lemma exDR_eigenvalue : eigenvalue (dN exDR) (denm exDR) 2.
Proof.
  exists (fun _ => 1). split; [exists 0%nat; split; [simpl; lia|lra]|].
  intros [|[|i]] Hi; simpl in Hi; try lia; simpl; destruct exDR_denm as (e1 & e2 & e3 & e4); rewrite ?e1, ?e2, ?e3, ?e4; ring.
Qed.

Lemma exDR_radius i : (i < 2)%nat -> denm exDR i i = 0 /\ radius (dN exDR) (denm exDR) i = 2.
Proof.
  intros Hi. destruct i as [|[|i]]; try lia; unfold radius; simpl; destruct exDR_denm as (e1 & e2 & e3 & e4); rewrite ?e1, ?e2, ?e3, ?e4; rewrite ?Rabs_R0, (Rabs_right 2) by lra; split; auto; ring.
Qed.

Lemma exDR_gersh : dense_gershgorin exDR 2 exDRS = Ok (-2, 2) /\ -2 < 2.
Proof.
  split; [|lra].
  destruct (dense_gershgorin_exact exDR 2 2 exDRS exDR_wf (le_n _) exDR_full) as (emin & emax & E & _ & (i & Hi & H1) & _ & (k & Hk & H2)).
  - exists 0%nat. split; [lia|]. destruct (exDR_radius 0%nat ltac:(lia)) as [Ea Eb]; rewrite Ea, Eb. assert (P := DBL_MIN_le1). lra.
  - exists 0%nat. split; [lia|]. destruct (exDR_radius 0%nat ltac:(lia)) as [Ea Eb]; rewrite Ea, Eb. assert (P := DBL_MAX_ge1). lra.
  - destruct (exDR_radius i Hi) as [Ea Eb]. rewrite Ea, Eb in H1. destruct (exDR_radius k Hk) as [Ec Ed]. rewrite Ec, Ed in H2.
    rewrite E. f_equal. apply pair_eq; lra.
Qed.

(** the 1 x 1 matrix (x) *)
Definition done (x : R) : dense Rscalar := @mkDense Rscalar 1 [x].
Lemma done_wf x : dwf (done x). Proof. reflexivity. Qed.
Lemma done_full x : full_sched (dN (done x)) 1 [(0, 0)]%nat. Proof. apply full_schedb; reflexivity. Qed.
Lemma done_denm x : denm (done x) 0%nat 0%nat = x. Proof. reflexivity. Qed.
Lemma done_radius x : radius 1 (denm (done x)) 0%nat = 0. Proof. unfold radius. simpl. ring. Qed.

Lemma dense_gershgorin_refuted : exists (A : dense Rscalar) nth sched emin emax, dwf A /\
  full_sched (dN A) nth sched /\ dense_gershgorin A nth sched = Ok (emin, emax) /\
  (0 < dN A)%nat /\ forall i, (i < dN A)%nat -> denm A i i + radius (dN A) (denm A) i < 0 < emax.
Proof.
  destruct (dense_gershgorin_ok (done (-1)) 1 1 [(0, 0)]%nat (done_wf _) (le_n _) (done_full (-1))) as (emin & emax & E & _ & H & _).
  exists (done (-1)), 1%nat, [(0, 0)]%nat, emin, emax. split; [apply done_wf|]. split; [apply (done_full (-1))|]. split; [exact E|].
  split; [simpl; lia|]. intros [|i] Hi; simpl in Hi; [|lia].
  change (dN (done (-1))) with 1%nat. rewrite done_radius, done_denm. simpl in H. assert (P := DBL_MIN_pos). lra.
Qed.

Lemma dense_normalize_refuted : exists (A : dense Rscalar) nth sched e, dwf A /\
  full_sched (dN A) nth sched /\ (0 < dN A)%nat /\ dense_gershgorin A nth sched = Ok (e, e).
Proof.
  assert (R1 : radius (dN (done 1)) (denm (done 1)) 0%nat = 0) by apply done_radius.
  destruct (dense_gershgorin_exact (done 1) 1 1 [(0, 0)]%nat (done_wf _) (le_n _) (done_full 1)) as (emin & emax & E & _ & (i & Hi & H1) & _ & (k & Hk & H2)).
  - exists 0%nat. split; [lia|]. rewrite R1, done_denm. assert (P := DBL_MIN_le1). lra.
  - exists 0%nat. split; [lia|]. rewrite R1, done_denm. assert (P := DBL_MAX_ge1). lra.
  - exists (done 1), 1%nat, [(0, 0)]%nat, 1. split; [apply done_wf|]. split; [apply (done_full 1)|]. split; [simpl; lia|].
    replace i with 0%nat in H1 by lia. replace k with 0%nat in H2 by lia. rewrite R1, done_denm in H1, H2.
    rewrite E. f_equal. apply pair_eq; lra.
Qed.
