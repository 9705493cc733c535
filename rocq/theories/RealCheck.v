(** Concrete real matrices: instances and witnesses for PropsReal.v. *)
From Coq Require Import Reals Lra.
From Verif Require Import Base BaseFacts Spec SpecFacts RealSpec EllpackModel EllpackSpec EllpackFacts EllpackOps GershModel GershFacts EllpackCheck.
Local Open Scope R_scope.

(** [ 0 2 ; 2 0 ], eigenvalues 2 and -2 *)
Definition exR : ell Rscalar := @mkEll Rscalar 2 2 [2; 0; 2; 0] [1; 0; 0; 0]%nat [1; 1]%nat.
Definition exRS : list (nat * nat) := [(1, 1); (0, 0)]%nat.

Lemma exR_wf : wf exR. Proof. apply wfb_ok. reflexivity. Qed.
Lemma exRS_perm : Permutation (map snd exRS) (seq 0 (eN exR)). Proof. apply permb_ok. reflexivity. Qed.

Lemma exR_emat : emat exR 0%nat 0%nat = 0 /\ emat exR 0%nat 1%nat = 2 /\ emat exR 1%nat 0%nat = 2 /\ emat exR 1%nat 1%nat = 0.
Proof. repeat split. Qed.

Lemma exR_eigenvalue : eigenvalue (eN exR) (emat exR) 2.
Proof.
  exists (fun _ => 1). split; [exists 0%nat; split; [simpl; lia|lra]|].
  intros [|[|i]] Hi; simpl in Hi; try lia; simpl; destruct exR_emat as (e1 & e2 & e3 & e4); rewrite ?e1, ?e2, ?e3, ?e4; ring.
Qed.

Lemma DBL_MIN_pos : 0 < DBL_MIN.
Proof. unfold DBL_MIN. apply Rinv_0_lt_compat. apply pow_lt. lra. Qed.

Lemma DBL_MIN_le1 : DBL_MIN <= 1.
Proof.
  unfold DBL_MIN. rewrite <- Rinv_1. apply Rinv_le_contravar; [lra|]. apply pow_R1_Rle. lra.
Qed.

Lemma DBL_MAX_ge1 : 1 <= DBL_MAX.
Proof.
  unfold DBL_MAX.
  assert (H1 : / 2 ^ 52 <= 1).
  { rewrite <- Rinv_1. apply Rinv_le_contravar; [lra|]. apply pow_R1_Rle. lra. }
  assert (H2 : 1 <= 2 ^ 1023) by (apply pow_R1_Rle; lra).
  rewrite <- (Rmult_1_l 1). apply Rmult_le_compat; lra.
Qed.

(** the 1 x 1 matrix (x) *)
Definition one (x : R) : ell Rscalar := @mkEll Rscalar 1 1 [x] [0]%nat [1]%nat.
Lemma one_wf x : wf (one x). Proof. apply wfb_ok. reflexivity. Qed.
Lemma one_perm x : Permutation (map snd [(0, 0)]%nat) (seq 0 (eN (one x))). Proof. apply permb_ok. reflexivity. Qed.
Lemma one_emat x : emat (one x) 0%nat 0%nat = x. Proof. reflexivity. Qed.
Lemma one_radius x : radius 1 (emat (one x)) 0%nat = 0. Proof. unfold radius. simpl. ring. Qed.

(** (-1): the largest disc end is -1, the reported maximum is positive *)
Lemma gershgorin_refuted : exists (A : ell Rscalar) sched emin emax, wf A /\
  Permutation (map snd sched) (seq 0 (eN A)) /\ ell_gershgorin A (eN A) sched = Ok (emin, emax) /\
  (0 < eN A)%nat /\ forall i, (i < eN A)%nat -> emat A i i + radius (eN A) (emat A) i < 0 < emax.
Proof.
  destruct (ell_gershgorin_ok (one (-1)) 1 [(0, 0)]%nat (one_wf _) (le_n _) (one_perm (-1))) as (emin & emax & E & _ & H & _).
  exists (one (-1)), [(0, 0)]%nat, emin, emax. split; [apply one_wf|]. split; [apply (one_perm (-1))|]. split; [exact E|].
  split; [simpl; lia|]. intros [|i] Hi; simpl in Hi; [|lia].
  change (eN (one (-1))) with 1%nat. rewrite one_radius, one_emat. simpl in H. assert (P := DBL_MIN_pos). lra.
Qed.

(** (1): both bounds are 1, and normalize divides by their difference *)
Lemma normalize_refuted : exists (A : ell Rscalar) sched e, wf A /\
  Permutation (map snd sched) (seq 0 (eN A)) /\ (0 < eN A)%nat /\ ell_gershgorin A (eN A) sched = Ok (e, e).
Proof.
  assert (R1 : radius (eN (one 1)) (emat (one 1)) 0%nat = 0) by apply one_radius.
  destruct (ell_gershgorin_exact (one 1) 1 [(0, 0)]%nat (one_wf _) (le_n _) (one_perm 1)) as (emin & emax & E & _ & (i & Hi & H1) & _ & (k & Hk & H2)).
  - exists 0%nat. split; [lia|]. rewrite R1, one_emat. assert (P := DBL_MIN_le1). lra.
  - exists 0%nat. split; [lia|]. rewrite R1, one_emat. assert (P := DBL_MAX_ge1). lra.
  - exists (one 1), [(0, 0)]%nat, 1. split; [apply one_wf|]. split; [apply (one_perm 1)|]. split; [simpl; lia|].
    replace i with 0%nat in H1 by lia. replace k with 0%nat in H2 by lia. rewrite R1, one_emat in H1, H2.
    replace emin with 1 in E by lra. replace emax with 1 in E by lra. exact E.
Qed.

Lemma exR_radius i : (i < 2)%nat -> emat exR i i = 0 /\ radius (eN exR) (emat exR) i = 2.
Proof.
  intros Hi. destruct i as [|[|i]]; try lia; unfold radius; simpl; destruct exR_emat as (e1 & e2 & e3 & e4); rewrite ?e1, ?e2, ?e3, ?e4; rewrite ?Rabs_R0, (Rabs_right 2) by lra; split; auto; ring.
Qed.

Lemma exR_gersh : ell_gershgorin exR (eN exR) exRS = Ok (-2, 2) /\ -2 < 2 /\
  (forall i, (i < eN exR)%nat -> 2 = 0 \/ In i (cols (erow exR i)) \/ (nnz exR i < eM exR)%nat).
Proof.
  split; [|split; [lra|intros [|[|i]] Hi; simpl in Hi; try lia; right; right; vm_compute; lia]].
  destruct (ell_gershgorin_exact exR 2 exRS exR_wf (le_n _) exRS_perm) as (emin & emax & E & _ & (i & Hi & H1) & _ & (k & Hk & H2)).
  - exists 0%nat. split; [lia|]. destruct (exR_radius 0%nat ltac:(lia)) as [Ea Eb]; rewrite Ea, Eb. assert (P := DBL_MIN_le1). lra.
  - exists 0%nat. split; [lia|]. destruct (exR_radius 0%nat ltac:(lia)) as [Ea Eb]; rewrite Ea, Eb. assert (P := DBL_MAX_ge1). lra.
  - destruct (exR_radius i Hi) as [Ea Eb]. rewrite Ea, Eb in H1. destruct (exR_radius k Hk) as [Ec Ed]. rewrite Ec, Ed in H2.
    change (eN exR) with 2%nat. rewrite E. f_equal. apply pair_eq; lra.
Qed.
