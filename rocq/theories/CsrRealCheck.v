(** Concrete real csr matrices: instances and witnesses for PropsCsrReal.v. *)
From Coq Require Import Reals Lra.
From Verif Require Import Base BaseFacts Spec SpecFacts RealSpec EllpackModel EllpackSpec EllpackFacts GershModel GershFacts EllpackCheck RealCheck
  CsrModel CsrSpec CsrFacts CsrCheck CsrGershModel CsrGersh CsrReal.
Local Open Scope R_scope.

(** [ 0 2 ; 2 0 ] *)
Definition exCR : csr Rscalar := @csr_of Rscalar 2 2 10 [[(1%nat, 2)]; [(0%nat, 2)]].
Lemma exCR_wf : cwf exCR. Proof. apply cwfb_ok. reflexivity. Qed.
Lemma exCR_cmat : cmat exCR 0%nat 0%nat = 0 /\ cmat exCR 0%nat 1%nat = 2 /\ cmat exCR 1%nat 0%nat = 2 /\ cmat exCR 1%nat 1%nat = 0.
Proof. repeat split. Qed.
Lemma exCR_perm : Permutation (map snd exRS) (seq 0 (cN exCR)). Proof. exact exRS_perm. Qed.

Lemma exCR_eigenvalue : eigenvalue (cN exCR) (cmat exCR) 2.
Proof.
  exists (fun _ => 1). split; [exists 0%nat; split; [simpl; lia|lra]|].
  intros [|[|i]] Hi; simpl in Hi; try lia; simpl; destruct exCR_cmat as (e1 & e2 & e3 & e4); rewrite ?e1, ?e2, ?e3, ?e4; ring.
Qed.

Lemma exCR_radius i : (i < 2)%nat -> cmat exCR i i = 0 /\ radius (cN exCR) (cmat exCR) i = 2.
Proof.
  intros Hi. destruct i as [|[|i]]; try lia; unfold radius; simpl; destruct exCR_cmat as (e1 & e2 & e3 & e4); rewrite ?e1, ?e2, ?e3, ?e4; rewrite ?Rabs_R0, (Rabs_right 2) by lra; split; auto; ring.
Qed.

Lemma exCR_gersh : csr_gershgorin exCR (cN exCR) exRS = Ok (-2, 2) /\ -2 < 2.
Proof.
  split; [|lra].
  destruct (csr_gershgorin_exact exCR 2 exRS exCR_wf (le_n _) exCR_perm) as (emin & emax & E & _ & (i & Hi & H1) & _ & (k & Hk & H2)).
  - exists 0%nat. split; [lia|]. destruct (exCR_radius 0%nat ltac:(lia)) as [Ea Eb]; rewrite Ea, Eb. assert (P := DBL_MIN_le1). lra.
  - exists 0%nat. split; [lia|]. destruct (exCR_radius 0%nat ltac:(lia)) as [Ea Eb]; rewrite Ea, Eb. assert (P := DBL_MAX_ge1). lra.
  - destruct (exCR_radius i Hi) as [Ea Eb]. rewrite Ea, Eb in H1. destruct (exCR_radius k Hk) as [Ec Ed]. rewrite Ec, Ed in H2.
    change (cN exCR) with 2%nat. rewrite E. f_equal. apply pair_eq; lra.
Qed.

(** the 1 x 1 matrix (x) *)
Definition cone (x : R) : csr Rscalar := @csr_of Rscalar 1 1 10 [[(0%nat, x)]].
Lemma cone_wf x : cwf (cone x). Proof. apply cwfb_ok. reflexivity. Qed.
Lemma cone_perm x : Permutation (map snd [(0, 0)]%nat) (seq 0 (cN (cone x))). Proof. apply permb_ok. reflexivity. Qed.
Lemma cone_cmat x : cmat (cone x) 0%nat 0%nat = x. Proof. reflexivity. Qed.
Lemma cone_radius x : radius 1 (cmat (cone x)) 0%nat = 0. Proof. unfold radius. simpl. ring. Qed.

Lemma csr_gershgorin_refuted : exists (A : csr Rscalar) sched emin emax, cwf A /\
  Permutation (map snd sched) (seq 0 (cN A)) /\ csr_gershgorin A (cN A) sched = Ok (emin, emax) /\
  (0 < cN A)%nat /\ forall i, (i < cN A)%nat -> cmat A i i + radius (cN A) (cmat A) i < 0 < emax.
Proof.
  destruct (csr_gershgorin_ok (cone (-1)) 1 [(0, 0)]%nat (cone_wf _) (le_n _) (cone_perm (-1))) as (emin & emax & E & _ & H & _).
  exists (cone (-1)), [(0, 0)]%nat, emin, emax. split; [apply cone_wf|]. split; [apply (cone_perm (-1))|]. split; [exact E|].
  split; [simpl; lia|]. intros [|i] Hi; simpl in Hi; [|lia].
  change (cN (cone (-1))) with 1%nat. rewrite cone_radius, cone_cmat. simpl in H. assert (P := DBL_MIN_pos). lra.
Qed.

Lemma csr_normalize_refuted : exists (A : csr Rscalar) sched e, cwf A /\
  Permutation (map snd sched) (seq 0 (cN A)) /\ (0 < cN A)%nat /\ csr_gershgorin A (cN A) sched = Ok (e, e).
Proof.
  assert (R1 : radius (cN (cone 1)) (cmat (cone 1)) 0%nat = 0) by apply cone_radius.
  destruct (csr_gershgorin_exact (cone 1) 1 [(0, 0)]%nat (cone_wf _) (le_n _) (cone_perm 1)) as (emin & emax & E & _ & (i & Hi & H1) & _ & (k & Hk & H2)).
  - exists 0%nat. split; [lia|]. rewrite R1, cone_cmat. assert (P := DBL_MIN_le1). lra.
  - exists 0%nat. split; [lia|]. rewrite R1, cone_cmat. assert (P := DBL_MAX_ge1). lra.
  - exists (cone 1), [(0, 0)]%nat, 1. split; [apply cone_wf|]. split; [apply (cone_perm 1)|]. split; [simpl; lia|].
    replace i with 0%nat in H1 by lia. replace k with 0%nat in H2 by lia. rewrite R1, cone_cmat in H1, H2.
    replace emin with 1 in E by lra. replace emax with 1 in E by lra. exact E.
Qed.
