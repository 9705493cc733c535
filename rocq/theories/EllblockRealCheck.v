(** Instances and witnesses for PropsEllblockReal.v. *)
From Coq Require Import Reals Lra.
From Verif Require Import Base BaseFacts Spec SpecFacts RealSpec EllpackModel EllpackSpec EllpackCheck GershModel GershFacts RealCheck
  EllblockModel EllblockSpec EllblockFacts EllblockHeap EllblockRead EllblockSet EllblockAdd EllblockNorm EllblockHist EllblockCheck EllblockRealModel EllblockReal.
Local Open Scope R_scope.

(** 4 x 4 in blocks of 2: block (0,0) = [ 0 2 ; 2 0 ], block (0,1) = [ 0 0 ; 0 5 ] *)
Definition exER : eb Rscalar := @mkEb Rscalar 4 4 2 2 [2; 2]%nat [Some 0; Some 1; None; None]%nat [0; 1; 0; 0]%nat [2; 0]%nat
  [Some [0; 2; 2; 0]; Some [0; 0; 0; 5]].
Definition exERc : cache := Some (mkDef [2; 2] 2 2)%nat.
Definition exERS : list (nat * nat) := [(1, 1); (0, 0)]%nat.

Lemma exER_wf : ebwf exER /\ clean exER.
Proof. split; [apply ebwfb_ok; reflexivity|apply cleanb_ok; reflexivity]. Qed.
Lemma exERS_ok : full_sched (bNB exER) 2 exERS.
Proof. split; [apply permb_ok; reflexivity|]. intros t i [H|[H|[]]]; injection H as <- <-; lia. Qed.
Lemma exER_roomy : roomy (2 * 2)%nat exER.
Proof. apply clean_roomy; [apply exER_wf..|]. intros ib jb Hi Hj. do 2 (destruct ib as [|ib]; [do 2 (destruct jb as [|jb]; [simpl; lia|]); cbn in Hj; lia|]). cbn in Hi; lia. Qed.

Lemma exER_mx : ebmx exER 0%nat 0%nat = 0 /\ ebmx exER 0%nat 1%nat = 2 /\ ebmx exER 0%nat 2%nat = 0 /\ ebmx exER 0%nat 3%nat = 0 /\
  ebmx exER 1%nat 0%nat = 2 /\ ebmx exER 1%nat 1%nat = 0 /\ ebmx exER 1%nat 2%nat = 0 /\ ebmx exER 1%nat 3%nat = 5 /\
  (forall j, (j < 4)%nat -> ebmx exER 2%nat j = 0 /\ ebmx exER 3%nat j = 0).
Proof. repeat split; do 4 (destruct j as [|j]; [reflexivity|]); lia. Qed.

Lemma exER_eigenvalue : eigenvalue (bN exER) (ebmx exER) 2.
Proof.
  exists (fun j => if (j <? 2)%nat then 1 else 0). split; [exists 0%nat; simpl; split; [lia|lra]|].
  destruct exER_mx as (e1 & e2 & e3 & e4 & e5 & e6 & e7 & e8 & e9).
  destruct (e9 0%nat ltac:(lia)) as [f0 g0]. destruct (e9 1%nat ltac:(lia)) as [f1 g1]. destruct (e9 2%nat ltac:(lia)) as [f2 g2]. destruct (e9 3%nat ltac:(lia)) as [f3 g3].
  intros [|[|[|[|i]]]] Hi; simpl in Hi; try lia; simpl; rewrite ?e1, ?e2, ?e3, ?e4, ?e5, ?e6, ?e7, ?e8, ?f0, ?f1, ?f2, ?f3, ?g0, ?g1, ?g2, ?g3; ring.
Qed.

Lemma exER_gershgorin : exists emin emax, eb_gershgorin exER = Ok (emin, emax) /\ emin <= 2 <= emax.
Proof. destruct (eb_gershgorin_bounds exER (proj1 exER_wf)) as (emin & emax & E & H). exists emin, emax. split; [exact E|]. apply H, exER_eigenvalue. Qed.

Lemma exER_radius : ebmx exER 1%nat 1%nat = 0 /\ radius (bN exER) (ebmx exER) 1%nat = 7.
Proof.
  destruct exER_mx as (e1 & e2 & e3 & e4 & e5 & e6 & e7 & e8 & e9). split; [exact e6|]. unfold radius. simpl. rewrite e5, e7, e8.
  rewrite Rabs_R0, !Rabs_pos_eq by lra. ring.
Qed.
Lemma exER_exact : (exists i, (i < bN exER)%nat /\ DBL_MIN <= ebmx exER i i + radius (bN exER) (ebmx exER) i) /\
  (exists i, (i < bN exER)%nat /\ ebmx exER i i - radius (bN exER) (ebmx exER) i <= DBL_MAX).
Proof.
  destruct exER_radius as [E1 E2]. split; exists 1%nat; (split; [simpl; lia|]); rewrite E1, E2; [generalize DBL_MIN_le1|generalize DBL_MAX_ge1]; lra.
Qed.

Lemma exER_normalize : exists A', eb_normalize exERc exER (-7) 7 (fun _ => 3) exERS = Ok (exERc, A') /\ ebwf A' /\
  ebmx A' 2%nat 2%nat = 1 / 2 /\ ebmx A' 1%nat 3%nat = - 5 / 14.
Proof.
  destruct (eb_normalize_ok 2 exERc exER (-7) 7 (fun _ => 3) 2 exERS (proj1 exER_wf)) as (A' & E & W & _ & H).
  - simpl; lia.
  - reflexivity.
  - intros ib Hi. do 2 (destruct ib as [|ib]; [reflexivity|]). cbn in Hi; lia.
  - exact exER_roomy.
  - intros ib Hi. destruct ib as [|[|ib]]; [left; vm_compute; auto|right; vm_compute; lia|cbn in Hi; lia].
  - exact exERS_ok.
  - lra.
  - exists A'. split; [exact E|]. split; [exact W|]. destruct exER_mx as (e1 & e2 & e3 & e4 & e5 & e6 & e7 & e8 & e9). split.
    + rewrite H by (simpl; lia). rewrite (proj1 (e9 2%nat ltac:(lia))). unfold mid. simpl. lra.
    + rewrite H by (simpl; lia). rewrite e8. unfold mid. simpl. lra.
Qed.

(** the 1 x 1 matrix (v) *)
Definition oneE (v : R) : eb Rscalar := @mkEb Rscalar 1 1 1 1 [1]%nat [Some 0]%nat [0]%nat [1]%nat [Some [v]].
Lemma oneE_wf v : ebwf (oneE v). Proof. apply ebwfb_ok. reflexivity. Qed.
Lemma oneE_mx v : ebmx (oneE v) 0%nat 0%nat = v. Proof. reflexivity. Qed.
Lemma oneE_radius v : radius 1 (ebmx (oneE v)) 0%nat = 0. Proof. unfold radius. simpl. ring. Qed.

Lemma eb_gershgorin_refuted : exists (A : eb Rscalar) emin emax, ebwf A /\ eb_gershgorin A = Ok (emin, emax) /\
  (0 < bN A)%nat /\ forall i, (i < bN A)%nat -> ebmx A i i + radius (bN A) (ebmx A) i < 0 < emax.
Proof.
  destruct (eb_gershgorin_post (oneE (-1)) (oneE_wf _)) as (emin & emax & E & _ & H & _).
  exists (oneE (-1)), emin, emax. split; [apply oneE_wf|]. split; [exact E|]. split; [simpl; lia|]. intros [|i] Hi; simpl in Hi; [|lia].
  change (bN (oneE (-1))) with 1%nat. rewrite oneE_radius, oneE_mx. simpl in H. assert (P := DBL_MIN_pos). lra.
Qed.
Lemma eb_normalize_equal_refuted : exists (A : eb Rscalar) e, ebwf A /\ (0 < bN A)%nat /\ eb_gershgorin A = Ok (e, e).
Proof.
  assert (R1 : radius (bN (oneE 1)) (ebmx (oneE 1)) 0%nat = 0) by apply oneE_radius.
  destruct (eb_gershgorin_exact (oneE 1) (oneE_wf _)) as (emin & emax & E & _ & (i & Hi & H1) & _ & (k & Hk & H2)).
  - exists 0%nat. split; [simpl; lia|]. rewrite R1, oneE_mx. assert (P := DBL_MIN_le1). lra.
  - exists 0%nat. split; [simpl; lia|]. rewrite R1, oneE_mx. assert (P := DBL_MAX_ge1). lra.
  - exists (oneE 1), 1. split; [apply oneE_wf|]. split; [simpl; lia|]. simpl in Hi, Hk.
    replace i with 0%nat in H1 by lia. replace k with 0%nat in H2 by lia. rewrite R1, oneE_mx in H1, H2.
    replace emin with 1 in E by lra. replace emax with 1 in E by lra. exact E.
Qed.
