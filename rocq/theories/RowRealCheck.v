(** Instances and witnesses for the real-valued part of PropsRow.v. *)
From Coq Require Import Reals Lra.
From Verif Require Import Base BaseFacts Spec SpecFacts RealSpec EllpackModel EllpackSpec EllpackFacts EllpackCheck GershModel GershFacts RealCheck
  DomainModel DomainSpec DomainFacts RowModel RowSpec RowFacts RowRealModel RowReal RowCheck.
Local Open Scope R_scope.

Definition exDom2 : domain := Eval vm_compute in
  match default_domain 2 2 2 Distributed [0; 0] [0; 0] [0; 0] [0; 0] [0; 0] with Ok d => d | _ => mkDomain 0 0 [] [] [] [] [] end%nat.
Lemma exDom2_rows : row_domain 2 2 2 exDom2.
Proof.
  destruct (default_row_domain 2 2 2 [0; 0] [0; 0] [0; 0] [0; 0] [0; 0] ltac:(lia) eq_refl eq_refl eq_refl eq_refl eq_refl)%nat as (d & E & H).
  vm_compute in E. injection E as <-. exact H.
Qed.
Definition exRanks2 (r : nat) : list (nat * nat) := [(0, r)]%nat.
Lemma exRanks2_ok r : (r < 2)%nat -> rank_sched exDom2 r 1 (exRanks2 r).
Proof.
  intros Hr. destruct r as [|[|r]]; [| |lia]; (split; [apply Permutation_refl|]); intros t i [H|[]]; injection H as <- <-; lia.
Qed.
Lemma held_same {F : scalar} P d (A : ell F) : wf A -> held P d (eN A) (eM A) (repeat A P) (emat A).
Proof.
  intros W. split; [apply repeat_length|]. intros r A' E. assert (A' = A) by (apply nth_error_In in E; apply repeat_spec in E; auto).
  subst A'. auto.
Qed.

(** [ 0 2 ; 2 0 ] on two ranks *)
Lemma exRow_gershgorin : exists emin emax, row_gershgorin exDom2 [exR; exR] exRanks2 [1; 0]%nat [0; 1]%nat = Ok (emin, emax) /\
  eigenvalue 2 (emat exR) 2 /\ emin <= 2 <= emax.
Proof.
  destruct (row_gershgorin_bounds 2 2 2 exDom2 [exR; exR] (emat exR) 1 exRanks2 [1; 0]%nat [0; 1]%nat exDom2_rows ltac:(lia)
    (held_same 2 exDom2 exR exR_wf) exRanks2_ok) as (emin & emax & E & H); [apply permb_ok; reflexivity|apply permb_ok; reflexivity|].
  exists emin, emax. split; [exact E|]. split; [exact exR_eigenvalue|]. apply H. exact exR_eigenvalue.
Qed.

Lemma exRow_exact : (exists i, (i < 2)%nat /\ DBL_MIN <= emat exR i i + radius 2 (emat exR) i) /\
  (exists i, (i < 2)%nat /\ emat exR i i - radius 2 (emat exR) i <= DBL_MAX).
Proof.
  assert (E : emat exR 0%nat 0%nat = 0 /\ radius 2 (emat exR) 0%nat = 2).
  { destruct exR_emat as (e1 & e2 & _). split; [exact e1|]. unfold radius. simpl. rewrite e2. rewrite Rabs_pos_eq by lra. ring. }
  destruct E as [E1 E2]. split; exists 0%nat; (split; [lia|]); rewrite E1, E2; [generalize DBL_MIN_le1|generalize DBL_MAX_ge1]; lra.
Qed.

Lemma exRow_normalize : exists Cs, row_normalize exDom2 [exR; exR] (-2) 2 (fun _ => exRS) = Ok Cs /\
  held 2 exDom2 2 2 Cs (fun i j => (2 * mid (F:=Rscalar) i j - emat exR i j) / (2 - -2)).
Proof.
  apply (row_normalize_ok 2 2 2 exDom2 [exR; exR] (emat exR)).
  - apply exDom2_rows.
  - apply (held_same 2 exDom2 exR exR_wf).
  - intros r _. apply exRS_perm.
  - intros r A i E Hi. assert (A = exR) by (destruct r as [|[|r]]; simpl in E; [congruence|congruence|destruct r; discriminate]). subst A.
    destruct i as [|[|i]]; [vm_compute; lia|vm_compute; lia|lia].
  - lra.
Qed.
