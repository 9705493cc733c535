(** Threshold 0: the test |x| > 0 drops only zeros, so the thresholded
    matrices are the exact ones. *)
From Verif Require Import Base BaseFacts Spec SpecFacts EllpackModel EllpackSpec EllpackFacts EllpackOps EllpackArith EllpackMul EllpackMore EllpackMul2.
From Coq Require Import Ring.

Section Exact.
  Context {F : scalar}.
  Local Open Scope K_scope.
  Add Ring Kring9 : (k_ring F).

  (** [keep] keeps every nonzero number *)
  Definition keeps_nonzero (keep : F -> bool) : Prop := forall x : F, keep x = false -> x = 0.

  Lemma cut_exact (keep : F -> bool) x : keeps_nonzero keep -> cut keep x = x.
  Proof. intros H. unfold cut. destruct (keep x) eqn:E; auto. symmetry; auto. Qed.

  Lemma meq_mcut_exact (keep : F -> bool) N (A X : mat F) : keeps_nonzero keep -> meq N A (mcut keep X) -> meq N A X.
  Proof. intros H HA i j Hi Hj. rewrite HA by auto. apply cut_exact; auto. Qed.

  Lemma multiply_exact (keep : F -> bool) alpha beta (A B C : ell F) s1 s2 gv gi :
    keeps_nonzero keep ->
    wf A -> wf B -> wf C -> eN A = eN B -> eN C = eN A ->
    Permutation (map snd s1) (seq 0 (eN A)) -> Permutation (map snd s2) (seq 0 (eN A)) ->
    (forall i, i < eN A -> prod_cols A B i <= eM C)%nat ->
    fits (eN A) (eM C) keep (madd (mscale beta (emat C)) (mscale alpha (mmul (eN A) (emat A) (emat B)))) ->
    exists C', ell_multiply keep alpha beta A B C s1 s2 gv gi = Ok C' /\ wf C' /\ same_dims C C' /\
      meq (eN A) (emat C') (madd (mscale alpha (mmul (eN A) (emat A) (emat B))) (mscale beta (emat C))).
  Proof.
    intros Hk HA HB HC HN HNC P1 P2 Hcap Hf.
    assert (Hid : forall i j, mcut_offdiag keep (mmul (eN A) (emat A) (emat B)) i j = mmul (eN A) (emat A) (emat B) i j).
    { intros i j. unfold mcut_offdiag. destruct (i =? j); auto. apply cut_exact; auto. }
    destruct (multiply_spec keep alpha beta A B C s1 s2 gv gi) as (C' & E & Hw & D & Hm); auto.
    { intros i Hi. eapply Nat.le_trans; [|apply (Hf i Hi)]. apply Nat.eq_le_incl. unfold count. f_equal.
      apply filter_ext. intros j. unfold madd, mscale. rewrite Hid. auto. }
    exists C'. repeat (split; [assumption|]). apply meq_mcut_exact in Hm; auto.
    intros i j Hi Hj. rewrite Hm by auto. unfold madd, mscale. rewrite Hid. ring.
  Qed.

  Lemma multiply_sq_exact (keep : F -> bool) alpha beta (A C : ell F) nth s1 s2 gv gi :
    keeps_nonzero keep ->
    wf A -> wf C -> eN C = eN A ->
    full_sched (eN A) nth s1 -> Permutation (map snd s2) (seq 0 (eN A)) ->
    (forall i, i < eN A -> count (eN A) (fun j => (Nat.eqb i j || keep (mmul (eN A) (emat A) (emat A) i j))%bool) <= eM C)%nat ->
    fits (eN A) (eM C) keep (madd (mscale beta (emat C)) (mscale alpha (mmul (eN A) (emat A) (emat A)))) ->
    exists C', ell_multiply_sq keep alpha beta A C nth s1 s2 gv gi = Ok C' /\ wf C' /\ same_dims C C' /\
      meq (eN A) (emat C') (madd (mscale alpha (mmul (eN A) (emat A) (emat A))) (mscale beta (emat C))).
  Proof.
    intros Hk HA HC HNC P1 P2 Hcap Hf.
    assert (Hid : forall i j, mcut_offdiag keep (mmul (eN A) (emat A) (emat A)) i j = mmul (eN A) (emat A) (emat A) i j).
    { intros i j. unfold mcut_offdiag. destruct (i =? j); auto. apply cut_exact; auto. }
    destruct (multiply_sq_spec keep alpha beta A C nth s1 s2 gv gi) as (C' & E & Hw & D & Hm); auto.
    { intros i Hi. eapply Nat.le_trans; [|apply (Hf i Hi)]. apply Nat.eq_le_incl. unfold count. f_equal.
      apply filter_ext. intros j. unfold madd, mscale. rewrite Hid. auto. }
    exists C'. repeat (split; [assumption|]).
    destruct (keqb alpha 1 && keqb beta 0) eqn:Eab.
    - apply andb_prop in Eab as [E1 E2]. apply keqb_spec in E1, E2. subst.
      intros i j Hi Hj. rewrite Hm by auto. unfold madd, mscale. rewrite Hid. ring.
    - apply meq_mcut_exact in Hm; auto.
      intros i j Hi Hj. rewrite Hm by auto. unfold madd, mscale. rewrite Hid. ring.
  Qed.
End Exact.
