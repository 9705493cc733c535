(** Consequences: bml_multiply, statements in terms of the represented matrix. *)
From Verif Require Import Base BaseFacts Spec SpecFacts EllpackModel EllpackSpec EllpackFacts EllpackOps EllpackArith EllpackMul EllpackMore.
From Coq Require Import Ring.

Section EllpackMul2.
  Context {F : scalar}.
  Local Open Scope K_scope.
  Add Ring Kring7 : (k_ring F).
  Local Notation ell := (ell F).

  Lemma set_row_spec (keep : F -> bool) (A : ell) i (row : list F) : wf A -> (i < eN A)%nat -> length row = eN A ->
    (count (eN A) (fun j => keep (nth j row k0)) <= eM A)%nat ->
    exists A', ell_set_row keep A i row = Ok A' /\ wf A' /\ same_dims A A' /\
      ell_get_row A' i = Ok (map (cut keep) row) /\
      (forall i', (i' < eN A)%nat -> i' <> i -> ell_get_row A' i' = ell_get_row A i').
  Proof.
    intros Hw Hi HL Hc. destruct (ell_set_row_ok keep A i row (proj1 Hw) Hi HL Hc) as (A' & E & HU).
    assert (Hw' : wf A') by (apply (upd_row_wf _ _ _ _ Hw Hi HU); apply drow_ok; auto).
    pose proof HU as ((D1 & D2) & _).
    exists A'. split; [auto|]. split; [auto|]. split; [split; auto|]. split.
    - rewrite ell_get_row_ok by (auto; congruence). f_equal. rewrite <- D1.
      apply (list_ext_nth _ _ 0); [rewrite !map_length, seq_length; auto|].
      intros j Hj. rewrite map_length, seq_length in Hj. rewrite nth_map_seq by auto.
      rewrite (emat_drow A' (eN A) keep (fun j => nth j row 0)) by (auto; apply HU).
      rewrite (nth_indep (map (cut keep) row) 0 (cut keep 0)) by (rewrite map_length; lia).
      rewrite (map_nth (cut keep)). auto.
    - intros i' Hi' Hne. rewrite !ell_get_row_ok by (auto; congruence). f_equal. rewrite <- D1.
      apply map_ext. intros j. unfold emat. rewrite (upd_row_other _ _ _ _ _ HU); auto. apply wf_nnz; auto.
  Qed.

  Lemma import_export_spec (keep : F -> bool) o o' N M (D : list F) s1 s2 :
    (0 < M)%nat -> length D = (N * N)%nat ->
    Permutation (map snd s1) (seq 0 N) -> Permutation (map snd s2) (seq 0 N) ->
    fits N M keep (dmat o N D) ->
    exists A D', ell_import o N M keep D s1 = Ok A /\ wf A /\ eN A = N /\ eM A = M /\
      meq N (emat A) (mcut keep (dmat o N D)) /\
      ell_export o' A s2 = Ok D' /\ length D' = (N * N)%nat /\
      meq N (dmat o' N D') (mcut keep (dmat o N D)).
  Proof.
    intros HM HL P1 P2 Hf.
    destruct (ell_import_ok o N M keep D s1 HM HL P1 Hf) as (A & E & HN & HM' & Hw & Hr).
    assert (HE : meq N (emat A) (mcut keep (dmat o N D))).
    { intros i j Hi Hj. rewrite (emat_drow A N keep (dmat o N D i)); auto. }
    rewrite <- HN in P2. destruct (ell_export_ok o' A s2 Hw P2) as (D' & E' & HL' & HD').
    exists A, D'. rewrite HN in HL', HD'. repeat (split; [assumption|]).
    intros i j Hi Hj. rewrite HD' by auto. apply HE; auto.
  Qed.

  Lemma add_spec keep alpha beta (A B : ell) sched :
    wf A -> wf B -> eN A = eN B -> Permutation (map snd sched) (seq 0 (eN A)) ->
    fits (eN A) (eM A) keep (madd (mscale alpha (emat A)) (mscale beta (emat B))) ->
    exists A', ell_add keep alpha beta A B sched = Ok A' /\ wf A' /\ same_dims A A' /\
      meq (eN A) (emat A') (mcut keep (madd (mscale alpha (emat A)) (mscale beta (emat B)))).
  Proof.
    intros HA HB HN HP Hf.
    destruct (ell_add_ok keep alpha beta A B sched HA HB HN HP Hf) as (A' & E & D & Hw & Hr).
    exists A'. repeat (split; [assumption|]). intros i j Hi Hj. unfold emat. rewrite Hr by auto.
    destruct HA as [_ HrA], HB as [_ HrB].
    rewrite elook_addrow; [reflexivity|apply HrA; auto|apply HrB; congruence].
  Qed.

  Lemma add_self_spec keep alpha beta (A : ell) sched :
    wf A -> Permutation (map snd sched) (seq 0 (eN A)) ->
    fits (eN A) (eM A) keep (madd (mscale alpha (emat A)) (mscale beta (emat A))) ->
    exists A', ell_add_self keep alpha beta A sched = Ok A' /\ wf A' /\ same_dims A A' /\
      meq (eN A) (emat A') (mcut keep (madd (mscale alpha (emat A)) (mscale beta (emat A)))).
  Proof.
    intros HA HP Hf.
    destruct (ell_add_self_ok keep alpha beta A sched HA HP Hf) as (A' & E & D & Hw & Hr).
    exists A'. repeat (split; [assumption|]). intros i j Hi Hj. unfold emat. rewrite Hr by auto.
    destruct HA as [_ HrA]. rewrite elook_addrow; [reflexivity|apply HrA; auto|apply HrA; auto].
  Qed.

  Lemma add_norm_spec keep alpha beta (A B : ell) nth sched :
    wf A -> wf B -> eN A = eN B -> full_sched (eN A) nth sched ->
    fits (eN A) (eM A) keep (madd (mscale alpha (emat A)) (mscale beta (emat B))) ->
    exists A', ell_add_norm keep alpha beta A B nth sched =
        Ok (A', msum (eN A) (fun i j => (emat A i j - emat B i j) * (emat A i j - emat B i j))) /\
      wf A' /\ same_dims A A' /\
      meq (eN A) (emat A') (mcut keep (madd (mscale alpha (emat A)) (mscale beta (emat B)))).
  Proof.
    intros HA HB HN HP Hf.
    destruct (ell_add_norm_ok keep alpha beta A B nth sched HA HB HN HP Hf) as (A' & E & D & Hw & Hr).
    exists A'. repeat (split; [assumption|]). intros i j Hi Hj. unfold emat. rewrite Hr by auto.
    destruct HA as [_ HrA], HB as [_ HrB].
    rewrite elook_normrow; [reflexivity|apply HrA; auto|apply HrB; congruence].
  Qed.

  Lemma multiply_AB_spec keep (A B C : ell) sched :
    wf A -> wf B -> eN A = eN B -> wf C -> eN C = eN A ->
    Permutation (map snd sched) (seq 0 (eN A)) ->
    (ell_multiply_AB keep A B C sched = Err /\ exists i, i < eN A /\ eM C < prod_cols A B i)%nat \/
    (exists C', ell_multiply_AB keep A B C sched = Ok C' /\
       (forall i, i < eN A -> prod_cols A B i <= eM C)%nat /\ wf C' /\ same_dims C C' /\
       meq (eN A) (emat C') (mcut_offdiag keep (mmul (eN A) (emat A) (emat B)))).
  Proof.
    intros HA HB HN HC HNC HP.
    pose proof (ell_multiply_AB_ok keep A B C sched HA HB HN HC HNC HP) as H.
    destruct (ell_multiply_AB keep A B C sched) as [C'| | |]; simpl in H; try contradiction; [right|left; auto].
    destruct H as (H1 & H2 & H3 & H4). exists C'. repeat (split; [assumption || reflexivity|]).
    intros i j Hi Hj. unfold emat. rewrite H4 by auto. apply elook_mulrow; auto.
  Qed.

  Lemma multiply_x2_spec keep (X X2 : ell) nth sched :
    wf X -> wf X2 -> eN X2 = eN X -> full_sched (eN X) nth sched ->
    (forall i, i < eN X -> count (eN X) (fun j => (Nat.eqb i j || keep (mmul (eN X) (emat X) (emat X) i j))%bool) <= eM X2)%nat ->
    exists C, ell_multiply_x2 keep X X2 nth sched =
        Ok (C, mtrace (eN X) (emat X), mtrace (eN X) (mmul (eN X) (emat X) (emat X))) /\
      wf C /\ same_dims X2 C /\
      meq (eN X) (emat C) (mcut_offdiag keep (mmul (eN X) (emat X) (emat X))).
  Proof.
    intros HX HX2 HN HP Hf.
    destruct (ell_multiply_x2_ok keep X X2 nth sched HX HX2 HN HP) as (C & E & D & Hw & Hr).
    { intros i Hi. apply mulrow_fits_count; auto. eapply Nat.le_trans; [|apply (Hf i Hi)].
      apply Nat.eq_le_incl. unfold count. f_equal. apply filter_ext. intros j. unfold kc_offdiag.
      rewrite (Nat.eqb_sym j i). destruct (i =? j); auto. }
    exists C. repeat (split; [assumption|]). intros i j Hi Hj. unfold emat. rewrite Hr by auto. apply elook_mulrow; auto.
  Qed.


  (** bml_multiply with A, B different objects *)
  Lemma multiply_spec keep alpha beta (A B C : ell) s1 s2 gv gi :
    wf A -> wf B -> wf C -> eN A = eN B -> eN C = eN A ->
    Permutation (map snd s1) (seq 0 (eN A)) -> Permutation (map snd s2) (seq 0 (eN A)) ->
    (forall i, i < eN A -> prod_cols A B i <= eM C)%nat ->
    let P := mcut_offdiag keep (mmul (eN A) (emat A) (emat B)) in
    fits (eN A) (eM C) keep (madd (mscale beta (emat C)) (mscale alpha P)) ->
    exists C', ell_multiply keep alpha beta A B C s1 s2 gv gi = Ok C' /\ wf C' /\ same_dims C C' /\
      meq (eN A) (emat C') (mcut keep (madd (mscale beta (emat C)) (mscale alpha P))).
  Proof.
    intros HA HB HC HN HNC P1 P2 Hcap P Hf. unfold ell_multiply.
    destruct (multiply_AB_spec keep A B (ell_noinit (eN C) (eM C) gv gi) s1) as [[E (i & Hi & Hbad)]|(A2 & E & _ & Hw & [D1 D2] & Hm)]; auto.
    - apply wf_noinit.
    - exfalso. specialize (Hcap i Hi). simpl in Hbad. lia.
    - rewrite E. cbn [bind]. simpl in D1, D2.
      assert (Hfit2 : fits (eN C) (eM C) keep (madd (mscale beta (emat C)) (mscale alpha (emat A2)))).
      { intros i Hi. rewrite HNC in *. eapply Nat.le_trans; [|apply (Hf i Hi)]. apply Nat.eq_le_incl. unfold count. f_equal.
        apply filter_ext_in. intros j Hj. apply in_seq in Hj. unfold madd, mscale. rewrite (Hm i j) by lia. auto. }
      destruct (add_spec keep beta alpha C A2 s2) as (C' & E' & Hw' & D' & Hm'); auto.
      { rewrite HNC; auto. }
      exists C'. repeat (split; [assumption|]). intros i j Hi Hj. rewrite HNC in Hm'. rewrite (Hm' i j) by auto.
      unfold mcut, madd, mscale. rewrite (Hm i j) by auto. reflexivity.
  Qed.

  (** bml_multiply with A == B *)
  Lemma multiply_sq_spec keep alpha beta (A C : ell) nth s1 s2 gv gi :
    wf A -> wf C -> eN C = eN A ->
    full_sched (eN A) nth s1 -> Permutation (map snd s2) (seq 0 (eN A)) ->
    (forall i, i < eN A -> count (eN A) (fun j => (Nat.eqb i j || keep (mmul (eN A) (emat A) (emat A) i j))%bool) <= eM C)%nat ->
    let P := mcut_offdiag keep (mmul (eN A) (emat A) (emat A)) in
    fits (eN A) (eM C) keep (madd (mscale beta (emat C)) (mscale alpha P)) ->
    exists C', ell_multiply_sq keep alpha beta A C nth s1 s2 gv gi = Ok C' /\ wf C' /\ same_dims C C' /\
      meq (eN A) (emat C') (if keqb alpha 1 && keqb beta 0 then P
                            else mcut keep (madd (mscale beta (emat C)) (mscale alpha P))).
  Proof.
    intros HA HC HNC P1 P2 Hcap P Hf. unfold ell_multiply_sq.
    destruct (keqb alpha 1 && keqb beta 0) eqn:Eab.
    - destruct (multiply_x2_spec keep A C nth s1) as (A2 & E & Hw & D & Hm); auto.
      rewrite E. cbn [bind]. exists A2. auto.
    - destruct (multiply_x2_spec keep A (ell_noinit (eN C) (eM C) gv gi) nth s1) as (A2 & E & Hw & [D1 D2] & Hm); auto.
      { apply wf_noinit. }
      rewrite E. cbn [bind]. simpl in D1, D2.
      assert (Hfit2 : fits (eN C) (eM C) keep (madd (mscale beta (emat C)) (mscale alpha (emat A2)))).
      { intros i Hi. rewrite HNC in *. eapply Nat.le_trans; [|apply (Hf i Hi)]. apply Nat.eq_le_incl. unfold count. f_equal.
        apply filter_ext_in. intros j Hj. apply in_seq in Hj. unfold madd, mscale. rewrite (Hm i j) by lia. auto. }
      destruct (add_spec keep beta alpha C A2 s2) as (C' & E' & Hw' & D' & Hm'); auto.
      { rewrite HNC; auto. }
      exists C'. repeat (split; [assumption|]). intros i j Hi Hj. rewrite HNC in Hm'. rewrite (Hm' i j) by auto.
      unfold mcut, madd, mscale. rewrite (Hm i j) by auto. reflexivity.
  Qed.

  Lemma element_multiply_spec keep (A B C : ell) sched :
    wf A -> wf B -> eN A = eN B -> wf C -> eN C = eN A -> (eM A <= eM C)%nat ->
    Permutation (map snd sched) (seq 0 (eN A)) ->
    exists C', ell_element_multiply keep A B C sched = Ok C' /\ wf C' /\ same_dims C C' /\
      meq (eN A) (emat C') (mcut_offdiag keep (mhad (emat A) (emat B))).
  Proof.
    intros HA HB HN HC HNC HM HP.
    destruct (ell_element_multiply_ok keep A B C sched HA HB HN HC HNC HM HP) as (C' & E & D & Hw & Hr).
    exists C'. repeat (split; [assumption|]). intros i j Hi Hj. unfold emat. rewrite Hr by auto.
    destruct HA as [_ HrA], HB as [_ HrB].
    rewrite elook_emulrow; [reflexivity|apply HrA; auto|apply HrB; congruence].
  Qed.

  Lemma threshold_spec keep (A : ell) sched : wf A -> Permutation (map snd sched) (seq 0 (eN A)) ->
    exists B, ell_threshold keep A sched = Ok B /\ wf B /\ same_dims A B /\ meq (eN A) (emat B) (mcut keep (emat A)).
  Proof.
    intros HA HP. destruct (ell_threshold_ok keep A sched HA HP) as (B & E & D & Hw & Hr).
    exists B. repeat (split; [assumption|]). intros i j Hi Hj. unfold emat. rewrite Hr by auto.
    apply elook_cutrow. apply HA; auto.
  Qed.

  Lemma threshold_new_spec keep (A : ell) sched : wf A -> (0 < eM A)%nat -> Permutation (map snd sched) (seq 0 (eN A)) ->
    exists B, ell_threshold_new keep A sched = Ok B /\ wf B /\ same_dims A B /\ meq (eN A) (emat B) (mcut keep (emat A)).
  Proof.
    intros HA HM HP. destruct (ell_threshold_new_ok keep A sched HA HM HP) as (B & E & D & Hw & Hr).
    exists B. repeat (split; [assumption|]). intros i j Hi Hj. unfold emat. rewrite Hr by auto.
    apply elook_cutrow. apply HA; auto.
  Qed.

  Lemma transpose_new_spec (A : ell) ev gv gi : wf A -> Permutation ev (all_slots A) ->
    (forall r, r < eN A -> colcount A r <= eM A)%nat ->
    exists B, ell_transpose_new A ev gv gi = Ok B /\ wf B /\ same_dims A B /\ meq (eN A) (emat B) (mtrans (emat A)).
  Proof.
    intros HA HP Hc. destruct (ell_transpose_new_ok A ev gv gi HA HP Hc) as (B & E & D & Hw & Hr).
    exists B. repeat (split; [assumption|]). intros i j Hi Hj. unfold emat at 1. rewrite Hr by auto.
    apply elook_trrow; auto.
  Qed.

  Lemma add_identity_spec keep beta (A : ell) sched : wf A ->
    Permutation (map snd sched) (seq 0 (eN A)) ->
    (forall i, i < eN A -> beta = k0 \/ In i (cols (erow A i)) \/ nnz A i < eM A)%nat ->
    exists B, ell_add_identity keep beta A sched = Ok B /\ wf B /\ same_dims A B /\
      meq (eN A) (emat B) (mcut keep (madd (emat A) (mscale beta mid))).
  Proof.
    intros HA HP Hr. destruct (ell_add_identity_ok keep beta A sched HA HP Hr) as (B & E & D & Hw & HB).
    exists B. repeat (split; [assumption|]). intros i j Hi Hj. unfold emat at 1. rewrite HB by auto.
    rewrite elook_cutrow.
    - rewrite elook_idrow. unfold mcut, madd, mscale, mid, emat. rewrite (Nat.eqb_sym i j).
      f_equal. f_equal. destruct (j =? i); ring.
    - destruct (proj2 HA i Hi) as (H1 & H2 & H3). rewrite cols_idrow. destruct (keqb beta 0); auto.
      destruct (existsb (Nat.eqb i) (cols (erow A i))) eqn:Ex; auto. apply existsb_eqb_false in Ex.
      apply NoDup_app_intro; auto; [constructor; [simpl; tauto|constructor]|]. intros k Hk [<-|[]]; auto.
  Qed.

  Lemma scale_inplace_spec a (A : ell) : wf A ->
    exists B, ell_scale_inplace a A = Ok B /\ wf B /\ same_dims A B /\ meq (eN A) (emat B) (mscale a (emat A)) /\
      forall i, (i < eN A)%nat -> cols (erow B i) = cols (erow A i).
  Proof.
    intros HA. destruct (ell_scale_inplace_wf a A HA) as (B & E & D & Hw & Hr).
    exists B. repeat (split; [assumption|]). split.
    - intros i j Hi Hj. unfold emat. rewrite Hr by auto. apply elook_sc.
    - intros i Hi. rewrite Hr by auto. apply cols_sc.
  Qed.

  Lemma scale_add_identity_spec keep alpha beta (A : ell) sched : wf A ->
    Permutation (map snd sched) (seq 0 (eN A)) ->
    (forall i, i < eN A -> beta = k0 \/ In i (cols (erow A i)) \/ nnz A i < eM A)%nat ->
    exists B, ell_scale_add_identity keep alpha beta A sched = Ok B /\ wf B /\ same_dims A B /\
      meq (eN A) (emat B) (mcut keep (madd (mscale alpha (emat A)) (mscale beta mid))).
  Proof.
    intros HA HP Hr. unfold ell_scale_add_identity.
    destruct (scale_inplace_spec alpha A HA) as (A1 & E1 & W1 & [D1 D2] & M1 & C1).
    rewrite E1. cbn [bind].
    destruct (add_identity_spec keep beta A1 sched) as (B & E & W & [D3 D4] & M); auto.
    - rewrite <- D1; auto.
    - rewrite <- D1, <- D2. intros i Hi. rewrite C1 by auto.
      rewrite <- (erow_length A1), <- (map_length fst (erow A1 i)). fold (cols (erow A1 i)). rewrite C1 by auto.
      unfold cols at 2. rewrite map_length, erow_length. auto.
    - exists B. split; [auto|]. split; [auto|]. split; [split; congruence|].
      intros i j Hi Hj. rewrite (M i j) by congruence. unfold mcut, madd. rewrite (M1 i j) by auto. auto.
  Qed.
End EllpackMul2.
