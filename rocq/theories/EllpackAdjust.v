(** bml_multiply_adjust_AB on ellpack matrices: one pass, and the loop. *)
From Verif Require Import Base BaseFacts Spec SpecFacts EllpackModel EllpackSpec EllpackFacts EllpackOps EllpackArith EllpackMul EllpackMul2.

Section EllpackAdjust.
  Context {F : scalar}.
  Local Open Scope K_scope.
  Local Notation ell := (ell F).

  Lemma adjust_row_ok (keep : F -> bool) (A B C : ell) i w fl : wf A -> wf B -> eN A = eN B -> eN C = eN A -> (i < eN A)%nat ->
    shape C -> clean (eN A) w -> (length (mulrow keep A B i) <= eM C)%nat ->
    wp (adjust_row keep A B i (C, (w, fl)))
       (fun r => upd_row C (fst r) i (mulrow keep A B i) /\ clean (eN A) (fst (snd r)) /\
          snd (snd r) = (if eM C <? prod_cols A B i then true else fl)).
  Proof.
    intros HA HB HN HNC Hi HsC Hc Hcap. unfold adjust_row.
    apply wp_bind. eapply wp_mono; [apply (acc_prod A B (eN A)); auto|].
    intros [w1 l] HA1.
    assert (Hl : l = prod_cols A B i) by (rewrite <- prod_cols_dd by auto; apply HA1).
    apply wp_bind.
    eapply wp_mono; [apply (ws_gather_ok 0 kadd (eN A) (fun x : F => x) (kc_offdiag keep i) (fun _ _ t => t)
        (cols (prodE A B i)) (esum (prodE A B i))); auto|].
    - lia.
    - intros [[[C' w'] t'] ll] (HM & Hc' & _ & Hll). fold (mulrow keep A B i) in HM, Hll.
      destruct (rowpre_finish _ _ _ _ HM) as [E1 E2]; [lia|]. subst ll. rewrite E1. simpl.
      subst l. auto.
  Qed.

  Definition over (A B C : ell) (i : nat) : bool := eM C <? prod_cols A B i.

  (** one pass of the while loop *)
  Lemma adjust_pass (keep : F -> bool) (A B C : ell) nth sched :
    wf A -> wf B -> eN A = eN B -> wf C -> eN C = eN A -> full_sched (eN A) nth sched ->
    (forall i, i < eN A -> length (mulrow keep A B i) <= eM C)%nat ->
    wp (par_for sched (adjust_row keep A B) C (fun _ => (ws_new 0 (eN C), false)))
      (fun r => same_dims C (fst r) /\ wf (fst r) /\ (forall i, (i < eN A)%nat -> erow (fst r) i = mulrow keep A B i) /\
         existsb (fun t => snd (snd r t)) (seq 0 nth) = existsb (over A B C) (seq 0 (eN A))).
  Proof.
    intros HA HB HN HC HNC [HP Hth] Hcap. pose proof HC as [HsC HrC].
    assert (P1 : wp (par_for sched (adjust_row keep A B) C (fun _ => (ws_new 0 (eN C), false)))
      (fun r => same_dims C (fst r) /\ shape (fst r) /\
          (forall i, In i (map snd sched) -> erow (fst r) i = mulrow keep A B i) /\
          (forall i, (i < eN C)%nat -> ~ In i (map snd sched) -> erow (fst r) i = erow C i) /\
          (forall t, clean (eN A) (fst (snd r t))))).
    { apply (par_rows C sched _ _ (fun i => mulrow keep A B i) (fun w => clean (eN A) (fst w))); auto.
      - intros; apply wf_nnz; auto.
      - eapply perm_nodup; eauto.
      - intros i Hi. rewrite HNC. apply (perm_in _ _ _ HP); auto.
      - intros. simpl. rewrite HNC. apply clean_new.
      - intros i Hi. apply Hcap. apply (perm_in _ _ _ HP); auto.
      - intros i C1 [w fl] Hi [D1 D2] Hs1 _ Hc. assert (Hi' : (i < eN A)%nat) by (apply (perm_in _ _ _ HP); auto).
        eapply wp_mono; [apply adjust_row_ok; auto; try congruence; rewrite <- D2; auto|]. simpl. tauto. }
    assert (P2 : wp (par_for sched (adjust_row keep A B) C (fun _ => (ws_new 0 (eN C), false)))
      (fun r => same_dims C (fst r) /\ shape (fst r) /\ (forall t, clean (eN A) (fst (snd r t))) /\
         forall t, snd (snd r t) = existsb (fun ti => (fst ti =? t) && over A B C (snd ti)) sched)).
    { assert (G : forall post C1 w b, (forall t i, In (t, i) post -> (i < eN A)%nat) -> same_dims C C1 -> shape C1 ->
        (forall t, clean (eN A) (fst (w t))) -> (forall t, snd (w t) = b t) ->
        wp (par_for post (adjust_row keep A B) C1 w)
          (fun r => same_dims C (fst r) /\ shape (fst r) /\ (forall t, clean (eN A) (fst (snd r t))) /\
             forall t, snd (snd r t) = b t || existsb (fun ti => (fst ti =? t) && over A B C (snd ti)) post)).
      { induction post as [|[t i] post IH]; intros C1 w b Hin [D1 D2] Hs1 Hc Hb; simpl.
        - split; [split; auto|]. split; auto. split; auto. intros t. rewrite orb_false_r. auto.
        - apply wp_bind. destruct (w t) as [wt fl] eqn:Ewt.
          assert (Hi : (i < eN A)%nat) by (apply (Hin t); left; auto).
          eapply wp_mono; [apply adjust_row_ok; auto; try congruence|].
          + specialize (Hc t). rewrite Ewt in Hc. auto.
          + rewrite <- D2. auto.
          + intros [C2 [w2 fl2]] (HU & Hc2 & Hf2). simpl in *.
            eapply wp_mono; [apply (IH C2 _ (fun t' => if t' =? t then fl2 else b t'))|].
            * intros t' i' H. apply (Hin t'); auto.
            * destruct HU as ((D3 & D4) & _). split; congruence.
            * apply HU.
            * intros t'. unfold upd_fun. destruct (t' =? t); auto.
            * intros t'. unfold upd_fun. destruct (t' =? t); auto.
            * intros r (H1 & H2 & H3 & H4). repeat (split; [assumption|]). intros t'. rewrite H4. cbn [fst snd].
              rewrite (Nat.eqb_sym t t'). destruct (Nat.eqb_spec t' t) as [->|Hne]; simpl; auto.
              rewrite <- Hb, Ewt. simpl. unfold over. rewrite Hf2, <- D2. destruct (eM C <? prod_cols A B i); simpl; auto.
              rewrite orb_true_r. auto. }
      eapply wp_mono; [apply (G sched C _ (fun _ => false))|]; auto.
      - intros t i H. apply (perm_in _ _ _ HP). apply (in_map snd) in H. auto.
      - split; auto.
      - intros. simpl. rewrite HNC. apply clean_new. }
    eapply wp_mono; [apply wp_conj; [exact P1|exact P2]|].
    intros [C' w] ((D & Hs & Hr & _ & _) & (_ & _ & _ & Hf)). simpl in *.
    assert (Hr' : forall i, (i < eN A)%nat -> erow C' i = mulrow keep A B i).
    { intros i Hi. apply Hr. apply (perm_in _ _ _ HP). auto. }
    split; auto. split; [|split; [exact Hr'|]].
    - apply (wf_rows C C' (fun i => mulrow keep A B i) D Hs).
      + rewrite HNC. auto.
      + intros i Hi. rewrite HNC in *. apply mulrow_ok; auto.
    - apply Bool.eq_true_iff_eq. rewrite !existsb_exists. split.
      + intros (t & _ & H). rewrite Hf in H. apply existsb_exists in H as ([t' i] & Hin & H).
        apply andb_true_iff in H as [_ H]. exists i. split; auto. apply in_seq. simpl.
        split; [lia|]. apply (perm_in _ _ _ HP). apply (in_map snd) in Hin. auto.
      + intros (i & Hi & H). apply in_seq in Hi. destruct Hi as [_ Hi]. simpl in Hi.
        apply (perm_in _ _ _ HP) in Hi. apply in_map_iff in Hi as ([t i'] & E & Hin). simpl in E. subst i'.
        exists t. split; [apply in_seq; simpl; split; [lia|]; apply (Hth t i Hin)|]. rewrite Hf.
        apply existsb_exists. exists (t, i). split; auto. simpl. rewrite Nat.eqb_refl. auto.
  Qed.

  Lemma mulrow_len_fits (keep : F -> bool) (A B : ell) i M : wf A -> wf B -> eN A = eN B -> (i < eN A)%nat ->
    (count (eN A) (fun k => (k =? i) || keep (mmul (eN A) (emat A) (emat B) i k)) <= M)%nat ->
    (length (mulrow keep A B i) <= M)%nat.
  Proof.
    intros HA HB HN Hi Hc. eapply Nat.le_trans; [|exact Hc]. unfold count.
    destruct (kept_cols (fun x : F => x) (kc_offdiag keep i) (cols (prodE A B i)) (esum (prodE A B i))) as [Hd Hin].
    fold (mulrow keep A B i) in Hd, Hin. rewrite <- (map_length fst (mulrow keep A B i)).
    apply NoDup_incl_length; auto. intros k Hk. apply Hin in Hk as [Hk1 Hk2].
    apply filter_In. split; [apply in_seq; split; [lia|]; apply (prodE_lt A B i); auto|].
    unfold kc_offdiag in Hk2. rewrite esum_prodE in Hk2 by auto. destruct (k =? i); simpl; auto.
  Qed.

  Lemma existsb_false_all (p : nat -> bool) n : (forall i, (i < n)%nat -> p i = false) -> existsb p (seq 0 n) = false.
  Proof.
    intros H. apply not_true_is_false. intros E. apply existsb_exists in E as (i & Hi & E). apply in_seq in Hi.
    rewrite H in E by lia. discriminate.
  Qed.

  (** When no symbolic row is longer than M the first pass is the last. *)
  Lemma adjust_terminates fuel n (keeps : nat -> F -> bool) (A B C : ell) nth scheds :
    wf A -> wf B -> eN A = eN B -> wf C -> eN C = eN A -> full_sched (eN A) nth (scheds n) -> (0 < fuel)%nat ->
    (forall i, i < eN A -> prod_cols A B i <= eM C)%nat ->
    exists C', ell_adjust fuel n keeps A B C nth scheds = Ok C' /\ wf C' /\ same_dims C C' /\
      meq (eN A) (emat C') (mcut_offdiag (keeps n) (mmul (eN A) (emat A) (emat B))).
  Proof.
    intros HA HB HN HC HNC HS Hf Hle. destruct fuel as [|fuel]; [lia|]. simpl.
    assert (P := adjust_pass (keeps n) A B C nth (scheds n) HA HB HN HC HNC HS).
    apply wp_ok in P.
    - destruct P as ([C' w] & E & D & Hw & Hr & Hfl). simpl in *. rewrite E. cbn [bind]. rewrite Hfl.
      rewrite existsb_false_all.
      + exists C'. repeat (split; [assumption || reflexivity|]). intros i j Hi Hj. unfold emat at 1. rewrite Hr by auto. apply elook_mulrow; auto.
      + intros i Hi. unfold over. apply Nat.ltb_ge. auto.
    - intros i Hi. eapply Nat.le_trans; [apply mulrow_len|]; auto.
  Qed.

  (** When some symbolic row is longer than M the loop never ends, however
      large the threshold has become. *)
  Lemma adjust_diverges fuel n (keeps : nat -> F -> bool) (A B C : ell) nth scheds i :
    wf A -> wf B -> eN A = eN B -> wf C -> eN C = eN A -> (forall n, full_sched (eN A) nth (scheds n)) ->
    (forall n i, i < eN A -> count (eN A) (fun k => (k =? i) || keeps n (mmul (eN A) (emat A) (emat B) i k)) <= eM C)%nat ->
    (i < eN A)%nat -> (eM C < prod_cols A B i)%nat ->
    ell_adjust fuel n keeps A B C nth scheds = Loop.
  Proof.
    intros HA HB HN. revert n C. induction fuel as [|fuel IH]; intros n C HC HNC HS Hfit Hi Hbad; simpl; auto.
    assert (P := adjust_pass (keeps n) A B C nth (scheds n) HA HB HN HC HNC (HS n)).
    apply wp_ok in P.
    - destruct P as ([C' w] & E & [D1 D2] & Hw & Hr & Hfl). simpl in *. rewrite E. cbn [bind]. rewrite Hfl.
      replace (existsb (over A B C) (seq 0 (eN A))) with true.
      + apply IH; auto; try congruence; rewrite <- D2; auto.
      + symmetry. apply existsb_exists. exists i. split; [apply in_seq; lia|]. apply Nat.ltb_lt. auto.
    - intros q Hq. apply mulrow_len_fits; auto.
  Qed.
End EllpackAdjust.
