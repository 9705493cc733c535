(** The structural invariant over all histories of API calls; schedule
    independence; introspection. *)
From Verif Require Import Base BaseFacts Spec SpecFacts EllpackModel EllpackSpec EllpackHistModel EllpackFacts EllpackOps EllpackArith EllpackMul EllpackMore EllpackMul2 EllpackRest EllpackReorder EllpackTrans.

Section EllpackHist.
  Context {F : scalar}.
  Local Notation ell := (ell F).

  Lemma Forall_set_nth {T} (P : T -> Prop) l i x : Forall P l -> P x -> Forall P (set_nth l i x).
  Proof.
    intros H Hx. revert i. induction H as [|y l Hy H IH]; intros [|i]; simpl; auto.
  Qed.

  Lemma Forall_app1 {T} (P : T -> Prop) l x : Forall P l -> P x -> Forall P (l ++ [x]).
  Proof. intros. apply Forall_app. auto. Qed.

  Lemma getm_bind (st : store F) h (k : ell -> res (store F)) Q : Forall wf st ->
    (forall A, nth_error st h = Some A -> wf A -> wpe (k A) Q) -> wpe (bind (getm st h) k) Q.
  Proof.
    intros Hst H. unfold getm. destruct (nth_error st h) as [A|] eqn:E; simpl; auto.
    apply H; auto. rewrite Forall_forall in Hst. apply Hst. eapply nth_error_In; eauto.
  Qed.

  Lemma exec_ok (c : cmd F) (st : store F) : Forall wf st -> guard c st -> wpe (exec c st) (Forall wf).
  Proof.
    intros Hst Hg. destruct c; simpl in Hg; simpl exec; unfold has in Hg.
    - destruct M as [|M]; [simpl; auto|]. destruct (ell_zero_wf (F:=F) N (S M)) as (A & -> & _ & _ & Hw & _); [lia|].
      simpl. apply Forall_app1; auto.
    - destruct M as [|M]; [simpl; auto|]. destruct (ell_identity_ok (F:=F) N (S M)) as (A & -> & _ & _ & Hw & _); [lia|].
      simpl. apply Forall_app1; auto.
    - destruct M as [|M]; [simpl; auto|]. destruct (ell_banded_ok N (S M) rnd) as (A & -> & _ & _ & Hw & _); [lia|].
      simpl. apply Forall_app1; auto.
    - destruct Hg as (H1 & H2 & H3). destruct M as [|M]; [simpl; auto|].
      destruct (ell_import_ok o N (S M) keep D s ltac:(lia) H1 H2 H3) as (A & -> & _ & _ & Hw & _). simpl. apply Forall_app1; auto.
    - apply getm_bind; auto. intros A E HA. rewrite E in Hg. destruct Hg as (H1 & H2 & H3).
      destruct (set_row_spec keep A i row HA H1 H2 H3) as (B & -> & Hw & _). simpl. apply Forall_set_nth; auto.
    - apply getm_bind; auto. intros A E HA. rewrite E in Hg. destruct Hg as (H1 & H2 & H3 & H4).
      destruct (set_element_spec A i j v HA H1 H2 H3 H4) as (B & -> & Hw & _). simpl. apply Forall_set_nth; auto.
    - apply getm_bind; auto. intros A E HA. rewrite E in Hg. destruct Hg as (H1 & H2).
      destruct (set_diagonal_spec keep A diag HA H1 H2) as (B & -> & Hw & _). simpl. apply Forall_set_nth; auto.
    - apply getm_bind; auto. intros A E HA.
      destruct (scale_inplace_spec a A HA) as (B & -> & Hw & _). simpl. apply Forall_set_nth; auto.
    - apply getm_bind; auto. intros A E HA. rewrite ell_copy_new_ok by apply HA. simpl. apply Forall_app1; auto.
    - apply getm_bind; auto. intros A E HA. apply getm_bind; auto. intros B E2 HB. rewrite E, E2 in Hg. destruct Hg as [H1 H2].
      rewrite ell_copy_ok by (try apply HA; try apply HB; auto). simpl. apply Forall_set_nth; auto.
    - apply getm_bind; auto. intros A E HA. apply getm_bind; auto. intros B E2 HB. rewrite E, E2 in Hg. destruct Hg as (H1 & H2 & H3).
      destruct (Nat.eqb_spec h h2) as [->|Hne].
      + assert (A = B) as <- by congruence. destruct (add_self_spec keep alpha beta A s HA H2 H3) as (C & -> & Hw & _). simpl. apply Forall_set_nth; auto.
      + destruct (add_spec keep alpha beta A B s HA HB H1 H2 H3) as (C & -> & Hw & _). simpl. apply Forall_set_nth; auto.
    - apply getm_bind; auto. intros A E HA. rewrite E in Hg. destruct Hg as (H1 & H2).
      destruct (add_identity_spec keep beta A s HA H1 H2) as (B & -> & Hw & _). simpl. apply Forall_set_nth; auto.
    - apply getm_bind; auto. intros A E HA. rewrite E in Hg. destruct Hg as (H1 & H2).
      destruct (scale_add_identity_spec keep alpha beta A s HA H1 H2) as (B & -> & Hw & _). simpl. apply Forall_set_nth; auto.
    - apply getm_bind; auto. intros A E HA. rewrite E in Hg.
      destruct (threshold_spec keep A s HA Hg) as (B & -> & Hw & _). simpl. apply Forall_set_nth; auto.
    - apply getm_bind; auto. intros A E HA. rewrite E in Hg. destruct (Nat.eq_dec (eM A) 0) as [E0|E0].
      + unfold ell_threshold_new, ell_zero. rewrite E0. simpl. auto.
      + destruct (threshold_new_spec keep A s HA ltac:(lia) Hg) as (B & -> & Hw & _). simpl. apply Forall_app1; auto.
    - apply getm_bind; auto. intros A E HA. apply getm_bind; auto. intros B E2 HB. apply getm_bind; auto. intros C E3 HC.
      rewrite E, E2, E3 in Hg. destruct Hg as (_ & _ & H1 & H2 & H3).
      destruct (multiply_AB_spec keep A B C s HA HB H1 HC H2 H3) as [[-> _]|(D & -> & _ & Hw & _)]; simpl; auto. apply Forall_set_nth; auto.
    - apply getm_bind; auto. intros A E HA. apply getm_bind; auto. intros B E2 HB. apply getm_bind; auto. intros C E3 HC.
      rewrite E, E2, E3 in Hg. destruct Hg as (H0 & H1 & H2 & H3 & H4 & H5 & H5' & H6).
      destruct (Nat.eqb_spec h h2) as [E12|E12].
      + destruct (Nat.eqb_spec h h3) as [E13|E13]; [tauto|].
        assert (A = B) as <- by congruence.
        destruct (multiply_sq_spec keep alpha beta A C nth s1 s2 gv gi HA HC H2 H3 H4 (fun i Hi => H5' i Hi E12) H6) as (D & -> & Hw & _).
        simpl. apply Forall_set_nth; auto.
      + destruct (multiply_spec keep alpha beta A B C s1 s2 gv gi HA HB HC H1 H2 (proj1 H3) H4 H5 H6) as (D & -> & Hw & _).
        simpl. apply Forall_set_nth; auto.
    - apply getm_bind; auto. intros A E HA. apply getm_bind; auto. intros B E2 HB. rewrite E, E2 in Hg. destruct Hg as (_ & H1 & H2 & H3).
      destruct (multiply_x2_spec keep A B nth s HA HB H1 H2 H3) as (C & -> & Hw & _). simpl. apply Forall_set_nth; auto.
    - apply getm_bind; auto. intros A E HA. apply getm_bind; auto. intros B E2 HB. apply getm_bind; auto. intros C E3 HC.
      rewrite E, E2, E3 in Hg. destruct Hg as (_ & _ & H1 & H2 & H3 & H4).
      destruct (element_multiply_spec keep A B C s HA HB H1 HC H2 H3 H4) as (D & -> & Hw & _); simpl; auto. apply Forall_set_nth; auto.
    - apply getm_bind; auto. intros A E HA. rewrite E in Hg. destruct Hg as (H1 & H2).
      destruct (transpose_new_spec A ev gv gi HA H1 H2) as (B & -> & Hw & _). simpl. apply Forall_app1; auto.
    - apply getm_bind; auto. intros A E HA. rewrite E in Hg.
      destruct (ell_transpose_ok A HA Hg) as (B & -> & Hw & _). simpl. apply Forall_set_nth; auto.
    - apply getm_bind; auto. intros A E HA. rewrite E in Hg. destruct Hg as (H1 & H2 & H3).
      destruct (reorder_spec A perm s1 s2 gv gi HA H1 H2 H3) as (B & -> & Hw & _). simpl. apply Forall_set_nth; auto.
  Qed.

  Lemma run_ok (cs : list (cmd F)) : forall st, Forall wf st -> guarded cs st ->
    run cs st = Err \/ exists st', run cs st = Ok st' /\ Forall wf st'.
  Proof.
    induction cs as [|c cs IH]; intros st Hst Hg; simpl in *; [right; eauto|].
    destruct Hg as [Hc Hg]. assert (H := exec_ok c st Hst Hc).
    destruct (exec c st) as [st'| | |]; simpl in *; try contradiction; auto.
  Qed.

  (** ** schedule independence: the stored rows, in order, do not depend on the schedule *)
  Lemma add_sched keep alpha beta (A B : ell) s1 s2 :
    wf A -> wf B -> eN A = eN B -> Permutation (map snd s1) (seq 0 (eN A)) -> Permutation (map snd s2) (seq 0 (eN A)) ->
    fits (eN A) (eM A) keep (madd (mscale alpha (emat A)) (mscale beta (emat B))) ->
    exists A1 A2, ell_add keep alpha beta A B s1 = Ok A1 /\ ell_add keep alpha beta A B s2 = Ok A2 /\
      same_dims A1 A2 /\ forall i, i < eN A -> erow A1 i = erow A2 i.
  Proof.
    intros HA HB HN P1 P2 Hf.
    destruct (ell_add_ok keep alpha beta A B s1 HA HB HN P1 Hf) as (A1 & E1 & [D1 D2] & _ & R1).
    destruct (ell_add_ok keep alpha beta A B s2 HA HB HN P2 Hf) as (A2 & E2 & [D3 D4] & _ & R2).
    exists A1, A2. repeat (split; [assumption|]). split; [split; congruence|]. intros i Hi. rewrite R1, R2; auto.
  Qed.

  Lemma multiply_AB_sched keep (A B C : ell) s1 s2 :
    wf A -> wf B -> eN A = eN B -> wf C -> eN C = eN A ->
    Permutation (map snd s1) (seq 0 (eN A)) -> Permutation (map snd s2) (seq 0 (eN A)) ->
    (ell_multiply_AB keep A B C s1 = Err /\ ell_multiply_AB keep A B C s2 = Err) \/
    exists C1 C2, ell_multiply_AB keep A B C s1 = Ok C1 /\ ell_multiply_AB keep A B C s2 = Ok C2 /\
      same_dims C1 C2 /\ forall i, i < eN A -> erow C1 i = erow C2 i.
  Proof.
    intros HA HB HN HC HNC P1 P2.
    assert (H1 := ell_multiply_AB_ok keep A B C s1 HA HB HN HC HNC P1).
    assert (H2 := ell_multiply_AB_ok keep A B C s2 HA HB HN HC HNC P2).
    destruct (ell_multiply_AB keep A B C s1) as [C1| | |], (ell_multiply_AB keep A B C s2) as [C2| | |]; simpl in *; try contradiction; auto.
    - right. exists C1, C2. destruct H1 as (_ & [D1 D2] & _ & R1), H2 as (_ & [D3 D4] & _ & R2).
      split; auto. split; auto. split; [split; congruence|]. intros i Hi. rewrite R1, R2; auto.
    - exfalso. destruct H1 as (H & _), H2 as (i & Hi & Hlt). specialize (H i Hi). lia.
    - exfalso. destruct H2 as (H & _), H1 as (i & Hi & Hlt). specialize (H i Hi). lia.
  Qed.

  Lemma element_multiply_sched keep (A B C : ell) s1 s2 :
    wf A -> wf B -> eN A = eN B -> wf C -> eN C = eN A -> eM A <= eM C ->
    Permutation (map snd s1) (seq 0 (eN A)) -> Permutation (map snd s2) (seq 0 (eN A)) ->
    exists C1 C2, ell_element_multiply keep A B C s1 = Ok C1 /\ ell_element_multiply keep A B C s2 = Ok C2 /\
      same_dims C1 C2 /\ forall i, i < eN A -> erow C1 i = erow C2 i.
  Proof.
    intros HA HB HN HC HNC HM P1 P2.
    destruct (ell_element_multiply_ok keep A B C s1 HA HB HN HC HNC HM P1) as (C1 & E1 & [D1 D2] & _ & R1).
    destruct (ell_element_multiply_ok keep A B C s2 HA HB HN HC HNC HM P2) as (C2 & E2 & [D3 D4] & _ & R2).
    exists C1, C2. repeat (split; [assumption|]). split; [split; congruence|]. intros i Hi. rewrite R1, R2; auto.
  Qed.

  Lemma multiply_x2_sched keep (X X2 : ell) n1 n2 s1 s2 :
    wf X -> wf X2 -> eN X2 = eN X -> full_sched (eN X) n1 s1 -> full_sched (eN X) n2 s2 ->
    (forall i, i < eN X -> count (eN X) (fun j => (i =? j) || keep (mmul (eN X) (emat X) (emat X) i j)) <= eM X2) ->
    exists C1 C2 t t2, ell_multiply_x2 keep X X2 n1 s1 = Ok (C1, t, t2) /\ ell_multiply_x2 keep X X2 n2 s2 = Ok (C2, t, t2) /\
      same_dims C1 C2 /\ forall i, i < eN X -> erow C1 i = erow C2 i.
  Proof.
    intros HX HX2 HN P1 P2 Hc.
    assert (Hl : forall i, i < eN X -> length (mulrow keep X X i) <= eM X2).
    { intros i Hi. eapply Nat.le_trans; [|apply (Hc i Hi)]. unfold count.
      destruct (kept_cols (fun x : F => x) (kc_offdiag keep i) (cols (prodE X X i)) (esum (prodE X X i))) as [Hd Hin].
      fold (mulrow keep X X i) in Hd, Hin. rewrite <- (map_length fst (mulrow keep X X i)).
      apply NoDup_incl_length; auto. intros k Hk. apply Hin in Hk as [Hk1 Hk2].
      apply filter_In. split; [apply in_seq; split; [lia|]; apply (prodE_lt X X i); auto|].
      unfold kc_offdiag in Hk2. rewrite esum_prodE in Hk2 by auto. rewrite (Nat.eqb_sym i k). destruct (k =? i); simpl; auto. }
    destruct (ell_multiply_x2_ok keep X X2 n1 s1 HX HX2 HN P1 Hl) as (C1 & E1 & [D1 D2] & _ & R1).
    destruct (ell_multiply_x2_ok keep X X2 n2 s2 HX HX2 HN P2 Hl) as (C2 & E2 & [D3 D4] & _ & R2).
    exists C1, C2. do 2 eexists. split; [exact E1|]. split; [exact E2|]. split; [split; congruence|]. intros i Hi. rewrite R1, R2; auto.
  Qed.

  (** ** introspection *)

  Lemma filter_entries_count (keep : F -> bool) (E : list (nat * F)) N : keep k0 = false -> NoDup (cols E) ->
    (forall k, In k (cols E) -> k < N) ->
    length (filter (fun kv => keep (snd kv)) E) = count N (fun j => keep (elook E j)).
  Proof.
    intros H0 Hd Hr. unfold count. rewrite <- (map_length fst). apply Permutation_length. apply NoDup_Permutation.
    - apply (cols_filter_sub (fun kv => keep (snd kv)) E); auto.
    - apply NoDup_filter, seq_NoDup.
    - intros k. rewrite in_map_iff, filter_In, in_seq. split.
      + intros ([k' v] & E' & H). simpl in E'. subst k'. apply filter_In in H as [H1 H2]. simpl in H2.
        rewrite (elook_in _ _ _ Hd H1). split; auto. split; [lia|]. apply Hr. apply (in_map fst) in H1. auto.
      + intros [_ H]. destruct (in_dec Nat.eq_dec k (cols E)) as [Hin|Hout].
        * apply in_map_iff in Hin as ([k' v] & E' & Hin). simpl in E'. subst k'. exists (k, v). split; auto.
          apply filter_In. split; auto. simpl. rewrite (elook_in _ _ _ Hd Hin) in H. auto.
        * rewrite elook_notin in H by auto. congruence.
  Qed.

  Lemma nnz_above_ok (keep : F -> bool) (A : ell) : wf A -> keep k0 = false ->
    ell_nnz_above keep A = Ok (nsum (eN A) (fun i => count (eN A) (fun j => keep (emat A i j)))).
  Proof.
    intros HA H0. pose proof HA as [Hs Hr]. apply wp_eq. unfold ell_nnz_above.
    apply (for_n_inv (fun i s => s = nsum i (fun i => count (eN A) (fun j => keep (emat A i j))))); auto.
    intros i s Hi ->. rewrite e_for_row_eq by (auto; apply wf_nnz; auto).
    destruct (Hr i Hi) as (R1 & R2 & R3). eapply wp_mono.
    - apply (forM_inv (fun pre s => s = nsum i (fun i => count (eN A) (fun j => keep (emat A i j))) +
        length (filter (fun kv => keep (snd kv)) pre))).
      + simpl. lia.
      + intros pre [k v] post s E ->. simpl. rewrite filter_app, app_length. simpl.
        destruct (keep v); simpl; lia.
    - intros s ->. simpl. f_equal. apply filter_entries_count; auto.
  Qed.

  Lemma row_bandwidth_ok (nz : F -> bool) (A : ell) i : wf A -> i < eN A -> nz k0 = false ->
    exists n, ell_row_bandwidth A i = Ok n /\ count (eN A) (fun j => nz (emat A i j)) <= n <= eM A.
  Proof.
    intros HA Hi H0. pose proof HA as [Hs Hr]. exists (nnz A i). unfold ell_row_bandwidth. rewrite e_nnz_ok by auto.
    split; auto. split; [|apply wf_nnz; auto]. destruct (Hr i Hi) as (R1 & R2 & R3).
    unfold emat. rewrite <- filter_entries_count; auto. rewrite <- erow_length. apply filter_length_le.
  Qed.

  Lemma bandwidth_ok (A : ell) : wf A ->
    exists n, ell_bandwidth A = Ok n /\ (forall i, i < eN A -> nnz A i <= n) /\
      (0 < eN A -> exists i, i < eN A /\ nnz A i = n).
  Proof.
    intros HA. pose proof HA as [Hs Hr]. apply wp_ok. unfold ell_bandwidth.
    eapply wp_mono.
    - apply (for_n_inv (fun i m => (forall q, q < i -> nnz A q <= m) /\ ((forall q, q < i -> nnz A q = 0) /\ m = 0 \/ exists q, q < i /\ nnz A q = m))).
      + split; [lia|]. left. split; [lia|auto].
      + intros i m Hi [H1 H2]. rewrite e_nnz_ok by auto. simpl.
        destruct (Nat.ltb_spec m (nnz A i)) as [Hlt|Hge]; split.
        * intros q Hq. destruct (Nat.eq_dec q i) as [->|]; [lia|]. specialize (H1 q ltac:(lia)). lia.
        * right. exists i. auto.
        * intros q Hq. destruct (Nat.eq_dec q i) as [->|]; [lia|]. apply H1; lia.
        * destruct H2 as [[H2 ->]|(q & Hq & E)]; [left|right; exists q; auto]. split; auto.
          intros q Hq. destruct (Nat.eq_dec q i) as [->|]; [lia|]. apply H2; lia.
    - intros m [H1 H2]. split; auto. intros HN. destruct H2 as [[H2 ->]|H2]; auto. exists 0. auto.
  Qed.
End EllpackHist.
