(** The ellpack operations when the loops run over some of the rows only. *)
From Verif Require Import Base BaseFacts Spec SpecFacts EllpackModel EllpackSpec EllpackFacts EllpackOps EllpackArith
  EllpackMul EllpackMore EllpackNorm.
From Coq Require Import Ring.

Section RowLocal.
  Context {F : scalar}.
  Local Open Scope K_scope.
  Add Ring KringRL : (k_ring F).
  Local Notation ell := (ell F).

  (** the loop ran over [rws]: those rows have the entries [target], the other rows are unchanged *)
  Definition rows_done (A A' : ell) (rws : list nat) (target : nat -> list (nat * F)) : Prop :=
    same_dims A A' /\ wf A' /\ (forall i, In i rws -> erow A' i = target i) /\
    (forall i, (i < eN A)%nat -> ~ In i rws -> erow A' i = erow A i).

  Lemma rows_done_intro (A A' : ell) rws target : wf A -> same_dims A A' -> shape A' ->
    (forall i, In i rws -> (i < eN A)%nat -> row_ok (eN A) (eM A) (target i)) ->
    (forall i, In i rws -> erow A' i = target i) ->
    (forall i, (i < eN A)%nat -> ~ In i rws -> erow A' i = erow A i) -> rows_done A A' rws target.
  Proof.
    intros [HsA HrA] D Hs Hok H1 H2. split; [auto|]. split; [|auto]. split; [auto|].
    destruct D as [D1 D2]. rewrite <- D1, <- D2. intros i Hi.
    destruct (in_dec Nat.eq_dec i rws) as [Hin|Hn].
    - rewrite H1 by auto. auto.
    - rewrite H2 by auto. auto.
  Qed.

  (** loop over some rows, without and with reductions *)
  Lemma par_part {e W} (A0 : ell) sched rws (body : nat -> ell * W -> res (ell * W)) w0 target (Winv : W -> Prop) :
    shape A0 -> (forall i, (i < eN A0)%nat -> (nnz A0 i <= eM A0)%nat) ->
    Permutation (map snd sched) rws -> NoDup rws -> (forall i, In i rws -> (i < eN A0)%nat) ->
    (forall t, Winv (w0 t)) ->
    (forall i, In i rws -> (length (target i) <= eM A0)%nat) ->
    (forall i A w, In i rws -> same_dims A0 A -> shape A -> erow A i = erow A0 i -> Winv w ->
       wpq e (body i (A, w)) (fun r => upd_row A (fst r) i (target i) /\ Winv (snd r))) ->
    wpq e (par_for sched body A0 w0)
       (fun r => same_dims A0 (fst r) /\ shape (fst r) /\
          (forall i, In i rws -> erow (fst r) i = target i) /\
          (forall i, (i < eN A0)%nat -> ~ In i rws -> erow (fst r) i = erow A0 i)).
  Proof.
    intros Hs Hn HP Hnd Hlt Hw Hc Hb.
    assert (Hin : forall i, In i (map snd sched) <-> In i rws).
    { intros i. split; apply Permutation_in; auto. apply Permutation_sym; auto. }
    eapply wp_mono.
    - apply (par_rows A0 sched body w0 target Winv); auto.
      + apply (Permutation_NoDup (Permutation_sym HP)); auto.
      + intros i Hi. apply Hlt, Hin; auto.
      + intros i Hi. apply Hc, Hin; auto.
      + intros i A w Hi. apply Hb, Hin; auto.
    - intros r (D & S & Hr & Ho & HW). split; [auto|]. split; [auto|]. split.
      + intros i Hi. apply Hr, Hin; auto.
      + intros i Hi Hni. apply Ho; auto. rewrite Hin; auto.
  Qed.

  Lemma par_part_red {e W Q} (A0 : ell) sched rws (body : nat -> ell * W -> res (ell * W)) w0 target
        (Winv : W -> Prop) (reds : Q -> W -> F) (c : Q -> nat -> F) nth :
    shape A0 -> (forall i, (i < eN A0)%nat -> (nnz A0 i <= eM A0)%nat) ->
    Permutation (map snd sched) rws -> NoDup rws -> (forall i, In i rws -> (i < eN A0)%nat) ->
    (forall t i, In (t, i) sched -> (t < nth)%nat) ->
    (forall t, Winv (w0 t)) ->
    (forall i, In i rws -> (length (target i) <= eM A0)%nat) ->
    (forall i A w, In i rws -> same_dims A0 A -> shape A -> erow A i = erow A0 i -> Winv w ->
       wpq e (body i (A, w)) (fun r => upd_row A (fst r) i (target i) /\ Winv (snd r) /\
          forall q, reds q (snd r) = reds q w + c q i)) ->
    wpq e (par_for sched body A0 w0)
       (fun r => same_dims A0 (fst r) /\ shape (fst r) /\
          (forall i, In i rws -> erow (fst r) i = target i) /\
          (forall i, (i < eN A0)%nat -> ~ In i rws -> erow (fst r) i = erow A0 i) /\
          forall q, bigsum nth (fun t => reds q (snd r t)) =
                    bigsum nth (fun t => reds q (w0 t)) + lsum (map (c q) rws)).
  Proof.
    intros Hs Hnz HP Hnd' Hlt Hth Hw Hcap Hbody.
    assert (Hin' : forall i, In i (map snd sched) <-> In i rws).
    { intros i. split; apply Permutation_in; auto. apply Permutation_sym; auto. }
    assert (Hnd := Permutation_NoDup (Permutation_sym HP) Hnd').
    eapply wp_mono.
    - apply (par_for_inv (fun done A w =>
        same_dims A0 A /\ shape A /\
        (forall i, (i < eN A0)%nat -> ~ In i done -> erow A i = erow A0 i) /\
        (forall i, In i done -> erow A i = target i) /\
        (forall t, Winv (w t)) /\
        (forall q, bigsum nth (fun t => reds q (w t)) =
                    bigsum nth (fun t => reds q (w0 t)) + lsum (map (c q) done)))).
      + split; [split; auto|]. split; auto. repeat split; auto; simpl; try tauto. intros; ring.
      + intros pre t i post A w E (D & HsA & Hun & Hdo & HwA & Hred).
        assert (Hin : In i (map snd sched)).
        { rewrite E, map_app. apply in_app_iff. right; left; auto. }
        apply Hin' in Hin. assert (Hi : (i < eN A0)%nat) by auto.
        assert (Htn : (t < nth)%nat) by (apply (Hth t i); rewrite E; apply in_app_iff; right; left; auto).
        assert (Hnot : ~ In i (map snd pre)).
        { rewrite E, map_app in Hnd. apply NoDup_app_inv in Hnd as (_ & _ & Hx).
          intros Hc. apply (Hx i Hc). left; auto. }
        eapply wp_mono; [apply (Hbody i A (w t)); auto|].
        intros [A' w'] (HU & HW & HR). simpl in *.
        pose proof HU as ((D1 & D2) & HsA' & HE & Hn & Ho).
        assert (D' : same_dims A0 A') by (destruct D; split; congruence).
        assert (HM : eM A = eM A0) by (destruct D; auto).
        split; [auto|]. split; [auto|]. split; [|split; [|split]].
        * intros i' Hi' Hni. rewrite in_app_iff in Hni. simpl in Hni.
          assert (i' <> i) by (intros ->; apply Hni; auto).
          assert (~ In i' (map snd pre)) by tauto.
          rewrite (upd_row_other _ _ _ _ _ HU); auto.
          rewrite HM, <- erow_length, Hun, erow_length by auto. auto.
        * intros i' Hi'. apply in_app_iff in Hi'. simpl in Hi'.
          destruct (Nat.eq_dec i' i) as [->|Hne]; auto.
          destruct Hi' as [Hi'|[Hi'|[]]]; [|congruence].
          rewrite (upd_row_other _ _ _ _ _ HU); auto.
          rewrite HM, <- erow_length, Hdo by auto. apply Hcap.
          apply Hin'. rewrite E, map_app. apply in_app_iff; auto.
        * intros t'. unfold upd_fun. destruct (t' =? t); auto.
        * intros q. rewrite map_app, lsum_app. simpl.
          rewrite (bigsum_ext nth (fun t0 => reds q (upd_fun w t w' t0)) (upd_fun (fun t => reds q (w t)) t (reds q w'))).
          2:{ intros p Hp. unfold upd_fun. destruct (p =? t); auto. }
          rewrite HR. rewrite (reduce_step nth (fun t => reds q (w t)) t (c q i)) by auto. rewrite Hred. ring.
    - simpl. intros r (D & HsA & Hun & Hdo & HwA & Hred).
      split; [auto|]. split; [auto|]. split; [|split].
      + intros i Hi. apply Hdo. apply Hin'; auto.
      + intros i Hi Hni. apply Hun; auto. rewrite Hin'; auto.
      + intros q. rewrite Hred. rewrite (lsum_perm _ _ (Permutation_map (c q) HP)). auto.
  Qed.

  Definition sched_on (rws : list nat) (N : nat) (sched : list (nat * nat)) : Prop :=
    Permutation (map snd sched) rws /\ NoDup rws /\ forall i, In i rws -> (i < N)%nat.

  Definition fits_on (rws : list nat) (N M : nat) (keep : F -> bool) (X : mat F) : Prop :=
    forall i, In i rws -> (count N (fun j => keep (X i j)) <= M)%nat.

  Lemma ell_add_on keep alpha beta (A B : ell) sched rws :
    wf A -> wf B -> eN A = eN B -> sched_on rws (eN A) sched ->
    fits_on rws (eN A) (eM A) keep (madd (mscale alpha (emat A)) (mscale beta (emat B))) ->
    exists A', ell_add keep alpha beta A B sched = Ok A' /\
      rows_done A A' rws (fun i => addrow keep alpha beta (erow A i) (erow B i)).
  Proof.
    intros HA HB HN (HP & Hnd & Hlt) Hf. pose proof HA as [HsA HrA]. pose proof HB as [HsB HrB].
    assert (Hok : forall i, In i rws -> row_ok (eN A) (eM A) (addrow keep alpha beta (erow A i) (erow B i))).
    { intros i Hin. assert (Hi := Hlt i Hin). destruct (HrA i Hi) as (A1 & A2 & A3).
      destruct (HrB i) as (B1 & B2 & B3); [congruence|]. apply addrow_fits; auto.
      - rewrite HN; auto.
      - apply (Hf i Hin). }
    apply wp_ok. unfold ell_add. apply wp_bind.
    eapply wp_mono.
    - apply (par_part A sched rws _ _ (fun i => addrow keep alpha beta (erow A i) (erow B i)) (clean (eN A))); auto.
      + intros. apply wf_nnz; auto.
      + intros. apply clean_new.
      + intros i Hi. apply Hok; auto.
      + intros i A1 w Hin [D1 D2] Hs1 HE Hc. assert (Hi := Hlt i Hin).
        destruct (HrA i Hi) as (R1 & R2 & R3).
        destruct (HrB i) as (B1 & B2 & B3); [congruence|].
        assert (Hn1 : (nnz A1 i <= eM A)%nat) by (rewrite <- erow_length, HE; auto).
        assert (HiB : (i < eN B)%nat) by congruence.
        assert (HnB := wf_nnz B i HB HiB).
        assert (Hk := proj1 (Hok i Hin)). rewrite <- HN in B3.
        eapply wp_mono; [apply add_row_ok; rewrite ?HE, <- ?D1, <- ?D2; auto|].
        * rewrite HE, <- D1. auto.
    - intros [A' w] (D & Hs & Hr & Ho). simpl in *. apply rows_done_intro; auto.
  Qed.

  Lemma ell_add_norm_on keep alpha beta (A B : ell) nth sched rws :
    wf A -> wf B -> eN A = eN B -> sched_on rws (eN A) sched -> (forall t i, In (t, i) sched -> (t < nth)%nat) ->
    fits_on rws (eN A) (eM A) keep (madd (mscale alpha (emat A)) (mscale beta (emat B))) ->
    exists A', ell_add_norm keep alpha beta A B nth sched =
        Ok (A', lsum (map (fun i => bigsum (eN A) (fun j =>
                 (emat A i j - emat B i j) * (emat A i j - emat B i j))) rws)) /\
      rows_done A A' rws (fun i => normrow keep alpha beta (erow A i) (erow B i)).
  Proof.
    intros HA HB HN (HP & Hnd & Hlt) Hth Hf. pose proof HA as [HsA HrA]. pose proof HB as [HsB HrB].
    assert (Hok : forall i, In i rws -> row_ok (eN A) (eM A) (normrow keep alpha beta (erow A i) (erow B i))).
    { intros i Hin. assert (Hi := Hlt i Hin). destruct (HrA i Hi) as (A1 & A2 & A3).
      destruct (HrB i) as (B1 & B2 & B3); [congruence|]. apply normrow_fits; auto.
      - rewrite HN; auto.
      - apply (Hf i Hin). }
    cut (wp (ell_add_norm keep alpha beta A B nth sched) (fun r =>
       rows_done A (fst r) rws (fun i => normrow keep alpha beta (erow A i) (erow B i)) /\
      snd r = lsum (map (fun i => bigsum (eN A) (fun j => (emat A i j - emat B i j) * (emat A i j - emat B i j))) rws))).
    { intros H. apply wp_ok in H as ([A' x] & E & H1 & H4). simpl in *. subst x. eauto 10. }
    unfold ell_add_norm. apply wp_bind.
    eapply wp_mono.
    - apply (par_part_red (Q := unit) A sched rws _ _ (fun i => normrow keep alpha beta (erow A i) (erow B i)) (fun w => clean (eN A) (fst w))
        (fun _ w => snd w)
        (fun _ i => bigsum (eN A) (fun j => (emat A i j - emat B i j) * (emat A i j - emat B i j))) nth); auto.
      + intros. apply wf_nnz; auto.
      + intros. apply clean_new.
      + intros i Hi. apply Hok; auto.
      + intros i A1 [w tr] Hin [D1 D2] Hs1 HE Hc. simpl in Hc. assert (Hi := Hlt i Hin).
        destruct (HrA i Hi) as (R1 & R2 & R3).
        destruct (HrB i) as (B1 & B2 & B3); [congruence|].
        assert (Hn1 : (nnz A1 i <= eM A)%nat) by (rewrite <- erow_length, HE; auto).
        assert (HiB : (i < eN B)%nat) by congruence.
        assert (HnB := wf_nnz B i HB HiB).
        assert (Hk := proj1 (Hok i Hin)). rewrite <- HN in B3.
        eapply wp_mono; [apply add_norm_row_ok; rewrite ?HE, <- ?D1, <- ?D2; auto|].
        * rewrite HE, <- D1. simpl. intros r (H1 & H2 & H3). split; [auto|]. split; [auto|].
          intros _. rewrite H3. f_equal. apply bigsum_ext. intros k Hkk. rewrite !esum_elook by auto. auto.
    - intros [A' w] (D & Hs & Hr & Ho & Hsum). simpl in *. split; [apply rows_done_intro; auto|].
      unfold reduce_sum. rewrite (Hsum tt). rewrite bigsum_zero by auto. ring.
  Qed.

  Lemma ell_multiply_AB_on keep (A B C : ell) sched rws :
    wf A -> wf B -> eN A = eN B -> wf C -> eN C = eN A -> sched_on rws (eN A) sched ->
    (forall i, In i rws -> prod_cols A B i <= eM C)%nat ->
    exists C', ell_multiply_AB keep A B C sched = Ok C' /\ rows_done C C' rws (fun i => mulrow keep A B i).
  Proof.
    intros HA HB HN HC HNC (HP & Hnd & Hlt) Hok. pose proof HC as [HsC HrC].
    apply wp_ok. unfold ell_multiply_AB. apply wp_bind.
    eapply wp_mono.
    - apply (par_part C sched rws _ _ (fun i => mulrow keep A B i) (clean (eN A))); auto.
      * intros; apply wf_nnz; auto.
      * rewrite HNC; auto.
      * intros. rewrite HNC. apply clean_new.
      * intros i Hi. eapply Nat.le_trans; [apply mulrow_len|]; auto.
      * intros i C1 w Hi [D1 D2] Hs1 _ Hc.
        eapply wp_weaken; [|eapply wp_mono; [apply mul_row_ok; auto; congruence|]].
        -- rewrite <- D2. specialize (Hok i Hi). lia.
        -- simpl. tauto.
    - intros [C' w] (D & Hs & Hr & Ho). simpl in *. apply rows_done_intro; auto.
      intros i Hi Hi'. rewrite HNC in *. apply mulrow_ok; auto.
      eapply Nat.le_trans; [apply mulrow_len|]; auto.
  Qed.

  Lemma ell_multiply_x2_on keep (X X2 : ell) nth sched rws :
    wf X -> wf X2 -> eN X2 = eN X -> sched_on rws (eN X) sched -> (forall t i, In (t, i) sched -> (t < nth)%nat) ->
    (forall i, In i rws -> length (mulrow keep X X i) <= eM X2)%nat ->
    exists C, ell_multiply_x2 keep X X2 nth sched =
        Ok (C, lsum (map (fun i => emat X i i) rws), lsum (map (fun i => mmul (eN X) (emat X) (emat X) i i) rws)) /\
      rows_done X2 C rws (fun i => mulrow keep X X i).
  Proof.
    intros HX HX2 HN (HP & Hnd & Hlt) Hth Hcap. pose proof HX2 as [Hs2 Hr2].
    cut (wp (ell_multiply_x2 keep X X2 nth sched) (fun '(C, t1, t2) =>
       rows_done X2 C rws (fun i => mulrow keep X X i) /\
       t1 = lsum (map (fun i => emat X i i) rws) /\ t2 = lsum (map (fun i => mmul (eN X) (emat X) (emat X) i i) rws))).
    { intros H. apply wp_ok in H as ([[C t1] t2] & E & H1 & -> & ->). eauto 10. }
    unfold ell_multiply_x2. apply wp_bind.
    eapply wp_mono.
    - apply (par_part_red (Q := bool) X2 sched rws _ _ (fun i => mulrow keep X X i) (fun w => clean (eN X) (fst (fst w)))
        (fun q w => if q then snd (fst w) else snd w)
        (fun q i => if q then emat X i i else mmul (eN X) (emat X) (emat X) i i) nth); auto.
      + intros; apply wf_nnz; auto.
      + rewrite HN; auto.
      + intros. apply clean_new.
      + intros i C [[w tx] tx2] Hin [D1 D2] Hs _ Hc. simpl in Hc. assert (Hi := Hlt i Hin).
        eapply wp_mono; [apply (x2_row_ok keep X C); auto|].
        * congruence.
        * rewrite <- D2. apply Hcap. auto.
        * simpl. intros r (H1 & H2 & H3 & H4). split; [auto|]. split; [auto|]. intros [|]; auto.
    - intros [C w] (D & Hs & Hr & Ho & Hsum). simpl in *.
      split; [apply rows_done_intro; auto|].
      + intros i Hi Hi'. rewrite HN in *. apply mulrow_ok; auto.
      + unfold reduce_sum. split.
        * pose proof (Hsum true) as H. simpl in H. rewrite H. rewrite bigsum_zero by auto. ring.
        * pose proof (Hsum false) as H. simpl in H. rewrite H. rewrite bigsum_zero by auto. ring.
  Qed.

  Lemma ell_element_multiply_on keep (A B C : ell) sched rws :
    wf A -> wf B -> eN A = eN B -> wf C -> eN C = eN A -> (eM A <= eM C)%nat -> sched_on rws (eN A) sched ->
    exists C', ell_element_multiply keep A B C sched = Ok C' /\
      rows_done C C' rws (fun i => emulrow keep i (erow A i) (erow B i)).
  Proof.
    intros HA HB HN HC HNC HM (HP & Hnd & Hlt). pose proof HC as [HsC HrC]. pose proof HA as [HsA HrA]. pose proof HB as [HsB HrB].
    assert (Hlen : forall i, (i < eN A)%nat -> (length (emulrow keep i (erow A i) (erow B i)) <= eM C)%nat).
    { intros i Hi. destruct (HrA i Hi) as (R1 & R2 & R3).
      eapply Nat.le_trans; [apply kept_length_le|]. eapply Nat.le_trans; [|exact HM].
      eapply Nat.le_trans; [|exact R1]. unfold cols. rewrite <- (map_length fst (erow A i)).
      apply NoDup_incl_length; [apply NoDup_dd|]. intros q Hq. apply (proj1 (in_dd _ _)) in Hq. exact Hq. }
    apply wp_ok. unfold ell_element_multiply. apply wp_bind.
    eapply wp_mono.
    - apply (par_part C sched rws _ _ (fun i => emulrow keep i (erow A i) (erow B i)) (clean (eN A))); auto.
      + intros; apply wf_nnz; auto.
      + rewrite HNC; auto.
      + intros. rewrite HNC. apply clean_new.
      + intros i C1 w Hi [D1 D2] Hs1 _ Hc.
        apply emul_row_ok; auto; try congruence.
        rewrite <- D2. eapply Nat.le_trans; [apply wf_nnz; auto|auto].
    - intros [C' w] (D & Hs & Hr & Ho). simpl in *. apply rows_done_intro; auto.
      intros i Hi Hi'. rewrite HNC in *. apply kept_row_ok.
      + apply (HrA i Hi').
      + apply Hlen; auto.
  Qed.

  Lemma ell_threshold_on keep (A : ell) sched rws : wf A -> sched_on rws (eN A) sched ->
    exists B, ell_threshold keep A sched = Ok B /\ rows_done A B rws (fun i => cutrow keep (erow A i)).
  Proof.
    intros HA (HP & Hnd & Hlt). pose proof HA as [HsA HrA]. apply wp_ok. unfold ell_threshold.
    apply wp_bind. eapply wp_mono.
    - apply (par_part A sched rws _ _ (fun i => cutrow keep (erow A i)) (fun _ => True)); auto.
      + intros; apply wf_nnz; auto.
      + intros i Hi. apply cutrow_ok with (N := eN A). auto.
      + intros i B w Hin [D1 D2] Hs HE _. assert (Hi := Hlt i Hin).
        destruct (HrA i Hi) as (R1 & R2 & R3).
        assert (HnB : (nnz B i <= eM B)%nat) by (rewrite <- erow_length, HE; congruence).
        rewrite e_nnz_ok by (auto; lia). cbn [bind]. apply wp_bind.
        eapply wp_mono; [apply thr_row_ok; auto; lia|].
        intros [B' rl] [HM Hl]. simpl in *. rewrite HE in HM, Hl.
        destruct (rowpre_finish _ _ _ _ HM) as [E1 E2]; [lia|]. rewrite Hl, E1. simpl. auto.
    - intros [B w] (D & Hs & Hr & Ho). simpl in *. apply rows_done_intro; auto.
      intros i Hi Hi'. apply cutrow_ok; auto.
  Qed.

  (** rows outside [rws] of the new matrix are empty *)
  Lemma ell_threshold_new_on keep (A : ell) sched rws : wf A -> (0 < eM A)%nat -> sched_on rws (eN A) sched ->
    exists B, ell_threshold_new keep A sched = Ok B /\ same_dims A B /\ wf B /\
      (forall i, In i rws -> erow B i = cutrow keep (erow A i)) /\
      (forall i, (i < eN A)%nat -> ~ In i rws -> erow B i = []).
  Proof.
    intros HA HM (HP & Hnd & Hlt). pose proof HA as [HsA HrA]. apply wp_ok. unfold ell_threshold_new.
    destruct (ell_zero_ok (F:=F) (eN A) (eM A) HM) as (B0 & E0 & HN0 & HM0 & Hs0 & Hr0). rewrite E0. cbn [bind].
    apply wp_bind. eapply wp_mono.
    - apply (par_part B0 sched rws _ _ (fun i => cutrow keep (erow A i)) (fun _ => True)); auto.
      + intros i _. rewrite <- erow_length, Hr0. simpl. lia.
      + rewrite HN0; auto.
      + intros i Hi. rewrite HM0. apply cutrow_ok with (N := eN A). apply HrA. auto.
      + intros i B w Hin [D1 D2] Hs HE _. assert (Hi := Hlt i Hin).
        destruct (HrA i Hi) as (R1 & R2 & R3).
        rewrite e_for_row_eq by (auto; try apply wf_nnz; auto; lia). apply wp_bind.
        eapply wp_mono; [apply (push_loop (fun _ x => keep x)); auto; try lia|].
        * rewrite <- erow_length, HE, Hr0. simpl. fold (cutrow keep (erow A i)).
          pose proof (proj1 (cutrow_ok keep _ _ _ (HrA i Hi))). lia.
        * intros B' HU. simpl. rewrite HE, Hr0 in HU. auto.
    - intros [B w] ((D1 & D2) & Hs & Hr & Ho). simpl in *. rewrite HN0 in Ho.
      assert (Ho' : forall i, (i < eN A)%nat -> ~ In i rws -> erow B i = []).
      { intros i Hi Hn. rewrite Ho by auto. apply Hr0. }
      split; [split; congruence|]. split; [|auto]. split; [auto|].
      rewrite <- D1, <- D2, HN0, HM0. intros i Hi. destruct (in_dec Nat.eq_dec i rws).
      + rewrite Hr by auto. apply cutrow_ok; auto.
      + rewrite Ho' by auto. split; [simpl; lia|]. split; [constructor|]. intros k [].
  Qed.

  (** BLAS scal from an offset *)
  Lemma blas_scal_at n start (a : F) v : n = 0%nat \/ (start + n <= length v)%nat ->
    exists v', blas_scal n start a v = Ok v' /\ length v' = length v /\
       forall p, nth p v' 0 = if (start <=? p) && (p <? start + n) then a * nth p v 0 else nth p v 0.
  Proof.
    intros Hn. apply wp_ok. unfold blas_scal.
    apply (for_n_inv (fun q v' => length v' = length v /\
       forall p, nth p v' 0 = if (start <=? p) && (p <? start + q) then a * nth p v 0 else nth p v 0)).
    - split; auto. intros p. destruct (Nat.leb_spec start p), (Nat.ltb_spec p (start + 0)); simpl; auto; lia.
    - intros q v' Hq [HL Hv]. simpl. rewrite (rd_ok _ _ 0) by lia. cbn [bind]. rewrite wr_ok by lia. simpl.
      rewrite length_set_nth. split; auto. intros p.
      destruct (Nat.eq_dec p (start + q)) as [->|Hne].
      + rewrite nth_set_nth_eq by lia. rewrite Hv, Nat.ltb_irrefl.
        assert (X : (start + q <? start + S q) = true) by (apply Nat.ltb_lt; lia). rewrite X.
        assert (Y : (start <=? start + q) = true) by (apply Nat.leb_le; lia). rewrite Y. auto.
      + rewrite nth_set_nth_neq by auto. rewrite Hv.
        destruct (Nat.leb_spec start p), (Nat.ltb_spec p (start + q)), (Nat.ltb_spec p (start + S q)); simpl; auto; lia.
  Qed.
End RowLocal.
