(** Copies, transpose_new and conversion of the block format. *)
From Verif Require Import Base BaseFacts Spec SpecFacts EllpackModel EllpackSpec EllblockModel EllblockSpec EllblockFacts EllblockHeap EllblockRead EllblockBuild EllblockMake EllblockSet.
From Coq Require Import Permutation.

Section Copy.
  Context {F : scalar}.
  Local Notation eb := (eb F).
  Implicit Types A B : eb.

  Lemma slot_set_ext cap cap' A ib jp c y A' : (forall i, i < bNB A -> cap' i = cap i) -> slot_set cap A ib jp c y A' -> slot_set cap' A ib jp c y A'.
  Proof.
    intros H []. pose proof ss_kin as (_ & _ & EN & _). constructor; auto.
    - apply own_cap_eq with (cap := cap); auto. rewrite EN. auto.
    - intros i' jp' Hi. rewrite H by auto. auto.
  Qed.

  Lemma fill_slot {e} cap B ib jp x n z : eb_shape B -> own cap B -> ib < bNB B -> jp < cap ib -> bobj B ib jp = Some z -> n <= length z -> n <= length x ->
    wpq e (y <- b_blk B (b_at B ib jp) ;; y <- blk_copy n x y ;; b_wblk B (b_at B ib jp) y)
      (fun B' => exists y, slot_set cap B ib jp (scol B ib jp) y B' /\ n <= length y /\ forall k, k < n -> nth k y k0 = nth k x k0).
  Proof.
    intros HS HO Hi Hj Hz Lz Lx. assert (jp < bMB B) by (destruct HO as (HO1 & _); specialize (HO1 ib Hi); lia).
    apply wp_bind. rewrite (b_blk_ok B ib jp z) by auto. cbn [wpq]. apply wp_bind.
    eapply wp_mono; [apply (blk_map_ok n _ (fun k => nth k x k0)); [auto|intros; apply rd_ok; lia]|]. intros y (L1 & Y1 & _).
    eapply wp_mono; [eapply (b_wblk_ok cap); eauto|]. intros B' HB. exists y. split; auto. split; [lia|auto].
  Qed.
  Lemma copy_slot {e} cap B ib jp x n (g : nat -> F) : eb_shape B -> own cap B -> ib < bNB B -> jp < cap ib -> slot_fits B ib jp n -> n <= length x ->
    wpq e (p <- rd (bptr B) (b_at B ib jp) ;;
           B1 <- match p with None => b_alloc B (b_at B ib jp) n g | Some _ => Ok B end ;;
           y <- b_blk B1 (b_at B ib jp) ;; y <- blk_copy n x y ;; b_wblk B1 (b_at B ib jp) y)
      (fun B' => exists y, slot_set cap B ib jp (scol B ib jp) y B' /\ n <= length y /\ forall k, k < n -> nth k y k0 = nth k x k0).
  Proof.
    intros HS HO Hi Hj Hf Lx. assert (Hjm : jp < bMB B) by (destruct HO as (HO1 & _); specialize (HO1 ib Hi); lia).
    apply wp_bind. rewrite rd_ptr_ok by auto. cbn [wpq].
    assert (Hfill : forall z, bobj B ib jp = Some z -> n <= length z -> wpq e (y <- b_blk B (b_at B ib jp) ;; y <- blk_copy n x y ;; b_wblk B (b_at B ib jp) y)
      (fun B' => exists y, slot_set cap B ib jp (scol B ib jp) y B' /\ n <= length y /\ forall k, k < n -> nth k y k0 = nth k x k0)).
    { intros z Hz Lz. eapply fill_slot; eauto. }
    destruct (saddr B ib jp) as [a|] eqn:Ea.
    - cbn [bind]. destruct Hf as [Hf|(z & Hz & Lz)]; [congruence|]. eapply Hfill; eauto.
    - apply wp_bind. eapply wp_mono; [apply (b_alloc_ok cap); auto; lia|]. intros B1 H1.
      assert (H1' : slot_set cap B ib jp (scol B ib jp) (map g (seq 0 n)) B1). { apply slot_set_ext with (cap := capx cap ib jp); auto. intros i _. symmetry. apply capx_id. auto. }
      pose proof (ss_kin _ _ _ _ _ _ _ H1') as K1. pose proof K1 as (_ & _ & EN & EM & EB & _).
      rewrite <- (kin_at B B1 ib jp K1). eapply wp_mono; [apply (fill_slot cap B1 ib jp x n (map g (seq 0 n))); auto|].
      + eapply kin_shape; eauto.
      + apply H1'.
      + lia.
      + apply H1'.
      + rewrite map_length, seq_length. auto.
      + intros B2 (y & H2 & Ly & Hy). exists y. split; auto. rewrite (ss_col _ _ _ _ _ _ _ H1') in H2. eapply slot_set_trans; eauto.
  Qed.

  (** slot [jp] of row [ib] of [B] holds a copy of the one of [A] *)
  Definition same_slot A B ib jp : Prop :=
    exists y, bobj B ib jp = Some y /\ bsz (bbs A) ib * bsz (bbs A) (scol A ib jp) <= length y /\
      forall k, k < bsz (bbs A) ib * bsz (bbs A) (scol A ib jp) -> nth k y k0 = nth k (sblk A ib jp) k0.

  Lemma copied_wf A B : ebwf A -> eb_shape B -> bN B = bN A -> bNB B = bNB A -> bbs B = bbs A -> own (bnz A) B ->
    (forall ib, ib < bNB A -> bnz B ib = bnz A ib) -> (forall ib jp, ib < bNB A -> jp < bnz A ib -> scol B ib jp = scol A ib jp) ->
    (forall ib jp, ib < bNB A -> jp < bnz A ib -> same_slot A B ib jp) ->
    ebwf B /\ meq (bN A) (ebmx B) (ebmx A).
  Proof.
    intros HW HSB EN ENB EB HO En Ec Hs. pose proof HW as (HS & HOA & HR).
    assert (WB : ebwf B).
    { split; auto. split; [apply own_cap_eq with (cap := bnz A); auto; intros i Hi; apply En; lia|].
      intros ib Hi. rewrite ENB in Hi. specialize (HR ib Hi). destruct HR as [R1 R2 R3].
      assert (Ecols : bcols B ib = bcols A ib). { unfold bcols. rewrite En by auto. apply map_ext_in. intros jp Hj. apply in_seq in Hj. apply Ec; auto; lia. }
      constructor.
      - rewrite Ecols. auto.
      - intros jp Hj. rewrite En in Hj by auto. rewrite Ec, ENB by auto. auto.
      - intros jp Hj. rewrite En in Hj by auto. destruct (Hs ib jp Hi Hj) as (y & Hy & Ly & _). exists y. rewrite Ec, EB by auto. auto. }
    split; auto. rewrite <- EN. apply meq_blocks; auto. rewrite ENB, EB. intros ib jb k Hi Hj Hk. rewrite ebmx_xb by auto.
    pose proof WB as (_ & _ & HRB).
    destruct (slot_dec A ib jb) as [(jp & Hjp & <-)|Hno].
    - destruct (Hs ib jp Hi Hjp) as (y & Hy & Ly & Vy). rewrite (bel_hit A ib _ jp k), (bel_hit B ib _ jp k); auto; try (rewrite ?En; auto; fail).
      + rewrite (sblk_some _ _ _ _ Hy). auto.
      + apply HRB. lia.
    - rewrite (bel_miss A) by auto. apply bel_miss. intros jp Hjp. rewrite En in Hjp by auto. rewrite Ec by auto. auto.
  Qed.

  (** ** copy_new *)
  Lemma eb_copy_new_ok c A (g : nat -> F) nth_ sched : ebwf A -> good_cache c -> full_sched (bNB A) nth_ sched ->
    (forall ib, ib < bNB A -> 0 < bsz (bbs A) ib < 10) ->
    exists B, eb_copy_new c A g sched = Ok (cache_after c (bNB A) (bMB A) (bbs A), B) /\ ebwf B /\ clean B /\ same_dims A B /\
      meq (bN A) (ebmx B) (ebmx A).
  Proof.
    intros HW HC [HP _] Hsz. pose proof HW as (HS & HO & HR). unfold eb_copy_new.
    destruct (block_matrix_ok (F:=F) c (bNB A) (bMB A) (bM A) (bbs A)) as (B0 & EB0 & HF); try apply HS; auto.
    { rewrite <- (sh_bs A HS), <- shape_N by auto. apply HS. }
    rewrite EB0. cbn [bind].
    pose proof (fr_NB _ _ _ _ _ HF) as ENB. pose proof (fr_MB _ _ _ _ _ HF) as EMB. pose proof (fr_bs _ _ _ _ _ HF) as EBS.
    assert (EN0 : bN B0 = bN A). { rewrite (fr_N _ _ _ _ _ HF), <- (sh_bs A HS). symmetry. apply shape_N; auto. }
    set (B1 := mkEb (bN B0) (bM B0) (bNB B0) (bMB B0) (bbs B0) (bptr B0) (bidx A) (bnnz A) (bheap B0)).
    pose proof HF as [(HS0 & HO0 & _) HC0 _ _ _ _ _ HR0 _].
    assert (Hnull : forall ib jp, ib < bNB A -> jp < bMB A -> saddr B0 ib jp = None).
    { intros ib jp Hi Hj. apply HC0; [lia|]. split; [|lia]. rewrite <- brow_length, HR0. simpl. lia. }
    assert (HS1 : eb_shape B1). { destruct HS0, HS. constructor; cbn; auto; congruence. }
    assert (Hcap : forall ib, ib < bNB A -> bnz A ib <= bMB A) by (intros; apply ebwf_nnz; auto).
    assert (HO1 : own (fun _ => bMB A) B1).
    { split; [|split].
      - intros ib Hi. cbn. lia.
      - intros ib jp a Hi Hj. cbn in Hi, Hj. change (saddr B1 ib jp) with (saddr B0 ib jp). rewrite Hnull by (auto; lia). discriminate.
      - intros ib jp ib' jp' a Hi Hj Hi' Hj'. cbn in Hi, Hj. change (saddr B1 ib jp) with (saddr B0 ib jp). rewrite Hnull by (auto; lia). discriminate. }
    assert (HNDs : NoDup (map snd sched)). { eapply Permutation_NoDup; [symmetry; exact HP|apply seq_NoDup]. }
    match goal with |- context [par_for sched ?b B1 _] => set (body := b) end.
    assert (G : wpq False (par_for sched body B1 (fun _ => tt)) (fun r => let B := fst r in
        kin B1 B /\ own (fun _ => bMB A) B /\ bnnz B = bnnz A /\
        (forall ib jp, ib < bNB A -> jp < bMB A -> scol B ib jp = scol A ib jp) /\
        (forall ib jp, ib < bNB A -> jp < bMB A -> ~ In ib (map snd sched) \/ bnz A ib <= jp -> saddr B ib jp = None) /\
        (forall ib jp, In ib (map snd sched) -> jp < bnz A ib -> same_slot A B ib jp))).
    { apply (par_for_inv (fun done B (_ : nat -> unit) => kin B1 B /\ own (fun _ => bMB A) B /\ bnnz B = bnnz A /\
        (forall ib jp, ib < bNB A -> jp < bMB A -> scol B ib jp = scol A ib jp) /\
        (forall ib jp, ib < bNB A -> jp < bMB A -> ~ In ib done \/ bnz A ib <= jp -> saddr B ib jp = None) /\
        (forall ib jp, In ib done -> jp < bnz A ib -> same_slot A B ib jp))).
      - split; [apply kin_refl|]. split; auto. split; [reflexivity|]. split.
        + intros ib jp Hi Hj. unfold scol, spos. cbn. rewrite EMB. reflexivity.
        + split; [|intros ib jp []]. intros ib jp Hi Hj _. apply Hnull; auto.
      - intros pre t ib post B w Esc (K & HOB & ENz & Ecol & Enull & Hsame). pose proof K as (_ & _ & EN' & EM' & EB' & KS).
        assert (Hib : ib < bNB A). { assert (In ib (seq 0 (bNB A))); [|rewrite in_seq in *; lia]. eapply Permutation_in; [exact HP|]. rewrite Esc, map_app. apply in_or_app. right. left. auto. }
        assert (Hnin : ~ In ib (map snd pre)). { rewrite Esc, map_app in HNDs. simpl in HNDs. apply NoDup_remove in HNDs as [_ Hn]. intros H. apply Hn. apply in_or_app. auto. }
        assert (HSB : eb_shape B) by auto. cbn in EN', EM', EB'.
        unfold body. destruct (w t). apply wp_bind. rewrite b_bs_ok by (auto; lia). cbn [wpq]. rewrite EB', EBS. specialize (Hsz ib Hib) as Hz.
        destruct (Nat.eqb_spec (bsz (bbs A) ib) 0); [lia|]. destruct (Nat.leb_spec 10 (bsz (bbs A) ib)); [lia|]. cbn [orb].
        rewrite b_for_row_unfold by auto. apply wp_bind.
        eapply wp_mono. { apply (for_n_inv (fun n B' => kin B B' /\ own (fun _ => bMB A) B' /\ bnnz B' = bnnz A /\
             (forall i jp, i < bNB A -> jp < bMB A -> scol B' i jp = scol A i jp) /\
             (forall i jp, i < bNB A -> jp < bMB A -> (i <> ib \/ n <= jp) -> saddr B' i jp = saddr B i jp /\ bobj B' i jp = bobj B i jp) /\
             (forall jp, jp < n -> same_slot A B' ib jp))).
          - split; [apply kin_refl|]. repeat (split; auto). intros; lia.
          - intros jp B2 Hj (K2 & HO2 & EN2 & Ec2 & Eo2 & Hs2). pose proof K2 as (_ & _ & EN2' & EM2' & EB2' & KS2).
            destruct (ebwf_slot A ib jp) as (Hm & Hc & Hx & Hl); auto. destruct (Nat.leb_spec (bNB A) (scol A ib jp)); [lia|].
            assert (Eat : b_at A ib jp = b_at B2 ib jp). { unfold b_at, ROWMAJOR. rewrite EM2', EM', EMB. reflexivity. }
            assert (Ea : saddr B2 ib jp = None). { destruct (Eo2 ib jp Hib Hm) as [E1 _]; [right; lia|]. rewrite E1. apply Enull; auto. }
            apply wp_bind. rewrite Eat at 1. rewrite rd_ptr_ok by (auto; lia). cbn [wpq]. rewrite Ea.
            apply wp_bind. rewrite b_bs_ok by auto. cbn [wpq]. apply wp_bind. rewrite b_bs_ok by auto. cbn [wpq].
            pose proof (copy_slot (e:=False) (fun _ => bMB A) B2 ib jp (sblk A ib jp) _ g (KS2 HSB) HO2 ltac:(lia) Hm (or_introl Ea) Hl) as G.
            rewrite rd_ptr_ok in G by (auto; lia). cbn [bind] in G. rewrite Ea in G. rewrite <- Eat in G.
            set (sz := bsz (bbs A) ib * bsz (bbs A) (scol A ib jp)) in *.
            assert (G' : wpq False (B3 <- b_alloc B2 (b_at A ib jp) sz g ;; x <- b_blk A (b_at A ib jp) ;; y <- b_blk B3 (b_at A ib jp) ;; y <- blk_copy sz x y ;; b_wblk B3 (b_at A ib jp) y)
               (fun B' => exists y, slot_set (fun _ => bMB A) B2 ib jp (scol B2 ib jp) y B' /\ sz <= length y /\ forall k, k < sz -> nth k y k0 = nth k (sblk A ib jp) k0)).
            { destruct (b_alloc B2 (b_at A ib jp) sz g); cbn [bind] in G |- *; auto. rewrite (b_blk_ok A ib jp (sblk A ib jp)) by auto. cbn [bind]. exact G. }
            eapply wp_mono; [exact G'|]. intros B3 (y & H3 & Ly & Hy).
            pose proof (ss_kin _ _ _ _ _ _ _ H3) as K3. pose proof K3 as (_ & _ & EN3 & EM3 & EB3 & _).
            split; [eapply kin_trans; eauto|]. split; [apply H3|]. split; [rewrite (ss_nnz _ _ _ _ _ _ _ H3); auto|]. split; [|split].
            + intros i q Hi Hq. destruct (Nat.eq_dec i ib) as [->|]; [destruct (Nat.eq_dec q jp) as [->|]|].
              * rewrite (ss_col _ _ _ _ _ _ _ H3). auto.
              * rewrite (ss_cols _ _ _ _ _ _ _ H3); auto; lia.
              * rewrite (ss_cols _ _ _ _ _ _ _ H3); auto; lia.
            + intros i q Hi Hq Hd. destruct (Eo2 i q Hi Hq) as [E1 E2]; [destruct Hd; auto; right; lia|]. rewrite <- E1, <- E2. split.
              * apply (ss_addrs _ _ _ _ _ _ _ H3); try lia.
              * apply (ss_objs _ _ _ _ _ _ _ H3); try lia.
            + intros q Hq. destruct (Nat.eq_dec q jp) as [->|].
              * exists y. split; [apply H3|]. auto.
              * destruct (Hs2 q ltac:(lia)) as (z & Ez & Lz & Vz). exists z. split; auto. rewrite <- Ez. apply (ss_objs _ _ _ _ _ _ _ H3); lia. }
        intros B' (K' & HO' & EN'' & Ec' & Eo' & Hs'). cbn [wpq fst snd]. split; [eapply kin_trans; eauto|]. split; auto. split; auto. split; auto. split.
        + intros i jp Hi Hj Hd. assert (Hd' : i <> ib \/ bnz A ib <= jp). { destruct (Nat.eq_dec i ib) as [->|]; auto. right. destruct Hd as [Hd|]; auto. exfalso. apply Hd. apply in_or_app. right; left; auto. }
          destruct (Eo' i jp Hi Hj Hd') as [E1 _]. rewrite E1. apply Enull; auto. destruct Hd as [Hd|]; auto. left. intros Hq. apply Hd. apply in_or_app; auto.
        + intros i jp Hin Hj. apply in_app_or in Hin as [Hin|[<-|[]]]; auto.
          destruct (Hsame i jp Hin Hj) as (z & Ez & Hz'). exists z. split; auto. rewrite <- Ez.
          assert (Hne : i <> ib) by (intros ->; auto).
          assert (Hi : i < bNB A). { assert (In i (seq 0 (bNB A))); [|rewrite in_seq in *; lia]. eapply Permutation_in; [exact HP|]. rewrite Esc, map_app. apply in_or_app. auto. }
          apply Eo'; auto. specialize (Hcap i Hi). lia. }
    destruct (par_for sched body B1 (fun _ => tt)) as [[B w]| | |]; cbn [wpq bind fst] in G |- *; try tauto.
    destruct G as (K & HOB & ENz & Ecol & Enull & Hsame). pose proof K as (EN' & EMM & ENB' & EM' & EB' & KS). cbn in EN', EMM, ENB', EM', EB'.
    exists B. split; [reflexivity|].
    assert (Hall : forall ib, ib < bNB A -> In ib (map snd sched)). { intros ib Hi. eapply Permutation_in; [symmetry; exact HP|]. apply in_seq. lia. }
    destruct (copied_wf A B) as [WB VB]; auto; try congruence.
    { apply own_mono with (cap := fun _ => bMB A); auto. intros i Hi. apply Hcap. lia. }
    { intros ib Hi. unfold bnz. rewrite ENz. reflexivity. }
    { intros ib jp Hi Hj. apply Ecol; auto. specialize (Hcap ib Hi). lia. }
    split; auto. split.
    - intros ib jp Hi Hj. apply Enull; try lia. right. unfold bnz in *. rewrite ENz in Hj. lia.
    - split; auto. unfold same_dims. rewrite EMM, (fr_M _ _ _ _ _ HF). repeat split; congruence.
  Qed.

  (** ** copy *)
  Lemma eb_copy_ok A B (g : nat -> F) nth_ sched : ebwf A -> eb_shape B -> tidy B -> full_sched (bNB A) nth_ sched ->
    eb_dims A B -> bMB A = bMB B ->
    (forall ib jp, ib < bNB A -> jp < bnz A ib -> slot_fits B ib jp (bsz (bbs A) ib * bsz (bbs A) (scol A ib jp))) ->
    exists B', eb_copy A B g sched = Ok B' /\ ebwf B' /\ tidy B' /\ same_dims B B' /\ meq (bN A) (ebmx B') (ebmx A).
  Proof.
    intros HW HSB HT [HP _] (DN & DNB & DBS) DMB Hfit. pose proof HW as (HS & HO & HR). apply wp_ok. unfold eb_copy.
    rewrite DNB at 1. rewrite Nat.eqb_refl. cbn [negb]. destruct (Nat.ltb_spec (length (bidx B)) (bNB A * bMB A)) as [L|L]; [rewrite (sh_idx B HSB), DNB, DMB in L; lia|]. clear L.
    rewrite firstn_all2 by (rewrite (sh_idx A HS); auto). rewrite skipn_all2 by (rewrite (sh_idx B HSB), DNB, DMB; auto). rewrite app_nil_r.
    set (B1 := mkEb (bN B) (bM B) (bNB B) (bMB B) (bbs B) (bptr B) (bidx A) (bnnz A) (bheap B)).
    assert (HS1 : eb_shape B1). { destruct HSB, HS. constructor; cbn; auto; congruence. }
    assert (Hcap : forall ib, ib < bNB A -> bnz A ib <= bMB A) by (intros; apply ebwf_nnz; auto).
    assert (HO1 : own (fun _ => bMB A) B1). { destruct HT as (T1 & T2 & T3). split; [|split]; cbn; rewrite DMB; auto. }
    assert (HNDs : NoDup (map snd sched)). { eapply Permutation_NoDup; [symmetry; exact HP|apply seq_NoDup]. }
    apply wp_bind.
    eapply wp_mono. { apply (par_for_inv (fun done B' (_ : nat -> unit) => kin B1 B' /\ own (fun _ => bMB A) B' /\ bnnz B' = bnnz A /\
        (forall ib jp, ib < bNB A -> jp < bMB A -> scol B' ib jp = scol A ib jp) /\
        (forall ib jp, ib < bNB A -> jp < bMB A -> ~ In ib done -> saddr B' ib jp = saddr B ib jp /\ bobj B' ib jp = bobj B ib jp) /\
        (forall ib jp, In ib done -> jp < bnz A ib -> same_slot A B' ib jp))).
      - split; [apply kin_refl|]. split; auto. split; [reflexivity|]. split.
        + intros ib jp Hi Hj. unfold scol, spos. cbn. rewrite DMB. reflexivity.
        + split; [|intros ib jp []]. intros ib jp Hi Hj _. split; reflexivity.
      - intros pre t ib post B2 w Esc (K & HOB & ENz & Ecol & Eold & Hsame). pose proof K as (_ & _ & EN' & EM' & EB' & KS).
        assert (Hib : ib < bNB A). { assert (In ib (seq 0 (bNB A))); [|rewrite in_seq in *; lia]. eapply Permutation_in; [exact HP|]. rewrite Esc, map_app. apply in_or_app. right. left. auto. }
        assert (Hnin : ~ In ib (map snd pre)). { rewrite Esc, map_app in HNDs. simpl in HNDs. apply NoDup_remove in HNDs as [_ Hn]. intros H. apply Hn. apply in_or_app. auto. }
        cbn in EN', EM', EB'. assert (HS2 : eb_shape B2) by auto. destruct (w t).
        rewrite b_for_row_unfold by auto. apply wp_bind.
        eapply wp_mono. { apply (for_n_inv (fun n B' => kin B2 B' /\ own (fun _ => bMB A) B' /\ bnnz B' = bnnz A /\
             (forall i jp, i < bNB A -> jp < bMB A -> scol B' i jp = scol A i jp) /\
             (forall i jp, i < bNB A -> jp < bMB A -> (i <> ib \/ n <= jp) -> saddr B' i jp = saddr B2 i jp /\ bobj B' i jp = bobj B2 i jp) /\
             (forall jp, jp < n -> same_slot A B' ib jp))).
          - split; [apply kin_refl|]. repeat (split; auto). intros; lia.
          - intros jp B3 Hj (K2 & HO2 & EN2 & Ec2 & Eo2 & Hs2). pose proof K2 as (_ & _ & EN2' & EM2' & EB2' & KS2).
            destruct (ebwf_slot A ib jp) as (Hm & Hc & Hx & Hl); auto.
            assert (Eat : b_at A ib jp = b_at B3 ib jp). { unfold b_at, ROWMAJOR. rewrite EM2', EM', DMB. reflexivity. }
            destruct (Eo2 ib jp Hib Hm) as [E1 E2]; [right; lia|]. destruct (Eold ib jp Hib Hm Hnin) as [E3 E4].
            apply wp_bind. rewrite Eat at 1. rewrite rd_idx_ok by (auto; lia). cbn [wpq]. rewrite Ec2 by auto.
            apply wp_bind. rewrite b_bs_ok by auto. cbn [wpq]. apply wp_bind. rewrite b_bs_ok by auto. cbn [wpq].
            pose proof (copy_slot (e:=False) (fun _ => bMB A) B3 ib jp (sblk A ib jp) (bsz (bbs A) ib * bsz (bbs A) (scol A ib jp)) g (KS2 HS2) HO2 ltac:(lia) Hm) as G.
            rewrite <- Eat in G.
            set (sz := bsz (bbs A) ib * bsz (bbs A) (scol A ib jp)) in *.
            match goal with |- wpq _ ?t _ => assert (G' : wpq False t
               (fun B' => exists y, slot_set (fun _ => bMB A) B3 ib jp (scol B3 ib jp) y B' /\ sz <= length y /\ forall k, k < sz -> nth k y k0 = nth k (sblk A ib jp) k0)) end.
            { specialize (G ltac:(unfold slot_fits; rewrite E1, E2, E3, E4; apply Hfit; auto) Hl).
              destruct (rd (bptr B3) (b_at A ib jp)) as [p| | |]; cbn [bind] in G |- *; auto.
              match type of G with wpq _ (bind ?m _) _ => destruct m as [B4| | |] end; cbn [bind] in G |- *; auto.
              rewrite (b_blk_ok A ib jp (sblk A ib jp)) by auto. cbn [bind]. exact G. }
            eapply wp_mono; [exact G'|]. intros B4 (y & H3 & Ly & Hy).
            pose proof (ss_kin _ _ _ _ _ _ _ H3) as K3. pose proof K3 as (_ & _ & EN3 & EM3 & EB3 & _).
            split; [eapply kin_trans; eauto|]. split; [apply H3|]. split; [rewrite (ss_nnz _ _ _ _ _ _ _ H3); auto|]. split; [|split].
            + intros i q Hi Hq. destruct (Nat.eq_dec i ib) as [->|]; [destruct (Nat.eq_dec q jp) as [->|]|].
              * rewrite (ss_col _ _ _ _ _ _ _ H3). auto.
              * rewrite (ss_cols _ _ _ _ _ _ _ H3); auto; lia.
              * rewrite (ss_cols _ _ _ _ _ _ _ H3); auto; lia.
            + intros i q Hi Hq Hd. destruct (Eo2 i q Hi Hq) as [E5 E6]; [destruct Hd; auto; right; lia|]. rewrite <- E5, <- E6. split.
              * apply (ss_addrs _ _ _ _ _ _ _ H3); try lia.
              * apply (ss_objs _ _ _ _ _ _ _ H3); try lia.
            + intros q Hq. destruct (Nat.eq_dec q jp) as [->|].
              * exists y. split; [apply H3|]. auto.
              * destruct (Hs2 q ltac:(lia)) as (z & Ez & Lz & Vz). exists z. split; auto. rewrite <- Ez. apply (ss_objs _ _ _ _ _ _ _ H3); lia. }
        intros B' (K' & HO' & EN'' & Ec' & Eo' & Hs'). cbn [wpq fst snd]. split; [eapply kin_trans; eauto|]. split; auto. split; auto. split; auto. split.
        + intros i jp Hi Hj Hd. assert (Hne : i <> ib) by (intros ->; apply Hd; apply in_or_app; right; left; auto).
          destruct (Eo' i jp Hi Hj (or_introl Hne)) as [E1 E2]. rewrite E1, E2. apply Eold; auto. intros H. apply Hd. apply in_or_app; auto.
        + intros i jp Hin Hj. apply in_app_or in Hin as [Hin|[<-|[]]]; auto.
          destruct (Hsame i jp Hin Hj) as (z & Ez & Hz'). exists z. split; auto. rewrite <- Ez.
          assert (Hne : i <> ib) by (intros ->; auto).
          assert (Hi : i < bNB A). { assert (In i (seq 0 (bNB A))); [|rewrite in_seq in *; lia]. eapply Permutation_in; [exact HP|]. rewrite Esc, map_app. apply in_or_app. auto. }
          apply Eo'; auto. specialize (Hcap i Hi). lia. }
    intros [B' w] HG. cbn [fst wpq] in HG |- *. destruct HG as (K & HOB & ENz & Ecol & Eold & Hsame). pose proof K as (EN' & EMM & ENB' & EM' & EB' & KS). cbn in EN', EMM, ENB', EM', EB'.
    assert (Hall : forall ib, ib < bNB A -> In ib (map snd sched)). { intros ib Hi. eapply Permutation_in; [symmetry; exact HP|]. apply in_seq. lia. }
    destruct (copied_wf A B') as [WB VB]; auto; try congruence.
    { apply own_mono with (cap := fun _ => bMB A); auto. intros i Hi. apply Hcap. lia. }
    { intros ib Hi. unfold bnz. rewrite ENz. reflexivity. }
    { intros ib jp Hi Hj. apply Ecol; auto. specialize (Hcap ib Hi). lia. }
    split; auto. split; [unfold tidy; rewrite EM', <- DMB; auto|]. split; [unfold same_dims; repeat split; congruence|]. auto.
  Qed.

  (** ** transpose_new *)
  Lemma has_block_in A ib jb : has_block A ib jb = true <-> In jb (bcols A ib).
  Proof. unfold has_block. rewrite existsb_exists. split; [intros (x & H & E); apply Nat.eqb_eq in E; subst; auto|intros H; exists jb; split; auto; apply Nat.eqb_refl]. Qed.

  Lemma transpose_fill {e} bi bj (x y0 : list F) : length y0 = bi * bj -> bi * bj <= length x ->
    wpq e (for_2 bi bj (fun ii jj y => v <- rd x (ROWMAJOR ii jj bi bj) ;; wr y (ROWMAJOR jj ii bj bi) v) y0)
      (fun y => length y = bi * bj /\ forall k, k < bi * bj -> nth k y k0 = nth ((k mod bi) * bj + k / bi) x k0).
  Proof.
    intros L0 Lx. rewrite for_2_flat. eapply wp_mono. { apply (scatter_ok (bi * bj) (fun k => rd x (ROWMAJOR (k / bj) (k mod bj) bi bj)) (fun k => nth k x k0) (fun k => ROWMAJOR (k mod bj) (k / bj) bj bi)).
      - intros k Hk. destruct (pos_split _ _ _ Hk) as (P1 & P2 & P3). unfold ROWMAJOR. rewrite <- P3. apply rd_ok. lia.
      - intros k Hk. destruct (pos_split _ _ _ Hk) as (P1 & P2 & P3). rewrite L0, (Nat.mul_comm bi bj). apply pos_lt; auto.
      - intros k k' Hk Hk' E. destruct (pos_split _ _ _ Hk) as (P1 & P2 & P3), (pos_split _ _ _ Hk') as (Q1 & Q2 & Q3). unfold ROWMAJOR in E.
        assert (k mod bj = k' mod bj) by (rewrite <- (pos_div bi (k mod bj) (k / bj)), <- (pos_div bi (k' mod bj) (k' / bj)) by auto; congruence).
        assert (k / bj = k' / bj) by (rewrite <- (pos_mod bi (k mod bj) (k / bj)), <- (pos_mod bi (k' mod bj) (k' / bj)) by auto; congruence). congruence. }
    intros y (L1 & V1 & _). split; [lia|]. intros k Hk. rewrite Nat.mul_comm in Hk. destruct (pos_split _ _ _ Hk) as (P1 & P2 & P3).
    assert (Hq : (k mod bi) * bj + k / bi < bi * bj) by (apply pos_lt; auto).
    rewrite <- (V1 _ Hq). f_equal. unfold ROWMAJOR. rewrite pos_mod, pos_div by auto. auto.
  Qed.

  Lemma eb_transpose_new_ok c A (g : nat -> F) : ebwf A -> good_cache c ->
    (forall jb, jb < bNB A -> count (bNB A) (fun ib => has_block A ib jb) <= bMB A) ->
    exists B, eb_transpose_new c A g = Ok (cache_after c (bNB A) (bMB A) (bbs A), B) /\ ebwf B /\ clean B /\ same_dims A B /\
      meq (bN A) (ebmx B) (mtrans (ebmx A)).
  Proof.
    intros HW HC Hroom. pose proof HW as (HS & HO & HR). unfold eb_transpose_new.
    destruct (block_matrix_ok (F:=F) c (bNB A) (bMB A) (bM A) (bbs A)) as (B0 & EB0 & HF); try apply HS; auto.
    { rewrite <- (sh_bs A HS), <- shape_N by auto. apply HS. }
    rewrite EB0. cbn [bind].
    pose proof (fr_NB _ _ _ _ _ HF) as ENB. pose proof (fr_MB _ _ _ _ _ HF) as EMB. pose proof (fr_bs _ _ _ _ _ HF) as EBS.
    set (tv := fun i c k => bel A c i ((k mod bsz (bbs A) c) * bsz (bbs A) i + k / bsz (bbs A) c)).
    set (Inv := fun (done : nat -> nat -> Prop) (B : eb) => ebwf B /\ kin B0 B /\ (clean B0 -> clean B) /\
        (forall i c, i < bNB A -> In c (bcols B i) <-> (done c i /\ c < bNB A /\ In i (bcols A c))) /\
        (forall i c k, i < bNB A -> c < bNB A -> k < bsz (bbs A) i * bsz (bbs A) c -> In c (bcols B i) -> bel B i c k = tv i c k)).
    match goal with |- context [for_n (bNB A) ?b B0] => set (body := b) end.
    assert (G : wpq False (for_n (bNB A) body B0) (Inv (fun c i => c < bNB A))).
    { apply (for_n_inv (fun n => Inv (fun c i => c < n))).
      - split; [apply HF|]. split; [apply kin_refl|]. split; auto. split.
        + intros i cc Hi. split; [|lia]. rewrite <- brow_cols, (fr_row _ _ _ _ _ HF). intros [].
        + intros i cc k Hi Hc Hk. rewrite <- brow_cols, (fr_row _ _ _ _ _ HF). intros [].
      - intros ib B Hi HInv. unfold body. rewrite b_for_row_unfold by auto.
        eapply wp_mono. { apply (for_n_inv (fun n => Inv (fun c i => c < ib \/ (c = ib /\ exists jp, jp < n /\ scol A ib jp = i)))).
          - destruct HInv as (W & K & C & Hc & Hv). split; auto. split; auto. split; auto. split; auto.
            intros i cc Hi'. rewrite Hc by auto. split; [tauto|]. intros ([H|[_ (jp & H & _)]] & H'); [tauto|lia].
          - intros jp B1 Hj (W & K & C & Hc & Hv). pose proof W as (HSB & _ & HRB). pose proof K as (_ & _ & EN & EM & EB & _).
            destruct (ebwf_slot A ib jp) as (Hm & Hjc & Hx & Hl); auto. set (jb := scol A ib jp) in *.
            apply wp_bind. rewrite b_nnz_ok by (auto; lia). cbn [wpq]. apply wp_bind. rewrite b_bs_ok by auto. cbn [wpq]. apply wp_bind. rewrite b_bs_ok by auto. cbn [wpq].
            apply wp_bind. rewrite (b_blk_ok A ib jp (sblk A ib jp)) by auto. cbn [wpq].
            assert (Hnin : ~ In ib (bcols B1 jb)). { rewrite Hc by auto. intros ([H|(_ & q & Hq & Eq)] & _); [lia|]. assert (q = jp); [|lia]. apply (scol_inj A ib); auto. lia. }
            assert (Hinj : In jb (bcols A ib)). { unfold bcols. apply in_map_iff. exists jp. split; auto. apply in_seq; lia. }
            assert (Hlt : bnz B1 jb < bMB B1).
            { rewrite bnz_cols, EM, EMB. eapply Nat.lt_le_trans; [|apply (Hroom jb Hjc)]. unfold count.
              change (length (ib :: bcols B1 jb) <= length (filter (fun i => has_block A i jb) (seq 0 (bNB A)))).
              apply NoDup_incl_length. { constructor; auto. apply (bro_nodup _ _ (HRB jb ltac:(lia))). }
              intros c' [<-|Hin]; apply filter_In.
              - split; [apply in_seq; lia|]. apply has_block_in. auto.
              - apply Hc in Hin as (_ & H1 & H2); [|lia]. split; [apply in_seq; lia|]. apply has_block_in. auto. }
            set (bi := bsz (bbs A) ib) in *. set (bj := bsz (bbs A) jb) in *.
            apply (new_block_ok B1 jb ib (bi * bj) g _ (fun y => forall k, k < bi * bj -> nth k y k0 = nth ((k mod bi) * bj + k / bi) (sblk A ib jp) k0)); auto; try lia.
            + rewrite EB, EBS. fold bi. fold bj. lia.
            + intros z Lz. apply transpose_fill; auto.
            + intros y B2 Ly Hy HP. split; [apply HP|]. split; [eapply kin_trans; [exact K|apply HP]|]. split; [intros; apply HP; auto|].
              assert (Hcols2 : forall i c, i < bNB A -> In c (bcols B2 i) <-> (In c (bcols B1 i) \/ (i = jb /\ c = ib))).
              { intros i c' Hi'. rewrite <- !brow_cols. destruct (Nat.eq_dec i jb) as [->|Hne].
                - rewrite (pu_row _ _ _ _ _ HP), map_app, in_app_iff. cbn [map fst In]. intuition.
                - rewrite (pu_other _ _ _ _ _ HP) by (auto; lia). intuition. }
              split.
              * intros i c' Hi'. rewrite Hcols2, Hc by auto. split.
                { intros [([H|(E1 & q & Hq & Eq)] & H2 & H3)|[-> ->]]; [tauto| |].
                  - split; auto. right. split; auto. exists q. split; auto.
                  - split; [right; split; auto; exists jp; split; auto; lia|]. split; auto. }
                { intros ([H|(E1 & q & Hq & Eq)] & H2 & H3); [tauto|]. destruct (Nat.eq_dec q jp) as [->|Hne].
                  - right. split; auto.
                  - left. split; auto. right. split; auto. exists q. split; auto. lia. }
              * intros i c' k Hi' Hc' Hk Hin. rewrite (pushed_bel B1 jb ib y B2) by (auto; lia).
                destruct (Nat.eqb_spec i jb) as [->|Hni]; cbn [andb].
                { destruct (Nat.eqb_spec c' ib) as [->|Hnc].
                  - rewrite Hy by (fold bi; fold bj in Hk; fold bi in Hk; lia). unfold tv. rewrite (bel_hit A ib jb jp) by auto. reflexivity.
                  - apply Hv; auto. apply Hcols2 in Hin as [|[_ ->]]; auto. tauto. }
                { apply Hv; auto. apply Hcols2 in Hin as [|[-> _]]; auto. tauto. } }
        intros B2 (W & K & C & Hc & Hv). split; auto. split; auto. split; auto. split; auto.
        intros i c' Hi'. rewrite Hc by auto. split.
        + intros ([H|(-> & _)] & H2 & H3); split; auto.
        + intros (H & H2 & H3). split; auto. destruct (Nat.eq_dec c' ib) as [->|]; [|left; lia]. right. split; auto.
          unfold bcols in H3. apply in_map_iff in H3 as (q & Eq & Hq). apply in_seq in Hq. exists q. split; auto; lia. }
    destruct (for_n (bNB A) body B0) as [B| | |]; cbn [wpq bind] in G |- *; try tauto.
    destruct G as (W & K & C & Hc & Hv). exists B. split; [reflexivity|]. split; auto. split; [apply C, HF|].
    pose proof K as (EN & EMM & ENB' & EMB' & EB & _).
    assert (HN : bN B = bN A). { rewrite EN, (fr_N _ _ _ _ _ HF), <- (sh_bs A HS). symmetry. apply shape_N; auto. }
    split. { unfold same_dims. rewrite EMM, (fr_M _ _ _ _ _ HF). repeat split; congruence. }
    rewrite <- HN. pose proof W as (HS' & _ & HRB). apply meq_blocks; auto. rewrite ENB', EB, EBS, ENB. intros i c' k Hi Hj Hk.
    destruct (pos_split _ _ _ Hk) as (P1 & P2 & P3). unfold xb, mtrans. rewrite ebmx_at by auto.
    destruct (in_dec Nat.eq_dec c' (bcols B i)) as [Hin|Hnin].
    - rewrite Hv by auto. reflexivity.
    - rewrite (bel_miss B), (bel_miss A); auto.
      + intros jp Hjp E. apply Hnin. apply Hc; auto. split; auto. split; auto. unfold bcols. apply in_map_iff. exists jp. split; auto. apply in_seq; lia.
      + intros jp Hjp E. apply Hnin. unfold bcols. apply in_map_iff. exists jp. split; auto. apply in_seq; lia.
  Qed.
End Copy.
