(** Addition in the block format. *)
From Verif Require Import Base BaseFacts Spec SpecFacts EllpackModel EllpackSpec EllblockModel EllblockSpec EllblockFacts EllblockHeap EllblockRead EllblockBuild EllblockMake EllblockSet EllblockCopy EllblockWork.
From Coq Require Import Permutation.

Section Add.
  Context {F : scalar}.
  Add Ring KRadd : (k_ring F).
  Local Notation eb := (eb F).
  Implicit Types A B : eb.

  Lemma existsb_eqb_in c L : existsb (Nat.eqb c) L = true <-> In c L.
  Proof. rewrite existsb_exists. split; [intros (x & H & E); apply Nat.eqb_eq in E; subst; auto|intros H; exists c; split; auto; apply Nat.eqb_refl]. Qed.
  Lemma existsb_eqb_nin c L : existsb (Nat.eqb c) L = false <-> ~ In c L.
  Proof. rewrite <- existsb_eqb_in. destruct (existsb _ L); split; intros; congruence. Qed.

  Definition bsq (bs : list nat) (ib c : nat) : nat := bsz bs ib * bsz bs c.

  Lemma badd_acc_ok {e} B (a : F) ib m2 w L v : ebwf B -> ib < bNB B ->
    (forall c, c < bNB B -> bsq (bbs B) ib c <= m2) -> wrep (bNB B) m2 (bsq (bbs B) ib) w L v ->
    wpq e (badd_acc (bbs B) (bNB B) (bMB B) B a ib (w, length L))
      (fun r => snd r = length (touch_all L (bcols B ib)) /\
        wrep (bNB B) m2 (bsq (bbs B) ib) (fst r) (touch_all L (bcols B ib)) (fun c k => kadd (v c k) (kmul a (bel B ib c k)))).
  Proof.
    intros HW Hi Hm Hrep. pose proof HW as (HS & HO & HR). unfold badd_acc. apply wp_bind. rewrite b_nnz_ok by auto. cbn [wpq].
    assert (Lc : length (bcols B ib) = bnz B ib) by (unfold bcols; rewrite map_length, seq_length; auto).
    assert (Nc : forall jp, jp < bnz B ib -> nth jp (bcols B ib) 0 = scol B ib jp). { intros jp Hj. unfold bcols. rewrite nth_map_seq by auto. reflexivity. }
    pose proof (bro_nodup _ _ (HR ib Hi)) as HND.
    set (vv := fun p c k => if existsb (Nat.eqb c) (firstn p (bcols B ib)) then kadd (v c k) (kmul a (bel B ib c k)) else v c k).
    eapply wp_mono. { apply (for_n_inv (fun p (s : wsp (list F) * nat) => snd s = length (touch_all L (firstn p (bcols B ib))) /\
        wrep (bNB B) m2 (bsq (bbs B) ib) (fst s) (touch_all L (firstn p (bcols B ib))) (vv p))).
      - split; [reflexivity|]. exact Hrep.
      - intros jp [w1 l1] Hj (El & Hr). cbn [fst snd] in El, Hr. subst l1.
        destruct (ebwf_slot B ib jp) as (Hjm & Hjc & Hx & Hl); auto. cbv zeta. change (ROWMAJOR ib jp (bNB B) (bMB B)) with (b_at B ib jp).
        apply wp_bind. rewrite rd_idx_ok by auto. cbn [wpq]. set (c := scol B ib jp) in *.
        apply wp_bind. rewrite (rd_ok _ _ 0) by (rewrite (sh_bs B HS); auto). cbn [wpq].
        apply wp_bind. rewrite (rd_ok _ _ 0) by (rewrite (sh_bs B HS); auto). cbn [wpq]. fold (bsz (bbs B) ib). fold (bsz (bbs B) c). fold (bsq (bbs B) ib c).
        apply wp_bind. eapply wp_mono; [apply (bws_touch_ok (bNB B) m2 (bsq (bbs B) ib)); eauto|]. intros [w2 l2] (El2 & Hr2). cbn [fst snd] in El2, Hr2.
        assert (EL : touch_all L (firstn (S jp) (bcols B ib)) = touch (touch_all L (firstn jp (bcols B ib))) c).
        { rewrite (firstn_S_nth _ _ 0) by lia. rewrite Nc by auto. rewrite touch_all_app. reflexivity. }
        rewrite EL. apply wp_bind. rewrite (b_blk_ok B ib jp (sblk B ib jp)) by auto. cbn [wpq]. apply wp_bind.
        eapply wp_mono. { apply (bws_upd_ok (bNB B) m2 (bsq (bbs B) ib) w2 (touch (touch_all L (firstn jp (bcols B ib))) c) (vv jp) c _ (fun k => kadd (vv jp c k) (kmul a (bel B ib c k)))); auto.
          - apply touch_in. auto.
          - intros x Lx Vx. eapply wp_mono; [apply (blk_map_ok _ _ (fun k => kadd (nth k x k0) (kmul a (nth k (sblk B ib jp) k0))))|].
            + rewrite Lx. apply Hm. auto.
            + intros k Hk. rewrite (rd_ok _ _ k0) by (unfold bsq in Hk; lia). reflexivity.
            + intros y (Ly & Vy & _). split; [congruence|]. intros k Hk. rewrite Vy, Vx by auto. rewrite (bel_hit B ib c jp) by auto. reflexivity. }
        intros w3 Hr3. cbn [wpq fst snd]. split; auto. eapply wrep_ext; [|exact Hr3]. intros c' k Hc' Hk. cbn beta. unfold vv.
        rewrite (firstn_S_nth _ _ 0) by lia. rewrite Nc by auto. fold c. rewrite existsb_app. cbn [existsb]. rewrite orb_false_r.
        destruct (Nat.eqb_spec c' c) as [->|Hne].
        + rewrite orb_true_r. assert (E : existsb (Nat.eqb c) (firstn jp (bcols B ib)) = false).
          { apply existsb_eqb_nin. intros Hin. assert (HF : bcols B ib = firstn jp (bcols B ib) ++ nth jp (bcols B ib) 0 :: skipn (S jp) (bcols B ib)) by (apply nth_split_eq; lia).
            rewrite HF in HND. apply NoDup_remove_2 in HND. apply HND. apply in_or_app. left. rewrite Nc by auto. auto. }
          rewrite E. reflexivity.
        + rewrite orb_false_r. reflexivity. }
    intros [w1 l1] (El & Hr). cbn [fst snd] in *. rewrite firstn_all2 in El, Hr by lia. split; auto. eapply wrep_ext; [|exact Hr].
    intros c k Hc Hk. cbn beta. unfold vv. rewrite firstn_all2 by lia. destruct (existsb (Nat.eqb c) (bcols B ib)) eqn:E; auto.
    apply existsb_eqb_nin in E. rewrite (bel_miss B). { ring. }
    intros jp Hj Ej. apply E. unfold bcols. apply in_map_iff. exists jp. split; auto. apply in_seq; lia.
  Qed.

  Definition kept (keep : F -> bool) (sz : nat -> nat) (v : nat -> nat -> F) (c : nat) : bool := existsb (fun k => keep (v c k)) (seq 0 (sz c)).

  Lemma blk_keep_kept bs (keep : F -> bool) X ib c v : (forall k, k < bsz bs ib * bsz bs c -> v c k = xb bs X ib c k) -> kept keep (bsq bs ib) v c = blk_keep bs keep X ib c.
  Proof. intros H. unfold kept, blk_keep, bsq. apply existsb_ext. intros k Hk. apply in_seq in Hk. rewrite H by lia. reflexivity. Qed.

  Lemma filter_firstn_S (kp : nat -> bool) L p : p < length L -> filter kp (firstn (S p) L) = filter kp (firstn p L) ++ (if kp (nth p L 0) then [nth p L 0] else []).
  Proof. intros H. rewrite (firstn_S_nth _ _ 0) by auto. rewrite filter_app. simpl. destruct (kp _); reflexivity. Qed.
  Lemma nth_filter_firstn (kp : nat -> bool) L p : p < length L -> kp (nth p L 0) = true ->
    length (filter kp (firstn p L)) < length (filter kp L) /\ nth (length (filter kp (firstn p L))) (filter kp L) 0 = nth p L 0.
  Proof.
    intros H E. rewrite <- (firstn_skipn p L) at 2 4. rewrite (skipn_S_nth _ _ 0 H), filter_app. simpl. rewrite E. rewrite app_length, app_nth2, Nat.sub_diag by lia. simpl. split; [lia|reflexivity].
  Qed.

  Lemma badd_row_ok {e} (keep : F -> bool) (alpha beta : F) A B (g : nat -> F) ib w m2 : ebwf A -> tidy A -> ebwf B ->
    bNB B = bNB A -> bMB B = bMB A -> bbs B = bbs A -> ib < bNB A ->
    (forall c, c < bNB A -> bsq (bbs A) ib c <= m2) -> wrep (bNB A) m2 (bsq (bbs A) ib) w [] (fun _ _ => k0) ->
    let v := fun c k => kadd (kmul alpha (bel A ib c k)) (kmul beta (bel B ib c k)) in
    let ks := filter (kept keep (bsq (bbs A) ib) v) (add_cols alpha beta A B ib) in
    length ks <= bMB A -> (forall q, q < length ks -> slot_fits A ib q (bsq (bbs A) ib (nth q ks 0))) ->
    wpq e (badd_row keep alpha beta B g ib (A, w)) (fun r => let A' := fst r in
      kin A A' /\ ebwf A' /\ tidy A' /\ (forall n, roomy n A -> roomy n A') /\ (forall i, i < bNB A -> i <> ib -> row_same (fun _ => bMB A) A A' i) /\
      (forall jb k, jb < bNB A -> k < bsq (bbs A) ib jb -> bel A' ib jb k = if kept keep (bsq (bbs A) ib) v jb then v jb k else k0) /\
      wrep (bNB A) m2 (bsq (bbs A) ib) (snd r) [] (fun _ _ => k0)).
  Proof.
    intros HW HT HWB EN EM EB Hi Hm Hrep v ks Hks Hfit. pose proof HW as (HS & HO & HR). unfold badd_row.
    (* the two accumulation loops *)
    apply wp_bind. eapply wp_mono with (P := fun s1 => snd s1 = length (touch_all [] (if keqb alpha k0 then [] else bcols A ib)) /\
       wrep (bNB A) m2 (bsq (bbs A) ib) (fst s1) (touch_all [] (if keqb alpha k0 then [] else bcols A ib)) (fun c k => kmul alpha (bel A ib c k))).
    { destruct (keqb alpha k0) eqn:Ea.
      - apply keqb_spec in Ea. cbn [wpq fst snd touch_all fold_left length]. split; auto. eapply wrep_ext; [|exact Hrep]. intros; cbn beta; rewrite Ea; ring.
      - eapply wp_mono; [apply (badd_acc_ok A alpha ib m2 w []); eauto|]. intros [w1 l1] (E1 & H1). split; auto. eapply wrep_ext; [|exact H1]. intros; cbn beta; ring. }
    intros [w1 l1] (E1 & H1). cbn [fst snd] in E1, H1. subst l1.
    apply wp_bind. eapply wp_mono with (P := fun s2 => snd s2 = length (add_cols alpha beta A B ib) /\ wrep (bNB A) m2 (bsq (bbs A) ib) (fst s2) (add_cols alpha beta A B ib) v).
    { unfold add_cols. destruct (keqb beta k0) eqn:Eb.
      - apply keqb_spec in Eb. cbn [wpq fst snd]. unfold touch_all at 1 3. cbn [fold_left]. split; auto. eapply wrep_ext; [|exact H1]. intros c k _ _. unfold v. rewrite Eb. ring.
      - rewrite <- EB, <- EN, <- EM. eapply wp_mono; [apply (badd_acc_ok B beta ib m2 w1)|].
        + auto.
        + lia.
        + rewrite EN, EB. auto.
        + rewrite EN, EB. exact H1.
        + intros [w2 l2] (E2 & H2). split; auto. }
    intros [w2 l2] (E2 & H2). cbn [fst snd] in E2, H2. subst l2. set (L := add_cols alpha beta A B ib) in *.
    apply wp_bind. eapply wp_mono; [apply b_wnnz_ok; auto|]. intros A1 HN1.
    pose proof (ns_kin _ _ _ _ HN1) as K1. pose proof K1 as (_ & _ & EN1 & EM1 & EB1 & KS1).
    assert (HO1 : own (fun _ => bMB A) A1) by (eapply nnz_set_own; eauto).
    set (kp := kept keep (bsq (bbs A) ib) v) in *.
    apply wp_bind. eapply wp_mono. { apply (for_n_inv (fun p (s : eb * wsp (list F) * nat) => let '(A', w', ll) := s in
        wgat (bNB A) m2 (bsq (bbs A) ib) w' L v p /\ exists lst, gath (fun _ => bMB A) A1 ib lst A' /\ ll = length lst /\ map fst lst = filter kp (firstn p L) /\
        (forall x, In x lst -> bsq (bbs A) ib (fst x) <= length (snd x) /\ forall k, k < bsq (bbs A) ib (fst x) -> nth k (snd x) k0 = v (fst x) k))).
      - split; [apply wgat_0; auto|]. exists []. split; [apply gath_nil; auto|]. split; auto. split; auto. intros x [].
      - intros p [[A2 w3] ll] Hp (HG & lst & HGa & -> & Hlst & Hval). pose proof (ga_kin _ _ _ _ _ HGa) as K2. pose proof K2 as (_ & _ & EN2 & EM2 & EB2 & KS2).
        pose proof HG as [G1 G2 G3 G4 G5 G6 G7 G8 G9]. assert (Hc : nth p L 0 < bNB A) by (apply G6, nth_In; auto).
        pose proof (wrep_room _ _ _ _ _ _ H2) as HLN.
        apply wp_bind. rewrite (rd_ok _ _ 0) by lia. cbn [wpq]. rewrite G7 by auto. set (c := nth p L 0) in *.
        apply wp_bind. rewrite (rd_ok _ _ []) by lia. cbn [wpq].
        assert (HS2 : eb_shape A2) by auto.
        apply wp_bind. rewrite b_bs_ok by (auto; lia). cbn [wpq]. apply wp_bind. rewrite b_bs_ok by (auto; lia). cbn [wpq]. rewrite EB2, EB1. fold (bsq (bbs A) ib c).
        assert (Hcin : In c (skipn p L)) by (apply in_skipn_nth; auto).
        apply wp_bind. rewrite blk_above_ok by (rewrite G4 by auto; auto). cbn [wpq].
        assert (Ekp : existsb (fun k => keep (nth k (nth c (wx w3) []) k0)) (seq 0 (bsq (bbs A) ib c)) = kp c).
        { unfold kp, kept. apply existsb_ext. intros k Hk. apply in_seq in Hk. rewrite G9 by (auto; lia). reflexivity. }
        rewrite Ekp.
        apply wp_bind. eapply wp_mono with (P := fun s => exists lst', gath (fun _ => bMB A) A1 ib lst' (fst s) /\ snd s = length lst' /\ map fst lst' = filter kp (firstn (S p) L) /\
          (forall x, In x lst' -> bsq (bbs A) ib (fst x) <= length (snd x) /\ forall k, k < bsq (bbs A) ib (fst x) -> nth k (snd x) k0 = v (fst x) k)).
        { rewrite filter_firstn_S by auto. fold c. destruct (kp c) eqn:Ek.
          - destruct (nth_filter_firstn kp L p Hp Ek) as [Q1 Q2]. fold c in Q2. fold ks in Q1, Q2. rewrite <- Hlst, map_length in Q1, Q2.
            specialize (Hfit _ Q1). rewrite Q2 in Hfit.
            cbv zeta. set (q := length lst) in *. set (x := nth c (wx w3) []) in *.
            assert (HO2 : own (fun _ => bMB A) A2). { eapply own_cap_eq; [|apply (ga_own _ _ _ _ _ HGa)]. intros i _. cbn beta. destruct (i =? ib); lia. }
            assert (Hfit2 : slot_fits A2 ib q (bsq (bbs A) ib c)).
            { unfold slot_fits. rewrite (ga_addrs _ _ _ _ _ HGa) by (auto; lia). rewrite (ga_objs _ _ _ _ _ HGa) by (auto; lia).
              rewrite (nnz_set_addr _ _ _ _ _ _ HN1), (nnz_set_obj _ _ _ _ _ _ HN1). exact Hfit. }
            pose proof (copy_slot (e:=e) (fun _ => bMB A) A2 ib q x (bsq (bbs A) ib c) g HS2 HO2 ltac:(lia) ltac:(lia) Hfit2 ltac:(unfold x; rewrite G4 by auto; auto)) as G.
            match goal with |- wpq _ ?t _ => replace t with (bind (p0 <- rd (bptr A2) (b_at A2 ib q);; B1 <- match p0 with None => b_alloc A2 (b_at A2 ib q) (bsq (bbs A) ib c) g | Some _ => Ok A2 end;;
              y <- b_blk B1 (b_at A2 ib q);; y <- blk_copy (bsq (bbs A) ib c) x y;; b_wblk B1 (b_at A2 ib q) y) (fun A3 => A4 <- b_widx A3 (b_at A2 ib q) c ;; Ok (A4, S q))) end.
            2:{ destruct (rd (bptr A2) (b_at A2 ib q)) as [p0| | |]; cbn [bind]; auto. match goal with |- bind (bind ?m _) _ = _ => destruct m as [A3| | |] end; cbn [bind]; auto.
                all: destruct (b_blk A3 _); cbn [bind]; auto. all: destruct (blk_copy _ _ _); cbn [bind]; auto. all: destruct (b_wblk _ _ _); cbn [bind]; auto. }
            apply wp_bind. eapply wp_mono; [exact G|]. intros A3 (y & HS3 & Ly & Vy). pose proof (ss_kin _ _ _ _ _ _ _ HS3) as K3. pose proof K3 as (_ & _ & EN3 & EM3 & EB3 & KS3).
            apply wp_bind. rewrite <- (kin_at A2 A3 ib q K3). eapply wp_mono; [apply (b_widx_ok (fun _ => bMB A) A3 ib q c y); auto; try lia; apply HS3|].
            intros A4 HS4. cbn [wpq fst snd]. exists (lst ++ [(c, y)]). split; [|split; [|split]].
            + apply gath_snoc with (A1 := A2); auto; try lia. eapply slot_set_ext; [|eapply slot_set_trans; [exact HS3|exact HS4]]. intros i _. unfold capx. fold q. destruct (i =? ib); lia.
            + rewrite app_length. simpl. unfold q. lia.
            + rewrite map_app, Hlst. reflexivity.
            + intros z Hz. apply in_app_or in Hz as [Hz|[<-|[]]]; auto. cbn [fst snd]. split; auto. intros k Hk. rewrite Vy by auto. unfold x. apply G9; auto.
          - cbn [wpq fst snd]. exists lst. rewrite app_nil_r. auto. }
        intros [A3 ll3] (lst' & HGa' & E3 & Hlst' & Hval'). cbn [fst snd] in HGa', E3. subst ll3.
        apply wp_bind. unfold bws_upd. rewrite (rd_ok _ _ []) by lia. cbn [bind]. apply wp_bind. eapply wp_mono; [apply (blk_map_ok (bsq (bbs A) ib c) _ (fun _ => k0)); [rewrite G4; auto|auto]|].
        intros x (Lx & _ & _). rewrite G4 in Lx by auto. rewrite wr_ok by lia. cbn [bind wpq wix wjx wx]. apply wp_bind. rewrite wr_ok by lia. cbn [wpq].
        split; [apply wgat_next; auto|]. exists lst'. auto. }
    intros [[A2 w3] ll] (HG & lst & HGa & -> & Hlst & Hval). rewrite firstn_all in Hlst.
    pose proof (ga_kin _ _ _ _ _ HGa) as K2. pose proof K2 as (_ & _ & EN2 & EM2 & EB2 & KS2).
    apply wp_bind. eapply wp_mono; [apply b_wnnz_ok; [auto|lia]|]. intros A3 HN3. cbn [wpq fst snd].
    assert (Hi1 : ib < bNB A1) by lia. destruct (gath_done _ _ _ _ _ _ Hi1 HGa HN3) as (K3 & HO3 & HR3 & Hoth). pose proof K3 as (_ & _ & EN3 & EM3 & EB3 & KS3).
    assert (Hlen : length lst <= bMB A). { rewrite <- (map_length fst), Hlst. exact Hks. }
    assert (HT3 : own (fun _ => bMB A) A3). { eapply own_cap_eq; [|exact HO3]. intros i _. cbn beta. destruct (i =? ib); lia. }
    assert (Hsame : forall i, i < bNB A -> i <> ib -> row_same (fun _ => bMB A) A A3 i).
    { intros i Hi' Hne. eapply row_same_trans; [exact K1| |apply Hoth; auto; lia]. eapply nnz_set_same; eauto. }
    assert (Hok : brow_ok A3 ib).
    { eapply lrow_brow_ok; [exact HR3|]. rewrite EB3, EB1, EN3, EN1. split.
      - rewrite Hlst. apply NoDup_filter. apply H2.
      - intros x Hx. split; [|apply Hval; auto]. assert (Hin : In (fst x) (filter kp L)) by (rewrite <- Hlst; apply in_map; auto). apply filter_In in Hin as [Hin _]. apply (wr_lt _ _ _ _ _ _ H2). auto. }
    split; [eapply kin_trans; eauto|]. split; [|split; [|split; [|split; [|split]]]].
    - split; [auto|]. split.
      + eapply own_mono; [exact HT3|]. intros i Hi'. rewrite EN3, EN1 in Hi'. destruct (Nat.eq_dec i ib) as [->|Hne].
        * destruct HR3 as [-> _]. auto.
        * rewrite (rs_nnz _ _ _ _ (Hsame i Hi' Hne)). apply ebwf_nnz; auto.
      + intros i Hi'. rewrite EN3, EN1 in Hi'. destruct (Nat.eq_dec i ib) as [->|Hne]; auto.
        apply (row_same_ok (fun _ => bMB A) A A3 i); auto; [eapply kin_trans; eauto|apply ebwf_nnz; auto].
    - unfold tidy. rewrite EM3, EM1. auto.
    - intros n (R1 & R2 & R3). unfold roomy, tidy. rewrite EM3, EM1, EN3, EN1, EB3, EB1. split; auto. split; auto.
      intros i q x Hi' Hq Hx. destruct (Nat.eq_dec i ib) as [->|Hne].
      + rewrite (nnz_set_obj _ _ _ _ _ _ HN3) in Hx. destruct (Nat.lt_ge_cases q (length lst)) as [Hql|Hql].
        * rewrite (proj2 (ga_row _ _ _ _ _ HGa q Hql)) in Hx. injection Hx as <-. assert (Hin : In (nth q lst (0, [])) lst) by (apply nth_In; auto).
          destruct (Hval _ Hin) as [Hsz _]. etransitivity; [|exact Hsz]. apply R2; auto.
          assert (Hin' : In (fst (nth q lst (0, []))) (filter kp L)) by (rewrite <- Hlst; apply in_map; auto). apply filter_In in Hin' as [Hin' _]. apply (wr_lt _ _ _ _ _ _ H2). auto.
        * rewrite (ga_objs _ _ _ _ _ HGa) in Hx by (auto; lia). rewrite (nnz_set_obj _ _ _ _ _ _ HN1) in Hx. eapply R3; eauto.
      + rewrite (rs_obj _ _ _ _ (Hsame i Hi' Hne)) in Hx by auto. eapply R3; eauto.
    - exact Hsame.
    - intros jb k Hj Hk. apply (row_values A3 ib lst L kp v jb k); auto.
      + apply H2.
      + intros x Hx k' Hk'. rewrite EB3, EB1 in Hk'. apply (proj2 (Hval x Hx)). auto.
      + rewrite EB3, EB1. exact Hk.
      + intros Hn. apply (wr_zero _ _ _ _ _ _ H2); auto.
    - apply wgat_end in HG. exact HG.
  Qed.

  Lemma wrep_sz NB m2 sz sz' (w : wsp (list F)) : wrep NB m2 sz w [] (fun _ _ => k0) -> wrep NB m2 sz' w [] (fun _ _ => k0).
  Proof. intros []. constructor; auto. intros c k []. Qed.

  (** the row of A the body finds is still the one of the matrix added to *)
  Lemma add_cols_ext alpha beta A A' B ib : bcols A' ib = bcols A ib -> add_cols alpha beta A' B ib = add_cols alpha beta A B ib.
  Proof. intros E. unfold add_cols. rewrite E. reflexivity. Qed.

  (** the parallel loop, with work blocks of m2 elements *)
  Theorem badd_loop_ok (keep : F -> bool) (alpha beta : F) A B (g : nat -> F) nth_ sched m2 : ebwf A -> tidy A -> ebwf B -> eb_dims A B -> bMB A = bMB B ->
    add_fits keep alpha beta A B -> full_sched (bNB A) nth_ sched -> (forall ib c, ib < bNB A -> c < bNB A -> bsq (bbs A) ib c <= m2) ->
    exists A' w, par_for sched (fun ib s => badd_row keep alpha beta B g ib s) A (fun _ => bws_new (bNB A) m2) = Ok (A', w) /\
      ebwf A' /\ tidy A' /\ (forall n, roomy n A -> roomy n A') /\ same_dims A A' /\
      meq (bN A) (ebmx A') (bcut (bbs A) keep (madd (mscale alpha (ebmx A)) (mscale beta (ebmx B)))).
  Proof.
    intros HW HT HWB (DN & DNB & DBS) DMB Hfits [HP _] Hm. pose proof HW as (HS & HO & HR). pose proof HWB as (HSB & _ & _).
    match goal with |- exists A' w, ?f = Ok (A', w) /\ @?Q A' => cut (exists r, f = Ok r /\ Q (fst r)); [intros ((A', w) & E & H); exists A', w; auto|] end.
    apply wp_ok.
    set (X := madd (mscale alpha (ebmx A)) (mscale beta (ebmx B))) in *.
    assert (HX : forall ib jb k, ib < bNB A -> jb < bNB A -> k < bsq (bbs A) ib jb -> xb (bbs A) X ib jb k = kadd (kmul alpha (bel A ib jb k)) (kmul beta (bel B ib jb k))).
    { intros ib jb k Hi Hj Hk. unfold bsq in Hk. rewrite <- (ebmx_xb A) by auto. rewrite <- (ebmx_xb B) by (auto; congruence). rewrite <- DBS. reflexivity. }
    assert (HNDs : NoDup (map snd sched)). { eapply Permutation_NoDup; [symmetry; exact HP|apply seq_NoDup]. }
    eapply wp_mono. { apply (par_for_inv (fun done A' (w : nat -> wsp (list F)) => kin A A' /\ ebwf A' /\ tidy A' /\ (forall n, roomy n A -> roomy n A') /\
        (forall i, i < bNB A -> ~ In i done -> row_same (fun _ => bMB A) A A' i) /\
        (forall i jb k, In i done -> jb < bNB A -> k < bsq (bbs A) i jb -> bel A' i jb k = if blk_keep (bbs A) keep X i jb then xb (bbs A) X i jb k else k0) /\
        (forall t, wrep (bNB A) m2 (fun _ => 0) (w t) [] (fun _ _ => k0)))).
      - split; [apply kin_refl|]. split; auto. split; auto. split; auto. split; [intros; apply row_same_refl|]. split; [intros i jb k []|]. intros t. apply wrep_new.
      - intros pre t ib post A1 w Esc (K & W1 & T1 & R1 & Hold & Hdone & Hw). pose proof K as (_ & _ & EN1 & EM1 & EB1 & KS1).
        assert (Hib : ib < bNB A). { assert (In ib (seq 0 (bNB A))); [|rewrite in_seq in *; lia]. eapply Permutation_in; [exact HP|]. rewrite Esc, map_app. apply in_or_app. right. left. auto. }
        assert (Hnin : ~ In ib (map snd pre)). { rewrite Esc, map_app in HNDs. simpl in HNDs. apply NoDup_remove in HNDs as [_ Hn]. intros H. apply Hn. apply in_or_app. auto. }
        pose proof (Hold ib Hib Hnin) as Hrow. assert (Hbn : bnz A ib <= bMB A) by (apply ebwf_nnz; auto).
        assert (Hbel : forall c k, bel A1 ib c k = bel A ib c k) by (intros; eapply row_same_bel; eauto).
        assert (Hcols : bcols A1 ib = bcols A ib). { rewrite <- !brow_cols. erewrite row_same_brow; eauto. }
        set (v := fun c k => kadd (kmul alpha (bel A1 ib c k)) (kmul beta (bel B ib c k))).
        assert (Hkk : forall c, c < bNB A -> kept keep (bsq (bbs A1) ib) v c = blk_keep (bbs A) keep X ib c).
        { intros c Hc. rewrite EB1. apply blk_keep_kept. intros k Hk. unfold v. rewrite Hbel. symmetry. apply HX; auto. }
        assert (Hcl : forall c, In c (add_cols alpha beta A B ib) -> c < bNB A).
        { intros c Hc. unfold add_cols in Hc. rewrite !touch_all_in in Hc.
          assert (Hlt : forall Y : eb, ebwf Y -> bNB Y = bNB A -> In c (bcols Y ib) -> c < bNB A).
          { intros Y (_ & _ & HY) EY Hc'. unfold bcols in Hc'. apply in_map_iff in Hc' as (jp & <- & Hj). apply in_seq in Hj. rewrite <- EY. apply (HY ib ltac:(lia)). lia. }
          destruct Hc as [[[]|Hc]|Hc].
          - destruct (keqb alpha k0); [destruct Hc|]. eapply (Hlt A); auto.
          - destruct (keqb beta k0); [destruct Hc|]. eapply (Hlt B); auto. }
        assert (Hks : filter (kept keep (bsq (bbs A1) ib) v) (add_cols alpha beta A1 B ib) = add_kept keep alpha beta A B ib).
        { rewrite (add_cols_ext _ _ _ _ _ _ Hcols). unfold add_kept. apply filter_ext_in. intros c Hc. apply Hkk. auto. }
        destruct (Hfits ib Hib) as [Hf1 Hf2].
        eapply wp_mono. { apply (badd_row_ok keep alpha beta A1 B g ib (w t) m2); auto; try congruence.
          - intros c Hc. rewrite EN1 in Hc. unfold bsq. rewrite EB1. apply Hm; auto.
          - rewrite EN1. eapply wrep_sz. apply Hw.
          - change (length (filter (kept keep (bsq (bbs A1) ib) v) (add_cols alpha beta A1 B ib)) <= bMB A1). rewrite Hks, EM1. auto.
          - change (forall q, q < length (filter (kept keep (bsq (bbs A1) ib) v) (add_cols alpha beta A1 B ib)) -> slot_fits A1 ib q (bsq (bbs A1) ib (nth q (filter (kept keep (bsq (bbs A1) ib) v) (add_cols alpha beta A1 B ib)) 0))).
            rewrite Hks. intros q Hq. specialize (Hf2 q Hq). unfold slot_fits in Hf2 |- *. rewrite (rs_addr _ _ _ _ Hrow) by lia. rewrite (rs_obj _ _ _ _ Hrow) by lia. unfold bsq. rewrite EB1. exact Hf2. }
        intros [A2 w2] (K2 & W2 & T2 & R2 & Hsame & Hval & Hw2). cbn [fst snd] in *.
        split; [eapply kin_trans; eauto|]. split; auto. split; auto. split; auto. split; [|split].
        + intros i Hi Hd. eapply row_same_trans; [exact K| |].
          * apply Hold; auto. intros H. apply Hd, in_or_app; auto.
          * rewrite <- EM1. apply Hsame; [lia|]. intros ->. apply Hd, in_or_app; right; left; auto.
        + intros i jb k Hin Hj Hk. apply in_app_or in Hin as [Hin|[<-|[]]].
          * assert (Hi : i < bNB A). { assert (In i (seq 0 (bNB A))); [|rewrite in_seq in *; lia]. eapply Permutation_in; [exact HP|]. rewrite Esc, map_app. apply in_or_app. auto. }
            rewrite <- (Hdone i jb k) by auto. eapply row_same_bel; [apply Hsame; [lia|]| |auto].
            { intros ->; auto. } { apply ebwf_nnz; auto. lia. }
          * rewrite Hval by (try lia; rewrite EB1; auto). change (fun c k => kadd (kmul alpha (bel A1 ib c k)) (kmul beta (bel B ib c k))) with v. rewrite Hkk by auto.
            destruct (blk_keep _ _ _ _ _); auto. rewrite HX, Hbel by auto. reflexivity.
        + intros t'. unfold upd_fun. destruct (t' =? t); auto. eapply wrep_sz. rewrite <- EN1. exact Hw2. }
    intros [A' w] (K & W & T & R & _ & Hdone & _). cbn [fst snd wpq] in *. pose proof K as (EN' & EM' & ENB' & EMB' & EB' & _).
    split; auto. split; auto. split; auto. split; [unfold same_dims; auto|]. rewrite <- EN'. apply meq_blocks; [apply W|]. rewrite ENB', EB'. intros ib jb k Hi Hj Hk.
    rewrite bcut_xb by (rewrite ?(sh_bs A HS); auto). apply Hdone; auto. eapply Permutation_in; [symmetry; exact HP|]. apply in_seq; lia.
  Qed.

  Theorem eb_add_ok (keep : F -> bool) (alpha beta : F) A B (g : nat -> F) nth_ sched : ebwf A -> tidy A -> ebwf B -> eb_dims A B -> bMB A = bMB B ->
    add_fits keep alpha beta A B -> full_sched (bNB A) nth_ sched ->
    exists A', eb_add keep alpha beta A B g sched = Ok A' /\ ebwf A' /\ tidy A' /\ (forall n, roomy n A -> roomy n A') /\ same_dims A A' /\
      meq (bN A) (ebmx A') (bcut (bbs A) keep (madd (mscale alpha (ebmx A)) (mscale beta (ebmx B)))).
  Proof.
    intros HW HT HWB D DMB Hfits Hs. pose proof D as (DN & DNB & DBS). pose proof HW as (HS & HO & HR). pose proof HWB as (HSB & _ & _). unfold eb_add.
    rewrite DNB, Nat.eqb_refl. cbn [negb]. rewrite (b_bs_ok A 0), (b_bs_ok B 0) by (auto; try apply HS; rewrite <- DNB; apply HS). cbn [bind].
    rewrite <- DBS, Nat.eqb_refl. cbn [negb]. rewrite <- DNB.
    destruct (maxbsize_ok (bNB A) (bbs A)) as (m & Em & Hm & _); [rewrite (sh_bs A HS); auto|]. rewrite Em. cbn [bind].
    destruct (badd_loop_ok keep alpha beta A B g nth_ sched (m * m)) as (A' & w & E & H); auto.
    { intros ib c Hi Hc. unfold bsq. apply Nat.mul_le_mono; apply Hm; auto. }
    exists A'. rewrite E. cbn [bind]. auto.
  Qed.

  (** ** When there is room: blocks of one size *)
  Lemma roomy_0 A : tidy A <-> roomy 0 A.
  Proof. split; [intros H; split; auto; split; intros; lia|intros H; apply H]. Qed.
  Lemma clean_roomy n A : ebwf A -> clean A -> (forall ib jb, ib < bNB A -> jb < bNB A -> n <= bsz (bbs A) ib * bsz (bbs A) jb) -> roomy n A.
  Proof.
    intros HW HC H. pose proof HW as (HS & HO & HR). split; [apply clean_tidy; auto|]. split; auto. intros ib jp x Hi Hj Hx.
    destruct (Nat.lt_ge_cases jp (bnz A ib)) as [Hl|Hl].
    - destruct (ebwf_slot A ib jp) as (_ & Hc & Hx' & L); auto. rewrite Hx in Hx'. injection Hx' as E. rewrite E. specialize (H ib (scol A ib jp) Hi Hc). lia.
    - unfold bobj in Hx. rewrite (HC ib jp) in Hx by (auto; lia). discriminate.
  Qed.

  Lemma add_cols_lt alpha beta A B ib c : ebwf A -> ebwf B -> bNB B = bNB A -> ib < bNB A -> In c (add_cols alpha beta A B ib) -> c < bNB A.
  Proof.
    intros WA WB EN Hi Hc. unfold add_cols in Hc. rewrite !touch_all_in in Hc.
    assert (Hlt : forall Y : eb, ebwf Y -> bNB Y = bNB A -> In c (bcols Y ib) -> c < bNB A).
    { intros Y (_ & _ & HY) EY Hc'. unfold bcols in Hc'. apply in_map_iff in Hc' as (jp & <- & Hj). apply in_seq in Hj. rewrite <- EY. apply (HY ib ltac:(lia)). lia. }
    destruct Hc as [[[]|Hc]|Hc].
    - destruct (keqb alpha k0); [destruct Hc|]. eapply (Hlt A); auto.
    - destruct (keqb beta k0); [destruct Hc|]. eapply (Hlt B); auto.
  Qed.
  Lemma add_cols_nodup alpha beta A B ib : NoDup (add_cols alpha beta A B ib).
  Proof. unfold add_cols. apply touch_all_nodup, touch_all_nodup. constructor. Qed.

  Lemma uniform_fits s (keep : F -> bool) alpha beta A B : ebwf A -> ebwf B -> eb_dims A B -> uniform s A -> roomy (s * s) A ->
    (forall ib, ib < bNB A -> length (add_cols alpha beta A B ib) <= bMB A) -> add_fits keep alpha beta A B.
  Proof.
    intros WA WB (_ & DNB & _) HU (HT & _ & HR) Hroom ib Hi. specialize (Hroom ib Hi).
    assert (Hl : length (add_kept keep alpha beta A B ib) <= length (add_cols alpha beta A B ib)) by (apply filter_length_le).
    split; [lia|]. intros q Hq. assert (Hc : nth q (add_kept keep alpha beta A B ib) 0 < bNB A).
    { pose proof (nth_In _ 0 Hq) as Hin. unfold add_kept in Hin at 2. apply filter_In in Hin as [Hin _]. eapply (add_cols_lt alpha beta A B ib); eauto. }
    rewrite (HU ib Hi), (HU _ Hc). unfold slot_fits. destruct (saddr A ib q) as [a|] eqn:Ea; auto. right.
    destruct HT as (_ & HT & _). assert (Hqm : q < bMB A) by lia. destruct (HT ib q a Hi Hqm Ea) as (x & Hx).
    assert (Ho : bobj A ib q = Some x) by (unfold bobj; rewrite Ea; auto). exists x. split; auto. apply (HR ib q x); auto.
  Qed.
  Lemma square_room alpha beta A B ib : ebwf A -> ebwf B -> eb_dims A B -> ib < bNB A -> length (add_cols alpha beta A B ib) <= bNB A.
  Proof.
    intros WA WB (_ & DNB & _) Hi. rewrite <- (seq_length (bNB A) 0). apply NoDup_incl_length; [apply add_cols_nodup|].
    intros c Hc. apply in_seq. eapply (add_cols_lt alpha beta A B ib) in Hc; auto. lia.
  Qed.

  Theorem eb_add_uniform s (keep : F -> bool) (alpha beta : F) A B (g : nat -> F) nth_ sched : ebwf A -> ebwf B -> eb_dims A B -> bMB A = bMB B ->
    uniform s A -> roomy (s * s) A -> (forall ib, ib < bNB A -> length (add_cols alpha beta A B ib) <= bMB A) -> full_sched (bNB A) nth_ sched ->
    exists A', eb_add keep alpha beta A B g sched = Ok A' /\ ebwf A' /\ roomy (s * s) A' /\ same_dims A A' /\
      meq (bN A) (ebmx A') (bcut (bbs A) keep (madd (mscale alpha (ebmx A)) (mscale beta (ebmx B)))).
  Proof.
    intros WA WB D DM HU HR Hroom Hs. destruct (eb_add_ok keep alpha beta A B g nth_ sched) as (A' & H1 & H2 & H3 & H4 & H5 & H6); auto.
    - apply HR.
    - eapply uniform_fits; eauto.
    - exists A'. auto.
  Qed.

  (** ... or nothing is dropped: alpha is not 0, and every block of the two
      matrices passes the threshold in the sum *)
  Lemma kept_fits (keep : F -> bool) alpha beta A B : ebwf A -> clean A -> ebwf B -> alpha <> k0 ->
    (forall ib, ib < bNB A -> add_kept keep alpha beta A B ib = add_cols alpha beta A B ib) ->
    (forall ib, ib < bNB A -> length (add_cols alpha beta A B ib) <= bMB A) -> add_fits keep alpha beta A B.
  Proof.
    intros WA HC WB Ha HK Hroom ib Hi. pose proof WA as (HS & HO & HR). rewrite HK by auto. split; auto. intros q Hq.
    destruct (Nat.lt_ge_cases q (bnz A ib)) as [Hl|Hl].
    - right. destruct (ebwf_slot A ib q) as (_ & Hc & Hx' & L); auto. exists (sblk A ib q). split; auto.
      assert (E : nth q (add_cols alpha beta A B ib) 0 = scol A ib q); [|rewrite E; auto].
      unfold add_cols. apply keqb_false in Ha. rewrite Ha. rewrite (touch_all_new (bcols A ib) []) by (simpl; apply HR; auto). simpl app.
      assert (Hpre : forall cs L, exists T, touch_all L cs = L ++ T).
      { intros cs. induction cs as [|c t IH]; intros L0; [exists []; rewrite app_nil_r; auto|]. change (touch_all L0 (c :: t)) with (touch_all (touch L0 c) t).
        destruct (IH (touch L0 c)) as (T & ->). destruct (touch_spec L0 c) as [[_ ->]|[_ ->]]; [exists T; auto|]. exists ([c] ++ T). rewrite app_assoc. auto. }
      destruct (Hpre (if keqb beta k0 then [] else bcols B ib) (bcols A ib)) as (T & ->).
      rewrite app_nth1 by (unfold bcols; rewrite map_length, seq_length; auto). unfold bcols. rewrite nth_map_seq by auto. reflexivity.
    - left. apply HC; auto. specialize (Hroom ib Hi). lia.
  Qed.

  (** ** add_identity, scale_add_identity: the identity has the sizes stored by
      the first constructor call *)
  Lemma sizes_of A : eb_shape A -> sizes_for (mkDef (bbs A) (bNB A) (bMB A)) (bN A).
  Proof. intros HS. split; [apply HS|]. split; [apply HS|]. split; [apply HS|]. cbn. symmetry. apply HS. Qed.

  Lemma blk_keep_meq bs (keep : F -> bool) X Y i j : i < boff bs (length bs) -> j < boff bs (length bs) -> meq (boff bs (length bs)) X Y ->
    blk_keep bs keep X (fst (bloc bs i)) (fst (bloc bs j)) = blk_keep bs keep Y (fst (bloc bs i)) (fst (bloc bs j)).
  Proof.
    intros Hi Hj H. destruct (bloc_spec bs i Hi) as (ib & ii & -> & P2 & P3 & P4). destruct (bloc_spec bs j Hj) as (jb & jj & -> & Q2 & Q3 & Q4). cbn [fst].
    unfold blk_keep. apply existsb_ext. intros k Hk. apply in_seq in Hk. destruct (pos_split _ _ _ (proj2 Hk)) as (R1 & R2 & R3). f_equal. apply H; apply boff_in; auto.
  Qed.
  Lemma bcut_meq bs N (keep : F -> bool) X Y : N = boff bs (length bs) -> meq N X Y -> meq N (bcut bs keep X) (bcut bs keep Y).
  Proof. intros -> H i j Hi Hj. unfold bcut. rewrite (blk_keep_meq bs keep X Y) by auto. rewrite H by auto. reflexivity. Qed.

  Theorem eb_add_identity_ok s c (keep : F -> bool) (beta : F) A (g : nat -> F) nth_ sched : ebwf A -> 0 < bN A -> own_sizes c A ->
    uniform s A -> roomy (s * s) A -> (forall ib, ib < bNB A -> In ib (bcols A ib) \/ bnz A ib < bMB A) -> full_sched (bNB A) nth_ sched ->
    exists A', eb_add_identity c keep beta A g sched = Ok (c, A') /\ ebwf A' /\ roomy (s * s) A' /\ same_dims A A' /\
      meq (bN A) (ebmx A') (bcut (bbs A) keep (madd (ebmx A) (mscale beta mid))).
  Proof.
    intros HW HN Hc HU HR Hroom Hs. pose proof HW as (HS & HO & HRows). unfold eb_add_identity. rewrite Hc.
    destruct (eb_identity_ok (F:=F) (Some (mkDef (bbs A) (bNB A) (bMB A))) (bN A) 1 (mkDef (bbs A) (bNB A) (bMB A)) g) as (I & EI & WI & CI & I1 & I2 & I3 & I4 & I5 & I6 & I7); auto.
    { apply sizes_of; auto. }
    rewrite EI. cbn [bind]. cbn in I3, I4, I5. assert (DI : eb_dims A I) by (unfold eb_dims; auto).
    destruct (eb_add_uniform s keep k1 beta A I g nth_ sched) as (A' & EA & WA & RA & DA & VA); auto.
    { intros ib Hi. unfold add_cols. destruct (keqb k1 k0) eqn:E1.
      - apply keqb_spec in E1. (* 1 = 0: nothing is non-zero *)
        assert (Hb : keqb beta k0 = true). { apply keqb_spec. transitivity (kmul k1 beta); [ring|]. rewrite E1. ring. }
        rewrite Hb. simpl. lia.
      - rewrite (touch_all_new (bcols A ib) []) by (simpl; apply HRows; auto). simpl app. pose proof (ebwf_nnz A ib HW Hi).
        assert (Lc : length (bcols A ib) = bnz A ib) by (unfold bcols; rewrite map_length, seq_length; auto).
        destruct (keqb beta k0); [change (length (bcols A ib) <= bMB A); lia|]. rewrite I6 by (rewrite I3; auto). change (touch_all (bcols A ib) [ib]) with (touch (bcols A ib) ib).
        destruct (touch_spec (bcols A ib) ib) as [[_ ->]|[Hn ->]]; [lia|]. rewrite app_length. simpl. destruct (Hroom ib Hi); [tauto|lia]. }
    rewrite EA. cbn [bind]. exists A'. split; auto. split; auto. split; auto. split; auto.
    eapply meq_trans'; [exact VA|]. apply bcut_meq; [apply shape_N; auto|].
    intros i j Hi Hj. unfold madd, mscale. rewrite I7 by auto. ring.
  Qed.
  Theorem eb_scale_add_identity_ok s c (keep : F -> bool) (alpha beta : F) A (g : nat -> F) nth_ sched : ebwf A -> 0 < bN A -> own_sizes c A ->
    uniform s A -> roomy (s * s) A -> (forall ib, ib < bNB A -> In ib (bcols A ib) \/ bnz A ib < bMB A) -> full_sched (bNB A) nth_ sched ->
    exists A', eb_scale_add_identity c keep alpha beta A g sched = Ok (c, A') /\ ebwf A' /\ roomy (s * s) A' /\ same_dims A A' /\
      meq (bN A) (ebmx A') (bcut (bbs A) keep (madd (mscale alpha (ebmx A)) (mscale beta mid))).
  Proof.
    intros HW HN Hc HU HR Hroom Hs. pose proof HW as (HS & _). unfold eb_scale_add_identity.
    destruct (eb_scale_inplace_ok alpha A HW) as (A1 & E1 & W1 & _ & R1 & D1 & C1 & V1). rewrite E1. cbn [bind].
    pose proof D1 as (DN & DM & DNB & DMB & DB).
    destruct (eb_add_identity_ok s c keep beta A1 g nth_ sched) as (A2 & E2 & W2 & R2 & D2 & V2); auto; try congruence; try lia.
    - intros ib Hi. rewrite DB. apply HU. lia.
    - intros ib Hi. rewrite DNB in Hi. rewrite bnz_cols, C1, <- bnz_cols, DMB by auto. auto.
    - exists A2. split; auto. split; auto. split; auto. destruct D2 as (F1 & F2 & F3 & F4 & F5). split; [unfold same_dims; repeat split; congruence|].
      rewrite DN, DB in V2. eapply meq_trans'; [exact V2|]. apply bcut_meq; [apply shape_N; auto|].
      intros i j Hi Hj. unfold madd. rewrite V1 by auto. reflexivity.
  Qed.
End Add.
