(** bml_add_norm_ellblock returns where the slots it needs exist; its matrix and its number. *)
From Verif Require Import Base BaseFacts Spec SpecFacts EllpackModel EllpackSpec EllblockModel EllblockSpec EllblockFacts EllblockHeap EllblockRead EllblockBuild EllblockMake EllblockSet EllblockCopy EllblockWork EllblockAdd EllblockNorm DenseFacts EllblockAddNormModel EllblockAddNorm EllblockAddNormSpec.
From Coq Require Import Permutation.

Lemma forM_two {X S T U} (p : S -> T) (q : S -> U) (f : X -> S -> res S) (h : X -> T -> res T) (g : X -> U -> res U) :
  (forall x s t u, h x (p s) = Ok t -> g x (q s) = Ok u -> exists s', f x s = Ok s' /\ p s' = t /\ q s' = u) ->
  forall l s t u, forM l h (p s) = Ok t -> forM l g (q s) = Ok u -> exists s', forM l f s = Ok s' /\ p s' = t /\ q s' = u.
Proof.
  intros H. induction l as [|x l IH]; cbn [forM]; intros s t u E1 E2.
  - injection E1 as <-. injection E2 as <-. eauto.
  - apply bind_inv in E1 as (t1 & E1 & F1). apply bind_inv in E2 as (u1 & E2 & F2). destruct (H _ _ _ _ E1 E2) as (s1 & Es & <- & <-). rewrite Es. cbn [bind]. auto.
Qed.

Section AddNormTotal.
  Context {F : scalar}.
  Add Ring KRant : (k_ring F).
  Local Notation eb := (eb F).
  Implicit Types A B : eb.

  (** y seen as the array of a second set of work arrays *)
  Definition yws (w : wsp (list F)) (ys : list (list F)) : wsp (list F) := mkWs (wix w) (wjx w) ys.
  Definition yof (s : @an_row F) : wsp (list F) * nat := let '(w, ys, l) := s in (yws w ys, l).

  Lemma an_touch_two ib jb n s t u : bws_touch ib jb n (xof s) = Ok t -> bws_touch ib jb n (yof s) = Ok u ->
    exists s', an_touch ib jb n s = Ok s' /\ xof s' = t /\ yof s' = u.
  Proof.
    destruct s as [[w ys] l]. cbn [xof yof]. intros H1 H2. unfold an_touch. unfold bws_touch, yws in *. cbn [wix wjx wx] in *. inv_bind H1. rewrite E in *. cbn [bind] in *.
    destruct (x =? 0).
    - inv_bind H1. inv_bind H1. inv_bind H1. inv_bind H1. inv_bind H1. injection H1 as <-. inv_bind H2. inv_bind H2. inv_bind H2. inv_bind H2. inv_bind H2. injection H2 as <-. rewrite E3 in E8. injection E8 as <-. rewrite E4 in E9. injection E9 as <-.
      repeat match goal with H : ?a = Ok _ |- context [?a] => rewrite H; cbn [bind] end. 
      eexists. split; [reflexivity|]. cbn [xof yof]. split; reflexivity.
    - injection H1 as <-. injection H2 as <-. cbn [bind]. eexists. split; [reflexivity|]. cbn [xof yof]. auto.
  Qed.
  Lemma an_acc_two bs NB MB B a b ib s t u : badd_acc bs NB MB B a ib (xof s) = Ok t -> badd_acc bs NB MB B b ib (yof s) = Ok u ->
    exists s', an_acc bs NB MB B a b ib s = Ok s' /\ xof s' = t /\ yof s' = u.
  Proof.
    unfold an_acc, badd_acc. intros H1 H2. inv_bind H1. rewrite E in *. cbn [bind] in *. revert H1 H2. apply (forM_two xof yof). clear.
    intros jp s t u H1 H2. cbv zeta in *. inv_bind H1. rewrite E in *. cbn [bind] in *. inv_bind H1. rewrite E0 in *. cbn [bind] in *. inv_bind H1. rewrite E1 in *. cbn [bind] in *.
    inv_bind H1. inv_bind H2. destruct (an_touch_two _ _ _ _ _ _ E2 E3) as ([[w ys] l] & -> & <- & <-). cbn [xof yof bind] in *.
    inv_bind H1. rewrite E4 in *. cbn [bind] in *. inv_bind H1. inv_bind H2. injection H1 as <-. injection H2 as <-. rewrite E5. cbn [bind].
    unfold bws_upd, yws in E6. cbn [wix wjx wx] in E6. inv_bind E6. inv_bind E6. inv_bind E6. injection E6 as <-.
    unfold bws_upd in E5. inv_bind E5. inv_bind E5. inv_bind E5. injection E5 as <-.
    rewrite E7. cbn [bind]. rewrite E8. cbn [bind]. rewrite E9. cbn [bind]. eexists. split; [reflexivity|]. cbn [xof yof yws wix wjx wx]. auto.
  Qed.
  Lemma an_acc_ok {e} B (a b : F) ib m2 w ys L v vy : ebwf B -> ib < bNB B ->
    (forall c, c < bNB B -> bsq (bbs B) ib c <= m2) -> wrep (bNB B) m2 (bsq (bbs B) ib) w L v -> wrep (bNB B) m2 (bsq (bbs B) ib) (yws w ys) L vy ->
    wpq e (an_acc (bbs B) (bNB B) (bMB B) B a b ib (w, ys, length L))
      (fun r => snd r = length (touch_all L (bcols B ib)) /\
        wrep (bNB B) m2 (bsq (bbs B) ib) (fst (fst r)) (touch_all L (bcols B ib)) (fun c k => kadd (v c k) (kmul a (bel B ib c k))) /\
        wrep (bNB B) m2 (bsq (bbs B) ib) (yws (fst (fst r)) (snd (fst r))) (touch_all L (bcols B ib)) (fun c k => kadd (vy c k) (kmul b (bel B ib c k)))).
  Proof.
    intros HW Hi Hm H1 H2. pose proof (badd_acc_ok (e:=False) B a ib m2 w L v HW Hi Hm H1) as G1. pose proof (badd_acc_ok (e:=False) B b ib m2 (yws w ys) L vy HW Hi Hm H2) as G2.
    apply wp_ok in G1 as (t & E1 & L1 & W1). apply wp_ok in G2 as (u & E2 & L2 & W2).
    destruct (an_acc_two (bbs B) (bNB B) (bMB B) B a b ib (w, ys, length L) t u E1 E2) as ([[w' ys'] l'] & E & <- & <-).
    rewrite E. cbn [wpq fst snd xof yof] in *. auto.
  Qed.

  Definition qq (sz : nat -> nat) (vy : nat -> nat -> F) (c : nat) : F := let q := bigsum (sz c) (fun k => kmul (vy c k) (vy c k)) in kmul q q.

  Lemma an_iter_ok {e} (keep : F -> bool) (alpha beta : F) A B ib w ys t m2 : ebwf A -> tidy A -> ebwf B ->
    bNB B = bNB A -> bMB B = bMB A -> bbs B = bbs A -> ib < bNB A ->
    (forall c, c < bNB A -> bsq (bbs A) ib c <= m2) -> wrep (bNB A) m2 (bsq (bbs A) ib) w [] (fun _ _ => k0) -> wrep (bNB A) m2 (bsq (bbs A) ib) (yws w ys) [] (fun _ _ => k0) ->
    let v := fun c k => kadd (kmul alpha (bel A ib c k)) (kmul beta (bel B ib c k)) in
    let vy := fun c k => kadd (bel A ib c k) (kopp (bel B ib c k)) in
    let ks := filter (kept keep (bsq (bbs A) ib) v) (an_cols A B ib) in
    length ks <= bMB A -> (forall q, q < length ks -> exists x, bobj A ib q = Some x /\ bsq (bbs A) ib (nth q ks 0) <= length x) ->
    wpq e (an_iter keep alpha beta B ib (A, w, ys, t)) (fun r => let '(A', w', ys', t') := r in
      kin A A' /\ ebwf A' /\ tidy A' /\ (forall i, i < bNB A -> i <> ib -> row_same (fun _ => bMB A) A A' i) /\
      (forall jb k, jb < bNB A -> k < bsq (bbs A) ib jb -> bel A' ib jb k = if kept keep (bsq (bbs A) ib) v jb then v jb k else k0) /\
      wrep (bNB A) m2 (bsq (bbs A) ib) w' [] (fun _ _ => k0) /\ wrep (bNB A) m2 (bsq (bbs A) ib) (yws w' ys') [] (fun _ _ => k0) /\
      t' = kadd t (bigsum (bNB A) (qq (bsq (bbs A) ib) vy))).
  Proof.
    intros HW HT HWB EN EM EB Hi Hm Hrep HrepY v vy ks Hks Hfit. pose proof HW as (HS & HO & HR). unfold an_iter.
    apply wp_bind. eapply wp_mono; [apply (an_acc_ok A alpha k1 ib m2 w ys []); eauto|]. intros [[w1 ys1] l1] (E1 & H1 & Y1). cbn [fst snd] in E1, H1, Y1. subst l1.
    apply wp_bind. eapply wp_mono with (P := fun s2 => snd s2 = length (an_cols A B ib) /\ wrep (bNB A) m2 (bsq (bbs A) ib) (fst (fst s2)) (an_cols A B ib) v /\
      wrep (bNB A) m2 (bsq (bbs A) ib) (yws (fst (fst s2)) (snd (fst s2))) (an_cols A B ib) vy).
    { rewrite <- EB, <- EN, <- EM. eapply wp_mono; [apply (an_acc_ok B beta (kopp k1) ib m2 w1 ys1)|].
      + auto.
      + lia.
      + rewrite EN, EB. auto.
      + rewrite EN, EB. exact H1.
      + rewrite EN, EB. exact Y1.
      + intros [[w2 ys2] l2] (E2 & H2 & Y2). split; auto. split; (eapply wrep_ext; [|eassumption]); intros; unfold v, vy; cbn beta; ring. }
    intros [[w2 ys2] l2] (E2 & H2 & Y2). cbn [fst snd] in E2, H2, Y2. subst l2. set (L := an_cols A B ib) in *.
    apply wp_bind. eapply wp_mono; [apply b_wnnz_ok; auto|]. intros A1 HN1.
    pose proof (ns_kin _ _ _ _ HN1) as K1. pose proof K1 as (_ & _ & EN1 & EM1 & EB1 & KS1).
    assert (HO1 : own (fun _ => bMB A) A1) by (eapply nnz_set_own; eauto).
    set (kp := kept keep (bsq (bbs A) ib) v) in *.
    apply wp_bind. eapply wp_mono. { apply (for_n_inv (fun p (s : eb * wsp (list F) * list (list F) * F * nat) => let '(A', w', ys', t', ll) := s in
        wgat (bNB A) m2 (bsq (bbs A) ib) w' L v p /\ wgat (bNB A) m2 (bsq (bbs A) ib) (yws w' ys') L vy p /\
        t' = kadd t (bigsum p (fun r => qq (bsq (bbs A) ib) vy (nth r L 0))) /\
        exists lst, gath (fun _ => bMB A) A1 ib lst A' /\ ll = length lst /\ map fst lst = filter kp (firstn p L) /\
        (forall x, In x lst -> bsq (bbs A) ib (fst x) <= length (snd x) /\ forall k, k < bsq (bbs A) ib (fst x) -> nth k (snd x) k0 = v (fst x) k))).
      - split; [apply wgat_0; auto|]. split; [apply wgat_0; auto|]. split; [cbn [bigsum]; ring|]. exists []. split; [apply gath_nil; auto|]. split; auto. split; auto. intros x [].
      - intros p [[[[A2 w3] ys3] t3] ll] Hp (HG & HGY & Ht & lst & HGa & -> & Hlst & Hval). pose proof (ga_kin _ _ _ _ _ HGa) as K2. pose proof K2 as (_ & _ & EN2 & EM2 & EB2 & KS2).
        pose proof HG as [G1 G2 G3 G4 G5 G6 G7 G8 G9]. assert (Hc : nth p L 0 < bNB A) by (apply G6, nth_In; auto).
        pose proof (wg_x _ _ _ _ _ _ _ HGY) as Q3. pose proof (wg_len _ _ _ _ _ _ _ HGY) as Q4. pose proof (wg_val _ _ _ _ _ _ _ HGY) as Q9. cbn [yws wx] in Q3, Q4, Q9.
        pose proof (wrep_room _ _ _ _ _ _ H2) as HLN.
        apply wp_bind. rewrite (rd_ok _ _ 0) by lia. cbn [wpq]. rewrite G7 by auto. set (c := nth p L 0) in *.
        apply wp_bind. rewrite (rd_ok _ _ []) by lia. cbn [wpq]. apply wp_bind. rewrite (rd_ok _ _ []) by lia. cbn [wpq].
        assert (HS2 : eb_shape A2) by auto.
        apply wp_bind. rewrite b_bs_ok by (auto; lia). cbn [wpq]. apply wp_bind. rewrite b_bs_ok by (auto; lia). cbn [wpq]. rewrite EB2, EB1. fold (bsq (bbs A) ib c).
        assert (Hcin : In c (skipn p L)) by (apply in_skipn_nth; auto).
        apply wp_bind. rewrite blk_above_ok by (rewrite G4 by auto; auto). cbn [wpq].
        assert (Ekp : existsb (fun k => keep (nth k (nth c (wx w3) []) k0)) (seq 0 (bsq (bbs A) ib c)) = kp c).
        { unfold kp, kept. apply existsb_ext. intros k Hk. apply in_seq in Hk. rewrite G9 by (auto; lia). reflexivity. }
        rewrite Ekp.
        apply wp_bind. unfold blk_sum. rewrite (sum_loop _ _ (fun k => kmul (vy c k) (vy c k))).
        2:{ intros k s' Hk. rewrite (rd_ok _ _ k0) by (rewrite Q4 by auto; specialize (Hm c Hc); lia). cbn [bind]. rewrite Q9 by auto. reflexivity. }
        cbn [wpq].
        apply wp_bind. eapply wp_mono with (P := fun s => exists lst', gath (fun _ => bMB A) A1 ib lst' (fst s) /\ snd s = length lst' /\ map fst lst' = filter kp (firstn (S p) L) /\
          (forall x, In x lst' -> bsq (bbs A) ib (fst x) <= length (snd x) /\ forall k, k < bsq (bbs A) ib (fst x) -> nth k (snd x) k0 = v (fst x) k)).
        { rewrite filter_firstn_S by auto. fold c. destruct (kp c) eqn:Ek.
          - destruct (nth_filter_firstn kp L p Hp Ek) as [Q1 Q2]. fold c in Q2. fold ks in Q1, Q2. rewrite <- Hlst, map_length in Q1, Q2.
            specialize (Hfit _ Q1). rewrite Q2 in Hfit. destruct Hfit as (z0 & Hz0 & Lz0).
            cbv zeta. set (q := length lst) in *. set (x := nth c (wx w3) []) in *.
            assert (HO2 : own (fun _ => bMB A) A2). { eapply own_cap_eq; [|apply (ga_own _ _ _ _ _ HGa)]. intros i _. cbn beta. destruct (i =? ib); lia. }
            assert (Hz2 : bobj A2 ib q = Some z0). { rewrite (ga_objs _ _ _ _ _ HGa) by (auto; lia). rewrite (nnz_set_obj _ _ _ _ _ _ HN1). exact Hz0. }
            assert (Hfit2 : slot_fits A2 ib q (bsq (bbs A) ib c)) by (right; eauto).
            pose proof (copy_slot (e:=e) (fun _ => bMB A) A2 ib q x (bsq (bbs A) ib c) (fun _ => k0) HS2 HO2 ltac:(lia) ltac:(lia) Hfit2 ltac:(unfold x; rewrite G4 by auto; auto)) as G.
            rewrite rd_ptr_ok in G by (auto; lia). cbn [bind] in G. pose proof Hz2 as Hz3. unfold bobj in Hz3. destruct (saddr A2 ib q) as [ad|]; [|discriminate]. cbn [bind] in G.
            match goal with |- wpq _ ?t _ => replace t with (bind (y <- b_blk A2 (b_at A2 ib q);; y <- blk_copy (bsq (bbs A) ib c) x y;; b_wblk A2 (b_at A2 ib q) y) (fun A3 => A4 <- b_widx A3 (b_at A2 ib q) c ;; Ok (A4, S q))) end.
            2:{ destruct (b_blk A2 _); cbn [bind]; auto. all: destruct (blk_copy _ _ _); cbn [bind]; auto. }
            apply wp_bind. eapply wp_mono; [exact G|]. intros A3 (y & HS3 & Ly & Vy). pose proof (ss_kin _ _ _ _ _ _ _ HS3) as K3. pose proof K3 as (_ & _ & EN3 & EM3 & EB3 & KS3).
            apply wp_bind. rewrite <- (kin_at A2 A3 ib q K3). eapply wp_mono; [apply (b_widx_ok (fun _ => bMB A) A3 ib q c y); auto; try lia; apply HS3|].
            intros A4 HS4. cbn [wpq fst snd]. exists (lst ++ [(c, y)]). split; [|split; [|split]].
            + apply gath_snoc with (A1 := A2); auto; try lia. eapply slot_set_ext; [|eapply slot_set_trans; [exact HS3|exact HS4]]. intros i _. unfold capx. fold q. destruct (i =? ib); lia.
            + rewrite app_length. simpl. unfold q. lia.
            + rewrite map_app, Hlst. reflexivity.
            + intros z Hz. apply in_app_or in Hz as [Hz|[<-|[]]]; auto. cbn [fst snd]. split; auto. intros k Hk. rewrite Vy by auto. unfold x. apply G9; auto.
          - cbn [wpq fst snd]. exists lst. rewrite app_nil_r. auto. }
        intros [A3 ll3] (lst' & HGa' & E3 & Hlst' & Hval'). cbn [fst snd] in HGa', E3. subst ll3.
        apply wp_bind. unfold bws_upd. rewrite (rd_ok _ _ []) by lia. cbn [bind]. apply wp_bind. eapply wp_mono; [apply (blk_map_ok (bsq (bbs A) ib c) _ (fun _ => k0)); [rewrite G4; auto|auto]|].
        intros x (Lx & _ & _). rewrite G4 in Lx by auto. rewrite wr_ok by lia. cbn [bind wpq wix wjx wx].
        apply wp_bind. eapply wp_mono; [apply (blk_map_ok (bsq (bbs A) ib c) _ (fun _ => k0)); [rewrite Q4; auto|auto]|].
        intros y (Ly & _ & _). rewrite Q4 in Ly by auto. apply wp_bind. rewrite wr_ok by lia. cbn [wpq].
        apply wp_bind. rewrite wr_ok by lia. cbn [wpq].
        split; [apply wgat_next; auto|]. split; [apply (wgat_next _ _ _ _ _ _ _ y HGY); auto|]. split; [|exists lst'; auto].
        rewrite Ht. cbn [bigsum]. fold c. unfold qq at 3. cbv zeta. ring. }
    intros [[[[A2 w3] ys3] t3] ll] (HG & HGY & Ht & lst & HGa & -> & Hlst & Hval). rewrite firstn_all in Hlst.
    pose proof (ga_kin _ _ _ _ _ HGa) as K2. pose proof K2 as (_ & _ & EN2 & EM2 & EB2 & KS2).
    apply wp_bind. eapply wp_mono; [apply b_wnnz_ok; [auto|lia]|]. intros A3 HN3. cbn [wpq fst snd].
    assert (Hi1 : ib < bNB A1) by lia. destruct (gath_done _ _ _ _ _ _ Hi1 HGa HN3) as (K3 & HO3 & HR3 & Hoth). pose proof K3 as (_ & _ & EN3 & EM3 & EB3 & KS3).
    assert (Hlen : length lst <= bMB A). { rewrite <- (map_length fst), Hlst. exact Hks. }
    assert (HT3 : own (fun _ => bMB A) A3). { eapply own_cap_eq; [|exact HO3]. intros i _. cbn beta. destruct (i =? ib); lia. }
    assert (Hsame : forall i, i < bNB A -> i <> ib -> row_same (fun _ => bMB A) A A3 i).
    { intros i Hi' Hne. eapply row_same_trans; [exact K1| |apply Hoth; auto; lia]. eapply nnz_set_same; eauto. }
    assert (Hok : brow_ok A3 ib).
    { eapply lrow_brow_ok; [exact HR3|]. rewrite EB3, EB1, EN3, EN1. split.
      - rewrite Hlst. apply NoDup_filter. apply H2.
      - intros x Hx. split; [|apply Hval; auto]. assert (Hin : In (fst x) (filter kp L)) by (rewrite <- Hlst; apply in_map; auto). apply filter_In in Hin as [Hin _]. apply (wr_lt _ _ _ _ _ _ H2). auto. }
    split; [eapply kin_trans; eauto|]. split; [|split; [|split; [|split; [|split; [|split]]]]].
    - split; [auto|]. split.
      + eapply own_mono; [exact HT3|]. intros i Hi'. rewrite EN3, EN1 in Hi'. destruct (Nat.eq_dec i ib) as [->|Hne].
        * destruct HR3 as [-> _]. auto.
        * rewrite (rs_nnz _ _ _ _ (Hsame i Hi' Hne)). apply ebwf_nnz; auto.
      + intros i Hi'. rewrite EN3, EN1 in Hi'. destruct (Nat.eq_dec i ib) as [->|Hne]; auto.
        apply (row_same_ok (fun _ => bMB A) A A3 i); auto; [eapply kin_trans; eauto|apply ebwf_nnz; auto].
    - unfold tidy. rewrite EM3, EM1. auto.
    - exact Hsame.
    - intros jb k Hj Hk. apply (row_values A3 ib lst L kp v jb k); auto.
      + apply H2.
      + intros x Hx k' Hk'. rewrite EB3, EB1 in Hk'. apply (proj2 (Hval x Hx)). auto.
      + rewrite EB3, EB1. exact Hk.
      + intros Hn. apply (wr_zero _ _ _ _ _ _ H2); auto.
    - apply wgat_end in HG. exact HG.
    - apply wgat_end in HGY. exact HGY.
    - rewrite Ht. f_equal. apply (sum_over L (bNB A) (qq (bsq (bbs A) ib) vy)).
      + apply H2.
      + apply (wr_lt _ _ _ _ _ _ H2).
      + intros c Hc Hn. unfold qq. rewrite bigsum_zero. { cbv zeta. ring. }
        intros k Hk. rewrite (wr_zero _ _ _ _ _ _ Y2) by auto. ring.
  Qed.

  Lemma bigsum_xb bs (X : mat F) ib jb : bigsum (bsq bs ib jb) (fun k => kmul (xb bs X ib jb k) (xb bs X ib jb k)) =
    bigsum (bsz bs ib) (fun ii => bigsum (bsz bs jb) (fun jj => kmul (X (boff bs ib + ii)%nat (boff bs jb + jj)%nat) (X (boff bs ib + ii)%nat (boff bs jb + jj)%nat))).
  Proof.
    unfold bsq. rewrite bigsum_flat. apply bigsum_ext. intros ii Hi. apply bigsum_ext. intros jj Hj. unfold xb.
    rewrite (Nat.add_comm (ii * _)), Nat.div_add, Nat.mod_add, Nat.div_small, Nat.mod_small by lia. reflexivity.
  Qed.

  Theorem eb_add_norm_ok (keep : F -> bool) (alpha beta : F) A B : ebwf A -> tidy A -> ebwf B -> eb_dims A B -> bMB A = bMB B ->
    an_slots keep alpha beta A B -> (forall ib jb, ib < bNB A -> jb < bNB A -> bsz (bbs A) ib * bsz (bbs A) jb <= BMAXSIZE) ->
    exists A', eb_add_norm keep alpha beta A B = Ok (A', blk_norm4 (bbs A) (bNB A) (fun i j => ksub (ebmx A i j) (ebmx B i j))) /\
      ebwf A' /\ tidy A' /\ same_dims A A' /\
      meq (bN A) (ebmx A') (bcut (bbs A) keep (madd (mscale alpha (ebmx A)) (mscale beta (ebmx B)))).
  Proof.
    intros HW HT HWB (DN & DNB & DBS) DMB Hfits Hm. pose proof HW as (HS & HO & HR). pose proof HWB as (HSB & _ & _). unfold eb_add_norm.
    set (X := madd (mscale alpha (ebmx A)) (mscale beta (ebmx B))) in *. set (Y := fun i j => ksub (ebmx A i j) (ebmx B i j)) in *.
    assert (HX : forall ib jb k, ib < bNB A -> jb < bNB A -> k < bsq (bbs A) ib jb -> xb (bbs A) X ib jb k = kadd (kmul alpha (bel A ib jb k)) (kmul beta (bel B ib jb k))).
    { intros ib jb k Hi Hj Hk. unfold bsq in Hk. rewrite <- (ebmx_xb A) by auto. rewrite <- (ebmx_xb B) by (auto; congruence). rewrite <- DBS. reflexivity. }
    assert (HY : forall ib jb k, ib < bNB A -> jb < bNB A -> k < bsq (bbs A) ib jb -> xb (bbs A) Y ib jb k = kadd (bel A ib jb k) (kopp (bel B ib jb k))).
    { intros ib jb k Hi Hj Hk. unfold bsq in Hk. rewrite <- (ebmx_xb A) by auto. rewrite <- (ebmx_xb B) by (auto; congruence). rewrite <- DBS. unfold xb, Y. ring. }
    set (T := fun ib => bigsum (bNB A) (qq (bsq (bbs A) ib) (fun c k => kadd (bel A ib c k) (kopp (bel B ib c k))))).
    assert (HTn : bigsum (bNB A) T = blk_norm4 (bbs A) (bNB A) Y).
    { unfold blk_norm4. apply bigsum_ext. intros ib Hi. unfold T. apply bigsum_ext. intros jb Hj. unfold qq. cbv zeta. rewrite <- bigsum_xb.
      assert (E : bigsum (bsq (bbs A) ib jb) (fun k => kmul (kadd (bel A ib jb k) (kopp (bel B ib jb k))) (kadd (bel A ib jb k) (kopp (bel B ib jb k)))) =
        bigsum (bsq (bbs A) ib jb) (fun k => kmul (xb (bbs A) Y ib jb k) (xb (bbs A) Y ib jb k))) by (apply bigsum_ext; intros k Hk; rewrite HY by auto; reflexivity).
      rewrite E. reflexivity. }
    assert (H : wpq False (for_n (bNB A) (an_iter keep alpha beta B) (A, bws_new (bNB A) BMAXSIZE, repeat (repeat k0 BMAXSIZE) (bNB A), k0))
      (fun s => let '(A', _, _, t) := s in kin A A' /\ ebwf A' /\ tidy A' /\ t = bigsum (bNB A) T /\
        (forall i jb k, i < bNB A -> jb < bNB A -> k < bsq (bbs A) i jb -> bel A' i jb k = if blk_keep (bbs A) keep X i jb then xb (bbs A) X i jb k else k0))).
    { eapply wp_mono. { apply (for_n_inv (fun n (s : eb * wsp (list F) * list (list F) * F) => let '(A', w, ys, t) := s in kin A A' /\ ebwf A' /\ tidy A' /\ t = bigsum n T /\
        (forall i, i < bNB A -> n <= i -> row_same (fun _ => bMB A) A A' i) /\
        (forall i jb k, i < n -> jb < bNB A -> k < bsq (bbs A) i jb -> bel A' i jb k = if blk_keep (bbs A) keep X i jb then xb (bbs A) X i jb k else k0) /\
        wrep (bNB A) BMAXSIZE (fun _ => 0) w [] (fun _ _ => k0) /\ wrep (bNB A) BMAXSIZE (fun _ => 0) (yws w ys) [] (fun _ _ => k0))).
      - split; [apply kin_refl|]. split; auto. split; auto. split; auto. split; [intros; apply row_same_refl|]. split; [intros; lia|]. split; apply wrep_new.
      - intros ib [[[A1 w] ys] t] Hib (K & W1 & T1 & Ht & Hold & Hdone & Hw & Hwy). pose proof K as (_ & _ & EN1 & EM1 & EB1 & KS1).
        pose proof (Hold ib Hib (le_n _)) as Hrow. assert (Hbn : bnz A ib <= bMB A) by (apply ebwf_nnz; auto).
        assert (Hbel : forall c k, bel A1 ib c k = bel A ib c k) by (intros; eapply row_same_bel; eauto).
        assert (Hcols : bcols A1 ib = bcols A ib). { rewrite <- !brow_cols. erewrite row_same_brow; eauto. }
        set (v := fun c k => kadd (kmul alpha (bel A1 ib c k)) (kmul beta (bel B ib c k))).
        assert (Hkk : forall c, c < bNB A -> kept keep (bsq (bbs A1) ib) v c = blk_keep (bbs A) keep X ib c).
        { intros c Hc. rewrite EB1. apply blk_keep_kept. intros k Hk. unfold v. rewrite Hbel. symmetry. apply HX; auto. }
        assert (Hcl : forall c, In c (an_cols A B ib) -> c < bNB A).
        { intros c Hc. unfold an_cols in Hc. rewrite !touch_all_in in Hc.
          assert (Hlt : forall Y : eb, ebwf Y -> bNB Y = bNB A -> In c (bcols Y ib) -> c < bNB A).
          { intros Z (_ & _ & HZ) EY Hc'. unfold bcols in Hc'. apply in_map_iff in Hc' as (jp & <- & Hj). apply in_seq in Hj. rewrite <- EY. apply (HZ ib ltac:(lia)). lia. }
          destruct Hc as [[[]|Hc]|Hc]; [eapply (Hlt A)|eapply (Hlt B)]; auto. }
        assert (Hks : filter (kept keep (bsq (bbs A1) ib) v) (an_cols A1 B ib) = an_kept keep alpha beta A B ib).
        { unfold an_cols at 1. rewrite Hcols. unfold an_kept. apply filter_ext_in. intros c Hc. apply Hkk. auto. }
        destruct (Hfits ib Hib) as [Hf1 Hf2].
        eapply wp_mono. { apply (an_iter_ok keep alpha beta A1 B ib w ys t BMAXSIZE); auto; try congruence.
          - intros c Hc. rewrite EN1 in Hc. unfold bsq. rewrite EB1. apply Hm; auto.
          - rewrite EN1. eapply wrep_sz. exact Hw.
          - rewrite EN1. eapply wrep_sz. exact Hwy.
          - change (length (filter (kept keep (bsq (bbs A1) ib) v) (an_cols A1 B ib)) <= bMB A1). rewrite Hks, EM1. auto.
          - change (forall q, q < length (filter (kept keep (bsq (bbs A1) ib) v) (an_cols A1 B ib)) -> exists x, bobj A1 ib q = Some x /\ bsq (bbs A1) ib (nth q (filter (kept keep (bsq (bbs A1) ib) v) (an_cols A1 B ib)) 0) <= length x).
            rewrite Hks. intros q Hq. specialize (Hf2 q Hq). rewrite (rs_obj _ _ _ _ Hrow) by lia. unfold bsq. rewrite EB1. exact Hf2. }
        intros [[[A2 w2] ys2] t2] (K2 & W2 & T2 & Hsame & Hval & Hw2 & Hwy2 & Ht2).
        split; [eapply kin_trans; eauto|]. split; auto. split; auto. split; [|split; [|split; [|split]]].
        + rewrite Ht2, Ht. cbn [bigsum]. f_equal. rewrite EN1, EB1. unfold T. apply bigsum_ext. intros c Hc. unfold qq. cbv zeta.
          assert (E : forall k, bel A1 ib c k = bel A ib c k) by auto.
          assert (E' : bigsum (bsq (bbs A) ib c) (fun k => kmul (kadd (bel A1 ib c k) (kopp (bel B ib c k))) (kadd (bel A1 ib c k) (kopp (bel B ib c k)))) =
            bigsum (bsq (bbs A) ib c) (fun k => kmul (kadd (bel A ib c k) (kopp (bel B ib c k))) (kadd (bel A ib c k) (kopp (bel B ib c k))))) by (apply bigsum_ext; intros; rewrite E; reflexivity).
          rewrite E'. reflexivity.
        + intros i Hi Hd. eapply row_same_trans; [exact K| |].
          * apply Hold; auto. lia.
          * rewrite <- EM1. apply Hsame; lia.
        + intros i jb k Hin Hj Hk. destruct (Nat.eq_dec i ib) as [->|Hne].
          * rewrite Hval by (try lia; rewrite EB1; auto). change (fun c k => kadd (kmul alpha (bel A1 ib c k)) (kmul beta (bel B ib c k))) with v. rewrite Hkk by auto.
            destruct (blk_keep _ _ _ _ _); auto. rewrite HX, Hbel by auto. reflexivity.
          * rewrite <- (Hdone i jb k) by (auto; lia). eapply row_same_bel; [apply Hsame; lia| |auto]. apply ebwf_nnz; auto. lia.
        + eapply wrep_sz. rewrite <- EN1. exact Hw2.
        + eapply wrep_sz. rewrite <- EN1. exact Hwy2. }
      intros [[[A' w] ys] t] (K & W & T' & Ht & _ & Hdone & _). auto. }
    apply wp_ok in H as ([[[A' w] ys] t] & E & K & W & T' & Ht & Hdone). rewrite E. cbn [bind]. exists A'. rewrite Ht, HTn. split; [reflexivity|].
    pose proof K as (EN' & EM' & ENB' & EMB' & EB' & _).
    split; auto. split; auto. split; [unfold same_dims; auto|]. rewrite <- EN'. apply meq_blocks; [apply W|]. rewrite ENB', EB'. intros ib jb k Hi Hj Hk.
    rewrite bcut_xb by (rewrite ?(sh_bs A HS); auto). apply Hdone; auto.
  Qed.
End AddNormTotal.
