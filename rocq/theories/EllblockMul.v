(** Products in the block format. *)
From Verif Require Import Base BaseFacts Spec SpecFacts EllpackModel EllpackSpec EllblockModel EllblockSpec EllblockFacts EllblockHeap EllblockRead EllblockBuild EllblockMake EllblockSet EllblockCopy EllblockWork EllblockAdd.
From Coq Require Import Permutation.

Section Mul.
  Context {F : scalar}.
  Add Ring KRmul : (k_ring F).
  Local Notation eb := (eb F).
  Implicit Types A B C : eb.

  (** ** Block products *)
  Lemma transposed_ok {e} bj bk (v T : list F) : bj * bk <= length v -> bj * bk <= length T ->
    wpq e (transposed bj bk v T) (fun T' => length T' = length T /\ forall ii jj, ii < bj -> jj < bk -> nth (jj * bj + ii) T' k0 = nth (ii * bk + jj) v k0).
  Proof.
    intros Lv LT. unfold transposed. rewrite for_2_flat. eapply wp_mono. { apply (scatter_ok (bj * bk) (fun k => rd v (k / bk * bk + k mod bk)) (fun k => nth k v k0) (fun k => (k mod bk) * bj + k / bk)).
      - intros k Hk. destruct (pos_split _ _ _ Hk) as (P1 & P2 & P3). rewrite <- P3. apply rd_ok. lia.
      - intros k Hk. destruct (pos_split _ _ _ Hk) as (P1 & P2 & P3). pose proof (pos_lt _ _ _ _ P2 P1). lia.
      - intros k k' Hk Hk' E. destruct (pos_split _ _ _ Hk) as (P1 & P2 & P3), (pos_split _ _ _ Hk') as (Q1 & Q2 & Q3).
        assert (k mod bk = k' mod bk) by (rewrite <- (pos_div bj (k mod bk) (k / bk)), <- (pos_div bj (k' mod bk) (k' / bk)) by auto; congruence).
        assert (k / bk = k' / bk) by (rewrite <- (pos_mod bj (k mod bk) (k / bk)), <- (pos_mod bj (k' mod bk) (k' / bk)) by auto; congruence). congruence. }
    intros T' (L1 & V1 & _). split; auto. intros ii jj Hi Hj. assert (Hk : ii * bk + jj < bj * bk) by (apply pos_lt; auto).
    rewrite <- (V1 _ Hk). rewrite pos_mod, pos_div by auto. reflexivity.
  Qed.

  Lemma multiply_block_ok {e} r bi bk (a b x : list F) : 0 < r <= 6 -> bi * r <= length a -> bk * r <= length b -> bi * bk <= length x ->
    wpq e (multiply_block r a b bi bk x) (fun y => length y = length x /\
      forall k, k < bi * bk -> nth k y k0 = kadd (nth k x k0) (bigsum r (fun m => kmul (nth (r * (k / bk) + m) a k0) (nth (r * (k mod bk) + m) b k0)))).
  Proof.
    intros Hr La Lb Lx. unfold multiply_block. destruct (Nat.eqb_spec r 0); [lia|]. destruct (Nat.ltb_spec 6 r); [lia|]. cbn [orb]. rewrite for_2_flat.
    set (P := fun k => bigsum r (fun m => kmul (nth (r * (k / bk) + m) a k0) (nth (r * (k mod bk) + m) b k0))).
    apply wp_bind. eapply wp_mono. { apply (for_n_inv (fun n (s : list F * nat) => snd s = n /\ length (fst s) = length x /\
        (forall k, k < n -> nth k (fst s) k0 = kadd (nth k x k0) (P k)) /\ (forall k, n <= k -> nth k (fst s) k0 = nth k x k0))).
      - cbn [fst snd]. split; auto. split; auto. split; [intros; lia|auto].
      - intros k [y xk] Hk (Ek & Ly & V & Z). cbn [fst snd] in *. subst xk. destruct (pos_split _ _ _ Hk) as (P1 & P2 & P3).
        rewrite (sum_loop r _ (fun m => kmul (nth (r * (k / bk) + m) a k0) (nth (r * (k mod bk) + m) b k0))).
        + cbn [bind]. apply wp_bind. rewrite (rd_ok _ _ k0) by lia. cbn [wpq]. apply wp_bind. rewrite wr_ok by lia. cbn [wpq fst snd].
          split; auto. split; [rewrite length_set_nth; auto|]. split.
          * intros k' Hk'. rewrite nth_set_nth. destruct (Nat.eqb_spec k' k) as [->|Hne]; cbn [andb].
            { destruct (Nat.ltb_spec k (length y)); [|lia]. rewrite Z by auto. unfold P. ring. }
            { apply V. lia. }
          * intros k' Hk'. rewrite nth_set_nth. destruct (Nat.eqb_spec k' k); [lia|]. cbn [andb]. apply Z. lia.
        + intros m s Hm. pose proof (pos_lt _ _ _ _ P1 Hm) as Q1. pose proof (pos_lt _ _ _ _ P2 Hm) as Q2. rewrite (rd_ok _ _ k0) by lia. cbn [bind]. rewrite (rd_ok _ _ k0) by lia. reflexivity. }
    intros [y xk] (_ & Ly & V & _). cbn [fst wpq] in *. auto.
  Qed.

  (** ** Row ib of A times B, in the work arrays *)
  Definition pterm A B ib jp c k : F :=
    let bj := bsz (bbs A) (scol A ib jp) in let bk := bsz (bbs A) c in
    bigsum bj (fun r => kmul (nth ((k / bk) * bj + r) (sblk A ib jp) k0) (bel B (scol A ib jp) c (r * bk + k mod bk))).

  Lemma bmul_acc_ok {e} A B m2 (g : nat -> F) ib w : ebwf A -> ebwf B -> bNB B = bNB A -> bbs B = bbs A -> ib < bNB A ->
    (forall c, c < bNB A -> 0 < bsz (bbs A) c <= 6) -> (forall c c', c < bNB A -> c' < bNB A -> bsz (bbs A) c * bsz (bbs A) c' <= m2) ->
    wrep (bNB A) m2 (bsq (bbs A) ib) w [] (fun _ _ => k0) ->
    wpq e (bmul_acc A B m2 g ib (w, 0)) (fun r => snd r = length (mul_cols A B ib) /\
        wrep (bNB A) m2 (bsq (bbs A) ib) (fst r) (mul_cols A B ib) (fun c k => bigsum (bnz A ib) (fun jp => pterm A B ib jp c k))).
  Proof.
    intros HW HWB EN EB Hi Hsz Hm Hrep. pose proof HW as (HS & HO & HR). pose proof HWB as (HSB & HOB & HRB). unfold bmul_acc. apply wp_bind. rewrite b_bs_ok by auto. cbn [wpq].
    rewrite b_for_row_unfold by auto. apply wp_bind.
    assert (Lc : length (bcols A ib) = bnz A ib) by (unfold bcols; rewrite map_length, seq_length; auto).
    assert (Nc : forall jp, jp < bnz A ib -> nth jp (bcols A ib) 0 = scol A ib jp). { intros jp Hj. unfold bcols. rewrite nth_map_seq by auto. reflexivity. }
    eapply wp_mono. { apply (for_n_inv (fun p (st : (wsp (list F) * nat) * list F) => length (snd st) = m2 /\
        let L := touch_all [] (flat_map (bcols B) (firstn p (bcols A ib))) in snd (fst st) = length L /\
        wrep (bNB A) m2 (bsq (bbs A) ib) (fst (fst st)) L (fun c k => bigsum p (fun jp => pterm A B ib jp c k)))).
      - cbn [fst snd]. split; [rewrite map_length, seq_length; auto|]. split; [reflexivity|exact Hrep].
      - intros jp [[w1 l1] T1] Hj (LT & El & Hr). cbn [fst snd] in LT, El, Hr. subst l1.
        destruct (ebwf_slot A ib jp) as (Hjm & Hjc & Hx & Hl); auto.
        apply wp_bind. rewrite (b_blk_ok A ib jp (sblk A ib jp)) by auto. cbn [wpq]. set (jb := scol A ib jp) in *.
        apply wp_bind. rewrite b_bs_ok by auto. cbn [wpq]. apply wp_bind. rewrite b_nnz_ok by (auto; lia). cbn [wpq].
        set (L1 := touch_all [] (flat_map (bcols B) (firstn jp (bcols A ib)))) in *.
        assert (EL : touch_all [] (flat_map (bcols B) (firstn (S jp) (bcols A ib))) = touch_all L1 (bcols B jb)).
        { rewrite (firstn_S_nth _ _ 0) by lia. rewrite Nc by auto. rewrite flat_map_app, touch_all_app. cbn [flat_map]. rewrite app_nil_r. reflexivity. }
        assert (LcB : length (bcols B jb) = bnz B jb) by (unfold bcols; rewrite map_length, seq_length; auto).
        assert (NcB : forall kp, kp < bnz B jb -> nth kp (bcols B jb) 0 = scol B jb kp). { intros kp Hk. unfold bcols. rewrite nth_map_seq by auto. reflexivity. }
        pose proof (bro_nodup _ _ (HRB jb ltac:(lia))) as HND.
        set (v0 := fun c k => bigsum jp (fun jp => pterm A B ib jp c k)) in *.
        set (vv := fun p c k => if existsb (Nat.eqb c) (firstn p (bcols B jb)) then kadd (v0 c k) (pterm A B ib jp c k) else v0 c k).
        eapply wp_mono. { apply (for_n_inv (fun p (st : (wsp (list F) * nat) * list F) => length (snd st) = m2 /\ snd (fst st) = length (touch_all L1 (firstn p (bcols B jb))) /\
            wrep (bNB A) m2 (bsq (bbs A) ib) (fst (fst st)) (touch_all L1 (firstn p (bcols B jb))) (vv p))).
          - cbn [fst snd]. split; [exact LT|]. split; [reflexivity|exact Hr].
          - intros kp [[w2 l2] T2] Hk (LT2 & El2 & Hr2). cbn [fst snd] in LT2, El2, Hr2. subst l2. cbv zeta.
            destruct (ebwf_slot B jb kp) as (Hkm & Hkc & Hy & Hl2); auto; [lia|].
            replace (ROWMAJOR jb kp (bNB A) (bMB B)) with (b_at B jb kp) by (unfold b_at, ROWMAJOR; congruence).
            apply wp_bind. rewrite rd_idx_ok by (auto; lia). cbn [wpq]. set (c := scol B jb kp) in *. rewrite EN in Hkc. rewrite EB in Hl2.
            apply wp_bind. eapply wp_mono; [apply (bws_touch_ok (bNB A) m2 (bsq (bbs A) ib)); eauto; unfold bsq; split; auto|]. intros [w3 l3] (El3 & Hr3). cbn [fst snd] in El3, Hr3.
            assert (EL3 : touch_all L1 (firstn (S kp) (bcols B jb)) = touch (touch_all L1 (firstn kp (bcols B jb))) c).
            { rewrite (firstn_S_nth _ _ 0) by lia. rewrite NcB by auto. rewrite touch_all_app. reflexivity. }
            rewrite EL3. apply wp_bind. rewrite (b_blk_ok B jb kp (sblk B jb kp)) by (auto; lia). cbn [wpq]. apply wp_bind. rewrite b_bs_ok by auto. cbn [wpq].
            set (bi := bsz (bbs A) ib) in *. set (bj := bsz (bbs A) jb) in *. set (bk := bsz (bbs A) c) in *.
            apply wp_bind. eapply wp_mono; [apply transposed_ok; [exact Hl2|rewrite LT2; apply Hm; auto]|]. intros T3 (LT3 & VT3).
            apply wp_bind. eapply wp_mono. { apply (bws_upd_ok (bNB A) m2 (bsq (bbs A) ib) w3 (touch (touch_all L1 (firstn kp (bcols B jb))) c) (vv kp) c _ (fun k => kadd (vv kp c k) (pterm A B ib jp c k))); auto.
              - apply touch_in. auto.
              - intros x Lx Vx. eapply wp_mono; [apply multiply_block_ok; [apply Hsz; auto|exact Hl| |]|].
                + rewrite LT3, LT2. rewrite Nat.mul_comm. apply Hm; auto.
                + rewrite Lx. apply Hm; auto.
                + intros y (Ly & Vy). split; [congruence|]. intros k Hk'. unfold bsq in Hk'. fold bi in Hk'. fold bk in Hk'. destruct (pos_split _ _ _ Hk') as (P1 & P2 & P3).
                  rewrite Vy, Vx by auto. f_equal. unfold pterm. fold jb. fold bj. fold bk. apply bigsum_ext. intros r Hrr.
                  rewrite (bel_hit B jb c kp) by (auto; apply HRB; lia). rewrite (Nat.mul_comm bj (k / bk)), (Nat.mul_comm bj (k mod bk)). rewrite VT3 by auto. reflexivity. }
            intros w4 Hr4. cbn [wpq fst snd]. split; [congruence|]. split; [auto|]. eapply wrep_ext; [|exact Hr4]. intros c' k Hc' Hk'. cbn beta. unfold vv.
            rewrite (firstn_S_nth _ _ 0) by lia. rewrite NcB by auto. fold c. rewrite existsb_app. cbn [existsb]. rewrite orb_false_r.
            destruct (Nat.eqb_spec c' c) as [->|Hne].
            + rewrite orb_true_r. assert (E : existsb (Nat.eqb c) (firstn kp (bcols B jb)) = false).
              { apply existsb_eqb_nin. intros Hin. assert (HF : bcols B jb = firstn kp (bcols B jb) ++ nth kp (bcols B jb) 0 :: skipn (S kp) (bcols B jb)) by (apply nth_split_eq; lia).
                rewrite HF in HND. apply NoDup_remove_2 in HND. apply HND. apply in_or_app. left. rewrite NcB by auto. auto. }
              rewrite E. reflexivity.
            + rewrite orb_false_r. reflexivity. }
        intros [[w2 l2] T2] (LT2 & El2 & Hr2). cbn [fst snd] in *. split; auto. cbv zeta. rewrite EL. rewrite firstn_all2 in El2, Hr2 by lia. split; auto.
        eapply wrep_ext; [|exact Hr2]. intros c k Hc Hk. cbn beta. unfold vv. rewrite firstn_all2 by lia. cbn [bigsum]. destruct (existsb (Nat.eqb c) (bcols B jb)) eqn:E; auto.
        apply existsb_eqb_nin in E. assert (Z : pterm A B ib jp c k = k0).
        { unfold pterm. apply bigsum_zero. intros r Hr'. fold jb. rewrite (bel_miss B). { ring. }
          intros kp Hkp Ek. apply E. unfold bcols. apply in_map_iff. exists kp. split; auto. apply in_seq; lia. }
        rewrite Z. fold (v0 c k). ring. }
    intros [[w1 l1] T1] (_ & El & Hr). cbn [fst snd wpq] in *. rewrite firstn_all2 in El, Hr by lia. split; auto.
  Qed.

  (** ** Blocks into a row *)
  Lemma bmul_gather_ok {e T} (keep : F -> bool) cap C ib m2 bs NB MB (g : nat -> F) L v w (extra : nat -> nat -> list F -> T -> res T) (I : nat -> T -> Prop) t0 :
    eb_shape C -> own cap C -> ib < bNB C -> NB = bNB C -> MB = bMB C -> length bs = bNB C ->
    (forall c, c < bNB C -> bsq bs ib c <= m2) -> wrep (bNB C) m2 (bsq bs ib) w L v -> length L <= bMB C ->
    let kp := fun c => ((c =? ib) || kept keep (bsq bs ib) v c)%bool in
    I 0 t0 ->
    (forall p t x, p < length L -> I p t -> length x = m2 -> (forall k, k < bsq bs ib (nth p L 0) -> nth k x k0 = v (nth p L 0) k) ->
       (kp (nth p L 0) = true -> wpq e (extra p (nth p L 0) x t) (I (S p))) /\ (kp (nth p L 0) = false -> I (S p) t)) ->
    wpq e (bmul_gather keep bs NB MB m2 g ib (length L) extra C w t0) (fun r => let '(C', w', t) := r in
      I (length L) t /\ wrep (bNB C) m2 (bsq bs ib) w' [] (fun _ _ => k0) /\
      exists lst C1, gath cap C ib lst C1 /\ nnz_set C1 ib (length lst) C' /\ map fst lst = filter kp L /\
        (forall x, In x lst -> bsq bs ib (fst x) <= length (snd x) /\ forall k, k < bsq bs ib (fst x) -> nth k (snd x) k0 = v (fst x) k)).
  Proof.
    intros HS HO Hi -> -> Hbs Hm Hrep HL kp I0 IS. unfold bmul_gather. pose proof (wrep_room _ _ _ _ _ _ Hrep) as HLN.
    apply wp_bind. eapply wp_mono. { apply (for_n_inv (fun p (s : eb * wsp (list F) * nat * T) => let '(C', w', ll, t) := s in I p t /\
        wgat (bNB C) m2 (bsq bs ib) w' L v p /\ exists lst, gath cap C ib lst C' /\ ll = length lst /\ map fst lst = filter kp (firstn p L) /\
        (forall x, In x lst -> bsq bs ib (fst x) <= length (snd x) /\ forall k, k < bsq bs ib (fst x) -> nth k (snd x) k0 = v (fst x) k))).
      - split; auto. split; [apply wgat_0; auto|]. exists []. split; [apply gath_nil; auto|]. split; auto. split; auto. intros x [].
      - intros p [[[C2 w3] ll] t] Hp (HI & HG & lst & HGa & -> & Hlst & Hval). pose proof (ga_kin _ _ _ _ _ HGa) as K2. pose proof K2 as (_ & _ & EN2 & EM2 & EB2 & KS2).
        pose proof HG as [G1 G2 G3 G4 G5 G6 G7 G8 G9]. assert (Hc : nth p L 0 < bNB C) by (apply G6, nth_In; auto).
        apply wp_bind. rewrite (rd_ok _ _ 0) by lia. cbn [wpq]. rewrite G7 by auto. set (c := nth p L 0) in *.
        apply wp_bind. rewrite (rd_ok _ _ []) by lia. cbn [wpq]. set (x := nth c (wx w3) []) in *. assert (Lx : length x = m2) by (apply G4; auto).
        assert (HS2 : eb_shape C2) by auto.
        apply wp_bind. rewrite (rd_ok _ _ 0) by lia. cbn [wpq]. apply wp_bind. rewrite (rd_ok _ _ 0) by lia. cbn [wpq]. change (nth ib bs 0 * nth c bs 0) with (bsq bs ib c).
        assert (Hcin : In c (skipn p L)) by (apply in_skipn_nth; auto).
        apply wp_bind. rewrite blk_above_ok by (rewrite Lx; auto). cbn [wpq].
        assert (Ekp : existsb (fun k => keep (nth k x k0)) (seq 0 (bsq bs ib c)) = kept keep (bsq bs ib) v c).
        { unfold kept. apply existsb_ext. intros k Hk. apply in_seq in Hk. unfold x. rewrite G9 by (auto; lia). reflexivity. }
        rewrite Ekp. fold (kp c).
        assert (Hll : length lst < bMB C). { rewrite <- (map_length fst), Hlst. eapply Nat.le_lt_trans; [apply filter_length_le|]. rewrite firstn_length. lia. }
        apply wp_bind. eapply wp_mono with (P := fun s => let '(C', ll', t') := s in I (S p) t' /\ exists lst', gath cap C ib lst' C' /\ ll' = length lst' /\ map fst lst' = filter kp (firstn (S p) L) /\
          (forall x, In x lst' -> bsq bs ib (fst x) <= length (snd x) /\ forall k, k < bsq bs ib (fst x) -> nth k (snd x) k0 = v (fst x) k)).
        { rewrite filter_firstn_S by auto. fold c. assert (Hvx : forall k, k < bsq bs ib c -> nth k x k0 = v c k) by (intros k Hk; apply G9; auto).
          destruct (IS p t x Hp HI Lx Hvx) as [IS1 IS2]. fold c in IS1, IS2. destruct (kp c) eqn:Ek.
          - apply wp_bind. eapply wp_mono; [apply IS1; auto|]. intros t' HI'. cbv zeta. set (q := length lst) in *.
            change (ROWMAJOR ib q (bNB C) (bMB C)) with (b_at C ib q). rewrite <- (kin_at C C2 ib q K2).
            set (cap2 := fun i => if i =? ib then Nat.max (cap i) q else cap i).
            assert (HO2 : own cap2 C2) by apply (ga_own _ _ _ _ _ HGa).
            assert (Hq2 : q <= cap2 ib) by (unfold cap2; rewrite Nat.eqb_refl; lia).
            apply wp_bind. eapply wp_mono; [apply (b_alloc_ok cap2); auto; lia|]. intros C3 H3. pose proof (ss_kin _ _ _ _ _ _ _ H3) as K3. pose proof K3 as (_ & _ & EN3 & EM3 & EB3 & KS3).
            assert (HS3 : eb_shape C3) by auto. assert (Hcx : q < capx cap2 ib q ib) by (unfold capx; rewrite Nat.eqb_refl; lia).
            rewrite <- (kin_at C2 C3 ib q K3). set (n := bsq bs ib c) in *.
            pose proof (fill_slot (e:=e) (capx cap2 ib q) C3 ib q x n (map g (seq 0 n)) HS3 (ss_own _ _ _ _ _ _ _ H3) ltac:(lia) Hcx (ss_obj _ _ _ _ _ _ _ H3) ltac:(rewrite map_length, seq_length; auto) ltac:(rewrite Lx; apply Hm; auto)) as G.
            match goal with |- wpq _ ?tt _ => replace tt with (bind (y <- b_blk C3 (b_at C3 ib q);; y <- blk_copy n x y;; b_wblk C3 (b_at C3 ib q) y) (fun A3 => A4 <- b_widx A3 (b_at C3 ib q) c ;; Ok (A4, S q, t'))) end.
            2:{ destruct (b_blk C3 _); cbn [bind]; auto. all: destruct (blk_copy _ _ _); cbn [bind]; auto. all: destruct (b_wblk _ _ _); cbn [bind]; auto. }
            apply wp_bind. eapply wp_mono; [exact G|]. intros C4 (y & H4 & Ly & Vy). pose proof (ss_kin _ _ _ _ _ _ _ H4) as K4. pose proof K4 as (_ & _ & EN4 & EM4 & EB4 & KS4).
            apply wp_bind. rewrite <- (kin_at C3 C4 ib q K4). eapply wp_mono; [apply (b_widx_ok (capx cap2 ib q) C4 ib q c y); auto; try lia; apply H4|].
            intros C5 H5. cbn [wpq]. split; auto. exists (lst ++ [(c, y)]). split; [|split; [|split]].
            + apply gath_snoc with (A1 := C2); auto; try lia. { apply HO. } eapply slot_set_trans; [|exact H5]. rewrite (ss_col _ _ _ _ _ _ _ H3) in H4. eapply slot_set_trans; [exact H3|exact H4].
            + rewrite app_length. simpl. unfold q. lia.
            + rewrite map_app, Hlst. reflexivity.
            + intros z Hz. apply in_app_or in Hz as [Hz|[<-|[]]]; auto. cbn [fst snd]. split; auto. intros k Hk. rewrite Vy by auto. auto.
          - cbn [wpq]. split; auto. exists lst. rewrite app_nil_r. auto. }
        intros [[C3 ll3] t3] (HI' & lst' & HGa' & -> & Hlst' & Hval').
        apply wp_bind. rewrite wr_ok by lia. cbn [wpq].
        apply wp_bind. unfold bws_upd. cbn [wix wjx wx]. rewrite (rd_ok _ _ []) by lia. cbn [bind]. apply wp_bind. eapply wp_mono; [apply (blk_map_ok m2 _ (fun _ => k0)); [rewrite G4; auto|auto]|].
        intros y (Ly & _ & _). rewrite G4 in Ly by auto. rewrite wr_ok by lia. cbn [bind wpq].
        split; auto. split; [apply wgat_next; auto|]. exists lst'. auto. }
    intros [[[C2 w3] ll] t] (HI & HG & lst & HGa & -> & Hlst & Hval). rewrite firstn_all in Hlst.
    pose proof (ga_kin _ _ _ _ _ HGa) as K2. pose proof K2 as (_ & _ & EN2 & EM2 & EB2 & KS2).
    apply wp_bind. eapply wp_mono; [apply b_wnnz_ok; [auto|lia]|]. intros C3 HN3. cbn [wpq].
    split; auto. split; [eapply wgat_end; eauto|]. exists lst, C2. auto.
  Qed.

  Lemma bcols_brow A ib : bcols A ib = map fst (brow A ib).
  Proof. unfold bcols, brow. rewrite map_map. reflexivity. Qed.
  Lemma row_same_cols cap A A' i : row_same cap A A' i -> bnz A i <= cap i -> cap i <= bMB A -> bcols A' i = bcols A i.
  Proof. intros. rewrite !bcols_brow. erewrite row_same_brow; eauto. Qed.
  Lemma rcont_cols A ib l : rcont A ib l -> bcols A ib = map fst l.
  Proof.
    intros [E H]. apply (list_ext_nth _ _ 0). { unfold bcols. rewrite !map_length, seq_length. auto. }
    intros p Hp. unfold bcols in *. rewrite map_length, seq_length in Hp. rewrite nth_map_seq by auto. rewrite (map_nth fst l (0, @nil F) p : nth p (map fst l) 0 = _). apply H. lia.
  Qed.

  (** ** The rows written so far *)
  Record mstate (cap : nat -> nat) C (tgt : nat -> nat -> nat -> F) (mc : nat -> list nat) (done : list nat) C' : Prop := mkMst {
    ms_kin : kin C C';
    ms_own : own (fun i => if existsb (Nat.eqb i) done then Nat.max (cap i) (bnz C' i) else cap i) C';
    ms_ok : forall i, In i done -> brow_ok C' i;
    ms_bel : forall i jb k, In i done -> jb < bNB C -> k < bsq (bbs C) i jb -> bel C' i jb k = tgt i jb k;
    ms_cols : forall i c, In i done -> In c (bcols C' i) -> In c (mc i);
    ms_new : forall i q, i < bNB C -> q < bMB C -> (In i done -> bnz C' i <= q) -> saddr C' i q = saddr C i q;
    ms_roomy : forall n, (forall i, cap i = bMB C) -> roomy n C -> roomy n C' }.

  Lemma mstate_0 cap C tgt mc : own cap C -> mstate cap C tgt mc [] C.
  Proof. intros H. constructor; auto; [apply kin_refl|intros i []|intros i jb k []|intros i c []]. Qed.

  Lemma mstate_step cap C tgt mc done ib C1 lst C2 C3 L (kp : nat -> bool) v : ib < bNB C -> (forall i, In i done -> i < bNB C) -> ~ In ib done ->
    mstate cap C tgt mc done C1 ->
    gath (fun i => if existsb (Nat.eqb i) done then Nat.max (cap i) (bnz C1 i) else cap i) C1 ib lst C2 -> nnz_set C2 ib (length lst) C3 ->
    map fst lst = filter kp L -> NoDup L -> L = mc ib -> (forall c, In c L -> c < bNB C) -> length lst <= bMB C ->
    (forall x, In x lst -> bsq (bbs C) ib (fst x) <= length (snd x) /\ forall k, k < bsq (bbs C) ib (fst x) -> nth k (snd x) k0 = v (fst x) k) ->
    (forall jb k, jb < bNB C -> ~ In jb L -> k < bsq (bbs C) ib jb -> v jb k = k0) ->
    (forall jb k, jb < bNB C -> k < bsq (bbs C) ib jb -> (if kp jb then v jb k else k0) = tgt ib jb k) ->
    mstate cap C tgt mc (done ++ [ib]) C3.
  Proof.
    intros Hi Hdl Hnin [K O Ok V Cs Nw Rm] HGa HN Hlst HND Hmc Hlt Hlen Hval Hz Htgt. pose proof K as (_ & _ & EN & EM & EB & KS).
    set (capd := fun i => if existsb (Nat.eqb i) done then Nat.max (cap i) (bnz C1 i) else cap i) in *.
    assert (Hi1 : ib < bNB C1) by lia. destruct (gath_done _ _ _ _ _ _ Hi1 HGa HN) as (K3 & HO3 & HR3 & Hoth). pose proof K3 as (_ & _ & EN3 & EM3 & EB3 & KS3).
    assert (Ecap : capd ib = cap ib). { unfold capd. apply existsb_eqb_nin in Hnin. rewrite Hnin. auto. }
    assert (Hdone : forall i, In i done -> bnz C1 i <= capd i). { intros i Hd. unfold capd. apply existsb_eqb_in in Hd. rewrite Hd. lia. }
    assert (Hcm : forall i, i < bNB C -> capd i <= bMB C1). { intros i Hd. apply O. lia. }
    constructor.
    - eapply kin_trans; eauto.
    - eapply own_cap_eq; [|exact HO3]. intros i Hi3. rewrite existsb_app. cbn [existsb]. rewrite orb_false_r. cbn beta.
      destruct (Nat.eqb_spec i ib) as [->|Hne].
      + rewrite orb_true_r, Ecap. destruct HR3 as [-> _]. reflexivity.
      + rewrite orb_false_r. unfold capd. rewrite (rs_nnz _ _ _ _ (Hoth i ltac:(lia) Hne)). reflexivity.
    - intros i Hd. apply in_app_or in Hd as [Hd|[<-|[]]].
      + assert (i <> ib) by (intros ->; auto). specialize (Hdl i Hd). apply (row_same_ok capd C1 C3 i); auto. apply Hoth; auto; lia.
      + apply (lrow_brow_ok _ _ _ HR3). rewrite EB3, EB, EN3, EN. split.
        * rewrite Hlst. apply NoDup_filter. auto.
        * intros x Hx. split; [|apply Hval; auto]. assert (Hin : In (fst x) (filter kp L)) by (rewrite <- Hlst; apply in_map; auto). apply filter_In in Hin as [Hin _]. auto.
    - intros i jb k Hd Hj Hk. apply in_app_or in Hd as [Hd|[<-|[]]].
      + assert (i <> ib) by (intros ->; auto). specialize (Hdl i Hd) as Hi'. rewrite <- V by auto. apply (row_same_bel capd C1 C3 i); auto. apply Hoth; auto; lia.
      + rewrite <- Htgt by auto. apply (row_values C3 ib lst L kp v jb k); auto.
        * intros x Hx k' Hk'. rewrite EB3, EB in Hk'. apply (proj2 (Hval x Hx)). auto.
        * rewrite EB3, EB. exact Hk.
    - intros i c Hd Hc. apply in_app_or in Hd as [Hd|[<-|[]]].
      + assert (i <> ib) by (intros ->; auto). specialize (Hdl i Hd). apply Cs; auto. rewrite <- (row_same_cols capd C1 C3 i); auto. apply Hoth; auto; lia.
      + rewrite (rcont_cols C3 ib lst) in Hc by auto. rewrite Hlst, Hmc in Hc. apply filter_In in Hc. tauto.
    - intros i q Hi' Hq Hd. destruct (Nat.eq_dec i ib) as [->|Hne].
      + rewrite (nnz_set_addr _ _ _ _ _ _ HN). rewrite (ga_addrs _ _ _ _ _ HGa) by (try lia; right; destruct HR3 as [<- _]; apply Hd, in_or_app; right; left; auto). apply Nw; auto. tauto.
      + pose proof (Hoth i ltac:(lia) Hne) as HRS. rewrite (rs_addr _ _ _ _ HRS) by lia. apply Nw; auto. intros Hin. rewrite <- (rs_nnz _ _ _ _ HRS). apply Hd, in_or_app. auto.
    - intros n Hcap Hroom. destruct (Rm n Hcap Hroom) as (R1 & R2 & R3).
      assert (Ecd : forall i, i < bNB C -> capd i = bMB C). { intros i Hi'. specialize (Hcm i Hi'). revert Hcm. unfold capd. rewrite (Hcap i), EM. destruct (existsb _ done); lia. }
      unfold roomy, tidy. rewrite EN3, EM3, EB3, EN, EM, EB. rewrite EN, EB in R2. split; [|split]; auto.
      + eapply own_cap_eq; [|exact HO3]. intros i Hi3. cbn beta. rewrite Ecd by lia. destruct (i =? ib); lia.
      + intros i q x Hi' Hq Hx. rewrite EN, EM in R3. destruct (Nat.eq_dec i ib) as [->|Hne].
        * rewrite (nnz_set_obj _ _ _ _ _ _ HN) in Hx. destruct (Nat.lt_ge_cases q (length lst)) as [Hql|Hql].
          { rewrite (proj2 (ga_row _ _ _ _ _ HGa q Hql)) in Hx. injection Hx as <-. assert (Hin : In (nth q lst (0, [])) lst) by (apply nth_In; auto).
            destruct (Hval _ Hin) as [Hsz _]. etransitivity; [|exact Hsz]. apply R2; auto.
            assert (Hin' : In (fst (nth q lst (0, []))) (filter kp L)) by (rewrite <- Hlst; apply in_map; auto). apply filter_In in Hin' as [Hin' _]. auto. }
          { rewrite (ga_objs _ _ _ _ _ HGa) in Hx by (try lia; rewrite Ecd; auto). eapply R3; eauto. }
        * rewrite (rs_obj _ _ _ _ (Hoth i ltac:(lia) Hne)) in Hx by (rewrite Ecd; auto). eapply R3; eauto.
  Qed.

  Lemma pterm_sum A B ib c k : ebwf A -> ebwf B -> eb_dims A B -> ib < bNB A -> c < bNB A -> k < bsq (bbs A) ib c ->
    bigsum (bnz A ib) (fun jp => pterm A B ib jp c k) = xb (bbs A) (mmul (bN A) (ebmx A) (ebmx B)) ib c k.
  Proof.
    intros HW HWB (DN & DNB & DBS) Hi Hc Hk. pose proof HW as (HS & HO & HR). pose proof HWB as (HSB & _ & _). unfold bsq in Hk. destruct (pos_split _ _ _ Hk) as (P1 & P2 & P3).
    unfold pterm. cbv zeta.
    rewrite (row_sum A ib (fun jb f => bigsum (bsz (bbs A) jb) (fun r => kmul (f (k / bsz (bbs A) c * bsz (bbs A) jb + r)) (bel B jb c (r * bsz (bbs A) c + k mod bsz (bbs A) c))))); auto.
    - unfold xb, mmul. rewrite (bigsum_N A) by auto. apply bigsum_ext. intros jb Hj. apply bigsum_ext. intros r Hr.
      rewrite ebmx_at by auto. f_equal. rewrite DBS in *. rewrite ebmx_at by (auto; congruence). reflexivity.
    - intros jb f f' E. apply bigsum_ext. intros r _. rewrite E. reflexivity.
    - intros jb. apply bigsum_zero. intros. ring.
  Qed.
  Lemma bcut_offdiag_xb bs (keep : F -> bool) X ib jb k : ib < length bs -> jb < length bs -> k < bsz bs ib * bsz bs jb ->
    xb bs (bcut_offdiag bs keep X) ib jb k = if ((jb =? ib) || blk_keep bs keep X ib jb)%bool then xb bs X ib jb k else k0.
  Proof.
    intros Hi Hj Hk. destruct (pos_split _ _ _ Hk) as (P1 & P2 & P3). unfold xb, bcut_offdiag. rewrite !bloc_at by auto. cbn [fst]. rewrite (Nat.eqb_sym ib jb). reflexivity.
  Qed.

  Lemma mul_cols_lt A B ib c : ebwf B -> bNB B = bNB A -> ebwf A -> ib < bNB A -> In c (mul_cols A B ib) -> c < bNB A.
  Proof.
    intros (_ & _ & HRB) EN (_ & _ & HR) Hi Hc. unfold mul_cols in Hc. apply touch_all_in in Hc as [[]|Hc]. apply in_flat_map in Hc as (jb & Hj & Hc).
    unfold bcols in Hj, Hc. apply in_map_iff in Hj as (jp & <- & Hjp). apply in_map_iff in Hc as (kp & <- & Hkp). apply in_seq in Hjp, Hkp.
    rewrite <- EN. apply HRB; [|lia]. rewrite EN. apply HR; auto. lia.
  Qed.
  Lemma mul_cols_nodup A B ib : NoDup (mul_cols A B ib).
  Proof. apply touch_all_nodup. constructor. Qed.
  Lemma mul_square A B ib : ebwf A -> ebwf B -> bNB B = bNB A -> ib < bNB A -> length (mul_cols A B ib) <= bNB A.
  Proof.
    intros WA WB EN Hi. rewrite <- (seq_length (bNB A) 0). apply NoDup_incl_length; [apply mul_cols_nodup|].
    intros c Hc. apply in_seq. eapply (mul_cols_lt A B ib) in Hc; auto. lia.
  Qed.

  Definition mtgt (keep : F -> bool) A B : nat -> nat -> nat -> F := fun ib jb k =>
    let X := mmul (bN A) (ebmx A) (ebmx B) in
    if ((jb =? ib) || blk_keep (bbs A) keep X ib jb)%bool then xb (bbs A) X ib jb k else k0.

  (** what the rows written say about the whole *)
  Lemma mstate_done (keep : F -> bool) cap A B C done C' : ebwf A -> eb_shape C -> bN C = bN A -> bNB C = bNB A -> bbs C = bbs A ->
    (forall i, i < bNB A -> In i done) -> mstate cap C (mtgt keep A B) (mul_cols A B) done C' ->
    ebwf C' /\ same_dims C C' /\ (forall ib c, ib < bNB A -> In c (bcols C' ib) -> In c (mul_cols A B ib)) /\ meq (bN A) (ebmx C') (bcut_offdiag (bbs A) keep (mmul (bN A) (ebmx A) (ebmx B))) /\
    ((forall ib jp, ib < bNB C -> jp < bMB C -> saddr C ib jp = None) -> clean C') /\
    (forall n, (forall i, cap i = bMB C) -> roomy n C -> roomy n C').
  Proof.
    intros WA HSC EN ENB EB Hall [K O Ok V Cs Nw Rm]. pose proof K as (EN' & EM' & ENB' & EMB' & EB' & KS). pose proof WA as (HS & _ & _).
    assert (WC : ebwf C').
    { split; auto. split.
      - eapply own_mono; [exact O|]. intros i Hi. cbn beta. assert (In i done) by (apply Hall; lia). apply existsb_eqb_in in H. rewrite H. lia.
      - intros i Hi. apply Ok, Hall. lia. }
    split; auto. split; [unfold same_dims; auto|]. split; [intros ib c Hi; apply Cs; auto|]. split; [|split; auto].
    - rewrite <- EN, <- EN'. apply meq_blocks; [apply WC|]. rewrite ENB', EB', ENB, EB. intros ib jb k Hi Hj Hk. rewrite V by (unfold bsq; rewrite ?EB, ?ENB; auto).
      rewrite bcut_offdiag_xb by (rewrite ?(sh_bs A HS); auto). unfold mtgt. rewrite <- EN, EN'. reflexivity.
    - intros Hnull ib jp Hi Hj. rewrite Nw by (try lia; intros; lia). apply Hnull; lia.
  Qed.

  Lemma mul_run {e W} (keep : F -> bool) cap A B C sched nth_ (body : nat -> eb * W -> res (eb * W)) w0 (Winv : W -> Prop) (red : bool -> W -> F) (cc : bool -> nat -> F) (U : Prop) (R : nat -> Prop) :
    full_sched (bNB A) nth_ sched -> own cap C -> bNB C = bNB A ->
    (forall t, Winv (w0 t)) ->
    (forall ib w C1 done, ib < bNB A -> ~ In ib done -> (forall i, In i done -> i < bNB A) -> Winv w -> mstate cap C (mtgt keep A B) (mul_cols A B) done C1 ->
       wpq e (body ib (C1, w)) (fun r => mstate cap C (mtgt keep A B) (mul_cols A B) (done ++ [ib]) (fst r) /\ Winv (snd r) /\
          R ib /\ red true (snd r) = kadd (red true w) (cc true ib) /\ (U -> red false (snd r) = kadd (red false w) (cc false ib)))) ->
    wpq e (par_for sched body C w0) (fun r => mstate cap C (mtgt keep A B) (mul_cols A B) (map snd sched) (fst r) /\ (forall i, i < bNB A -> R i) /\
       bigsum nth_ (fun t => red true (snd r t)) = kadd (bigsum nth_ (fun t => red true (w0 t))) (bigsum (bNB A) (cc true)) /\
       (U -> bigsum nth_ (fun t => red false (snd r t)) = kadd (bigsum nth_ (fun t => red false (w0 t))) (bigsum (bNB A) (cc false)))).
  Proof.
    intros [HP Ht] HO EN HW0 Hbody.
    assert (HNDs : NoDup (map snd sched)). { eapply Permutation_NoDup; [symmetry; exact HP|apply seq_NoDup]. }
    assert (Hin : forall i, In i (map snd sched) -> i < bNB A). { intros i Hi. assert (In i (seq 0 (bNB A))); [|rewrite in_seq in *; lia]. eapply Permutation_in; eauto. }
    eapply wp_mono. { apply (par_for_inv (fun done C1 w => mstate cap C (mtgt keep A B) (mul_cols A B) done C1 /\ (forall t, Winv (w t)) /\ (forall i, In i done -> R i) /\
        bigsum nth_ (fun t => red true (w t)) = kadd (bigsum nth_ (fun t => red true (w0 t))) (lsum (map (cc true) done)) /\
        (U -> bigsum nth_ (fun t => red false (w t)) = kadd (bigsum nth_ (fun t => red false (w0 t))) (lsum (map (cc false) done))))).
      - split; [apply mstate_0; auto|]. split; auto. split; [intros i []|]. cbn [map lsum]. split; intros; ring.
      - intros pre t ib post C1 w Esc (HM & HW & HRd & S1 & S2).
        assert (Hib : ib < bNB A). { apply Hin. rewrite Esc, map_app. apply in_or_app. right. left. auto. }
        assert (Hnin : ~ In ib (map snd pre)). { rewrite Esc, map_app in HNDs. simpl in HNDs. apply NoDup_remove in HNDs as [_ Hn]. intros H. apply Hn. apply in_or_app. auto. }
        assert (Htn : t < nth_). { apply (Ht t ib). rewrite Esc. apply in_or_app. right; left; auto. }
        eapply wp_mono; [apply (Hbody ib (w t) C1 (map snd pre)); auto|].
        { intros i Hi. apply Hin. rewrite Esc, map_app. apply in_or_app. auto. }
        intros [C2 w2] (HM2 & HW2 & R0 & R1 & R2). cbn [fst snd] in *. split; auto. split; [intros t'; unfold upd_fun; destruct (t' =? t); auto|]. split; [intros i Hi; apply in_app_or in Hi as [Hi|[<-|[]]]; auto|].
        assert (HS : forall b, red b w2 = kadd (red b (w t)) (cc b ib) -> bigsum nth_ (fun t' => red b (upd_fun w t w2 t')) = kadd (bigsum nth_ (fun t' => red b (w t'))) (cc b ib)).
        { intros b Eb. rewrite <- (reduce_step nth_ (fun t' => red b (w t')) t (cc b ib) Htn). apply bigsum_ext. intros t' _. unfold upd_fun. destruct (Nat.eqb_spec t' t) as [->|]; auto. }
        split.
        + rewrite HS by auto. rewrite S1, map_app, lsum_app. cbn [map lsum]. ring.
        + intros HU. rewrite HS by auto. rewrite S2, map_app, lsum_app by auto. cbn [map lsum]. ring. }
    intros [C2 w2] (HM & _ & HRd & S1 & S2). cbn [fst snd] in *. split; auto. split; [intros i Hi; apply HRd; eapply Permutation_in; [symmetry; exact HP|apply in_seq; lia]|].
    assert (EL : forall b, lsum (map (cc b) (map snd sched)) = bigsum (bNB A) (cc b)).
    { intros b. apply lsum_rows. auto. }
    rewrite <- !EL. auto.
  Qed.
End Mul.
