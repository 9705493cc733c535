(** Proofs about ellpack products. *)
From Verif Require Import Base BaseFacts Spec SpecFacts EllpackModel EllpackSpec EllpackFacts EllpackOps EllpackArith.
From Coq Require Import Ring.

Section EllpackMul.
  Context {F : scalar}.
  Local Open Scope K_scope.
  Add Ring Kring5 : (k_ring F).
  Local Notation ell := (ell F).

  (** all contributions to row i of A*B in the order of the loops *)
  Definition prodE (A B : ell) (i : nat) : list (nat * F) :=
    flat_map (fun kv => sc (snd kv) (erow B (fst kv))) (erow A i).

  Lemma cols_flat_map {X} (g : X -> list (nat * F)) l : cols (flat_map g l) = flat_map (fun x => cols (g x)) l.
  Proof. unfold cols. induction l as [|x l IH]; simpl; auto. rewrite map_app, IH. auto. Qed.

  Lemma in_prodE (A B : ell) i k : In k (cols (prodE A B i)) <->
    exists j, In j (cols (erow A i)) /\ In k (cols (erow B j)).
  Proof.
    unfold prodE. rewrite cols_flat_map, in_flat_map. split.
    - intros ([j a] & H1 & H2). rewrite cols_sc in H2. exists j. split; auto.
      apply in_map_iff. exists (j, a). auto.
    - intros (j & H1 & H2). apply in_map_iff in H1 as ([j' a] & E & H1). simpl in E. subst.
      exists (j, a). rewrite cols_sc. auto.
  Qed.

  Lemma prodE_lt (A B : ell) i : wf A -> wf B -> eN A = eN B -> (i < eN A)%nat ->
    forall k, In k (cols (prodE A B i)) -> (k < eN A)%nat.
  Proof.
    intros [HsA HA] [HsB HB] HN Hi k Hk. apply in_prodE in Hk as (j & H1 & H2).
    destruct (HA i Hi) as (_ & _ & H3). apply H3 in H1.
    destruct (HB j) as (_ & _ & H4); [congruence|]. rewrite HN. auto.
  Qed.

  Lemma esum_prodE (A B : ell) i k : wf A -> wf B -> eN A = eN B -> (i < eN A)%nat ->
    esum (prodE A B i) k = mmul (eN A) (emat A) (emat B) i k.
  Proof.
    intros [HsA HA] [HsB HB] HN Hi. destruct (HA i Hi) as (H1 & H2 & H3).
    unfold prodE. rewrite esum_flat_map.
    rewrite (lsum_map_ext _ (fun kv => snd kv * emat B (fst kv) k)).
    - apply (lsum_entries (erow A i) (eN A) (fun j v => v * emat B j k)); auto. intros; ring.
    - intros [j a] Hin. simpl. unfold sc. rewrite esum_scale. f_equal. apply esum_elook.
      assert (j < eN A)%nat by (apply H3; apply in_map_iff; exists (j, a); auto).
      destruct (HB j) as (_ & H4 & _); [congruence|]. auto.
  Qed.

  Lemma acc_prod (A B : ell) N i w : wf A -> wf B -> eN A = eN B -> (i < eN A)%nat -> N = eN A ->
    clean N w ->
    wp (e_for_row A i (fun j a s => e_for_row B j (fun k b s => ws_acc 0 kadd i k (a * b) s) s) (w, 0%nat))
       (accd 0 N (cols (prodE A B i)) (esum (prodE A B i))).
  Proof.
    intros HA HB HN Hi -> Hc. pose proof HA as [HsA HrA]. pose proof HB as [HsB HrB].
    destruct (HrA i Hi) as (R1 & R2 & R3).
    rewrite e_for_row_eq by (auto; apply wf_nnz; auto).
    apply (forM_inv (fun pre s => accd 0 (eN A) (cols (flat_map (fun kv => sc (snd kv) (erow B (fst kv))) pre))
       (esum (flat_map (fun kv => sc (snd kv) (erow B (fst kv))) pre)) s)).
    - simpl. apply accd_start; auto.
    - intros pre [j a] post s E HP. simpl.
      assert (Hj : (j < eN A)%nat).
      { apply R3. rewrite E. unfold cols. rewrite map_app. apply in_app_iff. right; left; auto. }
      assert (HjB : (j < eN B)%nat) by congruence.
      destruct (HrB j HjB) as (B1 & B2 & B3).
      rewrite e_for_row_eq by (auto; apply wf_nnz; auto).
      eapply wp_mono; [apply (acc_sc (eN A)); eauto|].
      + rewrite HN. auto.
      + intros s' Hs'. rewrite flat_map_app. simpl. rewrite app_nil_r, cols_app.
        eapply accd_ext; [|exact Hs']. intros k. rewrite esum_app. auto.
  Qed.

  Definition mulrow (keep : F -> bool) (A B : ell) (i : nat) : list (nat * F) :=
    kept (fun x => x) (kc_offdiag keep i) (cols (prodE A B i)) (esum (prodE A B i)).

  (** number of columns of row i of A*B that receive a contribution *)
  Lemma prod_cols_dd (A B : ell) i : wf A -> wf B -> eN A = eN B -> (i < eN A)%nat ->
    length (dd (cols (prodE A B i))) = prod_cols A B i.
  Proof.
    intros HA HB HN Hi. rewrite (dd_count _ (eN A)) by (apply prodE_lt; auto).
    unfold prod_cols, count. f_equal. apply filter_ext. intros k.
    apply Bool.eq_true_iff_eq. rewrite existsb_eqb, in_prodE, existsb_exists.
    split; intros (j & H1 & H2); exists j; split; auto; apply existsb_eqb; auto.
  Qed.

  Lemma mulrow_len keep (A B : ell) i : wf A -> wf B -> eN A = eN B -> (i < eN A)%nat ->
    (length (mulrow keep A B i) <= prod_cols A B i)%nat.
  Proof. intros. rewrite <- prod_cols_dd by auto. apply kept_length_le. Qed.

  Lemma mulrow_ok keep (A B : ell) i M : wf A -> wf B -> eN A = eN B -> (i < eN A)%nat ->
    (length (mulrow keep A B i) <= M)%nat -> row_ok (eN A) M (mulrow keep A B i).
  Proof. intros. apply kept_row_ok; auto. apply prodE_lt; auto. Qed.

  Lemma elook_mulrow keep (A B : ell) i j : wf A -> wf B -> eN A = eN B -> (i < eN A)%nat ->
    elook (mulrow keep A B i) j = mcut_offdiag keep (mmul (eN A) (emat A) (emat B)) i j.
  Proof.
    intros HA HB HN Hi. unfold mulrow. rewrite elook_kept by (intros; apply esum_notin; auto).
    rewrite esum_prodE by auto. unfold mcut_offdiag, cut, kc_offdiag.
    rewrite (Nat.eqb_sym j i). destruct (i =? j); auto.
  Qed.

  Lemma mul_row_ok keep (A B C : ell) i w : wf A -> wf B -> eN A = eN B -> eN C = eN A -> (i < eN A)%nat ->
    shape C -> clean (eN A) w ->
    wpq (eM C < prod_cols A B i)%nat (mul_row keep A B i (C, w))
       (fun r => (prod_cols A B i <= eM C)%nat /\ upd_row C (fst r) i (mulrow keep A B i) /\ clean (eN A) (snd r)).
  Proof.
    intros HA HB HN HNC Hi HsC Hc. unfold mul_row.
    apply wp_bind. apply wp_any. eapply wp_mono; [apply (acc_prod A B (eN A)); auto|].
    intros [w1 l] HA1.
    assert (Hl : l = prod_cols A B i).
    { rewrite <- prod_cols_dd by auto. apply HA1. }
    destruct (Nat.ltb_spec (eM C) l) as [Hlt|Hle]; [simpl; lia|].
    apply wp_bind. apply wp_any.
    assert (Hcap := mulrow_len keep A B i HA HB HN Hi).
    eapply wp_mono; [apply (ws_gather_ok 0 kadd (eN A) (fun x : F => x) (kc_offdiag keep i) (fun _ _ t => t)
        (cols (prodE A B i)) (esum (prodE A B i))); auto|].
    - lia.
    - fold (mulrow keep A B i). lia.
    - intros [[[C' w'] t'] ll] (HM & Hc' & _ & Hll). fold (mulrow keep A B i) in HM, Hll.
      destruct (rowpre_finish _ _ _ _ HM) as [E1 E2]; [lia|]. subst ll. rewrite E1. simpl.
      split; [lia|]. auto.
  Qed.

  (** Either the product, or an error report exactly if some row needs more than M columns. *)
  Lemma ell_multiply_AB_ok keep (A B C : ell) sched :
    wf A -> wf B -> eN A = eN B -> wf C -> eN C = eN A ->
    Permutation (map snd sched) (seq 0 (eN A)) ->
    wpq (exists i, i < eN A /\ eM C < prod_cols A B i)%nat (ell_multiply_AB keep A B C sched)
      (fun C' => (forall i, i < eN A -> prod_cols A B i <= eM C)%nat /\
         same_dims C C' /\ wf C' /\ forall i, (i < eN A)%nat -> erow C' i = mulrow keep A B i).
  Proof.
    intros HA HB HN HC HNC HP. pose proof HC as [HsC HrC].
    set (ok := forall i, (i < eN A -> prod_cols A B i <= eM C)%nat).
    assert (Hdec : ok \/ exists i, (i < eN A /\ eM C < prod_cols A B i)%nat).
    { destruct (forallb (fun i => prod_cols A B i <=? eM C) (seq 0 (eN A))) eqn:E.
      - left. intros i Hi. rewrite forallb_forall in E. apply Nat.leb_le. apply E. apply in_seq; lia.
      - right. apply Bool.not_true_iff_false in E.
        assert (X : exists i, In i (seq 0 (eN A)) /\ (prod_cols A B i <=? eM C) = false).
        { clear -E. induction (seq 0 (eN A)) as [|x l IH]; simpl in *; [congruence|].
          destruct (prod_cols A B x <=? eM C) eqn:Ex; simpl in *.
          - destruct IH as (i & H1 & H2); eauto.
          - eauto. }
        destruct X as (i & H1 & H2). apply in_seq in H1. apply Nat.leb_gt in H2. exists i. lia. }
    destruct Hdec as [Hok|Hbad].
    - apply wp_any. unfold ell_multiply_AB. apply wp_bind.
      eapply wp_mono.
      + apply (par_all C sched _ _ (fun i => mulrow keep A B i) (clean (eN A))); auto.
        * intros; apply wf_nnz; auto.
        * rewrite HNC; auto.
        * intros. rewrite HNC. apply clean_new.
        * intros i Hi. rewrite HNC in Hi. eapply Nat.le_trans; [apply mulrow_len|]; auto.
        * intros i C1 w Hi [D1 D2] Hs1 _ Hc. rewrite HNC in Hi.
          eapply wp_weaken; [|eapply wp_mono; [apply mul_row_ok; auto; congruence|]].
          -- rewrite <- D2. specialize (Hok i Hi). lia.
          -- simpl. tauto.
      + intros [C' w] (D & Hs & Hr & _). simpl in *. split; [auto|]. split; [auto|]. rewrite HNC in Hr. split; [|auto].
        apply (wf_rows C C' (fun i => mulrow keep A B i) D Hs).
        * rewrite HNC; auto.
        * intros i Hi. rewrite HNC in *. apply mulrow_ok; auto.
          eapply Nat.le_trans; [apply mulrow_len|]; auto.
    - (* some row does not fit: the run cannot finish normally *)
      unfold ell_multiply_AB. apply wp_bind.
      eapply wp_mono.
      + apply (par_for_inv (fun done C1 w => (forall i, In i done -> prod_cols A B i <= eM C)%nat /\
           same_dims C C1 /\ shape C1 /\ forall t, clean (eN A) (w t))).
        * split; [simpl; tauto|]. split; [split; auto|]. split; [auto|]. intros. rewrite HNC. apply clean_new.
        * intros pre t i post C1 w E (Hd & (D1 & D2) & Hs1 & Hc).
          assert (Hi : (i < eN A)%nat).
          { apply (perm_in _ _ _ HP). rewrite E, map_app. apply in_app_iff. right; left; auto. }
          eapply wp_weaken; [|eapply wp_mono; [apply mul_row_ok; auto; congruence|]].
          -- rewrite <- D2. intros; exists i; auto.
          -- simpl. intros [C2 w2] (Hfit & HU & Hc2). simpl in *. split; [|split; [|split]].
             ++ intros q Hq. apply in_app_iff in Hq as [Hq|[<-|[]]]; auto. congruence.
             ++ destruct HU as ((D3 & D4) & _). split; congruence.
             ++ apply HU.
             ++ intros t'. unfold upd_fun. destruct (t' =? t); auto.
      + intros [C' w] (Hd & _). simpl in *. exfalso.
        destruct Hbad as (i & Hi & Hlt). assert (Hle : (prod_cols A B i <= eM C)%nat).
        { apply Hd. apply (perm_in _ _ _ HP); auto. }
        lia.
  Qed.

  (** ** X^2 *)
  Lemma fold_side (L : list nat) (f : nat -> F) i t : NoDup L ->
    fold_left (fun t k => if k =? i then t + f k else t) L t = t + (if existsb (Nat.eqb i) L then f i else 0).
  Proof.
    revert t. induction L as [|k L IH]; intros t Hd; simpl; [ring|]. inversion Hd; subst.
    rewrite IH by auto. rewrite (Nat.eqb_sym i k). destruct (Nat.eqb_spec k i) as [->|Hne]; simpl; auto.
    apply existsb_eqb_false in H1. rewrite H1. ring.
  Qed.

  Lemma x2_row_ok keep (X C : ell) (getX : ell -> ell) i w tx tx2 : getX C = X ->
    wf X -> eN C = eN X -> (i < eN X)%nat -> shape C -> clean (eN X) w ->
    (length (mulrow keep X X i) <= eM C)%nat ->
    wp (x2_row keep getX i (C, (w, tx, tx2)))
       (fun r => upd_row C (fst r) i (mulrow keep X X i) /\ clean (eN X) (fst (fst (snd r))) /\
          snd (fst (snd r)) = tx + emat X i i /\
          snd (snd r) = tx2 + mmul (eN X) (emat X) (emat X) i i).
  Proof.
    intros HgX HX HNC Hi HsC Hc Hcap. pose proof HX as [HsX HrX].
    destruct (HrX i Hi) as (R1 & R2 & R3).
    unfold x2_row. rewrite HgX.
    rewrite e_for_row_eq by (auto; apply wf_nnz; auto).
    apply wp_bind.
    eapply wp_mono.
    - apply (forM_inv (fun pre '(w', l', tx') =>
        accd 0 (eN X) (cols (flat_map (fun kv => sc (snd kv) (erow X (fst kv))) pre))
           (esum (flat_map (fun kv => sc (snd kv) (erow X (fst kv))) pre)) (w', l') /\
        tx' = tx + esum pre i)).
      + simpl. split; [apply accd_start; auto|ring].
      + intros pre [j a] post [[w' l'] tx'] E [HP Ht]. simpl.
        assert (Hj : (j < eN X)%nat).
        { apply R3. rewrite E. unfold cols. rewrite map_app. apply in_app_iff. right; left; auto. }
        destruct (HrX j Hj) as (B1 & B2 & B3).
        rewrite e_for_row_eq by (auto; apply wf_nnz; auto).
        apply wp_bind.
        eapply wp_mono; [apply (acc_sc (eN X)); eauto|].
        intros [w2 l2] Hs'. simpl. split.
        * rewrite flat_map_app. simpl. rewrite app_nil_r, cols_app.
          eapply accd_ext; [|exact Hs']. intros k. rewrite esum_app. auto.
        * rewrite esum_app, Ht. simpl. destruct (j =? i); ring.
    - intros [[w1 l1] tx1] [HA1 Ht1]. fold (prodE X X i) in HA1.
      apply wp_bind.
      eapply wp_mono; [apply (ws_gather_ok 0 kadd (eN X) (fun x : F => x) (kc_offdiag keep i)
          (fun jp x t => if jp =? i then t + x else t)
          (cols (prodE X X i)) (esum (prodE X X i))); auto|].
      + lia.
      + intros [[[C' w'] t'] ll] (HM & Hc' & Ht2 & Hll). fold (mulrow keep X X i) in HM, Hll.
        assert (HMC : eM C' = eM C) by (destruct HM as ((_ & D2) & _); auto).
        assert (Hlt : (eM C' <? ll) = false) by (apply Nat.ltb_ge; rewrite HMC; lia).
        rewrite Hlt.
        destruct (rowpre_finish _ _ _ _ HM) as [E1 E2]; [lia|]. subst ll. rewrite E1. simpl.
        split; [auto|]. split; [auto|]. split.
        * rewrite Ht1, esum_elook by auto. auto.
        * rewrite Ht2, fold_side by apply NoDup_dd. f_equal.
          rewrite <- esum_prodE by auto.
          destruct (existsb (Nat.eqb i) (dd (cols (prodE X X i)))) eqn:Ex; auto.
          apply existsb_eqb_false in Ex. rewrite in_dd in Ex. symmetry. apply esum_notin; auto.
  Qed.

  Lemma ell_multiply_x2_ok keep (X X2 : ell) nth sched :
    wf X -> wf X2 -> eN X2 = eN X -> full_sched (eN X) nth sched ->
    (forall i, i < eN X -> length (mulrow keep X X i) <= eM X2)%nat ->
    exists C, ell_multiply_x2 keep X X2 nth sched =
        Ok (C, mtrace (eN X) (emat X), mtrace (eN X) (mmul (eN X) (emat X) (emat X))) /\
      same_dims X2 C /\ wf C /\ (forall i, (i < eN X)%nat -> erow C i = mulrow keep X X i).
  Proof.
    intros HX HX2 HN [HP Hth] Hcap. pose proof HX2 as [Hs2 Hr2].
    cut (wp (ell_multiply_x2 keep X X2 nth sched) (fun '(C, t1, t2) =>
       same_dims X2 C /\ wf C /\ (forall i, (i < eN X)%nat -> erow C i = mulrow keep X X i) /\
       t1 = mtrace (eN X) (emat X) /\ t2 = mtrace (eN X) (mmul (eN X) (emat X) (emat X)))).
    { intros H. apply wp_ok in H as ([[C t1] t2] & E & H1 & H2 & H3 & -> & ->). eauto 10. }
    unfold ell_multiply_x2. apply wp_bind.
    eapply wp_mono.
    - apply (par_all_red (Q := bool) X2 sched _ _ (fun i => mulrow keep X X i) (fun w => clean (eN X) (fst (fst w)))
        (fun q w => if q then snd (fst w) else snd w)
        (fun q i => if q then emat X i i else mmul (eN X) (emat X) (emat X) i i) nth); auto.
      + intros; apply wf_nnz; auto.
      + rewrite HN; auto.
      + intros. apply clean_new.
      + intros i Hi. apply Hcap. lia.
      + intros i C [[w tx] tx2] Hi [D1 D2] Hs _ Hc. simpl in Hc.
        eapply wp_mono; [apply (x2_row_ok keep X C); auto|].
        * congruence.
        * lia.
        * rewrite <- D2. apply Hcap. lia.
        * simpl. intros r (H1 & H2 & H3 & H4). split; [auto|]. split; [auto|]. intros [|]; auto.
    - intros [C w] (D & Hs & Hr & Hsum). simpl in *. rewrite HN in Hr.
      split; [auto|]. split; [|split; [auto|]].
      + apply (wf_rows X2 C (fun i => mulrow keep X X i) D Hs).
        * rewrite HN; auto.
        * intros i Hi. rewrite HN in *. apply mulrow_ok; auto.
      + unfold reduce_sum. split.
        * pose proof (Hsum true) as H. simpl in H. rewrite H.
          rewrite HN, bigsum_zero by auto. unfold mtrace. ring.
        * pose proof (Hsum false) as H. simpl in H. rewrite H.
          rewrite HN, bigsum_zero by auto. unfold mtrace. ring.
  Qed.

  Lemma mulrow_fits_count keep (A B : ell) i M : wf A -> wf B -> eN A = eN B -> (i < eN A)%nat ->
    (count (eN A) (fun j => kc_offdiag keep i j (mmul (eN A) (emat A) (emat B) i j)) <= M)%nat ->
    (length (mulrow keep A B i) <= M)%nat.
  Proof.
    intros HA HB HN Hi Hc. unfold mulrow.
    apply (kept_fits (kc_offdiag keep i) _ _ (eN A)); [apply prodE_lt; auto|].
    eapply Nat.le_trans; [|exact Hc]. apply Nat.eq_le_incl. unfold count. f_equal.
    apply filter_ext. intros k. rewrite esum_prodE by auto. auto.
  Qed.

  (** ** element-wise product *)
  Definition emulrow (keep : F -> bool) (i : nat) (EA EB : list (nat * F)) : list (nat * F) :=
    kept (fun x => x) (kc_offdiag keep i) (cols EA) (fun k => esum EA k * esum EB k).

  Lemma emul_row_ok keep (A B C : ell) i w : wf A -> wf B -> eN A = eN B -> eN C = eN A -> (i < eN A)%nat ->
    shape C -> clean (eN A) w -> (nnz A i <= eM C)%nat ->
    wp (emul_row keep A B i (C, w))
       (fun r => upd_row C (fst r) i (emulrow keep i (erow A i) (erow B i)) /\ clean (eN A) (snd r)).
  Proof.
    intros HA HB HN HNC Hi HsC Hc Hcap. pose proof HA as [HsA HrA]. pose proof HB as [HsB HrB].
    destruct (HrA i Hi) as (R1 & R2 & R3). assert (HiB : (i < eN B)%nat) by congruence.
    destruct (HrB i HiB) as (B1 & B2 & B3).
    unfold emul_row. apply wp_bind.
    rewrite e_for_row_eq by (auto; apply wf_nnz; auto).
    eapply wp_mono.
    - apply (forM_inv (fun pre s => accd 0 (eN A) (cols pre) (fun k => esum pre k * esum (erow B i) k) s)).
      + simpl. eapply accd_ext; [|apply accd_start; auto]. intros; simpl; ring.
      + intros pre [k a] post s E HP. simpl.
        assert (Hk : (k < eN A)%nat).
        { apply R3. rewrite E. unfold cols. rewrite map_app. apply in_app_iff. right; left; auto. }
        assert (Hnk : ~ In k (cols pre)).
        { rewrite E in R2. unfold cols in R2. rewrite map_app in R2. apply NoDup_app_inv in R2 as (_ & _ & R2).
          intros Hc'. apply (R2 k Hc'). left; auto. }
        apply wp_bind. eapply wp_mono; [apply (ws_mark_ok 0 (eN A)); eauto|].
        intros s1 Hs1. rewrite e_for_row_eq by (auto; apply wf_nnz; auto).
        eapply wp_mono.
        * apply (forM_inv (fun pb s => accd 0 (eN A) (cols pre ++ [k])
            (fun q => esum pre q * esum (erow B i) q + (if q =? k then a * esum pb k else 0)) s)).
          -- eapply accd_ext; [|exact Hs1]. intros q. simpl. destruct (q =? k); ring.
          -- intros pb [kB b] pob s2 EB HP2. simpl.
             destruct (Nat.eqb_spec k kB) as [->|Hne].
             ++ eapply wp_mono; [apply (ws_plus_ok 0 kadd (eN A)); eauto|].
                ** apply in_app_iff. right; left; auto.
                ** intros s3 Hs3. eapply accd_ext; [|exact Hs3]. intros q. unfold upd_fun. simpl.
                   rewrite esum_app. simpl. rewrite Nat.eqb_refl. destruct (Nat.eqb_spec q kB) as [->|]; [|ring].
                   rewrite ?Nat.eqb_refl. ring.
             ++ simpl. eapply accd_ext; [|exact HP2]. intros q. simpl. rewrite esum_app. simpl.
                destruct (Nat.eqb_spec kB k); [congruence|]. destruct (q =? k); ring.
        * intros s2 Hs2. rewrite cols_app. simpl. eapply accd_ext; [|exact Hs2].
          intros q. simpl. rewrite esum_app. simpl. rewrite (Nat.eqb_sym k q).
          destruct (Nat.eqb_spec q k) as [->|]; ring.
    - intros [w1 l] HA1.
      assert (Hl : (l <= eM C)%nat).
      { assert (X : l = length (dd (cols (erow A i)))) by apply HA1.
        rewrite X. eapply Nat.le_trans; [|exact Hcap]. rewrite <- erow_length.
        unfold cols at 1. rewrite <- (map_length fst (erow A i)).
        apply NoDup_incl_length; [apply NoDup_dd|]. intros q Hq. apply (proj1 (in_dd _ _)) in Hq. exact Hq. }
      assert (Hlt : (eM C <? l) = false) by (apply Nat.ltb_ge; auto). rewrite Hlt.
      apply wp_bind.
      eapply wp_mono; [apply (ws_gather_ok 0 kadd (eN A) (fun x : F => x) (kc_offdiag keep i) (fun _ _ t => t)
        (cols (erow A i)) (fun k => esum (erow A i) k * esum (erow B i) k)); auto|].
      + lia.
      + eapply Nat.le_trans; [apply kept_length_le|]. replace (length (dd (cols (erow A i)))) with l by apply HA1. auto.
      + intros [[[C' w'] t'] ll] (HM & Hc' & _ & Hll).
        destruct (rowpre_finish _ _ _ _ HM) as [E1 E2]; [lia|]. subst ll. rewrite E1. simpl. auto.
  Qed.

  Lemma elook_emulrow keep i EA EB j : NoDup (cols EA) -> NoDup (cols EB) ->
    elook (emulrow keep i EA EB) j =
    if i =? j then elook EA j * elook EB j else cut keep (elook EA j * elook EB j).
  Proof.
    intros HA HB. unfold emulrow. rewrite elook_kept.
    - rewrite !esum_elook by auto. unfold kc_offdiag, cut. rewrite (Nat.eqb_sym j i). destruct (i =? j); auto.
    - intros k Hk. rewrite (esum_notin EA) by auto. ring.
  Qed.

  Lemma ell_element_multiply_ok keep (A B C : ell) sched :
    wf A -> wf B -> eN A = eN B -> wf C -> eN C = eN A -> (eM A <= eM C)%nat ->
    Permutation (map snd sched) (seq 0 (eN A)) ->
    exists C', ell_element_multiply keep A B C sched = Ok C' /\ same_dims C C' /\ wf C' /\
      forall i, (i < eN A)%nat -> erow C' i = emulrow keep i (erow A i) (erow B i).
  Proof.
    intros HA HB HN HC HNC HM HP. pose proof HC as [HsC HrC]. pose proof HA as [HsA HrA]. pose proof HB as [HsB HrB].
    assert (Hlen : forall i, (i < eN A)%nat -> (length (emulrow keep i (erow A i) (erow B i)) <= eM C)%nat).
    { intros i Hi. destruct (HrA i Hi) as (R1 & R2 & R3).
      eapply Nat.le_trans; [apply kept_length_le|]. eapply Nat.le_trans; [|exact HM].
      eapply Nat.le_trans; [|exact R1]. unfold cols. rewrite <- (map_length fst (erow A i)).
      apply NoDup_incl_length; [apply NoDup_dd|]. intros q Hq. apply (proj1 (in_dd _ _)) in Hq. exact Hq. }
    apply wp_ok. unfold ell_element_multiply. apply wp_bind.
    eapply wp_mono.
    - apply (par_all C sched _ _ (fun i => emulrow keep i (erow A i) (erow B i)) (clean (eN A))); auto.
      + intros; apply wf_nnz; auto.
      + rewrite HNC; auto.
      + intros. rewrite HNC. apply clean_new.
      + intros i Hi. apply Hlen. lia.
      + intros i C1 w Hi [D1 D2] Hs1 _ Hc. rewrite HNC in Hi.
        apply emul_row_ok; auto; try congruence.
        rewrite <- D2. eapply Nat.le_trans; [apply wf_nnz; auto|auto].
    - intros [C' w] (D & Hs & Hr & _). simpl in *. rewrite HNC in Hr. split; [auto|]. split; [|auto].
      apply (wf_rows C C' (fun i => emulrow keep i (erow A i) (erow B i)) D Hs).
      + rewrite HNC; auto.
      + intros i Hi. rewrite HNC in *. apply kept_row_ok.
        * apply (HrA i Hi).
        * apply Hlen; auto.
  Qed.
End EllpackMul.
