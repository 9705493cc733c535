(** Proofs about csr products. *)
From Verif Require Import Base BaseFacts Spec SpecFacts EllpackModel EllpackSpec EllpackFacts EllpackOps EllpackArith
  EllpackMul EllpackMore EllpackRest CsrModel CsrSpec CsrFacts CsrOps.
From Coq Require Import Ring.

#[local] Arguments firstn {A} !n !l : simpl nomatch.
#[local] Arguments skipn {A} !n !l : simpl nomatch.

Section CsrMul.
  Context {F : scalar}.
  Local Open Scope K_scope.
  Add Ring Kring12 : (k_ring F).
  Local Notation row := (row F).
  Local Notation csr := (csr F).
  Local Notation ent := (nat * K F)%type.
  Local Notation keptF := (kept (fun x : F => x)).

  Lemma c_gather_ok {T} N (kc : nat -> F -> bool) (side : nat -> F -> T -> T) cs f w l (r : row) E0 (t : T) :
    accd 0 N cs f (w, l) -> row_is r E0 ->
    wp (c_gather kc side l r w t)
       (fun s => let '(r', w', t') := s in
          row_is r' (E0 ++ keptF kc cs f) /\ clean N w' /\
          t' = fold_left (fun t k => side k (f k) t) (dd cs) t).
  Proof.
    intros (H1 & H2 & H3 & H4 & H5 & H6 & H7 & H8 & H9) Hr.
    unfold c_gather.
    set (sel := fun pre => filter (fun kv : ent => kc (fst kv) (snd kv)) (map (fun k => (k, f k)) pre)).
    assert (Hdd : forall j, (j < length (dd cs))%nat -> nth j (wjx w) 0%nat = nth j (dd cs) 0%nat).
    { intros j Hj. rewrite <- H6. symmetry. apply nth_firstn_lt. lia. }
    eapply wp_mono.
    - apply (for_n_inv (fun p '(r', w', t') =>
        row_is r' (E0 ++ sel (firstn p (dd cs))) /\
        length (wix w') = N /\ wjx w' = wjx w /\ length (wx w') = N /\
        (forall k, (k < N)%nat -> (nth k (wix w') 0%nat <> 0%nat <-> In k (skipn p (dd cs)))) /\
        (forall k, In k (skipn p (dd cs)) -> nth k (wx w') 0 = f k) /\
        t' = fold_left (fun t k => side k (f k) t) (firstn p (dd cs)) t)).
      + split; [simpl; rewrite app_nil_r; auto|]. split; [auto|]. split; [auto|]. split; [auto|]. split; [|split].
        * intros k Hk. change (skipn 0 (dd cs)) with (dd cs). rewrite in_dd. auto.
        * intros k Hk. change (skipn 0 (dd cs)) with (dd cs) in Hk. apply H8. apply in_dd; auto.
        * auto.
      + intros p [[r' w'] t'] Hp (M & L1 & L2 & L3 & Hix & Hx & Ht).
        rewrite H5 in Hp.
        assert (Hsk := skipn_S_nth (dd cs) p 0%nat Hp).
        assert (Hfs := firstn_S_nth (dd cs) p 0%nat Hp).
        assert (Hkin : In (nth p (dd cs) 0%nat) (dd cs)) by (apply nth_In; auto).
        assert (Hdk := Hdd p Hp).
        set (k := nth p (dd cs) 0%nat) in *.
        assert (HkN : (k < N)%nat) by (apply H4; apply in_dd; auto).
        assert (Hnd : NoDup (k :: skipn (S p) (dd cs))).
        { rewrite <- Hsk. pose proof (NoDup_dd cs) as HD. rewrite <- (firstn_skipn p (dd cs)) in HD.
          apply NoDup_app_inv in HD. tauto. }
        assert (HlN : (l <= N)%nat) by (rewrite H5; apply dd_length; auto).
        rewrite L2. rewrite (rd_ok _ _ 0%nat) by (rewrite H2; lia). cbn [bind].
        rewrite Hdk.
        rewrite (rd_ok _ _ 0) by (rewrite L3; auto). cbn [bind].
        assert (Hxk : nth k (wx w') 0 = f k) by (apply Hx; rewrite Hsk; left; auto).
        rewrite Hxk.
        assert (Hsel : sel (firstn (S p) (dd cs)) =
                       sel (firstn p (dd cs)) ++ (if kc k (f k) then [(k, f k)] else [])).
        { rewrite Hfs. unfold sel. rewrite map_app, filter_app. simpl. destruct (kc k (f k)); auto. }
        assert (HG : exists r'', (if kc k (f k) then r_push r' k (f k) else Ok r') = Ok r'' /\
                                 row_is r'' (E0 ++ sel (firstn (S p) (dd cs)))).
        { rewrite Hsel. destruct (kc k (f k)).
          - destruct (r_push_ok _ _ k (f k) M) as (r'' & E1 & E2 & _). exists r''. split; auto. rewrite app_assoc. auto.
          - exists r'. rewrite app_nil_r. auto. }
        destruct HG as (r'' & E1 & E2). rewrite E1. cbn [bind].
        rewrite !wr_ok by lia. cbn [bind wpq wix wjx wx]. rewrite !length_set_nth.
        split; [auto|]. split; [auto|]. split; [auto|]. split; [auto|].
        inversion Hnd as [|? ? Hk1 Hk2]; subst.
        split; [|split].
        * intros q Hq. destruct (Nat.eq_dec q k) as [->|Hne].
          -- rewrite nth_set_nth_eq by lia. split; [intros; lia|contradiction].
          -- rewrite nth_set_nth_neq by auto. rewrite Hix by auto. rewrite Hsk. simpl. split; auto.
             intros [Hc|Hc]; auto. congruence.
        * intros q Hq. rewrite nth_set_nth_neq by (intros ->; contradiction). apply Hx.
          rewrite Hsk. right; auto.
        * rewrite Hfs, fold_left_app. simpl. auto.
    - intros [[r' w'] t'] (M & L1 & L2 & L3 & Hix & Hx & Ht).
      rewrite H5, firstn_all in *. rewrite skipn_all in *.
      split; [exact M|]. split; [|auto].
      unfold clean. rewrite L1, L2, L3, H2. repeat split; auto.
      intros k Hk. destruct (Nat.eq_dec (nth k (wix w') 0%nat) 0) as [E|E]; auto.
      apply Hix in E; auto. destruct E.
  Qed.

  (** ** products *)
  Definition cprodE (A B : csr) (i : nat) : list ent :=
    flat_map (fun kv => sc (snd kv) (crow B (fst kv))) (crow A i).

  Lemma in_cprodE (A B : csr) i k : In k (cols (cprodE A B i)) <->
    exists j, In j (cols (crow A i)) /\ In k (cols (crow B j)).
  Proof.
    unfold cprodE. rewrite cols_flat_map, in_flat_map. split.
    - intros ([j a] & H1 & H2). rewrite cols_sc in H2. exists j. split; auto.
      apply in_map_iff. exists (j, a). auto.
    - intros (j & H1 & H2). apply in_map_iff in H1 as ([j' a] & E & H1). simpl in E. subst.
      exists (j, a). rewrite cols_sc. auto.
  Qed.

  Lemma cprodE_lt (A B : csr) i : cwf A -> cwf B -> cN A = cN B -> (i < cN A)%nat ->
    forall k, In k (cols (cprodE A B i)) -> (k < cN A)%nat.
  Proof.
    intros [HsA HA] [HsB HB] HN Hi k Hk. apply in_cprodE in Hk as (j & H1 & H2).
    destruct (HA i Hi) as (_ & H3). apply H3 in H1.
    destruct (HB j) as (_ & H4); [congruence|]. rewrite HN. auto.
  Qed.

  Lemma esum_cprodE (A B : csr) i k : cwf A -> cwf B -> cN A = cN B -> (i < cN A)%nat ->
    esum (cprodE A B i) k = mmul (cN A) (cmat A) (cmat B) i k.
  Proof.
    intros [HsA HA] [HsB HB] HN Hi. destruct (HA i Hi) as (H2 & H3).
    unfold cprodE. rewrite esum_flat_map.
    rewrite (lsum_map_ext _ (fun kv => snd kv * cmat B (fst kv) k)).
    - apply (lsum_entries (crow A i) (cN A) (fun j v => v * cmat B j k)); auto. intros; ring.
    - intros [j a] Hin. simpl. unfold sc. rewrite esum_scale. f_equal. apply esum_elook.
      assert (j < cN A)%nat by (apply H3; apply in_map_iff; exists (j, a); auto).
      destruct (HB j) as (H4 & _); [congruence|]. auto.
  Qed.

  Lemma acc_cprod (A B : csr) N i w : cwf A -> cwf B -> cN A = cN B -> (i < cN A)%nat -> N = cN A ->
    clean N w ->
    wp (forM (crow A i) (fun kv s => rb <- c_row B (fst kv) ;; r_for rb (fun k b s => ws_acc 0 kadd i k (snd kv * b) s) s) (w, 0%nat))
       (accd 0 N (cols (cprodE A B i)) (esum (cprodE A B i))).
  Proof.
    intros HA HB HN Hi -> Hc. pose proof HA as [HsA HrA]. pose proof HB as [HsB HrB].
    destruct (HrA i Hi) as (R2 & R3).
    apply (forM_inv (fun pre s => accd 0 (cN A) (cols (flat_map (fun kv => sc (snd kv) (crow B (fst kv))) pre))
       (esum (flat_map (fun kv => sc (snd kv) (crow B (fst kv))) pre)) s)).
    - simpl. apply accd_start; auto.
    - intros pre [j a] post s E HP. cbn [fst snd].
      assert (Hj : (j < cN A)%nat).
      { apply R3. rewrite E. unfold cols. rewrite map_app. apply in_app_iff. right; left; auto. }
      assert (HjB : (j < cN B)%nat) by congruence.
      destruct (HrB j HjB) as (B2 & B3).
      rewrite c_row_ok by (rewrite (cwf_len _ HB); auto). cbn [bind].
      rewrite (r_for_eq _ _ _ _ (cwf_is B j HB HjB)).
      eapply wp_mono; [apply (acc_sc (cN A)); eauto|].
      + rewrite HN. auto.
      + intros s' Hs'. rewrite flat_map_app. simpl. rewrite app_nil_r, cols_app.
        eapply accd_ext; [|exact Hs']. intros k. rewrite esum_app. auto.
  Qed.

  Definition cmulrow (keep : F -> bool) (A B : csr) (i : nat) : list ent :=
    keptF (kc_offdiag keep i) (cols (cprodE A B i)) (esum (cprodE A B i)).

  Lemma cmulrow_ok keep (A B : csr) i : cwf A -> cwf B -> cN A = cN B -> (i < cN A)%nat ->
    cols_ok (cN A) (cmulrow keep A B i).
  Proof.
    intros. eapply cols_ok_row_ok. apply kept_row_ok; [apply cprodE_lt; auto|reflexivity].
  Qed.

  Lemma elook_cmulrow keep (A B : csr) i j : cwf A -> cwf B -> cN A = cN B -> (i < cN A)%nat ->
    elook (cmulrow keep A B i) j = mcut_offdiag keep (mmul (cN A) (cmat A) (cmat B)) i j.
  Proof.
    intros HA HB HN Hi. unfold cmulrow. rewrite elook_kept by (intros; apply esum_notin; auto).
    rewrite esum_cprodE by auto. unfold mcut_offdiag, cut, kc_offdiag.
    rewrite (Nat.eqb_sym j i). destruct (i =? j); auto.
  Qed.

  Lemma csr_mul_row_ok keep (A B C : csr) i w E0 : cwf A -> cwf B -> cN A = cN B -> (i < cN A)%nat ->
    (i < length (cdata C))%nat -> row_is (nth i (cdata C) row0) E0 -> clean (cN A) w ->
    wp (csr_mul_row keep A B i (C, w))
       (fun s => exists r', fst s = cputp C i r' /\ row_is r' (cmulrow keep A B i) /\ clean (cN A) (snd s)).
  Proof.
    intros HA HB HN Hi HiC HrC Hc. unfold csr_mul_row.
    rewrite c_row_ok by (rewrite (cwf_len _ HA); auto). cbn [bind].
    rewrite (r_for_eq _ _ _ _ (cwf_is A i HA Hi)).
    apply wp_bind. eapply wp_mono; [apply (acc_cprod A B (cN A)); auto|].
    intros [w1 l] HA1. rewrite c_row_ok by auto. cbn [bind].
    destruct (clear_row_ok _ _ HrC) as (r1 & E1 & E2 & _). rewrite E1. cbn [bind].
    apply wp_bind. eapply wp_mono; [apply (c_gather_ok (cN A) (kc_offdiag keep i) (fun _ _ t => t)
        (cols (cprodE A B i)) (esum (cprodE A B i)) w1 l r1 [] tt); auto|].
    intros [[r' w'] t'] (HR & Hc' & _). rewrite c_put_ok by auto. cbn [bind wpq fst snd].
    exists r'. auto.
  Qed.

  Lemma csr_multiply_AB_ok keep (A B C : csr) sched :
    cwf A -> cwf B -> cN A = cN B -> cwf C -> cN C = cN A ->
    Permutation (map snd sched) (seq 0 (cN A)) ->
    exists C', csr_multiply_AB keep A B C sched = Ok C' /\ cwf C' /\ cdims C C' /\
      forall i, (i < cN A)%nat -> crow C' i = cmulrow keep A B i.
  Proof.
    intros HA HB HN HC HNC HP. apply wp_ok. unfold csr_multiply_AB. apply wp_bind. eapply wp_mono.
    - apply (cpar C sched _ _ (fun i r => row_is r (cmulrow keep A B i)) (clean (cN A))).
      + apply cwf_len; auto.
      + rewrite HNC; auto.
      + intros. rewrite HNC. apply clean_new.
      + intros i C1 w Hi [D1 D2] HL Hn Hc.
        apply (csr_mul_row_ok keep A B C1 i w (crow C i)); auto; try lia.
        rewrite Hn. apply cwf_is; auto.
    - intros [C' w] [[D1 D2] HR]. cbn [fst snd wpq] in *. destruct (crows_wf C' _ HR) as [H1 H2].
      + intros i Hi. rewrite <- D1, HNC in *. apply cmulrow_ok; auto.
      + split; [auto|]. split; [split; auto|]. intros. apply H2. lia.
  Qed.

  (** ** X^2 *)
  Lemma csr_x2_row_ok keep (X C : csr) i w tx tx2 E0 : cwf X -> (i < cN X)%nat ->
    (i < length (cdata C))%nat -> row_is (nth i (cdata C) row0) E0 -> clean (cN X) w ->
    wp (csr_x2_row keep X i (C, (w, tx, tx2)))
       (fun s => exists r', fst s = cputp C i r' /\ row_is r' (cmulrow keep X X i) /\ clean (cN X) (fst (fst (snd s))) /\
          snd (fst (snd s)) = tx + cmat X i i /\
          snd (snd s) = tx2 + mmul (cN X) (cmat X) (cmat X) i i).
  Proof.
    intros HX Hi HiC HrC Hc. pose proof HX as [HsX HrX].
    destruct (HrX i Hi) as (R2 & R3).
    unfold csr_x2_row. rewrite c_row_ok by (rewrite (cwf_len _ HX); auto). cbn [bind].
    rewrite (r_for_eq _ _ _ _ (cwf_is X i HX Hi)).
    apply wp_bind.
    eapply wp_mono.
    - apply (forM_inv (fun pre '(w', l', tx') =>
        accd 0 (cN X) (cols (flat_map (fun kv => sc (snd kv) (crow X (fst kv))) pre))
           (esum (flat_map (fun kv => sc (snd kv) (crow X (fst kv))) pre)) (w', l') /\
        tx' = tx + esum pre i)).
      + simpl. split; [apply accd_start; auto|ring].
      + intros pre [j a] post [[w' l'] tx'] E [HP Ht]. cbn [fst snd].
        assert (Hj : (j < cN X)%nat).
        { apply R3. rewrite E. unfold cols. rewrite map_app. apply in_app_iff. right; left; auto. }
        destruct (HrX j Hj) as (B2 & B3).
        rewrite c_row_ok by (rewrite (cwf_len _ HX); auto). cbn [bind].
        rewrite (r_for_eq _ _ _ _ (cwf_is X j HX Hj)).
        apply wp_bind.
        eapply wp_mono; [apply (acc_sc (cN X)); eauto|].
        intros [w2 l2] Hs'. cbn [wpq]. split.
        * rewrite flat_map_app. simpl. rewrite app_nil_r, cols_app.
          eapply accd_ext; [|exact Hs']. intros k. rewrite esum_app. auto.
        * rewrite esum_app, Ht. simpl. destruct (j =? i); ring.
    - intros [[w1 l1] tx1] [HA1 Ht1]. fold (cprodE X X i) in HA1.
      rewrite c_row_ok by auto. cbn [bind].
      destruct (clear_row_ok _ _ HrC) as (r1 & E1 & E2 & _). rewrite E1. cbn [bind].
      apply wp_bind.
      eapply wp_mono; [apply (c_gather_ok (cN X) (kc_offdiag keep i)
          (fun jp x t => if jp =? i then t + x else t)
          (cols (cprodE X X i)) (esum (cprodE X X i)) w1 l1 r1 []); auto|].
      intros [[r' w'] t'] (HM & Hc' & Ht2). rewrite c_put_ok by auto. cbn [bind wpq fst snd].
      exists r'. split; [auto|]. split; [exact HM|]. split; [auto|]. split.
      * rewrite Ht1, esum_elook by auto. auto.
      * rewrite Ht2, fold_side by apply NoDup_dd. f_equal.
        rewrite <- esum_cprodE by auto.
        destruct (existsb (Nat.eqb i) (dd (cols (cprodE X X i)))) eqn:Ex; auto.
        apply existsb_eqb_false in Ex. rewrite in_dd in Ex. symmetry. apply esum_notin; auto.
  Qed.

  Lemma csr_multiply_x2_ok keep (X X2 : csr) nth sched :
    cwf X -> cwf X2 -> cN X2 = cN X -> full_sched (cN X) nth sched ->
    exists C, csr_multiply_x2 keep X X2 nth sched =
        Ok (C, mtrace (cN X) (cmat X), mtrace (cN X) (mmul (cN X) (cmat X) (cmat X))) /\
      cwf C /\ cdims X2 C /\ (forall i, (i < cN X)%nat -> crow C i = cmulrow keep X X i).
  Proof.
    intros HX HX2 HN [HP Hth].
    cut (wp (csr_multiply_x2 keep X X2 nth sched) (fun '(C, t1, t2) =>
       cwf C /\ cdims X2 C /\ (forall i, (i < cN X)%nat -> crow C i = cmulrow keep X X i) /\
       t1 = mtrace (cN X) (cmat X) /\ t2 = mtrace (cN X) (mmul (cN X) (cmat X) (cmat X)))).
    { intros H. apply wp_ok in H as ([[C t1] t2] & E & H1 & H2 & H3 & -> & ->). eauto 10. }
    unfold csr_multiply_x2. apply wp_bind.
    eapply wp_mono.
    - apply (cpar_red (Q := bool) X2 sched _ _ (fun i r => row_is r (cmulrow keep X X i)) (fun w => clean (cN X) (fst (fst w)))
        (fun q w => if q then snd (fst w) else snd w)
        (fun q i => if q then cmat X i i else mmul (cN X) (cmat X) (cmat X) i i) nth).
      + apply cwf_len; auto.
      + rewrite HN; auto.
      + auto.
      + intros. apply clean_new.
      + intros i C [[w tx] tx2] Hi [D1 D2] HL Hn Hc. cbn [fst snd] in Hc.
        eapply wp_mono; [apply (csr_x2_row_ok keep X C i w tx tx2 (crow X2 i)); auto|].
        * lia.
        * lia.
        * rewrite Hn. apply cwf_is; auto.
        * intros r (r' & H0 & H1 & H2 & H3 & H4). exists r'. split; [auto|]. split; [auto|]. split; [auto|]. intros [|]; auto.
    - intros [C w] ([D1 D2] & HR & Hsum). cbn [fst snd] in *. destruct (crows_wf C _ HR) as [H1 H2].
      + intros i Hi. rewrite <- D1, HN in *. apply cmulrow_ok; auto.
      + split; [auto|]. split; [split; auto|]. split; [intros; apply H2; lia|].
        unfold reduce_sum. split.
        * pose proof (Hsum true) as H. simpl in H. rewrite H.
          rewrite HN, bigsum_zero by auto. unfold mtrace. ring.
        * pose proof (Hsum false) as H. simpl in H. rewrite H.
          rewrite HN, bigsum_zero by auto. unfold mtrace. ring.
  Qed.

  (** ** element-wise product *)
  Lemma csr_emul_row_ok keep (A B C : csr) i w E0 : cwf A -> cwf B -> cN A = cN B -> (i < cN A)%nat ->
    (i < length (cdata C))%nat -> row_is (nth i (cdata C) row0) E0 -> clean (cN A) w ->
    wp (csr_emul_row keep A B i (C, w))
       (fun s => exists r', fst s = cputp C i r' /\ row_is r' (emulrow keep i (crow A i) (crow B i)) /\ clean (cN A) (snd s)).
  Proof.
    intros HA HB HN Hi HiC HrC Hc. pose proof HA as [HsA HrA]. pose proof HB as [HsB HrB].
    destruct (HrA i Hi) as (R2 & R3). assert (HiB : (i < cN B)%nat) by congruence.
    destruct (HrB i HiB) as (B2 & B3).
    unfold csr_emul_row. rewrite c_row_ok by (rewrite (cwf_len _ HA); auto). cbn [bind].
    apply wp_bind.
    rewrite (r_for_eq _ _ _ _ (cwf_is A i HA Hi)).
    eapply wp_mono.
    - apply (forM_inv (fun pre s => accd 0 (cN A) (cols pre) (fun k => esum pre k * esum (crow B i) k) s)).
      + simpl. eapply accd_ext; [|apply accd_start; auto]. intros; simpl; ring.
      + intros pre [k a] post s E HP. cbn [fst snd].
        assert (Hk : (k < cN A)%nat).
        { apply R3. rewrite E. unfold cols. rewrite map_app. apply in_app_iff. right; left; auto. }
        assert (Hnk : ~ In k (cols pre)).
        { rewrite E in R2. unfold cols in R2. rewrite map_app in R2. apply NoDup_app_inv in R2 as (_ & _ & R2).
          intros Hc'. apply (R2 k Hc'). left; auto. }
        apply wp_bind. eapply wp_mono; [apply (ws_mark_ok 0 (cN A)); eauto|].
        intros s1 Hs1. rewrite c_row_ok by (rewrite (cwf_len _ HB); auto). cbn [bind].
        rewrite (r_for_eq _ _ _ _ (cwf_is B i HB HiB)).
        eapply wp_mono.
        * apply (forM_inv (fun pb s => accd 0 (cN A) (cols pre ++ [k])
            (fun q => esum pre q * esum (crow B i) q + (if q =? k then a * esum pb k else 0)) s)).
          -- eapply accd_ext; [|exact Hs1]. intros q. simpl. destruct (q =? k); ring.
          -- intros pb [kB b] pob s2 EB HP2. simpl.
             destruct (Nat.eqb_spec k kB) as [->|Hne].
             ++ eapply wp_mono; [apply (ws_plus_ok 0 kadd (cN A)); eauto|].
                ** apply in_app_iff. right; left; auto.
                ** intros s3 Hs3. eapply accd_ext; [|exact Hs3]. intros q. unfold upd_fun. simpl.
                   rewrite esum_app. simpl. rewrite Nat.eqb_refl. destruct (Nat.eqb_spec q kB) as [->|]; [|ring].
                   rewrite ?Nat.eqb_refl. ring.
             ++ simpl. eapply accd_ext; [|exact HP2]. intros q. simpl. rewrite esum_app. simpl.
                destruct (Nat.eqb_spec kB k); [congruence|]. destruct (q =? k); ring.
        * intros s2 Hs2. rewrite cols_app. simpl. eapply accd_ext; [|exact Hs2].
          intros q. simpl. rewrite esum_app. simpl. rewrite (Nat.eqb_sym k q).
          destruct (Nat.eqb_spec q k) as [->|]; ring.
    - intros [w1 l] HA1. rewrite c_row_ok by auto. cbn [bind].
      destruct (clear_row_ok _ _ HrC) as (r1 & E1 & E2 & _). rewrite E1. cbn [bind].
      apply wp_bind.
      eapply wp_mono; [apply (c_gather_ok (cN A) (kc_offdiag keep i) (fun _ _ t => t)
        (cols (crow A i)) (fun k => esum (crow A i) k * esum (crow B i) k) w1 l r1 [] tt); auto|].
      intros [[r' w'] t'] (HR & Hc' & _). rewrite c_put_ok by auto. cbn [bind wpq fst snd].
      exists r'. auto.
  Qed.

  Lemma csr_element_multiply_ok keep (A B C : csr) sched :
    cwf A -> cwf B -> cN A = cN B -> cwf C -> cN C = cN A ->
    Permutation (map snd sched) (seq 0 (cN A)) ->
    exists C', csr_element_multiply keep A B C sched = Ok C' /\ cwf C' /\ cdims C C' /\
      forall i, (i < cN A)%nat -> crow C' i = emulrow keep i (crow A i) (crow B i).
  Proof.
    intros HA HB HN HC HNC HP. pose proof HA as [HsA HrA]. apply wp_ok. unfold csr_element_multiply. apply wp_bind. eapply wp_mono.
    - apply (cpar C sched _ _ (fun i r => row_is r (emulrow keep i (crow A i) (crow B i))) (clean (cN A))).
      + apply cwf_len; auto.
      + rewrite HNC; auto.
      + intros. rewrite HNC. apply clean_new.
      + intros i C1 w Hi [D1 D2] HL Hn Hc.
        apply (csr_emul_row_ok keep A B C1 i w (crow C i)); auto; try lia.
        rewrite Hn. apply cwf_is; auto.
    - intros [C' w] [[D1 D2] HR]. cbn [fst snd wpq] in *. destruct (crows_wf C' _ HR) as [H1 H2].
      + intros i Hi. rewrite <- D1, HNC in *. unfold emulrow. eapply cols_ok_row_ok. apply kept_row_ok; [|reflexivity].
        apply (HrA i Hi).
      + split; [auto|]. split; [split; auto|]. intros. apply H2. lia.
  Qed.
End CsrMul.
