(** Proofs about ellpack threshold, add_identity, scale, copy, reorder,
    transpose_new, traces and norms. *)
From Verif Require Import Base BaseFacts Spec SpecFacts EllpackModel EllpackSpec EllpackFacts EllpackOps EllpackArith.
From Coq Require Import Ring.
#[local] Arguments firstn {A} !n !l : simpl nomatch.

Section EllpackMore.
  Context {F : scalar}.
  Local Open Scope K_scope.
  Add Ring Kring6 : (k_ring F).
  Local Notation ell := (ell F).

  Definition cutrow (keep : F -> bool) (E : list (nat * F)) : list (nat * F) :=
    filter (fun kv => keep (snd kv)) E.

  Lemma cutrow_ok keep N M E : row_ok N M E -> row_ok N M (cutrow keep E).
  Proof.
    intros (H1 & H2 & H3). destruct (cols_filter_sub (fun kv => keep (snd kv)) E H2) as [H4 H5].
    unfold cutrow. repeat split; auto.
    eapply Nat.le_trans; [apply filter_length_le|auto].
  Qed.

  Lemma elook_cutrow keep E j : NoDup (cols E) -> elook (cutrow keep E) j = cut keep (elook E j).
  Proof. apply elook_filter. Qed.

  (** ** threshold_new *)
  Lemma ell_threshold_new_ok keep (A : ell) sched : wf A -> (0 < eM A)%nat ->
    Permutation (map snd sched) (seq 0 (eN A)) ->
    exists B, ell_threshold_new keep A sched = Ok B /\ same_dims A B /\ wf B /\
      forall i, (i < eN A)%nat -> erow B i = cutrow keep (erow A i).
  Proof.
    intros HA HM HP. pose proof HA as [HsA HrA]. apply wp_ok. unfold ell_threshold_new.
    destruct (ell_zero_ok (F:=F) (eN A) (eM A) HM) as (B0 & E0 & HN0 & HM0 & Hs0 & Hr0). rewrite E0. cbn [bind].
    apply wp_bind. eapply wp_mono.
    - apply (par_all B0 sched _ _ (fun i => cutrow keep (erow A i)) (fun _ => True)); auto.
      + intros i _. rewrite <- erow_length, Hr0. simpl. lia.
      + rewrite HN0; auto.
      + intros i Hi. rewrite HM0. apply cutrow_ok with (N := eN A). apply HrA. lia.
      + intros i B w Hi [D1 D2] Hs HE _.
        destruct (HrA i) as (R1 & R2 & R3); [lia|].
        rewrite e_for_row_eq by (auto; try apply wf_nnz; auto; lia). apply wp_bind.
        eapply wp_mono; [apply (push_loop (fun _ x => keep x)); auto; try lia|].
        * rewrite <- erow_length, HE, Hr0. simpl. fold (cutrow keep (erow A i)).
          pose proof (proj1 (cutrow_ok keep _ _ _ (HrA i ltac:(lia)))). lia.
        * intros B' HU. simpl. rewrite HE, Hr0 in HU. auto.
    - intros [B w] ((D1 & D2) & Hs & Hr & _). simpl in *. rewrite HN0 in Hr.
      split; [split; congruence|]. split; [|auto].
      apply (wf_rows B0 B (fun i => cutrow keep (erow A i))); auto.
      + split; auto.
      + rewrite HN0; auto.
      + intros i Hi. rewrite HN0, HM0 in *. apply cutrow_ok. auto.
  Qed.

  (** ** threshold in place *)
  Lemma thr_row_ok (keep : F -> bool) (A : ell) i : shape A -> (i < eN A)%nat -> (nnz A i <= eM A)%nat ->
    wp (for_n (nnz A i) (fun j '(A, rlen) =>
            v <- e_val A i j ;;
            if keep v then
              A <- (if rlen <? j then
                      A <- e_wval A i rlen v ;; k <- e_idx A i j ;; e_widx A i rlen k
                    else Ok A) ;;
              Ok (A, S rlen)
            else Ok (A, rlen)) (A, 0%nat))
       (fun r => rowpre A (fst r) i (cutrow keep (erow A i)) /\ snd r = length (cutrow keep (erow A i))).
  Proof.
    intros Hs Hi Hn.
    assert (HL := erow_length A i).
    eapply wp_mono.
    - apply (for_n_inv (fun j '(A', rlen) =>
        rowpre A A' i (cutrow keep (firstn j (erow A i))) /\ rlen = length (cutrow keep (firstn j (erow A i))) /\
        forall p, (j <= p < nnz A i)%nat ->
          (nth (i * eM A + p) (eidx A') 0%nat, nth (i * eM A + p) (eval A') 0) = nth p (erow A i) (0%nat, 0))).
      + simpl. split; [apply rowpre_refl; auto|]. split; auto.
        intros p Hp. unfold erow. rewrite slots_nth by lia. auto.
      + intros j [A' rlen] Hj (HM & Hl & Hrest).
        pose proof HM as ((D1 & D2) & Hs' & HE & Hno & Hso).
        assert (Hle : (rlen <= j)%nat).
        { rewrite Hl. unfold cutrow. eapply Nat.le_trans; [apply filter_length_le|].
          rewrite firstn_length. lia. }
        rewrite e_val_ok by (auto; lia). cbn [bind].
        pose proof (Hrest j ltac:(lia)) as Hj1. rewrite D2 in Hj1 at 1 2.
        set (kv := nth j (erow A i) (0%nat, 0)) in *.
        assert (Hf : cutrow keep (firstn (S j) (erow A i)) =
                     cutrow keep (firstn j (erow A i)) ++ (if keep (snd kv) then [kv] else [])).
        { rewrite (firstn_S_nth _ _ (0%nat, 0)) by lia. unfold cutrow. rewrite filter_app. simpl. fold kv.
          destruct (keep (snd kv)); auto. }
        replace (nth (i * eM A' + j) (eval A') 0) with (snd kv) by (rewrite <- Hj1; auto).
        destruct (keep (snd kv)) eqn:Ek.
        * destruct (Nat.ltb_spec rlen j) as [Hlt|Hge].
          -- rewrite e_wval_ok by (auto; lia). cbn [bind].
             rewrite e_idx_ok by (try apply shape_wvalp; auto; simpl; lia). cbn [bind]. simpl eidx. simpl eM.
             replace (nth (i * eM A' + j) (eidx A') 0%nat) with (fst kv) by (rewrite <- Hj1; auto).
             rewrite e_widx_ok by (try apply shape_wvalp; auto; simpl; lia). cbn [bind].
             change (widxp (wvalp A' i rlen (snd kv)) i rlen (fst kv)) with (putp A' i rlen (fst kv) (snd kv)).
             destruct (rowpre_put A A' i _ (fst kv) (snd kv) HM Hi) as [E1 E2]; [lia|].
             rewrite <- Hl in E1, E2. rewrite <- surjective_pairing in E2.
             simpl. rewrite Hf, app_length. simpl. split; [auto|]. split; [lia|].
             intros p Hp. rewrite !nth_set_nth_neq by lia. apply Hrest. lia.
          -- simpl. assert (rlen = j) by lia. subst j.
             rewrite Hf, app_length. simpl. split; [|split; [lia|intros; apply Hrest; lia]].
             split; [split; auto|]. split; [auto|]. split; [|split; auto].
             rewrite app_length. simpl. rewrite Nat.add_1_r, <- Hl, slots_S. rewrite Hl, HE.
             rewrite <- Hl. f_equal. f_equal. auto.
        * simpl. rewrite Hf, app_nil_r. split; [auto|]. split; [auto|]. intros; apply Hrest; lia.
    - intros [A' rlen] (HM & Hl & _). simpl. rewrite <- HL, firstn_all in HM, Hl. auto.
  Qed.

  Lemma ell_threshold_ok keep (A : ell) sched : wf A ->
    Permutation (map snd sched) (seq 0 (eN A)) ->
    exists B, ell_threshold keep A sched = Ok B /\ same_dims A B /\ wf B /\
      forall i, (i < eN A)%nat -> erow B i = cutrow keep (erow A i).
  Proof.
    intros HA HP. pose proof HA as [HsA HrA]. apply wp_ok. unfold ell_threshold.
    apply wp_bind. eapply wp_mono.
    - apply (par_all A sched _ _ (fun i => cutrow keep (erow A i)) (fun _ => True)); auto.
      + intros; apply wf_nnz; auto.
      + intros i Hi. apply cutrow_ok with (N := eN A). auto.
      + intros i B w Hi [D1 D2] Hs HE _.
        destruct (HrA i Hi) as (R1 & R2 & R3).
        assert (HnB : (nnz B i <= eM B)%nat) by (rewrite <- erow_length, HE; congruence).
        rewrite e_nnz_ok by (auto; lia). cbn [bind]. apply wp_bind.
        eapply wp_mono; [apply thr_row_ok; auto; lia|].
        intros [B' rl] [HM Hl]. simpl in *. rewrite HE in HM, Hl.
        destruct (rowpre_finish _ _ _ _ HM) as [E1 E2]; [lia|]. rewrite Hl, E1. simpl. auto.
    - intros [B w] (D & Hs & Hr & _). simpl in *. split; [auto|]. split; [|auto].
      apply (wf_rows A B (fun i => cutrow keep (erow A i))); auto.
      intros i Hi. apply cutrow_ok; auto.
  Qed.

  (** ** add_identity *)
  Definition idrow (beta : F) (i : nat) (E : list (nat * F)) : list (nat * F) :=
    if keqb beta 0 then E
    else if existsb (Nat.eqb i) (cols E)
         then map (fun kv => if fst kv =? i then (fst kv, snd kv + beta) else kv) E
         else E ++ [(i, beta)].

  Lemma cols_idrow beta i E : cols (idrow beta i E) =
    if keqb beta 0 then cols E else if existsb (Nat.eqb i) (cols E) then cols E else cols E ++ [i].
  Proof.
    unfold idrow. destruct (keqb beta 0); auto. destruct (existsb (Nat.eqb i) (cols E)).
    - unfold cols. rewrite map_map. apply map_ext. intros [k v]; simpl. destruct (k =? i); auto.
    - unfold cols. rewrite map_app. auto.
  Qed.

  Lemma elook_idrow beta i E j : elook (idrow beta i E) j = elook E j + (if j =? i then beta else 0).
  Proof.
    unfold idrow. destruct (keqb beta 0) eqn:Eb.
    - apply keqb_spec in Eb. subst. destruct (j =? i); ring.
    - destruct (existsb (Nat.eqb i) (cols E)) eqn:Ex.
      + revert Ex. induction E as [|[k v] E IH]; simpl; [discriminate|]. intros Ex.
        rewrite (Nat.eqb_sym i k) in Ex.
        destruct (Nat.eqb_spec k i) as [->|Hne]; simpl.
        * rewrite (Nat.eqb_sym i j). destruct (Nat.eqb_spec j i) as [->|Hji]; auto.
          clear IH Ex. assert (X : elook (map (fun kv : nat * F => if fst kv =? i then (fst kv, snd kv + beta) else kv) E) j = elook E j).
          { induction E as [|[k' v'] E IH]; simpl; auto. destruct (Nat.eqb_spec k' i) as [->|]; simpl.
            - destruct (Nat.eqb_spec i j); [congruence|]. auto.
            - rewrite IH. auto. }
          rewrite X. ring.
        * simpl in Ex. destruct (Nat.eqb_spec k j) as [->|Hkj].
          -- destruct (Nat.eqb_spec j i); [congruence|]. ring.
          -- apply IH. auto.
      + apply existsb_eqb_false in Ex. rewrite elook_app_new by auto.
        destruct (Nat.eqb_spec j i) as [->|]; [|ring]. rewrite elook_notin by auto. ring.
  Qed.

  Lemma map_fst_lt (l : list nat) d j v (H : (j < length l)%nat) : nth j l d = v -> In v l.
  Proof. intros <-. apply nth_In. auto. Qed.

  Lemma add_identity_row_ok (keep : F -> bool) beta (A : ell) i jx x :
    let E := erow A i in
    shape A -> (i < eN A)%nat -> NoDup (cols E) ->
    (length (idrow beta i E) <= eM A)%nat ->
    length jx = eM A -> length x = eM A ->
    wp (add_identity_row keep beta i (A, (jx, x)))
       (fun r => upd_row A (fst r) i (cutrow keep (idrow beta i E)) /\
          length (fst (snd r)) = eM A /\ length (snd (snd r)) = eM A).
  Proof.
    intros E Hs Hi Hnd Hcap Hjx Hx.
    assert (HLE : (length E <= length (idrow beta i E))%nat).
    { unfold idrow. destruct (keqb beta 0); auto. destruct (existsb (Nat.eqb i) (cols E)).
      - rewrite map_length; auto.
      - rewrite app_length; lia. }
    assert (Hn : (nnz A i <= eM A)%nat) by (rewrite <- erow_length; fold E; lia).
    unfold add_identity_row. rewrite e_for_row_eq by auto. fold E.
    (* copy of the row *)
    apply wp_bind.
    eapply wp_mono.
    - apply (forM_inv (fun pre '(jx', x', l, diag) =>
        length jx' = eM A /\ length x' = eM A /\ l = length pre /\
        (forall p, (p < l)%nat -> (nth p jx' 0%nat, nth p x' 0) = nth p pre (0%nat, 0)) /\
        match diag with
        | None => ~ In i (cols pre)
        | Some d => (d < length pre)%nat /\ fst (nth d pre (0%nat, 0)) = i
        end)).
      + simpl. repeat split; auto. intros; lia.
      + intros pre [k v] post [[[jx' x'] l] diag] EE (L1 & L2 & L3 & L4 & L5). simpl.
        assert (Hl : (l < eM A)%nat).
        { assert (length E = length pre + S (length post))%nat by (rewrite EE, app_length; auto). lia. }
        rewrite !wr_ok by lia. simpl. rewrite !length_set_nth.
        split; [auto|]. split; [auto|]. split; [rewrite app_length; simpl; lia|]. split.
        * intros p Hp. destruct (Nat.eq_dec p l) as [->|Hne].
          -- rewrite !nth_set_nth_eq by lia. rewrite L3, app_nth2 by lia. rewrite Nat.sub_diag. auto.
          -- rewrite !nth_set_nth_neq by auto. rewrite L4 by lia. rewrite app_nth1 by lia. auto.
        * destruct (Nat.eqb_spec k i) as [->|Hne].
          -- rewrite app_length. simpl. split; [lia|]. rewrite L3, app_nth2 by lia. rewrite Nat.sub_diag. auto.
          -- destruct diag as [d|].
             ++ destruct L5 as [L5 L6]. rewrite app_length, app_nth1 by auto. split; [lia|auto].
             ++ rewrite cols_app, in_app_iff. simpl. intros [H|[H|[]]]; auto.
    - intros [[[jx1 x1] l1] diag] (L1 & L2 & L3 & L4 & L5).
      (* addition of beta *)
      apply wp_bind.
      assert (Hadd : wp (if keqb beta 0 then Ok (jx1, x1, l1)
                    else match diag with
                         | None => x <- wr x1 l1 beta ;; jx <- wr jx1 l1 i ;; Ok (jx, x, S l1)
                         | Some d => xd <- rd x1 d ;; x <- wr x1 d (xd + beta) ;; Ok (jx1, x, l1)
                         end)
           (fun '(jx2, x2, l2) => length jx2 = eM A /\ length x2 = eM A /\ l2 = length (idrow beta i E) /\
              forall p, (p < l2)%nat -> (nth p jx2 0%nat, nth p x2 0) = nth p (idrow beta i E) (0%nat, 0))).
      { unfold idrow in *. destruct (keqb beta 0) eqn:Eb; [simpl; auto|].
        destruct diag as [d|].
        - destruct L5 as [L5 L6].
          assert (Hin : In i (cols E)).
          { unfold cols. rewrite <- L6. apply in_map. apply nth_In; auto. }
          apply existsb_eqb in Hin. rewrite Hin in *. rewrite map_length in Hcap.
          rewrite (rd_ok _ _ 0) by lia. cbn [bind]. rewrite wr_ok by lia. simpl. rewrite length_set_nth.
          split; [auto|]. split; [auto|]. split; [rewrite map_length; auto|].
          intros p Hp.
          set (g := fun kv : nat * F => if fst kv =? i then (fst kv, snd kv + beta) else kv).
          rewrite (nth_indep _ (0%nat, 0) (g (0%nat, 0))) by (rewrite map_length; lia).
          rewrite map_nth. pose proof (L4 p Hp) as Hp4. rewrite <- Hp4. unfold g. simpl.
          destruct (Nat.eq_dec p d) as [->|Hne].
          + rewrite nth_set_nth_eq by lia.
            assert (X : nth d jx1 0%nat = i) by (rewrite <- L6, <- Hp4; auto).
            rewrite X, Nat.eqb_refl. auto.
          + rewrite nth_set_nth_neq by auto.
            assert (X : nth p jx1 0%nat <> i).
            { intros X. apply Hne.
              assert (Y : fst (nth p E (0%nat, 0)) = fst (nth d E (0%nat, 0))) by (rewrite L6, <- Hp4; auto).
              unfold cols in Hnd. rewrite (NoDup_nth (map fst E) (fst (0%nat, @k0 F))) in Hnd.
              apply Hnd; rewrite ?map_length, ?(map_nth fst); auto; lia. }
            apply Nat.eqb_neq in X. rewrite X. auto.
        - apply existsb_eqb_false in L5 as L6. rewrite L6 in *. rewrite app_length in Hcap. simpl in Hcap.
          rewrite !wr_ok by lia. simpl. rewrite !length_set_nth.
          split; [auto|]. split; [auto|]. split; [rewrite app_length; simpl; lia|].
          intros p Hp. destruct (Nat.eq_dec p l1) as [->|Hne].
          + rewrite !nth_set_nth_eq by lia. rewrite L3, app_nth2 by lia. rewrite Nat.sub_diag. auto.
          + rewrite !nth_set_nth_neq by auto. rewrite L4 by lia. rewrite app_nth1 by lia. auto. }
      eapply wp_mono; [exact Hadd|]. intros [[jx2 x2] l2] (K1 & K2 & K3 & K4).
      assert (EQ : for_n l2 (fun jp '(A, ll) =>
           jind <- rd jx2 jp ;; xtmp <- rd x2 jp ;;
           if keep xtmp then A1 <- e_put A i ll jind xtmp ;; Ok (A1, S ll) else Ok (A, ll)) (A, 0%nat) =
         forM (idrow beta i E) (fun kv '(A, ll) =>
          if keep (snd kv) then A1 <- e_put A i ll (fst kv) (snd kv) ;; Ok (A1, S ll) else Ok (A, ll)) (A, 0%nat)).
      { rewrite <- (for_n_nth (idrow beta i E) (0%nat, 0)). rewrite <- K3. apply for_n_ext.
        intros p [A' ll] Hp. rewrite (rd_ok _ _ 0%nat) by lia. rewrite (rd_ok _ _ 0) by lia. cbn [bind].
        rewrite <- K4 by auto. reflexivity. }
      rewrite EQ. apply wp_bind.
      eapply wp_mono; [apply (collect_ok (fun _ v => keep v)); auto|].
      + eapply Nat.le_trans; [apply filter_length_le|auto].
      + intros [A' ll] [HM Hl]. simpl in *. fold (cutrow keep (idrow beta i E)) in *.
        destruct (rowpre_finish _ _ _ _ HM Hi) as [E1 E2]. rewrite Hl, E1. simpl. auto.
  Qed.

  Lemma idrow_ok N M beta i (E : list (nat * F)) : row_ok N M E -> (i < N)%nat -> (length (idrow beta i E) <= M)%nat ->
    row_ok N M (idrow beta i E).
  Proof.
    intros (H1 & H2 & H3) Hi Hl. split; auto. rewrite cols_idrow. destruct (keqb beta 0); auto.
    destruct (existsb (Nat.eqb i) (cols E)) eqn:Ex; auto. apply existsb_eqb_false in Ex. split.
    - apply NoDup_app_intro; auto; [constructor; [simpl; tauto|constructor]|]. intros k Hk [<-|[]]; auto.
    - intros k Hk. apply in_app_iff in Hk as [Hk|[<-|[]]]; auto.
  Qed.

  Lemma idrow_len (beta : F) i E M : (length E <= M)%nat -> (beta = k0 \/ In i (cols E) \/ length E < M)%nat ->
    (length (idrow beta i E) <= M)%nat.
  Proof.
    intros H1 H2. unfold idrow. destruct (keqb beta 0) eqn:Eb; auto.
    destruct (existsb (Nat.eqb i) (cols E)) eqn:Ex; [rewrite map_length; auto|].
    rewrite app_length. simpl. apply existsb_eqb_false in Ex. apply keqb_false in Eb.
    destruct H2 as [H2|[H2|H2]]; try contradiction. lia.
  Qed.

  Lemma ell_add_identity_ok keep beta (A : ell) sched : wf A ->
    Permutation (map snd sched) (seq 0 (eN A)) ->
    (forall i, i < eN A -> beta = k0 \/ In i (cols (erow A i)) \/ nnz A i < eM A)%nat ->
    exists B, ell_add_identity keep beta A sched = Ok B /\ same_dims A B /\ wf B /\
      forall i, (i < eN A)%nat -> erow B i = cutrow keep (idrow beta i (erow A i)).
  Proof.
    intros HA HP Hroom. pose proof HA as [HsA HrA].
    assert (Hok : forall i, (i < eN A)%nat -> row_ok (eN A) (eM A) (idrow beta i (erow A i))).
    { intros i Hi. apply idrow_ok; auto. apply idrow_len; [apply (HrA i Hi)|].
      rewrite erow_length. auto. }
    apply wp_ok. unfold ell_add_identity.
    apply wp_bind. eapply wp_mono.
    - apply (par_all A sched _ _ (fun i => cutrow keep (idrow beta i (erow A i)))
        (fun w => length (fst w) = eM A /\ length (snd w) = eM A)); auto.
      + intros; apply wf_nnz; auto.
      + simpl. rewrite !repeat_length. auto.
      + intros i Hi. apply cutrow_ok with (N := eN A). auto.
      + intros i B [jx x] Hi [D1 D2] Hs HE [W1 W2]. simpl in W1, W2.
        destruct (HrA i Hi) as (R1 & R2 & R3). destruct (Hok i Hi) as (K1 & _).
        eapply wp_mono; [apply add_identity_row_ok; rewrite ?HE; auto; try congruence; lia|].
        simpl. rewrite HE, <- D2. auto.
    - intros [B w] (D & Hs & Hr & _). simpl in *. split; [auto|]. split; [|auto].
      apply (wf_rows A B (fun i => cutrow keep (idrow beta i (erow A i)))); auto.
      intros i Hi. apply cutrow_ok; auto.
  Qed.

  (** ** scale *)
  Lemma blas_scal_ok n (a : F) v : (n <= length v)%nat ->
    wp (blas_scal n 0 a v) (fun v' => length v' = length v /\
       forall p, nth p v' 0 = if p <? n then a * nth p v 0 else nth p v 0).
  Proof.
    intros Hn. unfold blas_scal.
    apply (for_n_inv (fun q v' => length v' = length v /\
       forall p, nth p v' 0 = if p <? q then a * nth p v 0 else nth p v 0)).
    - simpl. auto.
    - intros q v' Hq [HL Hv]. simpl. rewrite (rd_ok _ _ 0) by lia. cbn [bind]. rewrite wr_ok by lia. simpl.
      rewrite length_set_nth. split; auto. intros p.
      destruct (Nat.eq_dec p q) as [->|Hne].
      + rewrite nth_set_nth_eq by lia. rewrite Hv, Nat.ltb_irrefl.
        assert (X : (q <? S q) = true) by (apply Nat.ltb_lt; lia). rewrite X. auto.
      + rewrite nth_set_nth_neq by auto. rewrite Hv.
        destruct (Nat.ltb_spec p q), (Nat.ltb_spec p (S q)); auto; lia.
  Qed.

  Lemma ell_scale_inplace_ok a (A : ell) : shape A -> (forall i, (i < eN A)%nat -> (nnz A i <= eM A)%nat) ->
    exists B, ell_scale_inplace a A = Ok B /\ same_dims A B /\ shape B /\
      forall i, (i < eN A)%nat -> erow B i = sc a (erow A i).
  Proof.
    intros Hs Hn. apply wp_ok. unfold ell_scale_inplace. apply wp_bind.
    pose proof Hs as (H1 & H2 & H3).
    eapply wp_mono; [apply blas_scal_ok; rewrite H1; auto|].
    intros v [HL Hv]. simpl. split; [split; auto|]. split; [repeat split; simpl; congruence|].
    intros i Hi. unfold erow, sc, slots. rewrite map_map. unfold nnz; simpl. apply map_ext_in.
    intros j Hj. apply in_seq in Hj. f_equal. rewrite Hv.
    assert (X : (i * eM A + j <? eN A * eM A) = true).
    { apply Nat.ltb_lt. apply idx_lt; auto. specialize (Hn i Hi). unfold nnz in Hn. lia. }
    rewrite X. auto.
  Qed.

  Lemma row_ok_sc N M (a : F) E : row_ok N M E -> row_ok N M (sc a E).
  Proof. unfold row_ok. rewrite cols_sc. unfold sc. rewrite map_length. auto. Qed.

  Lemma elook_sc (a : F) E j : elook (sc a E) j = a * elook E j.
  Proof. induction E as [|[k v] E IH]; simpl; [ring|]. destruct (k =? j); auto. Qed.

  Lemma ell_scale_inplace_wf a (A : ell) : wf A ->
    exists B, ell_scale_inplace a A = Ok B /\ same_dims A B /\ wf B /\
      forall i, (i < eN A)%nat -> erow B i = sc a (erow A i).
  Proof.
    intros HA. pose proof HA as [Hs Hr].
    destruct (ell_scale_inplace_ok a A Hs) as (B & E & D & HsB & HrB).
    { intros; apply wf_nnz; auto. }
    exists B. split; [auto|]. split; [auto|]. split; [|auto].
    apply (wf_rows A B (fun i => sc a (erow A i))); auto. intros. apply row_ok_sc; auto.
  Qed.

  (** ** copy *)
  Lemma memcpy_ok {T} (d0 : T) (dst : list T) d src s n :
    (d + n <= length dst)%nat -> (s + n <= length src)%nat ->
    wp (memcpy dst d src s n) (fun r => length r = length dst /\
      forall p, nth p r d0 = if (d <=? p) && (p <? d + n) then nth (s + (p - d)) src d0 else nth p dst d0).
  Proof.
    intros Hd Hs. unfold memcpy.
    apply (for_n_inv (fun q r => length r = length dst /\
      forall p, nth p r d0 = if (d <=? p) && (p <? d + q) then nth (s + (p - d)) src d0 else nth p dst d0)).
    - split; auto. intros p. destruct (Nat.leb_spec d p), (Nat.ltb_spec p (d + 0)); simpl; auto; lia.
    - intros q r Hq [HL Hr]. rewrite (rd_ok _ _ d0) by lia. cbn [bind]. rewrite wr_ok by lia. simpl.
      rewrite length_set_nth. split; auto. intros p.
      destruct (Nat.eq_dec p (d + q)) as [->|Hne].
      + rewrite nth_set_nth_eq by lia.
        destruct (Nat.leb_spec d (d + q)), (Nat.ltb_spec (d + q) (d + S q)); simpl; try lia.
        f_equal. lia.
      + rewrite nth_set_nth_neq by auto. rewrite Hr.
        destruct (Nat.leb_spec d p), (Nat.ltb_spec p (d + q)), (Nat.ltb_spec p (d + S q)); simpl; auto; lia.
  Qed.

  (** the row-wise copy of index and value arrays *)
  Lemma copy_rows_ok N M (six : list nat) (sv : list F) (ix0 : list nat) (v0 : list F) :
    length six = (N * M)%nat -> length sv = (N * M)%nat -> length ix0 = (N * M)%nat -> length v0 = (N * M)%nat ->
    wp (for_n N (fun i '(ix, vl) =>
        ix <- memcpy ix (ROWMAJOR i 0 N M) six (ROWMAJOR i 0 N M) M ;;
        vl <- memcpy vl (ROWMAJOR i 0 N M) sv (ROWMAJOR i 0 N M) M ;;
        Ok (ix, vl)) (ix0, v0))
       (fun '(ix, vl) => ix = six /\ vl = sv).
  Proof.
    intros L1 L2 L3 L4.
    eapply wp_mono.
    - apply (for_n_inv (fun q '(ix, vl) => length ix = (N * M)%nat /\ length vl = (N * M)%nat /\
         forall p, (p < q * M)%nat -> nth p ix 0%nat = nth p six 0%nat /\ nth p vl 0 = nth p sv 0)).
      + split; auto. split; auto. simpl. intros; lia.
      + intros q [ix vl] Hq (H1 & H2 & H3). unfold ROWMAJOR.
        assert (q * M + 0 + M <= N * M)%nat by nia.
        apply wp_bind. eapply wp_mono; [apply (memcpy_ok 0%nat); lia|].
        intros ix' [K1 K2]. apply wp_bind. eapply wp_mono; [apply (memcpy_ok 0); lia|].
        intros vl' [K3 K4]. simpl. split; [lia|]. split; [lia|].
        intros p Hp. rewrite K2, K4.
        destruct (Nat.leb_spec (q * M + 0) p) as [Hle|Hlt];
          destruct (Nat.ltb_spec p (q * M + 0 + M)); simpl.
        * replace (q * M + 0 + (p - (q * M + 0)))%nat with p by lia. auto.
        * lia.
        * apply H3. lia.
        * lia.
    - intros [ix vl] (H1 & H2 & H3). split; eapply list_ext_nth; try lia; intros p Hp; apply H3; lia.
  Qed.

  Lemma ell_copy_ok (A B : ell) : shape A -> shape B -> same_dims A B -> (0 < eM A)%nat ->
    ell_copy A B = Ok A.
  Proof.
    intros (A1 & A2 & A3) (B1 & B2 & B3) [D1 D2] HM. apply wp_eq. unfold ell_copy.
    destruct (Nat.eqb_spec (eM A) 0); [lia|].
    apply wp_bind. eapply wp_mono; [apply (memcpy_ok 0%nat); lia|].
    intros nz [N1 N2]. apply wp_bind.
    eapply wp_mono; [apply copy_rows_ok; congruence|].
    intros [ix vl] [-> ->]. simpl. destruct A as [nn m v x z]; simpl in *.
    replace nz with z; [congruence|]. symmetry.
    apply (list_ext_nth _ _ 0%nat); [lia|]. intros p Hp. rewrite N2. simpl.
    assert (X : (p <? nn) = true) by (apply Nat.ltb_lt; lia). rewrite X, Nat.sub_0_r. auto.
  Qed.

  Lemma ell_copy_new_ok (A : ell) gv gi : shape A -> ell_copy_new A gv gi = Ok A.
  Proof.
    intros (A1 & A2 & A3). apply wp_eq. unfold ell_copy_new.
    pose proof (shape_noinit (F:=F) (eN A) (eM A) gv gi) as (B1 & B2 & B3).
    apply wp_bind. eapply wp_mono; [apply (memcpy_ok 0%nat); simpl in *; lia|].
    intros nz [N1 N2]. apply wp_bind.
    eapply wp_mono; [apply copy_rows_ok; auto|].
    intros [ix vl] [-> ->]. simpl. destruct A as [n m v x z]; simpl in *. f_equal.
    apply (list_ext_nth _ _ 0%nat); [lia|]. intros p Hp. rewrite N2. simpl.
    assert (X : (p <? n) = true) by (apply Nat.ltb_lt; lia). rewrite X, Nat.sub_0_r. auto.
  Qed.

  (** ** transpose into a new matrix *)
  (** all (row, slot) pairs of A *)
  Lemma in_all_slots (A : ell) i j : In (i, j) (all_slots A) <-> (i < eN A /\ j < nnz A i)%nat.
  Proof.
    unfold all_slots. rewrite in_flat_map. split.
    - intros (i' & H1 & H2). apply in_map_iff in H2 as (j' & E & H2). inversion E; subst.
      apply in_seq in H1, H2. lia.
    - intros [H1 H2]. exists i. split; [apply in_seq; lia|]. apply in_map_iff. exists j. split; auto. apply in_seq; lia.
  Qed.

  Lemma NoDup_all_slots (A : ell) : NoDup (all_slots A).
  Proof.
    unfold all_slots. generalize (seq_NoDup (eN A) 0). induction (seq 0 (eN A)) as [|i l IH]; intros Hd; simpl; [constructor|].
    inversion Hd; subst. apply NoDup_app_intro; auto.
    - apply FinFun.Injective_map_NoDup; [|apply seq_NoDup]. intros x y E. congruence.
    - intros [a b] H3 H4. apply in_map_iff in H3 as (j & E & _). inversion E; subst.
      apply in_flat_map in H4 as (i' & H5 & H6). apply in_map_iff in H6 as (j' & E' & _). inversion E'; subst. auto.
  Qed.

  Definition sl (A : ell) (ij : nat * nat) : nat * F := nth (snd ij) (erow A (fst ij)) (0%nat, 0).

  (** row r of the transpose after the insertions [ev] *)
  Definition trrow (A : ell) (ev : list (nat * nat)) (r : nat) : list (nat * F) :=
    map (fun ij => (fst ij, snd (sl A ij))) (filter (fun ij => fst (sl A ij) =? r) ev).

  Lemma trrow_nodup (A : ell) ev r : wf A -> NoDup ev -> (forall i j, In (i, j) ev -> (i < eN A /\ j < nnz A i)%nat) ->
    NoDup (cols (trrow A ev r)).
  Proof.
    intros [Hs Hr] Hd Hin. unfold trrow, cols. rewrite map_map. simpl.
    induction ev as [|[i j] ev IH]; simpl; [constructor|]. inversion Hd; subst.
    assert (IH' : NoDup (map (fun x : nat * nat => fst x) (filter (fun ij => fst (sl A ij) =? r) ev))).
    { apply IH; auto. intros; apply Hin; right; auto. }
    destruct (Nat.eqb_spec (fst (sl A (i, j))) r) as [E|E]; simpl; auto.
    constructor; auto. intros H. apply in_map_iff in H as ([i' j'] & E1 & H). simpl in E1. subst i'.
    apply filter_In in H as [H3 H4]. apply Nat.eqb_eq in H4. unfold sl in E, H4. simpl in E, H4.
    assert (j = j').
    { destruct (Hin i j (or_introl eq_refl)) as [I1 I2]. destruct (Hin i j' (or_intror H3)) as [I3 I4].
      destruct (Hr i I1) as (_ & Hnd & _). unfold cols in Hnd.
      rewrite (NoDup_nth (map fst (erow A i)) (fst (0%nat, @k0 F))) in Hnd.
      apply Hnd; rewrite ?map_length, ?erow_length; auto. rewrite !(map_nth fst). congruence. }
    subst. auto.
  Qed.

  Lemma trrow_cols_lt (A : ell) ev r k : (forall i j, In (i, j) ev -> (i < eN A /\ j < nnz A i)%nat) ->
    In k (cols (trrow A ev r)) -> (k < eN A)%nat.
  Proof.
    intros Hin H. unfold trrow, cols in H. rewrite map_map in H. apply in_map_iff in H as ([i j] & E & H).
    simpl in E. subst. apply filter_In in H as [H _]. apply Hin in H. lia.
  Qed.

  (** element (i,k) is stored *)
  Lemma in_trrow_cols (A : ell) ev r i : (forall i j, In (i, j) ev -> (i < eN A /\ j < nnz A i)%nat) ->
    In i (cols (trrow A ev r)) -> stored A i r = true.
  Proof.
    intros Hin H. unfold trrow, cols in H. rewrite map_map in H. apply in_map_iff in H as ([i' j] & E & H).
    simpl in E. subst. apply filter_In in H as [H H2]. apply Hin in H. apply Nat.eqb_eq in H2.
    apply existsb_eqb. rewrite <- H2. unfold sl; simpl. unfold cols. apply in_map. apply nth_In. rewrite erow_length. lia.
  Qed.

  Lemma trrow_len (A : ell) ev r : wf A -> NoDup ev -> (forall i j, In (i, j) ev -> (i < eN A /\ j < nnz A i)%nat) ->
    (length (trrow A ev r) <= colcount A r)%nat.
  Proof.
    intros Hw Hd Hin. rewrite <- (map_length fst). apply NoDup_count.
    - apply trrow_nodup; auto.
    - intros i Hi. split; [eapply trrow_cols_lt; eauto|eapply in_trrow_cols; eauto].
  Qed.

  Lemma elook_trrow (A : ell) ev r i : wf A -> Permutation ev (all_slots A) -> (i < eN A)%nat ->
    elook (trrow A ev r) i = emat A i r.
  Proof.
    intros Hw HP Hi. pose proof Hw as [Hs Hr].
    assert (Hd : NoDup ev) by (apply (Permutation_NoDup (Permutation_sym HP)); apply NoDup_all_slots).
    assert (Hin : forall i j, In (i, j) ev -> (i < eN A /\ j < nnz A i)%nat).
    { intros a b H. apply in_all_slots. apply (Permutation_in _ HP); auto. }
    destruct (Hr i Hi) as (H1 & H2 & H3). unfold emat.
    destruct (in_dec Nat.eq_dec r (cols (erow A i))) as [Hc|Hc].
    - pose proof (in_cols_elook _ _ H2 Hc) as He.
      apply (In_nth _ _ (0%nat, 0)) in He as (j & Hj & Ej). rewrite erow_length in Hj.
      apply elook_in; [apply trrow_nodup; auto|].
      unfold trrow. apply in_map_iff. exists (i, j). unfold sl; simpl. rewrite Ej. split; auto.
      apply filter_In. split.
      + apply (Permutation_in _ (Permutation_sym HP)). apply in_all_slots. auto.
      + simpl. rewrite Ej. apply Nat.eqb_refl.
    - rewrite (elook_notin (erow A i)) by auto. apply elook_notin. intros H.
      apply in_trrow_cols in H; auto. apply existsb_eqb in H. contradiction.
  Qed.

  Lemma ell_transpose_new_ok (A : ell) ev gv gi : wf A -> Permutation ev (all_slots A) ->
    (forall r, r < eN A -> colcount A r <= eM A)%nat ->
    exists B, ell_transpose_new A ev gv gi = Ok B /\ same_dims A B /\ wf B /\
      forall r, (r < eN A)%nat -> erow B r = trrow A ev r.
  Proof.
    intros Hw HP Hcap. pose proof Hw as [Hs Hr].
    assert (Hd : NoDup ev) by (apply (Permutation_NoDup (Permutation_sym HP)); apply NoDup_all_slots).
    assert (Hin : forall i j, In (i, j) ev -> (i < eN A /\ j < nnz A i)%nat).
    { intros a b H. apply in_all_slots. apply (Permutation_in _ HP); auto. }
    apply wp_ok. unfold ell_transpose_new.
    eapply wp_mono.
    - apply (forM_inv (fun pre B => same_dims A B /\ shape B /\ forall r, (r < eN A)%nat -> erow B r = trrow A pre r)).
      + split; [split; auto|]. split; [apply shape_noinit|]. intros r _. rewrite erow_noinit. auto.
      + intros pre [i j] post B E ((D1 & D2) & HsB & HB).
        destruct (Hin i j) as [Hi Hj]; [rewrite E; apply in_app_iff; right; left; auto|].
        assert (Hn := wf_nnz A i Hw Hi).
        rewrite e_idx_ok, e_val_ok by (auto; lia). cbn [bind].
        assert (Hsl : (nth (i * eM A + j) (eidx A) 0%nat, nth (i * eM A + j) (eval A) 0) = sl A (i, j)).
        { unfold sl, erow; simpl. rewrite slots_nth by auto. auto. }
        replace (nth (i * eM A + j) (eidx A) 0%nat) with (fst (sl A (i, j))) by (rewrite <- Hsl; auto).
        replace (nth (i * eM A + j) (eval A) 0) with (snd (sl A (i, j))) by (rewrite <- Hsl; auto).
        set (k := fst (sl A (i, j))). set (v := snd (sl A (i, j))).
        assert (Hk : (k < eN A)%nat).
        { apply (Hr i Hi). unfold k, sl, cols. simpl. apply in_map. apply nth_In. rewrite erow_length. auto. }
        assert (Hsub : forall r, (length (trrow A (pre ++ [(i, j)]) r) <= eM A)%nat \/ (eN A <= r)%nat).
        { intros r. destruct (Nat.lt_ge_cases r (eN A)); [left|right; auto].
          eapply Nat.le_trans; [apply trrow_len; auto|apply Hcap; auto].
          - rewrite E in Hd. change ((i, j) :: post) with ([(i, j)] ++ post) in Hd. rewrite app_assoc in Hd.
            apply NoDup_app_inv in Hd. tauto.
          - intros a b Hab. apply Hin. rewrite E. apply in_app_iff in Hab as [Hab|[Hab|[]]]; apply in_app_iff; auto.
            right; left; auto. }
        assert (Htr : forall r, trrow A (pre ++ [(i, j)]) r = trrow A pre r ++ (if k =? r then [(i, v)] else [])).
        { intros r. unfold trrow. rewrite filter_app, map_app. f_equal. simpl. fold k. destruct (k =? r); auto. }
        destruct (e_push_ok B k i v) as (B' & E1 & HU); auto.
        * congruence.
        * rewrite <- erow_length, HB by auto. destruct (Hsub k) as [Hc|Hc]; [|lia].
          rewrite Htr, Nat.eqb_refl, app_length in Hc. simpl in Hc. lia.
        * rewrite E1. simpl. pose proof HU as ((U1 & U2) & U3 & _).
          split; [split; congruence|]. split; [auto|].
          intros r Hrr. rewrite Htr. destruct (Nat.eqb_spec k r) as [<-|Hne].
          -- rewrite (upd_row_self _ _ _ _ HU). rewrite HB by auto. auto.
          -- rewrite app_nil_r. rewrite (upd_row_other _ _ _ _ _ HU); auto.
             rewrite <- erow_length, HB by auto. destruct (Hsub r) as [Hc|Hc]; [|lia].
             rewrite Htr, app_length in Hc. lia.
    - intros B (D & HsB & HB). split; [auto|]. split; [|auto].
      apply (wf_rows A B (trrow A ev)); auto.
      intros r Hrr. split; [|split].
      + eapply Nat.le_trans; [apply trrow_len; auto|auto].
      + apply trrow_nodup; auto.
      + intros k Hk. eapply trrow_cols_lt; eauto.
  Qed.

  (** ** trace and norms *)
  Lemma ell_trace_on (A : ell) nth sched rws : wf A -> Permutation (map snd sched) rws -> (forall i, In i rws -> (i < eN A)%nat) -> (forall t i, In (t, i) sched -> (t < nth)%nat) ->
    ell_trace A nth sched = Ok (lsum (map (fun i => emat A i i) rws)).
  Proof.
    intros Hw HP HL Hth. pose proof Hw as [Hs Hr]. apply wp_eq. unfold ell_trace. apply wp_bind.
    eapply wp_mono.
    - apply (par_red_on (F:=F) sched _ (fun _ => 0) (fun _ => True) (fun w => w) (fun i => emat A i i) nth rws); auto.
      intros i w HiL _. assert (Hi := HL i HiL). destruct (Hr i Hi) as (H1 & H2 & H3).
      rewrite e_for_row_eq by (auto; apply wf_nnz; auto). apply wp_bind.
      eapply wp_mono.
      + apply (forM_inv (fun pre '(tr, stop) => tr = w + elook pre i /\ (stop = true <-> In i (cols pre)))).
        * simpl. split; [ring|]. split; [discriminate|tauto].
        * intros pre [k v] post [tr stop] E [P1 P2].
          assert (Hd : ~ In k (cols pre)).
          { rewrite E in H2. rewrite cols_app in H2. apply NoDup_app_inv in H2 as (_ & _ & H2).
            intros Hc. apply (H2 k Hc). left; auto. }
          assert (Hc : In i (cols (pre ++ [(k, v)])) <-> In i (cols pre) \/ k = i).
          { rewrite cols_app, in_app_iff. simpl. tauto. }
          simpl. destruct stop.
          -- simpl. rewrite Hc, elook_app_new by auto.
             assert (In i (cols pre)) by (apply P2; auto). split; [|tauto].
             destruct (Nat.eqb_spec i k); [congruence|auto].
          -- destruct (Nat.eqb_spec i k) as [->|Hne]; simpl; rewrite Hc, elook_app_new by auto.
             ++ rewrite Nat.eqb_refl. split; [|tauto]. rewrite P1, (elook_notin pre) by auto. ring.
             ++ apply Nat.eqb_neq in Hne as Hne'. rewrite Hne'. split; auto. rewrite <- P2. split; [discriminate|].
                intros [H|H]; congruence.
      + intros [tr stop] [P1 P2]. simpl. auto.
    - simpl. intros [u w] H. unfold reduce_sum. simpl in *. etransitivity; [exact H|].
      rewrite bigsum_zero by auto. ring.
  Qed.

  Lemma ell_trace_ok (A : ell) nth sched : wf A -> full_sched (eN A) nth sched ->
    ell_trace A nth sched = Ok (mtrace (eN A) (emat A)).
  Proof.
    intros Hw [HP Hth]. erewrite (ell_trace_on A nth sched (seq 0 (eN A))); eauto.
    - rewrite (lsum_rows _ (eN A)) by auto. reflexivity.
    - intros i Hi. apply in_seq in Hi. lia.
  Qed.

  Lemma ell_sum_squares_on (A : ell) nth sched rws : wf A -> Permutation (map snd sched) rws -> (forall i, In i rws -> (i < eN A)%nat) -> (forall t i, In (t, i) sched -> (t < nth)%nat) ->
    ell_sum_squares A nth sched = Ok (lsum (map (fun i => bigsum (eN A) (fun j => emat A i j * emat A i j)) rws)).
  Proof.
    intros Hw HP HL Hth. pose proof Hw as [Hs Hr]. apply wp_eq. unfold ell_sum_squares. apply wp_bind.
    eapply wp_mono.
    - apply (par_red_on (F:=F) sched _ (fun _ => 0) (fun _ => True) (fun w => w)
         (fun i => bigsum (eN A) (fun j => emat A i j * emat A i j)) nth rws); auto.
      intros i w HiL _. assert (Hi := HL i HiL). destruct (Hr i Hi) as (H1 & H2 & H3).
      rewrite e_for_row_eq by (auto; apply wf_nnz; auto). apply wp_bind.
      eapply wp_mono.
      + apply (forM_inv (fun pre s => s = w + lsum (map (fun kv => snd kv * snd kv) pre))).
        * simpl. ring.
        * intros pre [k v] post s E ->. simpl. rewrite map_app, lsum_app. simpl. ring.
      + intros s ->. simpl. split; auto. f_equal.
        apply (lsum_entries0 (erow A i) (eN A) (fun v => v * v)); auto. ring.
    - simpl. intros [u w] H. unfold reduce_sum. simpl in *. etransitivity; [exact H|].
      rewrite bigsum_zero by auto. ring.
  Qed.

  Lemma ell_sum_squares_ok (A : ell) nth sched : wf A -> full_sched (eN A) nth sched ->
    ell_sum_squares A nth sched = Ok (msum (eN A) (mhad (emat A) (emat A))).
  Proof.
    intros Hw [HP Hth]. erewrite (ell_sum_squares_on A nth sched (seq 0 (eN A))); eauto.
    - rewrite (lsum_rows _ (eN A)) by auto. reflexivity.
    - intros i Hi. apply in_seq in Hi. lia.
  Qed.

  Lemma ell_sum_squares_submatrix_ok (A : ell) core nth sched : wf A -> (core <= eN A)%nat ->
    full_sched core nth sched ->
    ell_sum_squares_submatrix A core nth sched = Ok (msum core (mhad (emat A) (emat A))).
  Proof.
    intros Hw Hcore [HP Hth]. pose proof Hw as [Hs Hr]. apply wp_eq. unfold ell_sum_squares_submatrix. apply wp_bind.
    eapply wp_mono.
    - apply (par_red (F:=F) sched _ (fun _ => 0) (fun _ => True) (fun w => w)
         (fun i => bigsum core (fun j => emat A i j * emat A i j)) nth core); auto.
      intros i w Hi _. destruct (Hr i ltac:(lia)) as (H1 & H2 & H3).
      rewrite e_for_row_eq by (auto; try apply wf_nnz; auto; lia). apply wp_bind.
      eapply wp_mono.
      + apply (forM_inv (fun pre s => s = w + lsum (map (fun kv => if fst kv <? core then snd kv * snd kv else 0) pre))).
        * simpl. ring.
        * intros pre [k v] post s E ->. simpl. rewrite map_app, lsum_app. simpl. destruct (k <? core); ring.
      + intros s ->. simpl. split; auto. f_equal.
        rewrite (lsum_entries (erow A i) (eN A) (fun k v => if k <? core then v * v else 0)); auto.
        * replace (eN A) with (core + (eN A - core))%nat by lia. rewrite bigsum_split.
          rewrite (bigsum_zero (eN A - core)).
          2:{ intros j _. assert (X : (core + j <? core) = false) by (apply Nat.ltb_ge; lia). rewrite X. auto. }
          rewrite (bigsum_ext core _ (fun j => emat A i j * emat A i j)); [ring|].
          intros j Hj. apply Nat.ltb_lt in Hj. rewrite Hj. auto.
        * intros k _. destruct (k <? core); ring.
    - simpl. intros [u w] H. unfold reduce_sum, msum, mhad. simpl in *. etransitivity; [exact H|].
      rewrite bigsum_zero by auto. ring.
  Qed.
End EllpackMore.
