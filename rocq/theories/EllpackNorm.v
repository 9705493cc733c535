(** Proofs about trace_mult, sum_AB, sum_squares2 and fnorm2 of the ellpack format. *)
From Verif Require Import Base BaseFacts Spec SpecFacts EllpackModel EllpackSpec EllpackFacts EllpackOps EllpackArith EllpackMul EllpackMore EllpackMul2 EllpackRest.
From Coq Require Import Ring.
#[local] Arguments firstn {A} !n !l : simpl nomatch.
#[local] Arguments skipn {A} !n !l : simpl nomatch.

Section EllpackNorm.
  Context {F : scalar}.
  Local Open Scope K_scope.
  Add Ring Kring10 : (k_ring F).
  Local Notation ell := (ell F).

  Lemma lsum_support (L : list nat) N (g : nat -> F) :
    NoDup L -> (forall k, In k L -> (k < N)%nat) -> (forall k, (k < N)%nat -> ~ In k L -> g k = 0) ->
    lsum (map g L) = bigsum N g.
  Proof.
    intros Hd Hr Hz.
    assert (E : lsum (map g L) = lsum (map (fun kv => (fun _ v => v) (fst kv) (snd kv)) (map (fun k => (k, g k)) L))).
    { rewrite map_map. simpl. auto. }
    rewrite E. rewrite (lsum_entries (map (fun k => (k, g k)) L) N (fun _ v => v)); auto.
    - apply bigsum_ext. intros k Hk. rewrite elook_map_pair.
      destruct (existsb (Nat.eqb k) L) eqn:Ex; auto. apply existsb_eqb_false in Ex. symmetry; auto.
    - rewrite cols_map_pair. auto.
    - rewrite cols_map_pair. auto.
  Qed.

  Lemma lsum_ind (E : list (nat * F)) N (f : nat * F -> F) :
    NoDup (cols E) -> (forall k, In k (cols E) -> (k < N)%nat) ->
    lsum (map f E) = bigsum N (fun k => if existsb (Nat.eqb k) (cols E) then f (k, elook E k) else 0).
  Proof.
    intros Hd Hr. rewrite <- (lsum_support (cols E) N); auto.
    - unfold cols at 2. rewrite map_map. apply lsum_map_ext. intros [k v] Hin. simpl.
      assert (X : existsb (Nat.eqb k) (cols E) = true) by (apply existsb_eqb; apply (in_map fst) in Hin; auto).
      rewrite X. rewrite (elook_in E k v) by auto. auto.
    - intros k Hk Hn. apply existsb_eqb_false in Hn. rewrite Hn. auto.
  Qed.

  (** value found by "scan the row, 0 while not found, stop when found" *)
  Definition scanned (E : list (nat * F)) (c : nat) (x0 : option F) : option F :=
    match E with [] => x0 | _ => Some (elook E c) end.

  Lemma scan_snoc (E : list (nat * F)) c (x0 : option F) k v stop :
    (stop = true <-> In c (cols E)) ->
    let r := if (stop : bool) then (scanned E c x0, stop) else if k =? c then (Some v, true) else (Some 0, false) in
    fst r = scanned (E ++ [(k, v)]) c x0 /\ (snd r = true <-> In c (cols (E ++ [(k, v)]))).
  Proof.
    intros Hs. assert (Hc : In c (cols (E ++ [(k, v)])) <-> In c (cols E) \/ k = c).
    { rewrite cols_app, in_app_iff. simpl. tauto. }
    assert (Hl : scanned (E ++ [(k, v)]) c x0 = Some (elook (E ++ [(k, v)]) c)) by (destruct E; auto).
    assert (Ha : elook (E ++ [(k, v)]) c = if existsb (Nat.eqb c) (cols E) then elook E c else if k =? c then v else 0).
    { clear. induction E as [|[k' v'] E IH]; simpl; auto. rewrite (Nat.eqb_sym c k').
      destruct (k' =? c); simpl; auto. }
    destruct stop; simpl.
    - assert (Hin : In c (cols E)) by (apply Hs; auto). rewrite Hl, Ha. apply existsb_eqb in Hin as Hb. rewrite Hb.
      split; [|tauto]. destruct E; [destruct Hin|auto].
    - assert (Hn : ~ In c (cols E)) by (intros H; apply Hs in H; discriminate).
      apply existsb_eqb_false in Hn as Hb. rewrite Hl, Ha, Hb.
      destruct (Nat.eqb_spec k c); simpl; (split; [auto|]); rewrite Hc; split; intros; auto; try discriminate.
      destruct H; contradiction.
  Qed.

  (** ** getVector and trace_mult *)
  Lemma ell_getVector_ok (A : ell) jj i : wf A -> (i < eN A)%nat ->
    ell_getVector A jj i = Ok (map (fun c => scanned (erow A i) c None) jj).
  Proof.
    intros Hw Hi. pose proof Hw as [Hs Hr]. apply wp_eq. unfold ell_getVector.
    eapply wp_mono.
    - apply (forM_inv (fun pre rv => rv = map (fun c => scanned (erow A i) c None) pre)); auto.
      intros pre c post rv _ ->. rewrite e_for_row_eq by (auto; apply wf_nnz; auto). apply wp_bind.
      eapply wp_mono.
      + apply (forM_inv (fun p '(x, stop) => x = scanned p c None /\ (stop = true <-> In c (cols p)))).
        * simpl. split; auto. split; [discriminate|tauto].
        * intros p [k v] q [x stop] _ [-> Hst]. simpl.
          destruct (scan_snoc p c None k v stop Hst) as [H1 H2].
          destruct stop; simpl in *; auto. destruct (k =? c); simpl in *; auto.
      + intros [x stop] [-> _]. simpl. rewrite map_app. auto.
    - auto.
  Qed.

  Lemma collect_cols (A : ell) i : shape A -> (i < eN A)%nat -> (nnz A i <= eM A)%nat ->
    for_n (nnz A i) (fun j jj => k <- e_idx A i j ;; Ok (jj ++ [k])) [] = Ok (cols (erow A i)).
  Proof.
    intros Hs Hi Hn. apply wp_eq. eapply wp_mono.
    - apply (for_n_inv (fun p jj => jj = cols (slots A i p))); auto.
      intros p jj Hp ->. rewrite e_idx_ok by (auto; lia). cbn [bind].
      rewrite slots_S, cols_app. reflexivity.
    - auto.
  Qed.

  Lemma ell_trace_mult_on (A B : ell) nth sched rws :
    wf A -> wf B -> same_dims A B -> Permutation (map snd sched) rws -> (forall i, In i rws -> (i < eN A)%nat) -> (forall t i, In (t, i) sched -> (t < nth)%nat) ->
    (forall i, In i rws -> nnz A i = 0 \/ nnz B i <> 0)%nat ->
    ell_trace_mult A B nth sched = Ok (lsum (map (fun i => bigsum (eN A) (fun j => emat A i j * emat B i j)) rws)).
  Proof.
    intros HA HB [D1 D2] HP HL Hth Hrow. pose proof HA as [HsA HrA]. pose proof HB as [HsB HrB].
    apply wp_eq. unfold ell_trace_mult. rewrite D1, D2, !Nat.eqb_refl. cbn [andb negb]. apply wp_bind.
    rewrite <- D1.
    eapply wp_mono.
    - apply (par_red_on (F:=F) sched _ (fun _ => 0) (fun _ => True) (fun w => w)
         (fun i => bigsum (eN A) (fun j => emat A i j * emat B i j)) nth rws); auto.
      intros i w HiL _. assert (Hi := HL i HiL). destruct (HrA i Hi) as (H1 & H2 & H3).
      assert (Hn := wf_nnz _ _ HA Hi).
      rewrite e_nnz_ok by auto. cbn [bind]. rewrite collect_cols by auto. cbn [bind].
      rewrite ell_getVector_ok by (auto; lia). cbn [bind]. apply wp_bind.
      eapply wp_mono.
      + apply (for_n_inv (fun p s => s = w + lsum (map (fun kv => snd kv * emat B i (fst kv)) (slots A i p)))).
        * simpl. ring.
        * intros p s Hp ->. rewrite e_val_ok by (auto; lia). cbn [bind].
          rewrite (rd_ok _ _ None).
          2:{ rewrite map_length. unfold cols. rewrite map_length, erow_length. auto. }
          cbn [bind].
          assert (EQ : List.nth p (map (fun c => scanned (erow B i) c None) (cols (erow A i))) None =
                       Some (emat B i (List.nth (i * eM A + p) (eidx A) 0%nat))).
          { rewrite (nth_indep _ None (scanned (erow B i) 0 None)).
            2:{ rewrite map_length. unfold cols. rewrite map_length, erow_length. auto. }
            rewrite (map_nth (fun c => scanned (erow B i) c None)).
            unfold cols. change 0%nat with (fst (0%nat, @k0 F)) at 1. rewrite (map_nth fst).
            unfold erow at 2. rewrite slots_nth by auto. simpl.
            destruct (Hrow i HiL) as [H0|H0]; [lia|]. rewrite <- erow_length in H0.
            unfold emat. destruct (erow B i); [simpl in H0; lia|auto]. }
          rewrite EQ. cbn [bind use]. rewrite slots_S, map_app, lsum_app. simpl. ring.
      + intros s ->. cbn [wpq fst snd]. split; auto. f_equal.
        fold (erow A i). rewrite (lsum_entries (erow A i) (eN A) (fun k v => v * emat B i k)); auto.
        intros; ring.
    - simpl. intros [u w] H. unfold reduce_sum. simpl in *. etransitivity; [exact H|].
      rewrite bigsum_zero by auto. ring.
  Qed.

  Lemma ell_trace_mult_ok (A B : ell) nth sched :
    wf A -> wf B -> same_dims A B -> full_sched (eN A) nth sched ->
    (forall i, i < eN A -> nnz A i = 0 \/ nnz B i <> 0)%nat ->
    ell_trace_mult A B nth sched = Ok (msum (eN A) (mhad (emat A) (emat B))).
  Proof.
    intros HA HB HD [HP Hth] Hrow. erewrite (ell_trace_mult_on A B nth sched (seq 0 (eN A))); eauto.
    - rewrite (lsum_rows _ (eN A)) by auto. reflexivity.
    - intros i Hi. apply in_seq in Hi. lia.
    - intros i Hi. apply Hrow. apply in_seq in Hi. lia.
  Qed.

  Lemma trace_mult_sym (N : nat) (A B : mat F) : meq N B (mtrans B) ->
    msum N (mhad A B) = mtrace N (mmul N A B).
  Proof.
    intros HS. unfold msum, mtrace, mmul, mhad. apply bigsum_ext. intros i Hi. apply bigsum_ext. intros j Hj.
    rewrite (HS i j) by auto. auto.
  Qed.

  (** ** sum_AB *)
  Lemma NoDup_filter' (p : nat -> bool) l : NoDup l -> NoDup (filter p l).
  Proof. apply NoDup_filter. Qed.

  Lemma filter_in_len (a b : list nat) : NoDup b -> (length (filter (fun k => existsb (Nat.eqb k) a) b) <= length a)%nat.
  Proof.
    intros Hd. apply NoDup_incl_length; [apply NoDup_filter; auto|].
    intros k Hk. apply filter_In in Hk as [_ Hk]. apply existsb_eqb in Hk. auto.
  Qed.

  Lemma ell_sum_AB_on keep alpha (A B : ell) nth sched rws :
    wf A -> wf B -> eN A = eN B -> Permutation (map snd sched) rws -> (forall i, In i rws -> (i < eN A)%nat) -> (forall t i, In (t, i) sched -> (t < nth)%nat) ->
    ell_sum_AB keep alpha A B nth sched =
      Ok (lsum (map (fun i => bigsum (eN A) (fun j => cut keep (alpha * (emat A i j * emat B i j)))) rws)).
  Proof.
    intros HA HB HN HP HL Hth. pose proof HA as [HsA HrA]. pose proof HB as [HsB HrB].
    apply wp_eq. unfold ell_sum_AB. apply wp_bind. eapply wp_mono.
    - apply (par_red_on (F:=F) sched _ _ (fun w => length (fst (fst w)) = eM A /\ length (snd (fst w)) = eN A) snd
         (fun i => bigsum (eN A) (fun j => cut keep (alpha * (emat A i j * emat B i j)))) nth rws); auto.
      { intros t. simpl. rewrite !repeat_length. auto. }
      intros i [[jjb y] sum] HiL [HL1 HL2]. assert (Hi := HL i HiL). simpl in HL1, HL2.
      destruct (HrA i Hi) as (A1 & A2 & A3). destruct (HrB i ltac:(lia)) as (B1 & B2 & B3).
      rewrite e_for_row_eq by (auto; apply wf_nnz; auto).
      set (EA := erow A i) in *. set (EB := erow B i) in *.
      apply wp_bind. eapply wp_mono.
      + apply (forM_inv (fun pre '(ix, y) => length ix = eN A /\ length y = eN A /\
           (forall k, (k < eN A)%nat -> (List.nth k ix 0%nat = 0%nat <-> ~ In k (cols pre))) /\
           (forall k, In k (cols pre) -> List.nth k y 0 = alpha * elook pre k))).
        * rewrite repeat_length. split; [auto|]. split; [auto|]. split.
          -- intros k Hk. simpl. split; auto. intros _. apply nth_repeat_any.
          -- simpl. tauto.
        * intros pre [k v] post [ix y'] E (I1 & I2 & I3 & I4). simpl.
          assert (Hk : (k < eN A)%nat) by (apply A3; rewrite E, cols_app; apply in_app_iff; right; left; auto).
          assert (Hnk : ~ In k (cols pre)).
          { rewrite E, cols_app in A2. apply NoDup_app_inv in A2 as (_ & _ & A2). intros Hc. apply (A2 k Hc). left; auto. }
          rewrite wr_ok by lia. cbn [bind]. rewrite wr_ok by lia. simpl.
          rewrite !length_set_nth. split; [auto|]. split; [auto|]. split; [intros q Hq; split|].
          -- intros H Hc. rewrite cols_app, in_app_iff in Hc. simpl in Hc.
             destruct (Nat.eq_dec q k) as [->|Hne].
             ++ rewrite nth_set_nth_eq in H by lia. discriminate.
             ++ rewrite nth_set_nth_neq in H by auto. apply I3 in H; auto. destruct Hc as [Hc|[Hc|[]]]; [auto|congruence].
          -- intros Hc. rewrite cols_app, in_app_iff in Hc. simpl in Hc.
             rewrite nth_set_nth_neq by (intros ->; tauto). apply I3; auto.
          -- intros q Hq. rewrite cols_app, in_app_iff in Hq. simpl in Hq.
             rewrite elook_app_new by auto. destruct (Nat.eqb_spec q k) as [->|Hne].
             ++ rewrite nth_set_nth_eq by lia. auto.
             ++ rewrite nth_set_nth_neq by auto. apply I4. destruct Hq as [Hq|[Hq|[]]]; [auto|congruence].
      + intros [ix y1] (I1 & I2 & I3 & I4).
        rewrite e_for_row_eq by (auto; try apply wf_nnz; auto; lia). fold EB.
        set (inA := fun k => existsb (Nat.eqb k) (cols EA)).
        apply wp_bind. eapply wp_mono.
        * apply (forM_inv (fun pre '(jjb, y, l) => length jjb = eM A /\ length y = eN A /\
             l = length (filter inA (cols pre)) /\ firstn l jjb = filter inA (cols pre) /\
             (forall k, In k (cols EA) -> List.nth k y 0 =
                 if existsb (Nat.eqb k) (cols pre) then alpha * elook EA k * elook pre k else alpha * elook EA k))).
          -- simpl. do 4 (split; [auto|]). auto.
          -- intros pre [k v] post [[jjb' y'] l] E (J1 & J2 & J3 & J4 & J5). cbn [fst snd].
             assert (Hk : (k < eN A)%nat) by (rewrite HN; apply B3; rewrite E, cols_app; apply in_app_iff; right; left; auto).
             assert (Hnk : ~ In k (cols pre)).
             { rewrite E, cols_app in B2. apply NoDup_app_inv in B2 as (_ & _ & B2'). intros Hc. apply (B2' k Hc). left; auto. }
             rewrite (rd_ok _ _ 0%nat) by lia. cbn [bind].
             assert (Hf : filter inA (cols (pre ++ [(k, v)])) = filter inA (cols pre) ++ if inA k then [k] else []).
             { rewrite cols_app, filter_app. simpl. auto. }
             destruct (Nat.eqb_spec (List.nth k ix 0%nat) 0) as [H0|H0].
             ++ assert (Hna : ~ In k (cols EA)) by (apply I3; auto).
                assert (HiA : inA k = false) by (apply existsb_eqb_false; auto).
                simpl. rewrite Hf, HiA, app_nil_r. do 4 (split; [auto|]).
                intros q Hq. rewrite J5 by auto. rewrite cols_app, existsb_app. simpl.
                rewrite elook_app_new by auto.
                destruct (Nat.eqb_spec q k) as [->|Hne]; [contradiction|]. rewrite orb_false_r. auto.
             ++ assert (Hia : In k (cols EA)).
                { destruct (in_dec Nat.eq_dec k (cols EA)); auto. exfalso. apply H0. apply I3; auto. }
                assert (HiA : inA k = true) by (apply existsb_eqb; auto).
                assert (Hlt : (l < length jjb')%nat).
                { assert (H := filter_in_len (cols EA) (cols (pre ++ [(k, v)]))).
                  fold inA in H. rewrite Hf, HiA, app_length in H. simpl in H.
                  unfold cols at 3 in H. rewrite map_length in H.
                  assert (Hd : NoDup (cols (pre ++ [(k, v)]))).
                  { rewrite cols_app. apply NoDup_app_intro; auto.
                    - rewrite E, cols_app in B2. apply NoDup_app_inv in B2 as (B2' & _). auto.
                    - constructor; [simpl; tauto|constructor].
                    - intros q Hq [Hq'|[]]. subst. auto. }
                  specialize (H Hd). lia. }
                rewrite wr_ok by lia. cbn [bind]. rewrite (rd_ok _ _ 0) by lia. cbn [bind].
                rewrite wr_ok by lia. simpl. rewrite !length_set_nth, Hf, HiA, app_length. simpl.
                split; [auto|]. split; [auto|]. split; [lia|]. split.
                ** rewrite firstn_set_nth by auto. rewrite J4. auto.
                ** intros q Hq. rewrite cols_app, existsb_app. simpl. rewrite elook_app_new by auto.
                   destruct (Nat.eqb_spec q k) as [->|Hne].
                   --- rewrite nth_set_nth_eq by lia. rewrite J5 by auto.
                       apply existsb_eqb_false in Hnk. rewrite Hnk. simpl. auto.
                   --- rewrite nth_set_nth_neq by auto. rewrite J5 by auto. rewrite orb_false_r. auto.
        * intros [[jjb2 y2] l] (J1 & J2 & J3 & J4 & J5). apply wp_bind.
          set (L := filter inA (cols EB)) in *.
          assert (HLlen : (length L <= eM A)%nat).
          { assert (H := filter_in_len (cols EA) (cols EB) B2). fold inA in H. fold L in H.
            unfold cols at 1 in H. rewrite map_length in H. lia. }
          eapply wp_mono.
          -- apply (for_n_inv (fun p s => s = sum + lsum (map (fun k => cut keep (alpha * elook EA k * elook EB k)) (firstn p L)))).
             ++ simpl. ring.
             ++ intros p s Hp ->. rewrite (rd_ok _ _ 0%nat) by lia. cbn [bind].
                assert (Hnth : List.nth p jjb2 0%nat = List.nth p L 0%nat).
                { rewrite <- J4. rewrite nth_firstn_lt by lia. auto. }
                assert (HpL : In (List.nth p L 0%nat) L) by (apply nth_In; lia).
                apply filter_In in HpL as [HpB HpA]. assert (HpA' := HpA). apply existsb_eqb in HpA'.
                rewrite Hnth. rewrite (rd_ok _ _ 0) by (rewrite J2; auto). cbn [bind].
                rewrite J5 by auto. apply existsb_eqb in HpB as HpB'. rewrite HpB'.
                rewrite (firstn_S_nth L p 0%nat) by lia. rewrite map_app, lsum_app. simpl. unfold cut.
                destruct (keep (alpha * elook EA (List.nth p L 0%nat) * elook EB (List.nth p L 0%nat))); ring.
          -- intros s ->. simpl. split; [auto|]. f_equal. rewrite J3, firstn_all.
             rewrite (lsum_support L (eN A)).
             ++ apply bigsum_ext. intros k Hk. unfold emat. fold EA EB. f_equal. ring.
             ++ apply NoDup_filter; auto.
             ++ intros k Hk. apply filter_In in Hk as [Hk _]. rewrite HN. auto.
             ++ intros k Hk Hn. assert (X : alpha * elook EA k * elook EB k = 0).
                { destruct (in_dec Nat.eq_dec k (cols EA)) as [Ha|Ha]; [|rewrite (elook_notin EA) by auto; ring].
                  destruct (in_dec Nat.eq_dec k (cols EB)) as [Hb|Hb]; [|rewrite (elook_notin EB) by auto; ring].
                  exfalso. apply Hn. apply filter_In. split; auto. apply existsb_eqb; auto. }
                rewrite X. unfold cut. destruct (keep 0); auto.
    - simpl. intros [u w] H. unfold reduce_sum. simpl in *. etransitivity; [exact H|].
      rewrite bigsum_zero by auto. ring.
  Qed.

  Lemma ell_sum_AB_ok keep alpha (A B : ell) nth sched :
    wf A -> wf B -> eN A = eN B -> full_sched (eN A) nth sched ->
    ell_sum_AB keep alpha A B nth sched =
      Ok (msum (eN A) (mcut keep (mscale alpha (mhad (emat A) (emat B))))).
  Proof.
    intros HA HB HN [HP Hth]. erewrite (ell_sum_AB_on keep alpha A B nth sched (seq 0 (eN A))); eauto.
    - rewrite (lsum_rows _ (eN A)) by auto. reflexivity.
    - intros i Hi. apply in_seq in Hi. lia.
  Qed.

  (** ** sum_squares2 *)
  Lemma ell_sum_squares2_on keep alpha beta (A B : ell) nth sched rws :
    wf A -> wf B -> eN A = eN B -> Permutation (map snd sched) rws -> (forall i, In i rws -> (i < eN A)%nat) -> (forall t i, In (t, i) sched -> (t < nth)%nat) ->
    ell_sum_squares2 keep alpha beta A B nth sched =
      Ok (lsum (map (fun i => bigsum (eN A) (fun j => cut keep (alpha * emat A i j + beta * emat B i j) *
                                                     cut keep (alpha * emat A i j + beta * emat B i j))) rws)).
  Proof.
    intros HA HB HN HP HL Hth. pose proof HA as [HsA HrA]. pose proof HB as [HsB HrB].
    apply wp_eq. unfold ell_sum_squares2. apply wp_bind.
    set (sq := fun x => cut keep x * cut keep x).
    eapply wp_mono.
    - apply (par_red_on (F:=F) sched _ _ (fun w => let '(ix, jjb, y, _) := w in
           length ix = eN A /\ length jjb = eN A /\ length y = eN A /\
           forall k, (k < eN A)%nat -> List.nth k ix 0%nat = 0%nat) snd
         (fun i => bigsum (eN A) (fun j => sq (alpha * emat A i j + beta * emat B i j))) nth rws); auto.
      { intros t. simpl. rewrite !repeat_length. do 3 (split; [auto|]). intros k Hk. apply nth_repeat_any. }
      intros i [[[ix jjb] y] sum] HiL (W1 & W2 & W3 & W4). assert (Hi := HL i HiL).
      destruct (HrA i Hi) as (A1 & A2 & A3). destruct (HrB i ltac:(lia)) as (B1 & B2 & B3).
      rewrite e_for_row_eq by (auto; apply wf_nnz; auto).
      set (EA := erow A i) in *. set (EB := erow B i) in *.
      apply wp_bind. eapply wp_mono.
      + apply (forM_inv (fun pre '(ix, jjb, y, l) => length ix = eN A /\ length jjb = eN A /\ length y = eN A /\
           l = length (cols pre) /\ firstn l jjb = cols pre /\
           (forall k, (k < eN A)%nat -> (List.nth k ix 0%nat = 0%nat <-> ~ In k (cols pre))) /\
           (forall k, In k (cols pre) -> List.nth k y 0 = alpha * elook pre k))).
        * do 5 (split; [auto|]). split; [|simpl; tauto]. intros k Hk. simpl. split; auto.
        * intros pre [k v] post [[[ix' jjb'] y'] l] E (I1 & I2 & I3 & I4 & I5 & I6 & I7). cbn [fst snd].
          assert (Hk : (k < eN A)%nat) by (apply A3; rewrite E, cols_app; apply in_app_iff; right; left; auto).
          assert (Hnk : ~ In k (cols pre)).
          { rewrite E, cols_app in A2. apply NoDup_app_inv in A2 as (_ & _ & A2'). intros Hc. apply (A2' k Hc). left; auto. }
          assert (Hl : (l < eN A)%nat).
          { assert (H := NoDup_bounded (cols EA) (eN A) A2 A3). rewrite E, cols_app, app_length in H. simpl in H. lia. }
          rewrite wr_ok by lia. cbn [bind]. rewrite wr_ok by lia. cbn [bind]. rewrite wr_ok by lia. cbn [bind].
          rewrite (rd_ok _ _ 0) by (rewrite length_set_nth; lia). cbn [bind].
          rewrite wr_ok by (rewrite length_set_nth; lia). simpl.
          rewrite !length_set_nth. do 3 (split; [auto|]). rewrite cols_app, app_length. simpl. split; [lia|].
          split; [rewrite firstn_set_nth by lia; congruence|]. split.
          -- intros q Hq. rewrite in_app_iff. simpl. destruct (Nat.eq_dec q k) as [->|Hne].
             ++ rewrite nth_set_nth_eq by lia. split; [discriminate|tauto].
             ++ rewrite nth_set_nth_neq by auto. rewrite I6 by auto. split; intros H; [|tauto].
                intros [Hc|[Hc|[]]]; [auto|congruence].
          -- intros q Hq. rewrite in_app_iff in Hq. simpl in Hq. rewrite elook_app_new by auto.
             destruct (Nat.eqb_spec q k) as [->|Hne].
             ++ rewrite nth_set_nth_eq by (rewrite length_set_nth; lia). rewrite nth_set_nth_eq by lia. ring.
             ++ rewrite !nth_set_nth_neq by auto. apply I7. destruct Hq as [Hq|[Hq|[]]]; [auto|congruence].
      + intros [[[ix1 jjb1] y1] l1] (I1 & I2 & I3 & I4 & I5 & I6 & I7).
        rewrite e_for_row_eq by (auto; try apply wf_nnz; auto; lia). fold EB.
        set (newB := fun k => negb (existsb (Nat.eqb k) (cols EA))).
        assert (HnewB : forall k, newB k = true <-> ~ In k (cols EA)).
        { intros k. unfold newB. rewrite negb_true_iff. apply existsb_eqb_false. }
        assert (HLnd : forall pre : list (nat * F), NoDup (cols pre) -> NoDup (cols EA ++ filter newB (cols pre))).
        { intros pre Hd. apply NoDup_app_intro; auto; [apply NoDup_filter; auto|].
          intros k Hk Hk2. apply filter_In in Hk2 as [_ Hk2]. apply HnewB in Hk2. auto. }
        apply wp_bind. eapply wp_mono.
        * apply (forM_inv (fun pre '(jjb, y, l) => length jjb = eN A /\ length y = eN A /\
             l = length (cols EA ++ filter newB (cols pre)) /\ firstn l jjb = cols EA ++ filter newB (cols pre) /\
             (forall k, In k (cols EA ++ filter newB (cols pre)) -> List.nth k y 0 = alpha * elook EA k + beta * elook pre k))).
          -- cbn [cols map filter]. rewrite app_nil_r. do 4 (split; [auto|]). intros k Hk. rewrite I7 by auto. simpl. ring.
          -- intros pre [k v] post [[jjb' y'] l] E (J1 & J2 & J3 & J4 & J5). cbn [fst snd].
             assert (Hk : (k < eN A)%nat) by (rewrite HN; apply B3; rewrite E, cols_app; apply in_app_iff; right; left; auto).
             assert (Hdp : NoDup (cols (pre ++ [(k, v)]))).
             { rewrite E in B2. replace (pre ++ (k, v) :: post) with ((pre ++ [(k, v)]) ++ post) in B2 by (rewrite <- app_assoc; auto).
               rewrite cols_app in B2. apply NoDup_app_inv in B2 as (B2' & _). auto. }
             assert (Hnk : ~ In k (cols pre)).
             { rewrite cols_app in Hdp. apply NoDup_app_inv in Hdp as (_ & _ & H). intros Hc. apply (H k Hc). left; auto. }
             assert (Hf : filter newB (cols (pre ++ [(k, v)])) = filter newB (cols pre) ++ if newB k then [k] else []).
             { rewrite cols_app, filter_app. simpl. auto. }
             rewrite (rd_ok _ _ 0%nat) by lia. cbn [bind].
             destruct (Nat.eqb_spec (List.nth k ix1 0%nat) 0) as [H0|H0].
             ++ assert (Hna : ~ In k (cols EA)) by (apply I6; auto).
                assert (HiA : newB k = true) by (apply HnewB; auto).
                rewrite HiA in Hf.
                assert (Hl : (l < eN A)%nat).
                { assert (H := NoDup_bounded (cols EA ++ filter newB (cols (pre ++ [(k, v)]))) (eN A) (HLnd _ Hdp)).
                  rewrite Hf in H. rewrite !app_length in H. rewrite app_length in J3. simpl in H.
                  rewrite J3. cut (length (cols EA) + (length (filter newB (cols pre)) + 1) <= eN A)%nat; [lia|].
                  apply H. intros q Hq. rewrite !in_app_iff in Hq. destruct Hq as [Hq|[Hq|[<-|[]]]]; auto.
                  apply filter_In in Hq as [Hq _]. rewrite HN. apply B3. rewrite E, cols_app. apply in_app_iff; auto. }
                rewrite wr_ok by lia. cbn [bind]. rewrite wr_ok by lia. cbn [bind].
                rewrite (rd_ok _ _ 0) by (rewrite length_set_nth; lia). cbn [bind].
                rewrite wr_ok by (rewrite length_set_nth; lia). cbn [bind wpq]. rewrite !length_set_nth, Hf.
                split; [auto|]. split; [auto|]. rewrite app_assoc. split; [rewrite app_length; simpl; lia|].
                split; [rewrite firstn_set_nth by lia; rewrite J4; auto|].
                intros q Hq. rewrite in_app_iff in Hq. rewrite elook_app_new by auto.
                destruct (Nat.eqb_spec q k) as [->|Hne].
                ** rewrite nth_set_nth_eq by (rewrite length_set_nth; lia). rewrite nth_set_nth_eq by lia.
                   rewrite (elook_notin EA) by auto. ring.
                ** rewrite !nth_set_nth_neq by auto. apply J5. destruct Hq as [Hq|[Hq|[]]]; [auto|congruence].
             ++ assert (Hia : In k (cols EA)).
                { destruct (in_dec Nat.eq_dec k (cols EA)); auto. exfalso. apply H0. apply I6; auto. }
                assert (HiA : newB k = false).
                { destruct (newB k) eqn:En; auto. apply HnewB in En. contradiction. }
                rewrite HiA, app_nil_r in Hf. cbn [bind].
                rewrite (rd_ok _ _ 0) by lia. cbn [bind]. rewrite wr_ok by lia. cbn [bind wpq]. rewrite length_set_nth, Hf.
                do 4 (split; [auto|]). intros q Hq. rewrite elook_app_new by auto.
                destruct (Nat.eqb_spec q k) as [->|Hne].
                ** rewrite nth_set_nth_eq by lia. rewrite J5 by auto. rewrite (elook_notin pre) by auto. ring.
                ** rewrite nth_set_nth_neq by auto. apply J5. auto.
        * intros [[jjb2 y2] l] (J1 & J2 & J3 & J4 & J5). apply wp_bind.
          set (L := cols EA ++ filter newB (cols EB)) in *.
          assert (HLd : NoDup L) by (apply HLnd; auto).
          assert (HLr : forall k, In k L -> (k < eN A)%nat).
          { intros k Hk. apply in_app_iff in Hk as [Hk|Hk]; auto. apply filter_In in Hk as [Hk _]. rewrite HN; auto. }
          assert (HLl := NoDup_bounded L (eN A) HLd HLr).
          eapply wp_mono.
          -- apply (for_n_inv (fun p '(ix, s) => length ix = eN A /\
                (forall k, (k < eN A)%nat -> In k (firstn p L) \/ ~ In k L -> List.nth k ix 0%nat = 0%nat) /\
                s = sum + lsum (map (fun k => sq (alpha * elook EA k + beta * elook EB k)) (firstn p L)))).
             ++ split; [auto|]. split; [|simpl; ring]. simpl. intros k Hk [[]|Hn]. apply I6; auto.
                intros Hc. apply Hn. apply in_app_iff; auto.
             ++ intros p [ix' s] Hp (P1 & P2 & ->). rewrite (rd_ok _ _ 0%nat) by lia. cbn [bind].
                assert (Hnth : List.nth p jjb2 0%nat = List.nth p L 0%nat).
                { rewrite <- J4. rewrite nth_firstn_lt by lia. auto. }
                assert (HpL : In (List.nth p L 0%nat) L) by (apply nth_In; lia).
                assert (HpN := HLr _ HpL).
                rewrite Hnth. rewrite (rd_ok _ _ 0) by lia. cbn [bind]. rewrite wr_ok by lia. cbn [bind wpq].
                rewrite length_set_nth. split; [auto|]. rewrite (firstn_S_nth L p 0%nat) by lia. split.
                ** intros k Hk Hc. destruct (Nat.eq_dec k (List.nth p L 0%nat)) as [->|Hne].
                   --- apply nth_set_nth_eq. lia.
                   --- rewrite nth_set_nth_neq by auto. apply P2; auto. rewrite in_app_iff in Hc. simpl in Hc.
                       destruct Hc as [[Hc|[Hc|[]]]|Hc]; [auto|congruence|auto].
                ** rewrite J5 by auto. rewrite map_app, lsum_app. simpl. unfold sq at 4, cut.
                   destruct (keep (alpha * elook EA (List.nth p L 0%nat) + beta * elook EB (List.nth p L 0%nat))); ring.
          -- intros [ix' s] (P1 & P2 & ->). cbn [wpq fst snd]. rewrite J3, firstn_all in P2 |- *. split.
             ++ do 3 (split; [auto|]). intros k Hk. apply P2; auto.
                destruct (in_dec Nat.eq_dec k L); auto.
             ++ f_equal. rewrite (lsum_support L (eN A)); auto.
                intros k Hk Hn. assert (Ha : ~ In k (cols EA)) by (intros H; apply Hn, in_app_iff; auto).
                assert (Hb : ~ In k (cols EB)).
                { intros H. apply Hn, in_app_iff. right. apply filter_In. split; auto. apply HnewB; auto. }
                rewrite (elook_notin EA), (elook_notin EB) by auto. unfold sq.
                assert (X : alpha * 0 + beta * 0 = 0) by ring. rewrite X. unfold cut. destruct (keep 0); ring.
    - simpl. intros [u w] H. unfold reduce_sum. simpl in *. etransitivity; [exact H|].
      rewrite bigsum_zero by auto. unfold sq. ring.
  Qed.

  Lemma ell_sum_squares2_ok keep alpha beta (A B : ell) nth sched :
    wf A -> wf B -> eN A = eN B -> full_sched (eN A) nth sched ->
    ell_sum_squares2 keep alpha beta A B nth sched =
      Ok (let Z := mcut keep (madd (mscale alpha (emat A)) (mscale beta (emat B))) in msum (eN A) (mhad Z Z)).
  Proof.
    intros HA HB HN [HP Hth]. erewrite (ell_sum_squares2_on keep alpha beta A B nth sched (seq 0 (eN A))); eauto.
    - rewrite (lsum_rows _ (eN A)) by auto. reflexivity.
    - intros i Hi. apply in_seq in Hi. lia.
  Qed.

  (** ** fnorm2 *)
  Lemma fnorm2_scan_ok (P Q : ell) i c rv : wf Q -> eM P = eM Q -> (i < eN Q)%nat ->
    fnorm2_scan P Q i c rv = Ok (scanned (erow Q i) c rv).
  Proof.
    intros HQ HM Hi. pose proof HQ as [Hs Hr]. assert (Hn := wf_nnz _ _ HQ Hi).
    apply wp_eq. unfold fnorm2_scan. rewrite e_nnz_ok by auto. cbn [bind]. apply wp_bind. eapply wp_mono.
    - apply (for_n_inv (fun p '(x, stop) => x = scanned (slots Q i p) c rv /\ (stop = true <-> In c (cols (slots Q i p))))).
      + simpl. split; auto. split; [discriminate|tauto].
      + intros p [x stop] Hp [-> Hst].
        set (k := List.nth (i * eM Q + p) (eidx Q) 0%nat). set (v := List.nth (i * eM Q + p) (eval Q) 0).
        assert (E1 : rd (eidx Q) (ROWMAJOR i p (eN P) (eM P)) = Ok k) by (rewrite HM; apply (e_idx_ok Q i p); auto; lia).
        assert (E2 : rd (eval Q) (ROWMAJOR i p (eN P) (eM P)) = Ok v) by (rewrite HM; apply (e_val_ok Q i p); auto; lia).
        destruct (scan_snoc (slots Q i p) c rv k v stop Hst) as [H1 H2].
        rewrite slots_S. fold k v. destruct stop; [cbn [wpq]; auto|].
        rewrite E1. cbn [bind]. rewrite (Nat.eqb_sym c k). destruct (k =? c); [rewrite E2; cbn [bind]|]; cbn [wpq]; auto.
    - intros [x stop] [-> _]. reflexivity.
  Qed.

  Lemma ell_fnorm2_on (A B : ell) nth sched rws :
    wf A -> wf B -> same_dims A B -> Permutation (map snd sched) rws -> (forall i, In i rws -> (i < eN A)%nat) -> (forall t i, In (t, i) sched -> (t < nth)%nat) ->
    (forall i, In i rws -> (nnz A i = 0 <-> nnz B i = 0))%nat ->
    (forall i, In i rws -> forall kv, In kv (erow A i) -> snd kv <> 0) ->
    ell_fnorm2_sq A B nth sched =
      Ok (lsum (map (fun i => bigsum (eN A) (fun j => (emat A i j - emat B i j) * (emat A i j - emat B i j))) rws)).
  Proof.
    intros HA HB [HN HM] HP HL Hth Hrow Hnz. pose proof HA as [HsA HrA]. pose proof HB as [HsB HrB].
    apply wp_eq. unfold ell_fnorm2_sq. apply wp_bind. eapply wp_mono.
    - apply (par_red_on (F:=F) sched _ _ (fun _ => True) snd
         (fun i => bigsum (eN A) (fun j => (emat A i j - emat B i j) * (emat A i j - emat B i j))) nth rws); auto.
      intros i [rv fn] HiL _. assert (Hi := HL i HiL).
      destruct (HrA i Hi) as (A1 & A2 & A3). destruct (HrB i ltac:(lia)) as (B1 & B2 & B3).
      assert (HnA := wf_nnz _ _ HA Hi). assert (HnB := wf_nnz B i HB ltac:(lia)).
      rewrite e_for_row_eq by auto.
      set (dA := fun kv : nat * F => (snd kv - emat B i (fst kv)) * (snd kv - emat B i (fst kv))).
      set (dB := fun kv : nat * F => if keqb (emat A i (fst kv)) 0 then snd kv * snd kv else 0).
      apply wp_bind. eapply wp_mono.
      + apply (forM_inv (fun pre '(rv, s) => s = fn + lsum (map dA pre))).
        * simpl. ring.
        * intros pre [k v] post [rv' s] E ->. rewrite fnorm2_scan_ok by (auto; lia). cbn [bind fst snd].
          assert (Hsc : scanned (erow B i) k rv' = Some (emat B i k)).
          { assert (Hne : nnz B i <> 0%nat).
            { intros H0. apply Hrow in H0; auto. rewrite <- erow_length, E, app_length in H0. simpl in H0. lia. }
            rewrite <- erow_length in Hne. unfold emat. destruct (erow B i); [simpl in Hne; lia|auto]. }
          rewrite Hsc. cbn [bind use wpq]. rewrite map_app, lsum_app. simpl. unfold dA. simpl. ring.
      + intros [rv1 s1] ->. rewrite e_nnz_ok by (auto; lia). cbn [bind]. apply wp_bind. eapply wp_mono.
        * apply (for_n_inv (fun p '(rv, s) => s = fn + lsum (map dA (erow A i)) + lsum (map dB (slots B i p)))).
          -- simpl. ring.
          -- intros p [rv' s] Hp ->.
             assert (E1 : rd (eidx B) (ROWMAJOR i p (eN A) (eM A)) = Ok (List.nth (i * eM B + p) (eidx B) 0%nat))
               by (rewrite HM; apply (e_idx_ok B i p); auto; lia).
             assert (E2 : rd (eval B) (ROWMAJOR i p (eN A) (eM A)) = Ok (List.nth (i * eM B + p) (eval B) 0))
               by (rewrite HM; apply (e_val_ok B i p); auto; lia).
             rewrite E1. cbn [bind]. rewrite fnorm2_scan_ok by auto. cbn [bind].
             set (c := List.nth (i * eM B + p) (eidx B) 0%nat).
             assert (Hsc : scanned (erow A i) c rv' = Some (emat A i c)).
             { assert (Hne : nnz A i <> 0%nat) by (intros H0; apply Hrow in H0; auto; lia).
               rewrite <- erow_length in Hne. unfold emat. destruct (erow A i); [simpl in Hne; lia|auto]. }
             rewrite Hsc. cbn [bind use]. rewrite E2. cbn [bind].
             rewrite slots_S, map_app, lsum_app. fold c. simpl. unfold dB. simpl.
             destruct (keqb (emat A i c) 0); simpl; ring.
        * intros [rv2 s2] ->. cbn [wpq fst snd]. split; auto. fold (erow B i).
          rewrite (lsum_ind (erow A i) (eN A) dA) by auto. rewrite (lsum_ind (erow B i) (eN A) dB) by (auto; rewrite HN; auto).
          transitivity (fn + (bigsum (eN A) (fun k => if existsb (Nat.eqb k) (cols (erow A i)) then dA (k, elook (erow A i) k) else 0) +
            bigsum (eN A) (fun k => if existsb (Nat.eqb k) (cols (erow B i)) then dB (k, elook (erow B i) k) else 0))); [ring|].
          rewrite <- bigsum_add. f_equal. apply bigsum_ext. intros k Hk. unfold dA, dB, emat. simpl.
          destruct (existsb (Nat.eqb k) (cols (erow A i))) eqn:Ea.
          -- apply existsb_eqb in Ea.
             assert (Hz : keqb (elook (erow A i) k) 0 = false).
             { apply keqb_false. apply (Hnz i HiL (k, elook (erow A i) k)). apply in_cols_elook; auto. }
             rewrite Hz. destruct (existsb (Nat.eqb k) (cols (erow B i))); ring.
          -- apply existsb_eqb_false in Ea. rewrite (elook_notin (erow A i)) by auto. rewrite keqb_refl.
             destruct (existsb (Nat.eqb k) (cols (erow B i))) eqn:Eb; [ring|].
             apply existsb_eqb_false in Eb. rewrite (elook_notin (erow B i)) by auto. ring.
    - simpl. intros [u w] H. unfold reduce_sum. simpl in *. etransitivity; [exact H|].
      rewrite bigsum_zero by auto. ring.
  Qed.

  Lemma ell_fnorm2_ok (A B : ell) nth sched :
    wf A -> wf B -> same_dims A B -> full_sched (eN A) nth sched ->
    (forall i, i < eN A -> (nnz A i = 0 <-> nnz B i = 0))%nat ->
    (forall i, (i < eN A)%nat -> forall kv, In kv (erow A i) -> snd kv <> 0) ->
    ell_fnorm2_sq A B nth sched =
      Ok (msum (eN A) (fun i j => (emat A i j - emat B i j) * (emat A i j - emat B i j))).
  Proof.
    intros HA HB HD [HP Hth] Hrow Hnz. erewrite (ell_fnorm2_on A B nth sched (seq 0 (eN A))); eauto.
    - rewrite (lsum_rows _ (eN A)) by auto. reflexivity.
    - intros i Hi. apply in_seq in Hi. lia.
    - intros i Hi. apply Hrow. apply in_seq in Hi. lia.
    - intros i Hi. apply Hnz. apply in_seq in Hi. lia.
  Qed.
End EllpackNorm.
