(** In-place transpose of csr: same algorithm as ellpack, but rows grow, so no
    capacity condition appears. *)
From Verif Require Import Base BaseFacts Spec SpecFacts EllpackModel EllpackSpec EllpackFacts EllpackTrans CsrModel CsrSpec CsrFacts.
From Coq Require Import Permutation.

Section CsrTrans.
  Context {F : scalar}.
  Local Notation csr := (csr F).
  Local Notation crw := (CsrModel.row F).
  Local Notation ents_t := (list (nat * F)).

  Definition xinv (N : nat) (E0 : nat -> ents_t) (D U : nat -> ents_t) : Prop :=
    Permutation (trips N D U) (trips N (fun _ => []) E0) /\
    (forall r, r < N -> forall c, In c (cols (D r)) -> ~ In c (cols (U r))).

  Section Inv.
    Variable N : nat.
    Variable E0 : nat -> ents_t.
    Hypothesis Hw0 : forall r, r < N -> cols_ok N (E0 r).

    Lemma xpos0_nodup : NoDup (flat_map (pos (fun _ => []) E0) (seq 0 N)).
    Proof.
      assert (G : forall l, NoDup l -> (forall r, In r l -> r < N) -> NoDup (flat_map (pos (fun _ => []) E0) l)).
      { induction l as [|r l IH]; simpl; intros Hd Hl; [constructor|]. inversion Hd; subst.
        apply NoDup_app_intro.
        - unfold pos. simpl. apply NoDup_map_inj; [congruence|]. apply Hw0. auto.
        - auto.
        - intros [a b] Hx Hy. unfold pos in Hx. simpl in Hx. apply in_map_iff in Hx as (k & E & _). inversion E; subst.
          apply in_flat_map in Hy as (s & Hs & Hy). unfold pos in Hy. simpl in Hy.
          apply in_map_iff in Hy as (k' & E' & _). inversion E'; subst. auto. }
      apply G; [apply seq_NoDup|]. intros r Hr'. apply in_seq in Hr'. lia.
    Qed.

    Lemma xinv_nodup D U : xinv N E0 D U -> NoDup (flat_map (pos D U) (seq 0 N)).
    Proof.
      intros [HP _]. eapply Permutation_NoDup; [|apply xpos0_nodup].
      rewrite <- !pos_trips. apply Permutation_map. symmetry. auto.
    Qed.

    Lemma xinv_in D U a b v : xinv N E0 D U -> (In (a, b, v) (trips N D U) <-> a < N /\ In (b, v) (E0 a)).
    Proof.
      intros [HP _]. split.
      - intros H. apply (Permutation_in _ HP) in H. unfold trips in H. apply in_flat_map in H as (r & Hr & H).
        unfold ents in H. simpl in H. apply in_map_iff in H as ([k w] & E & H). simpl in E. inversion E; subst.
        apply in_seq in Hr. split; [lia|auto].
      - intros [Ha Hb]. apply (Permutation_in _ (Permutation_sym HP)). unfold trips. apply in_flat_map. exists a.
        split; [apply in_seq; lia|]. unfold ents. simpl. apply in_map_iff. exists (b, v). auto.
    Qed.

    Lemma xin_D D U r c v : xinv N E0 D U -> r < N -> In (c, v) (D r) -> c < N /\ In (r, v) (E0 c).
    Proof.
      intros HI Hr H. apply (xinv_in D U); auto. unfold trips. apply in_flat_map. exists r. split; [apply in_seq; lia|].
      unfold ents. apply in_app_iff. left. apply in_map_iff. exists (c, v). auto.
    Qed.

    Lemma xin_U D U r c v : xinv N E0 D U -> r < N -> In (c, v) (U r) -> In (c, v) (E0 r).
    Proof.
      intros HI Hr H. apply (xinv_in D U); auto. unfold trips. apply in_flat_map. exists r. split; [apply in_seq; lia|].
      unfold ents. apply in_app_iff. right. apply in_map_iff. exists (c, v). auto.
    Qed.

    Lemma xU_lt D U r c v : xinv N E0 D U -> r < N -> In (c, v) (U r) -> c < N.
    Proof.
      intros HI Hr H. apply (xin_U D U r c v HI Hr) in H. apply (Hw0 r Hr). apply (in_map fst) in H. auto.
    Qed.

    Lemma xnodup_DU D U r : xinv N E0 D U -> r < N -> NoDup (cols (D r)) /\ NoDup (cols (U r)).
    Proof.
      intros HI Hr. assert (H := xinv_nodup D U HI).
      apply (NoDup_flat_map _ _ r) in H; [|apply in_seq; lia]. unfold pos in H. apply NoDup_app_inv in H as (H1 & H2 & _).
      split; eapply NoDup_map_inv; eauto.
    Qed.

    Lemma xwaiting D U i j : xinv N E0 D U -> i < N -> j < N -> In j (cols (U i)) -> ~ In i (cols (D j)).
    Proof.
      intros HI Hi Hj HU HD. assert (H := xinv_nodup D U HI).
      destruct (Nat.eq_dec i j) as [->|Hne].
      - apply (NoDup_flat_map _ _ j) in H; [|apply in_seq; lia]. unfold pos in H. apply NoDup_app_inv in H as (_ & _ & H).
        apply (H (j, j)); apply in_map_iff; eauto.
      - apply (NoDup_flat_map_disj _ _ i j (i, j) H); try (apply in_seq; lia); auto; unfold pos; apply in_app_iff.
        + right. apply in_map_iff; eauto.
        + left. apply in_map_iff; eauto.
    Qed.

    (** the three updates of the split state *)
    Lemma xinv_found D U i j v w U1 U2 P Q U3 Dd Ud :
      xinv N E0 D U -> i < N -> j < N -> i <> j ->
      U i = U1 ++ [(j, v)] -> U j = P ++ (i, w) :: Q -> Permutation U2 U1 -> Permutation U3 (P ++ Q) ->
      Dd i = D i ++ [(j, w)] -> Ud i = U2 -> Dd j = D j ++ [(i, v)] -> Ud j = U3 ->
      (forall r, r <> i -> r <> j -> Dd r = D r /\ Ud r = U r) ->
      xinv N E0 Dd Ud.
    Proof.
      intros HI Hi Hj Hne EU EUj HP3 HP4' EDi EUdi EDj EUdj Eo.
      destruct (xnodup_DU D U i HI Hi) as [HDi HUi']. destruct (xnodup_DU D U j HI Hj) as [HDj HUj].
      assert (HjU1 : ~ In j (cols U1)).
      { rewrite EU in HUi'. unfold cols in *. rewrite map_app in HUi'. simpl in HUi'. apply NoDup_remove_2 in HUi'. rewrite app_nil_r in HUi'. auto. }
      destruct HI as [HPI HDI]. split.
      - rewrite <- HPI. unfold trips. apply (flat_map_upd2 _ i j); auto; try lia.
        + intros r Hr H1 H2. unfold ents. destruct (Eo r H1 H2) as [-> ->]. auto.
        + unfold ents. rewrite EDi, EUdi, EDj, EUdj, EU, EUj, HP3, HP4'. rewrite !map_app. cbn [map fst snd].
          rewrite <- !app_assoc. apply (perm_found _ _ _ _ _ (j, i, w) (i, j, v)).
      - intros r Hr c. destruct (Nat.eq_dec r i) as [->|Hri]; [|destruct (Nat.eq_dec r j) as [->|Hrj]].
        + rewrite EDi, EUdi. unfold cols at 1. rewrite map_app, in_app_iff. simpl. intros Hc Hc2.
          apply (cols_perm _ _ c HP3) in Hc2. destruct Hc as [Hc|[<-|[]]].
          * apply (HDI i Hi c Hc). rewrite EU. unfold cols. rewrite map_app, in_app_iff. auto.
          * auto.
        + rewrite EDj, EUdj. unfold cols at 1. rewrite map_app, in_app_iff. simpl. intros Hc Hc2.
          apply (cols_perm _ _ c HP4') in Hc2. destruct Hc as [Hc|[<-|[]]].
          * apply (HDI j Hj c Hc). rewrite EUj. unfold cols in *. rewrite map_app in *. rewrite in_app_iff in *. simpl. tauto.
          * rewrite EUj in HUj. unfold cols in HUj, Hc2. rewrite map_app in HUj, Hc2. simpl in HUj.
            apply NoDup_remove_2 in HUj. auto.
        + destruct (Eo r Hri Hrj) as [-> ->]. apply HDI; auto.
    Qed.

    Lemma xinv_moved D U i j v U1 U2 Db Uc :
      xinv N E0 D U -> i < N -> j < N -> i <> j ->
      U i = U1 ++ [(j, v)] -> Permutation U2 (U j) -> ~ In i (cols (U j)) ->
      Db i = D i -> Uc i = U1 -> Db j = D j ++ [(i, v)] -> Uc j = U2 ->
      (forall r, r <> i -> r <> j -> Db r = D r /\ Uc r = U r) ->
      xinv N E0 Db Uc.
    Proof.
      intros HI Hi Hj Hne EU HP2 Hf EDi EUi EDj EUj Eo. destruct HI as [HPI HDI]. split.
      - rewrite <- HPI. unfold trips. apply (flat_map_upd2 _ i j); auto; try lia.
        + intros r Hr H1 H2. unfold ents. destruct (Eo r H1 H2) as [-> ->]. auto.
        + unfold ents. rewrite EDi, EUi, EDj, EUj, EU, HP2. rewrite !map_app. cbn [map fst snd].
          rewrite <- !app_assoc. apply (perm_notfound _ _ _ _ (i, j, v)).
      - intros r Hr c. destruct (Nat.eq_dec r i) as [->|Hri]; [|destruct (Nat.eq_dec r j) as [->|Hrj]].
        + rewrite EDi, EUi. intros Hc Hc2. apply (HDI i Hi c Hc). rewrite EU. unfold cols. rewrite map_app, in_app_iff. auto.
        + rewrite EDj, EUj. unfold cols at 1. rewrite map_app, in_app_iff. simpl. intros Hc Hc2.
          apply (cols_perm _ _ c HP2) in Hc2. destruct Hc as [Hc|[<-|[]]]; [|auto]. apply (HDI j Hj c Hc); auto.
        + destruct (Eo r Hri Hrj) as [-> ->]. apply HDI; auto.
    Qed.

    Lemma xinv_diag D U i v U1 U2 Dc Uc :
      xinv N E0 D U -> i < N -> U i = U1 ++ [(i, v)] -> Permutation U2 U1 ->
      Dc i = D i ++ [(i, v)] -> Uc i = U2 -> (forall r, r <> i -> Dc r = D r /\ Uc r = U r) ->
      xinv N E0 Dc Uc.
    Proof.
      intros HI Hi EU HP3 EDi EUi Eo.
      destruct (xnodup_DU D U i HI Hi) as [HDi HUi'].
      assert (HjU1 : ~ In i (cols U1)).
      { rewrite EU in HUi'. unfold cols in *. rewrite map_app in HUi'. simpl in HUi'. apply NoDup_remove_2 in HUi'. rewrite app_nil_r in HUi'. auto. }
      destruct HI as [HPI HDI]. split.
      - rewrite <- HPI. unfold trips. apply (flat_map_upd1 _ i); auto.
        + intros r Hr H1. unfold ents. destruct (Eo r H1) as [-> ->]. auto.
        + unfold ents. rewrite EDi, EUi, EU, HP3. rewrite !map_app. cbn [map fst snd].
          rewrite <- !app_assoc. apply Permutation_app_head. apply Permutation_app_comm.
      - intros r Hr c. destruct (Nat.eq_dec r i) as [->|Hri].
        + rewrite EDi, EUi. unfold cols at 1. rewrite map_app, in_app_iff. simpl. intros Hc Hc2.
          apply (cols_perm _ _ c HP3) in Hc2. destruct Hc as [Hc|[<-|[]]].
          * apply (HDI i Hi c Hc). rewrite EU. unfold cols. rewrite map_app, in_app_iff. auto.
          * auto.
        + destruct (Eo r Hri) as [-> ->]. apply HDI; auto.
    Qed.
  End Inv.

  (** ** rows *)
  Lemma r_swap_ok (r : crw) (E : ents_t) p q : row_is r E -> p < length E -> q < length E ->
    exists r', r_swap r p q = Ok r' /\ row_is r' (lswap E p q (0, k0)).
  Proof.
    intros H Hp Hq. unfold r_swap. destruct (Nat.eqb_spec p q) as [->|Hne].
    - exists r. split; auto. replace (lswap E q q (0, k0)) with E; auto.
      unfold lswap. apply (list_ext_nth _ _ (0, k0)).
      + rewrite !length_set_nth. auto.
      + intros i Hi. destruct (Nat.eq_dec i q) as [->|Hi'].
        * rewrite nth_set_nth_eq; auto. rewrite length_set_nth. auto.
        * rewrite !nth_set_nth_neq by auto. auto.
    - rewrite !(r_get_ok r E) by auto. cbn [bind].
      destruct (nth p E (0, k0)) as [kp vp] eqn:Ep. cbn [bind].
      destruct (nth q E (0, k0)) as [kq vq] eqn:Eq. cbn [bind].
      destruct (r_put_ok r E p kq vq H Hp) as (r1 & E1 & R1 & _). rewrite E1. cbn [bind].
      destruct (r_put_ok r1 _ q kp vp R1 ltac:(rewrite length_set_nth; auto)) as (r2 & E2 & R2 & _). rewrite E2.
      exists r2. split; auto. unfold lswap. rewrite Ep, Eq. auto.
  Qed.

  Lemma r_bring (r : crw) (D U : ents_t) q : row_is r (D ++ U) -> q < length U ->
    exists r' U2, r_swap r (length D + q) (length D) = Ok r' /\
      Permutation (nth q U (0, k0) :: U2) U /\ row_is r' ((D ++ [nth q U (0, k0)]) ++ U2).
  Proof.
    intros H Hq.
    destruct (r_swap_ok r _ (length D + q) (length D) H) as (r' & E' & R'); try (rewrite app_length; lia).
    destruct (lswap_bring D U q (0, k0) Hq) as (U2 & EL & HP). rewrite EL in R'.
    exists r', U2. split; auto. split; auto. rewrite <- app_assoc. auto.
  Qed.

  Lemma r_drop (r : crw) (E : ents_t) x : row_is r (E ++ [x]) -> row_is (mkRow (rcells r) (rnnz r - 1)) E.
  Proof.
    intros (pad & H1 & H2 & H3). exists (Some x :: pad). cbn [rcells rnnz]. rewrite map_app, <- app_assoc in H1.
    split; [exact H1|]. split; [rewrite H2, app_length; simpl; lia|]. exact H3.
  Qed.

  Lemma r_search (r : crw) (D U : ents_t) i : row_is r (D ++ U) ->
    exists f, for_n (rnnz r - length D) (fun q f =>
          match f with
          | Some _ => Ok f
          | None => '(k, _) <- r_get r (length D + q) ;; Ok (if k =? i then Some (length D + q) else None)
          end) None = Ok f /\
      match f with
      | Some p => exists P w Q, U = P ++ (i, w) :: Q /\ p = length D + length P
      | None => ~ In i (cols U)
      end.
  Proof.
    intros H. rewrite (row_is_nnz _ _ H), app_length. replace (length D + length U - length D) with (length U) by lia.
    apply wp_ok. eapply wp_mono.
    - apply (for_n_inv (fun q f => match f with
        | Some p => exists P w Q, U = P ++ (i, w) :: Q /\ p = length D + length P
        | None => ~ In i (cols (firstn q U)) end)); [simpl; auto|].
      intros q f Hq Hf. destruct f as [p|]; [simpl; auto|].
      rewrite (r_get_ok r (D ++ U)) by (auto; rewrite app_length; lia). cbn [bind].
      rewrite app_nth2 by lia. replace (length D + q - length D) with q by lia.
      destruct (nth q U (0, k0)) as [k v] eqn:Ek. cbn [bind wpq].
      destruct (Nat.eqb_spec k i) as [->|Hk].
      + exists (firstn q U), v, (skipn (S q) U). split.
        * rewrite <- Ek. rewrite <- (skipn_S_nth U q (0, k0)) by lia. symmetry. apply firstn_skipn.
        * rewrite firstn_length. lia.
      + rewrite (firstn_S_nth U q (0, k0)) by lia. rewrite Ek.
        unfold cols. rewrite map_app, in_app_iff. simpl. intros [X|[X|[]]]; auto.
    - intros [p|]; auto. rewrite firstn_all. auto.
  Qed.

  (** ** the split state of the matrix *)
  Definition crowsDU (A : csr) (D U : nat -> ents_t) : Prop := crows (fun r w => row_is w (D r ++ U r)) A.

  Lemma crowsDU_put (A : csr) (D U : nat -> ents_t) i (r : crw) (E : nat -> ents_t) :
    crows (fun q w => row_is w (E q)) A -> i < cN A -> row_is r (D i ++ U i) ->
    (forall q, q <> i -> E q = D q ++ U q) -> crowsDU (cputp A i r) D U.
  Proof.
    intros [H1 H2] Hi Hr HE. split; simpl; [rewrite length_set_nth; auto|]. intros q Hq.
    destruct (Nat.eq_dec q i) as [->|Hne].
    - rewrite nth_set_nth_eq by lia. auto.
    - rewrite nth_set_nth_neq by auto. rewrite <- HE by auto. auto.
  Qed.

  Lemma crowsDU_put2 (A : csr) (D U D' U' : nat -> ents_t) i j (ri rj : crw) :
    crowsDU A D U -> i < cN A -> j < cN A -> i <> j -> row_is ri (D' i ++ U' i) -> row_is rj (D' j ++ U' j) ->
    (forall q, q <> i -> q <> j -> D' q = D q /\ U' q = U q) ->
    crowsDU (cputp (cputp A i ri) j rj) D' U' /\ crowsDU (cputp (cputp A j rj) i ri) D' U'.
  Proof.
    intros [H1 H2] Hi Hj Hne Hri Hrj HE.
    assert (G : forall q, q < cN A -> q <> i -> q <> j -> row_is (nth q (cdata A) row0) (D' q ++ U' q)).
    { intros q Hq X Y. destruct (HE q X Y) as [-> ->]. auto. }
    split; split; cbn [cputp cdata cN]; rewrite ?length_set_nth; auto; intros q Hq.
    - destruct (Nat.eq_dec q j) as [->|Hj'].
      + rewrite nth_set_nth_eq by (rewrite length_set_nth; lia). auto.
      + rewrite nth_set_nth_neq by auto. destruct (Nat.eq_dec q i) as [->|Hi'].
        * rewrite nth_set_nth_eq by lia. auto.
        * rewrite nth_set_nth_neq by auto. auto.
    - destruct (Nat.eq_dec q i) as [->|Hi'].
      + rewrite nth_set_nth_eq by (rewrite length_set_nth; lia). auto.
      + rewrite nth_set_nth_neq by auto. destruct (Nat.eq_dec q j) as [->|Hj'].
        * rewrite nth_set_nth_eq by lia. auto.
        * rewrite nth_set_nth_neq by auto. auto.
  Qed.

  Definition ulen (D U : nat -> ents_t) i := length (D i) + length (U i).

  Lemma c_step_ok (N : nat) (E0 : nat -> ents_t) (A : csr) nzt D U i :
    (forall r, r < N -> cols_ok N (E0 r)) -> cN A = N ->
    crowsDU A D U -> nzs N nzt D -> xinv N E0 D U -> i < N ->
    (forall r, r < i -> U r = []) -> U i <> [] ->
    exists A' nzt' D' U', ctr_step i A nzt (ulen D U i) = Ok (A', nzt', ulen D' U' i) /\
      cdims A A' /\ crowsDU A' D' U' /\ nzs N nzt' D' /\ xinv N E0 D' U' /\
      (forall r, r < i -> U' r = []) /\ length (U' i) = length (U i) - 1.
  Proof.
    intros Hw0 EN HR HZ HI Hi Hlow HUi.
    destruct (exists_last HUi) as (U1 & [j v] & EU).
    assert (Hj : j < N). { apply (xU_lt N E0 Hw0 D U i j v HI Hi). rewrite EU. apply in_app_iff. right; left; auto. }
    pose proof HR as [HL Hrow].
    assert (Ri := Hrow i ltac:(lia)). cbv beta in Ri.
    assert (Rj := Hrow j ltac:(lia)). cbv beta in Rj.
    assert (ELU : length (U i) = S (length U1)) by (rewrite EU, app_length; simpl; lia).
    assert (Eip : ulen D U i - 1 = length (D i) + length U1) by (unfold ulen; lia).
    assert (Hslot : nth (length (D i) + length U1) (D i ++ U i) (0, k0) = (j, v)).
    { rewrite EU, app_nth2, app_nth2 by lia. replace (_ - _ - _) with 0 by lia. auto. }
    assert (HzL : length nzt = N) by apply HZ.
    assert (Hz : forall r, r < N -> rd nzt r = Ok (length (D r))).
    { intros r Hr. rewrite (rd_ok nzt r 0) by lia. f_equal. apply HZ; auto. }
    assert (Hjin : In j (cols (U i))) by (rewrite EU; unfold cols; rewrite map_app, in_app_iff; right; left; auto).
    unfold ctr_step. rewrite Eip. rewrite c_row_ok by lia. cbn [bind].
    rewrite (r_get_ok _ _ _ Ri) by (rewrite app_length; lia). rewrite Hslot. cbn [bind].
    set (ri := nth i (cdata A) row0) in *. set (rj := nth j (cdata A) row0) in *.
    destruct (Nat.ltb_spec i j) as [Hij|Hij].
    - rewrite c_row_ok by lia. cbn [bind]. fold rj. rewrite Hz by auto. cbn [bind].
      destruct (r_search rj (D j) (U j) i Rj) as (f & Ef & Hf). rewrite Ef. cbn [bind].
      destruct f as [p|].
      + destruct Hf as (P & w & Q & EUj & ->).
        assert (Lj : length (U j) = length P + S (length Q)) by (rewrite EUj, app_length; auto).
        assert (Hslotj : nth (length (D j) + length P) (D j ++ U j) (0, k0) = (i, w)).
        { rewrite EUj, app_nth2, app_nth2 by lia. replace (_ - _ - _) with 0 by lia. auto. }
        rewrite (r_get_ok _ _ _ Rj) by (rewrite app_length; lia). rewrite Hslotj. cbn [bind].
        destruct (r_put_ok ri _ (length (D i) + length U1) j w Ri ltac:(rewrite app_length; lia)) as (ri1 & E1 & R1 & _). rewrite E1. cbn [bind].
        destruct (r_put_ok rj _ (length (D j) + length P) i v Rj ltac:(rewrite app_length; lia)) as (rj1 & E2 & R2 & _). rewrite E2. cbn [bind].
        assert (X1 : set_nth (D i ++ U i) (length (D i) + length U1) (j, w) = D i ++ U1 ++ [(j, w)]).
        { rewrite EU, app_assoc, <- app_length, set_nth_split, <- app_assoc. auto. }
        assert (X2 : set_nth (D j ++ U j) (length (D j) + length P) (i, v) = D j ++ P ++ (i, v) :: Q).
        { rewrite EUj, app_assoc, <- app_length, set_nth_split, <- app_assoc. auto. }
        rewrite X1 in R1. rewrite X2 in R2.
        rewrite ?Hz by auto. cbn [bind].
        destruct (r_bring ri1 (D i) _ (length U1) R1 ltac:(rewrite app_length; simpl; lia)) as (ri2 & U2 & E3 & HP3 & R3).
        rewrite E3. cbn [bind]. rewrite ?Hz by auto. cbn [bind].
        rewrite app_nth2, Nat.sub_diag in HP3, R3 by lia. simpl nth in HP3, R3. apply cons_snoc_perm in HP3.
        destruct (r_bring rj1 (D j) _ (length P) R2 ltac:(rewrite app_length; simpl; lia)) as (rj2 & U3 & E4 & HP4 & R4).
        rewrite E4. cbn [bind].
        rewrite app_nth2, Nat.sub_diag in HP4, R4 by lia. simpl nth in HP4, R4.
        assert (HP4' : Permutation U3 (P ++ Q)).
        { apply (Permutation_cons_inv (a := (i, v))). rewrite HP4. symmetry. apply Permutation_middle. }
        rewrite c_put_ok by lia. cbn [bind]. rewrite c_put_ok by (simpl; rewrite length_set_nth; lia). cbn [bind].
        rewrite wr_ok by lia. cbn [bind]. rewrite wr_ok by (rewrite length_set_nth; lia). cbn [bind].
        set (Dd := upd_fun (upd_fun D i (D i ++ [(j, w)])) j (D j ++ [(i, v)])).
        set (Ud := upd_fun (upd_fun U i U2) j U3).
        assert (EDi : Dd i = D i ++ [(j, w)]) by (unfold Dd; rewrite uf_neq, uf_eq by lia; auto).
        assert (EUdi : Ud i = U2) by (unfold Ud; rewrite uf_neq, uf_eq by lia; auto).
        assert (EDj : Dd j = D j ++ [(i, v)]) by (unfold Dd; rewrite uf_eq; auto).
        assert (EUdj : Ud j = U3) by (unfold Ud; rewrite uf_eq; auto).
        assert (Eo : forall r, r <> i -> r <> j -> Dd r = D r /\ Ud r = U r).
        { intros r H1 H2. unfold Dd, Ud. rewrite !uf_neq by auto. auto. }
        eexists. eexists. exists Dd, Ud.
        assert (EnA4 : ulen Dd Ud i = ulen D U i).
        { unfold ulen. rewrite EDi, EUdi, app_length. apply Permutation_length in HP3. simpl. lia. }
        rewrite EnA4.
        split; [reflexivity|]. split; [split; auto|]. split; [|split; [|split; [|split]]].
        * apply (crowsDU_put2 A D U Dd Ud i j ri2 rj2); auto; try lia; [rewrite EDi, EUdi|rewrite EDj, EUdj]; auto.
        * assert (Z1 := nzs_upd N nzt D i (D i ++ [(j, w)]) HZ Hi).
          assert (Z2 := nzs_upd N _ _ j (D j ++ [(i, v)]) Z1 Hj).
          rewrite !app_length in Z2. simpl in Z2. rewrite !Nat.add_1_r in Z2. exact Z2.
        * apply (xinv_found N E0 Hw0 D U i j v w U1 U2 P Q U3); auto. lia.
        * intros r Hr. destruct (Eo r) as [_ ->]; try lia. auto.
        * rewrite EUdi, ELU. apply Permutation_length in HP3. lia.
      + destruct (r_push_ok rj _ i v Rj) as (rj1 & E1 & R1 & _). rewrite E1. cbn [bind].
        rewrite ?Hz by auto. cbn [bind]. rewrite <- app_assoc in R1.
        rewrite (row_is_nnz _ _ R1). replace (length (D j ++ U j ++ [(i, v)]) - 1) with (length (D j) + length (U j)).
        2:{ rewrite !app_length. simpl. lia. }
        destruct (r_bring rj1 (D j) _ (length (U j)) R1 ltac:(rewrite app_length; simpl; lia)) as (rj2 & U2 & E2 & HP2 & R2).
        rewrite E2. cbn [bind].
        rewrite app_nth2, Nat.sub_diag in HP2, R2 by lia. simpl nth in HP2, R2. apply cons_snoc_perm in HP2.
        rewrite wr_ok by lia. cbn [bind].
        rewrite c_put_ok by lia. cbn [bind]. rewrite c_put_ok by (simpl; rewrite length_set_nth; lia). cbn [bind].
        set (Db := upd_fun D j (D j ++ [(i, v)])). set (Uc := upd_fun (upd_fun U j U2) i U1).
        assert (EDi : Db i = D i) by (unfold Db; rewrite uf_neq by lia; auto).
        assert (EUi : Uc i = U1) by (unfold Uc; rewrite uf_eq; auto).
        assert (EDj : Db j = D j ++ [(i, v)]) by (unfold Db; rewrite uf_eq; auto).
        assert (EUj : Uc j = U2) by (unfold Uc; rewrite uf_neq, uf_eq by lia; auto).
        assert (Eo : forall r, r <> i -> r <> j -> Db r = D r /\ Uc r = U r).
        { intros r H1 H2. unfold Db, Uc. rewrite !uf_neq by auto. auto. }
        eexists. eexists. exists Db, Uc.
        assert (En3 : ulen Db Uc i = length (D i) + length U1) by (unfold ulen; rewrite EDi, EUi; auto).
        rewrite En3.
        split; [reflexivity|]. split; [split; auto|]. split; [|split; [|split; [|split]]].
        * apply (crowsDU_put2 A D U Db Uc i j (mkRow (rcells ri) (rnnz ri - 1)) rj2); auto; try lia; [rewrite EDi, EUi|rewrite EDj, EUj]; auto.
          apply (r_drop _ _ (j, v)). rewrite <- app_assoc, <- EU. auto.
        * assert (Z1 := nzs_upd N nzt D j (D j ++ [(i, v)]) HZ Hj).
          rewrite !app_length in Z1. simpl in Z1. rewrite !Nat.add_1_r in Z1. exact Z1.
        * apply (xinv_moved N E0 D U i j v U1 U2); auto. lia.
        * intros r Hr. destruct (Eo r) as [_ ->]; try lia. auto.
        * rewrite EUi, ELU. lia.
    - destruct (Nat.ltb_spec j i) as [Hji|Hji].
      + assert (EUj0 : U j = []) by (apply Hlow; auto).
        rewrite c_row_ok by lia. cbn [bind]. fold rj.
        destruct (r_push_ok rj _ i v Rj) as (rj1 & E1 & R1 & _). rewrite E1. cbn [bind].
        rewrite ?Hz by auto. cbn [bind]. rewrite wr_ok by lia. cbn [bind].
        rewrite c_put_ok by lia. cbn [bind]. rewrite c_put_ok by (simpl; rewrite length_set_nth; lia). cbn [bind].
        set (Db := upd_fun D j (D j ++ [(i, v)])). set (Uc := upd_fun U i U1).
        assert (EDi : Db i = D i) by (unfold Db; rewrite uf_neq by lia; auto).
        assert (EUi : Uc i = U1) by (unfold Uc; rewrite uf_eq; auto).
        assert (EDj : Db j = D j ++ [(i, v)]) by (unfold Db; rewrite uf_eq; auto).
        assert (EUj : Uc j = []) by (unfold Uc; rewrite uf_neq by lia; auto).
        assert (Eo : forall r, r <> i -> r <> j -> Db r = D r /\ Uc r = U r).
        { intros r H1 H2. unfold Db, Uc. rewrite !uf_neq by auto. auto. }
        eexists. eexists. exists Db, Uc.
        assert (En3 : ulen Db Uc i = length (D i) + length U1) by (unfold ulen; rewrite EDi, EUi; auto).
        rewrite En3.
        split; [reflexivity|]. split; [split; auto|]. split; [|split; [|split; [|split]]].
        * apply (crowsDU_put2 A D U Db Uc i j (mkRow (rcells ri) (rnnz ri - 1)) rj1); auto; try lia; [rewrite EDi, EUi|rewrite EDj, EUj]; auto.
          -- apply (r_drop _ _ (j, v)). rewrite <- app_assoc, <- EU. auto.
          -- rewrite EUj0, app_nil_r in R1. rewrite app_nil_r. auto.
        * assert (Z1 := nzs_upd N nzt D j (D j ++ [(i, v)]) HZ Hj).
          rewrite !app_length in Z1. simpl in Z1. rewrite !Nat.add_1_r in Z1. exact Z1.
        * apply (xinv_moved N E0 D U i j v U1 []); auto; try lia; rewrite EUj0; auto.
        * intros r Hr. destruct (Nat.eq_dec r j) as [->|Hrj]; auto. destruct (Eo r) as [_ ->]; try lia. auto.
        * rewrite EUi, ELU. lia.
      + assert (j = i) as -> by lia.
        rewrite ?Hz by auto. cbn [bind].
        destruct (r_bring ri (D i) (U i) (length U1) Ri ltac:(lia)) as (ri2 & U2 & E3 & HP3 & R3).
        rewrite E3. cbn [bind]. rewrite c_put_ok by lia. cbn [bind]. rewrite wr_ok by lia. cbn [bind].
        rewrite EU, app_nth2, Nat.sub_diag in HP3, R3 by lia. simpl nth in HP3, R3.
        apply cons_snoc_perm in HP3.
        set (Dc := upd_fun D i (D i ++ [(i, v)])). set (Uc := upd_fun U i U2).
        assert (EDi : Dc i = D i ++ [(i, v)]) by (unfold Dc; rewrite uf_eq; auto).
        assert (EUi : Uc i = U2) by (unfold Uc; rewrite uf_eq; auto).
        assert (Eo : forall r, r <> i -> Dc r = D r /\ Uc r = U r).
        { intros r H1. unfold Dc, Uc. rewrite !uf_neq by auto. auto. }
        eexists. eexists. exists Dc, Uc.
        assert (EnA4 : ulen Dc Uc i = ulen D U i).
        { unfold ulen. rewrite EDi, EUi, app_length. apply Permutation_length in HP3. simpl. lia. }
        rewrite EnA4.
        split; [reflexivity|]. split; [split; auto|]. split; [|split; [|split; [|split]]].
        * apply (crowsDU_put A Dc Uc i ri2 (fun q => D q ++ U q)); auto; try lia.
          -- rewrite EDi, EUi. auto.
          -- intros q Hq. destruct (Eo q Hq) as [-> ->]. auto.
        * assert (Z1 := nzs_upd N nzt D i (D i ++ [(i, v)]) HZ Hi).
          rewrite !app_length in Z1. simpl in Z1. rewrite !Nat.add_1_r in Z1. exact Z1.
        * apply (xinv_diag N E0 Hw0 D U i v U1 U2); auto.
        * intros r Hr. destruct (Eo r) as [_ ->]; try lia. auto.
        * rewrite EUi, ELU. apply Permutation_length in HP3. lia.
  Qed.

  Lemma c_while_ok (N : nat) (E0 : nat -> ents_t) i : (forall r, r < N -> cols_ok N (E0 r)) -> i < N ->
    forall fuel A nzt D U, cN A = N -> crowsDU A D U -> nzs N nzt D -> xinv N E0 D U ->
    (forall r, r < i -> U r = []) -> length (U i) < fuel ->
    exists A' nzt' D' U', ctr_while fuel i A nzt (ulen D U i) = Ok (A', nzt') /\
      cdims A A' /\ crowsDU A' D' U' /\ nzs N nzt' D' /\ xinv N E0 D' U' /\ (forall r, r < S i -> U' r = []).
  Proof.
    intros Hw Hi. induction fuel as [|fuel IH]; intros A nzt D U HD HR HZ HI Hlow Hf; [lia|]. cbn [ctr_while].
    rewrite (rd_ok nzt i 0) by (destruct HZ; lia). cbn [bind]. replace (nth i nzt 0) with (length (D i)) by (symmetry; apply HZ; auto).
    destruct (Nat.leb_spec (ulen D U i) (length (D i))) as [Hge|Hlt].
    - exists A, nzt, D, U. split; auto. split; [split; auto|]. do 3 (split; [assumption|]). intros r Hr.
      destruct (Nat.eq_dec r i) as [->|Hne]; [|apply Hlow; lia].
      unfold ulen in Hge. destruct (U i); auto. simpl in Hge. lia.
    - assert (HU : U i <> []) by (intros E; unfold ulen in Hlt; rewrite E in Hlt; simpl in Hlt; lia).
      destruct (c_step_ok N E0 A nzt D U i Hw HD HR HZ HI Hi Hlow HU) as (A1 & z1 & D1 & U1 & E1 & [X1 X2] & HR1 & HZ1 & HI1 & Hl1 & HL1).
      rewrite E1. cbn [bind].
      destruct (IH A1 z1 D1 U1) as (A2 & z2 & D2 & U2 & E2 & [X3 X4] & H2); auto; try lia.
      { unfold ulen in Hlt. lia. }
      exists A2, z2, D2, U2. split; auto. split; [split; congruence|]. auto.
  Qed.

  Theorem csr_transpose_ok (A0 : csr) : cwf A0 ->
    exists B, csr_transpose A0 = Ok B /\ cwf B /\ cdims A0 B /\ meq (cN A0) (cmat B) (mtrans (cmat A0)).
  Proof.
    intros Hw. unfold csr_transpose. set (N := cN A0).
    assert (Hw0 : forall r, r < N -> cols_ok N (crow A0 r)) by (apply Hw).
    assert (G : wp (for_n N (fun i '(A, nzt) => ri <- c_row A i ;; ctr_while (S (rnnz ri)) i A nzt (rnnz ri)) (A0, repeat 0 N))
      (fun s => exists D U, cdims A0 (fst s) /\ crowsDU (fst s) D U /\ nzs N (snd s) D /\ xinv N (crow A0) D U /\ forall r, r < N -> U r = [])).
    { apply (for_n_inv (fun i s => exists D U, cdims A0 (fst s) /\ crowsDU (fst s) D U /\ nzs N (snd s) D /\ xinv N (crow A0) D U /\ forall r, r < i -> U r = [])).
      - exists (fun _ => []), (crow A0). split; [split; auto|]. split.
        + split; [apply cwf_len; auto|]. intros r Hr. simpl. apply cwf_is; auto.
        + split; [split; [apply repeat_length|intros; apply nth_repeat_any]|]. split; [|intros; lia].
          split; [auto|]. simpl. tauto.
      - intros i [A nzt] Hi (D & U & [HD1 HD2] & HR & HZ & HI & Hlow). cbn [fst snd] in *.
        pose proof HR as [HL Hrow]. rewrite c_row_ok by lia. cbn [bind].
        assert (Ri := Hrow i ltac:(lia)). cbv beta in Ri.
        rewrite (row_is_nnz _ _ Ri), app_length.
        destruct (c_while_ok N (crow A0) i Hw0 Hi (S (length (D i) + length (U i))) A nzt D U)
          as (A1 & z1 & D1 & U1 & E1 & [X1 X2] & HR1 & HZ1 & HI1 & Hl1); auto; try lia.
        unfold ulen in E1. rewrite E1. cbn [wpq fst snd]. exists D1, U1. split; [split; congruence|]. auto. }
    apply wp_ok in G as ([A nzt] & E & D & U & HD & HR & HZ & HI & Hlow). cbn [fst snd] in *.
    rewrite E. cbn [bind]. exists A. split; auto.
    destruct HD as [HD1 HD2].
    assert (EN : cN A = N) by (unfold N; congruence).
    assert (HRD : crows (fun r w => row_is w (D r)) A).
    { destruct HR as [HL Hr]. split; auto. intros r Hr'. specialize (Hr r Hr'). cbv beta in Hr.
      rewrite Hlow, app_nil_r in Hr by lia. auto. }
    destruct (crows_wf A D HRD) as [HwB ED].
    { rewrite EN. intros r Hr. split; [apply (xnodup_DU N (crow A0) Hw0 D U); auto|].
      intros k Hk. apply in_map_iff in Hk as ([k' v] & Ek & Hk). simpl in Ek. subst k'. apply (xin_D N (crow A0) D U r k v HI Hr Hk). }
    split; auto. split; [split; auto|].
    intros r c Hr Hc. unfold cmat, mtrans. rewrite ED by lia.
    assert (HdD : NoDup (cols (D r))) by (apply (xnodup_DU N (crow A0) Hw0 D U r); auto).
    assert (Hd0 : NoDup (cols (crow A0 c))) by (apply Hw; auto).
    destruct (in_dec Nat.eq_dec r (cols (crow A0 c))) as [Hin|Hout].
    + apply in_map_iff in Hin as ([r' v] & Er & Hin). simpl in Er. subst r'.
      assert (HT : In (c, r, v) (trips N D U)) by (apply (xinv_in N (crow A0) D U c r v HI); auto).
      unfold trips in HT. apply in_flat_map in HT as (q & Hq & HT). apply in_seq in Hq. unfold ents in HT.
      rewrite Hlow in HT by lia. simpl in HT. rewrite app_nil_r in HT. apply in_map_iff in HT as ([a b] & Eab & HT).
      simpl in Eab. inversion Eab; subst.
      rewrite (elook_in _ _ _ HdD HT). symmetry. apply (elook_in _ _ _ Hd0 Hin).
    + rewrite (elook_notin (crow A0 c)) by auto. apply elook_notin. intros Hk.
      apply in_map_iff in Hk as ([k' v] & Ek & Hk). simpl in Ek. subst k'.
      apply (xin_D N (crow A0) D U r c v HI Hr) in Hk as [_ Hk]. apply Hout. apply (in_map fst) in Hk. auto.
  Qed.
End CsrTrans.
