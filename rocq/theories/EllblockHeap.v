(** The heap of a block matrix: what reading, writing and allocating blocks does. *)
From Verif Require Import Base BaseFacts Spec SpecFacts EllpackModel EllblockModel EllblockSpec EllblockFacts.

Section Heap.
  Context {F : scalar}.
  Local Notation eb := (eb F).
  Implicit Types A B : eb.

  Definition kin A A' : Prop :=
    bN A' = bN A /\ bM A' = bM A /\ bNB A' = bNB A /\ bMB A' = bMB A /\ bbs A' = bbs A /\ (eb_shape A -> eb_shape A').
  Lemma kin_refl A : kin A A.
  Proof. unfold kin; intuition. Qed.
  Lemma kin_trans A B C : kin A B -> kin B C -> kin A C.
  Proof. unfold kin. intros (a1 & a2 & a3 & a4 & a5 & a6) (b1 & b2 & b3 & b4 & b5 & b6). repeat split; try congruence; apply b6; auto. Qed.
  Lemma kin_shape A A' : kin A A' -> eb_shape A -> eb_shape A'.
  Proof. unfold kin; tauto. Qed.
  Lemma kin_at A A' ib jp : kin A A' -> b_at A' ib jp = b_at A ib jp.
  Proof. intros (_ & _ & H1 & H2 & _). unfold b_at, ROWMAJOR. congruence. Qed.
  Lemma kin_spos A A' ib jp : kin A A' -> spos A' ib jp = spos A ib jp.
  Proof. intros (_ & _ & H1 & H2 & _). unfold spos. congruence. Qed.

  Lemma spos_lt A ib jp : ib < bNB A -> jp < bMB A -> spos A ib jp < bNB A * bMB A.
  Proof. intros. apply pos_lt; auto. Qed.
  Lemma spos_inj A ib jp ib' jp' : jp < bMB A -> jp' < bMB A -> spos A ib jp = spos A ib' jp' -> ib = ib' /\ jp = jp'.
  Proof.
    unfold spos. intros H H' E. assert (ib = ib') as ->.
    { rewrite <- (pos_div (bMB A) ib jp H), <- (pos_div (bMB A) ib' jp' H'). congruence. }
    split; auto; lia.
  Qed.

  Lemma own_mono cap cap' A : own cap A -> (forall i, i < bNB A -> cap' i <= cap i) -> own cap' A.
  Proof.
    intros (H1 & H2 & H3) H. split; [|split].
    - intros ib Hi. specialize (H ib Hi). specialize (H1 ib Hi). lia.
    - intros ib jp a Hi Hj. specialize (H ib Hi). apply H2; auto; lia.
    - intros ib jp ib' jp' a Hi Hj Hi' Hj'. pose proof (H ib Hi). pose proof (H ib' Hi'). apply H3; auto; lia.
  Qed.
  Lemma own_ext cap A A' : kin A A' -> bptr A' = bptr A -> bheap A' = bheap A -> own cap A -> own cap A'.
  Proof.
    intros Hk Hp Hh (H1 & H2 & H3). pose proof Hk as (_ & _ & EN & EM & _).
    assert (S : forall i j, saddr A' i j = saddr A i j). { intros. unfold saddr. rewrite (kin_spos A A'), Hp; auto. }
    split; [|split].
    - intros ib. rewrite EN, EM. apply H1.
    - intros ib jp a. rewrite EN, S, Hh. apply H2.
    - intros ib jp ib' jp' a. rewrite EN, !S. apply H3.
  Qed.
  Lemma own_cap_eq cap cap' A : (forall i, i < bNB A -> cap' i = cap i) -> own cap A -> own cap' A.
  Proof. intros H HO. eapply own_mono; eauto. intros i Hi. rewrite H; auto. Qed.
  Lemma clean_tidy A : own (bnz A) A -> clean A -> tidy A.
  Proof.
    intros (H1 & H2 & H3) HC.
    assert (U : forall ib jp a, ib < bNB A -> jp < bMB A -> saddr A ib jp = Some a -> jp < bnz A ib).
    { intros ib jp a Hi Hj E. destruct (Nat.lt_ge_cases jp (bnz A ib)); auto. rewrite HC in E by auto. discriminate. }
    split; [|split].
    - intros; lia.
    - intros ib jp a Hi Hj E. eapply H2; eauto.
    - intros ib jp ib' jp' a Hi Hj Hi' Hj' E E'. eapply H3; eauto.
  Qed.

  (** *** Reading *)
  Lemma b_bs_ok A ib : eb_shape A -> ib < bNB A -> b_bs A ib = Ok (bsz (bbs A) ib).
  Proof. intros [] H. apply rd_ok. lia. Qed.
  Lemma b_nnz_ok A ib : eb_shape A -> ib < bNB A -> b_nnz A ib = Ok (bnz A ib).
  Proof. intros [] H. apply rd_ok. lia. Qed.
  Lemma rd_idx_ok A ib jp : eb_shape A -> ib < bNB A -> jp < bMB A -> rd (bidx A) (b_at A ib jp) = Ok (scol A ib jp).
  Proof. intros [] H H'. apply rd_ok. pose proof (spos_lt A ib jp H H'). unfold spos, b_at, ROWMAJOR in *. lia. Qed.
  Lemma rd_ptr_ok A ib jp : eb_shape A -> ib < bNB A -> jp < bMB A -> rd (bptr A) (b_at A ib jp) = Ok (saddr A ib jp).
  Proof. intros [] H H'. apply rd_ok. pose proof (spos_lt A ib jp H H'). unfold spos, b_at, ROWMAJOR in *. lia. Qed.
  Lemma bobj_addr A ib jp x : bobj A ib jp = Some x -> exists a, saddr A ib jp = Some a /\ nth_error (bheap A) a = Some (Some x).
  Proof.
    unfold bobj. destruct (saddr A ib jp) as [a|]; [|discriminate]. intros E. exists a; split; auto.
    destruct (nth_error (bheap A) a) as [v|] eqn:Ev.
    - apply nth_error_nth with (d := None) in Ev. congruence.
    - apply nth_error_None in Ev. rewrite nth_overflow in E by auto. discriminate.
  Qed.
  Lemma deref_ok A ib jp x : bobj A ib jp = Some x -> deref (bheap A) (saddr A ib jp) = Ok x.
  Proof. intros H. apply bobj_addr in H as (a & -> & E). unfold deref. rewrite E. reflexivity. Qed.
  Lemma b_blk_ok A ib jp x : eb_shape A -> ib < bNB A -> jp < bMB A -> bobj A ib jp = Some x -> b_blk A (b_at A ib jp) = Ok x.
  Proof. intros HS Hi Hj H. unfold b_blk. rewrite rd_ptr_ok by auto. cbn [bind]. apply deref_ok; auto. Qed.
  Lemma sblk_some A ib jp x : bobj A ib jp = Some x -> sblk A ib jp = x.
  Proof. unfold sblk. intros ->. reflexivity. Qed.

  (** *** Changing one slot *)
  Record slot_set (cap : nat -> nat) A (ib jp c : nat) (y : list F) A' : Prop := mkSlot {
    ss_kin : kin A A';
    ss_own : own cap A';
    ss_nnz : bnnz A' = bnnz A;
    ss_col : scol A' ib jp = c;
    ss_obj : bobj A' ib jp = Some y;
    ss_cols : forall i' jp', i' < bNB A -> jp' < bMB A -> (i' <> ib \/ jp' <> jp) -> scol A' i' jp' = scol A i' jp';
    ss_addrs : forall i' jp', i' < bNB A -> jp' < bMB A -> (i' <> ib \/ jp' <> jp) -> saddr A' i' jp' = saddr A i' jp';
    ss_objs : forall i' jp', i' < bNB A -> jp' < cap i' -> (i' <> ib \/ jp' <> jp) -> bobj A' i' jp' = bobj A i' jp' }.

  Lemma slot_set_trans cap A ib jp c y A1 c' y' A2 :
    slot_set cap A ib jp c y A1 -> slot_set cap A1 ib jp c' y' A2 -> slot_set cap A ib jp c' y' A2.
  Proof.
    intros [] []. pose proof ss_kin0 as (_ & _ & EN & EM & _). constructor; auto.
    - eapply kin_trans; eauto.
    - congruence.
    - intros. rewrite ss_cols1 by (rewrite ?EN, ?EM; auto). auto.
    - intros. rewrite ss_addrs1 by (rewrite ?EN, ?EM; auto). auto.
    - intros. rewrite ss_objs1 by (rewrite ?EN, ?EM; auto). auto.
  Qed.

  Lemma b_wblk_ok {e} cap A ib jp x v : eb_shape A -> own cap A -> ib < bNB A -> jp < cap ib -> bobj A ib jp = Some x ->
    wpq e (b_wblk A (b_at A ib jp) v) (slot_set cap A ib jp (scol A ib jp) v).
  Proof.
    intros HS HO Hi Hj Hx. destruct (bobj_addr _ _ _ _ Hx) as (a & Ea & En).
    pose proof HO as (HO1 & HO2 & HO3). assert (jp < bMB A) by (specialize (HO1 ib Hi); lia).
    unfold b_wblk. apply wp_bind. rewrite rd_ptr_ok by auto. cbn [wpq]. rewrite Ea. apply wp_bind.
    unfold deref. rewrite En. cbn [wpq].
    assert (Hl : a < length (bheap A)). { apply nth_error_Some. congruence. }
    assert (K : kin A (mkEb (bN A) (bM A) (bNB A) (bMB A) (bbs A) (bptr A) (bidx A) (bnnz A) (set_nth (bheap A) a (Some v)))).
    { unfold kin; cbn; intuition. destruct H0; constructor; cbn; auto. }
    constructor; auto; cbn [bNB bMB bnnz]; auto.
    - split; [|split]; cbn [bNB bMB].
      + apply HO1.
      + intros ib' jp' a' Hi' Hj' Ea'. cbn [bheap]. rewrite nth_set_nth. destruct (Nat.eqb_spec a' a) as [->|Na]; cbn [andb].
        * destruct (Nat.ltb_spec a (length (bheap A))); [eauto|lia].
        * eapply HO2; eauto.
      + intros ? ? ? ? ? ? ? ? ? E1 E2. eapply HO3; eauto.
    - change (saddr _ ib jp) with (saddr A ib jp). unfold bobj. change (saddr _ ib jp) with (saddr A ib jp) at 1. rewrite Ea.
      cbn [bheap]. rewrite nth_set_nth_eq by auto. reflexivity.
    - intros i' jp' Hi' Hj' Hne. unfold bobj. change (saddr _ i' jp') with (saddr A i' jp') at 1.
      destruct (saddr A i' jp') as [a'|] eqn:Ea'; auto. cbn [bheap]. rewrite nth_set_nth_neq; auto.
      intros ->. destruct (HO3 i' jp' ib jp a) as [-> ->]; auto. tauto.
  Qed.

  Definition capx (cap : nat -> nat) (ib jp : nat) : nat -> nat := fun i => if i =? ib then Nat.max (cap i) (S jp) else cap i.
  Lemma capx_id cap ib jp i : jp < cap ib -> capx cap ib jp i = cap i.
  Proof. unfold capx. intros H. destruct (Nat.eqb_spec i ib); [subst; lia|auto]. Qed.

  Lemma b_alloc_ok {e} cap A ib jp n g : eb_shape A -> own cap A -> ib < bNB A -> jp < bMB A -> jp <= cap ib ->
    wpq e (b_alloc A (b_at A ib jp) n g) (slot_set (capx cap ib jp) A ib jp (scol A ib jp) (map g (seq 0 n))).
  Proof.
    intros HS HO Hi Hj Hc. pose proof HO as (HO1 & HO2 & HO3).
    pose proof (spos_lt A ib jp Hi Hj) as Hs.
    unfold b_alloc. apply wp_bind. unfold b_wptr. apply wp_bind. pose proof (sh_ptr _ HS) as HSp.
    change (b_at A ib jp) with (spos A ib jp). rewrite wr_ok by lia. cbn [wpq].
    set (a := length (bheap A)). cbn [bN bM bNB bMB bbs bptr bidx bnnz bheap].
    set (A' := mkEb _ _ _ _ _ _ _ _ _).
    assert (K : kin A A'). { unfold kin; cbn; intuition. destruct H; constructor; cbn; auto. rewrite length_set_nth; auto. }
    assert (Sat : saddr A' ib jp = Some a). { unfold saddr. change (spos A' ib jp) with (spos A ib jp). cbn [bptr A']. apply nth_set_nth_eq. lia. }
    assert (Sne : forall i' jp', jp' < bMB A -> (i' <> ib \/ jp' <> jp) -> saddr A' i' jp' = saddr A i' jp').
    { intros i' jp' Hj' Hne. unfold saddr. change (spos A' i' jp') with (spos A i' jp'). cbn [bptr A']. apply nth_set_nth_neq. intros E.
      apply spos_inj in E; auto. destruct E; subst; tauto. }
    assert (Hlive : forall i' jp' a', i' < bNB A -> jp' < cap i' -> saddr A i' jp' = Some a' -> a' < a).
    { intros i' jp' a' Hi' Hj' E. destruct (HO2 _ _ _ Hi' Hj' E) as (z & Ez). unfold a.
      destruct (Nat.lt_ge_cases a' (length (bheap A))); auto. rewrite nth_overflow in Ez by auto. discriminate. }
    assert (Hcap : forall i' jp', jp' < capx cap ib jp i' -> (i' <> ib \/ jp' <> jp) -> jp' < cap i').
    { intros i' jp' H Hne. unfold capx in H. destruct (Nat.eqb_spec i' ib) as [Ei|Ei]; [rewrite Ei in *; lia|auto]. }
    assert (Hcm : forall i', i' < bNB A -> capx cap ib jp i' <= bMB A).
    { intros i' Hi'. unfold capx. specialize (HO1 i' Hi'). destruct (Nat.eqb_spec i' ib); lia. }
    assert (Hval : bobj A' ib jp = Some (map g (seq 0 n))).
    { unfold bobj. rewrite Sat. cbn [bheap A']. rewrite app_nth2 by (unfold a; lia). unfold a. rewrite Nat.sub_diag. reflexivity. }
    assert (Hoth : forall i' jp', i' < bNB A -> jp' < cap i' -> (i' <> ib \/ jp' <> jp) -> bobj A' i' jp' = bobj A i' jp').
    { intros i' jp' Hi' Hj' Hne. unfold bobj. rewrite Sne by (auto; specialize (HO1 i' Hi'); lia).
      destruct (saddr A i' jp') as [a'|] eqn:E; auto. cbn [bheap A']. rewrite app_nth1; auto. eapply Hlive; eauto. }
    constructor; auto.
    - split; [|split]; cbn [bNB bMB A'].
      + auto.
      + intros i' jp' a' Hi' Hj' E.
        destruct (Nat.eq_dec i' ib) as [Ei|Ei], (Nat.eq_dec jp' jp) as [Ej|Ej].
        1:{ subst. rewrite Sat in E. injection E as <-. unfold bobj in Hval. rewrite Sat in Hval. eauto. }
        all: assert (Hlt : jp' < cap i') by (apply Hcap; auto); rewrite Sne in E by (auto; specialize (HO1 i' Hi'); lia);
          destruct (HO2 _ _ _ Hi' Hlt E) as (z & Ez); exists z; cbn [bheap A'];
          rewrite app_nth1; auto; exact (Hlive _ _ _ Hi' Hlt E).
      + intros i1 j1 i2 j2 a' Hi1 Hj1 Hi2 Hj2 E1 E2.
        assert (D : forall i j, {i = ib /\ j = jp} + {i <> ib \/ j <> jp}).
        { intros i j. destruct (Nat.eq_dec i ib), (Nat.eq_dec j jp); auto. }
        destruct (D i1 j1) as [[-> ->]|N1], (D i2 j2) as [[-> ->]|N2]; auto.
        * exfalso. assert (L2 : j2 < cap i2) by (apply Hcap; auto). rewrite Sne in E2 by (auto; specialize (HO1 _ Hi2); lia).
          rewrite Sat in E1. injection E1 as <-. specialize (Hlive _ _ _ Hi2 L2 E2). lia.
        * exfalso. assert (L1 : j1 < cap i1) by (apply Hcap; auto). rewrite Sne in E1 by (auto; specialize (HO1 _ Hi1); lia).
          rewrite Sat in E2. injection E2 as <-. specialize (Hlive _ _ _ Hi1 L1 E1). lia.
        * assert (L1 : j1 < cap i1) by (apply Hcap; auto). assert (L2 : j2 < cap i2) by (apply Hcap; auto).
          rewrite Sne in E1 by (auto; specialize (HO1 _ Hi1); lia). rewrite Sne in E2 by (auto; specialize (HO1 _ Hi2); lia).
          eapply HO3; eauto.
  Qed.

  Lemma b_widx_ok {e} cap A ib jp c x : eb_shape A -> own cap A -> ib < bNB A -> jp < bMB A -> bobj A ib jp = Some x ->
    wpq e (b_widx A (b_at A ib jp) c) (slot_set cap A ib jp c x).
  Proof.
    intros HS HO Hi Hj Hx. pose proof (spos_lt A ib jp Hi Hj) as Hs. pose proof (sh_idx _ HS) as HSi.
    unfold b_widx. apply wp_bind. change (b_at A ib jp) with (spos A ib jp). rewrite wr_ok by lia. cbn [wpq].
    set (A' := mkEb _ _ _ _ _ _ _ _ _).
    assert (K : kin A A'). { unfold kin; cbn; intuition. destruct H; constructor; cbn; auto. rewrite length_set_nth; auto. }
    constructor; auto.
    - unfold scol. change (spos A' ib jp) with (spos A ib jp). cbn [bidx A']. apply nth_set_nth_eq. lia.
    - intros i' jp' Hi' Hj' Hne. unfold scol. change (spos A' i' jp') with (spos A i' jp'). cbn [bidx A']. apply nth_set_nth_neq. intros E.
      apply spos_inj in E; auto. destruct E; subst; tauto.
  Qed.

  (** *** Changing one counter *)
  Record nnz_set A (ib n : nat) A' : Prop := mkNnz {
    ns_kin : kin A A';
    ns_ptr : bptr A' = bptr A; ns_heap : bheap A' = bheap A; ns_idx : bidx A' = bidx A;
    ns_at : bnz A' ib = n;
    ns_other : forall i, i <> ib -> bnz A' i = bnz A i }.
  Lemma b_wnnz_ok {e} A ib n : eb_shape A -> ib < bNB A -> wpq e (b_wnnz A ib n) (nnz_set A ib n).
  Proof.
    intros HS Hi. pose proof (sh_nnz _ HS). unfold b_wnnz. apply wp_bind. rewrite wr_ok by lia. cbn [wpq].
    constructor; auto.
    - unfold kin; cbn; intuition. destruct H0; constructor; cbn; auto. rewrite length_set_nth; auto.
    - unfold bnz. cbn [bnnz]. apply nth_set_nth_eq. lia.
    - intros i Hne. unfold bnz. cbn [bnnz]. apply nth_set_nth_neq; auto.
  Qed.
  Lemma nnz_set_own cap A ib n A' : nnz_set A ib n A' -> own cap A -> own cap A'.
  Proof. intros []. apply own_ext; auto. Qed.
  Lemma nnz_set_obj A ib n A' i jp : nnz_set A ib n A' -> bobj A' i jp = bobj A i jp.
  Proof. intros []. unfold bobj, saddr. rewrite (kin_spos A A'), ns_ptr0, ns_heap0 by auto. reflexivity. Qed.
  Lemma nnz_set_addr A ib n A' i jp : nnz_set A ib n A' -> saddr A' i jp = saddr A i jp.
  Proof. intros []. unfold saddr. rewrite (kin_spos A A'), ns_ptr0 by auto. reflexivity. Qed.
  Lemma nnz_set_col A ib n A' i jp : nnz_set A ib n A' -> scol A' i jp = scol A i jp.
  Proof. intros []. unfold scol. rewrite (kin_spos A A'), ns_idx0 by auto. reflexivity. Qed.

  (** *** Rows *)
  (** row [i] is the same in both matrices *)
  Record row_same (cap : nat -> nat) A A' (i : nat) : Prop := mkSame {
    rs_nnz : bnz A' i = bnz A i;
    rs_col : forall jp, jp < bMB A -> scol A' i jp = scol A i jp;
    rs_addr : forall jp, jp < bMB A -> saddr A' i jp = saddr A i jp;
    rs_obj : forall jp, jp < cap i -> bobj A' i jp = bobj A i jp }.
  Lemma row_same_refl cap A i : row_same cap A A i.
  Proof. constructor; auto. Qed.
  Lemma row_same_trans cap A B C i : kin A B -> row_same cap A B i -> row_same cap B C i -> row_same cap A C i.
  Proof.
    intros (_ & _ & _ & EM & _) [] []. constructor; try congruence; intros jp H.
    - rewrite rs_col1 by congruence. auto.
    - rewrite rs_addr1 by congruence. auto.
    - rewrite rs_obj1 by auto. auto.
  Qed.
  Lemma row_same_mono cap cap' A B i : cap' i <= cap i -> row_same cap A B i -> row_same cap' A B i.
  Proof. intros H []. constructor; auto. intros jp Hj. apply rs_obj0. lia. Qed.
  Lemma slot_set_same cap A ib jp c y A' i : slot_set cap A ib jp c y A' -> i < bNB A -> i <> ib -> row_same cap A A' i.
  Proof. intros [] Hi Hne. constructor; auto. unfold bnz. rewrite ss_nnz0; auto. Qed.
  Lemma nnz_set_same cap A ib n A' i : nnz_set A ib n A' -> i <> ib -> row_same cap A A' i.
  Proof.
    intros H Hne. constructor; intros.
    - apply (ns_other _ _ _ _ H); auto.
    - eapply nnz_set_col; eauto.
    - eapply nnz_set_addr; eauto.
    - eapply nnz_set_obj; eauto.
  Qed.

  (** the first slots of row [ib] hold the blocks [L] *)
  Definition rowp A ib (L : list (nat * list F)) : Prop :=
    forall jp, jp < length L -> scol A ib jp = fst (nth jp L (0, [])) /\ bobj A ib jp = Some (snd (nth jp L (0, []))).
  Definition rcont A ib (L : list (nat * list F)) : Prop := bnz A ib = length L /\ rowp A ib L.
  Definition cells (k : nat) (L : list (nat * list F)) : list (nat * F) := map (fun p => (fst p, nth k (snd p) k0)) L.
  Definition brow A ib : list (nat * list F) := map (fun jp => (scol A ib jp, sblk A ib jp)) (seq 0 (bnz A ib)).

  Lemma brow_length A ib : length (brow A ib) = bnz A ib.
  Proof. unfold brow. rewrite map_length, seq_length. reflexivity. Qed.
  Lemma brow_nth A ib jp : jp < bnz A ib -> nth jp (brow A ib) (0, []) = (scol A ib jp, sblk A ib jp).
  Proof. intros H. unfold brow. rewrite nth_map_seq by auto. reflexivity. Qed.
  Lemma brow_cols A ib : map fst (brow A ib) = bcols A ib.
  Proof. unfold brow, bcols. rewrite map_map. reflexivity. Qed.
  Lemma bel_brow A ib jb k : bel A ib jb k = elook (cells k (brow A ib)) jb.
  Proof. unfold bel, cells, brow. rewrite map_map. reflexivity. Qed.
  Lemma cells_cols k L : cols (cells k L) = map fst L.
  Proof. unfold cols, cells. rewrite map_map. reflexivity. Qed.
  Lemma rcont_brow A ib L : rcont A ib L -> brow A ib = L.
  Proof.
    intros [H1 H2]. apply list_ext_nth with (d := (0, [])); [rewrite brow_length; auto|].
    intros jp Hj. rewrite brow_length in Hj. rewrite brow_nth by auto. destruct (H2 jp ltac:(lia)) as [E1 E2].
    rewrite (sblk_some _ _ _ _ E2), E1. destruct (nth jp L (0, [])); reflexivity.
  Qed.
  Lemma rcont_bel A ib L jb k : rcont A ib L -> bel A ib jb k = elook (cells k L) jb.
  Proof. intros H. rewrite bel_brow, (rcont_brow _ _ _ H). reflexivity. Qed.
  Lemma brow_ok_rcont A ib : brow_ok A ib -> rcont A ib (brow A ib).
  Proof.
    intros [bro_nodup0 bro_cols0 bro_obj0]. split; [rewrite brow_length; auto|]. intros jp Hj. rewrite brow_length in Hj.
    rewrite brow_nth by auto. split; auto. destruct (bro_obj0 jp Hj) as (x & E & _). cbn [snd]. rewrite (sblk_some _ _ _ _ E). exact E.
  Qed.

  (** a row of good blocks *)
  Definition lrow_ok (bs : list nat) (NB ib : nat) (L : list (nat * list F)) : Prop :=
    NoDup (map fst L) /\ forall p, In p L -> fst p < NB /\ bsz bs ib * bsz bs (fst p) <= length (snd p).
  Lemma lrow_brow_ok A ib L : rcont A ib L -> lrow_ok (bbs A) (bNB A) ib L -> brow_ok A ib.
  Proof.
    intros HR [H1 H2]. pose proof (rcont_brow _ _ _ HR) as E. destruct HR as [R1 R2].
    constructor.
    - rewrite <- brow_cols, E. auto.
    - intros jp Hj. destruct (R2 jp ltac:(lia)) as [-> _]. apply H2. apply nth_In. lia.
    - intros jp Hj. destruct (R2 jp ltac:(lia)) as [-> E2]. eexists; split; eauto. apply H2. apply nth_In. lia.
  Qed.
  Lemma brow_lrow_ok A ib : brow_ok A ib -> lrow_ok (bbs A) (bNB A) ib (brow A ib).
  Proof.
    intros [bro_nodup0 bro_cols0 bro_obj0]. split; [rewrite brow_cols; auto|]. intros p Hp. unfold brow in Hp. apply in_map_iff in Hp as (jp & <- & Hj).
    apply in_seq in Hj. cbn [fst snd]. split; [apply bro_cols0; lia|]. destruct (bro_obj0 jp ltac:(lia)) as (x & E & Hl).
    rewrite (sblk_some _ _ _ _ E). exact Hl.
  Qed.

  Lemma row_same_brow cap A A' i : row_same cap A A' i -> bnz A i <= cap i -> cap i <= bMB A -> brow A' i = brow A i.
  Proof.
    intros [] H H'. unfold brow. rewrite rs_nnz0. apply map_ext_in. intros jp Hj. apply in_seq in Hj.
    rewrite rs_col0 by lia. unfold sblk. rewrite rs_obj0 by lia. reflexivity.
  Qed.
  Lemma row_same_ok cap A A' i : kin A A' -> row_same cap A A' i -> bnz A i <= cap i -> cap i <= bMB A -> brow_ok A i -> brow_ok A' i.
  Proof.
    intros HK HS H H' HR. pose proof HK as (_ & _ & EN & _ & EB & _).
    apply (lrow_brow_ok A' i (brow A i)).
    - destruct HS. split; [rewrite brow_length; auto|]. intros jp Hj. rewrite brow_length in Hj.
      rewrite rs_col0, rs_obj0 by lia. apply brow_ok_rcont in HR as [_ HR]. apply HR. rewrite brow_length. auto.
    - rewrite EN, EB. apply brow_lrow_ok; auto.
  Qed.
  Lemma row_same_bel cap A A' i jb k : row_same cap A A' i -> bnz A i <= cap i -> cap i <= bMB A -> bel A' i jb k = bel A i jb k.
  Proof. intros. rewrite !bel_brow. erewrite row_same_brow; eauto. Qed.

  (** appending a block to row [ib] *)
  Lemma rowp_snoc cap A A' ib L c y : slot_set cap A ib (length L) c y A' -> ib < bNB A -> length L <= cap ib -> cap ib <= bMB A ->
    rowp A ib L -> rowp A' ib (L ++ [(c, y)]).
  Proof.
    intros [] Hi Hc Hm HR jp Hj. rewrite app_length in Hj. simpl in Hj.
    destruct (Nat.eq_dec jp (length L)) as [->|Hne].
    - rewrite app_nth2, Nat.sub_diag by lia. cbn [nth fst snd]. auto.
    - rewrite app_nth1 by lia. rewrite ss_cols0, ss_objs0 by lia. apply HR. lia.
  Qed.
  Lemma lrow_ok_snoc bs NB ib L c y : lrow_ok bs NB ib L -> c < NB -> ~ In c (map fst L) -> bsz bs ib * bsz bs c <= length y ->
    lrow_ok bs NB ib (L ++ [(c, y)]).
  Proof.
    intros [H1 H2] Hc Hn Hl. split.
    - rewrite map_app. apply NoDup_app_intro; auto. { simpl. constructor; [simpl; tauto|constructor]. }
      intros x Hx [<-|[]]. auto.
    - intros p Hp. apply in_app_iff in Hp as [Hp|[<-|[]]]; auto.
  Qed.

  (** *** Well-formed matrices *)
  Lemma ebwf_nnz A ib : ebwf A -> ib < bNB A -> bnz A ib <= bMB A.
  Proof. intros (_ & (H & _) & _). apply H. Qed.
  Lemma ebwf_slot A ib jp : ebwf A -> ib < bNB A -> jp < bnz A ib ->
    jp < bMB A /\ scol A ib jp < bNB A /\ bobj A ib jp = Some (sblk A ib jp) /\
    bsz (bbs A) ib * bsz (bbs A) (scol A ib jp) <= length (sblk A ib jp).
  Proof.
    intros HW Hi Hj. pose proof (ebwf_nnz A ib HW Hi). destruct HW as (_ & _ & HR). destruct (HR ib Hi) as [bro_nodup0 bro_cols0 bro_obj0].
    destruct (bro_obj0 jp Hj) as (x & E & Hl). rewrite (sblk_some _ _ _ _ E). repeat split; auto. lia.
  Qed.
  Lemma b_for_row_unfold {S} A ib (body : nat -> nat -> S -> res S) s : ebwf A -> ib < bNB A ->
    b_for_row A ib body s = for_n (bnz A ib) (fun jp s => body (b_at A ib jp) (scol A ib jp) s) s.
  Proof.
    intros HW Hi. unfold b_for_row. destruct HW as (HS & HO & HR) eqn:EW. rewrite b_nnz_ok by auto. cbn [bind].
    unfold for_n. apply forM_ext. intros jp s' Hj. apply in_seq in Hj.
    destruct (ebwf_slot A ib jp) as (Hm & _); auto; [lia|]. rewrite rd_idx_ok by auto. reflexivity.
  Qed.

  (** *** The matrix *)
  Lemma ebmx_at A ib jb ii jj : eb_shape A -> ib < bNB A -> jb < bNB A -> ii < bsz (bbs A) ib -> jj < bsz (bbs A) jb ->
    ebmx A (boff (bbs A) ib + ii) (boff (bbs A) jb + jj) = bel A ib jb (ii * bsz (bbs A) jb + jj).
  Proof.
    intros HS Hi Hj Hii Hjj. pose proof (sh_bs _ HS). unfold ebmx. rewrite !bloc_at by (auto; lia). reflexivity.
  Qed.
  Lemma shape_N A : eb_shape A -> bN A = boff (bbs A) (length (bbs A)).
  Proof. intros []. unfold boff. congruence. Qed.
  (** block of [X] *)
  Definition xb (bs : list nat) (X : mat F) (ib jb k : nat) : F :=
    X (boff bs ib + k / bsz bs jb) (boff bs jb + k mod bsz bs jb).
  Lemma ebmx_xb A ib jb k : eb_shape A -> ib < bNB A -> jb < bNB A -> k < bsz (bbs A) ib * bsz (bbs A) jb ->
    xb (bbs A) (ebmx A) ib jb k = bel A ib jb k.
  Proof.
    intros HS Hi Hj Hk. destruct (pos_split _ _ _ Hk) as (H1 & H2 & H3). unfold xb. rewrite ebmx_at by auto. rewrite <- H3. reflexivity.
  Qed.
  Lemma meq_blocks A (X : mat F) : eb_shape A ->
    (forall ib jb k, ib < bNB A -> jb < bNB A -> k < bsz (bbs A) ib * bsz (bbs A) jb -> bel A ib jb k = xb (bbs A) X ib jb k) ->
    meq (bN A) (ebmx A) X.
  Proof.
    intros HS H i j Hi Hj. rewrite (shape_N A HS) in Hi, Hj. pose proof (sh_bs _ HS) as EB.
    destruct (bloc_spec _ _ Hi) as (ib & ii & _ & H1 & H2 & ->), (bloc_spec _ _ Hj) as (jb & jj & _ & H3 & H4 & ->).
    rewrite ebmx_at by (auto; lia). rewrite H by (try apply pos_lt; auto; lia).
    unfold xb. rewrite pos_div, pos_mod by auto. reflexivity.
  Qed.
End Heap.
