(** Moving pointers of a block matrix: removing a block of a row; the
    threshold in place. *)
From Verif Require Import Base BaseFacts Spec SpecFacts EllpackModel EllpackSpec EllblockModel EllblockSpec EllblockFacts EllblockHeap EllblockRead EllblockBuild EllblockMake EllblockSet.

Section Ptr.
  Context {F : scalar}.
  Add Ring KRptr : (k_ring F).
  Local Notation eb := (eb F).
  Implicit Types A B C : eb.

  (** the pointers and column indices of A' are [adr] and [col] *)
  Record lay A A' (adr : nat -> nat -> option nat) (col : nat -> nat -> nat) : Prop := mkLay {
    la_kin : kin A A'; la_nnz : bnnz A' = bnnz A; la_heap : bheap A' = bheap A;
    la_adr : forall i q, i < bNB A -> q < bMB A -> saddr A' i q = adr i q;
    la_col : forall i q, i < bNB A -> q < bMB A -> scol A' i q = col i q }.
  Lemma lay_refl A : lay A A (saddr A) (scol A).
  Proof. constructor; auto. apply kin_refl. Qed.
  Lemma lay_ext A A' adr col adr' col' : lay A A' adr col -> (forall i q, i < bNB A -> q < bMB A -> adr i q = adr' i q) ->
    (forall i q, i < bNB A -> q < bMB A -> col i q = col' i q) -> lay A A' adr' col'.
  Proof. intros [] H1 H2. constructor; auto; intros; [rewrite <- H1 by auto|rewrite <- H2 by auto]; auto. Qed.

  Definition at2 {T} (f : nat -> nat -> T) (ib jp : nat) (v : T) : nat -> nat -> T := fun i q => if ((i =? ib) && (q =? jp))%bool then v else f i q.

  Lemma lay_wptr {e} A A1 adr col ib jp p : eb_shape A -> lay A A1 adr col -> ib < bNB A -> jp < bMB A ->
    wpq e (b_wptr A1 (b_at A1 ib jp) p) (fun A2 => lay A A2 (at2 adr ib jp p) col).
  Proof.
    intros HS [K En Eh Ha Hc] Hi Hj. pose proof K as (_ & _ & EN & EM & EB & KS). pose proof (KS HS) as HS1. pose proof (spos_lt A1 ib jp ltac:(lia) ltac:(lia)) as Hs. pose proof (sh_ptr _ HS1) as HSp.
    unfold b_wptr. apply wp_bind. change (b_at A1 ib jp) with (spos A1 ib jp). rewrite wr_ok by lia. cbn [wpq]. set (A' := mkEb _ _ _ _ _ _ _ _ _).
    assert (K1 : kin A1 A'). { unfold kin; cbn; intuition. destruct H; constructor; cbn; auto. rewrite length_set_nth; auto. }
    constructor; auto.
    - eapply kin_trans; eauto.
    - intros i q Hi' Hq. unfold at2, saddr. change (spos A' i q) with (spos A1 i q). cbn [bptr A']. destruct (Nat.eqb_spec i ib) as [Ei|Ei], (Nat.eqb_spec q jp) as [Eq|Eq]; cbn [andb].
      { rewrite Ei, Eq. apply nth_set_nth_eq. lia. }
      all: rewrite nth_set_nth_neq; [apply Ha; auto|intros E; apply spos_inj in E; lia].
  Qed.
  Lemma lay_widx {e} A A1 adr col ib jp c : eb_shape A -> lay A A1 adr col -> ib < bNB A -> jp < bMB A ->
    wpq e (b_widx A1 (b_at A1 ib jp) c) (fun A2 => lay A A2 adr (at2 col ib jp c)).
  Proof.
    intros HS [K En Eh Ha Hc] Hi Hj. pose proof K as (_ & _ & EN & EM & EB & KS). pose proof (KS HS) as HS1. pose proof (spos_lt A1 ib jp ltac:(lia) ltac:(lia)) as Hs. pose proof (sh_idx _ HS1) as HSp.
    unfold b_widx. apply wp_bind. change (b_at A1 ib jp) with (spos A1 ib jp). rewrite wr_ok by lia. cbn [wpq]. set (A' := mkEb _ _ _ _ _ _ _ _ _).
    assert (K1 : kin A1 A'). { unfold kin; cbn; intuition. destruct H; constructor; cbn; auto. rewrite length_set_nth; auto. }
    constructor; auto.
    - eapply kin_trans; eauto.
    - intros i q Hi' Hq. unfold at2, scol. change (spos A' i q) with (spos A1 i q). cbn [bidx A']. destruct (Nat.eqb_spec i ib) as [Ei|Ei], (Nat.eqb_spec q jp) as [Eq|Eq]; cbn [andb].
      { rewrite Ei, Eq. apply nth_set_nth_eq. lia. }
      all: rewrite nth_set_nth_neq; [apply Hc; auto|intros E; apply spos_inj in E; lia].
  Qed.
  Lemma lay_obj A A' adr col i q : lay A A' adr col -> i < bNB A -> q < bMB A -> bobj A' i q = match adr i q with Some a => nth a (bheap A) None | None => None end.
  Proof. intros HL Hi Hq. unfold bobj. rewrite (la_adr _ _ _ _ HL) by auto. rewrite (la_heap _ _ _ _ HL). reflexivity. Qed.

  (** freeing the block of one slot *)
  Record freed A (a : nat) A' : Prop := mkFreed {
    fe_kin : kin A A'; fe_nnz : bnnz A' = bnnz A; fe_ptr : bptr A' = bptr A; fe_idx : bidx A' = bidx A;
    fe_heap : bheap A' = set_nth (bheap A) a None }.
  Lemma b_free_ok {e} A ib jp a x : eb_shape A -> ib < bNB A -> jp < bMB A -> saddr A ib jp = Some a -> bobj A ib jp = Some x ->
    wpq e (b_free A (b_at A ib jp)) (freed A a).
  Proof.
    intros HS Hi Hj Ea Ex. unfold b_free. apply wp_bind. rewrite rd_ptr_ok by auto. cbn [wpq]. pose proof (deref_ok A ib jp x Ex) as Hd. rewrite Ea in Hd |- *. rewrite Hd. cbn [bind wpq].
    constructor; auto. unfold kin; cbn; intuition. destruct H; constructor; cbn; auto.
  Qed.

  (** slots [p+1 .. n-1] of row [ib] one to the left, slot [n-1] empty *)
  Definition drop_at {T} (f : nat -> nat -> T) (ib p n : nat) (last : T) : nat -> nat -> T := fun i q =>
    if (i =? ib) then (if (q <? p) then f i q else if (S q <? n) then f i (S q) else if (S q =? n) then last else f i q) else f i q.

  Lemma shift_ok {e} A ib p n : eb_shape A -> ib < bNB A -> p < n -> n <= bMB A ->
    wpq e (A1 <- forM (seq (S p) (n - S p)) (fun jpp A =>
               c <- rd (bidx A) (b_at A ib jpp) ;; A <- b_widx A (b_at A ib jpp - 1) c ;;
               p <- rd (bptr A) (b_at A ib jpp) ;; b_wptr A (b_at A ib jpp - 1) p) A ;;
           A2 <- b_wptr A1 (b_at A1 ib (n - 1)) None ;; b_widx A2 (b_at A2 ib (n - 1)) (bNB A2))
      (fun A' => lay A A' (drop_at (saddr A) ib p n None) (drop_at (scol A) ib p n (bNB A))).
  Proof.
    intros HS Hi Hp Hn. apply wp_bind.
    set (mv := fun {T} (f : nat -> nat -> T) m i q => if (i =? ib) && (p <=? q) && (q <? m) then f i (S q) else f i q).
    assert (Hat : forall A1 q, 0 < q -> b_at A1 ib q - 1 = b_at A1 ib (q - 1)) by (intros; unfold b_at, ROWMAJOR; lia).
    eapply wp_mono. { apply (forM_inv (fun done A1 => lay A A1 (mv _ (saddr A) (p + length done)) (mv _ (scol A) (p + length done)))).
      - eapply lay_ext; [apply lay_refl| |]; intros i q _ _; cbv beta delta [mv]; rewrite Nat.add_0_r; destruct (Nat.leb_spec p q), (Nat.ltb_spec q p); rewrite ?andb_false_r; try rewrite andb_false_r; auto; lia.
      - intros pre x post A1 E HL. assert (Hx : x = S p + length pre /\ x < n).
        { assert (Hlen : length (seq (S p) (n - S p)) = n - S p) by apply seq_length. rewrite E, app_length in Hlen. simpl in Hlen.
          assert (Hnth : nth (length pre) (seq (S p) (n - S p)) 0 = x) by (rewrite E, app_nth2, Nat.sub_diag by lia; auto). rewrite seq_nth in Hnth by lia. lia. }
        destruct Hx as [Ex Hx]. pose proof (la_kin _ _ _ _ HL) as K1. pose proof K1 as (_ & _ & EN1 & EM1 & _ & KS1).
        apply wp_bind. rewrite rd_idx_ok by (auto; lia). cbn [wpq]. rewrite Hat by lia. apply wp_bind. eapply wp_mono; [apply lay_widx; eauto; lia|]. intros A2 HL2.
        pose proof (la_kin _ _ _ _ HL2) as K2. pose proof K2 as (_ & _ & EN2 & EM2 & _ & KS2).
        apply wp_bind. rewrite rd_ptr_ok by (auto; lia). cbn [wpq]. rewrite Hat by lia.
        eapply wp_mono; [apply (lay_wptr A A2 _ _ ib (x - 1) _ HS HL2); lia|]. cbn beta. intros A3 HL3. rewrite app_length. simpl length.
        rewrite (la_adr _ _ _ _ HL2) in HL3 by lia. rewrite (la_col _ _ _ _ HL) in HL3 by lia.
        assert (Estep : forall T (f : nat -> nat -> T) i q, at2 (mv T f (p + length pre)) ib (x - 1) (mv T f (p + length pre) ib x) i q = mv T f (p + (length pre + 1)) i q).
        { intros T f i q. unfold at2, mv. destruct (Nat.eqb_spec i ib) as [->|Hne]; cbn [andb].
          - rewrite Nat.eqb_refl. cbn [andb]. destruct (Nat.eqb_spec q (x - 1)) as [->|Hq].
            + destruct (Nat.leb_spec p x), (Nat.ltb_spec x (p + length pre)), (Nat.leb_spec p (x - 1)), (Nat.ltb_spec (x - 1) (p + (length pre + 1))); try lia; cbn [andb]. replace (S (x - 1)) with x by lia. auto.
            + destruct (Nat.leb_spec p q), (Nat.ltb_spec q (p + length pre)), (Nat.ltb_spec q (p + (length pre + 1))); try lia; cbn [andb]; auto.
          - auto. }
        eapply lay_ext; [exact HL3| |]; intros; apply Estep. }
    intros A1 HL. rewrite seq_length in HL. pose proof (la_kin _ _ _ _ HL) as K1. pose proof K1 as (_ & _ & EN1 & EM1 & _ & KS1).
    apply wp_bind. eapply wp_mono; [apply lay_wptr; eauto; lia|]. intros A2 HL2. pose proof (la_kin _ _ _ _ HL2) as K2. pose proof K2 as (_ & _ & EN2 & EM2 & _ & KS2).
    eapply wp_mono; [apply (lay_widx A A2 _ _ ib (n - 1) _ HS HL2); lia|]. cbn beta. intros A3 HL3. rewrite EN2 in HL3.
    assert (Eend : forall T (f : nat -> nat -> T) l i q, at2 (mv T f (p + (n - S p))) ib (n - 1) l i q = drop_at f ib p n l i q).
    { intros T f l i q. unfold at2, mv, drop_at. destruct (Nat.eqb_spec i ib) as [->|Hne]; cbn [andb]; auto.
      destruct (Nat.eqb_spec q (n - 1)), (Nat.leb_spec p q), (Nat.ltb_spec q (p + (n - S p))), (Nat.ltb_spec q p), (Nat.ltb_spec (S q) n), (Nat.eqb_spec (S q) n); cbn [andb]; auto; lia. }
    eapply lay_ext; [exact HL3| |]; intros; apply Eend.
  Qed.

  (** the block [p] of a row removed *)
  Definition drop_nth {T} (p : nat) (l : list T) : list T := firstn p l ++ skipn (S p) l.
  Record removed A ib p A' : Prop := mkRem {
    rm_kin : kin A A'; rm_wf : ebwf A'; rm_row : brow A' ib = drop_nth p (brow A ib);
    rm_other : forall i, i < bNB A -> i <> ib -> brow A' i = brow A i;
    rm_clean : clean A -> clean A'; rm_roomy : forall n, roomy n A -> roomy n A' }.

  Lemma nth_skip {T} p : forall (l : list T) q d, nth q (skipn p l) d = nth (p + q) l d.
  Proof. induction p as [|p IH]; intros l q d; auto. destruct l as [|x l]; simpl; [destruct q; auto|apply IH]. Qed.
  Lemma nth_drop_nth {T} p (l : list T) q d : p < length l -> nth q (drop_nth p l) d = if q <? p then nth q l d else nth (S q) l d.
  Proof.
    intros Hp. unfold drop_nth. assert (Hl : length (firstn p l) = p) by (rewrite firstn_length; lia). destruct (Nat.ltb_spec q p).
    - rewrite app_nth1 by lia. apply nth_firstn_lt; auto.
    - rewrite app_nth2 by lia. rewrite Hl, nth_skip. f_equal. lia.
  Qed.
  Lemma length_drop_nth {T} p (l : list T) : p < length l -> length (drop_nth p l) = length l - 1.
  Proof. intros Hp. unfold drop_nth. rewrite app_length, firstn_length, skipn_length. lia. Qed.
  Lemma in_drop_nth {T} p (l : list T) x : In x (drop_nth p l) -> In x l.
  Proof. unfold drop_nth. intros H. apply in_app_or in H as [H|H]; [rewrite <- (firstn_skipn p l); apply in_or_app; auto|rewrite <- (firstn_skipn (S p) l); apply in_or_app; auto]. Qed.

  Lemma b_free_block_ok {e} A ib p : ebwf A -> ib < bNB A -> p < bnz A ib -> wpq e (b_free_block A ib (scol A ib p)) (removed A ib p).
  Proof.
    intros HW Hi Hp. pose proof HW as (HS & HO & HR). pose proof (ebwf_nnz A ib HW Hi) as Hn. unfold b_free_block. apply wp_bind. rewrite b_nnz_ok by auto. cbn [wpq]. set (n := bnz A ib) in *.
    destruct (ebwf_slot A ib p) as (Hpm & Hpc & Hx & Hl); auto. destruct (bobj_addr _ _ _ _ Hx) as (a & Ea & Eh).
    assert (Hal : a < length (bheap A)) by (apply nth_error_Some; congruence).
    set (adr := drop_at (saddr A) ib p n None). set (col := drop_at (scol A) ib p n (bNB A)).
    apply wp_bind. eapply wp_mono. { apply (for_n_inv (fun m (s : eb * bool) => if snd s then p < m /\ exists A1, freed A a A1 /\ lay A1 (fst s) adr col else fst s = A /\ m <= p)).
      - cbn [fst snd]. split; auto. lia.
      - intros q [A1 f] Hq H. cbn [fst snd] in *. destruct f; [cbn [wpq fst snd]; destruct H; split; auto|]. destruct H as [-> H]. apply wp_bind. rewrite rd_idx_ok by (auto; lia). cbn [wpq].
        destruct (Nat.eqb_spec (scol A ib q) (scol A ib p)) as [E|E].
        + assert (q = p) as -> by (apply (scol_inj A ib); auto). apply wp_bind. eapply wp_mono; [eapply b_free_ok; eauto|]. intros A1 HF.
          pose proof (fe_kin _ _ _ HF) as K1. pose proof K1 as (_ & _ & EN1 & EM1 & _ & KS1).
          match goal with |- wpq _ ?t _ => set (t0 := t) end.
          assert (Et : t0 = (A' <- (A1' <- forM (seq (S p) (n - S p)) (fun jpp A =>
               c <- rd (bidx A) (b_at A ib jpp) ;; A <- b_widx A (b_at A ib jpp - 1) c ;;
               p <- rd (bptr A) (b_at A ib jpp) ;; b_wptr A (b_at A ib jpp - 1) p) A1 ;;
               A2 <- b_wptr A1' (b_at A1' ib (n - 1)) None ;; b_widx A2 (b_at A2 ib (n - 1)) (bNB A2)) ;; Ok (A', true))).
          { unfold t0. destruct (forM _ _ A1); cbn [bind]; auto. destruct (b_wptr _ _ _); cbn [bind]; auto. }
          rewrite Et. apply wp_bind. eapply wp_mono; [apply shift_ok; auto; lia|]. intros A2 HL. cbn [wpq fst snd]. split; [lia|]. exists A1. split; auto.
          assert (E1 : forall i q, saddr A1 i q = saddr A i q). { intros. unfold saddr. rewrite (kin_spos A A1), (fe_ptr _ _ _ HF); auto. }
          assert (E2 : forall i q, scol A1 i q = scol A i q). { intros. unfold scol. rewrite (kin_spos A A1), (fe_idx _ _ _ HF); auto. }
          eapply lay_ext; [exact HL| |]; intros; unfold adr, col, drop_at; rewrite ?E1, ?E2, ?EN1; auto.
        + cbn [wpq fst snd]. split; auto. assert (q <> p) by congruence. lia. }
    intros [A2 f] H. cbn [fst snd] in H. destruct f; [|lia]. destruct H as (_ & A1 & HF & HL).
    pose proof (fe_kin _ _ _ HF) as K1. pose proof K1 as (_ & _ & EN1 & EM1 & EB1 & KS1). pose proof (la_kin _ _ _ _ HL) as K2. pose proof K2 as (_ & _ & EN2 & EM2 & EB2 & KS2).
    eapply wp_mono; [apply b_wnnz_ok; [auto|lia]|]. intros A3 HN. pose proof (ns_kin _ _ _ _ HN) as K3. pose proof K3 as (_ & _ & EN3 & EM3 & EB3 & KS3).
    assert (K : kin A A3) by (eapply kin_trans; [exact K1|]; eapply kin_trans; eauto).
    assert (EN : bNB A3 = bNB A) by congruence. assert (EM : bMB A3 = bMB A) by congruence. assert (EB : bbs A3 = bbs A) by congruence.
    assert (Hadr : forall i q, i < bNB A -> q < bMB A -> saddr A3 i q = adr i q). { intros. rewrite (nnz_set_addr _ _ _ _ _ _ HN). apply HL; lia. }
    assert (Hcol : forall i q, i < bNB A -> q < bMB A -> scol A3 i q = col i q). { intros. rewrite (nnz_set_col _ _ _ _ _ _ HN). apply HL; lia. }
    assert (Hheap : bheap A3 = set_nth (bheap A) a None) by (rewrite (ns_heap _ _ _ _ HN), (la_heap _ _ _ _ HL), (fe_heap _ _ _ HF); auto).
    assert (Hnz : forall i, i <> ib -> bnz A3 i = bnz A i). { intros i Hne. rewrite (ns_other _ _ _ _ HN) by auto. unfold bnz. rewrite (la_nnz _ _ _ _ HL), (fe_nnz _ _ _ HF). auto. }
    assert (Hnz0 : bnz A3 ib = n - 1) by apply HN.
    (* the old slot of a new slot *)
    assert (Hsrc : forall i q, i < bNB A -> q < bMB A -> (i = ib /\ S q = n /\ adr i q = None) \/
       (exists q', q' < bMB A /\ adr i q = saddr A i q' /\ (i <> ib -> q' = q) /\ (i = ib -> q' <> p /\ (q' < p /\ q' = q \/ p < q' < n /\ q = q' - 1 \/ n <= q' /\ q' = q)))).
    { intros i q Hi' Hq. unfold adr, drop_at. destruct (Nat.eqb_spec i ib) as [->|Hne].
      - destruct (Nat.ltb_spec q p); [right; exists q; repeat split; auto; lia|]. destruct (Nat.ltb_spec (S q) n); [right; exists (S q); repeat split; auto; lia|].
        destruct (Nat.eqb_spec (S q) n); [left; auto|]. right; exists q; repeat split; auto; lia.
      - right. exists q. repeat split; auto; tauto. }
    assert (Hown : forall cap, (forall i, i < bNB A -> bnz A i <= cap i) -> own cap A -> own cap A3).
    { intros cap Hcap (O1 & O2 & O3). pose proof (Hcap ib Hi) as Hci. fold n in Hci. split; [|split]; rewrite ?EN, ?EM; [exact O1| |].
      - intros i q b Hi' Hq Eb. pose proof (O1 i Hi'). rewrite Hadr in Eb by lia. destruct (Hsrc i q Hi' ltac:(lia)) as [(_ & _ & E)|(q' & Hq' & E & D1 & D2)]; [congruence|].
        rewrite E in Eb. assert (q' < cap i). { destruct (Nat.eq_dec i ib) as [->|Hne]; [destruct (D2 eq_refl); lia|rewrite D1 by auto; auto]. }
        destruct (O2 i q' b) as (y & Hy); auto. exists y. rewrite Hheap. rewrite nth_set_nth_neq; auto. intros <-.
        destruct (O3 i q' ib p b) as [E1 E2]; [auto|lia|auto|lia|auto|auto|]. destruct (D2 E1). lia.
      - intros i q i' q' b Hi' Hq Hi'' Hq' Eb Eb'. pose proof (O1 i Hi'). pose proof (O1 i' Hi''). rewrite Hadr in Eb, Eb' by lia.
        destruct (Hsrc i q Hi' ltac:(lia)) as [(_ & _ & E)|(r & Hr & E & D1 & D2)]; [congruence|]. destruct (Hsrc i' q' Hi'' ltac:(lia)) as [(_ & _ & E')|(r' & Hr' & E' & D1' & D2')]; [congruence|].
        rewrite E in Eb. rewrite E' in Eb'.
        assert (r < cap i). { destruct (Nat.eq_dec i ib) as [->|Hne]; [destruct (D2 eq_refl); lia|rewrite D1 by auto; auto]. }
        assert (r' < cap i'). { destruct (Nat.eq_dec i' ib) as [->|Hne]; [destruct (D2' eq_refl); lia|rewrite D1' by auto; auto]. }
        destruct (O3 i r i' r' b) as [<- <-]; auto. split; [reflexivity|]. destruct (Nat.eq_dec i ib) as [->|Hne].
        + destruct (D2 eq_refl), (D2' eq_refl). lia.
        + rewrite <- D1, <- D1' by auto. auto. }
    assert (Hobj : forall i q q', i < bNB A -> q < bMB A -> q' < bnz A i -> (i <> ib \/ q' <> p) -> adr i q = saddr A i q' -> bobj A3 i q = bobj A i q').
    { intros i q q' Hi' Hq Hq' Hne E. unfold bobj. rewrite Hadr, E by auto. destruct (saddr A i q') as [b|] eqn:Eb; auto. rewrite Hheap, nth_set_nth_neq; auto. intros ->.
      destruct HO as (_ & _ & O3). destruct (O3 i q' ib p a) as [E1 E2]; auto; lia. }
    assert (Hrow : rcont A3 ib (drop_nth p (brow A ib))).
    { split; [rewrite length_drop_nth, brow_length by (rewrite brow_length; auto); auto|]. unfold rowp. rewrite length_drop_nth, brow_length by (rewrite brow_length; auto). fold n. intros q Hq.
      rewrite nth_drop_nth by (rewrite brow_length; auto). rewrite Hcol by lia.
      assert (Hq' : exists q', q' < n /\ q' <> p /\ (if q <? p then nth q (brow A ib) (0, []) else nth (S q) (brow A ib) (0, [])) = (scol A ib q', sblk A ib q') /\ col ib q = scol A ib q' /\ adr ib q = saddr A ib q').
      { unfold col, adr, drop_at. rewrite Nat.eqb_refl. destruct (Nat.ltb_spec q p).
        - exists q. rewrite brow_nth by (fold n; lia). repeat split; auto; lia.
        - destruct (Nat.ltb_spec (S q) n); [|lia]. exists (S q). rewrite brow_nth by (fold n; lia). repeat split; auto; lia. }
      destruct Hq' as (q' & Hq' & Hne & -> & -> & E). cbn [fst snd]. split; auto. rewrite (Hobj ib q q') by (auto; lia). destruct (ebwf_slot A ib q') as (_ & _ & Hx' & _); auto. }
    assert (Hoth : forall i, i < bNB A -> i <> ib -> rcont A3 i (brow A i)).
    { intros i Hi' Hne. split; [rewrite brow_length; auto|]. unfold rowp. rewrite brow_length. intros q Hq. rewrite brow_nth by auto. pose proof (ebwf_nnz A i HW Hi').
      assert (E0 : Nat.eqb i ib = false) by (apply Nat.eqb_neq; auto).
      rewrite Hcol by lia. rewrite (Hobj i q q) by (auto; try lia; unfold adr, drop_at; rewrite E0; auto). unfold col, drop_at. rewrite E0. cbn [fst snd]. split; auto. apply (ebwf_slot A i q); auto. }
    assert (W3 : ebwf A3).
    { split; [apply K; auto|]. split.
      - eapply own_mono; [apply (Hown (bnz A)); auto|]. intros i Hi'. destruct (Nat.eq_dec i ib) as [->|Hne]; [rewrite Hnz0; fold n; lia|rewrite Hnz; auto].
      - intros i Hi'. rewrite EN in Hi'. destruct (Nat.eq_dec i ib) as [->|Hne].
        + apply (lrow_brow_ok _ _ _ Hrow). rewrite EB, EN. pose proof (brow_lrow_ok A ib (HR ib Hi)) as [L1 L2]. split.
          * unfold drop_nth. rewrite map_app. rewrite <- firstn_map, <- skipn_map. rewrite (nth_split_eq (map fst (brow A ib)) p 0) in L1 by (rewrite map_length, brow_length; auto). apply NoDup_remove_1 in L1. exact L1.
          * intros x Hx'. apply L2. eapply in_drop_nth; eauto.
        + apply (lrow_brow_ok _ _ _ (Hoth i Hi' Hne)). rewrite EB, EN. apply brow_lrow_ok. auto. }
    constructor; auto.
    - apply rcont_brow; auto.
    - intros i Hi' Hne. apply rcont_brow; auto.
    - intros HC i q Hi' Hq. rewrite EN, EM in *. rewrite Hadr by lia. unfold adr, drop_at. destruct (Nat.eqb_spec i ib) as [->|Hne].
      + rewrite Hnz0 in Hq. destruct (Nat.ltb_spec q p); [lia|]. destruct (Nat.ltb_spec (S q) n); [lia|]. destruct (Nat.eqb_spec (S q) n); auto. apply HC; auto. fold n. lia.
      + rewrite Hnz in Hq by auto. apply HC; auto.
    - intros m (R1 & R2 & R3). unfold roomy, tidy. rewrite EN, EM, EB. split; [|split]; auto.
      + apply (Hown (fun _ => bMB A)); auto. intros i Hi'. apply ebwf_nnz; auto.
      + intros i q x Hi' Hq Hx'. destruct (Hsrc i q Hi' Hq) as [(_ & _ & E)|(q' & Hq' & E & _)]; unfold bobj in Hx'; rewrite Hadr, E in Hx' by auto; [discriminate|].
        apply (R3 i q' x); auto. unfold bobj. destruct (saddr A i q') as [b|]; [|discriminate]. rewrite Hheap in Hx'. destruct (Nat.eq_dec b a) as [->|Hb]; [rewrite nth_set_nth_eq in Hx' by auto; discriminate|].
        rewrite nth_set_nth_neq in Hx' by auto. auto.
  Qed.

  Lemma removed_cols A ib p A' : removed A ib p A' -> bcols A' ib = drop_nth p (bcols A ib).
  Proof. intros H. rewrite <- !brow_cols, (rm_row _ _ _ _ H). unfold drop_nth. rewrite map_app, <- firstn_map, <- skipn_map. reflexivity. Qed.
  Lemma elook_drop p (l : list (nat * F)) j : p < length l -> NoDup (cols l) ->
    elook (drop_nth p l) j = if j =? fst (nth p l (0, k0)) then k0 else elook l j.
  Proof.
    revert l. induction p as [|p IH]; intros [|[c v] l] Hp HN; simpl in Hp; try lia.
    - unfold drop_nth. cbn [firstn skipn app nth fst elook]. rewrite (Nat.eqb_sym c j). destruct (Nat.eqb_spec j c) as [->|]; auto. apply elook_notin. inversion HN; auto.
    - change (drop_nth (S p) ((c, v) :: l)) with ((c, v) :: drop_nth p l). cbn [elook nth]. inversion HN as [|? ? Hc HN']; subst. rewrite IH by (auto; lia).
      destruct (Nat.eqb_spec c j) as [->|]; auto. destruct (Nat.eqb_spec j (fst (nth p l (0, k0)))) as [E|]; auto. exfalso. apply Hc. cbn [fst] in *. rewrite E. unfold cols. apply in_map. apply nth_In. lia.
  Qed.
  Lemma removed_bel A ib p A' jb k : ebwf A -> ib < bNB A -> p < bnz A ib -> removed A ib p A' -> bel A' ib jb k = if jb =? scol A ib p then k0 else bel A ib jb k.
  Proof.
    intros (_ & _ & HR) Hi Hp HD. rewrite !bel_brow, (rm_row _ _ _ _ HD).
    assert (E : cells k (drop_nth p (brow A ib)) = drop_nth p (cells k (brow A ib))). { unfold cells, drop_nth. rewrite map_app, firstn_map, skipn_map. reflexivity. }
    rewrite E, elook_drop.
    - replace (nth p (cells k (brow A ib)) (0, k0)) with (scol A ib p, nth k (sblk A ib p) k0); auto. unfold cells.
      set (h := fun q : nat * list F => (fst q, nth k (snd q) k0)). rewrite (nth_indep _ (0, k0) (h (0, []))) by (rewrite map_length, brow_length; auto). rewrite (map_nth h), brow_nth by auto. reflexivity.
    - unfold cells. rewrite map_length, brow_length. auto.
    - rewrite cells_cols, brow_cols. apply HR; auto.
  Qed.

  Lemma threshold_row_ok {e} (keep : F -> bool) ib fuel : forall A jp, ebwf A -> ib < bNB A -> jp <= bnz A ib -> bnz A ib <= jp + fuel ->
    wpq e (threshold_row keep ib fuel jp A) (fun A' => ebwf A' /\ kin A A' /\ (forall i, i < bNB A -> i <> ib -> brow A' i = brow A i) /\ (clean A -> clean A') /\ (forall n, roomy n A -> roomy n A') /\
      forall jb k, jb < bNB A -> k < bsz (bbs A) ib * bsz (bbs A) jb ->
        bel A' ib jb k = if existsb (Nat.eqb jb) (firstn jp (bcols A ib)) then bel A ib jb k else cut keep (bel A ib jb k)).
  Proof.
    induction fuel as [|fuel IH]; intros A jp HW Hi Hj Hf; pose proof HW as (HS & HO & HR); cbn [threshold_row]; apply wp_bind; rewrite b_nnz_ok by auto; cbn [wpq];
      assert (Lc : length (bcols A ib) = bnz A ib) by (unfold bcols; rewrite map_length, seq_length; auto).
    1: destruct (Nat.ltb_spec jp (bnz A ib)); [lia|].
    2: destruct (Nat.ltb_spec jp (bnz A ib)) as [Hlt|Hge].
    1,3: cbn [wpq]; split; auto; split; [apply kin_refl|]; split; auto; split; auto; split; auto; intros jb k Hjb Hk; rewrite firstn_all2 by lia;
      destruct (existsb (Nat.eqb jb) (bcols A ib)) eqn:E; auto; rewrite bel_miss; [unfold cut; destruct (keep k0); auto|];
      intros q Hq Eq; apply Bool.not_true_iff_false in E; apply E; apply existsb_exists; exists jb; split; [|apply Nat.eqb_refl]; unfold bcols; apply in_map_iff; exists q; split; auto; apply in_seq; lia.
    destruct (ebwf_slot A ib jp) as (Hjm & Hjc & Hx & Hl); auto. pose proof (bro_nodup _ _ (HR ib Hi)) as HND.
    assert (Nc : nth jp (bcols A ib) 0 = scol A ib jp). { unfold bcols. rewrite nth_map_seq by auto. reflexivity. }
    assert (Hfirst : ~ In (scol A ib jp) (firstn jp (bcols A ib))).
    { intros Hin. rewrite (nth_split_eq (bcols A ib) jp 0) in HND by lia. apply NoDup_remove_2 in HND. apply HND. apply in_or_app. left. rewrite Nc. auto. }
    assert (Efirst : existsb (Nat.eqb (scol A ib jp)) (firstn jp (bcols A ib)) = false).
    { apply Bool.not_true_iff_false. intros H. apply existsb_exists in H as (y & Hy & E). apply Nat.eqb_eq in E. subst. tauto. }
    apply wp_bind. rewrite rd_idx_ok by auto. cbn [wpq]. apply wp_bind. rewrite (b_blk_ok A ib jp (sblk A ib jp)) by auto. cbn [wpq].
    apply wp_bind. rewrite b_bs_ok by auto. cbn [wpq]. apply wp_bind. rewrite b_bs_ok by auto. cbn [wpq]. apply wp_bind. rewrite blk_above_ok by auto. cbn [wpq].
    match goal with |- wpq _ (if ?b then _ else _) _ => destruct b eqn:Eab end.
    - apply wp_bind. eapply wp_mono; [apply (blk_map_ok _ _ (fun k => cut keep (nth k (sblk A ib jp) k0))); [exact Hl|intros; reflexivity]|]. intros y (Ly & Vy & _).
      apply wp_bind. eapply wp_mono; [apply change_ok; auto; lia|]. intros A1 HC. pose proof (ch_kin _ _ _ _ _ HC) as K1. pose proof K1 as (_ & _ & EN1 & EM1 & EB1 & KS1).
      pose proof (changed_cols A ib jp y A1 ib HW HC Hi Hlt) as Ec.
      eapply wp_mono; [apply IH; [apply HC|lia|rewrite bnz_cols, Ec; lia|rewrite bnz_cols, Ec; lia]|].
      intros A2 (W2 & K2 & O2 & C2 & R2 & V2). split; auto. split; [eapply kin_trans; eauto|]. split; [intros; rewrite O2 by (auto; lia); apply HC; auto|].
      split; [intros; apply C2, HC; auto|]. split; [intros; apply R2, HC; auto|]. intros jb k Hjb Hk. rewrite V2 by (rewrite ?EN1, ?EB1; auto).
      rewrite !(changed_bel A ib jp y A1 ib jb k) by auto. rewrite Nat.eqb_refl. cbn [andb]. rewrite Ec, (firstn_S_nth _ _ 0), Nc by lia. rewrite existsb_app. cbn [existsb]. rewrite orb_false_r.
      destruct (Nat.eqb_spec jb (scol A ib jp)) as [->|Hne].
      + rewrite orb_true_r, Efirst, Vy by auto. rewrite (bel_hit A ib (scol A ib jp) jp k); auto.
      + rewrite orb_false_r. auto.
    - apply wp_bind. eapply wp_mono; [apply b_free_block_ok; auto|]. intros A1 HD. pose proof (rm_kin _ _ _ _ HD) as K1. pose proof K1 as (_ & _ & EN1 & EM1 & EB1 & KS1).
      pose proof (removed_cols _ _ _ _ HD) as Ec.
      eapply wp_mono; [apply IH; [apply HD|lia|rewrite bnz_cols, Ec, length_drop_nth by lia; lia|rewrite bnz_cols, Ec, length_drop_nth by lia; lia]|].
      intros A2 (W2 & K2 & O2 & C2 & R2 & V2). split; auto. split; [eapply kin_trans; eauto|]. split; [intros; rewrite O2 by (auto; lia); apply HD; auto|].
      split; [intros; apply C2, HD; auto|]. split; [intros; apply R2, HD; auto|]. intros jb k Hjb Hk. rewrite V2 by (rewrite ?EN1, ?EB1; auto).
      rewrite !(removed_bel A ib jp A1 jb k) by auto. rewrite Ec. unfold drop_nth. rewrite firstn_app, firstn_firstn, Nat.min_id, firstn_length, Nat.min_l, Nat.sub_diag, firstn_O, app_nil_r by lia.
      destruct (Nat.eqb_spec jb (scol A ib jp)) as [->|Hne]; auto. rewrite Efirst. rewrite (bel_hit A ib (scol A ib jp) jp k) by auto.
      replace (cut keep (k0 : F)) with (k0 : F) by (unfold cut; destruct (keep k0); auto). unfold cut.
      replace (keep (nth k (sblk A ib jp) k0)) with false; auto. symmetry. apply Bool.not_true_iff_false. intros Ht. apply Bool.not_true_iff_false in Eab. apply Eab.
      apply existsb_exists. exists k. split; auto. apply in_seq. lia.
  Qed.

  (** thresholding in place drops the elements that fail the test, and the
      blocks none of whose elements pass *)
  Theorem eb_threshold_ok (keep : F -> bool) A : ebwf A ->
    exists A', eb_threshold keep A = Ok A' /\ ebwf A' /\ (clean A -> clean A') /\ (forall n, roomy n A -> roomy n A') /\ same_dims A A' /\
      meq (bN A) (ebmx A') (mcut keep (ebmx A)).
  Proof.
    intros HW. pose proof HW as (HS & HO & HR). apply wp_ok. unfold eb_threshold.
    eapply wp_mono. { apply (map_rows0 A (fun _ _ => True) (fun ib jb k => cut keep (bel A ib jb k))); auto. intros ib B Hi W K E. pose proof K as (_ & _ & EN & EM & EB & _).
      apply wp_bind. rewrite b_nnz_ok by (try apply W; lia). cbn [wpq]. eapply wp_mono; [apply threshold_row_ok; auto; lia|].
      intros B' (W' & K' & O' & C' & R' & V'). split; auto. split; auto. split; auto. split; auto. split; auto. split; auto. intros jb k Hj Hk. rewrite V' by auto. cbn [firstn existsb]. rewrite !bel_brow, E. reflexivity. }
    intros A' (W & K & C & T & _ & V). split; auto. split; auto. split; auto. split; [apply kin_dims; auto|].
    pose proof K as (EN & _ & ENB & EMB & EB & _). rewrite <- EN. apply meq_blocks; [apply W|]. rewrite ENB, EB. intros ib jb k Hi Hj Hk. rewrite V by auto.
    rewrite <- (ebmx_xb A) by auto. reflexivity.
  Qed.
End Ptr.
