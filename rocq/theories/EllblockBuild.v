(** Constructors and setters of the block format. *)
From Verif Require Import Base BaseFacts Spec SpecFacts EllpackModel EllpackSpec EllblockModel EllblockSpec EllblockFacts EllblockHeap EllblockRead.

Section Build.
  Context {F : scalar}.
  Local Notation eb := (eb F).
  Implicit Types A B : eb.

  (** ** New matrices *)
  Lemma sum_sizes NB bs : NB <= length bs -> for_n NB (fun ib N => b <- rd bs ib ;; Ok (N + b)) 0 = Ok (boff bs NB).
  Proof.
    intros H. rewrite (count_loop NB _ (bsz bs)); [reflexivity|]. intros k s Hk. rewrite (rd_ok bs k 0) by lia. reflexivity.
  Qed.

  Record fresh (NB MB M : nat) (bs : list nat) A : Prop := mkFresh {
    fr_wf : ebwf A; fr_clean : clean A;
    fr_N : bN A = boff bs NB; fr_M : bM A = M; fr_NB : bNB A = NB; fr_MB : bMB A = MB; fr_bs : bbs A = bs;
    fr_row : forall ib, brow A ib = [];
    fr_idx : forall ib jp, ib < NB -> jp < MB -> scol A ib jp = NB }.

  Lemma block_matrix_ok c NB MB M bs : 0 < NB -> 0 < MB -> length bs = NB -> M <= boff bs NB -> good_cache c ->
    exists A, block_matrix c NB MB M bs = Ok (cache_after c NB MB bs, A) /\ fresh NB MB M bs A.
  Proof.
    intros H1 H2 H3 H4 HC. unfold block_matrix.
    destruct (Nat.eqb_spec NB 0); [lia|]. destruct (Nat.eqb_spec MB 0); [lia|]. cbn [orb].
    rewrite sum_sizes by lia. cbn [bind]. destruct (Nat.ltb_spec (boff bs NB) M); [lia|].
    set (A := mkEb (F:=F) _ _ _ _ _ _ _ _ _).
    assert (EB : firstn NB bs = bs) by (apply firstn_all2; lia).
    assert (Hn : forall ib, bnz A ib = 0) by (intros; unfold bnz; cbn [bnnz A]; apply nth_repeat_any).
    assert (HR : forall ib, brow A ib = []) by (intros; unfold brow; rewrite Hn; reflexivity).
    assert (Ha : forall ib jp, saddr A ib jp = None) by (intros; unfold saddr; cbn [bptr A]; apply nth_repeat_any).
    assert (HF : fresh NB MB M bs A).
    { constructor; auto.
      - split; [|split].
        + constructor; cbn; auto; rewrite ?EB, ?repeat_length; auto.
        + split; [|split].
          * intros ib _. rewrite Hn. lia.
          * intros ib jp a _ _. rewrite Ha. discriminate.
          * intros ib jp ib' jp' a _ _ _ _. rewrite Ha. discriminate.
        + intros ib Hi. apply (lrow_brow_ok A ib []).
          * split; [rewrite Hn; reflexivity|]. intros jp Hj. simpl in Hj. lia.
          * split; [constructor|]. intros p [].
      - intros ib jp _ _. apply Ha.
      - intros ib jp Hi Hj. unfold scol. cbn [bidx A]. pose proof (pos_lt NB MB ib jp Hi Hj). unfold spos. cbn [bMB A].
        rewrite nth_indep with (d' := NB) by (rewrite repeat_length; auto). apply nth_repeat_any. }
    destruct c as [d|]; cbn [good_cache cache_after] in *.
    - destruct (Nat.eqb_spec (s_mb d) 0); [lia|]. exists A. auto.
    - rewrite EB. exists A. auto.
  Qed.

  Lemma fresh_zero NB MB M bs A ib jb k : fresh NB MB M bs A -> bel A ib jb k = k0.
  Proof. intros H. rewrite bel_brow, (fr_row _ _ _ _ _ H). reflexivity. Qed.

  (** ** A new block at the end of a row *)
  Record pushed A (ib c : nat) (y : list F) A' : Prop := mkPushed {
    pu_wf : ebwf A'; pu_kin : kin A A';
    pu_row : brow A' ib = brow A ib ++ [(c, y)];
    pu_other : forall i, i < bNB A -> i <> ib -> brow A' i = brow A i;
    pu_clean : clean A -> clean A';
    pu_roomy : forall n, roomy n A -> roomy n A' }.

  Lemma push_ok A ib c y A1 A2 : ebwf A -> ib < bNB A -> bnz A ib < bMB A -> c < bNB A -> ~ In c (bcols A ib) ->
    bsz (bbs A) ib * bsz (bbs A) c <= length y ->
    slot_set (capx (bnz A) ib (bnz A ib)) A ib (bnz A ib) c y A1 -> nnz_set A1 ib (S (bnz A ib)) A2 ->
    (forall n, roomy n A -> roomy n A2) -> pushed A ib c y A2.
  Proof.
    intros HW Hi Hm Hc Hn Hl H1 H2 Hry. pose proof HW as (HS & HO & HR). set (n := bnz A ib) in *. set (cap := capx (bnz A) ib n) in *.
    pose proof (ss_kin _ _ _ _ _ _ _ H1) as K1. pose proof (ns_kin _ _ _ _ H2) as K2. pose proof (kin_trans _ _ _ K1 K2) as K.
    pose proof K as (_ & _ & EN & EM & EB & _). pose proof K1 as (_ & _ & EN1 & EM1 & EB1 & _).
    assert (Hcap : forall i, i <> ib -> cap i = bnz A i). { intros i Hne. unfold cap, capx. destruct (Nat.eqb_spec i ib); congruence. }
    assert (Hcapi : cap ib = S n). { unfold cap, capx. rewrite Nat.eqb_refl. unfold n. lia. }
    assert (Hnz : bnz A1 = bnz A). { unfold bnz. rewrite (ss_nnz _ _ _ _ _ _ _ H1). reflexivity. }
    assert (Hsame : forall i, i < bNB A -> i <> ib -> row_same cap A A2 i).
    { intros i Hi' Hne. apply row_same_trans with (B := A1); auto.
      - eapply slot_set_same; eauto.
      - eapply nnz_set_same; eauto. }
    assert (Hrc : rcont A2 ib (brow A ib ++ [(c, y)])).
    { split; [rewrite app_length, brow_length; simpl; rewrite (ns_at _ _ _ _ H2); unfold n; lia|].
      assert (HP : rowp A1 ib (brow A ib ++ [(c, y)])).
      { apply (rowp_snoc cap A); auto; rewrite ?brow_length; auto; fold n; try lia.
        apply brow_ok_rcont; auto. }
      intros jp Hj. rewrite (nnz_set_col A1 ib _ A2), (nnz_set_obj A1 ib _ A2) by eauto. apply HP; auto. }
    assert (HO2 : own cap A2). { eapply nnz_set_own; eauto. apply (ss_own _ _ _ _ _ _ _ H1). }
    constructor; auto.
    - split; [|split].
      + eapply kin_shape; eauto.
      + apply own_cap_eq with (cap := cap); auto. intros i Hi'. destruct (Nat.eq_dec i ib) as [->|Hne].
        * rewrite (ns_at _ _ _ _ H2), Hcapi. reflexivity.
        * rewrite (ns_other _ _ _ _ H2) by auto. rewrite Hcap by auto. rewrite Hnz. reflexivity.
      + rewrite EN. intros i Hi'. destruct (Nat.eq_dec i ib) as [->|Hne].
        * apply (lrow_brow_ok A2 ib (brow A ib ++ [(c, y)])); auto. rewrite EN, EB. apply lrow_ok_snoc; auto.
          { apply brow_lrow_ok; auto. } { rewrite brow_cols; auto. }
        * apply (row_same_ok cap A); auto; rewrite Hcap by auto; [lia|]. apply HO; auto.
    - apply rcont_brow; auto.
    - intros i Hi' Hne. apply (row_same_brow cap); auto; rewrite Hcap by auto; [lia|apply HO; auto].
    - intros HC i jp Hi' Hj. rewrite EN in Hi'. rewrite EM in Hj. rewrite (nnz_set_addr A1 ib (S n)) by auto.
      destruct (Nat.eq_dec i ib) as [->|Hne].
      + rewrite (ns_at _ _ _ _ H2) in Hj. rewrite (ss_addrs _ _ _ _ _ _ _ H1) by lia. apply HC; auto. fold n. lia.
      + rewrite (ns_other _ _ _ _ H2), Hnz in Hj by auto. rewrite (ss_addrs _ _ _ _ _ _ _ H1) by lia. apply HC; auto.
  Qed.
  Lemma pushed_bel A ib c y A' i jb k : pushed A ib c y A' -> ~ In c (bcols A ib) -> i < bNB A ->
    bel A' i jb k = if ((i =? ib) && (jb =? c))%bool then nth k y k0 else bel A i jb k.
  Proof.
    intros H Hn Hi. rewrite !bel_brow. destruct (Nat.eqb_spec i ib) as [->|Hne]; cbn [andb].
    - rewrite (pu_row _ _ _ _ _ H). unfold cells. rewrite map_app. cbn [map fst snd].
      rewrite <- brow_cols in Hn. generalize (brow A ib) Hn. clear. intros L. induction L as [|[c' x] L IH]; intros Hn; simpl.
      + rewrite (Nat.eqb_sym c jb). reflexivity.
      + simpl in Hn. destruct (Nat.eqb_spec c' jb) as [->|Hne].
        * destruct (Nat.eqb_spec jb c); [|reflexivity]. subst. tauto.
        * apply IH. tauto.
    - rewrite (pu_other _ _ _ _ _ H) by auto. reflexivity.
  Qed.

  (** ** Changing a block in place *)
  Record changed A (ib jp : nat) (y : list F) A' : Prop := mkChanged {
    ch_wf : ebwf A'; ch_kin : kin A A';
    ch_row : brow A' ib = set_nth (brow A ib) jp (scol A ib jp, y);
    ch_other : forall i, i < bNB A -> i <> ib -> brow A' i = brow A i;
    ch_clean : clean A -> clean A';
    ch_roomy : forall n, roomy n A -> roomy n A' }.
  Lemma change_ok {e} A ib jp y : ebwf A -> ib < bNB A -> jp < bnz A ib ->
    bsz (bbs A) ib * bsz (bbs A) (scol A ib jp) <= length y ->
    wpq e (b_wblk A (b_at A ib jp) y) (changed A ib jp y).
  Proof.
    intros HW Hi Hj Hl. pose proof HW as (HS & HO & HR). destruct (ebwf_slot A ib jp) as (Hm & Hc & Hx & _); auto.
    assert (G : forall cap, own cap A -> jp < cap ib -> wpq e (b_wblk A (b_at A ib jp) y) (slot_set cap A ib jp (scol A ib jp) y)).
    { intros cap HO' Hcap. eapply b_wblk_ok; eauto. }
    assert (GT : wpq e (b_wblk A (b_at A ib jp) y) (fun A' => forall n, roomy n A -> roomy n A')).
    { pose proof (G _ HO Hj) as G1. destruct (b_wblk A (b_at A ib jp) y) as [A'| | |] eqn:Eb; cbn [wpq] in *; auto.
      intros n (HT & HT2 & HT3). pose proof (G _ HT Hm) as G2. cbn [wpq] in G2. pose proof (ss_own _ _ _ _ _ _ _ G2) as GO.
      destruct (ss_kin _ _ _ _ _ _ _ G2) as (_ & _ & EN' & EM' & EB' & _). unfold roomy, tidy. rewrite EM', EN', EB'. split; [exact GO|]. split; auto.
      intros i q x Hi' Hq Hx'. destruct (Nat.eq_dec i ib) as [->|]; [destruct (Nat.eq_dec q jp) as [->|]|].
      - rewrite (ss_obj _ _ _ _ _ _ _ G2) in Hx'. injection Hx' as <-. specialize (HT2 ib (scol A ib jp) Hi Hc). lia.
      - rewrite (ss_objs _ _ _ _ _ _ _ G2) in Hx' by auto. eapply HT3; eauto.
      - rewrite (ss_objs _ _ _ _ _ _ _ G2) in Hx' by auto. eapply HT3; eauto. }
    pose proof (wp_conj _ _ _ (G _ HO Hj) GT) as GG. eapply wp_mono; [exact GG|]. clear G GT GG. intros A' [H HTd].
    pose proof (ss_kin _ _ _ _ _ _ _ H) as K. pose proof K as (_ & _ & EN & EM & EB & _).
    assert (Hnz : bnz A' = bnz A). { unfold bnz. rewrite (ss_nnz _ _ _ _ _ _ _ H). reflexivity. }
    assert (Hrc : rcont A' ib (set_nth (brow A ib) jp (scol A ib jp, y))).
    { split; [rewrite length_set_nth, brow_length, Hnz; auto|]. intros jq Hq. rewrite length_set_nth, brow_length in Hq.
      rewrite nth_set_nth. rewrite brow_length. destruct (Nat.eqb_spec jq jp) as [->|Hne]; cbn [andb].
      - destruct (Nat.ltb_spec jp (bnz A ib)); [|lia]. cbn [fst snd]. split; [apply (ss_col _ _ _ _ _ _ _ H)|apply (ss_obj _ _ _ _ _ _ _ H)].
      - rewrite brow_nth by auto. cbn [fst snd]. pose proof (ebwf_nnz A ib HW Hi).
        rewrite (ss_cols _ _ _ _ _ _ _ H), (ss_objs _ _ _ _ _ _ _ H) by (auto; lia).
        destruct (ebwf_slot A ib jq) as (_ & _ & Hxq & _); auto. }
    assert (Hsame : forall i, i < bNB A -> i <> ib -> row_same (bnz A) A A' i). { intros. eapply slot_set_same; eauto. }
    constructor; auto.
    - split; [eapply kin_shape; eauto|]. split; [rewrite Hnz; apply (ss_own _ _ _ _ _ _ _ H)|].
      rewrite EN. intros i Hi'. destruct (Nat.eq_dec i ib) as [->|Hne].
      + apply (lrow_brow_ok _ _ _ Hrc). rewrite EN, EB. destruct (brow_lrow_ok A ib (HR ib Hi)) as [L1 L2]. split.
        * assert (E : map fst (set_nth (brow A ib) jp (scol A ib jp, y)) = map fst (brow A ib)).
          { apply list_ext_nth with (d := 0); [rewrite !map_length, length_set_nth; auto|]. intros jq Hq. rewrite map_length, length_set_nth, brow_length in Hq.
            change 0 with (fst (0, @nil F)). rewrite !map_nth. rewrite nth_set_nth. destruct (Nat.eqb_spec jq jp) as [->|]; cbn [andb]; auto.
            rewrite brow_length. destruct (Nat.ltb_spec jp (bnz A ib)); auto. rewrite brow_nth by auto. reflexivity. }
          rewrite E. auto.
        * intros p Hp. apply In_nth with (d := (0, [])) in Hp as (jq & Hq & <-). rewrite length_set_nth in Hq.
          rewrite nth_set_nth. rewrite brow_length in *. destruct (Nat.eqb_spec jq jp) as [->|]; cbn [andb].
          { destruct (Nat.ltb_spec jp (bnz A ib)); [cbn [fst snd]; auto|lia]. }
          { apply L2. apply nth_In. rewrite brow_length. auto. }
      + apply (row_same_ok (bnz A) A); auto. apply HO; auto.
    - apply rcont_brow; auto.
    - intros i Hi' Hne. apply (row_same_brow (bnz A)); auto. apply HO; auto.
    - intros HC i jq Hi' Hq. rewrite Hnz, EM, EN in *. rewrite (ss_addrs _ _ _ _ _ _ _ H); try lia; [apply HC; auto|].
      destruct (Nat.eq_dec i ib) as [->|]; [right; lia|left; auto].
  Qed.
  Lemma changed_bel A ib jp y A' i jb k : ebwf A -> changed A ib jp y A' -> i < bNB A -> jp < bnz A ib ->
    bel A' i jb k = if ((i =? ib) && (jb =? scol A ib jp))%bool then nth k y k0 else bel A i jb k.
  Proof.
    intros HW H Hi Hj. pose proof HW as (_ & _ & HR). rewrite !bel_brow. destruct (Nat.eqb_spec i ib) as [->|Hne]; cbn [andb].
    - rewrite (ch_row _ _ _ _ _ H). specialize (HR ib Hi). pose proof (bro_nodup _ _ HR) as Hd. rewrite <- brow_cols in Hd.
      assert (E : nth jp (brow A ib) (0, []) = (scol A ib jp, sblk A ib jp)) by (apply brow_nth; auto).
      assert (L : jp < length (brow A ib)) by (rewrite brow_length; auto).
      generalize dependent jp. generalize (brow A ib) Hd. clear. intros L Hd jp. generalize (sblk A ib jp) as z. generalize (scol A ib jp) as c. intros c z _ Hj E Hl.
      clear Hj. revert jp E Hl. induction L as [|[c' x] L IH]; intros jp E Hl; [simpl in Hl; lia|].
      destruct jp as [|jp]; simpl in E.
      + injection E as -> ->. simpl. rewrite (Nat.eqb_sym jb c). destruct (Nat.eqb_spec c jb); reflexivity.
      + simpl in Hl. simpl. inversion Hd as [|? ? Hni Hd']; subst. rewrite IH by (auto; lia).
        destruct (Nat.eqb_spec c' jb) as [->|]; auto. destruct (Nat.eqb_spec jb c) as [->|]; auto.
        exfalso. apply Hni. change c with (fst (c, z)). rewrite <- E. apply in_map. apply nth_In. lia.
    - rewrite (ch_other _ _ _ _ _ H) by auto. reflexivity.
  Qed.
  Lemma changed_cols A ib jp y A' i : ebwf A -> changed A ib jp y A' -> i < bNB A -> jp < bnz A ib -> bcols A' i = bcols A i.
  Proof.
    intros HW H Hi Hj. rewrite <- !brow_cols. destruct (Nat.eq_dec i ib) as [->|Hne].
    - rewrite (ch_row _ _ _ _ _ H). apply list_ext_nth with (d := 0); [rewrite !map_length, length_set_nth; auto|]. intros jq Hq. rewrite map_length, length_set_nth, brow_length in Hq.
      change 0 with (fst (0, @nil F)). rewrite !map_nth. rewrite nth_set_nth. destruct (Nat.eqb_spec jq jp) as [->|]; cbn [andb]; auto.
      rewrite brow_length. destruct (Nat.ltb_spec jp (bnz A ib)); auto. rewrite brow_nth by auto. reflexivity.
    - rewrite (ch_other _ _ _ _ _ H) by auto. reflexivity.
  Qed.
  Lemma bnz_cols A ib : bnz A ib = length (bcols A ib).
  Proof. unfold bcols. rewrite map_length, seq_length. reflexivity. Qed.

  (** ** One element *)
  Record elem_set A (ib jb p : nat) (v : F) A' : Prop := mkElem {
    es_wf : ebwf A'; es_kin : kin A A';
    es_bel : forall i c k, i < bNB A -> bel A' i c k = if ((i =? ib) && (c =? jb) && (k =? p))%bool then v else
                                                  bel A i c k;
    es_clean : clean A -> clean A';
    es_cols : forall i c, i < bNB A -> In c (bcols A' i) <-> (In c (bcols A i) \/ (i = ib /\ c = jb)) }.

  Lemma put_found_ok {e} A ib ii jb jj v : ebwf A -> ib < bNB A -> jb < bNB A -> ii < bsz (bbs A) ib -> jj < bsz (bbs A) jb ->
    wpq e (put_found A ib ii jb jj v) (fun r =>
      (In jb (bcols A ib) /\ snd r = true /\ elem_set A ib jb (ii * bsz (bbs A) jb + jj) v (fst r)) \/
      (~ In jb (bcols A ib) /\ r = (A, false))).
  Proof.
    intros HW Hi Hjb Hii Hjj. pose proof HW as (HS & HO & HR). unfold put_found. apply wp_bind. rewrite b_nnz_ok by auto. cbn [wpq].
    set (p := ii * bsz (bbs A) jb + jj).
    set (P := fun n (r : eb * bool) =>
       (exists jp, jp < n /\ scol A ib jp = jb /\ snd r = true /\ changed A ib jp (set_nth (sblk A ib jp) p v) (fst r)) \/
       ((forall jp, jp < n -> scol A ib jp <> jb) /\ r = (A, false))).
    assert (Hp : p < bsz (bbs A) ib * bsz (bbs A) jb) by (apply pos_lt; auto).
    apply wp_mono with (P := P (bnz A ib)).
    - apply (for_n_inv P).
      + right. split; [intros; lia|auto].
      + intros jp [A1 f] Hjp HP. destruct (ebwf_slot A ib jp) as (Hm & Hc & Hx & Hl); auto.
        destruct HP as [(jq & Hq & Eq & Ef & HC)|(Hn & E)].
        * cbn [fst snd] in *. pose proof (ch_kin _ _ _ _ _ HC) as K. pose proof K as (_ & _ & EN & EM & EB & _).
          assert (HS1 : eb_shape A1) by (eapply kin_shape; eauto).
          assert (Ecol : scol A1 ib jp = scol A ib jp).
          { pose proof (changed_cols A ib jq _ A1 ib HW HC Hi ltac:(lia)) as EC. pose proof (bnz_cols A ib) as E1. pose proof (bnz_cols A1 ib) as E2.
            assert (E3 : nth jp (bcols A1 ib) 0 = nth jp (bcols A ib) 0) by congruence. assert (E4 : bnz A1 ib = bnz A ib) by congruence.
            unfold bcols in E3. rewrite !nth_map_seq in E3 by (rewrite ?E4; auto). exact E3. }
          apply wp_bind. rewrite rd_idx_ok by (auto; congruence). cbn [wpq]. rewrite Ecol.
          destruct (Nat.eqb_spec (scol A ib jp) jb) as [E|E].
          { exfalso. assert (jp = jq); [|lia]. apply (scol_inj A ib); auto; [lia|congruence]. }
          cbn [wpq]. left. exists jq. split; [lia|]. auto.
        * injection E as -> ->. apply wp_bind. rewrite rd_idx_ok by auto. cbn [wpq].
          destruct (Nat.eqb_spec (scol A ib jp) jb) as [E|E].
          { apply wp_bind. rewrite (b_blk_ok A ib jp (sblk A ib jp)) by auto. cbn [wpq]. apply wp_bind. rewrite b_bs_ok by auto. cbn [wpq].
            apply wp_bind. rewrite b_bs_ok by auto. cbn [wpq]. rewrite E in Hl. apply wp_bind. unfold ROWMAJOR. fold p. rewrite wr_ok by lia. cbn [wpq].
            apply wp_bind. eapply wp_mono; [apply change_ok; auto|].
            - rewrite length_set_nth, E. auto.
            - intros A' HC. cbn [wpq]. left. exists jp. split; [lia|]. auto. }
          { cbn [wpq]. right. split; auto. intros jq Hq. destruct (Nat.eq_dec jq jp) as [->|]; auto. apply Hn. lia. }
    - intros [A1 f] [(jp & Hj & E & Ef & HC)|(Hn & E)].
      + left. cbn [fst snd] in *. destruct (ebwf_slot A ib jp) as (Hm & Hc & Hx & Hl); auto. rewrite E in Hl.
        split; [|split; auto].
        * unfold bcols. apply in_map_iff. exists jp. split; auto. apply in_seq. lia.
        * constructor; try (apply HC).
          { intros i c k Hi'. rewrite (changed_bel A ib jp _ A1) by eauto. rewrite E. destruct (Nat.eqb_spec i ib) as [->|]; cbn [andb]; auto.
            destruct (Nat.eqb_spec c jb) as [->|]; cbn [andb]; auto. rewrite nth_set_nth. destruct (Nat.eqb_spec k p); cbn [andb].
            - destruct (Nat.ltb_spec p (length (sblk A ib jp))); [auto|lia].
            - symmetry. apply bel_hit; auto. }
          { intros i c Hi'. rewrite (changed_cols A ib jp _ A1) by eauto. split; auto. intros [H|[-> ->]]; auto.
            unfold bcols. apply in_map_iff. exists jp. split; auto. apply in_seq. lia. }
      + right. split; auto. unfold bcols. intros H. apply in_map_iff in H as (jp & E' & Hj). apply in_seq in Hj. apply (Hn jp); auto; lia.
  Qed.

  Lemma b_wnnz_ok' {e} A ib n (Q : eb -> Prop) : eb_shape A -> ib < bNB A -> (forall A', nnz_set A ib n A' -> Q A') -> wpq e (b_wnnz A ib n) Q.
  Proof. intros. eapply wp_mono; [apply b_wnnz_ok; auto|auto]. Qed.

  Lemma nth_map_g (g : nat -> F) n k : k < n -> nth k (map g (seq 0 n)) k0 = g k.
  Proof. intros. apply nth_map_seq; auto. Qed.

  (** allocating a block and giving it the contents [y] computed from the
      unspecified ones *)
  Lemma new_block_slot {e} cap A ib c n (g : nat -> F) (fill : list F -> res (list F)) (Q : list F -> Prop) :
    eb_shape A -> own cap A -> ib < bNB A -> bnz A ib < bMB A -> bnz A ib <= cap ib -> c < bNB A ->
    (forall x, length x = n -> wpq e (fill x) (fun y => length y = n /\ Q y)) ->
    wpq e (b_new A ib (bnz A ib) c n g fill) (fun A' => exists y A1, length y = n /\ Q y /\
      slot_set (capx cap ib (bnz A ib)) A ib (bnz A ib) c y A1 /\ nnz_set A1 ib (S (bnz A ib)) A').
  Proof.
    intros HS HO Hi Hm Hcp Hc Hfill. set (m := bnz A ib) in *. unfold b_new.
    apply wp_bind. eapply wp_mono; [apply (b_alloc_ok cap); auto|]. intros A1 H1.
    pose proof (ss_kin _ _ _ _ _ _ _ H1) as K1. pose proof K1 as (_ & _ & EN1 & EM1 & EB1 & _).
    assert (HS1 : eb_shape A1) by (eapply kin_shape; eauto). rewrite <- (kin_at A A1 ib m K1).
    assert (Hcap : m < capx cap ib m ib). { unfold capx. rewrite Nat.eqb_refl. lia. }
    apply wp_bind. eapply wp_mono; [apply (b_widx_ok (capx cap ib m)); [auto|apply H1|lia|lia|apply H1]|]. intros A2 H2.
    pose proof (slot_set_trans _ _ _ _ _ _ _ _ _ _ H1 H2) as H12.
    pose proof (ss_kin _ _ _ _ _ _ _ H12) as K2. pose proof K2 as (_ & _ & EN2 & EM2 & EB2 & _).
    assert (HS2 : eb_shape A2) by (eapply kin_shape; eauto). rewrite (kin_at A A1 ib m K1), <- (kin_at A A2 ib m K2).
    apply wp_bind. rewrite (b_blk_ok A2 ib m (map g (seq 0 n))); auto; [|lia|lia|apply H12]. cbn [wpq].
    apply wp_bind. eapply wp_mono; [apply Hfill; rewrite map_length, seq_length; auto|]. intros y [Ly Qy].
    apply wp_bind. eapply wp_mono; [eapply (b_wblk_ok (capx cap ib m)); [auto|apply H12|lia|exact Hcap|apply H12]|]. intros A3 H3.
    rewrite (ss_col _ _ _ _ _ _ _ H12) in H3. pose proof (slot_set_trans _ _ _ _ _ _ _ _ _ _ H12 H3) as H13.
    pose proof (ss_kin _ _ _ _ _ _ _ H13) as K3. pose proof K3 as (_ & _ & EN3 & EM3 & EB3 & _).
    apply b_wnnz_ok'; [eapply kin_shape; eauto|lia|]. intros A4 H4. exists y, A3. auto.
  Qed.
  Lemma new_block_ok {e} A ib c n (g : nat -> F) (fill : list F -> res (list F)) (Q : list F -> Prop) (R : eb -> Prop) :
    ebwf A -> ib < bNB A -> bnz A ib < bMB A -> c < bNB A -> ~ In c (bcols A ib) -> bsz (bbs A) ib * bsz (bbs A) c <= n ->
    (forall x, length x = n -> wpq e (fill x) (fun y => length y = n /\ Q y)) ->
    (forall y A', length y = n -> Q y -> pushed A ib c y A' -> R A') ->
    wpq e (b_new A ib (bnz A ib) c n g fill) R.
  Proof.
    intros HW Hi Hm Hc Hn Hl Hfill HR. pose proof HW as (HS & HO & HRow).
    pose proof (new_block_slot (bnz A) A ib c n g fill Q HS HO Hi Hm ltac:(lia) Hc Hfill) as G1.
    assert (G2 : forall k, roomy k A -> wpq e (b_new A ib (bnz A ib) c n g fill) (fun A' => roomy k A')).
    { intros k (HT & Hk & Hx). eapply wp_mono; [apply (new_block_slot (fun _ => bMB A) A ib c n g fill Q HS HT Hi Hm ltac:(lia) Hc Hfill)|].
      intros A' (y & A1 & Ly & _ & HS1 & HN). pose proof (ss_kin _ _ _ _ _ _ _ HS1) as K1. pose proof (ns_kin _ _ _ _ HN) as K2.
      pose proof (kin_trans _ _ _ K1 K2) as K. pose proof K as (_ & _ & EN & EM & EB & _). pose proof K1 as (_ & _ & EN1 & EM1 & EB1 & _).
      assert (Ecap : forall i, capx (fun _ => bMB A) ib (bnz A ib) i = bMB A) by (intros i; unfold capx; destruct (i =? ib); lia).
      split; [|split].
      - apply own_cap_eq with (cap := capx (fun _ => bMB A) ib (bnz A ib)); [intros i _; rewrite Ecap; auto|].
        eapply nnz_set_own; eauto. apply (ss_own _ _ _ _ _ _ _ HS1).
      - rewrite EN, EB. auto.
      - rewrite EN, EM. intros i jp x Hi' Hj. rewrite (nnz_set_obj A1 ib _ A') by eauto.
        destruct (Nat.eq_dec i ib) as [->|Hne]; [destruct (Nat.eq_dec jp (bnz A ib)) as [->|Hne]|].
        + rewrite (ss_obj _ _ _ _ _ _ _ HS1). intros E. injection E as <-. rewrite Ly. specialize (Hk ib c Hi Hc). lia.
        + rewrite (ss_objs _ _ _ _ _ _ _ HS1) by (rewrite ?Ecap; auto). eauto.
        + rewrite (ss_objs _ _ _ _ _ _ _ HS1) by (rewrite ?Ecap; auto). eauto. }
    destruct (b_new A ib (bnz A ib) c n g fill) as [A'| | |]; cbn [wpq] in *; auto.
    destruct G1 as (y & A1 & Ly & Qy & H1 & H2). apply (HR y); auto. eapply push_ok; eauto. lia.
  Qed.

  Lemma put_new_ok {e} A ib ii jb jj v g : ebwf A -> ib < bNB A -> jb < bNB A -> ii < bsz (bbs A) ib -> jj < bsz (bbs A) jb ->
    bnz A ib < bMB A -> ~ In jb (bcols A ib) ->
    wpq e (put_new A ib ii jb jj v g) (elem_set A ib jb (ii * bsz (bbs A) jb + jj) v).
  Proof.
    intros HW Hi Hjb Hii Hjj Hm Hn. pose proof HW as (HS & HO & HR). unfold put_new.
    rewrite b_nnz_ok, !b_bs_ok by auto. cbn [bind]. set (p := ii * bsz (bbs A) jb + jj).
    assert (Hp : p < bsz (bbs A) ib * bsz (bbs A) jb) by (apply pos_lt; auto). set (n := bsz (bbs A) ib * bsz (bbs A) jb) in *.
    eapply wp_mono.
    { apply (new_block_ok A ib jb n g _ (fun y => forall k, k < n -> nth k y k0 = if k =? p then v else k0)
        (fun A' => exists y, length y = n /\ (forall k, k < n -> nth k y k0 = if k =? p then v else k0) /\ pushed A ib jb y A')); auto.
      - intros x Hx. apply wp_bind. eapply wp_mono; [apply (blk_map_ok n _ (fun _ => k0)); [lia|reflexivity]|].
        intros y (L1 & Y1 & _). unfold ROWMAJOR. fold p. rewrite wr_ok by lia. cbn [wpq]. split; [rewrite length_set_nth; lia|].
        intros k Hk. rewrite nth_set_nth. destruct (Nat.eqb_spec k p); cbn [andb]; auto. destruct (Nat.ltb_spec p (length y)); auto; lia.
      - intros y A' L Q HP. exists y. auto. }
    intros A' (y & Ly & Qy & HP). constructor; try apply HP.
    - intros i c k Hi'. rewrite (pushed_bel A ib jb y A') by auto. destruct (Nat.eqb_spec i ib) as [->|]; cbn [andb]; auto.
      destruct (Nat.eqb_spec c jb) as [->|]; cbn [andb]; auto. destruct (Nat.lt_ge_cases k n) as [Hk|Hk].
      + rewrite Qy by auto. destruct (Nat.eqb_spec k p); auto. symmetry. rewrite bel_miss; auto. intros jp Hjp E. apply Hn. unfold bcols. apply in_map_iff. exists jp. split; auto. apply in_seq; lia.
      + rewrite nth_overflow by lia. destruct (Nat.eqb_spec k p); [lia|]. symmetry. rewrite bel_miss; auto. intros jp Hjp E. apply Hn. unfold bcols. apply in_map_iff. exists jp. split; auto. apply in_seq; lia.
    - intros i c Hi'. rewrite <- !brow_cols. destruct (Nat.eq_dec i ib) as [->|Hne].
      + rewrite (pu_row _ _ _ _ _ HP), map_app, in_app_iff. cbn [map fst In]. intuition.
      + rewrite (pu_other _ _ _ _ _ HP) by auto. intuition.
  Qed.

  Lemma elem_set_mx A ib jb ii jj v A' : eb_shape A -> ib < bNB A -> jb < bNB A -> ii < bsz (bbs A) ib -> jj < bsz (bbs A) jb ->
    elem_set A ib jb (ii * bsz (bbs A) jb + jj) v A' ->
    meq (bN A) (ebmx A') (fun i j => if ((i =? boff (bbs A) ib + ii) && (j =? boff (bbs A) jb + jj))%bool then v else ebmx A i j).
  Proof.
    intros HS Hi Hj Hii Hjj []. pose proof es_kin0 as (EN & _ & ENB & _ & EB & _). rewrite <- EN.
    pose proof (sh_bs A HS) as EL.
    apply meq_blocks; [eapply kin_shape; eauto|]. rewrite ENB, EB. intros i c k Hi' Hc Hk. rewrite es_bel0 by auto. unfold xb.
    destruct (pos_split _ _ _ Hk) as (P1 & P2 & P3). rewrite ebmx_at by auto. rewrite <- P3.
    destruct (Nat.eqb_spec (boff (bbs A) i + k / bsz (bbs A) c) (boff (bbs A) ib + ii)) as [E|E]; cbn [andb].
    - assert (E2 : bloc (bbs A) (boff (bbs A) i + k / bsz (bbs A) c) = bloc (bbs A) (boff (bbs A) ib + ii)) by congruence.
      rewrite !bloc_at in E2 by (auto; lia). injection E2 as -> E2. rewrite Nat.eqb_refl. cbn [andb].
      destruct (Nat.eqb_spec (boff (bbs A) c + k mod bsz (bbs A) c) (boff (bbs A) jb + jj)) as [E3|E3].
      + assert (E4 : bloc (bbs A) (boff (bbs A) c + k mod bsz (bbs A) c) = bloc (bbs A) (boff (bbs A) jb + jj)) by congruence.
        rewrite !bloc_at in E4 by (auto; lia). injection E4 as -> E4. rewrite Nat.eqb_refl. rewrite P3, E2, E4, Nat.eqb_refl. reflexivity.
      + destruct (Nat.eqb_spec c jb) as [->|]; cbn [andb]; auto. destruct (Nat.eqb_spec k (ii * bsz (bbs A) jb + jj)) as [Ek|]; auto.
        exfalso. apply E3. rewrite Ek, pos_mod by auto. reflexivity.
    - destruct (Nat.eqb_spec i ib) as [->|]; cbn [andb]; auto. destruct (Nat.eqb_spec c jb) as [->|]; cbn [andb]; auto.
      destruct (Nat.eqb_spec k (ii * bsz (bbs A) jb + jj)) as [Ek|]; auto. exfalso. apply E. rewrite Ek, pos_div by auto. reflexivity.
  Qed.

  (** ** set_element *)
  (** block row and column of an element *)
  Lemma eb_set_element_ok A i j v g : ebwf A -> clean A -> i < bN A -> j < bN A ->
    In (blk_of A j) (bcols A (blk_of A i)) \/ bnz A (blk_of A i) < bMB A ->
    exists A', eb_set_element A i j v g = Ok A' /\ ebwf A' /\ clean A' /\ kin A A' /\
      meq (bN A) (ebmx A') (fun i' j' => if ((i' =? i) && (j' =? j))%bool then v else ebmx A i' j').
  Proof.
    intros HW HC Hi Hj Hr. pose proof HW as (HS & HO & HR). apply wp_ok. unfold eb_set_element. unfold blk_of in Hr.
    rewrite (shape_N A HS) in Hi, Hj. rewrite !locate_ok by auto. cbn [bind plus].
    destruct (bloc_spec _ _ Hi) as (ib & ii & E1 & Hib & Hii & Ei), (bloc_spec _ _ Hj) as (jb & jj & E2 & Hjb & Hjj & Ej).
    rewrite E1, E2 in *. cbn [fst snd] in *. rewrite (sh_bs A HS) in Hib, Hjb.
    assert (HF : forall A', elem_set A ib jb (ii * bsz (bbs A) jb + jj) v A' -> ebwf A' /\ clean A' /\ kin A A' /\
      meq (bN A) (ebmx A') (fun i' j' => if ((i' =? i) && (j' =? j))%bool then v else ebmx A i' j')).
    { intros A' H. split; [apply H|]. split; [apply H; auto|]. split; [apply H|]. rewrite Ei, Ej. apply elem_set_mx; auto. }
    apply wp_bind. eapply wp_mono; [apply put_found_ok; auto|]. intros [A1 f] [(Hin & Ef & HE)|(Hn & E)]; cbn [fst snd] in *.
    - rewrite Ef. cbn [wpq]. apply HF; auto.
    - injection E as -> ->. destruct Hr as [Hr|Hr]; [tauto|].
      apply wp_bind. rewrite b_nnz_ok by auto. cbn [wpq]. destruct (Nat.eqb_spec (bnz A ib) (bMB A)); [lia|].
      apply wp_bind. rewrite rd_ptr_ok by auto. cbn [wpq]. rewrite HC by (auto; lia).
      eapply wp_mono; [apply put_new_ok; auto|]. apply HF.
  Qed.
  (** no room for a new block *)
  Lemma eb_set_element_full A i j v g : ebwf A -> i < bN A -> j < bN A ->
    ~ In (blk_of A j) (bcols A (blk_of A i)) -> bnz A (blk_of A i) = bMB A -> eb_set_element A i j v g = Err.
  Proof.
    intros HW Hi Hj Hr Hm. pose proof HW as (HS & HO & HR). unfold eb_set_element, blk_of in *.
    rewrite (shape_N A HS) in Hi, Hj. rewrite !locate_ok by auto. cbn [bind plus].
    destruct (bloc_spec _ _ Hi) as (ib & ii & E1 & Hib & Hii & Ei), (bloc_spec _ _ Hj) as (jb & jj & E2 & Hjb & Hjj & Ej).
    rewrite E1, E2 in *. cbn [fst snd] in *. rewrite (sh_bs A HS) in Hib, Hjb.
    pose proof (put_found_ok (e:=False) A ib ii jb jj v HW Hib Hjb Hii Hjj) as H.
    destruct (put_found A ib ii jb jj v) as [[A1 f]| | |]; cbn [wpq bind] in *; try tauto.
    destruct H as [(Hin & _)|(Hn & E)]; [tauto|]. injection E as -> ->. rewrite b_nnz_ok by auto. cbn [bind]. rewrite Hm, Nat.eqb_refl. reflexivity.
  Qed.
  (** the assert on the next slot of the row *)
  Lemma eb_set_element_stale A i j v g a : ebwf A -> i < bN A -> j < bN A ->
    ~ In (blk_of A j) (bcols A (blk_of A i)) -> bnz A (blk_of A i) < bMB A -> saddr A (blk_of A i) (bnz A (blk_of A i)) = Some a ->
    eb_set_element A i j v g = Err.
  Proof.
    intros HW Hi Hj Hr Hm Ha. pose proof HW as (HS & HO & HR). unfold eb_set_element, blk_of in *.
    rewrite (shape_N A HS) in Hi, Hj. rewrite !locate_ok by auto. cbn [bind plus].
    destruct (bloc_spec _ _ Hi) as (ib & ii & E1 & Hib & Hii & Ei), (bloc_spec _ _ Hj) as (jb & jj & E2 & Hjb & Hjj & Ej).
    rewrite E1, E2 in *. cbn [fst snd] in *. rewrite (sh_bs A HS) in Hib, Hjb.
    pose proof (put_found_ok (e:=False) A ib ii jb jj v HW Hib Hjb Hii Hjj) as H.
    destruct (put_found A ib ii jb jj v) as [[A1 f]| | |]; cbn [wpq bind] in *; try tauto.
    destruct H as [(Hin & _)|(Hn & E)]; [tauto|]. injection E as -> ->. rewrite b_nnz_ok by auto. cbn [bind].
    destruct (Nat.eqb_spec (bnz A ib) (bMB A)); [lia|]. rewrite rd_ptr_ok by auto. cbn [bind]. rewrite Ha. reflexivity.
  Qed.
End Build.
