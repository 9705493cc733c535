(** Proofs: submatrices of block ellpack matrices. *)
From Verif Require Import Base BaseFacts Spec SpecFacts EllpackModel EllpackSpec SubSpec
  EllblockModel EllblockSpec EllblockFacts EllblockHeap EllblockRead EllblockBuild EllblockMake EllblockSubModel EllblockSubSpec.

Lemma forM_filter {X S} (p : X -> bool) (f : X -> S -> res S) l : forall s,
  forM l (fun x s => if p x then f x s else Ok s) s = forM (filter p l) f s.
Proof. induction l as [|x l IH]; intros s; simpl; auto. destruct (p x); simpl; [|apply IH]. destruct (f x s); simpl; auto. Qed.
Lemma forM_seq_shift {S} (f : nat -> S -> res S) n : forall a s, forM (seq a n) f s = for_n n (fun q => f (a + q)) s.
Proof.
  unfold for_n. intros a. replace (seq a n) with (map (fun q => a + q) (seq 0 n)).
  - generalize (seq 0 n). intros l. induction l as [|x l IH]; intros s; simpl; auto. destruct (f (a + x) s); simpl; auto.
  - clear. revert a. induction n; intros a; simpl; auto. rewrite Nat.add_0_r. f_equal. rewrite <- seq_shift, map_map.
    rewrite <- (IHn (S a)). apply map_ext. intros; lia.
Qed.


Lemma count_blocks_ok bs : forall k b count, positive bs -> k <= length bs ->
  count_blocks bs b count (count + boff bs k) = Ok (b + k, count + boff bs k).
Proof.
  induction bs as [|x bs IH]; intros k b count HP Hk.
  - simpl in Hk. replace k with 0 by lia. unfold boff. simpl. rewrite !Nat.add_0_r, Nat.leb_refl. reflexivity.
  - destruct k as [|k].
    + unfold boff. simpl. rewrite !Nat.add_0_r, Nat.leb_refl. reflexivity.
    + rewrite boff_cons. simpl. pose proof (HP 0 ltac:(simpl; lia)) as Hx. unfold bsz in Hx. simpl in Hx.
      destruct (Nat.leb_spec (count + (x + boff bs k)) count); [lia|].
      rewrite Nat.add_assoc. rewrite IH; [f_equal; f_equal; lia| |simpl in Hk; lia].
      intros ib Hib. apply (HP (S ib)). simpl. lia.
Qed.
Lemma block_start_ok bs k : positive bs -> k <= length bs -> block_start bs (boff bs k) = Ok k.
Proof. intros HP Hk. unfold block_start. pose proof (count_blocks_ok bs k 0 0 HP Hk) as E. cbn [plus] in E. rewrite E. cbn [bind]. rewrite Nat.eqb_refl. reflexivity. Qed.

Lemma sub_boff bs bs' b nb k : sub_sizes bs bs' b nb -> k <= nb -> boff bs (b + k) = boff bs b + boff bs' k.
Proof.
  intros H. induction k; intros Hk; [change (boff bs' 0) with 0; rewrite !Nat.add_0_r; reflexivity|].
  rewrite Nat.add_succ_r, !boff_S, IHk, (H k) by lia. lia.
Qed.

Section Sub.
  Context {F : scalar}.
  Local Notation eb := (eb F).
  Implicit Types A B : eb.

  (** appending copies of slots [ts] of row [i] of S to row [r] of T *)
  Lemma append_row {e} S T i r (ts : list nat) (cf : nat -> nat) (body : nat -> eb -> res eb) :
    ebwf T -> r < bNB T -> NoDup (map cf ts) -> (forall jp, In jp ts -> cf jp < bNB T /\ ~ In (cf jp) (bcols T r)) ->
    bnz T r + length ts <= bMB T ->
    (forall T' jp, In jp ts -> ebwf T' -> kin T T' -> bnz T' r < bMB T' -> ~ In (cf jp) (bcols T' r) ->
       wpq e (body jp T') (fun T'' => exists y, pushed T' r (cf jp) y T'' /\
          forall k, k < bsz (bbs T) r * bsz (bbs T) (cf jp) -> nth k y k0 = nth k (sblk S i jp) k0)) ->
    wpq e (forM ts body T) (fun T' => ebwf T' /\ kin T T' /\ (forall i, i < bNB T -> i <> r -> brow T' i = brow T i) /\
       (clean T -> clean T') /\ bcols T' r = bcols T r ++ map cf ts /\
       (forall jp k, In jp ts -> k < bsz (bbs T) r * bsz (bbs T) (cf jp) -> bel T' r (cf jp) k = nth k (sblk S i jp) k0) /\
       (forall c k, ~ In c (map cf ts) -> bel T' r c k = bel T r c k)).
  Proof.
    intros HW Hi Hnd Hcols Hroom Hbody.
    apply (forM_inv (fun pre T' => ebwf T' /\ kin T T' /\ (forall i, i < bNB T -> i <> r -> brow T' i = brow T i) /\
       (clean T -> clean T') /\ bcols T' r = bcols T r ++ map cf pre /\
       (forall jp k, In jp pre -> k < bsz (bbs T) r * bsz (bbs T) (cf jp) -> bel T' r (cf jp) k = nth k (sblk S i jp) k0) /\
       (forall c k, ~ In c (map cf pre) -> bel T' r c k = bel T r c k))).
    - split; auto. split; [apply kin_refl|]. split; auto. split; auto. split; [rewrite app_nil_r; auto|]. split; [intros jp k []|]. auto.
    - intros pre t post B' E (W & K & O & C & Col & V & Z). pose proof K as (_ & _ & EN & EM & EB & _).
      assert (Hin : In t ts) by (rewrite E; apply in_or_app; right; left; auto).
      assert (Hnin : ~ In (cf t) (map cf pre)). { rewrite E, map_app in Hnd. simpl in Hnd. apply NoDup_remove in Hnd as [_ Hn]. intros H. apply Hn. apply in_or_app. auto. }
      assert (Hnc : ~ In (cf t) (bcols B' r)). { rewrite Col. intros H. apply in_app_or in H as [H|H]; [|auto]. apply (Hcols t Hin); auto. }
      eapply wp_mono; [apply Hbody; auto|].
      + rewrite bnz_cols, Col, app_length, map_length, EM, <- bnz_cols. eapply Nat.lt_le_trans; [|exact Hroom]. rewrite E, app_length. simpl. lia.
      + intros B'' (y & HP & Hy). split; [apply HP|]. split; [eapply kin_trans; [exact K|apply HP]|]. split.
        { intros j Hj Hne. rewrite (pu_other _ _ _ _ _ HP) by (auto; lia). auto. }
        split; [intros HC; apply (pu_clean _ _ _ _ _ HP); auto|]. split.
        { rewrite <- brow_cols, (pu_row _ _ _ _ _ HP), map_app, brow_cols, Col, map_app, app_assoc. reflexivity. }
        split.
        { intros u k Hu Hk. rewrite (pushed_bel B' r (cf t) y B'') by (auto; lia). rewrite Nat.eqb_refl. cbn [andb].
          apply in_app_or in Hu as [Hu|[<-|[]]].
          - destruct (Nat.eqb_spec (cf u) (cf t)) as [Ec|]; [|auto]. exfalso. apply Hnin. rewrite <- Ec. apply in_map; auto.
          - rewrite Nat.eqb_refl. auto. }
        { intros c k Hc. rewrite (pushed_bel B' r (cf t) y B'') by (auto; lia). rewrite map_app, in_app_iff in Hc. simpl in Hc.
          destruct (Nat.eqb_spec c (cf t)); [exfalso; apply Hc; auto|]. rewrite andb_false_r. apply Z. tauto. }
  Qed.

  (** rows r0, ..., r0 + m - 1 of T0 get new blocks, the others stay *)
  Lemma append_rows {e} T0 r0 m (spec : nat -> nat -> nat -> F) (body : nat -> eb -> res eb) : ebwf T0 -> r0 + m <= bNB T0 ->
    (forall q T, q < m -> ebwf T -> kin T0 T -> brow T (r0 + q) = brow T0 (r0 + q) -> wpq e (body q T) (fun T' =>
       ebwf T' /\ kin T T' /\ (forall i, i < bNB T -> i <> r0 + q -> brow T' i = brow T i) /\ (clean T -> clean T') /\
       forall c k, c < bNB T -> k < bsz (bbs T) (r0 + q) * bsz (bbs T) c -> bel T' (r0 + q) c k = spec q c k)) ->
    wpq e (for_n m body T0) (fun T => ebwf T /\ kin T0 T /\ (clean T0 -> clean T) /\
       (forall q c k, q < m -> c < bNB T0 -> k < bsz (bbs T0) (r0 + q) * bsz (bbs T0) c -> bel T (r0 + q) c k = spec q c k) /\
       (forall i c k, i < bNB T0 -> ~ (r0 <= i < r0 + m) -> bel T i c k = bel T0 i c k)).
  Proof.
    intros HW Hm Hbody. eapply wp_mono. { apply (for_n_inv (fun n T => ebwf T /\ kin T0 T /\ (clean T0 -> clean T) /\
       (forall q c k, q < n -> c < bNB T0 -> k < bsz (bbs T0) (r0 + q) * bsz (bbs T0) c -> bel T (r0 + q) c k = spec q c k) /\
       (forall i, i < bNB T0 -> ~ (r0 <= i < r0 + n) -> brow T i = brow T0 i))).
      - split; auto. split; [apply kin_refl|]. split; auto. split; [intros; lia|]. auto.
      - intros q T Hq (W & K & C & V & Z). pose proof K as (_ & _ & EN & EM & EB & _). eapply wp_mono; [apply Hbody; auto; apply Z; lia|].
        intros T' (W' & K' & O' & C' & V'). split; auto. split; [eapply kin_trans; eauto|]. split; auto. split.
        + intros q' c k Hq' Hc Hk. destruct (Nat.eq_dec q' q) as [->|Hne].
          * apply V'; rewrite ?EN, ?EB; auto.
          * rewrite bel_brow, O', <- bel_brow by (rewrite ?EN; lia). apply V; auto; lia.
        + intros i Hi Hni. rewrite O' by (rewrite ?EN; lia). apply Z; [auto|lia]. }
    intros T (W & K & C & V & Z). split; auto. split; auto. split; auto. split; auto. intros i c k Hi Hni. rewrite !bel_brow, Z; auto.
  Qed.

  Lemma brow_eq A B ib : brow A ib = brow B ib -> bnz A ib = bnz B ib /\ bcols A ib = bcols B ib.
  Proof. intros H. rewrite !bnz_cols, <- !brow_cols, H. auto. Qed.

  (** ** extract *)
  Lemma eb_extract_blocks (d : defaults) A irowb icolb nb n BM (g : nat -> F) :
    ebwf A -> positive (bbs A) -> sizes_for d n ->
    irowb + nb <= bNB A -> icolb + nb <= bNB A -> nb <= s_nb d -> nb <= s_mb d ->
    sub_sizes (bbs A) (s_bsize d) 0 nb -> sub_sizes (bbs A) (s_bsize d) irowb nb -> sub_sizes (bbs A) (s_bsize d) icolb nb ->
    BM <= boff (bbs A) nb ->
    exists B, eb_extract (Some d) A (boff (bbs A) irowb) (boff (bbs A) icolb) (boff (bbs A) nb) BM g = Ok (Some d, B) /\
      ebwf B /\ clean B /\ bN B = n /\ bNB B = s_nb d /\ bbs B = s_bsize d /\
      forall ib jb k, ib < s_nb d -> jb < s_nb d -> k < bsz (s_bsize d) ib * bsz (s_bsize d) jb ->
        bel B ib jb k = if ((ib <? nb) && (jb <? nb))%bool then bel A (irowb + ib) (icolb + jb) k else k0.
  Proof.
    intros HW HP HSd Hr Hc Hnb Hmb S0 Sr Sc HBM. pose proof HW as (HS & HO & HR). pose proof HSd as (D1 & D2 & D3 & D4).
    pose proof (sh_bs A HS) as LB.
    assert (Hn : boff (bbs A) nb <= n).
    { rewrite <- D4. pose proof (sub_boff (bbs A) (s_bsize d) 0 nb nb S0 (le_n _)) as E. cbn [plus] in E. change (boff (bbs A) 0) with 0 in E. cbn [plus] in E. rewrite E. apply boff_mono. auto. }
    unfold eb_extract. destruct (eb_zero_later (F:=F) d n (boff (bbs A) nb) BM) as (B0 & EB0 & HF & EN0); auto; [lia|].
    rewrite EB0. cbn [bind]. rewrite !block_start_ok by (auto; lia). cbn [bind].
    pose proof (count_blocks_ok (bbs A) nb 0 0 HP ltac:(lia)) as Ecb. cbn [plus] in Ecb. rewrite Ecb. cbn [bind]. clear Ecb. rewrite forM_seq_shift.
    pose proof (fr_NB _ _ _ _ _ HF) as ENB. pose proof (fr_MB _ _ _ _ _ HF) as EMB. pose proof (fr_bs _ _ _ _ _ HF) as EBS.
    match goal with |- context [for_n nb ?b B0] => set (body := b) end.
    assert (G : wpq False (for_n nb body B0) (fun T => ebwf T /\ kin B0 T /\ (clean B0 -> clean T) /\
       (forall q c k, q < nb -> c < bNB B0 -> k < bsz (bbs B0) (0 + q) * bsz (bbs B0) c -> bel T (0 + q) c k = if c <? nb then bel A (irowb + q) (icolb + c) k else k0) /\
       (forall i c k, i < bNB B0 -> ~ (0 <= i < 0 + nb) -> bel T i c k = bel B0 i c k))).
    { apply append_rows; [apply HF|lia|]. intros q T Hq W K Hrow. pose proof K as (_ & _ & EN & EM & EB & _).
      unfold body. assert (HiA : irowb + q < bNB A) by lia. set (i := irowb + q) in *. cbn [plus] in *.
      rewrite b_for_row_unfold by auto. unfold for_n. replace (i - irowb) with q by lia.
      rewrite (forM_filter (fun jp => ((icolb <=? scol A i jp) && (scol A i jp <? icolb + nb))%bool)).
      set (p := fun jp => ((icolb <=? scol A i jp) && (scol A i jp <? icolb + nb))%bool).
      assert (Hp : forall jp, In jp (filter p (seq 0 (bnz A i))) -> jp < bnz A i /\ icolb <= scol A i jp < icolb + nb).
      { intros jp H. apply filter_In in H as [H1 H2]. apply in_seq in H1. unfold p in H2. apply andb_prop in H2 as [H2 H3].
        apply Nat.leb_le in H2. apply Nat.ltb_lt in H3. lia. }
      assert (Hb0 : bcols T q = []) by (rewrite <- brow_cols, Hrow, (fr_row _ _ _ _ _ HF); reflexivity).
      assert (ND : NoDup (map (fun jp => scol A i jp - icolb) (filter p (seq 0 (bnz A i))))).
      { pose proof (bro_nodup _ _ (HR i HiA)) as ND. unfold bcols in ND. revert Hp ND. generalize (seq 0 (bnz A i)). intros l. induction l as [|x l IH]; simpl; intros Hp ND; [constructor|].
        inversion ND as [|? ? N1 N2]. subst. destruct (p x) eqn:Ep; [|apply IH; auto; intros jp Hj; apply Hp; rewrite ?Ep; auto].
        simpl in *. constructor.
        - intros Hin. apply in_map_iff in Hin as (y & Ey & Hy). apply N1. apply in_map_iff. exists y. split; [|apply filter_In in Hy; apply Hy].
          pose proof (Hp x (or_introl eq_refl)). pose proof (Hp y (or_intror Hy)). lia.
        - apply IH; auto. }
      eapply wp_mono. { apply (append_row A T i q (filter p (seq 0 (bnz A i))) (fun jp => scol A i jp - icolb)).
        - auto.
        - lia.
        - exact ND.
        - intros jp H. apply Hp in H. rewrite Hb0. split; [lia|auto].
        - rewrite bnz_cols, Hb0. cbn [length plus]. rewrite EM, EMB. transitivity nb; [|auto].
          rewrite <- (map_length (fun jp => scol A i jp - icolb)). rewrite <- (seq_length nb 0). apply NoDup_incl_length; [exact ND|].
          intros c H. apply in_map_iff in H as (jp & <- & H). apply Hp in H. apply in_seq. lia.
        - intros T' jp Hjp W' K' Hm Hnc. apply Hp in Hjp as [Hj1 Hj2]. pose proof W' as (HS' & _ & _). pose proof K' as (_ & _ & EN' & EM' & EB' & _).
          destruct (ebwf_slot A i jp) as (Hjm & Hjc & Hjo & Hjl); auto.
          rewrite !b_bs_ok by auto. cbn [bind]. rewrite b_nnz_ok by (auto; lia). cbn [bind]. rewrite (b_blk_ok A i jp (sblk A i jp)) by auto. cbn [bind].
          assert (EBB : bbs T = s_bsize d) by congruence. assert (EBB' : bbs T' = s_bsize d) by congruence.
          set (jb := scol A i jp) in *.
          assert (Esz : bsz (s_bsize d) q * bsz (s_bsize d) (jb - icolb) = bsz (bbs A) i * bsz (bbs A) jb).
          { rewrite (Sr q), (Sc (jb - icolb)) by lia. unfold i. do 2 f_equal. lia. }
          rewrite EBB. set (m := bsz (bbs A) i * bsz (bbs A) jb) in *.
          apply (new_block_ok T' q (jb - icolb) m g _ (fun y => forall k, k < m -> nth k y k0 = nth k (sblk A i jp) k0)); auto; try lia.
          + rewrite EBB', Esz. auto.
          + intros z Lz. eapply wp_mono; [apply (blk_map_ok m _ (fun k => nth k (sblk A i jp) k0)); [lia|intros; apply rd_ok; lia]|].
            intros y (L1 & Y1 & _). split; [lia|exact Y1].
          + intros y B'' Ly Hy HPs. exists y. split; auto. intros k Hk. apply Hy. rewrite <- Esz. exact Hk. }
      intros T' (W' & K' & O' & C' & _ & V' & Z'). split; auto. split; auto. split; auto. split; auto.
      intros c k Hc' Hk. destruct (Nat.ltb_spec c nb) as [Hcn|Hcn].
      - destruct (slot_dec A i (icolb + c)) as [(jp & Hjp & Ej)|Hno].
        + rewrite (bel_hit A i _ jp k) by auto. rewrite <- (V' jp k).
          * f_equal. lia.
          * apply filter_In. split; [apply in_seq; lia|]. unfold p. rewrite Ej. apply andb_true_intro. split; [apply Nat.leb_le; lia|apply Nat.ltb_lt; lia].
          * replace (scol A i jp - icolb) with c by lia. exact Hk.
        + rewrite Z'.
          * rewrite bel_brow, Hrow, (fr_row _ _ _ _ _ HF), bel_miss by auto. reflexivity.
          * intros H. apply in_map_iff in H as (jp & Ej & H). apply Hp in H. apply (Hno jp); lia.
      - rewrite Z'; [rewrite bel_brow, Hrow, (fr_row _ _ _ _ _ HF); reflexivity|].
        intros H. apply in_map_iff in H as (jp & Ej & H). apply Hp in H. lia. }
    match type of G with wpq _ ?t _ => destruct t as [B| | |] end; cbn [wpq bind] in G |- *; try tauto.
    destruct G as (W & K & C & V & Z). pose proof K as (EN & EMM & ENB' & EMB' & EB & _). exists B. split; [reflexivity|]. split; auto. split; [apply C, HF|].
    split; [congruence|]. split; [congruence|]. split; [congruence|].
    intros ib jb k Hi Hj Hk. rewrite EBS, ENB in *. destruct (Nat.ltb_spec ib nb) as [H|H]; cbn [andb].
    - apply (V ib jb k); auto.
    - rewrite Z by (try lia). apply (fresh_zero _ _ _ _ _ _ _ _ HF).
  Qed.

  Lemma eb_extract_ok (d : defaults) A irowb icolb nb n BM (g : nat -> F) :
    ebwf A -> positive (bbs A) -> sizes_for d n ->
    irowb + nb <= bNB A -> icolb + nb <= bNB A -> nb <= s_nb d -> nb <= s_mb d ->
    sub_sizes (bbs A) (s_bsize d) 0 nb -> sub_sizes (bbs A) (s_bsize d) irowb nb -> sub_sizes (bbs A) (s_bsize d) icolb nb ->
    BM <= boff (bbs A) nb ->
    let irow := boff (bbs A) irowb in let icol := boff (bbs A) icolb in let BN := boff (bbs A) nb in
    exists B, eb_extract (Some d) A irow icol BN BM g = Ok (Some d, B) /\ ebwf B /\ clean B /\ bN B = n /\
      meq BN (ebmx B) (sub_at (ebmx A) irow icol) /\ forall i j, i < n -> j < n -> BN <= i \/ BN <= j -> ebmx B i j = k0.
  Proof.
    intros HW HP HSd Hr Hc Hnb Hmb S0 Sr Sc HBM irow icol BN. pose proof HW as (HS & _ & _). pose proof HSd as (D1 & D2 & D3 & D4).
    destruct (eb_extract_blocks d A irowb icolb nb n BM g) as (B & E & W & C & EN & ENB & EBS & V); auto.
    exists B. split; [exact E|]. split; auto. split; auto. split; auto. pose proof W as (HS' & _ & _).
    assert (EBN : BN = boff (s_bsize d) nb). { pose proof (sub_boff (bbs A) (s_bsize d) 0 nb nb S0 (le_n _)) as Eb. exact Eb. }
    assert (Loc : forall i, i < n -> exists ib ii, ib < s_nb d /\ ii < bsz (s_bsize d) ib /\ i = boff (s_bsize d) ib + ii /\ (i < BN <-> ib < nb)).
    { intros i Hi. rewrite <- D4, <- D3 in Hi. destruct (bloc_spec _ _ Hi) as (ib & ii & _ & H1 & H2 & H3). exists ib, ii. rewrite <- D3.
      split; auto. split; auto. split; auto. rewrite EBN, H3. split; intros H.
      - destruct (Nat.lt_ge_cases ib nb); auto. pose proof (boff_mono (s_bsize d) nb ib ltac:(auto)). lia.
      - apply boff_in; auto. }
    assert (HnB : BN <= n). { rewrite EBN, <- D4. apply boff_mono. auto. }
    split.
    - intros i j Hi Hj. destruct (Loc i ltac:(lia)) as (ib & ii & I1 & I2 & I3 & I4). destruct (Loc j ltac:(lia)) as (jb & jj & J1 & J2 & J3 & J4).
      apply I4 in Hi. apply J4 in Hj. subst i j. unfold sub_at, irow, icol.
      rewrite !Nat.add_assoc. rewrite <- (sub_boff (bbs A) (s_bsize d) irowb nb ib), <- (sub_boff (bbs A) (s_bsize d) icolb nb jb) by (auto; lia).
      pose proof (ebmx_at B ib jb ii jj) as EB'. rewrite EBS in EB'. rewrite EB' by (auto; lia).
      rewrite V by (auto; apply pos_lt; auto). apply Nat.ltb_lt in Hi as Hi'. apply Nat.ltb_lt in Hj as Hj'. rewrite Hi', Hj'. cbn [andb].
      rewrite ebmx_at by (auto; try lia; try (rewrite <- (Sr ib) by auto; auto); rewrite <- (Sc jb) by auto; auto).
      rewrite (Sc jb) by auto. reflexivity.
    - intros i j Hi Hj Ho. destruct (Loc i Hi) as (ib & ii & I1 & I2 & I3 & I4). destruct (Loc j Hj) as (jb & jj & J1 & J2 & J3 & J4). subst i j.
      pose proof (ebmx_at B ib jb ii jj) as EB'. rewrite EBS in EB'. rewrite EB' by (auto; lia).
      rewrite V by (auto; apply pos_lt; auto). destruct (Nat.ltb_spec ib nb); cbn [andb]; auto. destruct (Nat.ltb_spec jb nb); auto. exfalso. tauto || lia.
  Qed.

  (** ** assign *)
  Lemma eb_assign_ok A B irowb icolb (g : nat -> F) :
    ebwf A -> ebwf B -> positive (bbs A) -> irowb + bNB B <= bNB A -> icolb + bNB B <= bNB A ->
    sub_sizes (bbs A) (bbs B) 0 (bNB B) -> sub_sizes (bbs A) (bbs B) irowb (bNB B) -> sub_sizes (bbs A) (bbs B) icolb (bNB B) ->
    (forall ib jb, ib < bNB B -> jb < bNB B -> ~ In (icolb + jb) (bcols A (irowb + ib))) ->
    (forall ib, ib < bNB B -> bnz A (irowb + ib) + bnz B ib <= bMB A) ->
    let irow := boff (bbs A) irowb in let icol := boff (bbs A) icolb in
    exists A', eb_assign A B irow icol g = Ok A' /\ ebwf A' /\ (clean A -> clean A') /\ same_dims A A' /\
      meq (bN A) (ebmx A') (paste (ebmx A) (ebmx B) irow icol (bN B)).
  Proof.
    intros HW HWB HP Hr Hc S0 Sr Sc Hfree Hroom irow icol. pose proof HW as (HS & HO & HR). pose proof HWB as (HSB & HOB & HRB).
    pose proof (sh_bs A HS) as LB. unfold eb_assign, irow, icol. rewrite !block_start_ok by (auto; lia). cbn [bind].
    match goal with |- context [for_n (bNB B) ?b A] => set (body := b) end.
    assert (G : wpq False (for_n (bNB B) body A) (fun T => ebwf T /\ kin A T /\ (clean A -> clean T) /\
       (forall q c k, q < bNB B -> c < bNB A -> k < bsz (bbs A) (irowb + q) * bsz (bbs A) c ->
          bel T (irowb + q) c k = if ((icolb <=? c) && (c <? icolb + bNB B))%bool then bel B q (c - icolb) k else bel A (irowb + q) c k) /\
       (forall i c k, i < bNB A -> ~ (irowb <= i < irowb + bNB B) -> bel T i c k = bel A i c k))).
    { apply append_rows; auto. intros q T Hq W K Hrow. pose proof K as (_ & _ & EN & EM & EB & _).
      unfold body. rewrite b_for_row_unfold by auto. unfold for_n. rewrite (Nat.add_comm q irowb).
      destruct (brow_eq _ _ _ Hrow) as [Enz Ecols].
      eapply wp_mono. { apply (append_row B T q (irowb + q) (seq 0 (bnz B q)) (fun jp => scol B q jp + icolb)).
        - auto.
        - lia.
        - pose proof (bro_nodup _ _ (HRB q Hq)) as ND. unfold bcols in ND. rewrite <- (map_map (scol B q) (fun c => c + icolb)).
          apply FinFun.Injective_map_NoDup; auto. intros x y Hxy. lia.
        - intros jp H. apply in_seq in H. destruct (ebwf_slot B q jp) as (_ & Hjc & _); auto; [lia|]. split; [lia|]. rewrite Ecols, Nat.add_comm. apply Hfree; auto.
        - rewrite seq_length, Enz, EM. auto.
        - intros T' jp Hjp W' K' Hm Hnc. apply in_seq in Hjp. pose proof W' as (HS' & _ & _). pose proof K' as (_ & _ & EN' & EM' & EB' & _).
          destruct (ebwf_slot B q jp) as (Hjm & Hjc & Hjo & Hjl); auto; [lia|].
          rewrite !b_bs_ok by (auto; lia). cbn [bind]. rewrite b_nnz_ok by (auto; lia). cbn [bind]. rewrite (b_blk_ok B q jp (sblk B q jp)) by auto. cbn [bind].
          assert (EBB : bbs T = bbs A) by congruence. assert (EBB' : bbs T' = bbs A) by congruence. rewrite EBB, EBB'.
          set (jb := scol B q jp) in *.
          pose proof (S0 q Hq) as S1. pose proof (S0 jb Hjc) as S2. pose proof (Sr q Hq) as S3. pose proof (Sc jb Hjc) as S4. cbn [plus] in S1, S2.
          rewrite (Nat.add_comm jb icolb), <- S1, <- S2, <- S3, <- S4. set (m := bsz (bbs B) q * bsz (bbs B) jb) in *.
          rewrite (Nat.add_comm jb icolb) in Hnc.
          apply (new_block_ok T' (irowb + q) (icolb + jb) m g _ (fun y => forall k, k < m -> nth k y k0 = nth k (sblk B q jp) k0)); auto; try lia.
          + rewrite EBB', <- S3, <- S4. auto.
          + intros z Lz. eapply wp_mono; [apply (blk_map_ok m _ (fun k => nth k (sblk B q jp) k0)); [lia|intros; apply rd_ok; lia]|].
            intros y (L1 & Y1 & _). split; [lia|exact Y1].
          + intros y B'' Ly Hy HPs. exists y. split; auto. }
      intros T' (W' & K' & O' & C' & _ & V' & Z'). split; auto. split; auto. split; auto. split; auto.
      intros c k Hc' Hk. destruct (Nat.leb_spec icolb c) as [H1|H1]; cbn [andb].
      - destruct (Nat.ltb_spec c (icolb + bNB B)) as [H2|H2].
        + destruct (slot_dec B q (c - icolb)) as [(jp & Hjp & Ej)|Hno].
          * rewrite (bel_hit B q _ jp k) by auto. rewrite <- (V' jp k).
            { f_equal. lia. } { apply in_seq; lia. } { replace (scol B q jp + icolb) with c by lia. exact Hk. }
          * rewrite Z'.
            { rewrite bel_brow, Hrow, <- bel_brow, !bel_miss; auto. intros jp Hjp E. apply (Hfree q (c - icolb)); auto; [lia|].
              replace (icolb + (c - icolb)) with c by lia. rewrite <- E. unfold bcols. apply in_map. apply in_seq; lia. }
            { intros H. apply in_map_iff in H as (jp & Ej & H). apply in_seq in H. apply (Hno jp); lia. }
        + rewrite Z'; [rewrite bel_brow, Hrow, <- bel_brow; reflexivity|].
          intros H. apply in_map_iff in H as (jp & Ej & H). apply in_seq in H. destruct (ebwf_slot B q jp) as (_ & Hjc & _); auto; lia.
      - rewrite Z'; [rewrite bel_brow, Hrow, <- bel_brow; reflexivity|].
        intros H. apply in_map_iff in H as (jp & Ej & H). lia. }
    match type of G with wpq _ ?t _ => destruct t as [A'| | |] end; cbn [wpq bind] in G |- *; try tauto.
    destruct G as (W & K & C & V & Z). pose proof K as (EN & EMM & ENB' & EMB' & EB & _). exists A'. split; [reflexivity|]. split; auto. split; auto.
    split; [repeat split; auto|]. pose proof W as (HS' & _ & _). rewrite <- EN.
    apply meq_blocks; auto. rewrite ENB', EB. intros ib jb k Hi Hj Hk.
    destruct (pos_split _ _ _ Hk) as (P1 & P2 & P3). unfold xb, paste.
    assert (EBN : forall b, sub_sizes (bbs A) (bbs B) b (bNB B) -> boff (bbs A) (b + bNB B) = boff (bbs A) b + bN B).
    { intros b Hb. rewrite (sub_boff _ _ b _ _ Hb) by auto. f_equal. rewrite (shape_N B HSB), (sh_bs B HSB). reflexivity. }
    assert (Rng : forall b0 ib0 ii, sub_sizes (bbs A) (bbs B) b0 (bNB B) -> ii < bsz (bbs A) ib0 ->
       ((boff (bbs A) b0 <=? boff (bbs A) ib0 + ii) && (boff (bbs A) ib0 + ii <? boff (bbs A) b0 + bN B) = (b0 <=? ib0) && (ib0 <? b0 + bNB B))%bool).
    { intros b0 ib0 ii Hs Hii. rewrite <- EBN by auto. f_equal.
      - destruct (Nat.leb_spec b0 ib0) as [H|H].
        + apply Nat.leb_le. pose proof (boff_mono (bbs A) _ _ H). lia.
        + apply Nat.leb_gt. pose proof (boff_in (bbs A) ib0 ii b0 H Hii). lia.
      - destruct (Nat.ltb_spec ib0 (b0 + bNB B)) as [H|H].
        + apply Nat.ltb_lt. apply boff_in; auto.
        + apply Nat.ltb_ge. pose proof (boff_mono (bbs A) _ _ H). lia. }
    unfold in_block.
    pose proof (Rng irowb ib (k / bsz (bbs A) jb) Sr P1) as R1. pose proof (Rng icolb jb (k mod bsz (bbs A) jb) Sc P2) as R2.
    rewrite <- !andb_assoc. rewrite (andb_assoc (boff (bbs A) irowb <=? _)), R1, R2.
    destruct (Nat.leb_spec irowb ib) as [H1|H1]; cbn [andb].
    2:{ rewrite Z by lia. symmetry. apply (ebmx_xb A ib jb k); auto. }
    destruct (Nat.ltb_spec ib (irowb + bNB B)) as [H2|H2]; cbn [andb].
    2:{ rewrite Z by lia. symmetry. apply (ebmx_xb A ib jb k); auto. }
    replace ib with (irowb + (ib - irowb)) by lia. rewrite V by (try lia; auto; replace (irowb + (ib - irowb)) with ib by lia; auto).
    replace (irowb + (ib - irowb)) with ib by lia.
    destruct ((icolb <=? jb) && (jb <? icolb + bNB B))%bool eqn:Ec.
    2:{ symmetry. apply (ebmx_xb A ib jb k); auto. }
    apply andb_prop in Ec as [H3 H4]. apply Nat.leb_le in H3. apply Nat.ltb_lt in H4.
    pose proof (sub_boff _ _ _ _ (ib - irowb) Sr ltac:(lia)) as F1. pose proof (sub_boff _ _ _ _ (jb - icolb) Sc ltac:(lia)) as F2.
    replace (irowb + (ib - irowb)) with ib in F1 by lia. replace (icolb + (jb - icolb)) with jb in F2 by lia.
    pose proof (Sr (ib - irowb) ltac:(lia)) as G1. pose proof (Sc (jb - icolb) ltac:(lia)) as G2.
    replace (irowb + (ib - irowb)) with ib in G1 by lia. replace (icolb + (jb - icolb)) with jb in G2 by lia.
    rewrite F1, F2. replace (boff (bbs A) irowb + boff (bbs B) (ib - irowb) + k / bsz (bbs A) jb - boff (bbs A) irowb) with (boff (bbs B) (ib - irowb) + k / bsz (bbs A) jb) by lia.
    replace (boff (bbs A) icolb + boff (bbs B) (jb - icolb) + k mod bsz (bbs A) jb - boff (bbs A) icolb) with (boff (bbs B) (jb - icolb) + k mod bsz (bbs A) jb) by lia.
    rewrite <- G2. rewrite <- G1, <- G2 in Hk. symmetry. apply (ebmx_xb B (ib - irowb) (jb - icolb) k); auto; lia.
  Qed.
End Sub.
