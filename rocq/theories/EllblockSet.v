(** Setters and in-place updates of the block format. *)
From Verif Require Import Base BaseFacts Spec SpecFacts EllpackModel EllpackSpec EllblockModel EllblockSpec EllblockFacts EllblockHeap EllblockRead EllblockBuild EllblockMake.

Section SetOps.
  Context {F : scalar}.
  Local Notation eb := (eb F).
  Implicit Types A B : eb.
  Add Ring KRset : (k_ring F).

  Lemma meq_trans' n (X Y Z : mat F) : meq n X Y -> meq n Y Z -> meq n X Z.
  Proof. intros H H' i j Hi Hj. rewrite H by auto. auto. Qed.

  (** ** set_row *)
  (** the block columns row [i] of the matrix touches: those with a block and
      those of a kept element of [row] *)
  Lemma eb_set_row_ok (keep : F -> bool) A i row (g : nat -> F) : ebwf A -> i < bN A -> length row = bN A ->
    count (bNB A) (row_cols keep A i row) <= bMB A ->
    exists A', eb_set_row keep A i row g = Ok A' /\ ebwf A' /\ (clean A -> clean A') /\ same_dims A A' /\
      meq (bN A) (ebmx A') (fun i' j' => if ((i' =? i) && keep (nth j' row k0))%bool then nth j' row k0 else ebmx A i' j').
  Proof.
    intros HW Hi HL Hroom. pose proof HW as (HS & HO & HR). apply wp_ok. unfold eb_set_row.
    assert (Hi0 := Hi). rewrite (shape_N A HS) in Hi0. rewrite locate_ok by auto. cbn [bind plus].
    destruct (bloc_spec _ _ Hi0) as (ib & ii & E1 & Hib & Hii & Ei). rewrite E1. cbn [fst snd]. rewrite (sh_bs A HS) in Hib.
    eapply wp_mono. { apply (for_n_inv (fun n A' => ebwf A' /\ kin A A' /\ (clean A -> clean A') /\
        (forall c, In c (bcols A' ib) -> c < bNB A /\ row_cols keep A i row c = true) /\
        meq (bN A) (ebmx A') (fun i' j' => if ((i' =? i) && ((j' <? n) && keep (nth j' row k0)))%bool then nth j' row k0 else ebmx A i' j'))).
      - split; auto. split; [apply kin_refl|]. split; auto. split.
        + intros c Hc. split.
          * unfold bcols in Hc. apply in_map_iff in Hc as (jp & <- & Hj). apply in_seq in Hj. destruct (ebwf_slot A ib jp) as (_ & H & _); auto; lia.
          * unfold row_cols, blk_of. rewrite E1. cbn [fst]. apply orb_true_intro. left. apply existsb_exists. exists c. split; auto. apply Nat.eqb_refl.
        + intros i' j' _ _. cbn [Nat.ltb Nat.leb andb]. rewrite andb_false_r. reflexivity.
      - intros k A1 Hk (W & K & C & Hc & HM). pose proof K as (EN & _ & ENB & EMB & EB & _). pose proof W as (HS1 & _ & HR1).
        apply wp_bind. rewrite (rd_ok row k k0) by lia. cbn [wpq]. set (v := nth k row k0).
        destruct (keep v) eqn:Ev.
        + assert (Hk0 := Hk). rewrite (shape_N A HS) in Hk0. rewrite EB. rewrite locate_ok by auto. cbn [bind plus].
          destruct (bloc_spec _ _ Hk0) as (jb & jj & E2 & Hjb & Hjj & Ek). rewrite E2. cbn [fst snd]. rewrite (sh_bs A HS) in Hjb.
          assert (HF : forall A', elem_set A1 ib jb (ii * bsz (bbs A1) jb + jj) v A' -> ebwf A' /\ kin A A' /\ (clean A -> clean A') /\
             (forall c, In c (bcols A' ib) -> c < bNB A /\ row_cols keep A i row c = true) /\
             meq (bN A) (ebmx A') (fun i' j' => if ((i' =? i) && ((j' <? S k) && keep (nth j' row k0)))%bool then nth j' row k0 else ebmx A i' j')).
          { intros A' HE. split; [apply HE|]. split; [eapply kin_trans; [exact K|apply HE]|]. split; [intros; apply HE; auto|]. split.
            - intros c Hin. apply (es_cols _ _ _ _ _ _ HE) in Hin as [Hin|[_ ->]]; [auto|split; auto|lia].
              unfold row_cols. apply orb_true_intro. right. apply existsb_exists. exists jj. split; [apply in_seq; lia|]. rewrite <- Ek. exact Ev.
            - pose proof (elem_set_mx A1 ib jb ii jj v A' HS1 ltac:(lia) ltac:(lia) ltac:(rewrite EB; auto) ltac:(rewrite EB; auto) HE) as HX.
              rewrite EN, EB, <- Ei, <- Ek in HX. eapply meq_trans'; [exact HX|]. intros i' j' Hi' Hj'. cbv beta.
              destruct (Nat.eqb_spec i' i) as [->|Hni]; cbn [andb].
              + destruct (Nat.eqb_spec j' k) as [->|Hnj]; cbn [andb].
                * destruct (Nat.ltb_spec k (S k)); [|lia]. fold v. rewrite Ev. reflexivity.
                * rewrite HM by auto. rewrite Nat.eqb_refl. cbn [andb]. destruct (Nat.ltb_spec j' k), (Nat.ltb_spec j' (S k)); try lia; reflexivity.
              + rewrite HM by auto. destruct (Nat.eqb_spec i' i); [lia|]. reflexivity. }
          apply wp_bind. eapply wp_mono; [apply put_found_ok; rewrite ?ENB, ?EB; auto|]. intros [A2 f] [(Hin & Ef & HE)|(Hn & E)]; cbn [fst snd] in *.
          * rewrite Ef. cbn [wpq]. apply HF; auto.
          * injection E as -> ->. eapply wp_mono; [apply put_new_ok; rewrite ?ENB, ?EB; auto|apply HF].
            rewrite bnz_cols, EMB. eapply Nat.lt_le_trans; [|exact Hroom]. unfold count.
            change (length (jb :: bcols A1 ib) <= length (filter (row_cols keep A i row) (seq 0 (bNB A)))).
            apply NoDup_incl_length. { constructor; auto. apply (bro_nodup _ _ (HR1 ib ltac:(lia))). }
            intros c [<-|Hin]; apply filter_In.
            { split; [apply in_seq; lia|]. unfold row_cols. apply orb_true_intro. right. apply existsb_exists. exists jj. split; [apply in_seq; lia|]. rewrite <- Ek. exact Ev. }
            { apply Hc in Hin as [H1 H2]. split; auto. apply in_seq. lia. }
        + cbn [wpq]. split; auto. split; auto. split; auto. split; auto. eapply meq_trans'; [exact HM|]. intros i' j' Hi' Hj'. cbv beta.
          destruct (Nat.eqb_spec i' i); cbn [andb]; auto. destruct (Nat.ltb_spec j' k), (Nat.ltb_spec j' (S k)); try lia; auto.
          assert (j' = k) as -> by lia. fold v. rewrite Ev. reflexivity. }
    intros A' (W & K & C & _ & HM). split; auto. split; auto. split; [apply kin_dims; auto|]. eapply meq_trans'; [exact HM|].
    intros i' j' Hi' Hj'. cbv beta. destruct (Nat.ltb_spec j' (bN A)); [reflexivity|lia].
  Qed.

  (** ** Row by row *)
  Lemma map_rows {e X} A0 (acc : nat -> X) (P : nat -> list nat -> Prop) (spec : nat -> nat -> nat -> F) (body : nat -> eb * X -> res (eb * X)) : ebwf A0 ->
    (forall ib A, ib < bNB A0 -> ebwf A -> kin A0 A -> brow A ib = brow A0 ib -> (forall n, roomy n A0 -> roomy n A) -> wpq e (body ib (A, acc ib)) (fun r =>
       ebwf (fst r) /\ kin A (fst r) /\ (forall i, i < bNB A -> i <> ib -> brow (fst r) i = brow A i) /\ (clean A -> clean (fst r)) /\
       (forall n, roomy n A -> roomy n (fst r)) /\ snd r = acc (S ib) /\ P ib (bcols (fst r) ib) /\
       forall jb k, jb < bNB A -> k < bsz (bbs A) ib * bsz (bbs A) jb -> bel (fst r) ib jb k = spec ib jb k)) ->
    wpq e (for_n (bNB A0) body (A0, acc 0)) (fun r => ebwf (fst r) /\ kin A0 (fst r) /\ (clean A0 -> clean (fst r)) /\ (forall n, roomy n A0 -> roomy n (fst r)) /\
       (forall ib, ib < bNB A0 -> P ib (bcols (fst r) ib)) /\
       forall ib jb k, ib < bNB A0 -> jb < bNB A0 -> k < bsz (bbs A0) ib * bsz (bbs A0) jb -> bel (fst r) ib jb k = spec ib jb k).
  Proof.
    intros HW Hbody. eapply wp_mono. { apply (for_n_inv (fun n r => ebwf (fst r) /\ kin A0 (fst r) /\ (clean A0 -> clean (fst r)) /\ (forall n, roomy n A0 -> roomy n (fst r)) /\ snd r = acc n /\ (forall ib, ib < n -> P ib (bcols (fst r) ib)) /\
       (forall ib jb k, ib < n -> jb < bNB A0 -> k < bsz (bbs A0) ib * bsz (bbs A0) jb -> bel (fst r) ib jb k = spec ib jb k) /\
       (forall ib, n <= ib < bNB A0 -> brow (fst r) ib = brow A0 ib))).
      - split; auto. split; [apply kin_refl|]. split; auto. split; auto. split; auto. split; [intros; lia|]. split; [intros; lia|]. auto.
      - intros ib [A x] Hi (W & K & C & T & Ex & HPc & V & Z). cbn [fst snd] in *. subst x. pose proof K as (_ & _ & EN & EM & EB & _). eapply wp_mono; [apply Hbody; auto; apply Z; lia|].
        intros [A' x'] (W' & K' & O' & C' & T' & E' & P' & V'). cbn [fst snd] in *. split; auto. split; [eapply kin_trans; eauto|]. split; auto. split; auto. split; auto.
        split. { intros i Hi'. destruct (Nat.eq_dec i ib) as [->|]; auto. rewrite <- brow_cols, O', brow_cols by lia. apply HPc. lia. }
        split.
        + intros i jb k Hi' Hj Hk. destruct (Nat.eq_dec i ib) as [->|Hne].
          * apply V'; rewrite ?EN, ?EB; auto.
          * rewrite bel_brow, O', <- bel_brow by (rewrite ?EN; lia). apply V; auto; lia.
        + intros i Hi'. rewrite O' by (rewrite ?EN; lia). apply Z. lia. }
    intros [A x] (W & K & C & T & _ & HPc & V & _). cbn [fst snd] in *. repeat (split; auto).
  Qed.

  (** changing every block of a row in place *)
  Lemma map_row {e} A0 ib (h : nat -> nat -> F) (body : nat -> eb -> res eb) : ebwf A0 -> ib < bNB A0 ->
    (forall jp A, jp < bnz A0 ib -> ebwf A -> kin A0 A -> bnz A ib = bnz A0 ib -> scol A ib jp = scol A0 ib jp -> sblk A ib jp = sblk A0 ib jp ->
      wpq e (body jp A) (fun A' => exists y, changed A ib jp y A' /\ length y = length (sblk A0 ib jp) /\
         forall k, k < bsz (bbs A0) ib * bsz (bbs A0) (scol A0 ib jp) -> nth k y k0 = h jp k)) ->
    wpq e (for_n (bnz A0 ib) body A0) (fun A => ebwf A /\ kin A0 A /\ (forall i, i < bNB A0 -> i <> ib -> brow A i = brow A0 i) /\
      (clean A0 -> clean A) /\ (forall n, roomy n A0 -> roomy n A) /\ bcols A ib = bcols A0 ib /\
      (forall jp k, jp < bnz A0 ib -> k < bsz (bbs A0) ib * bsz (bbs A0) (scol A0 ib jp) -> bel A ib (scol A0 ib jp) k = h jp k)).
  Proof.
    intros HW Hi Hbody. pose proof HW as (HS & HO & HR).
    eapply wp_mono. { apply (for_n_inv (fun n A => ebwf A /\ kin A0 A /\ (forall i, i < bNB A0 -> i <> ib -> brow A i = brow A0 i) /\
      (clean A0 -> clean A) /\ (forall n, roomy n A0 -> roomy n A) /\ bnz A ib = bnz A0 ib /\
      (forall jp, jp < bnz A0 ib -> scol A ib jp = scol A0 ib jp) /\
      (forall jp, n <= jp < bnz A0 ib -> sblk A ib jp = sblk A0 ib jp) /\
      (forall jp k, jp < n -> k < bsz (bbs A0) ib * bsz (bbs A0) (scol A0 ib jp) -> nth k (sblk A ib jp) k0 = h jp k))).
      - split; auto. split; [apply kin_refl|]. repeat (split; auto). intros; lia.
      - intros jp A Hj (W & K & O & C & T & En & Ec & Eb & V). eapply wp_mono; [apply Hbody; auto; apply Eb; lia|].
        pose proof K as (_ & _ & EN & EM & EB & _).
        intros A' (y & HC & Ly & Hy). split; [apply HC|]. split; [eapply kin_trans; [exact K|apply HC]|]. split.
        { intros i Hi' Hne. rewrite (ch_other _ _ _ _ _ HC) by (auto; lia). auto. }
        split; [intros; apply HC; auto|]. split; [intros; apply HC; auto|].
        pose proof (changed_cols A ib jp y A' ib W HC ltac:(lia) ltac:(lia)) as Ecol.
        assert (En' : bnz A' ib = bnz A0 ib) by (rewrite <- En, !bnz_cols, Ecol; auto).
        assert (Hrow : forall q, q < bnz A0 ib -> (scol A' ib q, sblk A' ib q) = if q =? jp then (scol A ib jp, y) else (scol A ib q, sblk A ib q)).
        { intros q Hq. rewrite <- !brow_nth by lia. rewrite (ch_row _ _ _ _ _ HC), nth_set_nth, brow_length.
          destruct (Nat.eqb_spec q jp); cbn [andb]; auto. destruct (Nat.ltb_spec jp (bnz A ib)); auto; lia. }
        split; auto. split; [|split].
        + intros q Hq. specialize (Hrow q Hq). destruct (Nat.eqb_spec q jp) as [Eq|]; injection Hrow as H1 H2; rewrite H1; [rewrite Eq|]; auto.
        + intros q Hq. specialize (Hrow q ltac:(lia)). destruct (Nat.eqb_spec q jp) as [Eq|]; [lia|]. injection Hrow as H1 H2. rewrite H2. apply Eb. lia.
        + intros q k Hq Hk. specialize (Hrow q ltac:(lia)). destruct (Nat.eqb_spec q jp) as [Eq|]; injection Hrow as H1 H2; rewrite H2; [rewrite Eq in *; auto|]. apply V; auto. lia. }
    intros A (W & K & O & C & T & En & Ec & _ & V). split; auto. split; auto. split; auto. split; auto. split; auto. split.
    - unfold bcols. rewrite En. apply map_ext_in. intros jp Hj. apply in_seq in Hj. apply Ec. lia.
    - intros jp k Hj Hk. pose proof W as (_ & _ & HR'). pose proof K as (_ & _ & EN & _). rewrite (bel_hit A ib _ jp k); auto; try lia. apply HR'. lia.
  Qed.


  (** ** scale in place *)
  Lemma for_n_unit {S} n (body : nat -> S -> res S) s :
    for_n n body s = bind (for_n n (fun i '(s, tt) => x <- body i s ;; Ok (x, tt)) (s, tt)) (fun r => Ok (fst r)).
  Proof.
    unfold for_n. generalize (seq 0 n). intros l. revert s. induction l as [|i l IH]; intros s; [reflexivity|]. simpl.
    destruct (body i s); cbn [bind]; auto.
  Qed.
  Lemma map_rows0 {e} A0 (P : nat -> list nat -> Prop) (spec : nat -> nat -> nat -> F) (body : nat -> eb -> res eb) : ebwf A0 ->
    (forall ib A, ib < bNB A0 -> ebwf A -> kin A0 A -> brow A ib = brow A0 ib -> wpq e (body ib A) (fun A' =>
       ebwf A' /\ kin A A' /\ (forall i, i < bNB A -> i <> ib -> brow A' i = brow A i) /\ (clean A -> clean A') /\
       (forall n, roomy n A -> roomy n A') /\ P ib (bcols A' ib) /\
       forall jb k, jb < bNB A -> k < bsz (bbs A) ib * bsz (bbs A) jb -> bel A' ib jb k = spec ib jb k)) ->
    wpq e (for_n (bNB A0) body A0) (fun A => ebwf A /\ kin A0 A /\ (clean A0 -> clean A) /\ (forall n, roomy n A0 -> roomy n A) /\
       (forall ib, ib < bNB A0 -> P ib (bcols A ib)) /\
       forall ib jb k, ib < bNB A0 -> jb < bNB A0 -> k < bsz (bbs A0) ib * bsz (bbs A0) jb -> bel A ib jb k = spec ib jb k).
  Proof.
    intros HW Hbody. rewrite for_n_unit. apply wp_bind. eapply wp_mono.
    - apply (map_rows A0 (fun _ => tt) P spec); auto. intros ib A Hi W K E _. apply wp_bind. eapply wp_mono; [apply Hbody; auto|].
      intros A' (H1 & H2 & H3 & H4 & H5 & H6 & H7). cbn [wpq fst snd]. repeat (split; auto).
    - intros [A []] H. cbn [wpq fst] in *. exact H.
  Qed.

  Lemma eb_scale_inplace_ok (a : F) A : ebwf A ->
    exists A', eb_scale_inplace a A = Ok A' /\ ebwf A' /\ (clean A -> clean A') /\ (forall n, roomy n A -> roomy n A') /\ same_dims A A' /\
      (forall ib, ib < bNB A -> bcols A' ib = bcols A ib) /\ meq (bN A) (ebmx A') (mscale a (ebmx A)).
  Proof.
    intros HW. pose proof HW as (HS & HO & HR). apply wp_ok. unfold eb_scale_inplace.
    pose proof (k_ring F) as Rg.
    eapply wp_mono. { apply (map_rows0 A (fun ib cs => cs = bcols A ib) (fun ib jb k => kmul a (bel A ib jb k))); auto.
      intros ib B Hi W K E. pose proof K as (_ & _ & EN & EM & EB & _). pose proof W as (HSB & _ & HRB).
      assert (HiB : ib < bNB B) by lia.
      apply wp_bind. rewrite b_nnz_ok by auto. cbn [wpq].
      eapply wp_mono. { apply (map_row B ib (fun jp k => kmul a (nth k (sblk B ib jp) k0))); auto.
        intros jp B1 Hj W1 K1 En Ec Es. pose proof W1 as (HS1 & _ & _). pose proof K1 as (_ & _ & EN1 & EM1 & EB1 & _).
        destruct (ebwf_slot B1 ib jp) as (Hm & Hc & Hx & Hl); auto; try lia.
        apply wp_bind. rewrite rd_idx_ok by (auto; lia). cbn [wpq]. rewrite Ec in *.
        apply wp_bind. rewrite b_bs_ok by (auto; lia). cbn [wpq]. apply wp_bind. rewrite b_bs_ok by (auto; lia). cbn [wpq].
        apply wp_bind. rewrite (b_blk_ok B1 ib jp (sblk B1 ib jp)) by (auto; lia). cbn [wpq]. apply wp_bind. rewrite EB1 in *.
        eapply wp_mono; [apply (blk_map_ok _ _ (fun k => kmul a (nth k (sblk B ib jp) k0))); [exact Hl|]|].
        - intros k Hk. rewrite Es. reflexivity.
        - intros y (L1 & Y1 & _). eapply wp_mono; [apply change_ok; auto; try lia|].
          { rewrite Ec, EB1. lia. }
          intros B2 HC. exists y. split; auto. split; [congruence|]. auto. }
      intros B' (W' & K' & O' & C' & T' & Col' & V'). split; auto. split; auto. split; auto. split; auto. split; auto.
      split; [rewrite Col', <- !brow_cols, E; reflexivity|].
      intros jb k Hj Hk. rewrite (bel_brow A), <- E, <- bel_brow.
      destruct (slot_dec B ib jb) as [(jp & Hjp & <-)|Hno].
      - rewrite V' by auto. rewrite (bel_hit B ib _ jp k) by auto. reflexivity.
      - rewrite (bel_miss B) by auto. rewrite bel_miss; [ring|]. intros jp Hjp Ej.
        assert (Hin : In jb (bcols B' ib)). { unfold bcols. apply in_map_iff. exists jp. split; auto. apply in_seq; lia. }
        rewrite Col' in Hin. unfold bcols in Hin. apply in_map_iff in Hin as (q & Eq & Hq). apply in_seq in Hq. apply (Hno q); auto; lia. }
    intros A' (W & K & C & T & Cs & V). split; auto. split; auto. split; auto. split; [apply kin_dims; auto|]. split; auto.
    pose proof K as (EN & _ & ENB & EMB & EB & _). rewrite <- EN. pose proof W as (HS' & _). apply meq_blocks; auto. rewrite ENB, EB.
    intros ib jb k Hi Hj Hk. rewrite V by auto. unfold mscale, xb. f_equal. symmetry. apply ebmx_xb; auto.
  Qed.
  (** ** set_diagonal *)
  Lemma nth_skipn' n (l : list F) k : nth k (skipn n l) k0 = nth (n + k) l k0.
  Proof. revert l; induction n as [|n IH]; intros [|x l]; simpl; auto; destruct k; auto. Qed.
  Definition kpt A B : Prop := (clean A -> clean B) /\ forall n, roomy n A -> roomy n B.
  Lemma kpt_refl A : kpt A A.
  Proof. split; auto. Qed.
  Lemma kpt_trans A B C : kpt A B -> kpt B C -> kpt A C.
  Proof. intros [H1 H2] [H3 H4]. split; auto. Qed.
  Lemma eb_set_diagonal_ok (keep : F -> bool) A diag (g : nat -> F) : ebwf A -> length diag = bN A ->
    (forall ib, ib < bNB A -> dkeep (bbs A) keep diag ib = true -> In ib (bcols A ib) \/ bnz A ib < bMB A) ->
    exists A', eb_set_diagonal keep A diag g = Ok A' /\ ebwf A' /\ (clean A -> clean A') /\ (forall n, roomy n A -> roomy n A') /\ same_dims A A' /\
      meq (bN A) (ebmx A') (set_diag (bbs A) keep diag (ebmx A)).
  Proof.
    intros HW HL Hroom. pose proof HW as (HS & HO & HR). apply wp_ok. unfold eb_set_diagonal. apply wp_bind.
    set (dv := fun ib ii => if dkeep (bbs A) keep diag ib then nth (boff (bbs A) ib + ii) diag k0 else k0).
    set (spec := fun ib jb k => if ((ib =? jb) && (k / bsz (bbs A) jb =? k mod bsz (bbs A) jb))%bool then dv ib (k / bsz (bbs A) jb) else bel A ib jb k).
    eapply wp_mono. { change 0 with (boff (bbs A) 0) at 1. apply (for_n_inv (fun n r => ebwf (fst r) /\ kin A (fst r) /\ kpt A (fst r) /\ snd r = boff (bbs A) n /\
       (forall ib jb k, ib < n -> jb < bNB A -> k < bsz (bbs A) ib * bsz (bbs A) jb -> bel (fst r) ib jb k = spec ib jb k) /\
       (forall ib, n <= ib < bNB A -> brow (fst r) ib = brow A ib))).
      - split; auto. split; [apply kin_refl|]. split; [apply kpt_refl|]. split; auto. split; [intros; lia|]. auto.
      - intros ib [B x] Hi (W & K & C & Ex & V & Z). cbn [fst snd] in *. subst x. pose proof K as (_ & _ & EN & EM & EB & _).
        pose proof W as (HSB & HOB & HRB). assert (HiB : ib < bNB B) by lia. specialize (Z ib ltac:(lia)) as E.
        assert (Ecol : bcols B ib = bcols A ib) by (rewrite <- !brow_cols, E; auto).
        assert (En : bnz B ib = bnz A ib) by (rewrite !bnz_cols, Ecol; auto).
        apply wp_bind. rewrite b_bs_ok by auto. cbn [wpq]. apply wp_bind. rewrite b_nnz_ok by auto. cbn [wpq].
        rewrite EB. set (b := bsz (bbs A) ib). set (off := boff (bbs A) ib).
        assert (Hoff : off + b <= length diag). { rewrite HL, (sh_N A HS). change (nsum (bNB A) (bsz (bbs A))) with (boff (bbs A) (bNB A)). pose proof (boff_mono (bbs A) (S ib) (bNB A) ltac:(lia)) as Hm. rewrite boff_S in Hm. exact Hm. }
        assert (Habove : blk_above keep b (skipn off diag) = Ok (dkeep (bbs A) keep diag ib)).
        { rewrite blk_above_ok by (rewrite skipn_length; lia). f_equal. unfold dkeep. apply existsb_ext. intros k Hk. rewrite nth_skipn'. reflexivity. }
        (* the search *)
        match goal with |- wpq _ (bind ?t _) _ => assert (G : wpq False t (fun r =>
            (In ib (bcols A ib) /\ snd r = true /\ ebwf (fst r) /\ kin B (fst r) /\ kpt B (fst r) /\ (forall i, i < bNB A -> i <> ib -> brow (fst r) i = brow B i) /\
               forall jb k, jb < bNB A -> k < bsz (bbs A) ib * bsz (bbs A) jb -> bel (fst r) ib jb k = spec ib jb k) \/
            (~ In ib (bcols A ib) /\ r = (B, false)))) end.
        { set (P := fun n (r : eb * bool) =>
            (exists jp y, jp < n /\ scol B ib jp = ib /\ snd r = true /\ changed B ib jp y (fst r) /\
               forall k, k < b * b -> nth k y k0 = if k / b =? k mod b then dv ib (k / b) else nth k (sblk B ib jp) k0) \/
            ((forall jp, jp < n -> scol B ib jp <> ib) /\ r = (B, false))).
          apply wp_mono with (P := P (bnz B ib)).
          - apply (for_n_inv P).
            + right. split; [intros; lia|auto].
            + intros jp [A1 f] Hjp HP. destruct (ebwf_slot B ib jp) as (Hm & Hc & Hx & Hl); auto.
              destruct HP as [(jq & y & Hq & Eq & Ef & HC & Hy)|(Hn & E')].
              * cbn [fst snd] in *. pose proof (ch_kin _ _ _ _ _ HC) as K1. pose proof K1 as (_ & _ & EN1 & EM1 & EB1 & _).
                assert (HS1 : eb_shape A1) by (eapply kin_shape; eauto).
                assert (Ecol1 : scol A1 ib jp = scol B ib jp).
                { pose proof (changed_cols B ib jq _ A1 ib W HC HiB ltac:(lia)) as EC. pose proof (bnz_cols B ib) as E1. pose proof (bnz_cols A1 ib) as E2.
                  assert (E3 : nth jp (bcols A1 ib) 0 = nth jp (bcols B ib) 0) by congruence. assert (E4 : bnz A1 ib = bnz B ib) by congruence.
                  unfold bcols in E3. rewrite !nth_map_seq in E3 by (rewrite ?E4; auto). exact E3. }
                apply wp_bind. rewrite rd_idx_ok by (auto; congruence). cbn [wpq]. rewrite Ecol1.
                destruct (Nat.eqb_spec (scol B ib jp) ib) as [E2|E2].
                { exfalso. assert (jp = jq); [|lia]. apply (scol_inj B ib); auto; [lia|congruence]. }
                cbn [wpq]. left. exists jq, y. split; [lia|]. auto.
              * injection E' as -> ->. apply wp_bind. rewrite rd_idx_ok by auto. cbn [wpq].
                destruct (Nat.eqb_spec (scol B ib jp) ib) as [E2|E2].
                { apply wp_bind. rewrite Habove. cbn [wpq]. apply wp_bind. rewrite (b_blk_ok B ib jp (sblk B ib jp)) by auto. cbn [wpq].
                  rewrite E2, EB in Hl. fold b in Hl. apply wp_bind.
                  assert (Hpos : forall ii, ii < b -> ROWMAJOR ii ii b b < b * b) by (intros; apply pos_lt; auto).
                  eapply wp_mono; [apply (scatter_ok b (fun ii => if dkeep (bbs A) keep diag ib then rd diag (off + ii) else Ok k0) (dv ib) (fun ii => ROWMAJOR ii ii b b) (sblk B ib jp))|].
                  - intros k Hk. unfold dv. destruct (dkeep (bbs A) keep diag ib); auto. apply rd_ok. lia.
                  - intros ii Hii. specialize (Hpos ii Hii). lia.
                  - intros i i' Hi1 Hi2 Ee. unfold ROWMAJOR in Ee. rewrite <- (pos_div b i i), <- (pos_div b i' i') by auto. congruence.
                  - intros z (L2 & Z1 & Z2). apply wp_bind. eapply wp_mono; [apply change_ok; auto|].
                    { rewrite E2, EB. fold b. lia. }
                    intros B2 HC. cbn [wpq]. left. exists jp, z. cbn [fst snd]. split; [lia|]. split; auto. split; auto. split; auto.
                    intros k Hk. destruct (pos_split _ _ _ Hk) as (P1 & P2 & P3). destruct (Nat.eqb_spec (k / b) (k mod b)) as [Ek|Ek].
                    + rewrite <- (Z1 (k / b)) by auto. f_equal. unfold ROWMAJOR. rewrite P3 at 1. lia.
                    + rewrite Z2; auto. intros ii Hii Ek'. apply Ek. rewrite Ek'. unfold ROWMAJOR. rewrite pos_div, pos_mod by auto. reflexivity. }
                { cbn [wpq]. right. split; auto. intros jq Hq. destruct (Nat.eq_dec jq jp) as [->|]; auto. apply Hn. lia. }
          - intros [A1 f] [(jp & y & Hj & E2 & Ef & HC & Hy)|(Hn & E')].
            + left. cbn [fst snd] in *. split; [rewrite <- Ecol; unfold bcols; apply in_map_iff; exists jp; split; auto; apply in_seq; lia|].
              split; auto. split; [apply HC|]. split; [apply HC|]. split; [split; apply HC|]. split; [intros; apply HC; auto; lia|].
              intros jb k Hjb Hk. rewrite (changed_bel B ib jp y A1) by auto. rewrite Nat.eqb_refl, E2. cbn [andb]. unfold spec.
              rewrite (Nat.eqb_sym jb ib). destruct (Nat.eqb_spec ib jb) as [<-|]; cbn [andb].
              * fold b. rewrite Hy by auto. destruct (k / b =? k mod b); auto. rewrite (bel_brow A), <- E, <- bel_brow. symmetry. apply bel_hit; auto.
              * rewrite (bel_brow A), <- E, <- bel_brow. reflexivity.
            + right. split; auto. rewrite <- Ecol. unfold bcols. intros H. apply in_map_iff in H as (jp & E2 & Hj). apply in_seq in Hj. apply (Hn jp); auto; lia. }
        apply wp_bind. eapply wp_mono; [exact G|]. clear G.
        assert (Hfin : forall B', ebwf B' -> kin B B' -> kpt B B' -> (forall i, i < bNB A -> i <> ib -> brow B' i = brow B i) ->
             (forall jb k, jb < bNB A -> k < bsz (bbs A) ib * bsz (bbs A) jb -> bel B' ib jb k = spec ib jb k) ->
             ebwf B' /\ kin A B' /\ kpt A B' /\ off + b = boff (bbs A) (S ib) /\
              (forall i jb k, i < S ib -> jb < bNB A -> k < bsz (bbs A) i * bsz (bbs A) jb -> bel B' i jb k = spec i jb k) /\
              (forall i, S ib <= i < bNB A -> brow B' i = brow A i)).
        { intros B' W' K' C' O' V'. split; auto. split; [eapply kin_trans; eauto|]. split; [eapply kpt_trans; eauto|]. split; [rewrite boff_S; auto|]. split.
          - intros i jb k Hi' Hj Hk. destruct (Nat.eq_dec i ib) as [->|Hne]; auto. rewrite bel_brow, O', <- bel_brow by lia. apply V; auto. lia.
          - intros i Hi'. rewrite O' by lia. apply Z. lia. }
        intros [B' f] [(Hin & Ef & W' & K' & C' & O' & V')|(Hnin & Er)]; cbn [fst snd] in *.
        + subst f. cbn [bind]. cbn [wpq fst snd]. apply Hfin; auto.
        + injection Er as -> ->. apply wp_bind. apply wp_bind. rewrite Habove. cbn [wpq]. destruct (dkeep (bbs A) keep diag ib) eqn:Ed.
          * assert (Hm : bnz B ib < bMB B). { destruct (Hroom ib Hi Ed); [tauto|]. lia. }
            apply (new_block_ok B ib ib (b * b) g _ (fun y => forall k, k < b * b -> nth k y k0 = if k / b =? k mod b then nth (off + k / b) diag k0 else k0)); auto.
            { rewrite Ecol. auto. } { rewrite EB. fold b. auto. }
            { intros z Lz. apply (diag_fill b (fun ii => rd diag (off + ii)) (fun ii => nth (off + ii) diag k0)); auto. intros ii Hii. apply rd_ok. lia. }
            { intros y B' Ly Hy HP. cbn [wpq fst snd]. apply Hfin; try apply HP; auto; [split; apply HP| |].
              - intros; apply HP; auto; lia.
              - intros jb k Hjb Hk. rewrite (pushed_bel B ib ib y B') by (auto; rewrite Ecol; auto). rewrite Nat.eqb_refl. cbn [andb]. unfold spec.
                rewrite (Nat.eqb_sym jb ib). destruct (Nat.eqb_spec ib jb) as [<-|]; cbn [andb].
                + fold b. rewrite Hy by auto. unfold dv. rewrite Ed. fold off. destruct (k / b =? k mod b); auto.
                  symmetry. apply bel_miss. intros jp Hjp Ej. apply Hnin. unfold bcols. apply in_map_iff. exists jp. split; auto. apply in_seq; lia.
                + rewrite (bel_brow A), <- E, <- bel_brow. reflexivity. }
          * cbn [wpq fst snd]. apply Hfin; auto; [apply kin_refl|apply kpt_refl|].
            intros jb k Hjb Hk. unfold spec. rewrite (bel_brow B), E, <- bel_brow. destruct (Nat.eqb_spec ib jb) as [<-|]; cbn [andb]; auto.
            unfold dv. rewrite Ed. destruct (k / bsz (bbs A) ib =? k mod bsz (bbs A) ib); auto.
            apply bel_miss. intros jp Hjp Ej. apply Hnin. unfold bcols. apply in_map_iff. exists jp. split; auto. apply in_seq; lia. }
    intros [A' x] (W & K & C & _ & V & _). cbn [fst snd wpq] in *. split; auto. split; [apply C|]. split; [apply C|]. split; [apply kin_dims; auto|].
    pose proof K as (EN & _ & ENB & EMB & EB & _). rewrite <- EN. pose proof W as (HS' & _). apply meq_blocks; auto. rewrite ENB, EB.
    intros ib jb k Hi Hj Hk. rewrite V by auto. unfold spec, xb, set_diag. pose proof (sh_bs A HS) as EL.
    destruct (pos_split _ _ _ Hk) as (P1 & P2 & P3).
    destruct (Nat.eqb_spec ib jb) as [<-|Hne]; cbn [andb].
    - destruct (Nat.eqb_spec (k / bsz (bbs A) ib) (k mod bsz (bbs A) ib)) as [Ek|Ek].
      + rewrite <- Ek, Nat.eqb_refl, bloc_at by (auto; lia). cbn [fst]. unfold dv. reflexivity.
      + destruct (Nat.eqb_spec (boff (bbs A) ib + k / bsz (bbs A) ib) (boff (bbs A) ib + k mod bsz (bbs A) ib)); [lia|].
        rewrite ebmx_at by auto. rewrite <- P3. reflexivity.
    - destruct (Nat.eqb_spec (boff (bbs A) ib + k / bsz (bbs A) jb) (boff (bbs A) jb + k mod bsz (bbs A) jb)) as [Ek|].
      + exfalso. apply (f_equal (bloc (bbs A))) in Ek. rewrite !bloc_at in Ek by (auto; lia). congruence.
      + rewrite ebmx_at by auto. rewrite <- P3. reflexivity.
  Qed.
End SetOps.
