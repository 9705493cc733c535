(** Proofs about bml_reorder_ellpack. *)
From Verif Require Import Base BaseFacts Spec SpecFacts EllpackModel EllpackSpec EllpackFacts EllpackOps EllpackArith EllpackMul EllpackMore EllpackMul2 EllpackRest.
From Coq Require Import Ring.

Section EllpackReorder.
  Context {F : scalar}.
  Local Open Scope K_scope.
  Local Notation ell := (ell F).

  Lemma perm_nth_lt (perm : list nat) N i : Permutation perm (seq 0 N) -> (i < N)%nat -> (nth i perm 0 < N)%nat.
  Proof.
    intros HP Hi. apply (perm_in _ _ _ HP). apply nth_In. rewrite (Permutation_length HP), seq_length. auto.
  Qed.

  Lemma perm_nth_inj (perm : list nat) N i j : Permutation perm (seq 0 N) -> (i < N)%nat -> (j < N)%nat ->
    nth i perm 0%nat = nth j perm 0%nat -> i = j.
  Proof.
    intros HP Hi Hj E. assert (HL := Permutation_length HP). rewrite seq_length in HL.
    apply (NoDup_nth perm 0%nat); auto; try lia. eapply perm_nodup; eauto.
  Qed.

  Lemma perm_nth_surj (perm : list nat) N p : Permutation perm (seq 0 N) -> (p < N)%nat ->
    exists i, (i < N)%nat /\ nth i perm 0%nat = p.
  Proof.
    intros HP Hp. apply (perm_in _ _ _ HP) in Hp. apply (In_nth _ _ 0%nat) in Hp as (i & Hi & E).
    rewrite (Permutation_length HP), seq_length in Hi. eauto.
  Qed.

  Definition remap (perm : list nat) (E : list (nat * F)) : list (nat * F) :=
    map (fun kv => (nth (fst kv) perm 0%nat, snd kv)) E.

  Lemma elook_remap (perm : list nat) N E j : Permutation perm (seq 0 N) ->
    (forall k, In k (cols E) -> (k < N)%nat) -> (j < N)%nat -> elook (remap perm E) (nth j perm 0%nat) = elook E j.
  Proof.
    intros HP Hr Hj. induction E as [|[k v] E IH]; simpl; auto.
    assert (Hk : (k < N)%nat) by (apply Hr; left; auto).
    destruct (Nat.eqb_spec k j) as [->|Hne]; [rewrite Nat.eqb_refl; auto|].
    destruct (Nat.eqb_spec (nth k perm 0%nat) (nth j perm 0%nat)) as [E'|_].
    - exfalso. apply Hne. eapply perm_nth_inj; eauto.
    - apply IH. intros q Hq. apply Hr. right; auto.
  Qed.

  Lemma remap_ok (perm : list nat) N M E : Permutation perm (seq 0 N) -> row_ok N M E -> row_ok N M (remap perm E).
  Proof.
    intros HP (H1 & H2 & H3). unfold remap. split; [rewrite map_length; auto|].
    assert (EC : cols (map (fun kv : nat * F => (nth (fst kv) perm 0%nat, snd kv)) E) = map (fun k => nth k perm 0%nat) (cols E)).
    { unfold cols. rewrite !map_map. auto. }
    rewrite EC. split.
    - assert (G : forall l, NoDup l -> (forall k, In k l -> (k < N)%nat) -> NoDup (map (fun k => nth k perm 0%nat) l)).
      { induction l as [|k l IH]; simpl; intros Hd Hr; [constructor|]. inversion Hd; subst. constructor; auto.
        intros Hin. apply in_map_iff in Hin as (q & Eq & Hq). apply H4.
        rewrite (perm_nth_inj perm N k q); auto. }
      auto.
    - intros k Hk. apply in_map_iff in Hk as (q & <- & Hq). apply perm_nth_lt; auto.
  Qed.

  Lemma in_slice M p i : (p * M <= i)%nat -> (i < p * M + M)%nat -> exists j, (j < M)%nat /\ i = (p * M + j)%nat.
  Proof. intros H1 H2. exists (i - p * M)%nat. lia. Qed.

  Lemma ell_reorder_ok (A : ell) perm s1 s2 gv gi : wf A -> Permutation perm (seq 0 (eN A)) ->
    Permutation (map snd s1) (seq 0 (eN A)) -> Permutation (map snd s2) (seq 0 (eN A)) ->
    exists B, ell_reorder A perm s1 s2 gv gi = Ok B /\ same_dims A B /\ wf B /\
      forall i, (i < eN A)%nat -> erow B (nth i perm 0%nat) = remap perm (erow A i).
  Proof.
    intros HA HP P1 P2. pose proof HA as [HsA HrA]. apply wp_ok. unfold ell_reorder.
    rewrite ell_copy_new_ok by auto. cbn [bind]. set (N := eN A) in *. set (M := eM A) in *.
    set (pi := fun i => nth i perm 0%nat).
    assert (HpL : length perm = N) by (rewrite (Permutation_length HP), seq_length; auto).
    apply wp_bind. eapply wp_mono.
    - apply (par_for_inv (fun done (B : ell) (_ : nat -> unit) => same_dims A B /\ shape B /\
        forall i, In i done -> nnz B (pi i) = nnz A i /\
          forall j, (j < M)%nat -> nth (pi i * M + j) (eidx B) 0%nat = nth (i * M + j) (eidx A) 0%nat /\
                           nth (pi i * M + j) (eval B) 0 = nth (i * M + j) (eval A) 0)).
      + split; [split; auto|]. split; [auto|]. simpl; tauto.
      + intros pre t i post B w E ([D1 D2] & (S1 & S2 & S3) & HD). fold N in D1. fold M in D2.
        assert (Hin : In i (map snd s1)) by (rewrite E, map_app; apply in_app_iff; right; left; auto).
        assert (Hi : (i < N)%nat) by (apply (perm_in _ _ _ P1); auto).
        assert (Hnp : ~ In i (map snd pre)).
        { assert (Hd := perm_nodup _ _ P1). rewrite E, map_app in Hd. apply NoDup_app_inv in Hd as (_ & _ & Hd).
          intros Hc. apply (Hd i Hc). left; auto. }
        assert (Hpre : forall q, In q (map snd pre) -> (q < N)%nat).
        { intros q Hq. apply (perm_in _ _ _ P1). rewrite E, map_app. apply in_app_iff; auto. }
        rewrite (rd_ok _ _ 0%nat) by lia. cbn [bind]. fold (pi i).
        assert (Hp : (pi i < N)%nat) by (apply perm_nth_lt; auto).
        rewrite <- D1, <- D2 in *. unfold ROWMAJOR. rewrite !Nat.add_0_r.
        pose proof HsA as (A1 & A2 & A3). fold N M in A1, A2, A3.
        assert (Hb1 : (pi i * M + M <= N * M)%nat) by nia. assert (Hb2 : (i * M + M <= N * M)%nat) by nia.
        apply wp_bind. eapply wp_mono; [apply (memcpy_ok 0%nat); lia|]. intros ix [X1 X2].
        apply wp_bind. eapply wp_mono; [apply (memcpy_ok (@k0 F)); lia|]. intros vl [Y1 Y2].
        rewrite e_nnz_ok by auto. cbn [bind].
        unfold e_wnnz. cbn [eN eM eval eidx ennz]. rewrite wr_ok by lia. cbn [bind wpq fst snd].
        split; [split; auto|]. split; [repeat split; simpl; rewrite ?length_set_nth; congruence|].
        intros q Hq. apply in_app_iff in Hq.
        assert (Hoff : forall j q', (j < M)%nat -> (q' * M <=? pi q * M + j) && (pi q * M + j <? q' * M + M) = (pi q =? q')).
        { intros j q' Hj. destruct (Nat.eqb_spec (pi q) q') as [->|Hne].
          - apply andb_true_intro. split; [apply Nat.leb_le|apply Nat.ltb_lt]; lia.
          - apply andb_false_iff. rewrite Nat.leb_gt, Nat.ltb_ge. nia. }
        unfold nnz at 1. cbn [eN eM eval eidx ennz].
        destruct (Nat.eq_dec q i) as [->|Hne].
        * rewrite nth_set_nth_eq by lia. split; auto. intros j Hj.
          rewrite X2, Y2, !Hoff, Nat.eqb_refl by auto. split; f_equal; lia.
        * destruct Hq as [Hq|[Hq|[]]]; [|congruence]. destruct (HD q Hq) as [H1 H2].
          assert (Hpne : pi q <> pi i) by (intros Ep; apply Hne; apply (perm_nth_inj perm N); auto).
          rewrite nth_set_nth_neq by auto. split; [exact H1|]. intros j Hj.
          apply Nat.eqb_neq in Hpne as Hpb. rewrite X2, Y2, !Hoff, Hpb by auto. apply H2; auto.
    - intros [B w] ([D1 D2] & HsB & HD). cbn [fst snd] in *. fold N in D1. fold M in D2.
      assert (HrB : forall i, (i < N)%nat -> erow B (pi i) = erow A i).
      { intros i Hi. destruct (HD i) as [H1 H2]; [apply (perm_in _ _ _ P1); auto|].
        unfold erow. rewrite H1. apply slots_ext. rewrite <- D2. fold M. intros j Hj.
        apply H2. eapply Nat.lt_le_trans; [exact Hj|]. apply wf_nnz; auto. }
      assert (HrB' : forall p, (p < N)%nat -> row_ok N M (erow B p)).
      { intros p Hp. destruct (perm_nth_surj perm N p HP Hp) as (i & Hi & <-). fold (pi i). rewrite HrB by auto. apply HrA; auto. }
      assert (HwB : wf B).
      { split; auto. rewrite <- D1, <- D2. auto. }
      apply wp_bind. eapply wp_mono.
      + apply (par_all B s2 _ _ (fun p => remap perm (erow B p)) (fun _ => True)); auto.
        * intros; apply wf_nnz; auto.
        * rewrite <- D1; auto.
        * intros p Hp. rewrite <- D2. unfold remap. rewrite map_length. apply HrB'. lia.
        * intros p C u Hp [C1 C2] HsC HrC _.
          assert (HnC : nnz C p = nnz B p) by (rewrite <- !erow_length, HrC; auto).
          assert (HnM := wf_nnz _ _ HwB Hp).
          rewrite e_nnz_ok by (auto; lia). cbn [bind]. apply wp_bind. rewrite HnC. eapply wp_mono.
          -- apply (for_n_inv (fun q C' => upd_row C C' p (remap perm (firstn q (erow B p)) ++ skipn q (erow B p)))).
             ++ change (upd_row C C p (erow B p)). rewrite <- HrC. split; [split; auto|]. split; auto. 
             ++ intros q C' Hq HU. pose proof HU as ((U1 & U2) & U3 & U4 & U5).
                set (E := erow B p) in *. assert (HqE : (q < length E)%nat) by (unfold E; rewrite erow_length; auto).
                assert (HnC' : nnz C' p = length E).
                { rewrite <- erow_length, U4. unfold remap. rewrite app_length, map_length, <- app_length, firstn_skipn. auto. }
                assert (HLE : length E = nnz B p) by (unfold E; apply erow_length).
                assert (Hnth : nth q (erow C' p) (0%nat, 0) = nth q E (0%nat, 0)).
                { rewrite U4. unfold remap. rewrite app_nth2; rewrite map_length, firstn_length; [|lia].
                  replace (q - Nat.min q (length E))%nat with 0%nat by lia.
                  rewrite (skipn_S_nth E q (0%nat, 0)) by auto. auto. }
                rewrite e_idx_ok by (auto; lia). cbn [bind].
                assert (Hidx : nth (p * eM C' + q) (eidx C') 0%nat = fst (nth q E (0%nat, 0))).
                { rewrite <- Hnth. unfold erow. rewrite slots_nth by lia. auto. }
                rewrite Hidx. set (kv := nth q E (0%nat, 0)) in *.
                assert (Hk : (fst kv < N)%nat).
                { destruct (HrB' p ltac:(lia)) as (_ & _ & H). apply H. unfold cols. apply in_map. apply nth_In; auto. }
                rewrite (rd_ok _ _ 0%nat) by lia. cbn [bind].
                rewrite e_widx_ok by (auto; lia). cbn [wpq].
                eapply upd_row_start; [exact HU|].
                split; [split; auto|]. split; [apply shape_widxp; auto|]. split.
                ** unfold erow. change (nnz (widxp C' p q (nth (fst kv) perm 0%nat)) p) with (nnz C' p).
                   rewrite slots_widxp by (auto; lia). fold (erow C' p). rewrite Hnth. fold kv.
                   rewrite U4. rewrite (skipn_S_nth E q (0%nat, 0)) by auto. fold kv.
                   rewrite (firstn_S_nth E q (0%nat, 0)) by auto. fold kv.
                   unfold remap. rewrite map_app, <- app_assoc. simpl.
                   assert (HLq : length (map (fun kv0 : nat * F => (nth (fst kv0) perm 0%nat, snd kv0)) (firstn q E)) = q)
                     by (rewrite map_length, firstn_length; lia).
                   rewrite <- HLq at 2. rewrite set_nth_split. auto.
                ** split; [auto|]. intros i' n Hne Hn. apply slots_widxp_other; auto; lia.
          -- intros C' HU. cbn [wpq fst snd]. split; auto.
             rewrite <- erow_length, firstn_all, skipn_all, app_nil_r in HU. auto.
      + intros [C w'] ([C1 C2] & HsC & HrC & _). cbn [fst snd wpq] in *.
        split; [split; [change (N = eN C)|change (M = eM C)]; congruence|].
        assert (HwC : wf C).
        { apply (wf_rows B C (fun p => remap perm (erow B p))); auto; [split; auto|].
          intros p Hp. apply remap_ok; [rewrite <- D1; auto|]. rewrite <- D1, <- D2. apply HrB'. lia. }
        split; [auto|]. intros i Hi. fold (pi i). rewrite HrC.
        * rewrite HrB; auto.
        * rewrite <- D1. apply perm_nth_lt; auto.
  Qed.

  Lemma reorder_spec (A : ell) perm s1 s2 gv gi : wf A -> Permutation perm (seq 0 (eN A)) ->
    Permutation (map snd s1) (seq 0 (eN A)) -> Permutation (map snd s2) (seq 0 (eN A)) ->
    exists B, ell_reorder A perm s1 s2 gv gi = Ok B /\ wf B /\ same_dims A B /\
      forall i j, (i < eN A)%nat -> (j < eN A)%nat -> emat B (nth i perm 0%nat) (nth j perm 0%nat) = emat A i j.
  Proof.
    intros HA HP P1 P2. destruct (ell_reorder_ok A perm s1 s2 gv gi HA HP P1 P2) as (B & E & D & Hw & Hr).
    exists B. repeat (split; [assumption|]). intros i j Hi Hj. unfold emat. rewrite Hr by auto.
    apply (elook_remap perm (eN A)); auto. apply HA; auto.
  Qed.
End EllpackReorder.
