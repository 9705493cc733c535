(** Proofs: copying between a matrix and its submatrices (SubModel). *)
From Verif Require Import Base BaseFacts Spec SpecFacts EllpackModel EllpackSpec EllpackFacts EllpackOps EllpackArith EllpackNorm EllpackExact
  GemmModel DenseModel DenseSpec DenseFacts SubModel SubSpec SubIndex.

Section SubBlock.
  Context {F : scalar}.
  Local Notation ell := (ell F).
  Local Notation dense := (dense F).

  Lemma sched_rows n nth_ (sched : list (nat * nat)) : full_sched n nth_ sched -> NoDup (map snd sched) /\ forall i, In i (map snd sched) <-> i < n.
  Proof. intros [HP _]. apply perm_nodup_seq. auto. Qed.

  (** ** bml_matrix2submatrix *)
  Theorem ell_sub_extract_ok (A : ell) (B : dense) ch nth_ sched : wf A -> dwf B -> length ch <= dN B ->
    (forall k, In k ch -> k < eN A) -> (forall k, In k ch -> 0 < nnz A k) -> full_sched (length ch) nth_ sched ->
    exists B', ell_sub_extract A B ch sched = Ok B' /\ dwf B' /\ dN B' = dN B /\
      forall i j, i < dN B -> j < dN B ->
        denm B' i j = if (i <? length ch) && (j <? length ch) then emat A (nth i ch 0) (nth j ch 0) else denm B i j.
  Proof.
    intros HA HB HL HK HZ HS. destruct (sched_rows _ _ _ HS) as [ND HI]. unfold ell_sub_extract. rewrite par_do_forM.
    destruct (grid_ok B (map snd sched) (fun _ => seq 0 (length ch)) (fun i j _ => emat A (nth i ch 0) (nth j ch 0))
      (fun i j B => d_put B i j (emat A (nth i ch 0) (nth j ch 0)))) as (B' & E & H1 & H2 & H3); auto.
    - intros i Hi. apply HI in Hi. lia.
    - intros i _. split; [apply seq_NoDup|]. intros j Hj. apply in_seq in Hj. lia.
    - exists B'. split; [|split; [exact H1|split; [exact H2|]]].
      + rewrite <- E. apply forM_ext. intros jb D Hj. apply HI in Hj. rewrite (rd_ok ch jb 0) by auto. cbn [bind].
        assert (Hk : nth jb ch 0 < eN A) by (apply HK, nth_In; auto).
        rewrite ell_getVector_ok by auto. cbn [bind]. unfold for_n. apply forM_ext. intros j D' Hj'. apply in_seq in Hj'.
        rewrite (rd_ok _ j None) by (rewrite map_length; lia). cbn [bind].
        rewrite (nth_indep _ None (scanned (erow A (nth jb ch 0)) 0 None)) by (rewrite map_length; lia).
        rewrite (map_nth (fun c => scanned (erow A (nth jb ch 0)) c None)). unfold scanned.
        assert (HN : 0 < nnz A (nth jb ch 0)) by (apply HZ, nth_In; auto). rewrite <- erow_length in HN.
        unfold emat. destruct (erow A (nth jb ch 0)); [simpl in HN; lia|]. reflexivity.
      + intros i j Hi Hj. rewrite H3 by auto.
        replace (existsb (Nat.eqb i) (map snd sched)) with (i <? length ch).
        2: { destruct (Nat.ltb_spec i (length ch)); symmetry; [apply existsb_eqb, HI; auto|apply existsb_eqb_false; rewrite HI; lia]. }
        replace (existsb (Nat.eqb j) (seq 0 (length ch))) with (j <? length ch).
        2: { destruct (Nat.ltb_spec j (length ch)); symmetry; [apply existsb_eqb, in_seq; lia|apply existsb_eqb_false; rewrite in_seq; lia]. }
        reflexivity.
  Qed.

  (** ** bml_submatrix2matrix *)
  (** the row written for core ja *)
  Definition asm_row (keep : F -> bool) (A : dense) (ch : list nat) (n ja : nat) : list (nat * F) :=
    filter (fun kv => keep (snd kv)) (map (fun jb => (nth jb ch 0, denm A ja jb)) (seq 0 n)).
  Lemma asm_row_S keep A ch n ja : asm_row keep A ch (S n) ja =
    asm_row keep A ch n ja ++ if keep (denm A ja n) then [(nth n ch 0, denm A ja n)] else [].
  Proof. unfold asm_row. rewrite seq_S, map_app, filter_app. simpl. destruct (keep (denm A ja n)); auto. Qed.
  Lemma asm_row_length keep A ch n ja : length (asm_row keep A ch n ja) = count n (fun jb => keep (denm A ja jb)).
  Proof.
    induction n as [|n IH]; [reflexivity|]. rewrite asm_row_S, app_length, IH. unfold count. rewrite seq_S, filter_app, app_length. simpl.
    destruct (keep (denm A ja n)); auto.
  Qed.
  Lemma in_asm_row keep A ch n ja k v : In (k, v) (asm_row keep A ch n ja) <-> exists jb, jb < n /\ nth jb ch 0 = k /\ denm A ja jb = v /\ keep v = true.
  Proof.
    unfold asm_row. rewrite filter_In, in_map_iff. simpl. split.
    - intros [(jb & E & H) HK]. injection E as E1 E2. apply in_seq in H. exists jb. split; [lia|auto].
    - intros (jb & H & E1 & E2 & HK). split; auto. exists jb. split; [congruence|apply in_seq; lia].
  Qed.
  Lemma asm_row_nodup keep A ch n ja : NoDup ch -> n <= length ch -> NoDup (cols (asm_row keep A ch n ja)).
  Proof.
    intros ND. induction n as [|n IH]; intros HL; [constructor|]. rewrite asm_row_S, cols_app. destruct (keep (denm A ja n)); [|simpl; rewrite app_nil_r; apply IH; lia].
    apply NoDup_app_intro; [apply IH; lia|repeat constructor; auto|]. simpl. intros k Hk [<-|[]].
    unfold cols in Hk. apply in_map_iff in Hk as ([k' v'] & E & Hk). simpl in E. subst k'. apply in_asm_row in Hk as (jb & H1 & H2 & _).
    apply (proj1 (NoDup_nth ch 0) ND) in H2; lia.
  Qed.
  Lemma asm_row_look keep A ch ja jb : NoDup ch -> jb < length ch -> elook (asm_row keep A ch (length ch) ja) (nth jb ch 0) = cut keep (denm A ja jb).
  Proof.
    intros ND Hj. unfold cut. destruct (keep (denm A ja jb)) eqn:K.
    - apply elook_in; [apply asm_row_nodup; auto|]. apply in_asm_row. exists jb. auto.
    - apply elook_notin. intros Hc. unfold cols in Hc. apply in_map_iff in Hc as ([k' v'] & E & Hk). simpl in E. subst k'.
      apply in_asm_row in Hk as (jb' & H1 & H2 & H3 & H4). apply (proj1 (NoDup_nth ch 0) ND) in H2; auto. subst. congruence.
  Qed.

  (** row and column positions of an index in the list *)
  Theorem ell_sub_assemble_ok keep (A : dense) (B : ell) ch ll nth_ sched : wf B -> dwf A -> length ch <= dN A -> ll <= length ch -> NoDup ch ->
    (forall k, In k ch -> k < eN B) -> full_sched ll nth_ sched -> (forall ja, ja < ll -> count (length ch) (fun jb => keep (denm A ja jb)) <= eM B) ->
    exists B', ell_sub_assemble keep A B ch sched = Ok B' /\ wf B' /\ same_dims B B' /\
      (forall ja jb, ja < ll -> jb < length ch -> emat B' (nth ja ch 0) (nth jb ch 0) = cut keep (denm A ja jb)) /\
      (forall ja j, ja < ll -> ~ In j ch -> emat B' (nth ja ch 0) j = k0) /\
      (forall i j, i < eN B -> ~ In i (firstn ll ch) -> emat B' i j = emat B i j).
  Proof.
    intros HB HA HL HLL ND HK HS HC. destruct (sched_rows _ _ _ HS) as [NS HI]. unfold ell_sub_assemble. rewrite par_do_forM.
    set (tgt := asm_row keep A ch (length ch)).
    assert (TOK : forall ja, ja < ll -> row_ok (eN B) (eM B) (tgt ja)).
    { intros ja Hj. split; [unfold tgt; rewrite asm_row_length; auto|]. split; [apply asm_row_nodup; auto|].
      intros k Hk. unfold cols in Hk. apply in_map_iff in Hk as ([k' v'] & E & Hk). simpl in E. subst k'. apply in_asm_row in Hk as (jb & H1 & <- & _). apply HK, nth_In. auto. }
    assert (G : wp (forM (map snd sched) (fun ja B => ii <- rd ch ja ;;
      '(B, icol) <- for_n (length ch) (fun jb '(B, icol) => a <- d_at A ja jb ;; if keep a then c <- rd ch jb ;; B <- e_put B ii icol c a ;; Ok (B, S icol) else Ok (B, icol)) (B, 0) ;;
      if eM B <? icol then Err else e_wnnz B ii icol) B)
      (fun B' => wf B' /\ same_dims B B' /\ (forall ja, In ja (map snd sched) -> erow B' (nth ja ch 0) = tgt ja) /\
        forall i, i < eN B -> (forall ja, In ja (map snd sched) -> nth ja ch 0 <> i) -> erow B' i = erow B i)).
    { apply (forM_inv (fun pre B' => wf B' /\ same_dims B B' /\ (forall ja, In ja pre -> erow B' (nth ja ch 0) = tgt ja) /\
        forall i, i < eN B -> (forall ja, In ja pre -> nth ja ch 0 <> i) -> erow B' i = erow B i)).
      - split; [exact HB|]. split; [split; auto|]. split; [intros ja []|auto].
      - intros pre ja post B1 E (W1 & (D1 & D2) & R1 & R2).
        assert (Hja : ja < ll) by (apply HI; rewrite E; apply in_app_iff; right; left; auto).
        assert (Hii : nth ja ch 0 < eN B) by (apply HK, nth_In; lia).
        rewrite (rd_ok ch ja 0) by lia. cbn [bind]. set (ii := nth ja ch 0) in *. apply wp_bind. eapply wp_mono.
        { apply (for_n_inv (fun n s => snd s = length (asm_row keep A ch n ja) /\ rowpre B1 (fst s) ii (asm_row keep A ch n ja))).
          - split; [reflexivity|]. apply rowpre_refl. apply W1.
          - intros jb [B2 icol] Hjb [EI RP]. cbn [fst snd] in *. rewrite d_at_ok by (auto; lia). cbn [bind]. rewrite asm_row_S.
            destruct (keep (denm A ja jb)) eqn:K; [|cbn [wpq fst snd]; rewrite app_nil_r; auto].
            rewrite (rd_ok ch jb 0) by auto. cbn [bind]. subst icol.
            assert (HR : length (asm_row keep A ch jb ja) < eM B1).
            { assert (length (asm_row keep A ch (S jb) ja) <= length (tgt ja)).
              { unfold tgt. rewrite !asm_row_length. unfold count. replace (length ch) with (S jb + (length ch - S jb)) by lia.
                rewrite seq_app, filter_app, app_length. lia. }
              rewrite asm_row_S, K, app_length in H. simpl in H. destruct (TOK ja Hja) as [T1 _]. lia. }
            destruct (rowpre_put B1 B2 ii _ (nth jb ch 0) (denm A ja jb) RP) as [EP RP']; [lia|exact HR|].
            rewrite EP. cbn [bind wpq fst snd]. rewrite app_length. simpl. split; [lia|exact RP']. }
        intros [B2 icol] [EI RP]. cbn [fst snd] in *. subst icol. fold tgt. fold (tgt ja) in RP |- *.
        assert (HM : length (tgt ja) <= eM B) by apply (TOK ja Hja).
        replace (eM B2 <? length (tgt ja)) with false by (symmetry; apply Nat.ltb_ge; destruct RP as ((_ & E2) & _); lia).
        destruct (rowpre_finish B1 B2 ii (tgt ja) RP) as [EW UR]; [lia|]. rewrite EW. cbn [wpq].
        pose proof UR as ((U1 & U2) & _). split; [apply (upd_row_wf B1 _ ii (tgt ja)); auto; [lia|rewrite <- D1, <- D2; auto]|].
        split; [split; congruence|]. split.
        + intros ja' Hj'. apply in_app_iff in Hj' as [Hj'|[<-|[]]].
          * assert (Hl' : ja' < ll) by (apply HI; rewrite E; apply in_app_iff; auto).
            assert (ja' <> ja). { intros ->. rewrite E in NS. apply NoDup_app_inv in NS as (_ & _ & X). apply (X ja Hj'). left; auto. }
            rewrite (upd_row_other B1 _ ii (tgt ja)); auto.
            -- intros Heq. apply (proj1 (NoDup_nth ch 0) ND) in Heq; lia.
            -- apply wf_nnz; auto. rewrite <- D1. apply HK, nth_In. lia.
          * apply (upd_row_self B1 _ ii). exact UR.
        + intros i Hi Hni. assert (i <> ii) by (intros ->; apply (Hni ja); [apply in_app_iff; right; left; auto|reflexivity]).
          rewrite (upd_row_other B1 _ ii (tgt ja)); auto; [|apply wf_nnz; auto; lia]. apply R2; auto. intros ja' Hj'. apply Hni. apply in_app_iff; auto. }
    destruct (proj1 (wp_ok _ _) G) as (B' & E & W & D & R1 & R2). exists B'. split; [exact E|]. split; [exact W|]. split; [exact D|]. split; [|split].
    - intros ja jb Hja Hjb. unfold emat. rewrite R1 by (apply HI; auto). apply asm_row_look; auto.
    - intros ja j Hja Hj. unfold emat. rewrite R1 by (apply HI; auto). apply elook_notin. intros Hc. unfold cols in Hc.
      apply in_map_iff in Hc as ([k' v'] & E' & Hk). simpl in E'. subst k'. apply in_asm_row in Hk as (jb & H1 & <- & _). apply Hj, nth_In. auto.
    - intros i j Hi Hn. unfold emat. rewrite R2; auto. intros ja Hja Heq. apply HI in Hja. apply Hn. rewrite <- Heq.
      rewrite <- (nth_firstn_lt ch ll ja 0) by auto. apply nth_In. rewrite firstn_length. lia.
  Qed.

  (** ** extract the submatrix of a set of rows and put it back: the rows of the
      cores are restored, thresholded *)
  Theorem ell_sub_round_trip keep (A B C : ell) (D : dense) nl ch dj n1 n2 s1 s2 ch' l ll : wf A -> wf B -> wf C -> dwf D -> eN B = eN A -> eN C = eN A -> dN D = l ->
    (forall k, In k nl -> k < eN A) -> eN A <= length ch -> ell_sub_index A B nl ch dj = Ok (ch', l, ll) ->
    (forall k, In k (firstn l ch') -> 0 < nnz A k) -> full_sched l n1 s1 -> full_sched ll n2 s2 ->
    (forall i, In i nl -> count (eN A) (fun j => keep (emat A i j)) <= eM C) -> keep k0 = false ->
    exists D' C', ell_sub_extract A D (firstn l ch') s1 = Ok D' /\ ell_sub_assemble keep D' C (firstn l ch') s2 = Ok C' /\
      wf C' /\ same_dims C C' /\ meq (eN A) (emat C') (fun i j => if existsb (Nat.eqb i) nl then cut keep (emat A i j) else emat C i j).
  Proof.
    intros HA HB HC HD EN EC ED HK HL EI HZ F1 F2 HR K0.
    destruct (ell_sub_index_ok A B nl ch dj HA HB EN HK HL) as (ch2 & l2 & ll2 & EI2 & _ & HLL & FO & ND & LF & HRC).
    rewrite EI in EI2. injection EI2 as <- <- <-. set (idx := firstn l ch') in *.
    assert (HIN : forall k, In k idx -> k < eN A).
    { intros k Hk. apply HRC in Hk. assert (R1 : forall k, reach1 [B; A] nl k -> k < eN A).
      { intros q [Hq|(G & i & HG & Hi & Hst)]; auto. apply HK in Hi. apply stored_iff in Hst. destruct HG as [<-|[<-|[]]]; [rewrite <- EN in *|]; eapply wf_cols; eauto. }
      destruct dj; [|auto]. destruct Hk as [Hk|(i & Hi & Hst)]; auto. rewrite <- EN. apply stored_iff in Hst. apply (wf_cols B i); auto. rewrite EN. auto. }
    destruct (ell_sub_extract_ok A D idx n1 s1) as (D' & E1 & WD & DN & HM); auto; [rewrite LF; lia|rewrite LF; auto|].
    assert (FI : firstn ll idx = first_occ [] nl) by (unfold idx; rewrite firstn_firstn, Nat.min_l by lia; exact FO).
    assert (INF : forall i, In i (firstn ll idx) <-> In i nl) by (intros i; rewrite FI, <- first_occ_dd; apply in_dd).
    assert (CORE : forall ja, ja < ll -> In (nth ja idx 0) nl).
    { intros ja Hj. apply INF. rewrite <- (nth_firstn_lt idx ll ja 0) by auto. apply nth_In. rewrite firstn_length, LF. lia. }
    assert (VAL : forall ja jb, ja < l -> jb < l -> denm D' ja jb = emat A (nth ja idx 0) (nth jb idx 0)).
    { intros ja jb H1 H2. rewrite HM by lia. rewrite LF. rewrite (proj2 (Nat.ltb_lt ja l)), (proj2 (Nat.ltb_lt jb l)) by auto. reflexivity. }
    destruct (ell_sub_assemble_ok keep D' C idx ll n2 s2) as (C' & E2 & WC & DC & V1 & V2 & V3); auto; try (rewrite LF; lia); try (rewrite EC; auto).
    { intros ja Hja. etransitivity; [|apply (HR (nth ja idx 0)); apply CORE; auto].
      rewrite LF. unfold count.
      rewrite <- (map_length (fun jb => nth jb idx 0) (filter _ (seq 0 l))). apply NoDup_incl_length.
      - apply (NoDup_map_inv (fun k => k)). rewrite map_id.
        assert (NX : forall L, NoDup L -> (forall x, In x L -> x < l) -> NoDup (map (fun jb => nth jb idx 0) L)).
        { induction L as [|x L IH]; intros HN HB'; [constructor|]. inversion HN; subst. constructor; [|apply IH; [assumption|intros y Hy; apply HB'; right; exact Hy]].
          intros Hc. apply in_map_iff in Hc as (y & Ey & Hy). apply (proj1 (NoDup_nth idx 0) ND) in Ey; [|rewrite LF; apply HB'; right; exact Hy|rewrite LF; apply HB'; left; auto]. subst y. contradiction. }
        apply NX; [apply NoDup_filter, seq_NoDup|]. intros x Hx. apply filter_In in Hx as [Hx _]. apply in_seq in Hx. lia.
      - intros k Hk. apply in_map_iff in Hk as (jb & <- & Hk). apply filter_In in Hk as [Hk HK']. apply in_seq in Hk.
        rewrite VAL in HK' by lia. apply filter_In. split; [apply in_seq|exact HK']. split; [lia|]. apply HIN, nth_In. rewrite LF. lia. }
    exists D', C'. split; [exact E1|]. split; [exact E2|]. split; [exact WC|]. split; [exact DC|]. intros i j Hi Hj. cbn beta.
    destruct (existsb (Nat.eqb i) nl) eqn:EX.
    - apply existsb_eqb, INF in EX. destruct (In_nth _ _ 0 EX) as (ja & Hja & EJ). rewrite firstn_length, LF in Hja. rewrite nth_firstn_lt in EJ by lia.
      assert (Hl : ja < ll) by lia. destruct (in_dec Nat.eq_dec j idx) as [Hin|Hnin].
      + destruct (In_nth _ _ 0 Hin) as (jb & Hjb & EB'). rewrite LF in Hjb. rewrite <- EJ, <- EB', V1 by (rewrite ?LF; auto). rewrite VAL by lia. reflexivity.
      + rewrite <- EJ, V2 by auto. assert (HZ0 : emat A i j = k0).
        { unfold emat. apply elook_notin. intros Hc. apply Hnin, HRC. apply stored_iff in Hc. assert (reach1 [B; A] nl j) by (right; exists A, i; simpl; split; [auto|split; [apply INF; auto|auto]]).
          destruct dj; [left; auto|auto]. }
        rewrite EJ, HZ0. unfold cut. rewrite K0. reflexivity.
    - apply V3; [lia|]. rewrite INF. apply existsb_eqb_false. exact EX.
  Qed.
End SubBlock.
