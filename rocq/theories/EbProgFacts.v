(** Programs on block ellpack matrices compute what they mean. *)
From Verif Require Import Base BaseFacts Spec SpecFacts EllpackModel EllpackSpec EllpackExact CsrModel CsrSpec
  GemmModel DenseModel DenseSpec FormatModel FormatSpec FormatFacts FormatHistModel FormatHistSpec FormatHist
  EllblockModel EllblockSpec EllblockFacts EllblockHeap EllblockRead EllblockBuild EllblockSet EllblockPtr EllblockCopy EllblockWork EllblockAdd EllblockMul EllblockProd EllblockTrans
  ProgSpec ProgFacts EbProgModel EbProgSpec.
From Coq Require Import Ring.

Section EbProgFacts.
  Context {F : scalar}.
  Add Ring Kringebp : (k_ring F).
  Local Notation eb := (eb F).
  Local Notation env := (env F).
  Local Notation instr := (@instr F).

  Lemma nodup_lt_len (l : list nat) n : NoDup l -> (forall c, In c l -> c < n) -> length l <= n.
  Proof.
    intros HN HL. rewrite <- (seq_length n 0). apply NoDup_incl_length; auto. intros c Hc. apply in_seq. specialize (HL c Hc). lia.
  Qed.
  Lemma bcols_lt (A : eb) ib c : ebwf A -> ib < bNB A -> In c (bcols A ib) -> c < bNB A.
  Proof.
    intros (_ & _ & HR) Hi Hc. unfold bcols in Hc. apply in_map_iff in Hc as (jp & <- & Hj). apply in_seq in Hj. apply (bro_cols _ _ (HR ib Hi)). lia.
  Qed.
  Lemma diag_slot (A : eb) ib : ebwf A -> bNB A <= bMB A -> ib < bNB A -> In ib (bcols A ib) \/ bnz A ib < bMB A.
  Proof.
    intros HW HM Hi. destruct (in_dec Nat.eq_dec ib (bcols A ib)) as [H|H]; auto. right.
    assert (HL : length (ib :: bcols A ib) <= bNB A).
    { apply nodup_lt_len.
      - constructor; auto. apply HW; auto.
      - intros c [<-|Hc]; auto. apply (bcols_lt A ib c); auto. }
    simpl in HL. rewrite <- bnz_cols in HL. lia.
  Qed.
  Lemma set_diag_exact bs (keep : F -> bool) diag N (X : mat F) : keeps_nonzero keep -> N = boff bs (length bs) ->
    meq N (set_diag bs keep diag X) (fun i j => if i =? j then nth i diag k0 else X i j).
  Proof.
    intros Hk HN i j Hi Hj. unfold set_diag. destruct (i =? j); auto.
    destruct (bloc_spec bs i ltac:(lia)) as (ib & ii & Eb & H1 & H2 & H3). rewrite Eb. cbn [fst].
    destruct (dkeep bs keep diag ib) eqn:E; auto. symmetry.
    destruct (keep (nth i diag k0)) eqn:Ek; [|apply Hk; auto].
    exfalso. assert (dkeep bs keep diag ib = true); [|congruence]. unfold dkeep. apply existsb_exists. exists ii. split; [apply in_seq; lia|].
    rewrite <- H3. auto.
  Qed.

  Section Run.
    Variables (s : nat) (d : defaults) (N : nat).
    Hypothesis HB : block_sizes s d N.

    Definition eb_state (fl : list bool) (st : list eb) (Ms : list (mat F)) : Prop :=
      Forall2 (eb_stands d N) st Ms /\ flagged s fl st.

    Lemma ebget (st : list eb) h A : nth_error st h = Some A -> ebgetm st h = Ok A.
    Proof. unfold ebgetm. intros ->. auto. Qed.
    Lemma eb_at fl st Ms h : eb_state fl st Ms -> h < length fl ->
      exists A, ebgetm st h = Ok A /\ eb_stands d N A (nth h Ms mzero) /\ (nth h fl false = true -> roomy (s * s) A).
    Proof.
      intros [H1 H2] Hh. assert (HL : length st = length fl) by (unfold flagged in H2; clear -H2; induction H2; simpl; auto).
      destruct (nth_error st h) as [A|] eqn:E; [|apply nth_error_None in E; lia]. exists A. split; [apply ebget; auto|].
      split; [apply (Forall2_nth_of _ _ _ _ _ mzero H1 E)|]. apply (Forall2_nth_of _ _ _ _ _ false H2 E).
    Qed.
    Lemma set_nth_same {V} (l : list V) h x : nth_error l h = Some x -> set_nth l h x = l.
    Proof. revert h. induction l as [|y l IH]; intros [|h] E; simpl in *; try discriminate; [congruence|]. rewrite IH; auto. Qed.
    Lemma eb_upd fl st Ms h A X b : eb_state fl st Ms -> eb_stands d N A X -> (b = true -> roomy (s * s) A) ->
      eb_state (set_nth fl h b) (set_nth st h A) (set_nth Ms h X).
    Proof. intros [H1 H2] HA HR. split; apply Forall2_set_nth; auto. Qed.
    Lemma eb_upd_same fl st Ms h A X : h < length fl -> eb_state fl st Ms -> eb_stands d N A X -> (nth h fl false = true -> roomy (s * s) A) ->
      eb_state fl (set_nth st h A) (set_nth Ms h X).
    Proof.
      intros Hh H HA HR. pose proof (eb_upd fl st Ms h A X _ H HA HR) as H'. rewrite set_nth_same in H'; auto. apply nth_error_nth'; auto.
    Qed.
    Lemma eb_newm fl st Ms A X : eb_state fl st Ms -> eb_stands d N A X -> roomy (s * s) A -> eb_state (fl ++ [true]) (st ++ [A]) (Ms ++ [X]).
    Proof. intros [H1 H2] HA HR. split; apply Forall2_app; auto. Qed.

    Lemma st_N (A : eb) X : eb_stands d N A X -> N = boff (bbs A) (length (bbs A)).
    Proof. intros (W & <- & _). apply shape_N. apply W. Qed.
    Lemma st_uniform (A : eb) X : eb_stands d N A X -> uniform s A.
    Proof. intros (_ & _ & E & _ & E2 & _) ib Hi. rewrite E2. apply HB. congruence. Qed.
    Lemma st_small (A : eb) X : eb_stands d N A X -> small_blocks A.
    Proof. intros H ib Hi. rewrite (st_uniform A X H ib Hi). apply HB. Qed.
    Lemma st_dims (A : eb) X (B : eb) Y : eb_stands d N A X -> eb_stands d N B Y -> eb_dims A B.
    Proof. intros (_ & H1 & H2 & _ & H3 & _) (_ & H4 & H5 & _ & H6 & _). repeat split; congruence. Qed.
    Lemma st_le (A : eb) X : eb_stands d N A X -> bNB A <= bMB A.
    Proof. intros (_ & _ & -> & -> & _). apply HB. Qed.
    Lemma st_own (A : eb) X : eb_stands d N A X -> own_sizes (Some d) A.
    Proof. intros (_ & _ & E1 & E2 & E3 & _). unfold own_sizes. rewrite E1, E2, E3. destruct d; auto. Qed.
    Lemma st_like (A : eb) X A' Y : eb_stands d N A X -> ebwf A' -> same_dims A A' -> meq N (ebmx A') Y -> eb_stands d N A' Y.
    Proof. intros (_ & H1 & H2 & H3 & H4 & _) W (D1 & D2 & D3 & D4 & D5) V. split; auto. do 3 (split; [congruence|]). split; [congruence|auto]. Qed.
    Lemma st_N0 (A : eb) X : eb_stands d N A X -> 0 < N.
    Proof.
      intros _. destruct HB as (Hs & (H1 & _ & _ & <-) & _ & Hu). pose proof (boff_mono (s_bsize d) 1 (s_nb d) ltac:(lia)) as H.
      rewrite boff_S, Hu in H by auto. lia.
    Qed.
    Lemma st_clean (A : eb) X : eb_stands d N A X -> clean A -> roomy (s * s) A.
    Proof. intros H C. apply clean_roomy; auto; [apply H|]. intros. rewrite !(st_uniform A X H) by auto. auto. Qed.
    Lemma good_d : good_cache (Some d).
    Proof. destruct HB as (_ & (_ & H & _) & _). simpl. lia. Qed.

    Ltac get h := let A := fresh "A" in let E := fresh "E" in let S := fresh "S" in let R := fresh "R" in
      destruct (eb_at _ _ _ h ltac:(eassumption) ltac:(auto)) as (A & E & S & R); rewrite E; cbn [bind]; clear E.
    Ltac fin E := rewrite E; cbn [bind]; eexists; split; [reflexivity|].

    Lemma eb_step fl c (e : env) st o Ms : eb_state fl st Ms -> exact_instr c -> eb_schedules d e ->
      (forall h, In h (handles c) -> h < length fl) -> distinct_handles c -> in_bounds N c -> no_element_multiply c ->
      (forall h, adds_to c = Some h -> nth h fl false = true) ->
      exists st', ebexec c e (Some d, st, o) = Ok (Some d, st', snd (mexec N c (Ms, o))) /\
        eb_state (flags_after c fl) st' (fst (mexec N c (Ms, o))).
    Proof.
      intros H Hx He Hh Hd Hb Hn Ha. pose proof (st_N0) as N0.
      destruct c; cbn [exact_instr handles distinct_handles in_bounds no_element_multiply adds_to flags_after ebexec mexec fst snd] in *;
        try (assert (Hh1 : h < length fl) by (apply Hh; simpl; auto)); try (assert (Hh2 : h2 < length fl) by (apply Hh; simpl; auto));
        try (assert (Hh3 : h3 < length fl) by (apply Hh; simpl; auto)); try (specialize (Ha _ eq_refl)).
      - get h. get h2. pose proof S as (W & EN & ENB & EMB & EBS & V). pose proof S0 as (W0 & EN0 & ENB0 & EMB0 & EBS0 & V0).
        pose proof (st_le _ _ S).
        destruct (eb_add_uniform s keep alpha beta A A0 (e_gv e) (e_nth e) (e_rows e 0)) as (A' & E & W' & R' & D' & V'); auto.
        { eapply st_dims; eauto. } { congruence. } { eapply st_uniform; eauto. }
        { intros ib Hi. etransitivity; [apply nodup_lt_len; [apply add_cols_nodup|intros c Hc; eapply (add_cols_lt _ _ A A0); eauto; congruence]|auto]. }
        { rewrite ENB. apply He. }
        fin E. apply eb_upd_same; auto. apply (st_like A (nth h Ms mzero)); auto. rewrite EN in V'. eapply meq_tr; [exact V'|].
        eapply meq_tr; [apply bcut_exact; auto; eapply st_N; eauto|]. apply meq_madd; apply meq_mscale; auto.
      - get h. pose proof S as (W & EN & ENB & EMB & EBS & V). pose proof (st_le _ _ S).
        destruct (eb_add_identity_ok s (Some d) keep beta A (e_gv e) (e_nth e) (e_rows e 0)) as (A' & E & W' & R' & D' & V'); auto.
        { rewrite EN. eapply N0; eauto. } { eapply st_own; eauto. } { eapply st_uniform; eauto. } { intros; apply diag_slot; auto. } { rewrite ENB; apply He. }
        fin E. apply eb_upd_same; auto. apply (st_like A (nth h Ms mzero)); auto. rewrite EN in V'. eapply meq_tr; [exact V'|].
        eapply meq_tr; [apply bcut_exact; auto; eapply st_N; eauto|]. apply meq_madd; auto. apply meq_refl.
      - get h. pose proof S as (W & EN & ENB & EMB & EBS & V). pose proof (st_le _ _ S).
        destruct (eb_scale_add_identity_ok s (Some d) keep alpha beta A (e_gv e) (e_nth e) (e_rows e 0)) as (A' & E & W' & R' & D' & V'); auto.
        { rewrite EN. eapply N0; eauto. } { eapply st_own; eauto. } { eapply st_uniform; eauto. } { intros; apply diag_slot; auto. } { rewrite ENB; apply He. }
        fin E. apply eb_upd_same; auto. apply (st_like A (nth h Ms mzero)); auto. rewrite EN in V'. eapply meq_tr; [exact V'|].
        eapply meq_tr; [apply bcut_exact; auto; eapply st_N; eauto|]. apply meq_madd; [apply meq_mscale; auto|]. apply meq_refl.
      - get h. get h2. get h3. pose proof S as (W & EN & ENB & EMB & EBS & V). pose proof S0 as (W0 & EN0 & ENB0 & EMB0 & EBS0 & V0).
        pose proof S1 as (W1 & EN1 & ENB1 & EMB1 & EBS1 & V1). pose proof (st_le _ _ S).
        destruct (eb_multiply_AB_ok keep A A0 A1 (e_gv e) (e_nth e) (e_rows e 0)) as (A' & E & W' & D' & _ & V' & _ & R'); auto.
        { apply W1. } { eapply st_dims; eauto. } { eapply st_dims; eauto. } { eapply st_small; eauto. } { rewrite ENB. apply He. }
        { intros ib Hi. etransitivity; [apply nodup_lt_len; [apply mul_cols_nodup|intros c Hc; eapply (mul_cols_lt A A0); eauto; congruence]|lia]. }
        fin E. apply eb_upd_same; auto. apply (st_like A1 (nth h3 Ms mzero)); auto. rewrite EN in V'. eapply meq_tr; [exact V'|].
        eapply meq_tr; [apply bcut_offdiag_exact; auto; eapply st_N; eauto|]. apply meq_mmul; auto.
      - destruct Hd as (D1 & D2 & D3). apply Nat.eqb_neq in D1. rewrite D1.
        get h. get h2. get h3. pose proof S as (W & EN & ENB & EMB & EBS & V). pose proof S0 as (W0 & EN0 & ENB0 & EMB0 & EBS0 & V0).
        pose proof S1 as (W1 & EN1 & ENB1 & EMB1 & EBS1 & V1). pose proof (st_le _ _ S).
        destruct (eb_multiply_exact s (Some d) keep alpha beta A A0 A1 (e_gv e) (e_nth e) (e_rows e 0) (e_nth e) (e_rows e 1)) as (A' & E & W' & R' & D' & V'); auto.
        { eapply st_dims; eauto. } { eapply st_dims; eauto. } { apply good_d. } { eapply st_uniform; eauto. } { apply HB. }
        { intros ib Hi. etransitivity; [apply (nodup_lt_len _ (bNB A)); [apply touch_all_nodup; apply W1; congruence|intros c Hc; apply touch_all_in in Hc as [Hc|Hc]]|lia].
          - replace (bNB A) with (bNB A1) by congruence. eapply (bcols_lt A1 ib); eauto. congruence.
          - eapply (mul_cols_lt A A0); eauto; congruence. }
        { rewrite ENB. apply He. } { rewrite ENB. apply He. }
        fin E. apply eb_upd_same; auto. apply (st_like A1 (nth h3 Ms mzero)); auto. rewrite EN in V'. eapply meq_tr; [exact V'|].
        apply meq_madd; apply meq_mscale; auto. apply meq_mmul; auto.
      - get h. get h2. pose proof S as (W & EN & ENB & EMB & EBS & V). pose proof S0 as (W0 & EN0 & ENB0 & EMB0 & EBS0 & V0). pose proof (st_le _ _ S).
        destruct (eb_multiply_x2_ok keep A A0 (e_gv e) (e_nth e) (e_rows e 0)) as (A' & tx2 & E & W' & D' & _ & V' & T & _); auto.
        { eapply st_dims; eauto. } { congruence. } { eapply st_small; eauto. } { rewrite ENB. apply He. }
        { intros ib Hi. etransitivity; [apply nodup_lt_len; [apply mul_cols_nodup|intros c Hc; eapply (mul_cols_lt A A); eauto; congruence]|lia]. }
        rewrite E. cbn [bind]. exists (set_nth st h2 A'). split.
        { rewrite (T s) by (eapply st_uniform; eauto). rewrite EN. rewrite (mtrace_meq N _ _ V).
          rewrite (mtrace_meq N (mmul N (ebmx A) (ebmx A)) (mmul N (nth h Ms mzero) (nth h Ms mzero))) by (apply meq_mmul; auto). reflexivity. }
        apply eb_upd; auto; [|discriminate]. apply (st_like A0 (nth h2 Ms mzero)); auto. rewrite EN in V'. eapply meq_tr; [exact V'|].
        eapply meq_tr; [apply bcut_offdiag_exact; auto; eapply st_N; eauto|]. apply meq_mmul; auto.
      - contradiction.
      - get h. pose proof S as (W & EN & ENB & EMB & EBS & V). pose proof (st_le _ _ S).
        destruct (eb_transpose_new_ok (Some d) A (e_gv e)) as (A' & E & W' & C' & D' & V'); auto; [apply good_d|intros; etransitivity; [apply count_all|auto]|].
        cbn [cache_after] in E. fin E.
        assert (S' : eb_stands d N A' (mtrans (nth h Ms mzero))).
        { apply (st_like A (nth h Ms mzero)); auto. rewrite EN in V'. eapply meq_tr; [exact V'|]. apply meq_mtrans; auto. }
        apply eb_newm; auto. eapply st_clean; eauto.
      - get h. pose proof S as (W & EN & ENB & EMB & EBS & V). pose proof (st_le _ _ S).
        destruct (eb_transpose_ok A (e_gv e)) as (A' & E & W' & D' & V' & _); auto; [intros; etransitivity; [apply count_all|auto]|].
        fin E. apply eb_upd; auto; [|discriminate]. apply (st_like A (nth h Ms mzero)); auto. rewrite EN in V'. eapply meq_tr; [exact V'|]. apply meq_mtrans; auto.
      - get h. pose proof S as (W & EN & ENB & EMB & EBS & V).
        destruct (eb_scale_inplace_ok a A) as (A' & E & W' & _ & R' & D' & _ & V'); auto.
        fin E. apply eb_upd_same; auto. apply (st_like A (nth h Ms mzero)); auto. rewrite EN in V'. eapply meq_tr; [exact V'|]. apply meq_mscale; auto.
      - get h. pose proof S as (W & EN & ENB & EMB & EBS & V).
        destruct (eb_copy_new_ok (Some d) A (e_gv e) (e_nth e) (e_rows e 0)) as (A' & E & W' & C' & D' & V'); auto; [apply good_d|rewrite ENB; apply He| |].
        { intros ib Hi. pose proof (st_small _ _ S ib Hi). lia. }
        cbn [cache_after] in E. fin E.
        assert (S' : eb_stands d N A' (nth h Ms mzero)).
        { apply (st_like A (nth h Ms mzero)); auto. rewrite EN in V'. eapply meq_tr; [exact V'|]. auto. }
        apply eb_newm; auto. eapply st_clean; eauto.
      - get h. pose proof S as (W & EN & ENB & EMB & EBS & V).
        destruct (eb_threshold_ok keep A) as (A' & E & W' & _ & R' & D' & V'); auto.
        fin E. apply eb_upd_same; auto. apply (st_like A (nth h Ms mzero)); auto. rewrite EN in V'. eapply meq_tr; [exact V'|]. apply meq_mcut; auto.
      - get h. pose proof S as (W & EN & ENB & EMB & EBS & V). pose proof (st_le _ _ S).
        destruct (eb_set_diagonal_ok keep A diag (e_gv e)) as (A' & E & W' & _ & R' & D' & V'); auto; [congruence|intros; apply diag_slot; auto|].
        fin E. apply eb_upd_same; auto. apply (st_like A (nth h Ms mzero)); auto. rewrite EN in V'. eapply meq_tr; [exact V'|].
        eapply meq_tr; [apply set_diag_exact; auto; eapply st_N; eauto|]. intros i j Hi Hj. cbn beta. destruct (i =? j); auto.
      - get h. pose proof S as (W & EN & ENB & EMB & EBS & V). destruct Hb as [Hi Hj]. rewrite eb_get_element_ok by (auto; congruence). cbn [bind].
        rewrite V by auto. exists st. auto.
      - get h. pose proof S as (W & EN & ENB & EMB & EBS & V). destruct (eb_get_row_ok A i) as (r & E & L & Hr); auto; [congruence|]. rewrite E. cbn [bind].
        exists st. split; auto. do 3 f_equal. apply list_ext_nth with (d := k0); [rewrite map_length, seq_length; congruence|].
        intros j Hj. rewrite L, EN in Hj. rewrite nth_map_seq by auto. rewrite Hr by congruence. apply V; auto.
      - get h. pose proof S as (W & EN & ENB & EMB & EBS & V). rewrite eb_trace_ok by auto. cbn [bind]. rewrite EN, (mtrace_meq N _ _ V). exists st. auto.
      - get h. pose proof S as (W & EN & ENB & EMB & EBS & V). rewrite eb_sum_squares_ok by auto. cbn [bind].
        rewrite EN, (msum_meq N _ (mhad (nth h Ms mzero) (nth h Ms mzero))) by (apply meq_mhad; auto). exists st. auto.
    Qed.

    Lemma eb_run fl (p : list (instr * env)) st o Ms : eb_state fl st Ms -> ebprogram N fl (map fst p) -> Forall exact_instr (map fst p) ->
      Forall (fun q => eb_schedules d (snd q)) p ->
      exists st', ebrun p (Some d, st, o) = Ok (Some d, st', snd (mrun N (map fst p) (Ms, o))) /\
        exists fl', eb_state fl' st' (fst (mrun N (map fst p) (Ms, o))).
    Proof.
      revert fl st o Ms. induction p as [|[c e] p IH]; intros fl st o Ms H HP HX HE; cbn [map fst ebrun].
      - exists st. split; auto. exists fl. auto.
      - destruct HP as (P1 & P2 & P3 & P4 & P5 & P6). cbn [map fst] in HX. apply Forall_cons_iff in HX as [X1 X2]. apply Forall_cons_iff in HE as [E1 E2].
        destruct (eb_step fl c e st o Ms) as (st' & E & H'); auto. rewrite E. cbn [bind]. unfold mrun. cbn [fold_left].
        destruct (mexec N c (Ms, o)) as [Ms' o'] eqn:Em. cbn [fst snd] in *. apply (IH (flags_after c fl)); auto.
    Qed.
  End Run.

  Theorem eb_program_means s d N fl (p : list (instr * env)) (st : list eb) (Ms : list (mat F)) :
    block_sizes s d N -> Forall2 (eb_stands d N) st Ms -> flagged s fl st -> ebprogram N fl (map fst p) ->
    Forall exact_instr (map fst p) -> Forall (fun q => eb_schedules d (snd q)) p ->
    exists st', ebrun p (Some d, st, []) = Ok (Some d, st', snd (mrun N (map fst p) (Ms, []))) /\
      Forall2 (eb_stands d N) st' (fst (mrun N (map fst p) (Ms, []))).
  Proof.
    intros HB H1 H2 HP HX HE. destruct (eb_run s d N HB fl p st [] Ms) as (st' & E & fl' & H & _); auto; [split; auto|]. exists st'. auto.
  Qed.

  (** ** Against the other formats *)
  Lemma ebprogram_program N fl (p : list instr) : ebprogram N fl p -> program N (length fl) p.
  Proof.
    revert fl. induction p as [|c p IH]; intros fl; cbn [ebprogram program]; auto. intros (P1 & P2 & P3 & _ & _ & P6). split; auto. split; auto. split; auto.
    apply IH in P6. replace (length fl + creates c) with (length (flags_after c fl)); auto.
    destruct c; cbn [flags_after creates]; rewrite ?length_set_nth, ?app_length; simpl; lia.
  Qed.
  Theorem eb_programs_agree s d N M t fl (p1 p2 : list (instr * env)) (st1 : list eb) (st2 : list (bmat F)) :
    block_sizes s d N -> Forall2 (fun A B => eb_stands d N A (bmx B)) st1 st2 -> flagged s fl st1 -> FormatHistSpec.uniform N M t st2 ->
    map fst p1 = map fst p2 -> ebprogram N fl (map fst p1) -> Forall exact_instr (map fst p1) ->
    Forall (fun q => eb_schedules d (snd q)) p1 -> Forall (fun q => good_schedules N (snd q)) p2 ->
    exists st1' st2' out, ebrun p1 (Some d, st1, []) = Ok (Some d, st1', out) /\ brun p2 (st2, []) = Ok (st2', out) /\
      Forall bwf st2' /\ Forall2 (fun A B => eb_stands d N A (bmx B) /\ bml_get_N B = N) st1' st2'.
  Proof.
    intros HB H1 H2 HU HP HE HX E1 E2. set (Ms := map bmx st2).
    assert (HN : 0 < N). { destruct HB as (Hs & (Hd1 & _ & _ & <-) & _ & Hu). pose proof (boff_mono (s_bsize d) 1 (s_nb d) ltac:(lia)) as H.
      rewrite boff_S, Hu in H by auto. lia. }
    assert (G1 : Forall2 (eb_stands d N) st1 Ms) by (unfold Ms; clear -H1; induction H1; simpl; auto).
    assert (G2 : Forall2 (fun A X => meq N (bmx A) X) st2 Ms) by (unfold Ms; clear; induction st2; simpl; constructor; auto; apply meq_refl).
    assert (L1 : length st1 = length st2) by (clear -H1; induction H1; simpl; auto).
    assert (L2 : length st1 = length fl) by (unfold flagged in H2; clear -H2; induction H2; simpl; auto).
    destruct (eb_program_means s d N fl p1 st1 Ms) as (st1' & R1 & F1); auto.
    destruct (program_means_roomy N M t p2 st2 Ms) as (st2' & R2 & W2 & F2); auto.
    { rewrite <- L1, L2, <- HP. apply ebprogram_program; auto. } { congruence. }
    rewrite <- HP in *. eexists st1', st2', _. split; [exact R1|]. split; [exact R2|]. split; auto.
    clear -F1 F2. revert F1 F2. generalize (fst (mrun N (map fst p1) (Ms, []))). intros l F1. revert st2'.
    induction F1 as [|A X l1 l2 HA F1 IH]; intros st2' F2; inversion F2 as [|B Y l3 l4 [HB1 HB2] F3]; subst; constructor; auto.
    split; auto. destruct HA as (a & b & c & e & f & V). do 5 (split; [assumption|]). eapply meq_tr; [exact V|]. intros i j Hi Hj. symmetry. auto.
  Qed.
End EbProgFacts.
