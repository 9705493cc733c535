(** multiply_AB, clear, multiply_x2 and multiply in the block format. *)
From Verif Require Import Base BaseFacts Spec SpecFacts EllpackModel EllpackSpec EllpackExact EllblockModel EllblockSpec EllblockFacts EllblockHeap EllblockRead EllblockBuild EllblockMake EllblockSet EllblockCopy EllblockWork EllblockAdd EllblockMul.
From Coq Require Import Permutation.

Section Prod.
  Context {F : scalar}.
  Add Ring KRprod : (k_ring F).
  Local Notation eb := (eb F).
  Implicit Types A B C X Y : eb.

  Lemma own_none C : own (fun _ => 0) C.
  Proof. split; [intros; lia|]. split; intros; lia. Qed.
  Lemma pterm_missing A B ib jb k : ebwf A -> ebwf B -> ib < bNB A -> ~ In jb (mul_cols A B ib) -> bigsum (bnz A ib) (fun jp => pterm A B ib jp jb k) = k0.
  Proof.
    intros WA WB Hi Hn. apply bigsum_zero. intros jp Hj. unfold pterm. apply bigsum_zero. intros r _. rewrite (bel_miss B). { ring. }
    intros kp Hk E. apply Hn. unfold mul_cols. apply touch_all_in. right. apply in_flat_map. exists (scol A ib jp). split.
    - unfold bcols. apply in_map_iff. exists jp. split; auto. apply in_seq. lia.
    - unfold bcols. apply in_map_iff. exists kp. split; auto. apply in_seq. lia.
  Qed.

  Lemma eb_multiply_AB_run {e} cap (keep : F -> bool) A B C (g : nat -> F) nth_ sched : ebwf A -> ebwf B -> eb_shape C -> eb_dims A B -> eb_dims A C -> small_blocks A ->
    full_sched (bNB A) nth_ sched -> own cap C -> (forall ib, ib < bNB A -> length (mul_cols A B ib) <= bMB C \/ e) ->
    wpq e (eb_multiply_AB keep A B C g sched) (fun C' => mstate cap C (mtgt keep A B) (mul_cols A B) (map snd sched) C' /\ forall ib, ib < bNB A -> length (mul_cols A B ib) <= bMB C).
  Proof.
    intros WA WB HSC DB DC Hsz Hs HOC Hroom. pose proof WA as (HSA & HOA & HRA). pose proof DB as (DB1 & DB2 & DB3). pose proof DC as (DC1 & DC2 & DC3). unfold eb_multiply_AB.
    rewrite <- DB2, <- DC2, Nat.eqb_refl. cbn [andb negb]. destruct (maxbsize_ok (bNB A) (bbs A) ltac:(rewrite (sh_bs A HSA); auto)) as (m & Em & Hm & _). rewrite Em. cbn [bind].
    assert (Hmm : forall c c', c < bNB A -> c' < bNB A -> bsz (bbs A) c * bsz (bbs A) c' <= m * m) by (intros; apply Nat.mul_le_mono; auto).
    apply wp_bind. eapply wp_mono.
    { apply (mul_run keep cap A B C sched nth_ _ _ (fun w => forall ib, wrep (bNB A) (m * m) (bsq (bbs A) ib) w [] (fun _ _ => k0)) (fun _ _ => k0) (fun _ _ => k0) True (fun ib => length (mul_cols A B ib) <= bMB C)); auto.
      - intros t ib. apply wrep_new.
      - intros ib w C1 done Hi Hnin Hdl Hw HM. pose proof (ms_kin _ _ _ _ _ _ HM) as K. pose proof K as (_ & _ & EN & EM & EB & KS).
        apply wp_bind. eapply wp_mono; [apply bmul_acc_ok; auto|]. intros [w1 lb] (El & Hr). cbn [fst snd] in El, Hr. subst lb.
        destruct (Nat.ltb_spec (bMB C1) (length (mul_cols A B ib))) as [Hlt|Hle].
        { cbn [wpq]. destruct (Hroom ib Hi) as [Hr'|He]; [lia|exact He]. }
        apply wp_bind. eapply wp_mono. { apply (bmul_gather_ok keep (fun i => if existsb (Nat.eqb i) done then Nat.max (cap i) (bnz C1 i) else cap i) C1 ib (m * m) (bbs A) (bNB A) (bMB C1) g (mul_cols A B ib)
            (fun c k => bigsum (bnz A ib) (fun jp => pterm A B ib jp c k)) w1 _ (fun _ _ => True) tt); auto; try lia; try apply (ms_own _ _ _ _ _ _ HM).
          - rewrite EN, <- DC2. apply HSA.
          - intros c Hc. apply Hmm; lia.
          - rewrite EN, <- DC2. exact Hr. }
        intros [[C2 w2] t] (_ & Hw2 & lst & Cx & HGa & HN & Hlst & Hval). cbn [wpq fst snd]. rewrite EN, <- DC2 in Hw2.
        split; [|split; [|split; [lia|split; intros; ring]]].
        + assert (Hlen : length lst <= bMB C). { rewrite <- (map_length fst), Hlst. etransitivity; [apply filter_length_le|]. lia. }
          eapply mstate_step with (C1 := C1) (C2 := Cx) (lst := lst) (L := mul_cols A B ib) (kp := fun c => ((c =? ib) || kept keep (bsq (bbs A) ib) (fun c k => bigsum (bnz A ib) (fun jp => pterm A B ib jp c k)) c)%bool)
             (v := fun c k => bigsum (bnz A ib) (fun jp => pterm A B ib jp c k)); eauto.
          * lia.
          * intros i Hd. rewrite <- DC2. auto.
          * apply mul_cols_nodup.
          * intros c Hc. rewrite <- DC2. apply (mul_cols_lt A B ib c); auto.
          * rewrite <- DC3. auto.
          * intros jb k Hj Hn Hk. apply pterm_missing; auto.
          * intros jb k Hj Hk. rewrite <- DC2 in Hj. rewrite <- DC3 in Hk. cbn beta. unfold mtgt. rewrite (pterm_sum A B ib jb k) by auto.
            rewrite (blk_keep_kept (bbs A) keep (mmul (bN A) (ebmx A) (ebmx B)) ib jb) by (intros k' Hk'; apply pterm_sum; auto). reflexivity.
        + intros ib'. eapply wrep_sz. exact Hw2. } 
    intros [C2 w] (HM & HR & _ & _). cbn [wpq fst] in *. split; auto.
  Qed.

  Lemma sched_all N nth_ (sched : list (nat * nat)) i : full_sched N nth_ sched -> i < N -> In i (map snd sched).
  Proof. intros [HP _] Hi. eapply Permutation_in; [symmetry; exact HP|apply in_seq; lia]. Qed.

  (** ** C := A B *)
  Theorem eb_multiply_AB_ok (keep : F -> bool) A B C (g : nat -> F) nth_ sched : ebwf A -> ebwf B -> eb_shape C -> eb_dims A B -> eb_dims A C -> small_blocks A ->
    full_sched (bNB A) nth_ sched -> (forall ib, ib < bNB A -> length (mul_cols A B ib) <= bMB C) ->
    exists C', eb_multiply_AB keep A B C g sched = Ok C' /\ ebwf C' /\ same_dims C C' /\ (forall ib c, ib < bNB A -> In c (bcols C' ib) -> In c (mul_cols A B ib)) /\
      meq (bN A) (ebmx C') (bcut_offdiag (bbs A) keep (mmul (bN A) (ebmx A) (ebmx B))) /\
      ((forall ib jp, ib < bNB C -> jp < bMB C -> saddr C ib jp = None) -> clean C') /\ (forall n, roomy n C -> roomy n C').
  Proof.
    intros WA WB HSC DB DC Hsz Hs Hroom. pose proof DC as (DC1 & DC2 & DC3).
    pose proof (eb_multiply_AB_run (e:=False) (fun _ => 0) keep A B C g nth_ sched WA WB HSC DB DC Hsz Hs (own_none C) ltac:(auto)) as H.
    apply wp_ok in H as (C' & E & HM & _). exists C'. split; auto.
    destruct (mstate_done keep (fun _ => 0) A B C (map snd sched) C') as (W & D & Cs & V & Cl & _); auto. { intros; eapply sched_all; eauto. }
    split; auto. split; auto. split; auto. split; auto. split; auto. intros n HR. pose proof (proj1 HR) as HT.
    pose proof (eb_multiply_AB_run (e:=False) (fun _ => bMB C) keep A B C g nth_ sched WA WB HSC DB DC Hsz Hs HT ltac:(auto)) as H2.
    rewrite E in H2. cbn [wpq] in H2. destruct H2 as [HM2 _]. apply (ms_roomy _ _ _ _ _ _ HM2); auto.
  Qed.
  (** a row of the product without room stops the program *)
  Theorem eb_multiply_AB_full (keep : F -> bool) A B C (g : nat -> F) nth_ sched ib : ebwf A -> ebwf B -> eb_shape C -> eb_dims A B -> eb_dims A C -> small_blocks A ->
    full_sched (bNB A) nth_ sched -> ib < bNB A -> bMB C < length (mul_cols A B ib) -> eb_multiply_AB keep A B C g sched = Err.
  Proof.
    intros WA WB HSC DB DC Hsz Hs Hi Hlt.
    pose proof (eb_multiply_AB_run (e:=True) (fun _ => 0) keep A B C g nth_ sched WA WB HSC DB DC Hsz Hs (own_none C) ltac:(auto)) as H.
    destruct (eb_multiply_AB keep A B C g sched); cbn [wpq] in H; auto; try tauto. destruct H as [_ H]. specialize (H ib Hi). lia.
  Qed.

  (** ** clear *)
  Lemma nth_some {V} (l : list (option V)) a x : nth a l None = Some x -> nth_error l a = Some (Some x).
  Proof. revert a. induction l as [|y l IH]; intros [|a]; simpl; intros H; try discriminate; auto. congruence. Qed.
  Lemma eb_clear_ok A : eb_shape A -> own (bnz A) A ->
    exists A', eb_clear A = Ok A' /\ kin A A' /\ bptr A' = bptr A /\ (forall ib, ib < bNB A -> bnz A' ib = 0).
  Proof.
    intros HS HO. apply wp_ok. unfold eb_clear. apply wp_bind.
    set (live := fun (A' : eb) i0 j0 => forall ib jp a, ib < bNB A -> jp < bnz A ib -> (i0 < ib \/ ib = i0 /\ j0 <= jp) -> saddr A ib jp = Some a -> exists x, nth a (bheap A') None = Some x).
    set (P := fun (A' : eb) => kin A A' /\ bptr A' = bptr A /\ bnnz A' = bnnz A).
    eapply wp_mono. { apply (for_n_inv (fun n A' => P A' /\ live A' n 0)).
      - split; [split; [apply kin_refl|auto]|]. intros ib jp a Hi Hj _ Ha. destruct HO as (_ & H2 & _). eapply H2; eauto.
      - intros ib A1 Hi (HP & HL). pose proof HP as (K & EP & EZ). pose proof K as (_ & _ & EN & EM & EB & KS). 
        apply wp_bind. rewrite b_nnz_ok by (auto; lia). cbn [wpq]. replace (bnz A1 ib) with (bnz A ib) by (unfold bnz; congruence).
        eapply wp_mono. { apply (for_n_inv (fun j A' => P A' /\ live A' ib j)); [split; auto|].
          intros jp A2 Hj (HP2 & HL2). pose proof HP2 as (K2 & EP2 & EZ2). pose proof K2 as (_ & _ & EN2 & EM2 & EB2 & KS2).
          pose proof (proj1 HO ib Hi) as Hcap. unfold b_free.
          replace (b_at A1 ib jp) with (b_at A2 ib jp) by (rewrite (kin_at A A2), (kin_at A A1); auto).
          apply wp_bind. rewrite rd_ptr_ok by (auto; lia). cbn [wpq].
          assert (EA : saddr A2 ib jp = saddr A ib jp) by (unfold saddr, spos; congruence). rewrite EA.
          destruct (saddr A ib jp) as [a|] eqn:Ea.
          - destruct (HL2 ib jp a) as (x & Hx); auto. apply wp_bind. unfold deref. rewrite (nth_some _ _ _ Hx). cbn [wpq]. split.
            + split; [|auto]. pose proof K2 as (k1' & k2' & _). unfold kin. cbn. split; auto. split; auto. split; auto. split; auto. split; auto. intros _. destruct (KS2 HS). constructor; auto.
            + intros i' j' a' Hi' Hj' Hl Ha'. cbn [bheap]. assert (a' <> a).
              { intros ->. destruct HO as (_ & _ & H3). destruct (H3 ib jp i' j' a); auto. lia. }
              rewrite nth_set_nth. destruct (Nat.eqb_spec a' a); [tauto|]. cbn [andb]. apply (HL2 i' j' a'); auto. lia.
          - cbn [wpq]. split; auto. intros i' j' a' Hi' Hj' Hl Ha'. apply (HL2 i' j' a'); auto. lia. }
        intros A2 (HP2 & HL2). split; auto. intros i' j' a' Hi' Hj' Hl Ha'. apply (HL2 i' j' a'); auto. lia. }
    intros A1 ((K & EP & EZ) & _). pose proof K as (_ & _ & EN & EM & EB & KS). rewrite EN.
    eapply wp_mono. { apply (for_n_inv (fun n A' => kin A A' /\ bptr A' = bptr A /\ forall ib, ib < n -> bnz A' ib = 0)).
      - split; auto. split; auto. intros; lia.
      - intros ib A2 Hi (K2 & EP2 & Z). pose proof K2 as (_ & _ & EN2 & EM2 & EB2 & KS2). eapply wp_mono; [apply b_wnnz_ok; [auto|lia]|].
        intros A3 HN. split; [eapply kin_trans; [exact K2|apply HN]|]. split; [rewrite <- EP2; apply HN|]. intros i Hi'. destruct (Nat.eq_dec i ib) as [->|Hne].
        + apply HN.
        + rewrite <- (Z i) by lia. apply (ns_other _ _ _ _ HN). auto. }
    intros A2 (K2 & EP2 & Z). auto.
  Qed.

  Lemma cleared_wf A A' : eb_shape A -> kin A A' -> (forall ib, ib < bNB A -> bnz A' ib = 0) -> ebwf A' /\ meq (bN A) (ebmx A') mzero.
  Proof.
    intros HS K Z. pose proof K as (EN0 & _ & EN & EM & EB & KS). assert (W : ebwf A').
    { split; auto. split.
      - eapply own_cap_eq; [|apply own_none]. intros i Hi. apply Z. lia.
      - intros i Hi. rewrite EN in Hi. constructor; [|intros jp Hj; rewrite Z in Hj by auto; lia..]. unfold bcols. rewrite Z by auto. constructor. }
    split; auto. rewrite <- EN0. apply meq_blocks; [apply W|]. intros ib jb k Hi Hj Hk. rewrite EN in Hi. rewrite bel_miss by (intros jp Hjp; rewrite Z in Hjp by auto; lia). reflexivity.
  Qed.
  (** clear leaves the zero matrix *)
  Theorem eb_clear_zero A : ebwf A -> exists A', eb_clear A = Ok A' /\ ebwf A' /\ same_dims A A' /\ bptr A' = bptr A /\ meq (bN A) (ebmx A') mzero.
  Proof.
    intros (HS & HO & _). destruct (eb_clear_ok A HS HO) as (A' & E & K & EP & Z). exists A'. split; auto.
    destruct (cleared_wf A A' HS K Z) as [W V]. split; auto. split; [|auto]. destruct K as (k1 & k2 & k3 & k4 & k5 & _). unfold same_dims; auto.
  Qed.

  (** ** X2 := X X and the two traces *)
  Lemma x2_trace_row {e} X ib tx : ebwf X -> ib < bNB X ->
    wpq e (b_for_row X ib (fun k jb tx =>
          if (jb =? ib)%nat then
            a <- b_blk X k ;; for_n (bsz (bbs X) ib) (fun kk tx => v <- rd a (kk * (1 + bsz (bbs X) ib)) ;; Ok (kadd tx v)) tx
          else Ok tx) tx) (fun t => t = kadd tx (bigsum (bsz (bbs X) ib) (fun ii => bel X ib ib (ii * bsz (bbs X) ib + ii)))).
  Proof.
    intros HW Hi. pose proof HW as (HS & HO & HR). rewrite b_for_row_unfold by auto. set (bi := bsz (bbs X) ib).
    rewrite (sum_loop _ _ (fun jp => if scol X ib jp =? ib then bigsum bi (fun ii => nth (ii * bi + ii) (sblk X ib jp) k0) else k0)).
    - cbn [wpq]. f_equal.
      rewrite (row_sum X ib (fun jb f => if jb =? ib then bigsum bi (fun ii => f (ii * bi + ii)) else k0)); auto.
      + rewrite (bigsum_single (bNB X) ib) by (auto; intros j Hj Hne; apply Nat.eqb_neq in Hne; rewrite Hne; reflexivity). rewrite Nat.eqb_refl. reflexivity.
      + intros jb f f' E. destruct (jb =? ib); auto. apply bigsum_ext. auto.
      + intros jb. destruct (jb =? ib); auto. apply bigsum_zero. auto.
    - intros jp t Hj. destruct (ebwf_slot X ib jp) as (Hm & Hc & Hx & Hl); auto. destruct (Nat.eqb_spec (scol X ib jp) ib) as [E|E].
      + rewrite (b_blk_ok X ib jp (sblk X ib jp)) by auto. cbn [bind]. apply sum_loop. intros kk s Hk. rewrite E in Hl. fold bi in Hl.
        pose proof (pos_lt bi bi kk kk Hk Hk). replace (kk * (1 + bi)) with (kk * bi + kk) by ring. rewrite (rd_ok _ _ k0) by lia. reflexivity.
      + f_equal. ring.
  Qed.

  Lemma in_firstn_S L p (x : nat) : p < length L -> existsb (Nat.eqb x) (firstn (S p) L) = (existsb (Nat.eqb x) (firstn p L) || (x =? nth p L 0))%bool.
  Proof. intros H. rewrite (firstn_S_nth _ _ 0) by auto. rewrite existsb_app. cbn [existsb]. rewrite orb_false_r. reflexivity. Qed.
  Lemma nodup_nth_firstn L p : NoDup L -> p < length L -> ~ In (nth p L 0) (firstn p L).
  Proof.
    intros HND Hp Hin. assert (HF : L = firstn p L ++ nth p L 0 :: skipn (S p) L) by (apply nth_split_eq; auto).
    rewrite HF in HND at 1. apply NoDup_remove_2 in HND. apply HND. apply in_or_app. auto.
  Qed.

  Lemma eb_multiply_x2_run {e} (keep : F -> bool) X Y s (g : nat -> F) nth_ sched : ebwf X -> eb_shape Y -> eb_dims X Y -> bMB Y = bMB X -> small_blocks X ->
    full_sched (bNB X) nth_ sched -> (forall ib, ib < bNB X -> length (mul_cols X X ib) <= bMB X \/ e) -> own (bnz Y) Y ->
    wpq e (eb_multiply_x2 keep X Y nth_ g sched) (fun r => let '(Y', tx, tx2) := r in
      (exists Y0, kin Y Y0 /\ bptr Y0 = bptr Y /\ mstate (fun _ => 0) Y0 (mtgt keep X X) (mul_cols X X) (map snd sched) Y') /\ (forall ib, ib < bNB X -> length (mul_cols X X ib) <= bMB X) /\
      tx = mtrace (bN X) (ebmx X) /\ (uniform s X -> tx2 = mtrace (bN X) (mmul (bN X) (ebmx X) (ebmx X)))).
  Proof.
    intros WA HSY DC EMB Hsz Hs Hroom HOY. pose proof WA as (HSA & HOA & HRA). pose proof DC as (DC1 & DC2 & DC3). unfold eb_multiply_x2.
    destruct (eb_clear_ok Y HSY HOY) as (C & EC & KC & EPC & ZC). rewrite EC. cbn [bind]. pose proof KC as (kc1 & kc2 & kc3 & kc4 & kc5 & kc6).
    assert (HSC : eb_shape C) by auto. assert (ENC : bNB C = bNB X) by congruence. assert (EBC : bbs C = bbs X) by congruence. assert (EMC : bMB C = bMB X) by congruence. clear HOY ZC kc1 kc2 kc6.
    destruct (maxbsize_ok (bNB X) (bbs X) ltac:(rewrite (sh_bs X HSA); auto)) as (m & Em & Hm & _). rewrite Em. cbn [bind].
    assert (Hmm : forall c c', c < bNB X -> c' < bNB X -> bsz (bbs X) c * bsz (bbs X) c' <= m * m) by (intros; apply Nat.mul_le_mono; auto).
    set (XX := mmul (bN X) (ebmx X) (ebmx X)).
    set (cc := fun (b : bool) ib => if b then bigsum (bsz (bbs X) ib) (fun ii => bel X ib ib (ii * bsz (bbs X) ib + ii))
                 else bigsum (bsz (bbs X) ib) (fun ii => xb (bbs X) XX ib ib (ii * bsz (bbs X) ib + ii))).
    apply wp_bind. eapply wp_mono.
    { apply (mul_run keep (fun _ => 0) X X C sched nth_ _ (fun _ => (bws_new (bNB X) (m * m), k0, k0)) (fun w : wsp (list F) * F * F => forall ib, wrep (bNB X) (m * m) (bsq (bbs X) ib) (fst (fst w)) [] (fun _ _ => k0))
        (fun (b : bool) (w : wsp (list F) * F * F) => if b then snd (fst w) else snd w) cc (uniform s X) (fun ib => length (mul_cols X X ib) <= bMB X)); auto.
      - apply own_none.
      - intros t ib. apply wrep_new.
      - intros ib [[w tx] tx2] C1 done Hi Hnin Hdl Hw HM. cbn [fst snd] in Hw. pose proof (ms_kin _ _ _ _ _ _ HM) as K. pose proof K as (_ & _ & EN & EM & EB & KS).
        apply wp_bind. rewrite b_bs_ok by auto. cbn [wpq]. apply wp_bind. apply wp_bind. eapply wp_mono; [apply x2_trace_row; auto|]. intros tx' Etx.
        apply wp_bind. eapply wp_mono; [apply bmul_acc_ok; auto|]. intros [w1 lb] (El & Hr). cbn [fst snd wpq] in El, Hr |- *. subst lb.
        destruct (Nat.ltb_spec (bMB X) (length (mul_cols X X ib))) as [Hlt|Hle].
        { cbn [wpq]. destruct (Hroom ib Hi) as [Hr'|He]; [lia|exact He]. }
        set (v := fun c k => bigsum (bnz X ib) (fun jp => pterm X X ib jp c k)) in *. set (bi := bsz (bbs X) ib) in *. set (L := mul_cols X X ib) in *.
        assert (HND : NoDup L) by apply mul_cols_nodup.
        apply wp_bind. eapply wp_mono. { apply (bmul_gather_ok keep (fun i => if existsb (Nat.eqb i) done then Nat.max 0 (bnz C1 i) else 0) C1 ib (m * m) (bbs X) (bNB X) (bMB X) g L v w1 _
              (fun p t => uniform s X -> t = kadd tx2 (if existsb (Nat.eqb ib) (firstn p L) then bigsum bi (fun kk => v ib (kk * bi + kk)) else k0)) tx2); auto; try lia; try apply (ms_own _ _ _ _ _ _ HM).
          - rewrite EN, ENC. apply HSA.
          - intros c Hc. apply Hmm; lia.
          - rewrite EN, ENC. exact Hr.
          - intros _. simpl. ring.
          - intros p t x Hp HI Lx Hx. rewrite in_firstn_S by auto. set (c := nth p L 0) in *. split.
            + intros _. destruct (Nat.eqb_spec c ib) as [E|E].
              * assert (HpN : p < bNB X). { pose proof (wrep_room _ _ _ _ _ _ Hr). lia. }
                apply wp_bind. rewrite b_bs_ok by auto. cbn [wpq]. rewrite E, Nat.eqb_refl, orb_true_r.
                rewrite (sum_loop bi _ (fun kk => nth (kk * (1 + bsz (bbs X) p)) x k0)).
                { cbn [wpq]. intros HU. rewrite HI by auto. assert (En : existsb (Nat.eqb ib) (firstn p L) = false). { apply existsb_eqb_nin. rewrite <- E. apply nodup_nth_firstn; auto. }
                  rewrite En. replace (kadd tx2 k0) with tx2 by ring. f_equal. apply bigsum_ext. intros kk Hk. rewrite (HU p HpN). fold (uniform s X) in HU. rewrite <- (HU ib Hi). fold bi.
                  replace (kk * (1 + bi)) with (kk * bi + kk) by ring. rewrite Hx. { rewrite E. auto. } rewrite E. unfold bsq. fold bi. apply pos_lt; auto. }
                { intros kk t' Hk. rewrite (rd_ok _ _ k0). { reflexivity. } rewrite Lx. pose proof (Hm ib Hi). pose proof (Hm p HpN). fold bi in H.
                  assert (kk * (1 + bsz (bbs X) p) <= (m - 1) * (1 + m)) by (apply Nat.mul_le_mono; lia). assert (0 < m) by lia. destruct m as [|m']; [lia|]. simpl in H1 |- *. rewrite Nat.sub_0_r in H1. nia. }
              * cbn [wpq]. intros HU. destruct (Nat.eqb_spec ib c); [congruence|]. rewrite orb_false_r. auto.
            + intros Hk HU. destruct (Nat.eqb_spec c ib) as [E|E].
              * cbn in Hk. discriminate.
              * destruct (Nat.eqb_spec ib c); [congruence|]. rewrite orb_false_r. auto. }
        intros [[C2 w2] t] (HI & Hw2 & lst & Cx & HGa & HN & Hlst & Hval). cbn [wpq fst snd]. rewrite EN, ENC in Hw2. rewrite firstn_all in HI.
        split; [|split; [|split; [lia|split]]].
        + assert (Hlen : length lst <= bMB C). { rewrite <- (map_length fst), Hlst. etransitivity; [apply filter_length_le|]. lia. }
          eapply mstate_step with (C1 := C1) (C2 := Cx) (lst := lst) (L := L) (kp := fun c => ((c =? ib) || kept keep (bsq (bbs X) ib) v c)%bool) (v := v); eauto.
          * lia.
          * intros i Hd. rewrite ENC. auto.
          * intros c Hc. rewrite ENC. apply (mul_cols_lt X X ib c); auto.
          * rewrite EBC. auto.
          * intros jb k Hj Hn Hk. apply pterm_missing; auto.
          * intros jb k Hj Hk. rewrite ENC in Hj. rewrite EBC in Hk. cbn beta. unfold mtgt. unfold v at 2. rewrite (pterm_sum X X ib jb k) by (auto; unfold eb_dims; auto).
            rewrite (blk_keep_kept (bbs X) keep (mmul (bN X) (ebmx X) (ebmx X)) ib jb) by (intros k' Hk'; apply pterm_sum; auto; unfold eb_dims; auto). reflexivity.
        + intros ib'. eapply wrep_sz. exact Hw2.
        + exact Etx.
        + intros HU. rewrite HI by auto. f_equal. unfold cc. fold bi.
          assert (E2 : bigsum bi (fun kk => v ib (kk * bi + kk)) = bigsum bi (fun ii => xb (bbs X) XX ib ib (ii * bi + ii))).
          { apply bigsum_ext. intros kk Hk. apply pterm_sum; auto; [unfold eb_dims; auto|]. unfold bsq. apply pos_lt; auto. }
          rewrite <- E2. destruct (existsb (Nat.eqb ib) L) eqn:Ex; auto. symmetry. apply bigsum_zero. intros kk Hk. apply pterm_missing; auto. apply existsb_eqb_nin. auto. }
    intros [C2 w] (HM & HR & S1 & S2). cbn [wpq fst snd] in *. split; [exists C; auto|]. split; auto. unfold reduce_sum.
    assert (Z : forall n, bigsum (F:=F) n (fun _ : nat => k0) = k0) by (intros; apply bigsum_zero; auto).
    split.
    - rewrite S1, Z. unfold cc, mtrace. rewrite (bigsum_N X) by auto. transitivity (bigsum (bNB X) (fun ib => bigsum (bsz (bbs X) ib) (fun ii => bel X ib ib (ii * bsz (bbs X) ib + ii)))); [ring|].
      apply bigsum_ext. intros ib Hi. apply bigsum_ext. intros ii Hii. symmetry. apply ebmx_at; auto.
    - intros HU. rewrite S2, Z by auto. unfold cc, mtrace. rewrite (bigsum_N X) by auto.
      transitivity (bigsum (bNB X) (fun ib => bigsum (bsz (bbs X) ib) (fun ii => xb (bbs X) XX ib ib (ii * bsz (bbs X) ib + ii)))); [ring|].
      apply bigsum_ext. intros ib Hi. apply bigsum_ext. intros ii Hii. unfold xb. rewrite pos_div, pos_mod by auto. reflexivity.
  Qed.

  Theorem eb_multiply_x2_ok (keep : F -> bool) X Y (g : nat -> F) nth_ sched : ebwf X -> ebwf Y -> eb_dims X Y -> bMB Y = bMB X -> small_blocks X ->
    full_sched (bNB X) nth_ sched -> (forall ib, ib < bNB X -> length (mul_cols X X ib) <= bMB X) ->
    exists Y' tx2, eb_multiply_x2 keep X Y nth_ g sched = Ok (Y', mtrace (bN X) (ebmx X), tx2) /\ ebwf Y' /\ same_dims Y Y' /\ (forall ib c, ib < bNB X -> In c (bcols Y' ib) -> In c (mul_cols X X ib)) /\
      meq (bN X) (ebmx Y') (bcut_offdiag (bbs X) keep (mmul (bN X) (ebmx X) (ebmx X))) /\
      (forall s, uniform s X -> tx2 = mtrace (bN X) (mmul (bN X) (ebmx X) (ebmx X))) /\
      ((forall ib jp, ib < bNB Y -> jp < bMB Y -> saddr Y ib jp = None) -> clean Y').
  Proof.
    intros WX WY DC EM Hsz Hs Hroom. pose proof DC as (DC1 & DC2 & DC3).
    assert (H : forall s, wp (eb_multiply_x2 keep X Y nth_ g sched) _) by (intros s; apply (eb_multiply_x2_run keep X Y s g nth_ sched); auto; apply WY).
    pose proof (H 0) as H0. apply wp_ok in H0 as ([[Y' tx] tx2] & E & (Y0 & K & EP & HM) & _ & -> & _).
    exists Y', tx2. split; auto. pose proof K as (k1' & k2' & k3' & k4' & k5' & k6').
    destruct (mstate_done keep (fun _ => 0) X X Y0 (map snd sched) Y') as (W & D & Cs & V & Cl & _); auto; try congruence. { apply k6'. apply WY. } { intros; eapply sched_all; eauto. }
    split; auto. destruct D as (D1 & D2 & D3 & D4 & D5). split; [unfold same_dims; repeat split; congruence|]. split; auto. split; auto. split.
    - intros s HU. specialize (H s). rewrite E in H. cbn [wpq] in H. apply H. auto.
    - intros Hnull. apply Cl. intros ib jp Hi Hj. rewrite k3' in Hi. rewrite k4' in Hj. unfold saddr, spos. rewrite EP, k4'. apply Hnull; auto.
  Qed.
  Theorem eb_multiply_x2_full (keep : F -> bool) X Y (g : nat -> F) nth_ sched ib : ebwf X -> ebwf Y -> eb_dims X Y -> bMB Y = bMB X -> small_blocks X ->
    full_sched (bNB X) nth_ sched -> ib < bNB X -> bMB X < length (mul_cols X X ib) -> eb_multiply_x2 keep X Y nth_ g sched = Err.
  Proof.
    intros WX WY DC EM Hsz Hs Hi Hlt.
    pose proof (eb_multiply_x2_run (e:=True) keep X Y 0 g nth_ sched ltac:(auto) ltac:(apply WY) DC EM Hsz Hs ltac:(auto) ltac:(apply WY)) as H.
    destruct (eb_multiply_x2 keep X Y nth_ g sched) as [[[? ?] ?]| | |]; cbn [wpq] in H; auto; try tauto. destruct H as (_ & H & _). specialize (H ib Hi). lia.
  Qed.

  (** ** C := beta C + alpha A B *)
  Lemma fresh_null NB MB M bs A : fresh NB MB M bs A -> forall ib jp, ib < bNB A -> jp < bMB A -> saddr A ib jp = None.
  Proof.
    intros HF ib jp Hi Hj. apply (fr_clean _ _ _ _ _ HF); auto. split; auto.
    assert (E : length (brow A ib) = 0) by (rewrite (fr_row _ _ _ _ _ HF); auto). unfold brow, cells in E. rewrite map_length, seq_length in E. lia.
  Qed.

  Lemma touch_all_incl cs ds cs' ds' : NoDup cs -> (forall x, In x cs -> In x cs') -> (forall x, In x ds -> In x ds') ->
    length (touch_all cs ds) <= length (touch_all cs' ds').
  Proof.
    intros HN H1 H2. apply NoDup_incl_length; [apply touch_all_nodup; auto|]. intros x Hx. apply touch_all_in. apply touch_all_in in Hx. destruct Hx; auto.
  Qed.
  Lemma add_room alpha beta A B ib ds : ebwf A -> ib < bNB A -> (forall c, In c (bcols B ib) -> In c ds) -> length (touch_all (bcols A ib) ds) <= bMB A ->
    length (add_cols alpha beta A B ib) <= bMB A.
  Proof.
    intros (_ & _ & HR) Hi Hs HL. etransitivity; [|exact HL]. unfold add_cols. apply touch_all_incl.
    - apply touch_all_nodup. constructor.
    - intros x Hx. apply touch_all_in in Hx as [[]|Hx]. destruct (keqb alpha k0); auto. destruct Hx.
    - intros x Hx. destruct (keqb beta k0); auto. destruct Hx.
  Qed.
  Lemma mscale_meq N a (X Y : mat F) : meq N X Y -> meq N (mscale a X) (mscale a Y).
  Proof. intros H i j Hi Hj. unfold mscale. rewrite H by auto. reflexivity. Qed.
  Lemma madd_meq N (X Y X' Y' : mat F) : meq N X X' -> meq N Y Y' -> meq N (madd X Y) (madd X' Y').
  Proof. intros H1 H2 i j Hi Hj. unfold madd. rewrite H1, H2 by auto. reflexivity. Qed.


  (** what eb_add needs of the target, for each second operand whose columns are
      among [ds ib] *)
  Definition takes (keep : F -> bool) (alpha beta : F) C (ds : nat -> list nat) : Prop :=
    tidy C /\ forall B, ebwf B -> eb_dims C B -> bMB C = bMB B -> (forall ib c, ib < bNB C -> In c (bcols B ib) -> In c (ds ib)) -> add_fits keep alpha beta C B.
  Lemma takes_uniform s (keep : F -> bool) alpha beta C ds : ebwf C -> uniform s C -> roomy (s * s) C ->
    (forall ib, ib < bNB C -> length (touch_all (bcols C ib) (ds ib)) <= bMB C) -> takes keep alpha beta C ds.
  Proof.
    intros WC HU HR Hroom. split; [apply HR|]. intros B WB DB EM Hc. apply uniform_fits with (s := s); auto. intros ib Hi. apply add_room with (ds := ds ib); auto.
  Qed.
  Lemma takes_empty (keep : F -> bool) alpha beta C ds : ebwf C -> clean C -> (forall ib, ib < bNB C -> bnz C ib = 0) ->
    (forall ib, ib < bNB C -> NoDup (ds ib) /\ length (ds ib) <= bMB C) -> takes keep alpha beta C ds.
  Proof.
    intros WC HC Z Hroom. split; [apply clean_tidy; auto; apply WC|]. intros B WB DB EM Hc ib Hi. destruct (Hroom ib Hi) as [HND HL].
    assert (HK : length (add_kept keep alpha beta C B ib) <= bMB C).
    { unfold add_kept. etransitivity; [apply filter_length_le|]. apply add_room with (ds := ds ib); auto. unfold bcols. rewrite Z by auto. cbn [seq map].
      rewrite touch_all_new by (simpl; auto). simpl. auto. }
    split; auto. intros q Hq. left. apply HC; auto. rewrite Z by auto. lia.
  Qed.

  Lemma eb_multiply_gen c (keep : F -> bool) (alpha beta : F) A B C (g : nat -> F) n1 s1 n2 s2 : ebwf A -> ebwf B -> ebwf C -> eb_dims A B -> eb_dims A C ->
    good_cache c -> small_blocks A -> takes keep beta alpha C (mul_cols A B) -> (forall ib, ib < bNB A -> length (mul_cols A B ib) <= bMB C) ->
    full_sched (bNB A) n1 s1 -> full_sched (bNB A) n2 s2 ->
    exists C', eb_multiply c keep alpha beta A B C g s1 s2 = Ok (cache_after c (bNB C) (bMB C) (bbs C), C') /\ ebwf C' /\ tidy C' /\ (forall n, roomy n C -> roomy n C') /\ same_dims C C' /\
      meq (bN A) (ebmx C') (bcut (bbs A) keep (madd (mscale beta (ebmx C)) (mscale alpha (bcut_offdiag (bbs A) keep (mmul (bN A) (ebmx A) (ebmx B)))))).
  Proof.
    intros WA WB WC DB DC Hc Hsz [HT Htk] Hroom Hs1 Hs2. pose proof WC as (HSC & HOC & HRC). pose proof DC as (DC1 & DC2 & DC3). unfold eb_multiply.
    destruct (block_matrix_ok (F:=F) c (bNB C) (bMB C) (bM C) (bbs C)) as (A2 & E2 & HF); try apply HSC; auto. { pose proof (sh_M C HSC). rewrite (shape_N C HSC), (sh_bs C HSC) in H. auto. }
    rewrite E2. cbn [bind]. pose proof (fr_wf _ _ _ _ _ HF) as W2. pose proof (fr_NB _ _ _ _ _ HF) as F1. pose proof (fr_MB _ _ _ _ _ HF) as F2. pose proof (fr_bs _ _ _ _ _ HF) as F3. pose proof (fr_N _ _ _ _ _ HF) as F4.
    assert (F5 : bN A2 = bN C). { rewrite F4. rewrite (shape_N C HSC), (sh_bs C HSC). auto. }
    destruct (eb_multiply_AB_ok keep A B A2 g n1 s1) as (A3 & E3 & W3 & D3 & C3 & V3 & _); auto.
    { apply W2. } { unfold eb_dims. split; [|split]; congruence. } { intros ib Hi. rewrite F2. auto. }
    rewrite E3. cbn [bind]. destruct D3 as (G1 & G2 & G3 & G4 & G5). assert (D3 : eb_dims C A3) by (unfold eb_dims; split; [|split]; congruence).
    destruct (eb_add_ok keep beta alpha C A3 g n2 s2) as (C' & E' & W' & T' & R' & D' & V'); auto; try congruence.
    { apply Htk; auto; try congruence. intros ib c' Hi. apply C3. lia. }
    rewrite E'. cbn [bind]. exists C'. split; auto. split; auto. split; auto. split; auto. split; auto. rewrite DC1, DC3. eapply meq_trans'; [exact V'|]. apply bcut_meq; [apply shape_N; auto|].
    apply madd_meq; [intros i j _ _; auto|]. apply mscale_meq. rewrite <- DC1, <- DC3. exact V3.
  Qed.
  Lemma eb_multiply_sq_gen c (keep : F -> bool) (alpha beta : F) A C (g : nat -> F) n1 s1 n2 s2 : ebwf A -> ebwf C -> eb_dims A C -> bMB C = bMB A ->
    (alpha <> k1 \/ beta <> k0) ->
    good_cache c -> small_blocks A -> takes keep beta alpha C (mul_cols A A) -> (forall ib, ib < bNB A -> length (mul_cols A A ib) <= bMB A) ->
    full_sched (bNB A) n1 s1 -> full_sched (bNB A) n2 s2 ->
    exists C', eb_multiply_sq c keep alpha beta A C n1 g s1 s2 = Ok (cache_after c (bNB C) (bMB C) (bbs C), C') /\ ebwf C' /\ tidy C' /\ (forall n, roomy n C -> roomy n C') /\ same_dims C C' /\
      meq (bN A) (ebmx C') (bcut (bbs A) keep (madd (mscale beta (ebmx C)) (mscale alpha (bcut_offdiag (bbs A) keep (mmul (bN A) (ebmx A) (ebmx A)))))).
  Proof.
    intros WA WC DC EMC Hab Hc Hsz [HT Htk] Hroom Hs1 Hs2. pose proof WC as (HSC & HOC & HRC). pose proof DC as (DC1 & DC2 & DC3). unfold eb_multiply_sq.
    assert (Eab : (keqb alpha k1 && keqb beta k0)%bool = false). { apply Bool.not_true_iff_false. intros E. apply andb_prop in E as [E1 E2]. apply keqb_spec in E1, E2. tauto. }
    rewrite Eab.
    destruct (block_matrix_ok (F:=F) c (bNB C) (bMB C) (bM C) (bbs C)) as (A2 & E2 & HF); try apply HSC; auto. { pose proof (sh_M C HSC). rewrite (shape_N C HSC), (sh_bs C HSC) in H. auto. }
    rewrite E2. cbn [bind]. pose proof (fr_wf _ _ _ _ _ HF) as W2. pose proof (fr_NB _ _ _ _ _ HF) as F1. pose proof (fr_MB _ _ _ _ _ HF) as F2. pose proof (fr_bs _ _ _ _ _ HF) as F3. pose proof (fr_N _ _ _ _ _ HF) as F4.
    assert (F5 : bN A2 = bN C). { rewrite F4. rewrite (shape_N C HSC), (sh_bs C HSC). auto. }
    destruct (eb_multiply_x2_ok keep A A2 g n1 s1) as (A3 & tx2 & E3 & W3 & D3 & C3 & V3 & _); auto; try congruence.
    { unfold eb_dims. split; [|split]; congruence. }
    rewrite E3. cbn [bind]. destruct D3 as (G1 & G2 & G3 & G4 & G5). assert (D3 : eb_dims C A3) by (unfold eb_dims; split; [|split]; congruence).
    destruct (eb_add_ok keep beta alpha C A3 g n2 s2) as (C' & E' & W' & T' & R' & D' & V'); auto; try congruence.
    { apply Htk; auto; try congruence. intros ib c' Hi. apply C3. lia. }
    rewrite E'. cbn [bind]. exists C'. split; auto. split; auto. split; auto. split; auto. split; auto. rewrite DC1, DC3. eapply meq_trans'; [exact V'|]. apply bcut_meq; [apply shape_N; auto|].
    apply madd_meq; [intros i j _ _; auto|]. apply mscale_meq. rewrite <- DC1, <- DC3. exact V3.
  Qed.

  (** all blocks of one size: any target without stale pointers *)
  Theorem eb_multiply_ok s c (keep : F -> bool) (alpha beta : F) A B C (g : nat -> F) n1 s1 n2 s2 : ebwf A -> ebwf B -> ebwf C -> eb_dims A B -> eb_dims A C ->
    good_cache c -> uniform s A -> 0 < s <= 6 -> roomy (s * s) C ->
    (forall ib, ib < bNB A -> length (touch_all (bcols C ib) (mul_cols A B ib)) <= bMB C) ->
    full_sched (bNB A) n1 s1 -> full_sched (bNB A) n2 s2 ->
    exists C', eb_multiply c keep alpha beta A B C g s1 s2 = Ok (cache_after c (bNB C) (bMB C) (bbs C), C') /\ ebwf C' /\ roomy (s * s) C' /\ same_dims C C' /\
      meq (bN A) (ebmx C') (bcut (bbs A) keep (madd (mscale beta (ebmx C)) (mscale alpha (bcut_offdiag (bbs A) keep (mmul (bN A) (ebmx A) (ebmx B)))))).
  Proof.
    intros WA WB WC DB DC Hc HU Hs HR Hroom Hs1 Hs2. pose proof DC as (DC1 & DC2 & DC3).
    destruct (eb_multiply_gen c keep alpha beta A B C g n1 s1 n2 s2) as (C' & E & W & T & R & D & V); auto.
    - intros ib Hi. rewrite (HU ib Hi). auto.
    - apply takes_uniform with (s := s); auto. { intros ib Hi. rewrite <- DC3. apply HU. lia. } intros ib Hi. apply Hroom. lia.
    - intros ib Hi. etransitivity; [|apply (Hroom ib Hi)]. apply NoDup_incl_length; [apply mul_cols_nodup|]. intros x Hx. apply touch_all_in. auto.
    - exists C'. auto 10.
  Qed.
  (** any block sizes: a target just created *)
  Theorem eb_multiply_new_ok c (keep : F -> bool) (alpha beta : F) A B C (g : nat -> F) n1 s1 n2 s2 : ebwf A -> ebwf B -> ebwf C -> eb_dims A B -> eb_dims A C ->
    good_cache c -> small_blocks A -> clean C -> (forall ib, ib < bNB C -> bnz C ib = 0) ->
    (forall ib, ib < bNB A -> length (mul_cols A B ib) <= bMB C) ->
    full_sched (bNB A) n1 s1 -> full_sched (bNB A) n2 s2 ->
    exists C', eb_multiply c keep alpha beta A B C g s1 s2 = Ok (cache_after c (bNB C) (bMB C) (bbs C), C') /\ ebwf C' /\ tidy C' /\ same_dims C C' /\
      meq (bN A) (ebmx C') (bcut (bbs A) keep (mscale alpha (bcut_offdiag (bbs A) keep (mmul (bN A) (ebmx A) (ebmx B))))).
  Proof.
    intros WA WB WC DB DC Hc Hsz HC Z Hroom Hs1 Hs2. pose proof DC as (DC1 & DC2 & DC3).
    destruct (eb_multiply_gen c keep alpha beta A B C g n1 s1 n2 s2) as (C' & E & W & T & R & D & V); auto.
    - apply takes_empty; auto. intros ib Hi. split; [apply mul_cols_nodup|]. apply Hroom. lia.
    - exists C'. split; auto. split; auto. split; auto. split; auto. eapply meq_trans'; [exact V|]. rewrite DC1, DC3. apply bcut_meq; [apply shape_N; apply WC|].
      intros i j Hi Hj. unfold madd, mscale at 1. destruct (cleared_wf C C) as [_ VZ]; auto; [apply WC|apply kin_refl|]. rewrite VZ by auto. unfold mzero. ring.
  Qed.
  Theorem eb_multiply_sq_ok s c (keep : F -> bool) (alpha beta : F) A C (g : nat -> F) n1 s1 n2 s2 : ebwf A -> ebwf C -> eb_dims A C -> bMB C = bMB A ->
    (alpha <> k1 \/ beta <> k0) -> good_cache c -> uniform s A -> 0 < s <= 6 -> roomy (s * s) C ->
    (forall ib, ib < bNB A -> length (touch_all (bcols C ib) (mul_cols A A ib)) <= bMB C) ->
    full_sched (bNB A) n1 s1 -> full_sched (bNB A) n2 s2 ->
    exists C', eb_multiply_sq c keep alpha beta A C n1 g s1 s2 = Ok (cache_after c (bNB C) (bMB C) (bbs C), C') /\ ebwf C' /\ roomy (s * s) C' /\ same_dims C C' /\
      meq (bN A) (ebmx C') (bcut (bbs A) keep (madd (mscale beta (ebmx C)) (mscale alpha (bcut_offdiag (bbs A) keep (mmul (bN A) (ebmx A) (ebmx A)))))).
  Proof.
    intros WA WC DC EMC Hab Hc HU Hs HR Hroom Hs1 Hs2. pose proof DC as (DC1 & DC2 & DC3).
    destruct (eb_multiply_sq_gen c keep alpha beta A C g n1 s1 n2 s2) as (C' & E & W & T & R & D & V); auto.
    - intros ib Hi. rewrite (HU ib Hi). auto.
    - apply takes_uniform with (s := s); auto. { intros ib Hi. rewrite <- DC3. apply HU. lia. } intros ib Hi. apply Hroom. lia.
    - intros ib Hi. rewrite <- EMC. etransitivity; [|apply (Hroom ib Hi)]. apply NoDup_incl_length; [apply mul_cols_nodup|]. intros x Hx. apply touch_all_in. auto.
    - exists C'. auto 10.
  Qed.
  (** alpha = 1, beta = 0: the square is written into C, whose old blocks are freed *)
  Theorem eb_multiply_sq_square c (keep : F -> bool) A C (g : nat -> F) n1 s1 s2 : ebwf A -> ebwf C -> eb_dims A C -> bMB C = bMB A -> small_blocks A ->
    (forall ib, ib < bNB A -> length (mul_cols A A ib) <= bMB A) -> full_sched (bNB A) n1 s1 ->
    exists C', eb_multiply_sq c keep k1 k0 A C n1 g s1 s2 = Ok (c, C') /\ ebwf C' /\ same_dims C C' /\
      meq (bN A) (ebmx C') (bcut_offdiag (bbs A) keep (mmul (bN A) (ebmx A) (ebmx A))).
  Proof.
    intros WA WC DC EMC Hsz Hroom Hs1. unfold eb_multiply_sq. rewrite !keqb_refl. cbn [andb].
    destruct (eb_multiply_x2_ok keep A C g n1 s1) as (C' & tx2 & E & W & D & _ & V & _); auto. rewrite E. cbn [bind]. exists C'. auto.
  Qed.

  (** ** A threshold that drops nothing but zeros *)
  Lemma bcut_exact bs (keep : F -> bool) N (X : mat F) : keeps_nonzero keep -> N = boff bs (length bs) -> meq N (bcut bs keep X) X.
  Proof.
    intros HK -> i j Hi Hj. unfold bcut. destruct (blk_keep bs keep X _ _) eqn:E; auto. symmetry. apply HK. apply Bool.not_true_iff_false. intros Ht.
    enough (blk_keep bs keep X (fst (bloc bs i)) (fst (bloc bs j)) = true) by congruence.
    destruct (bloc_spec bs i Hi) as (ib & ii & -> & P2 & P3 & P4). destruct (bloc_spec bs j Hj) as (jb & jj & -> & Q2 & Q3 & Q4). cbn [fst].
    unfold blk_keep. apply existsb_exists. exists (ii * bsz bs jb + jj). split; [apply in_seq; split; [lia|apply pos_lt; auto]|]. rewrite pos_div, pos_mod by auto. congruence.
  Qed.
  Lemma bcut_offdiag_exact bs (keep : F -> bool) N (X : mat F) : keeps_nonzero keep -> N = boff bs (length bs) -> meq N (bcut_offdiag bs keep X) X.
  Proof.
    intros HK EN i j Hi Hj. pose proof (bcut_exact bs keep N X HK EN i j Hi Hj) as H. unfold bcut_offdiag, bcut in *. destruct (_ =? _); auto.
  Qed.
  Corollary eb_multiply_exact s c (keep : F -> bool) (alpha beta : F) A B C (g : nat -> F) n1 s1 n2 s2 : keeps_nonzero keep -> ebwf A -> ebwf B -> ebwf C -> eb_dims A B -> eb_dims A C ->
    good_cache c -> uniform s A -> 0 < s <= 6 -> roomy (s * s) C ->
    (forall ib, ib < bNB A -> length (touch_all (bcols C ib) (mul_cols A B ib)) <= bMB C) ->
    full_sched (bNB A) n1 s1 -> full_sched (bNB A) n2 s2 ->
    exists C', eb_multiply c keep alpha beta A B C g s1 s2 = Ok (cache_after c (bNB C) (bMB C) (bbs C), C') /\ ebwf C' /\ roomy (s * s) C' /\ same_dims C C' /\
      meq (bN A) (ebmx C') (madd (mscale beta (ebmx C)) (mscale alpha (mmul (bN A) (ebmx A) (ebmx B)))).
  Proof.
    intros HK WA WB WC DB DC Hc HU Hs HR Hroom Hs1 Hs2. destruct (eb_multiply_ok s c keep alpha beta A B C g n1 s1 n2 s2) as (C' & E & W & R & D & V); auto.
    exists C'. split; auto. split; auto. split; auto. split; auto. eapply meq_trans'; [exact V|]. eapply meq_trans'; [apply bcut_exact; auto; apply shape_N; apply WA|].
    apply madd_meq; [intros i j _ _; auto|]. apply mscale_meq. apply bcut_offdiag_exact; auto. apply shape_N, WA.
  Qed.
End Prod.
