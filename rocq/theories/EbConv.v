(** Conversion between the four formats. *)
From Verif Require Import Base BaseFacts Spec SpecFacts EllpackModel EllpackSpec EllpackExact CsrModel CsrSpec
  GemmModel DenseModel DenseSpec FormatModel FormatSpec FormatFacts FormatConv FormatHistModel FormatHistSpec FormatHist
  EllblockModel EllblockSpec EllblockFacts EllblockRead EllblockMake EllblockConv EllblockAdd ProgSpec ProgFacts EbProgModel EbProgSpec EbProgFacts.

Section EbConv.
  Context {F : scalar}.
  Local Notation eb := (eb F).
  Local Notation env := (env F).
  Local Notation instr := (@instr F).
  Local Notation amat := (amat F).
  Local Notation bmat := (bmat F).

  (** the dense matrix with the elements of [X] *)
  Definition dense_of (N : nat) (X : mat F) : dense F := mkDense N (map (fun k => X (k / N) (k mod N)) (seq 0 (N * N))).
  Lemma dense_of_wf N X : dwf (dense_of N X).
  Proof. unfold dwf. cbn. rewrite map_length, seq_length. auto. Qed.
  Lemma dense_of_at N X i j : i < N -> j < N -> denm (dense_of N X) i j = X i j.
  Proof.
    intros Hi Hj. unfold denm. cbn. assert (i * N + j < N * N) by nia. rewrite nth_map_seq by auto.
    rewrite Nat.add_comm, Nat.div_add, Nat.div_small by lia. rewrite Nat.mod_add, Nat.mod_small by lia. auto.
  Qed.

  Lemma a_element (A : amat) i j : awf A -> i < aml_get_N A -> j < aml_get_N A -> aml_get_element A i j = Ok (amx A i j).
  Proof. destruct A; cbn; intros; [apply bml_get_element_ok|apply eb_get_element_ok]; auto. Qed.
  Lemma a_row (A : amat) i : awf A -> i < aml_get_N A -> aml_get_row A i = Ok (map (amx A i) (seq 0 (aml_get_N A))).
  Proof.
    destruct A as [A|A]; cbn; intros W Hi; [apply bml_get_row_ok; auto|].
    destruct (eb_get_row_ok A i W Hi) as (r & -> & L & H). f_equal. apply list_ext_nth with (d := k0); [rewrite map_length, seq_length; auto|].
    intros j Hj. rewrite L in Hj. rewrite nth_map_seq by auto. auto.
  Qed.

  (** conversion to dense, ellpack and csr sees only the elements *)
  Lemma convert_elements c (nz : F -> bool) (A : amat) t M g : awf A ->
    aml_convert c nz A (TB t) M g = (B <- bml_convert nz (BDense (dense_of (aml_get_N A) (amx A))) t M ;; Ok (c, AB B)).
  Proof.
    intros W. set (N := aml_get_N A). set (D := BDense (dense_of N (amx A))).
    assert (DW : bwf D) by apply dense_of_wf.
    assert (GE : forall i j, i < N -> j < N -> aml_get_element A i j = bml_get_element D i j).
    { intros i j Hi Hj. rewrite a_element by auto. rewrite bml_get_element_ok by auto. f_equal. symmetry. apply dense_of_at; auto. }
    assert (GR : forall i, i < N -> aml_get_row A i = bml_get_row D i).
    { intros i Hi. rewrite a_row by auto. rewrite bml_get_row_ok by auto. f_equal. apply map_ext_in. intros j Hj. apply in_seq in Hj.
      symmetry. apply dense_of_at; auto. change (bml_get_N D) with N in Hj. lia. }
    destruct t; cbn [aml_convert bml_convert].
    - assert (E : to_dense A = convert_dense D).
      { unfold to_dense, convert_dense. fold N. change (bml_get_N D) with N. apply for_n_ext. intros i B Hi. apply for_n_ext. intros j B' Hj.
        rewrite GE by auto. auto. }
      rewrite E. destruct (convert_dense D); auto.
    - assert (E : to_ell A M = convert_ell D M).
      { unfold to_ell, convert_ell. fold N. change (bml_get_N D) with N. destruct (ell_zero N M); cbn [bind]; auto.
        apply for_n_ext. intros i B Hi. apply for_n_ext. intros j B' Hj. rewrite GE by auto. auto. }
      rewrite E. destruct (convert_ell D M); auto.
    - assert (E : to_csr nz A M = convert_csr nz D M).
      { unfold to_csr, convert_csr. fold N. change (bml_get_N D) with N. apply for_n_ext. intros i B Hi. rewrite GR by auto. auto. }
      rewrite E. destruct (convert_csr nz D M); auto.
  Qed.

  Lemma block_sizes_known c N : 0 < N -> (forall d, c = Some d -> sizes_for d N) ->
    exists d, bml_get_block_sizes c N N = Ok d /\ sizes_for d N.
  Proof.
    intros HN Hc. destruct c as [d|]; [exists d; auto|]. destruct (get_block_sizes_first N N HN HN) as (d & E & H & _). exists d. auto.
  Qed.

  Theorem aml_convert_ok c (nz : F -> bool) (A : amat) t M g : awf A -> keeps_nonzero nz ->
    (t = TB FEll -> 0 < M /\ aml_get_N A <= M) ->
    (t = TEb -> 0 < aml_get_N A /\ M <= aml_get_N A /\ forall d, c = Some d -> sizes_for d (aml_get_N A)) ->
    exists c' B, aml_convert c nz A t M g = Ok (c', B) /\ awf B /\ aml_get_type B = t /\ aml_get_N B = aml_get_N A /\
      meq (aml_get_N A) (amx B) (amx A).
  Proof.
    intros W Hz H1 H2. destruct t as [t|].
    - rewrite convert_elements by auto. set (D := BDense (dense_of (aml_get_N A) (amx A))).
      destruct (bml_convert_ok nz D t M) as (B & E & WB & TB & HN & V); auto.
      { apply dense_of_wf. } { intros ->. apply H1. auto. }
      rewrite E. cbn [bind]. exists c, (AB B). split; auto. split; auto. split; [cbn; congruence|]. split; [cbn; cbn in HN; congruence|].
      intros i j Hi Hj. cbn [amx]. rewrite <- V by auto. apply dense_of_at; auto.
    - destruct (H2 eq_refl) as (N0 & HM & Hd). destruct (block_sizes_known c (aml_get_N A) N0 Hd) as (d & E & HS).
      destruct (eb_convert_ok c (aml_get_N A) (aml_get_element A) (amx A) M d g HM E HS) as (B & EB & WB & _ & HN & _ & _ & _ & _ & V).
      { intros; apply a_element; auto. }
      cbn [aml_convert]. rewrite EB. cbn [bind]. exists (Some d), (AEb B). split; auto.
  Qed.

  Theorem aml_convert_element c (nz : F -> bool) (A : amat) t M g : awf A -> keeps_nonzero nz ->
    (t = TB FEll -> 0 < M /\ aml_get_N A <= M) ->
    (t = TEb -> 0 < aml_get_N A /\ M <= aml_get_N A /\ forall d, c = Some d -> sizes_for d (aml_get_N A)) ->
    exists c' B, aml_convert c nz A t M g = Ok (c', B) /\ aml_get_type B = t /\ aml_get_N B = aml_get_N A /\
      (forall i j, i < aml_get_N A -> j < aml_get_N A -> aml_get_element B i j = aml_get_element A i j) /\
      (forall i, i < aml_get_N A -> aml_get_row B i = aml_get_row A i).
  Proof.
    intros W Hz H1 H2. destruct (aml_convert_ok c nz A t M g W Hz H1 H2) as (c' & B & E & WB & T & HN & V). exists c', B. do 3 (split; auto). split.
    - intros i j Hi Hj. rewrite !a_element by (auto; congruence). f_equal. auto.
    - intros i Hi. rewrite !a_row by (auto; congruence). f_equal. rewrite HN. apply map_ext_in. intros j Hj. apply in_seq in Hj. apply V; auto. lia.
  Qed.

  (** there and back *)
  Theorem aml_convert_roundtrip c c2 (nz : F -> bool) (A : amat) t M M' g : awf A -> keeps_nonzero nz ->
    (t = TB FEll -> 0 < M /\ aml_get_N A <= M) -> (aml_get_type A = TB FEll -> 0 < M' /\ aml_get_N A <= M') ->
    (t = TEb -> 0 < aml_get_N A /\ M <= aml_get_N A /\ forall d, c = Some d -> sizes_for d (aml_get_N A)) ->
    (aml_get_type A = TEb -> 0 < aml_get_N A /\ M' <= aml_get_N A /\ forall d, c2 = Some d -> sizes_for d (aml_get_N A)) ->
    exists c' B c'' A', aml_convert c nz A t M g = Ok (c', B) /\ aml_convert c2 nz B (aml_get_type A) M' g = Ok (c'', A') /\
      awf A' /\ aml_get_type A' = aml_get_type A /\ aml_get_N A' = aml_get_N A /\ meq (aml_get_N A) (amx A') (amx A).
  Proof.
    intros W Hz H1 H2 H3 H4. destruct (aml_convert_ok c nz A t M g W Hz H1 H3) as (c' & B & E & WB & T & HN & V).
    destruct (aml_convert_ok c2 nz B (aml_get_type A) M' g WB Hz) as (c'' & A' & E' & W' & T' & HN' & V'); [rewrite HN; auto..|].
    exists c', B, c'', A'. do 4 (split; auto). split; [congruence|]. rewrite HN in V'. eapply meq_tr; [exact V'|exact V].
  Qed.

  (** A program on matrices of any of the three formats, and on their conversions
      to block ellpack with the sizes the first conversion chooses (N a multiple of
      4): the same numbers. *)
  Lemma first_sizes q : 0 < q -> exists d, bml_get_block_sizes None (4 * q) (4 * q) = Ok d /\ block_sizes 4 d (4 * q) /\ s_nb d = q /\ s_mb d = q.
  Proof.
    intros Hq. destruct (get_block_sizes_first (4 * q) (4 * q) ltac:(lia) ltac:(lia)) as (d & E & HS & H1 & H2 & H3 & H4).
    pose proof HS as (S1 & S2 & S3 & S4).
    assert (EN : s_nb d = q).
    { unfold bml_get_block_sizes in E. destruct (Nat.eqb_spec (4 * q) 0); [lia|].
      rewrite (Nat.mul_comm 4 q), Nat.div_mul in E by lia. rewrite Nat.ltb_irrefl in E.
      destruct (Nat.eqb_spec q 0); [lia|]. injection E as <-. auto. }
    assert (EM : s_mb d = q) by lia.
    exists d. split; auto. split; auto. split; [lia|]. split; auto. split; [lia|].
    intros ib Hi. destruct (Nat.eq_dec (S ib) (s_nb d)) as [El|]; [|apply H3; lia].
    specialize (H2 ib Hi). rewrite <- El in S4. rewrite boff_S in S4.
    assert (Eo : boff (s_bsize d) ib = 4 * ib).
    { assert (Hle : ib < s_nb d) by auto. clear -H3 Hle. induction ib as [|ib IH]; [reflexivity|]. rewrite boff_S, H3, IH by lia. lia. }
    lia.
  Qed.

  Lemma convert_store c d (nz : F -> bool) N (st : list bmat) M g : Forall (fun A => bwf A /\ bml_get_N A = N) st -> M <= N ->
    bml_get_block_sizes c N N = Ok d -> block_sizes 4 d N -> s_mb d = s_nb d ->
    exists st', convert_all c nz (map AB st) TEb M g = Ok (match st with [] => c | _ => Some d end, map AEb st') /\
      Forall2 (fun A B => eb_stands d N A (bmx B)) st' st /\ flagged 4 (map (fun _ => true) st) st'.
  Proof.
    intros H HM E HB Em. pose proof HB as (_ & HS & _ & Hu). revert c E. induction H as [|A st [WA NA] H IH]; intros c E; cbn [map convert_all].
    - exists []. split; auto. split; [constructor|]. constructor.
    - destruct (eb_convert_ok c N (bml_get_element A) (bmx A) M d g HM E HS) as (B & EB & WB & CB & NB & MB & BB & BM & BS & V).
      { intros; apply bml_get_element_ok; auto; congruence. }
      change (aml_convert c nz (AB A) TEb M g) with ('(c, B) <- eb_convert c (bml_get_N A) (bml_get_element A) M g ;; Ok (c, AEb B)).
      rewrite NA, EB. cbn [bind].
      destruct (IH (Some d) eq_refl) as (st' & Es & F1 & F2). rewrite Es. cbn [bind].
      exists (B :: st'). split; [cbn [map]; destruct st; auto|]. split.
      + constructor; auto. split; auto. split; auto. split; auto. split; [congruence|]. split; auto.
      + constructor; auto. intros _. apply clean_roomy; auto. intros ib jb Hi Hj. rewrite BS, BB in *. rewrite !Hu by auto. auto.
  Qed.

  Theorem converted_programs_agree (nz : F -> bool) q N M Mb t (p1 p2 : list (instr * env)) (st : list bmat) g :
    N = 4 * q -> 0 < q -> FormatHistSpec.uniform N M t st -> st <> [] -> Mb <= N ->
    map fst p1 = map fst p2 -> ebprogram N (map (fun _ => true) st) (map fst p1) -> Forall exact_instr (map fst p1) ->
    Forall (fun r => forall k, full_sched q (e_nth (snd r)) (e_rows (snd r) k)) p1 -> Forall (fun r => good_schedules N (snd r)) p2 ->
    exists d sb sb' st' out, convert_all None nz (map AB st) TEb Mb g = Ok (Some d, map AEb sb) /\
      ebrun p1 (Some d, sb, []) = Ok (Some d, sb', out) /\ brun p2 (st, []) = Ok (st', out) /\
      Forall ebwf sb' /\ Forall bwf st' /\ Forall2 (fun A B => bN A = N /\ bml_get_N B = N /\ meq N (ebmx A) (bmx B)) sb' st'.
  Proof.
    intros EN Hq HU Hne HM HP HE HX E1 E2. destruct (first_sizes q Hq) as (d & Ed & HB & Hn & Hm). rewrite <- EN in *.
    destruct (convert_store None d nz N st Mb g) as (sb & Es & F1 & F2); auto; [|congruence|].
    { eapply Forall_impl; [|exact HU]. intros A (a & (b & _) & _). auto. }
    destruct (eb_programs_agree 4 d N M t (map (fun _ => true) st) p1 p2 sb st) as (sb' & st' & out & R1 & R2 & W & V); auto.
    { eapply Forall_impl; [|exact E1]. intros r Hr k. rewrite Hn. apply Hr. }
    exists d, sb, sb', st', out. split; [rewrite Es; destruct st; [congruence|]; auto|]. split; auto. split; auto.
    split; [|split; auto]; clear -V; induction V as [|A B l1 l2 [(a & b & _ & _ & _ & f) HN] V IH]; constructor; auto.
  Qed.
End EbConv.
