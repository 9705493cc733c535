(** Proofs: the matrix of groups of rows (SubModel ell_group_matrix). *)
From Verif Require Import Base BaseFacts Spec SpecFacts EllpackModel EllpackSpec EllpackFacts EllpackOps EllpackArith
  DenseModel DenseFacts SubModel SubSpec SubIndex SubBlock SubSame.

Section Group.
  Context {F : scalar}.
  Local Notation ell := (ell F).
  Local Notation ent := (nat * F)%type.

  (** ** The groups *)
  Definition gb (N : nat) (h : list nat) (i : nat) : nat := if i <? length h then nth i h 0 - 1 else N.

  Lemma groups_pos N h i : groups_ok N h -> i < length h -> 1 <= nth i h 0.
  Proof.
    intros (H0 & H1 & H2 & H3). induction i as [|i IH]; intros Hi; [lia|]. specialize (IH ltac:(lia)). specialize (H2 i Hi). lia.
  Qed.
  Lemma gb_step N h i : groups_ok N h -> i < length h -> gb N h i <= gb N h (S i).
  Proof.
    intros (H0 & H1 & H2 & H3) Hi. unfold gb. replace (i <? length h) with true by (symmetry; apply Nat.ltb_lt; lia).
    destruct (Nat.ltb_spec (S i) (length h)).
    - specialize (H2 i H). lia.
    - replace (length h - 1) with i in H3 by lia. lia.
  Qed.
  Lemma gb_mono N h i j : groups_ok N h -> i <= j -> j <= length h -> gb N h i <= gb N h j.
  Proof. intros HG H. induction H; intros Hm; auto. pose proof (gb_step N h m HG ltac:(lia)). specialize (IHle ltac:(lia)). lia. Qed.
  Lemma gb_first N h i : i < length h -> grp_first h i = gb N h i.
  Proof. intros H. unfold grp_first, gb. replace (i <? length h) with true by (symmetry; apply Nat.ltb_lt; lia). auto. Qed.
  Lemma gb_last N h i : i < length h -> grp_last N h i = gb N h (S i).
  Proof.
    intros H. unfold grp_last, gb. destruct (Nat.eqb_spec i (length h - 1)), (Nat.ltb_spec (S i) (length h)); try lia. rewrite Nat.add_1_r. auto.
  Qed.
  Lemma gb_0 N h : groups_ok N h -> gb N h 0 = 0.
  Proof. intros (H0 & H1 & _). unfold gb. replace (0 <? length h) with true by (symmetry; apply Nat.ltb_lt; lia). rewrite H1. auto. Qed.
  Lemma gb_N N h : gb N h (length h) = N.
  Proof. unfold gb. rewrite Nat.ltb_irrefl. auto. Qed.
  Lemma in_group_gb N h i r : i < length h -> in_group N h i r = true <-> gb N h i <= r < gb N h (S i).
  Proof. intros Hi. unfold in_group. rewrite (gb_first N), gb_last by auto. rewrite andb_true_iff, Nat.leb_le, Nat.ltb_lt. tauto. Qed.
  Lemma in_group_lt N h i r : groups_ok N h -> in_group N h i r = true -> i < length h.
  Proof.
    intros (H0 & _) H. destruct (Nat.lt_ge_cases i (length h)) as [|Hi]; auto. unfold in_group, grp_last in H. replace (i =? length h - 1) with false in H by (symmetry; apply Nat.eqb_neq; lia).
    rewrite (nth_overflow h 0 (n:=i + 1)) in H by lia. simpl in H. apply andb_true_iff in H as [_ H]. discriminate.
  Qed.
  Lemma group_unique N h i j r : groups_ok N h -> in_group N h i r = true -> in_group N h j r = true -> i = j.
  Proof.
    intros HG Hi Hj. pose proof (in_group_lt _ _ _ _ HG Hi). pose proof (in_group_lt _ _ _ _ HG Hj). apply in_group_gb in Hi; auto. apply in_group_gb in Hj; auto.
    destruct (Nat.lt_trichotomy i j) as [L|[L|L]]; auto.
    - pose proof (gb_mono N h (S i) j HG ltac:(lia) ltac:(lia)). lia.
    - pose proof (gb_mono N h (S j) i HG ltac:(lia) ltac:(lia)). lia.
  Qed.
  Lemma group_exists N h r : groups_ok N h -> r < N -> exists i, i < length h /\ in_group N h i r = true.
  Proof.
    intros HG Hr. assert (X : forall n, n <= length h -> r < gb N h n -> exists i, i < n /\ gb N h i <= r < gb N h (S i)).
    { induction n as [|n IH]; intros Hn Hl; [rewrite gb_0 in Hl by auto; lia|]. destruct (Nat.lt_ge_cases r (gb N h n)).
      - destruct IH as (i & H1 & H2); auto; try lia. exists i. split; auto.
      - exists n. split; auto. }
    destruct (X (length h)) as (i & H1 & H2); [auto|rewrite gb_N; auto|]. exists i. split; auto. apply in_group_gb; auto.
  Qed.

  Lemma grp_beg_ok N h i : groups_ok N h -> i < length h -> grp_beg h i = Ok (gb N h i).
  Proof.
    intros HG Hi. unfold grp_beg. rewrite (rd_ok _ _ 0) by auto. cbn [bind]. pose proof (groups_pos N h i HG Hi). replace (nth i h 0 =? 0) with false by (symmetry; apply Nat.eqb_neq; lia).
    rewrite <- (gb_first N) by auto. auto.
  Qed.
  Lemma grp_end_ok N h i : groups_ok N h -> i < length h -> grp_end N h i = Ok (gb N h (S i)).
  Proof.
    intros HG Hi. rewrite <- gb_last by auto. unfold grp_end, grp_last. destruct (Nat.eqb_spec i (length h - 1)); auto. rewrite (rd_ok _ _ 0) by lia. auto.
  Qed.

  Lemma grp_nodes_ok N h : groups_ok N h -> exists hn, grp_nodes N h = Ok hn /\ length hn = N /\
    forall i r, in_group N h i r = true -> nth r hn None = Some i.
  Proof.
    intros HG. unfold grp_nodes.
    match goal with |- exists hn, ?x = _ /\ _ => assert (G : wp x (fun hn => length hn = N /\ forall k r, k < length h -> gb N h k <= r < gb N h (S k) -> nth r hn None = Some k)) end.
    { apply (for_n_inv (fun m hn => length hn = N /\ forall k r, k < m -> gb N h k <= r < gb N h (S k) -> nth r hn None = Some k)).
      - rewrite repeat_length. split; auto. intros; lia.
      - intros i hn Hi (L & HK). rewrite (grp_beg_ok N), grp_end_ok by auto. cbn [bind]. set (lo := gb N h i) in *. set (hi := gb N h (S i)) in *.
        assert (HN : hi <= N) by (pose proof (gb_mono N h (S i) (length h) HG ltac:(lia) ltac:(lia)) as X; rewrite gb_N in X; exact X).
        eapply wp_mono.
        + apply (forM_inv (fun pre hn' => length hn' = N /\ (forall r, In r pre -> nth r hn' None = Some i) /\ forall r, ~ In r pre -> nth r hn' None = nth r hn None)).
          * split; [auto|]. split; [intros r []|auto].
          * intros pre j post hn' E (L' & H1 & H2). assert (Hj : j < hi) by (assert (X : In j (seq lo (hi - lo))) by (rewrite E; apply in_app_iff; right; left; auto); apply in_seq in X; lia).
            rewrite wr_ok by lia. cbn [wpq]. rewrite length_set_nth. split; [auto|]. split.
            -- intros r Hr. apply in_app_iff in Hr. destruct (Nat.eq_dec r j) as [->|]; [rewrite nth_set_nth_eq by lia; auto|]. rewrite nth_set_nth_neq by auto. destruct Hr as [Hr|[Hr|[]]]; [auto|congruence].
            -- intros r Hr. assert (r <> j) by (intros ->; apply Hr; apply in_app_iff; right; left; auto). rewrite nth_set_nth_neq by auto. apply H2. intros Hc. apply Hr. apply in_app_iff. auto.
        + intros hn' (L' & H1 & H2). split; [auto|]. intros k r Hk Hr. destruct (Nat.eq_dec k i) as [->|].
          * apply H1. apply in_seq. fold lo hi in Hr. lia.
          * rewrite H2; [apply HK; auto; lia|]. intros Hc. apply in_seq in Hc. pose proof (gb_mono N h (S k) i HG ltac:(lia) ltac:(lia)). fold lo in H. lia. }
    destruct (proj1 (wp_ok _ _) G) as (hn & E & L & HK). exists hn. split; [exact E|]. split; [auto|].
    intros i r Hr. pose proof (in_group_lt _ _ _ _ HG Hr). apply HK; auto. apply in_group_gb; auto.
  Qed.

  (** ** One row *)
  Definition set_at (R : nat -> list ent) (i : nat) (E : list ent) : nat -> list ent := fun r => if r =? i then E else R r.
  Definition ones (L : list nat) : list ent := map (fun k => (k, k1)) L.

  (** column kk with value v links group i to the group of kk *)
  Definition links (keep : F -> bool) (A : ell) (hindex : list nat) (i kk : nat) (v : F) : bool :=
    keep v || existsb (fun cu => in_group (eN A) hindex i (fst cu) && keep (snd cu)) (erow A kk).

  Definition row_inv (keep : F -> bool) (A : ell) (hindex : list nat) (i : nat) (R : nat -> list ent) (ix0 : list nat) (pre : list ent) (s : ell * list nat) : Prop :=
    exists L, NoDup (i :: L) /\ (forall k, In k (i :: L) -> k < length hindex) /\
      holds (length hindex) (length hindex) (set_at R i (ones (i :: L))) (fst s) /\ length (snd s) = length hindex /\
      (forall k, k < length hindex -> nth k (snd s) 0 = 0 <-> nth k ix0 0 = 0 /\ ~ In k (i :: L)) /\
      (forall k, In k L <-> k <> i /\ nth k ix0 0 = 0 /\ exists kk v, In (kk, v) pre /\ in_group (eN A) hindex k kk = true /\ links keep A hindex i kk v = true).

  Lemma ones_length L : length (ones L) = length L.
  Proof. apply map_length. Qed.
  Lemma cols_ones L : cols (ones L) = L.
  Proof. unfold cols, ones. rewrite map_map. simpl. apply map_id. Qed.

  (** adding a group *)
  Lemma grp_add_ok {e} ng i ii R ix0 L s : i < ng -> ii < ng -> NoDup (i :: L) -> (forall k, In k (i :: L) -> k < ng) -> ~ In ii (i :: L) ->
    holds ng ng (set_at R i (ones (i :: L))) (fst s) -> length (snd s) = ng ->
    (forall k, k < ng -> nth k (snd s) 0 = 0 <-> nth k ix0 0 = 0 /\ ~ In k (i :: L)) ->
    wpq e (grp_add i ii s) (fun s' => NoDup (i :: L ++ [ii]) /\ (forall k, In k (i :: L ++ [ii]) -> k < ng) /\
      holds ng ng (set_at R i (ones (i :: L ++ [ii]))) (fst s') /\ length (snd s') = ng /\
      forall k, k < ng -> nth k (snd s') 0 = 0 <-> nth k ix0 0 = 0 /\ ~ In k (i :: L ++ [ii])).
  Proof.
    intros Hi Hii ND BD NI HB LX HX. destruct s as [B ix]. cbn [fst snd] in *. unfold grp_add. rewrite wr_ok by lia. cbn [bind].
    assert (ND' : NoDup (i :: L ++ [ii])).
    { change (i :: L ++ [ii]) with ((i :: L) ++ [ii]). apply NoDup_app_intro; auto; [repeat constructor; auto|]. intros k H1 [<-|[]]. contradiction. }
    assert (BD' : forall k, In k (i :: L ++ [ii]) -> k < ng) by (intros k Hk; change (i :: L ++ [ii]) with ((i :: L) ++ [ii]) in Hk; apply in_app_iff in Hk as [Hk|[<-|[]]]; auto).
    apply wp_bind. eapply wp_mono; [apply (holds_push ng ng _ B i ii k1 HB Hi)|].
    - unfold set_at. rewrite Nat.eqb_refl, ones_length. pose proof (NoDup_bounded _ _ ND' BD') as X. cbn [length] in X |- *. rewrite app_length in X. simpl in X. lia.
    - intros B' HB'. cbn [wpq fst snd]. split; [exact ND'|]. split; [exact BD'|]. split; [|split; [rewrite length_set_nth; auto|]].
      + eapply holds_ext; [|exact HB']. intros r _. unfold plus_at, set_at. destruct (r =? i); auto. unfold ones. simpl. rewrite map_app. auto.
      + intros k Hk. destruct (Nat.eq_dec k ii) as [->|Hne].
        * rewrite nth_set_nth_eq by lia. split; [lia|]. intros [_ Hn]. exfalso. apply Hn. right. apply in_app_iff. right. left; auto.
        * rewrite nth_set_nth_neq by auto. rewrite HX by auto. simpl. rewrite in_app_iff. simpl. assert (ii <> k) by auto. tauto.
  Qed.

  Lemma grp_row_ok {e} keep (A : ell) hindex hn i R s : wf A -> groups_ok (eN A) hindex -> length hn = eN A ->
    (forall k r, in_group (eN A) hindex k r = true -> nth r hn None = Some k) -> i < length hindex ->
    holds (length hindex) (length hindex) R (fst s) -> length (snd s) = length hindex ->
    wpq e (grp_row keep A hindex hn i s) (row_inv keep A hindex i R (snd s) (flat_map (fun j => erow A j) (seq (gb (eN A) hindex i) (gb (eN A) hindex (S i) - gb (eN A) hindex i)))).
  Proof.
    intros HA HG LN HN Hi HB LX. pose proof HA as [HsA HrA]. destruct s as [B ix]. cbn [fst snd] in *. unfold grp_row. rewrite wr_ok by lia. cbn [bind].
    pose proof HB as (N1 & M1 & S1 & R1).
    destruct (rowpre_put B B i [] i k1 (rowpre_refl B i S1)) as [E1 P1]; [lia|cbn [length]; lia|]. cbn [length] in E1, P1. rewrite E1. cbn [bind].
    destruct (rowpre_finish _ _ _ _ P1) as [E2 U2]; [lia|]. cbn [length app] in E2, U2. rewrite E2. cbn [bind]. set (B2 := wnnzp (putp B i 0 i k1) i 1) in *.
    rewrite (grp_beg_ok (eN A)), grp_end_ok by auto. cbn [bind].
    set (lo := gb (eN A) hindex i). set (hi := gb (eN A) hindex (S i)).
    assert (HI : hi <= eN A) by (pose proof (gb_mono (eN A) hindex (S i) (length hindex) HG ltac:(lia) ltac:(lia)) as X; rewrite gb_N in X; exact X).
    set (step := fun (kv : ent) s => ii <- rd hn (fst kv) ;; ii <- use ii ;; m <- rd (snd s) ii ;;
        if (m =? 0) && negb (ii =? i) then if keep (snd kv) then grp_add i ii s else grp_back keep A hn i ii (fst kv) s else Ok (s : ell * list nat)).
    rewrite (forM_ext _ _ (fun j s => forM (erow A j) step s)).
    2: { intros j s Hj. apply in_seq in Hj. rewrite e_for_row_eq; [reflexivity|auto|lia|apply wf_nnz; auto; lia]. }
    rewrite <- (forM_flat_map (fun j => erow A j) _ step).
    apply (forM_inv (fun pre s => row_inv keep A hindex i R ix pre s)).
    - exists []. split; [repeat constructor; auto|]. split; [intros k [<-|[]]; auto|]. cbn [fst snd]. split; [|split; [rewrite length_set_nth; auto|split]].
      + pose proof U2 as ((D1 & D2) & S2 & _). split; [congruence|]. split; [congruence|]. split; [exact S2|]. intros r Hr. unfold set_at. destruct (Nat.eqb_spec r i) as [->|Hne].
        * rewrite (upd_row_self _ _ _ _ U2). split; [reflexivity|simpl; lia].
        * destruct (R1 r Hr) as [RE RL]. rewrite (upd_row_other _ _ _ _ _ U2); auto. rewrite <- erow_length, RE. lia.
      + intros k Hk. destruct (Nat.eq_dec k i) as [->|Hne].
        * rewrite nth_set_nth_eq by lia. split; [lia|]. intros [_ Hn]. exfalso. apply Hn. left; auto.
        * rewrite nth_set_nth_neq by auto. simpl. split; [intros H; split; [auto|intros [Hc|[]]; auto]|tauto].
      + intros k. split; [intros []|]. intros (_ & _ & kk & v & [] & _).
    - intros pre [kk v] post s E (L & ND & BD & HBs & LXs & HX & HL). unfold step. cbn [fst snd].
      assert (INE : In (kk, v) (flat_map (fun j => erow A j) (seq lo (hi - lo)))) by (rewrite E; apply in_app_iff; right; left; auto).
      apply in_flat_map in INE as (j & Hj & INE). apply in_seq in Hj.
      assert (Hkk : kk < eN A) by (apply (wf_cols A j); auto; [lia|apply (in_map fst) in INE; exact INE]).
      destruct (group_exists (eN A) hindex kk HG Hkk) as (ii & Hii & HGi). rewrite (rd_ok _ _ None) by lia. rewrite (HN _ _ HGi). cbn [bind use].
      rewrite (rd_ok _ _ 0) by lia. cbn [bind].
      assert (EXT : forall k L', (In k L' <-> In k L \/ (k = ii /\ ~ In ii (i :: L) /\ nth ii ix 0 = 0 /\ links keep A hindex i kk v = true)) ->
        (In k L' <-> k <> i /\ nth k ix 0 = 0 /\ exists kk0 v0, In (kk0, v0) (pre ++ [(kk, v)]) /\ in_group (eN A) hindex k kk0 = true /\ links keep A hindex i kk0 v0 = true)).
      { intros k L' ->. rewrite HL. split.
        - intros [(H1 & H2 & kk0 & v0 & H3 & H4)|(-> & H1 & H2 & H3)].
          + split; [auto|]. split; [auto|]. exists kk0, v0. split; [apply in_app_iff; auto|auto].
          + split; [intros ->; apply H1; left; auto|]. split; [auto|]. exists kk, v. split; [apply in_app_iff; right; left; auto|auto].
        - intros (H1 & H2 & kk0 & v0 & H3 & H4 & H5). apply in_app_iff in H3 as [H3|[H3|[]]].
          + left. split; [auto|]. split; [auto|]. eauto.
          + injection H3 as <- <-. assert (k = ii) by (eapply group_unique; eauto). subst k.
            destruct (in_dec Nat.eq_dec ii (i :: L)) as [[->|Hin]|Hn]; [congruence|left; apply HL; auto|right; auto]. }
      assert (SAME : (nth ii ix 0 <> 0 \/ In ii (i :: L) \/ links keep A hindex i kk v = false) -> row_inv keep A hindex i R ix (pre ++ [(kk, v)]) s).
      { intros HC. exists L. split; [auto|]. split; [auto|]. split; [auto|]. split; [auto|]. split; [auto|]. intros k. apply EXT. split; auto.
        intros [H|(_ & H1 & H2 & H3)]; auto. destruct HC as [HC|[HC|HC]]; congruence || contradiction. }
      assert (ADD : ~ In ii (i :: L) -> nth ii ix 0 = 0 -> links keep A hindex i kk v = true -> wpq e (grp_add i ii s) (row_inv keep A hindex i R ix (pre ++ [(kk, v)]))).
      { intros H1 H2 H3. eapply wp_mono; [apply (grp_add_ok (length hindex) i ii R ix L s); auto|]. intros s' (X1 & X2 & X3 & X4 & X5).
        exists (L ++ [ii]). split; [auto|]. split; [auto|]. split; [auto|]. split; [auto|]. split; [auto|]. intros k. apply EXT. rewrite in_app_iff. simpl. split.
        - intros [H|[<-|[]]]; auto.
        - intros [H|(-> & _)]; auto. }
      destruct (Nat.eqb_spec (nth ii (snd s) 0) 0) as [Z|NZ]; [|cbn [andb wpq]; apply SAME].
      2: { destruct (Nat.eq_dec (nth ii ix 0) 0) as [Z0|]; auto. right. left. destruct (in_dec Nat.eq_dec ii (i :: L)); auto. exfalso. apply NZ, HX; auto. }
      apply HX in Z as [Z0 NI]; auto. replace (ii =? i) with false by (symmetry; apply Nat.eqb_neq; intros ->; apply NI; left; auto). cbn [andb negb].
      destruct (keep v) eqn:KV; [apply ADD; auto; unfold links; rewrite KV; auto|].
      unfold grp_back. rewrite e_for_row_eq by (first [auto; fail | lia | apply wf_nnz; auto]).
      assert (HLK : links keep A hindex i kk v = existsb (fun cu => in_group (eN A) hindex i (fst cu) && keep (snd cu)) (erow A kk)) by (unfold links; rewrite KV; auto).
      apply wp_bind. eapply wp_mono.
      + apply (forM_inv (fun pre' (r : ell * list nat * bool) => snd r = existsb (fun cu => in_group (eN A) hindex i (fst cu) && keep (snd cu)) pre' /\
          if snd r then row_inv keep A hindex i R ix (pre ++ [(kk, v)]) (fst r) else fst r = s)).
        * cbn [fst snd]. split; reflexivity.
        * intros pre' [c u] post' [s' stop] E' [HS' HR']. cbn [fst snd] in *. rewrite existsb_app. cbn [existsb fst snd]. rewrite orb_false_r. destruct stop.
          -- cbn [wpq fst snd]. rewrite <- HS'. split; auto.
          -- subst s'. rewrite <- HS'. cbn [orb].
             assert (Hc : c < eN A) by (apply (wf_cols A kk); auto; rewrite E'; unfold cols; rewrite map_app; apply in_app_iff; right; left; auto).
             destruct (group_exists (eN A) hindex c HG Hc) as (jj & Hjj & HGj). rewrite (rd_ok _ _ None) by lia. rewrite (HN _ _ HGj). cbn [bind use].
             assert (EJ : in_group (eN A) hindex i c = (jj =? i)).
             { destruct (Nat.eqb_spec jj i) as [->|Hne]; auto. destruct (in_group (eN A) hindex i c) eqn:X; auto. exfalso. apply Hne. eapply group_unique; eauto. }
             rewrite EJ. destruct ((jj =? i) && keep u) eqn:JK.
             ++ apply wp_bind. eapply wp_mono; [apply ADD; auto|].
                ** rewrite HLK, E', existsb_app. simpl. rewrite EJ, JK. simpl. rewrite orb_true_r. auto.
                ** intros s2 Hs2. cbn [wpq fst snd]. auto.
             ++ cbn [wpq fst snd]. auto.
      + intros [s' stop] [HS' HR']. cbn [fst snd wpq] in *. destruct stop; auto. subst s'. apply SAME. right. right. rewrite HLK. auto.
  Qed.

  Lemma pairs_connected keep (A : ell) hindex i k : wf A -> groups_ok (eN A) hindex -> i < length hindex ->
    (exists kk v, In (kk, v) (flat_map (fun j => erow A j) (seq (gb (eN A) hindex i) (gb (eN A) hindex (S i) - gb (eN A) hindex i))) /\
       in_group (eN A) hindex k kk = true /\ links keep A hindex i kk v = true) <-> connected keep A hindex i k.
  Proof.
    intros HA HG Hi. pose proof HA as [HsA HrA].
    assert (HI : gb (eN A) hindex (S i) <= eN A) by (pose proof (gb_mono (eN A) hindex (S i) (length hindex) HG ltac:(lia) ltac:(lia)) as X; rewrite gb_N in X; exact X).
    assert (LK : forall r c v, r < eN A -> In (c, v) (erow A r) -> stored A r c = true /\ emat A r c = v).
    { intros r c v Hr H. split; [apply stored_iff; apply (in_map fst) in H; exact H|]. unfold emat. apply elook_in; auto. apply HrA; auto. }
    assert (ST : forall r c, r < eN A -> stored A r c = true -> In (c, emat A r c) (erow A r)).
    { intros r c Hr H. apply stored_iff in H. unfold cols in H. apply in_map_iff in H as ([c' v] & <- & H). cbn [fst]. destruct (LK r c' v Hr H) as [_ ->]. auto. }
    split.
    - intros (kk & v & H1 & H2 & H3). apply in_flat_map in H1 as (j & Hj & H1). apply in_seq in Hj.
      assert (Hjn : j < eN A) by lia. destruct (LK j kk v Hjn H1) as [S1 V1]. assert (Hkk : kk < eN A) by (apply (wf_cols A j); auto; apply stored_iff; auto).
      exists j, kk. split; [apply in_group_gb; auto; lia|]. split; [auto|]. split; [auto|]. split; [auto|]. split; [auto|].
      unfold links in H3. apply orb_true_iff in H3 as [H3|H3]; [left; congruence|right]. apply existsb_exists in H3 as ([c u] & H3 & H4). cbn [fst snd] in H4. apply andb_true_iff in H4 as [H4 H5].
      destruct (LK kk c u Hkk H3) as [S2 V2]. exists c. split; [auto|]. split; [apply (wf_cols A kk); auto; apply stored_iff; auto|]. split; [auto|congruence].
    - intros (r & c & H1 & H2 & H3 & H4 & H5 & H6). exists c, (emat A r c). split; [|split; [auto|]].
      + apply in_flat_map. exists r. split; [apply in_group_gb in H1; auto; apply in_seq; lia|]. apply ST; auto.
      + unfold links. apply orb_true_iff. destruct H6 as [H6|(r' & H6 & H7 & H8 & H9)]; [left; auto|right]. apply existsb_exists. exists (r', emat A c r'). split; [apply ST; auto|].
        cbn [fst snd]. rewrite H6, H9. auto.
  Qed.

  (** what the rows hold when the loop has run *)
  Definition group_rows (keep : F -> bool) (A : ell) (hindex : list nat) (full : bool) (is : list nat) (R : nat -> list ent) : Prop :=
    (forall i, ~ In i is -> R i = []) /\
    forall i, In i is -> exists L, R i = ones (i :: L) /\ NoDup (i :: L) /\ (forall k, In k (i :: L) -> k < length hindex) /\
      (forall k, In k L -> k <> i /\ connected keep A hindex i k) /\
      (full = true -> forall k, k <> i -> connected keep A hindex i k -> In k L).

  Lemma noinit_holds n gv gi : holds n n (fun _ => []) (ell_noinit n n gv gi : ell).
  Proof.
    split; [reflexivity|]. split; [reflexivity|]. split; [apply (proj1 (wf_noinit n n gv gi))|]. intros i Hi. split; [apply erow_noinit|simpl; lia].
  Qed.

  Lemma group_step keep (A : ell) hindex (full : bool) i is R ix0 s : wf A -> groups_ok (eN A) hindex -> i < length hindex -> ~ In i is ->
    group_rows keep A hindex full is R -> (full = true -> forall k, nth k ix0 0 = 0) ->
    row_inv keep A hindex i R ix0 (flat_map (fun j => erow A j) (seq (gb (eN A) hindex i) (gb (eN A) hindex (S i) - gb (eN A) hindex i))) s ->
    exists R', holds (length hindex) (length hindex) R' (fst s) /\ length (snd s) = length hindex /\ group_rows keep A hindex full (is ++ [i]) R'.
  Proof.
    intros HA HG Hi NI [H0 H1] HF (L & ND & BD & HB & LX & HX & HL). exists (set_at R i (ones (i :: L))). split; [exact HB|]. split; [exact LX|]. split.
    - intros r Hr. unfold set_at. destruct (Nat.eqb_spec r i) as [->|]; [exfalso; apply Hr; apply in_app_iff; right; left; auto|]. apply H0. intros Hc. apply Hr. apply in_app_iff. auto.
    - intros r Hr. unfold set_at. destruct (Nat.eqb_spec r i) as [->|Hne].
      + exists L. split; [auto|]. split; [auto|]. split; [auto|]. split.
        * intros k Hk. apply HL in Hk as (X1 & X2 & X3). split; [auto|]. apply pairs_connected; auto.
        * intros Hf k Hk HC. apply HL. split; [auto|]. split; [auto|]. apply pairs_connected; auto.
      + apply H1. apply in_app_iff in Hr as [Hr|[Hr|[]]]; [auto|congruence].
  Qed.

  Lemma group_final keep (A : ell) hindex (full : bool) is R (B : ell) : (forall i, In i is <-> i < length hindex) -> groups_ok (eN A) hindex ->
    holds (length hindex) (length hindex) R B -> group_rows keep A hindex full is R ->
    wf B /\ eN B = length hindex /\
    (forall i k, i < length hindex -> stored B i k = true -> i = k \/ connected keep A hindex i k) /\
    (full = true -> forall i k, i < length hindex -> (stored B i k = true <-> i = k \/ connected keep A hindex i k)) /\
    (forall i, i < length hindex -> stored B i i = true) /\
    (forall i k, i < length hindex -> stored B i k = true -> emat B i k = k1).
  Proof.
    intros HI HG HB [_ HR]. pose proof HB as (N1 & M1 & S1 & R1).
    assert (ST : forall i, i < length hindex -> exists L, erow B i = ones (i :: L) /\ NoDup (i :: L) /\ (forall k, In k (i :: L) -> k < length hindex) /\
      (forall k, In k L -> k <> i /\ connected keep A hindex i k) /\ (full = true -> forall k, k <> i -> connected keep A hindex i k -> In k L)).
    { intros i Hi. destruct (HR i) as (L & X); [apply HI; auto|]. exists L. destruct (R1 i Hi) as [-> _]. exact X. }
    assert (IFF : forall i k L, erow B i = ones (i :: L) -> stored B i k = true <-> i = k \/ In k L).
    { intros i k L E. rewrite stored_iff, E, cols_ones. simpl. tauto. }
    split; [|split; [auto|split; [|split; [|split]]]].
    - eapply holds_is_wf; [exact HB|]. intros i Hi. destruct (ST i Hi) as (L & E & X1 & X2 & _). destruct (R1 i Hi) as [<- _]. rewrite E, cols_ones. auto.
    - intros i k Hi Hk. destruct (ST i Hi) as (L & E & _ & _ & X & _). destruct (proj1 (IFF i k L E) Hk); auto. right. apply X; auto.
    - intros Hf i k Hi. destruct (ST i Hi) as (L & E & _ & _ & X & Y). rewrite (IFF _ _ _ E). split.
      + intros [H|H]; auto. right. apply X; auto.
      + intros [H|H]; auto. destruct (Nat.eq_dec k i) as [->|]; auto.
    - intros i Hi. destruct (ST i Hi) as (L & E & _). apply (IFF _ _ _ E). auto.
    - intros i k Hi Hk. destruct (ST i Hi) as (L & E & X1 & _). apply stored_iff in Hk. rewrite E, cols_ones in Hk. unfold emat. rewrite E. apply elook_in; [rewrite cols_ones; auto|]. unfold ones. apply in_map_iff. exists k. auto.
  Qed.

  Theorem ell_group_matrix_ok keep (A : ell) hindex gv gi nth_ sched : wf A -> groups_ok (eN A) hindex -> full_sched (length hindex) nth_ sched ->
    exists B, ell_group_matrix keep A hindex gv gi sched = Ok B /\ wf B /\ eN B = length hindex /\
      (forall i, i < length hindex -> stored B i i = true) /\
      (forall i k, i < length hindex -> stored B i k = true -> emat B i k = k1 /\ (i = k \/ connected keep A hindex i k)) /\
      (NoDup (map fst sched) -> forall i k, i < length hindex -> connected keep A hindex i k -> stored B i k = true).
  Proof.
    intros HA HG HS. destruct (sched_rows _ _ _ HS) as [ND HI]. unfold ell_group_matrix. destruct (grp_nodes_ok (eN A) hindex HG) as (hn & E & LN & HN). rewrite E. cbn [bind].
    assert (GEN : forall full : bool, (full = true -> NoDup (map fst sched)) ->
      wp (par_for sched (fun i s => grp_row keep A hindex hn i s) (ell_noinit (length hindex) (length hindex) gv gi) (fun _ => repeat 0 (length hindex)))
        (fun r => exists R, holds (length hindex) (length hindex) R (fst r) /\ group_rows keep A hindex full (map snd sched) R)).
    { intros full HF. eapply wp_mono.
      - apply (par_for_inv (fun l B w => (exists R, holds (length hindex) (length hindex) R B /\ group_rows keep A hindex full l R) /\ (forall t, length (w t) = length hindex) /\
          forall t, ~ In t (map fst (firstn (length l) sched)) -> w t = repeat 0 (length hindex))).
        + split; [|split].
          * exists (fun _ => []). split; [apply noinit_holds|]. split; [auto|]. intros i [].
          * intros t. apply repeat_length.
          * auto.
        + intros pre t i post B w ES ((R & HB & HR) & HW & HZ).
          assert (Hi : i < length hindex) by (apply HI; rewrite ES, map_app; apply in_app_iff; right; left; auto).
          assert (NI : ~ In i (map snd pre)). { rewrite ES, map_app in ND. apply NoDup_app_inv in ND as (_ & _ & X). intros Hc. apply (X i Hc). left; auto. }
          assert (FP : firstn (length (map snd pre)) sched = pre) by (rewrite map_length, ES, firstn_app, Nat.sub_diag, firstn_all; simpl; apply app_nil_r).
          assert (FP' : firstn (length (map snd pre ++ [i])) sched = pre ++ [(t, i)]).
          { rewrite app_length, map_length, ES. simpl. replace (length pre + 1) with (length (pre ++ [(t, i)])) by (rewrite app_length; auto).
            replace (pre ++ (t, i) :: post) with ((pre ++ [(t, i)]) ++ post) by (rewrite <- app_assoc; auto). rewrite firstn_app, Nat.sub_diag, firstn_all. simpl. apply app_nil_r. }
          eapply wp_mono; [apply (grp_row_ok keep A hindex hn i R (B, w t)); auto; apply HW|].
          intros s Hs. cbn [snd] in Hs. destruct (group_step keep A hindex full i (map snd pre) R (w t) s) as (R' & X1 & X2 & X3); auto.
          * intros Hf k. rewrite HZ; [apply nth_repeat_any|]. rewrite FP. intros Hc. specialize (HF Hf). rewrite ES, map_app in HF. apply NoDup_app_inv in HF as (_ & _ & X). apply (X t Hc). left; auto.
          * split; [eauto|]. split.
            -- intros t'. unfold upd_fun. destruct (t' =? t); auto.
            -- intros t' Ht'. rewrite FP', map_app in Ht'. unfold upd_fun. destruct (Nat.eqb_spec t' t) as [->|]; [exfalso; apply Ht'; apply in_app_iff; right; left; auto|].
               apply HZ. rewrite FP. intros Hc. apply Ht'. apply in_app_iff. auto.
      - intros [B w] (H & _). exact H. }
    destruct (proj1 (wp_ok _ _) (GEN false ltac:(discriminate))) as ([B w] & EB & R & HB & HR). rewrite EB. cbn [bind]. exists B. split; [reflexivity|].
    destruct (group_final keep A hindex false (map snd sched) R B HI HG HB HR) as (W & N1 & X1 & _ & X2 & X3). split; [auto|]. split; [auto|]. split; [auto|].
    split; [intros i k Hi Hk; split; [auto|]; apply X1; auto|]. intros NT.
    destruct (proj1 (wp_ok _ _) (GEN true (fun _ => NT))) as ([B' w'] & EB' & R' & HB' & HR'). rewrite EB in EB'. injection EB' as <- _. cbn [fst] in HB'.
    destruct (group_final keep A hindex true (map snd sched) R' B HI HG HB' HR') as (_ & _ & _ & Y & _). intros i k Hi HC. apply Y; auto.
  Qed.

  Theorem ell_group_matrix_ibm_ok keep (A : ell) hindex gv gi nth_ sched : wf A -> groups_ok (eN A) hindex -> full_sched (length hindex) nth_ sched ->
    exists B, ell_group_matrix_ibm keep A hindex gv gi sched = Ok B /\ wf B /\ eN B = length hindex /\
      (forall i k, i < length hindex -> (stored B i k = true <-> i = k \/ connected keep A hindex i k)) /\
      (forall i k, i < length hindex -> stored B i k = true -> emat B i k = k1).
  Proof.
    intros HA HG HS. destruct (sched_rows _ _ _ HS) as [ND HI]. unfold ell_group_matrix_ibm. destruct (grp_nodes_ok (eN A) hindex HG) as (hn & E & LN & HN). rewrite E. cbn [bind].
    rewrite par_do_forM.
    match goal with |- exists B, ?x = _ /\ _ => assert (G : wp x (fun B => exists R, holds (length hindex) (length hindex) R B /\ group_rows keep A hindex true (map snd sched) R)) end.
    { apply (forM_inv (fun pre B => exists R, holds (length hindex) (length hindex) R B /\ group_rows keep A hindex true pre R)).
      - exists (fun _ => []). split; [apply noinit_holds|]. split; [auto|]. intros i [].
      - intros pre i post B ES (R & HB & HR).
        assert (Hi : i < length hindex) by (apply HI; rewrite ES; apply in_app_iff; right; left; auto).
        assert (NI : ~ In i pre). { rewrite ES in ND. apply NoDup_app_inv in ND as (_ & _ & X). intros Hc. apply (X i Hc). left; auto. }
        apply wp_bind. eapply wp_mono; [apply (grp_row_ok keep A hindex hn i R (B, repeat 0 (length hindex))); auto; apply repeat_length|].
        intros s Hs. cbn [snd] in Hs. destruct (group_step keep A hindex true i pre R (repeat 0 (length hindex)) s) as (R' & X1 & X2 & X3); auto.
        + intros _ k. apply nth_repeat_any.
        + destruct s as [B' ix']. cbn [wpq fst] in *. eauto. }
    destruct (proj1 (wp_ok _ _) G) as (B & EB & R & HB & HR). exists B. split; [exact EB|].
    destruct (group_final keep A hindex true (map snd sched) R B HI HG HB HR) as (W & N1 & _ & Y & _ & X3). split; [auto|]. split; [auto|]. split; [apply Y; auto|auto].
  Qed.
End Group.
