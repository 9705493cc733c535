(** Proofs: the adjacency structures (SubModel ell_adjacency, ell_adjacency_group). *)
From Coq Require Import Sorted Permutation.
From Verif Require Import Base BaseFacts Spec SpecFacts EllpackModel EllpackSpec EllpackFacts EllpackOps EllpackArith
  DenseModel DenseFacts SubModel SubSpec SubIndex SubBlock.

(** ** Segments of an array *)
Definition seg (a : list nat) (lo n : nat) : list nat := firstn n (skipn lo a).
Definition splice (a : list nat) (lo : nat) (E : list nat) : list nat := firstn lo a ++ E ++ skipn (lo + length E) a.

Lemma nth_skipn_ a lo k : nth k (skipn lo a) 0 = nth (lo + k) a 0.
Proof. revert a. induction lo; intros [|x a]; simpl; auto. destruct k; auto. Qed.
Lemma seg_length a lo n : lo + n <= length a -> length (seg a lo n) = n.
Proof. intros H. unfold seg. rewrite firstn_length, skipn_length. lia. Qed.
Lemma nth_seg a lo n k : k < n -> nth k (seg a lo n) 0 = nth (lo + k) a 0.
Proof. intros H. unfold seg. rewrite nth_firstn_lt by auto. apply nth_skipn_. Qed.
Lemma seg_ext a b lo n : lo + n <= length a -> lo + n <= length b -> (forall k, k < n -> nth (lo + k) a 0 = nth (lo + k) b 0) -> seg a lo n = seg b lo n.
Proof.
  intros H1 H2 H. apply (list_ext_nth _ _ 0); rewrite ?seg_length; auto. intros k Hk. rewrite !nth_seg by auto. auto.
Qed.
Lemma splice_length a lo E : lo + length E <= length a -> length (splice a lo E) = length a.
Proof. intros H. unfold splice. rewrite !app_length, firstn_length, skipn_length. lia. Qed.
Lemma nth_splice a lo E k : lo + length E <= length a ->
  nth k (splice a lo E) 0 = if (lo <=? k) && (k <? lo + length E) then nth (k - lo) E 0 else nth k a 0.
Proof.
  intros H. unfold splice. destruct (Nat.leb_spec lo k); simpl.
  - rewrite app_nth2 by (rewrite firstn_length; lia). rewrite firstn_length, Nat.min_l by lia. destruct (Nat.ltb_spec k (lo + length E)).
    + rewrite app_nth1 by lia. auto.
    + rewrite app_nth2 by lia. rewrite nth_skipn_. f_equal. lia.
  - rewrite app_nth1 by (rewrite firstn_length; lia). apply nth_firstn_lt. auto.
Qed.
Lemma seg_splice a lo E : lo + length E <= length a -> seg (splice a lo E) lo (length E) = E.
Proof.
  intros H. apply (list_ext_nth _ _ 0); rewrite seg_length by (rewrite splice_length; lia); auto. intros k Hk.
  rewrite nth_seg, nth_splice by auto. replace (lo <=? lo + k) with true by (symmetry; apply Nat.leb_le; lia).
  replace (lo + k <? lo + length E) with true by (symmetry; apply Nat.ltb_lt; lia). simpl. f_equal. lia.
Qed.
Lemma splice_nil a lo : splice a lo [] = a.
Proof. unfold splice. simpl. rewrite Nat.add_0_r. apply firstn_skipn. Qed.
Lemma splice_seg a lo n : lo + n <= length a -> splice a lo (seg a lo n) = a.
Proof.
  intros H. apply (list_ext_nth _ _ 0); rewrite splice_length by (rewrite seg_length; lia); auto. intros k Hk.
  rewrite nth_splice by (rewrite seg_length; lia). rewrite seg_length by lia. destruct (Nat.leb_spec lo k), (Nat.ltb_spec k (lo + n)); simpl; auto.
  rewrite nth_seg by lia. f_equal. lia.
Qed.
Lemma wr_splice a lo E x : lo + length E < length a -> wr (splice a lo E) (lo + length E) x = Ok (splice a lo (E ++ [x])).
Proof.
  intros H. rewrite wr_ok by (rewrite splice_length; lia). f_equal. apply (list_ext_nth _ _ 0).
  - rewrite length_set_nth, !splice_length; rewrite ?app_length; simpl; lia.
  - rewrite length_set_nth, splice_length by lia. intros k Hk. rewrite nth_splice by (rewrite app_length; simpl; lia). rewrite app_length. simpl.
    destruct (Nat.eq_dec k (lo + length E)) as [->|Hne].
    + rewrite nth_set_nth_eq by (rewrite splice_length; lia). replace (lo <=? lo + length E) with true by (symmetry; apply Nat.leb_le; lia).
      replace (lo + length E <? lo + (length E + 1)) with true by (symmetry; apply Nat.ltb_lt; lia). simpl. rewrite app_nth2 by lia. replace (lo + length E - lo - length E) with 0 by lia. auto.
    + rewrite nth_set_nth_neq by auto. rewrite nth_splice by lia. destruct (Nat.leb_spec lo k), (Nat.ltb_spec k (lo + length E)), (Nat.ltb_spec k (lo + (length E + 1))); simpl; auto; try lia.
      rewrite app_nth1 by lia. auto.
Qed.

(** consecutive segments, in any order, each rewritten once *)
Section Segs.
  Variables (off len : nat -> nat) (f : nat -> list nat -> list nat) (N : nat) (body : nat -> list nat -> res (list nat)).
  Hypothesis Hoff : forall i, i < N -> off (S i) = off i + len i.
  Hypothesis Hlen : forall i x, i < N -> length x = len i -> length (f i x) = len i.

  Lemma off_mono i j : i <= j -> j <= N -> off i <= off j.
  Proof. intros H. induction H; intros Hm; auto. rewrite Hoff by lia. assert (off i <= off m) by (apply IHle; lia). lia. Qed.
  Lemma off_disj i j : i < N -> j < N -> i <> j -> off i + len i <= off j \/ off j + len j <= off i.
  Proof.
    intros Hi Hj Hne. destruct (Nat.lt_gt_cases i j) as [H _]. destruct (H Hne); [left|right]; rewrite <- Hoff by auto; apply off_mono; lia.
  Qed.

  Lemma segs_ok nth_ sched a : off N <= length a ->
    (forall i a', i < N -> length a' = length a -> seg a' (off i) (len i) = seg a (off i) (len i) -> body i a' = Ok (splice a' (off i) (f i (seg a' (off i) (len i))))) ->
    full_sched N nth_ sched ->
    exists a', par_do sched body a = Ok a' /\ length a' = length a /\ (forall i, i < N -> seg a' (off i) (len i) = f i (seg a (off i) (len i))) /\
      forall k, off N <= k -> nth k a' 0 = nth k a 0.
  Proof.
    intros Ha Hb HS. destruct (sched_rows _ _ _ HS) as [ND HI]. rewrite par_do_forM.
    assert (HE : forall i, i < N -> off i + len i <= off N) by (intros i Hi; rewrite <- Hoff by auto; apply off_mono; lia).
    assert (G : wp (forM (map snd sched) (fun i a => body i a) a) (fun a' => length a' = length a /\
      (forall i, i < N -> seg a' (off i) (len i) = if existsb (Nat.eqb i) (map snd sched) then f i (seg a (off i) (len i)) else seg a (off i) (len i)) /\
      forall k, off N <= k -> nth k a' 0 = nth k a 0)).
    { apply (forM_inv (fun pre a' => length a' = length a /\
      (forall i, i < N -> seg a' (off i) (len i) = if existsb (Nat.eqb i) pre then f i (seg a (off i) (len i)) else seg a (off i) (len i)) /\
      forall k, off N <= k -> nth k a' 0 = nth k a 0)).
      - split; auto.
      - intros pre i post a1 E (L1 & S1 & K1).
        assert (Hi : i < N) by (apply HI; rewrite E; apply in_app_iff; right; left; auto).
        assert (NI : existsb (Nat.eqb i) pre = false).
        { apply existsb_eqb_false. rewrite E in ND. apply NoDup_app_inv in ND as (_ & _ & X). intros Hc. apply (X i Hc). left; auto. }
        assert (SI : seg a1 (off i) (len i) = seg a (off i) (len i)) by (rewrite S1, NI; auto).
        rewrite (Hb i a1 Hi L1 SI). cbn [wpq].
        assert (LF : length (f i (seg a1 (off i) (len i))) = len i) by (apply Hlen; auto; apply seg_length; specialize (HE i Hi); lia).
        pose proof (HE i Hi) as HEi. rewrite splice_length by lia. split; [auto|]. split.
        + intros r Hr. rewrite existsb_app. simpl. rewrite orb_false_r. destruct (Nat.eqb_spec r i) as [->|Hne].
          * rewrite orb_true_r. rewrite <- LF at 2. rewrite seg_splice by lia. rewrite SI. auto.
          * rewrite orb_false_r, <- S1 by auto. pose proof (HE r Hr). apply seg_ext; rewrite ?splice_length by lia; try lia.
            intros k Hk. rewrite nth_splice by lia. rewrite LF. destruct (off_disj i r Hi Hr) as [D|D]; auto;
              destruct (Nat.leb_spec (off i) (off r + k)), (Nat.ltb_spec (off r + k) (off i + len i)); simpl; auto; lia.
        + intros k Hk. rewrite nth_splice by lia. rewrite LF. destruct (Nat.ltb_spec k (off i + len i)); [lia|]. rewrite andb_false_r. auto. }
    destruct (proj1 (wp_ok _ _) G) as (a' & E & L & SG & K). exists a'. split; [exact E|]. split; [auto|]. split; [|auto].
    intros i Hi. rewrite SG by auto. replace (existsb _ _) with true; auto. symmetry. apply existsb_eqb. apply HI. auto.
  Qed.
End Segs.

(** ** Sorting *)
Lemma insert_perm x l : Permutation (x :: l) (insert_id x l).
Proof. induction l as [|y l IH]; simpl; auto. destruct (x <=? y); auto. rewrite perm_swap. constructor. auto. Qed.
Lemma sort_perm l : Permutation l (sort_ids l).
Proof. induction l; simpl; auto. rewrite <- insert_perm. constructor. auto. Qed.
Lemma insert_sorted x l : StronglySorted le l -> StronglySorted le (insert_id x l).
Proof.
  induction l as [|y l IH]; intros H; simpl; [repeat constructor|]. apply StronglySorted_inv in H as [H1 H2]. destruct (Nat.leb_spec x y).
  - constructor; [constructor; auto|]. constructor; auto. rewrite Forall_forall in *. intros z Hz. specialize (H2 z Hz). lia.
  - constructor; auto. rewrite Forall_forall in *. intros z Hz. apply (Permutation_in _ (Permutation_sym (insert_perm x l))) in Hz as [<-|Hz]; [lia|auto].
Qed.
Lemma sort_sorted l : StronglySorted le (sort_ids l).
Proof. induction l; simpl; [constructor|]. apply insert_sorted. auto. Qed.
Lemma sorted_unique l1 l2 : StronglySorted le l1 -> StronglySorted le l2 -> Permutation l1 l2 -> l1 = l2.
Proof.
  revert l2. induction l1 as [|x l1 IH]; intros l2 H1 H2 HP; [apply Permutation_nil in HP; auto|].
  destruct l2 as [|y l2]; [apply Permutation_sym, Permutation_nil in HP; discriminate|].
  apply StronglySorted_inv in H1 as [H1 F1]. apply StronglySorted_inv in H2 as [H2 F2]. rewrite Forall_forall in *.
  assert (x = y). { assert (X : In x (y :: l2)) by (apply (Permutation_in _ HP); left; auto). assert (Y : In y (x :: l1)) by (apply (Permutation_in _ (Permutation_sym HP)); left; auto).
    destruct X as [X|X]; auto. destruct Y as [Y|Y]; auto. apply F1 in Y. apply F2 in X. lia. }
  subst. f_equal. apply IH; auto. apply Permutation_cons_inv in HP. auto.
Qed.
Lemma seq_sorted s n : StronglySorted le (seq s n).
Proof. revert s. induction n; intros s; simpl; constructor; auto. rewrite Forall_forall. intros x Hx. apply in_seq in Hx. lia. Qed.
Lemma filter_sorted p l : StronglySorted le l -> StronglySorted le (filter p l).
Proof.
  induction l as [|x l IH]; intros H; simpl; auto. apply StronglySorted_inv in H as [H1 H2]. destruct (p x); auto. constructor; auto.
  rewrite Forall_forall in *. intros z Hz. apply filter_In in Hz as [Hz _]. auto.
Qed.
Lemma sort_filter l p N : NoDup l -> (forall k, In k l <-> k < N /\ p k = true) -> sort_ids l = filter p (seq 0 N).
Proof.
  intros ND H. apply sorted_unique; [apply sort_sorted|apply filter_sorted, seq_sorted|]. rewrite <- sort_perm. apply NoDup_Permutation; auto.
  - apply NoDup_filter, seq_NoDup.
  - intros k. rewrite H, filter_In, in_seq. split; intros [H1 H2]; split; auto; lia.
Qed.

Lemma forM_any_bool (l : list nat) (p : nat -> bool) b : forM l (fun k (c : bool) => if c then Ok c else Ok (p k)) b = Ok (b || existsb p l).
Proof. revert b. induction l as [|k l IH]; intros b; simpl; [rewrite orb_false_r; auto|]. destruct b; simpl; rewrite IH; auto. Qed.

Lemma adj_incr_ok a lo n : lo + n <= length a -> adj_incr a (seq lo n) = Ok (splice a lo (map S (seg a lo n))).
Proof.
  intros H. unfold adj_incr.
  assert (G : wp (forM (seq lo n) (fun j a => v <- rd a j ;; wr a j (v + 1)) a) (fun a' => a' = splice a lo (map S (seg a lo n)))).
  { assert (X : wp (forM (seq lo n) (fun j a => v <- rd a j ;; wr a j (v + 1)) a) (fun a' => a' = splice a lo (map S (seg a lo (length (seq lo n)))))).
    { apply (forM_inv (fun pre a' => a' = splice a lo (map S (seg a lo (length pre))))).
      - unfold seg. simpl. rewrite splice_nil. auto.
      - intros pre j post a' E ->. assert (LP : length pre < n) by (apply (f_equal (@length nat)) in E; rewrite seq_length, app_length in E; simpl in E; lia).
        assert (j = lo + length pre). { apply (f_equal (fun l => nth (length pre) l 0)) in E. rewrite seq_nth in E by auto. rewrite app_nth2, Nat.sub_diag in E by lia. simpl in E. lia. }
        subst j. set (m := length pre) in *.
        assert (LE : length (map S (seg a lo m)) = m) by (rewrite map_length, seg_length; lia).
        rewrite (rd_ok _ _ 0) by (rewrite splice_length; lia). cbn [bind].
        rewrite nth_splice by lia. rewrite LE. replace (lo + m <? lo + m) with false by (symmetry; apply Nat.ltb_irrefl). rewrite andb_false_r.
        pose proof (wr_splice a lo (map S (seg a lo m)) (nth (lo + m) a 0 + 1)) as W. rewrite LE in W. rewrite W by lia. cbn [wpq].
        rewrite app_length. simpl. replace (length pre + 1) with (S m) by (unfold m; lia). f_equal. unfold seg.
        rewrite (firstn_S_nth _ _ 0) by (rewrite skipn_length; lia). rewrite map_app. simpl. rewrite nth_skipn_, Nat.add_1_r. auto. }
    rewrite seq_length in X. exact X. }
  destruct (proj1 (wp_ok _ _) G) as (a' & E & ->). exact E.
Qed.

(** the offsets: x_0 = 0, x_(i+1) = x_i + d_i *)
Lemma offsets_ok (x : list nat) (d : nat -> nat) (n : nat) (step : nat -> list nat -> res (list nat)) : n < length x ->
  (forall i x', i < n -> length x' = length x -> nth i x' 0 = nsum i d -> step i x' = wr x' (i + 1) (nsum i d + d i)) ->
  exists x', (x0 <- wr x 0 0 ;; for_n n step x0) = Ok x' /\ length x' = length x /\ (forall i, i <= n -> nth i x' 0 = nsum i d) /\ forall k, n < k -> nth k x' 0 = nth k x 0.
Proof.
  intros Hn Hs. rewrite wr_ok by lia. cbn [bind].
  assert (G : wp (for_n n step (set_nth x 0 0)) (fun x' => length x' = length x /\ (forall i, i <= n -> nth i x' 0 = nsum i d) /\ forall k, n < k -> nth k x' 0 = nth k x 0)).
  { apply (for_n_inv (fun m x' => length x' = length x /\ (forall i, i <= m -> nth i x' 0 = nsum i d) /\ forall k, m < k -> nth k x' 0 = nth k x 0)).
    - rewrite length_set_nth. split; [auto|]. split.
      + intros i Hi. replace i with 0 by lia. rewrite nth_set_nth_eq by lia. auto.
      + intros k Hk. rewrite nth_set_nth_neq by lia. auto.
    - intros i x' Hi (L & H1 & H2). rewrite Hs by auto. rewrite wr_ok by lia. cbn [wpq]. rewrite length_set_nth. split; [auto|]. split.
      + intros k Hk. destruct (Nat.eq_dec k (i + 1)) as [->|].
        * rewrite nth_set_nth_eq by lia. rewrite Nat.add_1_r. auto.
        * rewrite nth_set_nth_neq by lia. apply H1. lia.
      + intros k Hk. rewrite nth_set_nth_neq by lia. apply H2. lia. }
  destruct (proj1 (wp_ok _ _) G) as (x' & E & R). exists x'. auto.
Qed.

Lemma seg_map_nth (a : list nat) lo n (g : nat -> nat) k : k < n -> lo + n <= length a -> nth k (map g (seg a lo n)) 0 = g (nth (lo + k) a 0).
Proof. intros H H2. rewrite (nth_indep _ 0 (g 0)) by (rewrite map_length, seg_length; lia). rewrite map_nth, nth_seg; auto. Qed.

Section Adj.
  Context {F : scalar}.
  Local Notation ell := (ell F).

  Definition rawoff (A : ell) (i : nat) : list nat := filter (fun k => negb (k =? i)) (cols (erow A i)).

  Lemma raw_sort (A : ell) i : wf A -> i < eN A -> sort_ids (rawoff A i) = offdiag_cols A i.
  Proof.
    intros HA Hi. pose proof HA as [_ HrA]. apply sort_filter; [apply NoDup_filter; apply HrA; auto|].
    intros k. unfold rawoff. rewrite filter_In, andb_true_iff, stored_iff. split.
    - intros [H1 H2]. split; [eapply wf_cols; eauto|auto].
    - intros (H1 & H2 & H3). auto.
  Qed.
  Lemma raw_length (A : ell) i : wf A -> i < eN A -> length (rawoff A i) = deg A i.
  Proof. intros HA Hi. unfold deg. rewrite <- raw_sort by auto. apply Permutation_length, sort_perm. Qed.
  Lemma raw_nnz (A : ell) i : wf A -> i < eN A -> length (rawoff A i) + (if has_diag A i then 1 else 0) = nnz A i.
  Proof.
    intros HA Hi. pose proof HA as [_ HrA]. rewrite <- erow_length, <- (map_length fst). fold (cols (erow A i)). unfold rawoff, has_diag, stored.
    assert (ND : NoDup (cols (erow A i))) by (apply HrA; auto). clear -ND. induction ND as [|k L Hk ND IH]; simpl; auto.
    destruct (Nat.eqb_spec k i) as [->|Hne]; simpl.
    - rewrite Nat.eqb_refl. simpl. replace (existsb (Nat.eqb i) L) with false in IH by (symmetry; apply existsb_eqb_false; auto). lia.
    - replace (i =? k) with false by (symmetry; apply Nat.eqb_neq; auto). simpl. lia.
  Qed.

  Theorem ell_adjacency_ok (A : ell) xadj adj (base1 diag : bool) n1 n2 n3 s1 s2 s3 : wf A -> 0 < eN A ->
    (forall i, i < eN A -> has_diag A i = diag) -> eN A + 1 <= length xadj -> nsum (eN A) (deg A) <= length adj ->
    full_sched (eN A) n1 s1 -> full_sched (eN A) n2 s2 -> full_sched (eN A) n3 s3 ->
    exists xadj' adj', ell_adjacency A xadj adj base1 s1 s2 s3 = Ok (xadj', adj') /\ length xadj' = length xadj /\ length adj' = length adj /\
      (forall i, i <= eN A -> nth i xadj' 0 = (if base1 then 1 else 0) + nsum i (deg A)) /\
      (forall i t, i < eN A -> t < deg A i -> nth (nsum i (deg A) + t) adj' 0 = (if base1 then 1 else 0) + nth t (offdiag_cols A i) 0).
  Proof.
    intros HA HN HD HX HL HS1 HS2 HS3. set (D := deg A). unfold ell_adjacency, adj_check.
    rewrite e_for_cols_eq, forM_any_bool by auto. cbn [bind orb].
    assert (CK : existsb (fun k => k =? 0) (cols (erow A 0)) = diag).
    { rewrite <- (HD 0) by auto. unfold has_diag, stored. induction (cols (erow A 0)) as [|k L IH]; simpl; auto. rewrite IH, (Nat.eqb_sym k 0). auto. }
    rewrite CK. unfold adj_offsets.
    match goal with |- context [for_n (eN A) ?st _] => destruct (offsets_ok xadj D (eN A) st) as (xa & E1 & L1 & X1 & _) end; [lia| |].
    { intros i x' Hi Lx Hxi. rewrite (rd_ok _ _ 0) by lia. cbn [bind]. rewrite Hxi. pose proof HA as [HsA _]. rewrite e_nnz_ok by auto. cbn [bind].
      pose proof (raw_nnz A i HA Hi) as RN. rewrite (HD i Hi), raw_length in RN by auto. fold D in RN. destruct diag.
      - replace (nsum i D + nnz A i =? 0) with false by (symmetry; apply Nat.eqb_neq; lia). f_equal. lia.
      - f_equal. lia. }
    rewrite E1. cbn [bind].
    set (off := fun i => nsum i D).
    assert (Hoff : forall i, i < eN A -> off (S i) = off i + D i) by (intros; reflexivity).
    assert (HE : forall i, i < eN A -> off i + D i <= off (eN A)) by (intros i Hi; rewrite <- Hoff by auto; apply (off_mono off D (eN A) Hoff); lia).
    assert (HL0 : off (eN A) <= length adj) by exact HL.
    destruct (segs_ok off D (fun i _ => rawoff A i) (eN A) (fun i adj => adj_row A xa i adj) Hoff) with (nth_ := n1) (sched := s1) (a := adj) as (a1 & Ea1 & La1 & Sa1 & _); auto.
    { intros i x Hi _. apply raw_length; auto. }
    { intros i a' Hi La' _. unfold adj_row. rewrite (rd_ok _ _ 0) by lia. cbn [bind]. rewrite X1 by lia. fold (off i). rewrite e_for_cols_eq by auto.
      assert (G : wp (forM (cols (erow A i)) (fun k '(adj, j) => if k =? i then Ok (adj, j) else adj <- wr adj j k ;; Ok (adj, S j)) (a', off i))
        (fun s => s = (splice a' (off i) (rawoff A i), off i + length (rawoff A i)))).
      { apply (forM_inv (fun pre s => s = (splice a' (off i) (filter (fun k => negb (k =? i)) pre), off i + length (filter (fun k => negb (k =? i)) pre)))).
        - simpl. rewrite splice_nil, Nat.add_0_r. auto.
        - intros pre k post s E ->. rewrite filter_app. simpl. destruct (k =? i) eqn:K; simpl.
          + rewrite app_nil_r. reflexivity.
          + rewrite wr_splice.
            * cbn [bind wpq]. rewrite app_length. simpl. f_equal. lia.
            * assert (length (filter (fun k => negb (k =? i)) (pre ++ [k])) <= length (rawoff A i)).
              { unfold rawoff. rewrite E. rewrite !filter_app, !app_length. simpl. rewrite K. simpl. lia. }
              rewrite filter_app, app_length in H. simpl in H. rewrite K in H. simpl in H. rewrite raw_length in H by auto. fold D in H. specialize (HE i Hi). lia. }
      destruct (proj1 (wp_ok _ _) G) as (s & Es & ->). rewrite Es. reflexivity. }
    cbn beta in Ea1. rewrite Ea1. cbn [bind].
    destruct (segs_ok off D (fun _ x => sort_ids x) (eN A) (fun i adj => lo <- rd xa i ;; hi <- rd xa (i + 1) ;; sort_range adj lo hi) Hoff) with (nth_ := n2) (sched := s2) (a := a1) as (a2 & Ea2 & La2 & Sa2 & _); auto.
    { intros i x Hi <-. symmetry. apply Permutation_length, sort_perm. }
    { rewrite La1. auto. }
    { intros i a' Hi La' _. rewrite !(rd_ok _ _ 0) by lia. cbn [bind]. rewrite !X1 by lia. rewrite Nat.add_1_r. fold (off i) (off (S i)). rewrite Hoff by auto. unfold sort_range.
      specialize (HE i Hi).
      replace (off i + D i <? off i) with false by (symmetry; apply Nat.ltb_ge; lia). replace (length a' <? off i + D i) with false by (symmetry; apply Nat.ltb_ge; lia). cbn [orb].
      replace (off i + D i - off i) with (D i) by lia. f_equal. unfold splice. fold (seg a' (off i) (D i)). rewrite <- (Permutation_length (sort_perm (seg a' (off i) (D i)))), seg_length by lia. auto. }
    rewrite Ea2. cbn [bind].
    assert (S2 : forall i, i < eN A -> seg a2 (off i) (D i) = offdiag_cols A i) by (intros i Hi; rewrite Sa2, Sa1 by auto; apply raw_sort; auto).
    destruct base1.
    - destruct (segs_ok off D (fun _ x => map S x) (eN A) (fun i adj => lo <- rd xa i ;; hi <- rd xa (i + 1) ;; adj_incr adj (seq lo (hi - lo))) Hoff) with (nth_ := n3) (sched := s3) (a := a2) as (a3 & Ea3 & La3 & Sa3 & _); auto.
      { intros i x Hi <-. apply map_length. }
      { rewrite La2, La1. auto. }
      { intros i a' Hi La' _. rewrite !(rd_ok _ _ 0) by lia. cbn [bind]. rewrite !X1 by lia. rewrite Nat.add_1_r. fold (off i) (off (S i)). rewrite Hoff by auto.
        replace (off i + D i - off i) with (D i) by lia. apply adj_incr_ok. specialize (HE i Hi). lia. }
      rewrite Ea3. cbn [bind]. rewrite adj_incr_ok by lia. cbn [bind]. eexists _, a3. split; [reflexivity|].
      assert (LS : length (map S (seg xa 0 (eN A + 1))) = eN A + 1) by (rewrite map_length, seg_length; lia).
      split; [rewrite splice_length; lia|]. split; [lia|]. split.
      + intros i Hi. rewrite nth_splice by lia. rewrite LS. simpl (0 <=? i). replace (i <? 0 + (eN A + 1)) with true by (symmetry; apply Nat.ltb_lt; lia). cbn [andb].
        rewrite Nat.sub_0_r, seg_map_nth by lia. rewrite Nat.add_0_l, X1 by lia. reflexivity.
      + intros i t Hi Ht. fold D in Ht. change (nsum i D) with (off i). rewrite <- (nth_seg a3 (off i) (D i) t) by auto. rewrite Sa3 by auto.
        specialize (HE i Hi). rewrite seg_map_nth by (auto; lia). rewrite <- (nth_seg a2 (off i) (D i) t), S2 by auto. reflexivity.
    - eexists xa, a2. split; [reflexivity|]. split; [auto|]. split; [lia|]. split; [intros i Hi; rewrite X1; auto|].
      intros i t Hi Ht. fold D in Ht. change (nsum i D) with (off i). rewrite <- (nth_seg a2 (off i) (D i) t), S2 by auto. reflexivity.
  Qed.

  (** ** bml_adjacency_group *)
  Lemma grp_rows_ok hindex : (forall h, In h hindex -> 1 <= h) -> grp_rows hindex = Ok (map (fun h => h - 1) hindex).
  Proof.
    intros H. unfold grp_rows.
    assert (G : wp (forM hindex (fun h l => if h =? 0 then UB else Ok (l ++ [h - 1])) []) (fun l => l = map (fun h => h - 1) hindex)).
    { apply (forM_inv (fun pre l => l = map (fun h => h - 1) pre)); [reflexivity|].
      intros pre h post l E ->. assert (1 <= h) by (apply H; rewrite E; apply in_app_iff; right; left; auto). replace (h =? 0) with false by (symmetry; apply Nat.eqb_neq; lia).
      cbn [wpq]. rewrite map_app. reflexivity. }
    destruct (proj1 (wp_ok _ _) G) as (l & E & ->). exact E.
  Qed.
  Lemma has_col_ok (A : ell) r c : wf A -> r < eN A -> has_col A r c = Ok (stored A r c).
  Proof. intros HA Hr. unfold has_col. rewrite e_for_cols_eq, forM_any_bool by auto. reflexivity. Qed.

  Theorem ell_adjacency_group_ok (A : ell) hindex xadj adj (base1 : bool) n1 s1 : wf A ->
    (forall h, In h hindex -> 1 <= h <= eN A) -> length hindex + 1 <= length xadj ->
    nsum (length hindex) (fun i => length (nbr_nodes A hindex i)) + (if base1 then 1 else 0) <= length adj ->
    full_sched (length hindex) n1 s1 ->
    exists xadj' adj', ell_adjacency_group A hindex xadj adj base1 s1 = Ok (xadj', adj') /\ length xadj' = length xadj /\ length adj' = length adj /\
      (forall i, i <= length hindex -> nth i xadj' 0 = (if base1 then 1 else 0) + nsum i (fun i => length (nbr_nodes A hindex i))) /\
      (forall i t, i < length hindex -> t < length (nbr_nodes A hindex i) ->
         nth (nsum i (fun i => length (nbr_nodes A hindex i)) + t) adj' 0 = (if base1 then 1 else 0) + nth t (nbr_nodes A hindex i) 0).
  Proof.
    intros HA HH HX HL HS. set (n := length hindex) in *. set (D := fun i => length (nbr_nodes A hindex i)) in *. unfold ell_adjacency_group.
    rewrite grp_rows_ok by (intros h Hh; apply HH in Hh; lia). cbn [bind]. set (hn := map (fun h => h - 1) hindex).
    assert (LH : length hn = n) by apply map_length. rewrite LH.
    assert (NH : forall i, i < n -> nth i hn 0 = nth i hindex 0 - 1 /\ nth i hn 0 < eN A).
    { intros i Hi. unfold hn. rewrite (nth_indep _ 0 (0 - 1)) by (rewrite map_length; auto). rewrite (map_nth (fun h => h - 1)). split; [auto|].
      assert (X : In (nth i hindex 0) hindex) by (apply nth_In; auto). apply HH in X. lia. }
    match goal with |- context [for_n n ?st _] => destruct (offsets_ok xadj D n st) as (xa & E1 & L1 & X1 & _) end; [lia| |].
    { intros i x' Hi Lx Hxi. rewrite (rd_ok _ _ 0) by lia. cbn [bind]. destruct (NH i Hi) as [NE NB].
      assert (G : wp (forM hn (fun c m => b <- has_col A (nth i hn 0) c ;; Ok (if b : bool then S m else m)) 0) (fun m => m = length (filter (fun c => stored A (nth i hn 0) c) hn))).
      { apply (forM_inv (fun pre m => m = length (filter (fun c => stored A (nth i hn 0) c) pre))); [reflexivity|].
        intros pre c post m E ->. rewrite has_col_ok by auto. cbn [bind wpq]. rewrite filter_app, app_length. simpl. destruct (stored A (nth i hn 0) c); simpl; lia. }
      destruct (proj1 (wp_ok _ _) G) as (m & Em & ->). rewrite Em. cbn [bind]. rewrite (rd_ok _ _ 0) by lia. cbn [bind]. rewrite Hxi. f_equal. f_equal.
      unfold D, nbr_nodes. fold n. rewrite NE. clear. unfold hn, n.
      assert (X : forall l, length (filter (fun c => stored A (nth i hindex 0 - 1) c) (map (fun h => h - 1) l)) = length (filter (fun j => stored A (nth i hindex 0 - 1) (nth j l 0 - 1)) (seq 0 (length l)))).
      { intros l. induction l as [|h l IH] using rev_ind; auto. rewrite map_app, filter_app, app_length, IH. rewrite app_length. simpl. rewrite seq_app, filter_app, app_length. simpl. f_equal.
        - f_equal. apply filter_ext_in. intros j Hj. apply in_seq in Hj. rewrite app_nth1 by lia. auto.
        - rewrite app_nth2, Nat.sub_diag by lia. simpl. destruct (stored _ _ _); auto. }
      apply X. }
    unfold bind at 1. unfold bind at 1 in E1. destruct (wr xadj 0 0) as [x0| | |]; try discriminate E1. rewrite E1. cbn [bind].
    set (off := fun i => nsum i D).
    assert (Hoff : forall i, i < n -> off (S i) = off i + D i) by (intros; reflexivity).
    assert (HE : forall i, i < n -> off i + D i <= off n) by (intros i Hi; rewrite <- Hoff by auto; apply (off_mono off D n Hoff); lia).
    assert (HL' : off n <= length adj) by (unfold off; lia).
    match goal with |- context [par_do s1 ?b adj] => destruct (segs_ok off D (fun i _ => nbr_nodes A hindex i) n b Hoff) with (nth_ := n1) (sched := s1) (a := adj) as (a1 & Ea1 & La1 & Sa1 & Ka1); auto end.
    { intros i a' Hi La' _. destruct (NH i Hi) as [NE NB]. rewrite !(rd_ok _ _ 0) by lia. cbn [bind]. rewrite X1 by lia. fold (off i).
      match goal with |- (' p <- ?x ;; _) = _ => assert (G : wp x (fun s => s = (splice a' (off i) (nbr_nodes A hindex i), off i + D i))) end.
      { set (p := fun j => stored A (nth i hindex 0 - 1) (nth j hindex 0 - 1)).
        apply (for_n_inv (fun m s => s = (splice a' (off i) (filter p (seq 0 m)), off i + length (filter p (seq 0 m))))).
        - simpl. rewrite splice_nil, Nat.add_0_r. auto.
        - intros j s Hj ->. destruct (NH j Hj) as [NEj NBj]. rewrite (rd_ok _ _ 0) by lia. cbn [bind]. rewrite has_col_ok by auto. cbn [bind]. rewrite NE, NEj. fold (p j).
          rewrite seq_S, filter_app. simpl. destruct (p j) eqn:PJ.
          + rewrite wr_splice.
            * cbn [bind wpq]. rewrite app_length. simpl. f_equal. lia.
            * assert (S (length (filter p (seq 0 j))) <= D i).
              { unfold D, nbr_nodes. fold n. fold p. replace n with (S j + (n - S j)) by lia. rewrite seq_app, seq_S, !filter_app, !app_length. simpl. rewrite PJ. simpl. lia. }
              specialize (HE i Hi). lia.
          + cbn [wpq]. rewrite app_nil_r. reflexivity. }
      destruct (proj1 (wp_ok _ _) G) as (s & Es & ->). rewrite Es. reflexivity. }
    rewrite Ea1. cbn [bind]. destruct base1.
    - rewrite (rd_ok _ _ 0) by lia. cbn [bind]. rewrite X1 by lia. fold (off n). unfold off in HL'. rewrite adj_incr_ok by (unfold off; lia). cbn [bind]. rewrite adj_incr_ok by lia. cbn [bind]. eexists _, _. split; [reflexivity|].
      assert (LS : length (map S (seg xa 0 (n + 1))) = n + 1) by (rewrite map_length, seg_length; lia).
      assert (LA : length (map S (seg a1 0 (off n + 1))) = off n + 1) by (rewrite map_length, seg_length; unfold off; lia).
      split; [rewrite splice_length; lia|]. split; [rewrite splice_length; unfold off in *; lia|]. split.
      + intros i Hi. rewrite nth_splice by lia. rewrite LS. simpl (0 <=? i). replace (i <? 0 + (n + 1)) with true by (symmetry; apply Nat.ltb_lt; lia). cbn [andb].
        rewrite Nat.sub_0_r, seg_map_nth by lia. rewrite Nat.add_0_l, X1 by lia. reflexivity.
      + intros i t Hi Ht. pose proof (HE i Hi) as HEi. fold (D i) in Ht. fold (off i). rewrite nth_splice by (unfold off in *; lia). rewrite LA. simpl (0 <=? _).
        replace (off i + t <? 0 + (off n + 1)) with true by (symmetry; apply Nat.ltb_lt; lia). cbn [andb]. rewrite Nat.sub_0_r, seg_map_nth by (unfold off in *; lia). rewrite Nat.add_0_l.
        rewrite <- (nth_seg a1 (off i) (D i) t), Sa1 by auto. reflexivity.
    - eexists xa, a1. split; [reflexivity|]. split; [auto|]. split; [lia|]. split; [intros i Hi; rewrite X1; auto|].
      intros i t Hi Ht. fold (D i) in Ht. fold (off i). rewrite <- (nth_seg a1 (off i) (D i) t), Sa1 by auto. reflexivity.
  Qed.
End Adj.
