(** Proofs: core and halo indices (SubModel). *)
From Verif Require Import Base BaseFacts Spec SpecFacts EllpackModel EllpackSpec EllpackFacts DenseModel DenseSpec SubModel SubSpec.

Lemma dd_app_prefix L1 L2 : exists T, dd (L1 ++ L2) = dd L1 ++ T.
Proof.
  induction L2 as [|x L2 IH] using rev_ind; [exists []; rewrite !app_nil_r; auto|].
  destruct IH as (T & E). rewrite app_assoc, dd_snoc, E.
  destruct (existsb _ _); [exists T; auto|]. exists (T ++ [x]). rewrite app_assoc. auto.
Qed.

Lemma existsb_seen_ext k (a b : list nat) : (forall x, In x a <-> In x b) -> existsb (Nat.eqb k) a = existsb (Nat.eqb k) b.
Proof.
  intros H. destruct (existsb (Nat.eqb k) b) eqn:E.
  - apply existsb_eqb. apply H. apply existsb_eqb. auto.
  - apply existsb_eqb_false. intros Hc. apply existsb_eqb_false in E. apply E, H. auto.
Qed.
Lemma first_occ_ext a b l : (forall x, In x a <-> In x b) -> first_occ a l = first_occ b l.
Proof.
  revert a b. induction l as [|k l IH]; intros a b H; simpl; auto. rewrite (existsb_seen_ext k a b H).
  destruct (existsb (Nat.eqb k) b); [auto|]. f_equal. apply IH. intros x. simpl. rewrite H. tauto.
Qed.
Lemma first_occ_dd_gen l pre : dd (pre ++ l) = dd pre ++ first_occ pre l.
Proof.
  revert pre. induction l as [|k l IH]; intros pre; [simpl; rewrite !app_nil_r; auto|].
  replace (pre ++ k :: l) with ((pre ++ [k]) ++ l) by (rewrite <- app_assoc; auto). rewrite IH, dd_snoc. cbn [first_occ].
  rewrite (existsb_seen_ext k (dd pre) pre) by (apply in_dd).
  destruct (existsb (Nat.eqb k) pre) eqn:E.
  - f_equal. apply first_occ_ext. intros x. rewrite in_app_iff. simpl. apply existsb_eqb in E. split; [intros [|[<-|[]]]; auto|auto].
  - rewrite <- app_assoc. simpl. f_equal. f_equal. apply first_occ_ext. intros x. rewrite in_app_iff. simpl. tauto.
Qed.
Lemma first_occ_dd l : dd l = first_occ [] l.
Proof. exact (first_occ_dd_gen l []). Qed.

Section SubIndex.
  Context {F : scalar}.
  Local Notation ell := (ell F).

  Lemma e_for_cols_eq {S} (A : ell) i (body : nat -> S -> res S) s :
    wf A -> i < eN A -> e_for_cols A i body s = forM (cols (erow A i)) body s.
  Proof.
    intros Hw Hi. pose proof (wf_nnz A i Hw Hi) as Hn. pose proof Hw as [Hs _]. unfold e_for_cols. rewrite e_nnz_ok by auto. cbn [bind].
    rewrite <- (for_n_nth (cols (erow A i)) 0). unfold cols. rewrite map_length, erow_length.
    apply for_n_ext. intros j s' Hj. rewrite e_idx_ok by (auto; lia). cbn [bind].
    unfold erow. change 0 with (fst (0, k0 : F)) at 2. rewrite map_nth, slots_nth by auto. reflexivity.
  Qed.

  Lemma stored_iff (A : ell) i k : stored A i k = true <-> In k (cols (erow A i)).
  Proof. apply existsb_eqb. Qed.

  (** the columns in L have been visited, in this order *)
  Definition seen (N C : nat) (L : list nat) (s : list nat * list nat * nat) : Prop :=
    let '(ix, ch, l) := s in
    length ix = N /\ length ch = C /\ l = length (dd L) /\ firstn l ch = dd L /\
    (forall k, In k L -> k < N) /\ forall k, k < N -> (nth k ix 0 = 0 <-> ~ In k L).

  Lemma visit_ok {e} N C L s ii k : seen N C L s -> N <= C -> k < N -> wpq e (idx_visit ii k s) (seen N C (L ++ [k])).
  Proof.
    destruct s as [[ix ch] l]. intros (H1 & H2 & H3 & H4 & H5 & H6) HC Hk. unfold idx_visit.
    rewrite (rd_ok ix k 0) by lia. cbn [bind]. destruct (Nat.eqb_spec (nth k ix 0) 0) as [E|E].
    - rewrite (H6 k Hk) in E. rewrite wr_ok by lia. cbn [bind].
      assert (HL : l < C).
      { assert (length (dd (L ++ [k])) <= N) by (apply dd_length; intros x Hx; apply in_app_iff in Hx as [Hx|[<-|[]]]; auto).
        rewrite dd_snoc in H. rewrite (proj2 (existsb_eqb_false k (dd L))) in H by (rewrite in_dd; auto). rewrite app_length in H. simpl in H. lia. }
      rewrite wr_ok by lia. cbn [bind wpq]. unfold seen. rewrite !length_set_nth, dd_snoc, (proj2 (existsb_eqb_false k (dd L))) by (rewrite in_dd; auto).
      split; [auto|]. split; [auto|]. rewrite app_length. cbn [length]. split; [lia|]. split.
      + rewrite (firstn_S_nth _ _ 0) by (rewrite length_set_nth; lia). rewrite nth_set_nth_eq by lia. f_equal.
        rewrite <- H4. apply list_ext_nth with (d := 0).
        * rewrite !firstn_length, length_set_nth. auto.
        * intros q Hq. rewrite firstn_length, length_set_nth in Hq. rewrite !nth_firstn_lt by lia. apply nth_set_nth_neq. lia.
      + split; [intros x Hx; apply in_app_iff in Hx as [Hx|[<-|[]]]; auto|].
        intros x Hx. rewrite in_app_iff. simpl. destruct (Nat.eq_dec k x) as [->|N0].
        * rewrite nth_set_nth_eq by lia. split; [lia|tauto].
        * rewrite nth_set_nth_neq by auto. rewrite H6 by auto. tauto.
    - cbn [wpq]. assert (HI : In k L) by (destruct (in_dec Nat.eq_dec k L); auto; exfalso; apply E, H6; auto).
      unfold seen. rewrite dd_snoc, (proj2 (existsb_eqb k (dd L))) by (apply in_dd; auto). split; [auto|]. split; [auto|]. split; [auto|]. split; [auto|].
      split; [intros x Hx; apply in_app_iff in Hx as [Hx|[<-|[]]]; auto|]. intros x Hx. rewrite H6, in_app_iff by auto. simpl. split; [intros H [?|[<-|[]]]; auto|tauto].
  Qed.
  Lemma visits_ok {e} N C L s ii ks : seen N C L s -> N <= C -> (forall k, In k ks -> k < N) ->
    wpq e (forM ks (fun k s => idx_visit ii k s) s) (seen N C (L ++ ks)).
  Proof.
    intros HS HC HK. apply (forM_inv (fun pre s => seen N C (L ++ pre) s)).
    - rewrite app_nil_r. auto.
    - intros pre k post s' E HP. rewrite app_assoc. apply visit_ok; auto. apply HK. rewrite E. apply in_app_iff. right; left; auto.
  Qed.
  Lemma cores_ok {e} N C nl ch : length ch = C -> N <= C -> (forall k, In k nl -> k < N) ->
    wpq e (idx_cores nl (repeat 0 N, ch, 0)) (seen N C nl).
  Proof.
    intros HL HC HK. unfold idx_cores. apply (forM_inv (fun pre s => seen N C pre s)).
    - unfold seen. rewrite repeat_length. simpl. split; [auto|]. split; [auto|]. split; [auto|]. split; [auto|]. split; [tauto|].
      intros k Hk. rewrite nth_repeat_any. tauto.
    - intros pre k post s' E HP. apply visit_ok; auto. apply HK. rewrite E. apply in_app_iff. right; left; auto.
  Qed.
  Definition nbrs (B : ell) (nl : list nat) : list nat := flat_map (fun i => cols (erow B i)) nl.
  Lemma in_nbrs B nl k : In k (nbrs B nl) <-> exists i, In i nl /\ stored B i k = true.
  Proof. unfold nbrs. rewrite in_flat_map. split; intros (i & H1 & H2); exists i; split; auto; apply stored_iff; auto. Qed.
  Lemma wf_cols (B : ell) i k : wf B -> i < eN B -> In k (cols (erow B i)) -> k < eN B.
  Proof. intros [_ H] Hi Hk. destruct (H i Hi) as (_ & _ & H3). auto. Qed.
  Lemma halo_ok {e} (B : ell) C L s nl : wf B -> seen (eN B) C L s -> eN B <= C -> (forall k, In k nl -> k < eN B) ->
    wpq e (idx_halo B nl s) (seen (eN B) C (L ++ nbrs B nl)).
  Proof.
    intros HB HS HC HK. unfold idx_halo. apply (forM_inv (fun pre s => seen (eN B) C (L ++ nbrs B pre) s)).
    - simpl. rewrite app_nil_r. auto.
    - intros pre i post s' E HP. assert (Hi : i < eN B) by (apply HK; rewrite E; apply in_app_iff; right; left; auto).
      rewrite e_for_cols_eq by auto. unfold nbrs. rewrite flat_map_app. simpl. rewrite app_nil_r, app_assoc.
      apply visits_ok; auto. intros k Hk. apply (wf_cols B i); auto.
  Qed.
  Lemma jump_ok {e} (B : ell) C L s : wf B -> seen (eN B) C L s -> eN B <= C ->
    wpq e (idx_jump B s) (seen (eN B) C (L ++ nbrs B (dd L))).
  Proof.
    intros HB HS HC. destruct s as [[ix ch] ls]. unfold idx_jump. pose proof HS as (H1 & H2 & H3 & H4 & H5 & H6).
    assert (HB' : ls <= C) by (rewrite H3; etransitivity; [apply (dd_length L (eN B)); auto|auto]).
    eapply wp_mono.
    - apply (for_n_inv (fun j s => seen (eN B) C (L ++ nbrs B (firstn j (dd L))) s)).
      + simpl. rewrite app_nil_r. exact HS.
      + intros j [[ix' ch'] l'] Hj HP. pose proof HP as (P1 & P2 & P3 & P4 & P5 & P6).
        assert (HJ : nth j ch' 0 = nth j (dd L) 0).
        { destruct (dd_app_prefix L (nbrs B (firstn j (dd L)))) as (T & ET).
          rewrite <- (nth_firstn_lt ch' l' j 0), P4, ET; [rewrite app_nth1 by lia; auto|rewrite P3, ET, app_length; lia]. }
        assert (Hin : In (nth j (dd L) 0) (dd L)) by (apply nth_In; lia).
        rewrite (rd_ok ch' j 0) by lia. cbn [bind]. rewrite HJ. rewrite e_for_cols_eq by (auto; apply H5, in_dd; auto).
        rewrite (firstn_S_nth _ _ 0) by lia. unfold nbrs. rewrite flat_map_app. cbn [flat_map]. rewrite app_nil_r, app_assoc.
        apply visits_ok; auto. intros k Hk. apply (wf_cols B (nth j (dd L) 0)); auto. apply H5, in_dd; auto.
    - intros s' HP. rewrite H3, firstn_all in HP. exact HP.
  Qed.

  Theorem ell_sub_index_ok (A B : ell) nl ch dj : wf A -> wf B -> eN B = eN A -> (forall k, In k nl -> k < eN A) -> eN A <= length ch ->
    exists ch' l ll, ell_sub_index A B nl ch dj = Ok (ch', l, ll) /\ length ch' = length ch /\ ll <= l <= eN A /\
      firstn ll ch' = first_occ [] nl /\ NoDup (firstn l ch') /\ length (firstn l ch') = l /\
      forall k, In k (firstn l ch') <-> if dj then reach2 [B; A] B nl k else reach1 [B; A] nl k.
  Proof.
    intros HA HB EN HK HC. set (C := length ch) in *.
    assert (G : wp (ell_sub_index A B nl ch dj) (fun r => let '(ch', l, ll) := r in exists ix,
        seen (eN A) C (let L := (nl ++ nbrs B nl) ++ nbrs A nl in if dj then L ++ nbrs B (dd L) else L) (ix, ch', l) /\ ll = length (dd nl))).
    { unfold ell_sub_index. apply wp_bind. eapply wp_mono; [apply (cores_ok (eN A) C); auto|]. intros [[ix0 ch0] ll] HS0.
      assert (ELL : ll = length (dd nl)) by (destruct HS0 as (_ & _ & E & _); exact E).
      apply wp_bind. eapply wp_mono; [apply (halo_ok B C nl); rewrite ?EN; auto|]. intros s1 HS1. rewrite EN in HS1.
      apply wp_bind. eapply wp_mono; [apply (halo_ok A C); eauto|]. intros s2 HS2. apply wp_bind. destruct dj.
      - eapply wp_mono; [apply (jump_ok B C ((nl ++ nbrs B nl) ++ nbrs A nl)); rewrite ?EN; auto|]. intros [[ix ch'] l] HS3. rewrite EN in HS3. cbn [wpq]. eauto.
      - cbn [wpq]. destruct s2 as [[ix ch'] l]. cbn [wpq]. eauto. }
    destruct (proj1 (wp_ok _ _) G) as ([[ch' l] ll] & E & ix & HS & EL). exists ch', l, ll. split; [exact E|].
    destruct HS as (S1 & S2 & S3 & S4 & S5 & _). cbn zeta in *. set (L := (nl ++ nbrs B nl) ++ nbrs A nl) in *.
    split; [exact S2|].
    assert (HP : exists T, dd (if dj then L ++ nbrs B (dd L) else L) = dd nl ++ T).
    { unfold L. destruct dj; rewrite <- !app_assoc; apply dd_app_prefix. }
    destruct HP as (T & HP). assert (HN : l <= eN A) by (rewrite S3; apply dd_length; auto).
    split; [split; [rewrite S3, HP, app_length; lia|exact HN]|].
    assert (FL : firstn ll ch' = dd nl).
    { replace (firstn ll ch') with (firstn ll (firstn l ch')) by (rewrite firstn_firstn; f_equal; rewrite S3, HP, app_length; lia).
      rewrite S4, HP, EL, firstn_app, Nat.sub_diag, firstn_all. simpl. rewrite app_nil_r. auto. }
    split; [rewrite FL; apply first_occ_dd|]. split; [rewrite S4; apply NoDup_dd|]. split; [rewrite firstn_length; lia|].
    assert (R1 : forall k, In k L <-> reach1 [B; A] nl k).
    { intros k. unfold L, reach1. rewrite !in_app_iff, !in_nbrs. split.
      - intros [[H|(i & H1 & H2)]|(i & H1 & H2)]; [auto| |]; right; [exists B, i|exists A, i]; simpl; auto.
      - intros [H|(G0 & i & [<-|[<-|[]]] & H1 & H2)]; eauto. }
    intros k. rewrite S4, in_dd. destruct dj; [|apply R1]. unfold reach2. rewrite in_app_iff, in_nbrs, R1.
    split; (intros [H|(i & H1 & H2)]; [auto|right; exists i; split; auto]); [apply R1, in_dd; auto|apply in_dd, R1; auto].
  Qed.

  Theorem ell_sub_index_graph_ok (B : ell) nl ch dj : wf B -> (forall k, In k nl -> k < eN B) -> eN B <= length ch ->
    exists ch' l ll, ell_sub_index_graph B nl ch dj = Ok (ch', l, ll) /\ length ch' = length ch /\ ll <= l <= eN B /\
      firstn ll ch' = first_occ [] nl /\ NoDup (firstn l ch') /\ length (firstn l ch') = l /\
      forall k, In k (firstn l ch') <-> if dj then reach2 [B] B nl k else reach1 [B] nl k.
  Proof.
    intros HB HK HC. set (C := length ch) in *.
    assert (G : wp (ell_sub_index_graph B nl ch dj) (fun r => let '(ch', l, ll) := r in exists ix,
        seen (eN B) C (let L := nl ++ nbrs B nl in if dj then L ++ nbrs B (dd L) else L) (ix, ch', l) /\ ll = length (dd nl))).
    { unfold ell_sub_index_graph. apply wp_bind. eapply wp_mono; [apply (cores_ok (eN B) C); auto|]. intros [[ix0 ch0] ll] HS0.
      assert (ELL : ll = length (dd nl)) by (destruct HS0 as (_ & _ & E & _); exact E).
      apply wp_bind. eapply wp_mono; [apply (halo_ok B C nl); auto|]. intros s1 HS1. apply wp_bind. destruct dj.
      - eapply wp_mono; [apply (jump_ok B C (nl ++ nbrs B nl)); auto|]. intros [[ix ch'] l] HS3. cbn [wpq]. eauto.
      - cbn [wpq]. destruct s1 as [[ix ch'] l]. cbn [wpq]. eauto. }
    destruct (proj1 (wp_ok _ _) G) as ([[ch' l] ll] & E & ix & HS & EL). exists ch', l, ll. split; [exact E|].
    destruct HS as (S1 & S2 & S3 & S4 & S5 & _). cbn zeta in *. set (L := nl ++ nbrs B nl) in *.
    split; [exact S2|].
    assert (HP : exists T, dd (if dj then L ++ nbrs B (dd L) else L) = dd nl ++ T).
    { unfold L. destruct dj; rewrite <- ?app_assoc; apply dd_app_prefix. }
    destruct HP as (T & HP). assert (HN : l <= eN B) by (rewrite S3; apply dd_length; auto).
    split; [split; [rewrite S3, HP, app_length; lia|exact HN]|].
    assert (FL : firstn ll ch' = dd nl).
    { replace (firstn ll ch') with (firstn ll (firstn l ch')) by (rewrite firstn_firstn; f_equal; rewrite S3, HP, app_length; lia).
      rewrite S4, HP, EL, firstn_app, Nat.sub_diag, firstn_all. simpl. rewrite app_nil_r. auto. }
    split; [rewrite FL; apply first_occ_dd|]. split; [rewrite S4; apply NoDup_dd|]. split; [rewrite firstn_length; lia|].
    assert (R1 : forall k, In k L <-> reach1 [B] nl k).
    { intros k. unfold L, reach1. rewrite !in_app_iff, !in_nbrs. split.
      - intros [H|(i & H1 & H2)]; [auto|]; right; exists B, i; simpl; auto.
      - intros [H|(G0 & i & [<-|[]] & H1 & H2)]; eauto. }
    intros k. rewrite S4, in_dd. destruct dj; [|apply R1]. unfold reach2. rewrite in_app_iff, in_nbrs, R1.
    split; (intros [H|(i & H1 & H2)]; [auto|right; exists i; split; auto]); [apply R1, in_dd; auto|apply in_dd, R1; auto].
  Qed.
End SubIndex.
