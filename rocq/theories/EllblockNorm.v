(** Block matrices: sums of squares of linear combinations and of products. *)
From Verif Require Import Base BaseFacts Spec SpecFacts EllpackModel EllpackSpec EllpackExact EllblockModel EllblockSpec EllblockFacts EllblockHeap EllblockRead EllblockBuild EllblockMake EllblockSet EllblockCopy EllblockWork.

Section Norm.
  Context {F : scalar}.
  Local Notation eb := (eb F).
  Implicit Types A B : eb.
  Add Ring Fnorm : (k_ring F).

  Lemma sum_over (L : list nat) n (f : nat -> F) : NoDup L -> (forall c, In c L -> c < n) -> (forall c, c < n -> ~ In c L -> f c = k0) ->
    bigsum (length L) (fun p => f (nth p L 0)) = bigsum n f.
  Proof.
    intros HN HL HZ. rewrite (bigsum_ext n _ (fun c => bigsum (length L) (fun p => if nth p L 0 =? c then f c else k0))).
    - rewrite bigsum_swap. apply bigsum_ext. intros p Hp. rewrite (bigsum_single _ (nth p L 0)).
      + rewrite Nat.eqb_refl. reflexivity.
      + apply HL, nth_In; auto.
      + intros c _ Hne. destruct (Nat.eqb_spec (nth p L 0) c); auto. congruence.
    - intros c Hc. destruct (in_dec Nat.eq_dec c L) as [Hin|Hn].
      + destruct (In_nth _ _ 0 Hin) as (p & Hp & E). rewrite (bigsum_single _ p); auto.
        * rewrite E, Nat.eqb_refl. reflexivity.
        * intros q Hq Hne. destruct (Nat.eqb_spec (nth q L 0) c) as [E'|]; auto. destruct Hne. apply (proj1 (NoDup_nth L 0) HN q p); auto; congruence.
      + rewrite bigsum_zero; [auto|]. intros p Hp. destruct (Nat.eqb_spec (nth p L 0) c) as [<-|]; auto.
  Qed.

  (** what the work arrays hold: columns met in A, columns met, contents of the
      blocks of the current row *)
  Record nst (NB m2 : nat) (sz : nat -> nat) (ix jj : list nat) (y : list (list F)) (LA L : list nat) (v : nat -> nat -> F) : Prop := mkNst {
    ns_ix : length ix = NB; ns_jj : length jj = NB; ns_y : length y = NB;
    ns_len : forall c, c < NB -> length (nth c y []) = m2;
    ns_nd : NoDup L; ns_lt : forall c, In c L -> c < NB;
    ns_pos : forall p, p < length L -> nth p jj 0 = nth p L 0;
    ns_mark : forall c, c < NB -> (nth c ix 0 = 0 <-> ~ In c LA);
    ns_val : forall c k, c < NB -> k < sz c -> nth k (nth c y []) k0 = v c k;
    ns_clr : forall c k, c < NB -> ~ In c L -> k < m2 -> nth k (nth c y []) k0 = k0 }.

  Lemma nst_room NB m2 sz ix jj y LA L v c : nst NB m2 sz ix jj y LA L v -> c < NB -> ~ In c L -> length L < NB.
  Proof.
    intros H Hc Hn. rewrite <- (seq_length NB 0). change (length (c :: L) <= length (seq 0 NB)). apply NoDup_incl_length; [constructor; auto; apply H|].
    intros x [<-|Hx]; apply in_seq; [lia|]. pose proof (ns_lt _ _ _ _ _ _ _ _ _ H x Hx). lia.
  Qed.
  Lemma nst_add NB m2 sz ix jj y LA L v c : nst NB m2 sz ix jj y LA L v -> c < NB -> ~ In c L ->
    nst NB m2 sz ix (set_nth jj (length L) c) y LA (L ++ [c]) v.
  Proof.
    intros H Hc Hn. pose proof (nst_room _ _ _ _ _ _ _ _ _ c H Hc Hn) as Hr. destruct H. constructor; rewrite ?length_set_nth; auto.
    - apply NoDup_app_intro; auto. { constructor; [intros []|constructor]. } intros x Hx [<-|[]]. auto.
    - intros x Hx. apply in_app_or in Hx as [|[<-|[]]]; auto.
    - intros p Hp. rewrite app_length in Hp. cbn [length] in Hp. rewrite nth_set_nth. destruct (Nat.eqb_spec p (length L)) as [->|Hne]; cbn [andb].
      + destruct (Nat.ltb_spec (length L) (length jj)); [|lia]. rewrite app_nth2, Nat.sub_diag by lia. reflexivity.
      + rewrite app_nth1 by lia. apply ns_pos0. lia.
    - intros x k Hx Hnx Hk. apply ns_clr0; auto. intros Hx'. apply Hnx, in_or_app. auto.
  Qed.
  Lemma nst_mark NB m2 sz ix jj y LA L v c : nst NB m2 sz ix jj y LA L v -> c < NB ->
    nst NB m2 sz (set_nth ix c 1) jj y (LA ++ [c]) L v.
  Proof.
    intros [] Hc. constructor; rewrite ?length_set_nth; auto.
    intros x Hx. rewrite nth_set_nth. destruct (Nat.eqb_spec x c) as [->|Hne]; cbn [andb].
    - destruct (Nat.ltb_spec c (length ix)); [|lia]. split; [discriminate|]. intros H'. exfalso. apply H', in_or_app. right; left; auto.
    - rewrite ns_mark0 by auto. rewrite in_app_iff. cbn [In]. split; [intros H [|[|[]]]; auto|auto].
  Qed.
  Lemma nst_upd NB m2 sz ix jj y LA L v c x v' : nst NB m2 sz ix jj y LA L v -> In c L -> length x = m2 ->
    (forall k, k < sz c -> nth k x k0 = v' k) ->
    nst NB m2 sz ix jj (set_nth y c x) LA L (fun c' k => if c' =? c then v' k else v c' k).
  Proof.
    intros [] Hc Hx Hv. assert (Hlt : c < NB) by auto. constructor; rewrite ?length_set_nth; auto.
    - intros c' Hc'. rewrite nth_set_nth. destruct ((c' =? c) && _); auto.
    - intros c' k Hc' Hk. rewrite nth_set_nth. destruct (Nat.eqb_spec c' c) as [->|Hne]; cbn [andb]; auto.
      destruct (Nat.ltb_spec c (length y)); [auto|lia].
    - intros c' k Hc' Hn Hk. rewrite nth_set_nth. destruct (Nat.eqb_spec c' c) as [->|Hne]; cbn [andb]; auto. tauto.
  Qed.
  Lemma nst_ext NB m2 sz ix jj y LA L v v' : nst NB m2 sz ix jj y LA L v -> (forall c k, c < NB -> k < sz c -> v' c k = v c k) -> nst NB m2 sz ix jj y LA L v'.
  Proof. intros [] E. constructor; auto. intros c k Hc Hk. rewrite E; auto. Qed.

  (** ... while they are summed up and cleared *)
  Record ngat (NB m2 : nat) (sz : nat -> nat) (ix jj : list nat) (y : list (list F)) (L : list nat) (v : nat -> nat -> F) (p : nat) : Prop := mkNgat {
    ng_ix : length ix = NB; ng_jj : length jj = NB; ng_y : length y = NB;
    ng_len : forall c, c < NB -> length (nth c y []) = m2;
    ng_nd : NoDup L; ng_lt : forall c, In c L -> c < NB;
    ng_pos : forall q, p <= q < length L -> nth q jj 0 = nth q L 0;
    ng_mark : forall c, c < NB -> ~ In c (skipn p L) -> nth c ix 0 = 0;
    ng_val : forall c k, In c (skipn p L) -> k < sz c -> nth k (nth c y []) k0 = v c k;
    ng_clr : forall c k, c < NB -> ~ In c (skipn p L) -> k < m2 -> nth k (nth c y []) k0 = k0 }.
  Lemma ngat_0 NB m2 sz ix jj y LA L v : nst NB m2 sz ix jj y LA L v -> (forall c, In c LA -> In c L) -> ngat NB m2 sz ix jj y L v 0.
  Proof. intros [] HL. constructor; auto; cbn [skipn]; [intros q Hq; apply ns_pos0; lia|intros c Hc Hn; apply ns_mark0; auto]. Qed.
  Lemma ngat_end NB m2 sz ix jj y L v sz' : ngat NB m2 sz ix jj y L v (length L) -> (forall c, c < NB -> sz' c <= m2) -> nst NB m2 sz' ix jj y [] [] (fun _ _ => k0).
  Proof.
    intros [] Hs. rewrite skipn_all in *. constructor; auto; try (cbn; intros; lia || tauto).
    - constructor.
    - intros c Hc. split; [intros _ []|]. intros _. apply ng_mark0; auto.
    - intros c k Hc Hk. apply ng_clr0; auto. specialize (Hs c Hc). lia.
  Qed.
  Lemma ngat_next NB m2 sz ix jj y L v p x : ngat NB m2 sz ix jj y L v p -> p < length L -> length x = m2 -> (forall k, k < m2 -> nth k x k0 = k0) ->
    ngat NB m2 sz (set_nth ix (nth p L 0) 0) (set_nth jj p 0) (set_nth y (nth p L 0) x) L v (S p).
  Proof.
    intros [] Hp Hx Hz. assert (Hc : nth p L 0 < NB) by (apply ng_lt0, nth_In; auto). constructor; rewrite ?length_set_nth; auto.
    - intros c Hc'. rewrite nth_set_nth. destruct ((c =? _) && _); auto.
    - intros q Hq. rewrite nth_set_nth. destruct (Nat.eqb_spec q p); [lia|]. cbn [andb]. apply ng_pos0. lia.
    - intros c Hc' Hn. rewrite skipn_S_in in Hn by auto. rewrite nth_set_nth. destruct (Nat.eqb_spec c (nth p L 0)) as [->|Hne]; cbn [andb].
      + destruct (Nat.ltb_spec (nth p L 0) (length ix)); [auto|lia].
      + apply ng_mark0; auto.
    - intros c k Hin Hk. rewrite skipn_S_in in Hin by auto. destruct Hin as [Hin Hne]. rewrite nth_set_nth.
      destruct (Nat.eqb_spec c (nth p L 0)) as [E|_]; [tauto|]. cbn [andb]. auto.
    - intros c k Hc' Hn Hk. rewrite skipn_S_in in Hn by auto. rewrite nth_set_nth. destruct (Nat.eqb_spec c (nth p L 0)) as [->|Hne]; cbn [andb].
      + destruct (Nat.ltb_spec (nth p L 0) (length y)); [auto|lia].
      + apply ng_clr0; auto.
  Qed.

  (** sum of squares over a block *)
  Definition blk_sq (bs : list nat) (X : mat F) (ib jb : nat) : F :=
    bigsum (bsz bs ib) (fun ii => bigsum (bsz bs jb) (fun jj => kmul (X (boff bs ib + ii) (boff bs jb + jj)) (X (boff bs ib + ii) (boff bs jb + jj)))).
  Definition kept_sum (keepn : F -> bool) (n : nat) (f : nat -> nat -> F) : F :=
    bigsum n (fun ib => bigsum n (fun jb => if keepn (f ib jb) then f ib jb else k0)).

  Theorem eb_sum_squares2_ok (keepn : F -> bool) (alpha beta : F) A B : ebwf A -> ebwf B -> eb_dims A B -> bMB A = bMB B ->
    eb_sum_squares2 keepn alpha beta A B = Ok (kept_sum keepn (bNB A) (blk_sq (bbs A) (madd (mscale alpha (ebmx A)) (mscale beta (ebmx B))))).
  Proof.
    intros WA WB (D1 & D2 & D3) DM. pose proof WA as (SA & _ & RA). pose proof WB as (SB & _ & RB).
    set (NB := bNB A) in *. set (bs := bbs A) in *. assert (EB : bbs B = bs) by (symmetry; exact D3). set (X := madd (mscale alpha (ebmx A)) (mscale beta (ebmx B))).
    set (el := fun ib jb k => kadd (kmul alpha (bel A ib jb k)) (kmul beta (bel B ib jb k))).
    set (q := fun ib jb => bigsum (bsz bs ib * bsz bs jb) (fun k => kmul (el ib jb k) (el ib jb k))).
    assert (Hq : forall ib jb, ib < NB -> jb < NB -> blk_sq bs X ib jb = q ib jb).
    { intros ib jb Hi Hj. unfold blk_sq, q. rewrite <- bigsum_cells. apply bigsum_ext. intros k Hk.
      assert (E : X (boff bs ib + k / bsz bs jb) (boff bs jb + k mod bsz bs jb) = el ib jb k).
      { change (X (boff bs ib + k / bsz bs jb) (boff bs jb + k mod bsz bs jb)) with (kadd (kmul alpha (xb bs (ebmx A) ib jb k)) (kmul beta (xb bs (ebmx B) ib jb k))).
        unfold el. f_equal; f_equal; [apply ebmx_xb; auto|]. rewrite <- EB. apply ebmx_xb; auto; try congruence. }
      rewrite E. reflexivity. }
    assert (HK : forall keepn', kept_sum keepn' NB (blk_sq bs X) = kept_sum keepn' NB q).
    { intros kn. unfold kept_sum. apply bigsum_ext. intros ib Hi. apply bigsum_ext. intros jb Hj. rewrite Hq by auto. reflexivity. }
    rewrite HK. clear HK Hq X. set (kq := fun ib jb => if keepn (q ib jb) then q ib jb else k0).
    match goal with |- ?r = _ => enough (G : wp r (fun s => s = kept_sum keepn NB q)) by (apply wp_ok in G as (s & -> & ->); reflexivity) end.
    unfold eb_sum_squares2. fold NB bs. destruct (maxbsize_ok NB bs) as (m & -> & Hm & _); [unfold NB, bs; rewrite (sh_bs A SA); auto|]. cbn [bind].
    assert (Hm2 : forall ib jb, ib < NB -> jb < NB -> bsz bs ib * bsz bs jb <= m * m). { intros ib jb Hi Hj. apply Nat.mul_le_mono; apply Hm; auto. }
    apply wp_bind.
    eapply wp_mono with (P := fun st => let '(s, ix, jj, y) := st in s = kept_sum keepn NB q).
    2:{ intros [[[s ix] jj] y] E. cbn. exact E. }
    eapply wp_mono with (P := fun st => let '(s, ix, jj, y) := st in nst NB (m * m) (fun _ => 0) ix jj y [] [] (fun _ _ => k0) /\ s = bigsum NB (fun ib => bigsum NB (kq ib))).
    2:{ intros [[[s ix] jj] y] [_ E]. exact E. }
    apply (for_n_inv (fun n st => let '(s, ix, jj, y) := st in nst NB (m * m) (fun _ => 0) ix jj y [] [] (fun _ _ => k0) /\ s = bigsum n (fun ib => bigsum NB (kq ib)))).
    { split; [|reflexivity]. constructor; rewrite ?repeat_length; auto; try (cbn; intros; lia || tauto).
      - intros c Hc. rewrite (nth_indep _ [] (repeat k0 (m * m))) by (rewrite repeat_length; auto). rewrite nth_repeat. apply repeat_length.
      - constructor.
      - intros c Hc. rewrite nth_repeat. split; auto.
      - intros c k Hc _ Hk. rewrite (nth_indep _ [] (repeat k0 (m * m))) by (rewrite repeat_length; auto). rewrite nth_repeat. apply nth_repeat. }
    intros ib [[[s ix] jj] y] Hib [HN ->].
    set (sz := fun c => bsz bs ib * bsz bs c).
    assert (HN0 : nst NB (m * m) sz ix jj y [] [] (fun _ _ => k0)).
    { destruct HN. constructor; auto. intros c k Hc Hk. apply ns_clr0; auto. unfold sz in Hk. specialize (Hm2 ib c Hib Hc). lia. }
    clear HN.
    assert (Hbs : forall c, c < NB -> rd bs c = Ok (bsz bs c)). { intros c Hc. apply rd_ok. unfold bs. rewrite (sh_bs A SA). auto. }
    apply wp_bind. rewrite Hbs by auto. cbn [wpq].
    apply wp_bind. rewrite b_nnz_ok by auto. cbn [wpq].
    (* blocks of A *)
    apply wp_bind.
    eapply wp_mono with (P := fun st => let '(ix, jj, y, lb) := st in nst NB (m * m) sz ix jj y (bcols A ib) (bcols A ib) (fun c k => kmul alpha (bel A ib c k)) /\ lb = bnz A ib).
    { eapply wp_mono. { apply (for_n_inv (fun n st => let '(ix, jj, y, lb) := st in lb = n /\
         nst NB (m * m) sz ix jj y (map (scol A ib) (seq 0 n)) (map (scol A ib) (seq 0 n))
           (fun c k => if existsb (Nat.eqb c) (map (scol A ib) (seq 0 n)) then kmul alpha (bel A ib c k) else k0))).
        - split; auto.
        - intros jp [[[ix1 jj1] y1] lb] Hjp [-> H1]. destruct (ebwf_slot A ib jp) as (Pm & Pc & Px & Pl); auto. fold NB in Pc. fold bs in Pl.
          change (ROWMAJOR ib jp NB (bMB A)) with (b_at A ib jp). apply wp_bind. rewrite rd_idx_ok by auto. cbn [wpq]. set (c := scol A ib jp) in *.
          apply wp_bind. rewrite Hbs by auto. cbn [wpq].
          assert (Hn : ~ In c (map (scol A ib) (seq 0 jp))).
          { intros Hin. apply in_map_iff in Hin as (r & Er & Hr). apply in_seq in Hr. assert (r = jp); [|lia]. apply (scol_inj A ib); auto; lia. }
          assert (Hlen : length (map (scol A ib) (seq 0 jp)) = jp) by (rewrite map_length, seq_length; auto).
          pose proof (nst_room _ _ _ _ _ _ _ _ _ c H1 Pc Hn) as Hroom. rewrite Hlen in Hroom.
          pose proof (nst_mark _ _ _ _ _ _ _ _ _ c (nst_add _ _ _ _ _ _ _ _ _ c H1 Pc Hn) Pc) as H2. rewrite Hlen in H2.
          apply wp_bind. rewrite wr_ok by (rewrite (ns_ix _ _ _ _ _ _ _ _ _ H1); auto). cbn [wpq].
          apply wp_bind. rewrite wr_ok by (rewrite (ns_jj _ _ _ _ _ _ _ _ _ H1); auto). cbn [wpq].
          apply wp_bind. rewrite (b_blk_ok A ib jp (sblk A ib jp)) by auto. cbn [wpq].
          apply wp_bind. rewrite (rd_ok _ _ []) by (rewrite (ns_y _ _ _ _ _ _ _ _ _ H1); auto). cbn [wpq].
          apply wp_bind. pose proof (ns_len _ _ _ _ _ _ _ _ _ H1 c Pc) as Ly.
          eapply wp_mono. { apply (blk_map_ok (bsz bs ib * bsz bs c) _ (fun k => kmul alpha (nth k (sblk A ib jp) k0))).
            - rewrite Ly. apply Hm2; auto.
            - intros k Hk. rewrite (rd_ok _ _ k0) by lia. cbn [bind]. rewrite (ns_clr _ _ _ _ _ _ _ _ _ H1) by (auto; specialize (Hm2 ib c Hib Pc); lia). f_equal. ring. }
          intros x (Lx & Vx & _). apply wp_bind. rewrite wr_ok by (rewrite (ns_y _ _ _ _ _ _ _ _ _ H1); auto). cbn [wpq]. split; auto.
          rewrite seq_S, map_app. cbn [map plus]. fold c.
          eapply nst_ext. { eapply (nst_upd _ _ _ _ _ _ _ _ _ c x (fun k => kmul alpha (nth k (sblk A ib jp) k0)) H2); [apply in_or_app; right; left; auto|congruence|exact Vx]. }
          intros c' k Hc' Hk. cbn beta. rewrite existsb_app. cbn [existsb]. destruct (Nat.eqb_spec c' c) as [->|Hne].
          + rewrite Bool.orb_true_r. rewrite (bel_hit A ib c jp) by auto. reflexivity.
          + rewrite Bool.orb_false_r. reflexivity. }
      intros [[[ix1 jj1] y1] lb] [-> H1]. split; auto. eapply nst_ext; [exact H1|]. intros c k Hc Hk. cbn beta.
      destruct (existsb (Nat.eqb c) (map (scol A ib) (seq 0 (bnz A ib)))) eqn:E; auto. rewrite bel_miss; [ring|]. intros jp Hjp Ec.
      assert (existsb (Nat.eqb c) (map (scol A ib) (seq 0 (bnz A ib))) = true); [|congruence]. apply existsb_exists. exists c. split; [|apply Nat.eqb_refl].
      apply in_map_iff. exists jp. split; auto. apply in_seq. lia. }
    intros [[[ix1 jj1] y1] lb] [H1 ->]. cbn [wpq].
    (* blocks of B *)
    apply wp_bind. rewrite b_nnz_ok by (auto; unfold NB in *; congruence). cbn [wpq]. apply wp_bind.
    eapply wp_mono with (P := fun st => let '(ix, jj, y, lb) := st in exists L, nst NB (m * m) sz ix jj y (bcols A ib) L (el ib) /\ lb = length L /\
       (forall c, In c L <-> In c (bcols A ib) \/ In c (bcols B ib))).
    { eapply wp_mono. { apply (for_n_inv (fun n st => let '(ix, jj, y, lb) := st in exists L, nst NB (m * m) sz ix jj y (bcols A ib) L
           (fun c k => if existsb (Nat.eqb c) (map (scol B ib) (seq 0 n)) then el ib c k else kmul alpha (bel A ib c k)) /\ lb = length L /\
           (forall c, In c L <-> In c (bcols A ib) \/ In c (map (scol B ib) (seq 0 n))))).
        - exists (bcols A ib). split; [exact H1|]. split; [unfold bcols; rewrite map_length, seq_length; auto|]. intros c. cbn. tauto.
        - intros jp [[[ix2 jj2] y2] lb] Hjp (L & H2 & -> & HL). assert (Hib' : ib < bNB B) by (unfold NB in *; congruence).
          destruct (ebwf_slot B ib jp) as (Pm & Pc & Px & Pl); auto.
          assert (EL : bsz bs ib * bsz bs (scol B ib jp) <= length (sblk B ib jp)) by (rewrite <- EB; exact Pl). clear Pl. rewrite <- D2 in Pc. fold NB in Pc.
          replace (ROWMAJOR ib jp NB (bMB A)) with (b_at B ib jp) by (unfold b_at, ROWMAJOR; congruence).
          apply wp_bind. rewrite rd_idx_ok by auto. cbn [wpq]. set (c := scol B ib jp) in *.
          apply wp_bind. rewrite Hbs by auto. cbn [wpq]. apply wp_bind. rewrite (rd_ok _ _ 0) by (rewrite (ns_ix _ _ _ _ _ _ _ _ _ H2); auto). cbn [wpq].
          assert (Hn : ~ In c (map (scol B ib) (seq 0 jp))).
          { intros Hin. apply in_map_iff in Hin as (r & Er & Hr). apply in_seq in Hr. assert (r = jp); [|lia]. apply (scol_inj B ib); auto; lia. }
          pose proof (ns_mark _ _ _ _ _ _ _ _ _ H2 c Pc) as Hmk.
          apply wp_bind.
          eapply wp_mono with (P := fun r => exists L', nst NB (m * m) sz ix2 (fst r) y2 (bcols A ib) L'
             (fun c k => if existsb (Nat.eqb c) (map (scol B ib) (seq 0 jp)) then el ib c k else kmul alpha (bel A ib c k)) /\ snd r = length L' /\ In c L' /\
             (forall c', In c' L' <-> In c' (bcols A ib) \/ In c' (map (scol B ib) (seq 0 jp)) \/ c' = c)).
          { destruct (Nat.eqb_spec (nth c ix2 0) 0) as [E0|E0].
            - apply Hmk in E0. assert (HnL : ~ In c L) by (rewrite HL; tauto). pose proof (nst_room _ _ _ _ _ _ _ _ _ c H2 Pc HnL) as Hroom.
              apply wp_bind. rewrite wr_ok by (rewrite (ns_jj _ _ _ _ _ _ _ _ _ H2); auto). cbn [wpq fst snd].
              exists (L ++ [c]). split; [apply nst_add; auto|]. split; [rewrite app_length; cbn; lia|]. split; [apply in_or_app; right; left; auto|].
              intros c'. rewrite in_app_iff, HL. cbn. intuition.
            - assert (Hin : In c (bcols A ib)). { destruct (in_dec Nat.eq_dec c (bcols A ib)); auto. tauto. }
              cbn [wpq fst snd]. exists L. split; auto. split; auto. split; [apply HL; auto|]. intros c'. rewrite HL. intuition. subst; auto. }
          intros [jj3 lb3] (L' & H3 & E3 & Hc & HL'). cbn [wpq fst snd] in *. subst lb3.
          apply wp_bind. rewrite (b_blk_ok B ib jp (sblk B ib jp)) by auto. cbn [wpq].
          apply wp_bind. rewrite (rd_ok _ _ []) by (rewrite (ns_y _ _ _ _ _ _ _ _ _ H2); auto). cbn [wpq].
          apply wp_bind. pose proof (ns_len _ _ _ _ _ _ _ _ _ H2 c Pc) as Ly.
          eapply wp_mono. { apply (blk_map_ok (bsz bs ib * bsz bs c) _ (fun k => el ib c k)).
            - rewrite Ly. apply Hm2; auto.
            - intros k Hk. rewrite (rd_ok _ _ k0) by lia. cbn [bind]. rewrite (ns_val _ _ _ _ _ _ _ _ _ H2) by auto.
              destruct (existsb (Nat.eqb c) (map (scol B ib) (seq 0 jp))) eqn:E. { apply existsb_exists in E as (z & Hz & Ez). apply Nat.eqb_eq in Ez. subst z. tauto. }
              unfold el. rewrite (bel_hit B ib c jp) by auto. reflexivity. }
          intros x (Lx & Vx & _). apply wp_bind. rewrite wr_ok by (rewrite (ns_y _ _ _ _ _ _ _ _ _ H2); auto). cbn [wpq]. exists L'. split.
          + eapply nst_ext. { eapply (nst_upd _ _ _ _ _ _ _ _ _ c x (fun k => el ib c k) H3); [auto|congruence|exact Vx]. }
            intros c' k Hc' Hk. cbn beta. rewrite seq_S, map_app, existsb_app. cbn [map existsb plus]. fold c. destruct (Nat.eqb_spec c' c) as [->|Hne].
            * rewrite Bool.orb_true_r. reflexivity.
            * rewrite Bool.orb_false_r. reflexivity.
          + split; auto. intros c'. rewrite HL', seq_S, map_app, in_app_iff. cbn [map In plus]. fold c. intuition. }
      intros [[[ix2 jj2] y2] lb] (L & H2 & -> & HL). exists L. split; auto. eapply nst_ext; [exact H2|]. intros c k Hc Hk. cbn beta.
      destruct (existsb (Nat.eqb c) (map (scol B ib) (seq 0 (bnz B ib)))) eqn:E; auto. unfold el. rewrite (bel_miss B); [ring|]. intros jp Hjp Ec.
      assert (existsb (Nat.eqb c) (map (scol B ib) (seq 0 (bnz B ib))) = true); [|congruence]. apply existsb_exists. exists c. split; [|apply Nat.eqb_refl].
      apply in_map_iff. exists jp. split; auto. apply in_seq. lia. }
    intros [[[ix2 jj2] y2] lb] (L & H2 & -> & HL). cbn [wpq].
    (* sums *)
    set (s0 := bigsum ib _).
    eapply wp_mono. { apply (for_n_inv (fun n st => let '(s, ix, jj, y) := st in ngat NB (m * m) sz ix jj y L (el ib) n /\ s = kadd s0 (bigsum n (fun p => kq ib (nth p L 0))))).
      - split; [apply (ngat_0 _ _ _ _ _ _ (bcols A ib)); auto; intros c Hc; apply HL; auto|]. cbn. ring.
      - intros p [[[s ix3] jj3] y3] Hp [H3 ->]. assert (Hc : nth p L 0 < NB) by (apply (ns_lt _ _ _ _ _ _ _ _ _ H2), nth_In; auto).
        apply wp_bind. rewrite (rd_ok _ _ 0) by (rewrite (ng_jj _ _ _ _ _ _ _ _ _ H3); pose proof (NoDup_incl_length (ng_nd _ _ _ _ _ _ _ _ _ H3) (l' := seq 0 NB) ltac:(intros z Hz; apply in_seq; pose proof (ng_lt _ _ _ _ _ _ _ _ _ H3 z Hz); lia)) as HLN; rewrite seq_length in HLN; lia). cbn [wpq].
        rewrite (ng_pos _ _ _ _ _ _ _ _ _ H3) by lia. set (c := nth p L 0) in *.
        apply wp_bind. rewrite Hbs by auto. cbn [wpq]. apply wp_bind. rewrite (rd_ok _ _ []) by (rewrite (ng_y _ _ _ _ _ _ _ _ _ H3); auto). cbn [wpq].
        pose proof (ng_len _ _ _ _ _ _ _ _ _ H3 c Hc) as Ly. apply wp_bind. unfold blk_sum. rewrite (sum_loop _ _ (fun k => kmul (el ib c k) (el ib c k))).
        2:{ intros k s' Hk. rewrite (rd_ok _ _ k0) by (rewrite Ly; specialize (Hm2 ib c Hib Hc); lia). cbn [bind]. rewrite (ng_val _ _ _ _ _ _ _ _ _ H3) by (auto; apply in_skipn_nth; auto). reflexivity. }
        cbn [wpq]. apply wp_bind. rewrite wr_ok by (rewrite (ng_ix _ _ _ _ _ _ _ _ _ H3); auto). cbn [wpq].
        apply wp_bind. eapply wp_mono; [apply (blk_map_ok (m * m) _ (fun _ => k0)); [lia|auto]|]. intros x (Lx & Vx & _).
        apply wp_bind. rewrite wr_ok by (rewrite (ng_y _ _ _ _ _ _ _ _ _ H3); auto). cbn [wpq].
        apply wp_bind. rewrite wr_ok. 2:{ rewrite (ng_jj _ _ _ _ _ _ _ _ _ H3). pose proof (NoDup_incl_length (ng_nd _ _ _ _ _ _ _ _ _ H3) (l' := seq 0 NB) ltac:(intros z Hz; apply in_seq; pose proof (ng_lt _ _ _ _ _ _ _ _ _ H3 z Hz); lia)) as HLN. rewrite seq_length in HLN. lia. }
        cbn [wpq]. split; [apply ngat_next; auto; congruence|].
        cbn [bigsum]. fold c. replace (kadd k0 (bigsum (bsz bs ib * bsz bs c) (fun k => kmul (el ib c k) (el ib c k)))) with (q ib c) by (unfold q; ring).
        change (kq ib c) with (if keepn (q ib c) then q ib c else k0). destruct (keepn (q ib c)); ring. }
    intros [[[s ix3] jj3] y3] [H3 ->]. split; [apply (ngat_end _ _ _ _ _ _ _ _ _ H3); intros; lia|].
    cbn [bigsum]. fold s0. f_equal. apply sum_over; [apply H2|apply H2|]. intros c Hc Hn. unfold kq. assert (Eq : q ib c = k0).
    { unfold q. apply bigsum_zero. intros k Hk. assert (E : el ib c k = k0); [|rewrite E; ring]. unfold el. rewrite HL in Hn. rewrite !bel_miss; [ring|..].
      - intros jp Hjp Ec. apply Hn. right. unfold bcols. apply in_map_iff. exists jp. split; auto. apply in_seq. lia.
      - intros jp Hjp Ec. apply Hn. left. unfold bcols. apply in_map_iff. exists jp. split; auto. apply in_seq. lia. }
    rewrite Eq. destruct (keepn k0); auto.
  Qed.

  (** without a threshold this is the squared Frobenius norm *)
  Lemma kept_sum_all (keepn : F -> bool) A (X : mat F) : eb_shape A -> keeps_nonzero keepn ->
    kept_sum keepn (bNB A) (blk_sq (bbs A) X) = msum (bN A) (mhad X X).
  Proof.
    intros HS HK. unfold msum. rewrite bigsum_mx by auto. unfold kept_sum. apply bigsum_ext. intros ib Hi. apply bigsum_ext. intros jb Hj.
    fold (blk_sq (bbs A) X ib jb).
    destruct (keepn (blk_sq (bbs A) X ib jb)) eqn:E; [reflexivity|]. symmetry. apply HK. exact E.
  Qed.
  Theorem eb_sum_squares2_exact (keepn : F -> bool) (alpha beta : F) A B : ebwf A -> ebwf B -> eb_dims A B -> bMB A = bMB B -> keeps_nonzero keepn ->
    eb_sum_squares2 keepn alpha beta A B = Ok (msum (bN A) (mhad (madd (mscale alpha (ebmx A)) (mscale beta (ebmx B))) (madd (mscale alpha (ebmx A)) (mscale beta (ebmx B))))).
  Proof. intros WA WB D DM HK. rewrite eb_sum_squares2_ok by auto. f_equal. apply kept_sum_all; auto. apply WA. Qed.
  (** ** sum_AB *)

  Definition blk_prod (bs : list nat) (abs : F -> F) (X : mat F) (ib jb : nat) : F :=
    bigsum (bsz bs ib) (fun ii => bigsum (bsz bs jb) (fun jj => abs (X (boff bs ib + ii) (boff bs jb + jj)))).

  Theorem eb_sum_AB_ok (abs : F -> F) (keepn : F -> bool) (alpha : F) A B : ebwf A -> ebwf B -> eb_dims A B -> bMB A = bMB B -> bNB A <= bMB A -> abs k0 = k0 ->
    eb_sum_AB abs keepn alpha A B = Ok (kept_sum keepn (bNB A) (blk_prod (bbs A) abs (mscale alpha (mhad (ebmx A) (ebmx B))))).
  Proof.
    intros WA WB (D1 & D2 & D3) DM HM Habs. pose proof WA as (SA & _ & RA). pose proof WB as (SB & _ & RB).
    set (NB := bNB A) in *. set (bs := bbs A) in *. assert (EB : bbs B = bs) by (symmetry; exact D3).
    set (X := mscale alpha (mhad (ebmx A) (ebmx B))).
    set (el := fun ib jb k => kmul (kmul alpha (bel A ib jb k)) (bel B ib jb k)).
    set (q := fun ib jb => bigsum (bsz bs ib * bsz bs jb) (fun k => abs (el ib jb k))).
    assert (Hq : forall ib jb, ib < NB -> jb < NB -> blk_prod bs abs X ib jb = q ib jb).
    { intros ib jb Hi Hj. unfold blk_prod, q. rewrite <- bigsum_cells. apply bigsum_ext. intros k Hk. f_equal.
      change (X (boff bs ib + k / bsz bs jb) (boff bs jb + k mod bsz bs jb)) with (kmul alpha (kmul (xb bs (ebmx A) ib jb k) (xb bs (ebmx B) ib jb k))).
      unfold el. rewrite (ebmx_xb A) by auto. assert (E : xb bs (ebmx B) ib jb k = bel B ib jb k). { rewrite <- EB. apply ebmx_xb; auto; try congruence. }
      rewrite E. ring. }
    assert (HK : kept_sum keepn NB (blk_prod bs abs X) = kept_sum keepn NB q).
    { unfold kept_sum. apply bigsum_ext. intros ib Hi. apply bigsum_ext. intros jb Hj. rewrite Hq by auto. reflexivity. }
    rewrite HK. clear HK Hq X. set (kq := fun ib jb => if keepn (q ib jb) then q ib jb else k0).
    match goal with |- ?r = _ => enough (G : wp r (fun s => s = kept_sum keepn NB q)) by (apply wp_ok in G as (s & -> & ->); reflexivity) end.
    unfold eb_sum_AB. fold NB bs. destruct (maxbsize_ok NB bs) as (m & -> & Hm & _); [unfold NB, bs; rewrite (sh_bs A SA); auto|]. cbn [bind].
    destruct (Nat.ltb_spec (bMB A) NB); [lia|].
    assert (Hm2 : forall ib jb, ib < NB -> jb < NB -> bsz bs ib * bsz bs jb <= m * m). { intros ib jb Hi Hj. apply Nat.mul_le_mono; apply Hm; auto. }
    apply wp_bind.
    set (yok := fun y : list (list F) => length y = NB /\ forall c, c < NB -> length (nth c y []) = m * m).
    assert (Hyset : forall y c x, yok y -> length x = m * m -> yok (set_nth y c x)).
    { intros y c x [Y1 Y2] Lx. split; [rewrite length_set_nth; auto|]. intros c' Hc'. rewrite nth_set_nth. destruct ((c' =? c) && _); auto. }
    eapply wp_mono with (P := fun st => let '(s, jj, y) := st in length jj = bMB A /\ yok y /\ s = bigsum NB (fun ib => bigsum NB (kq ib))).
    2:{ intros [[s jj] y] (_ & _ & E). exact E. }
    apply (for_n_inv (fun n st => let '(s, jj, y) := st in length jj = bMB A /\ yok y /\ s = bigsum n (fun ib => bigsum NB (kq ib)))).
    { split; [apply repeat_length|]. split; [|reflexivity]. split; [apply repeat_length|].
      intros c Hc. rewrite (nth_indep _ [] (repeat k0 (m * m))) by (rewrite repeat_length; auto). rewrite nth_repeat. apply repeat_length. }
    intros ib [[s jj] y] Hib (HJ & HY & ->).
    assert (Hbs : forall c, c < NB -> rd bs c = Ok (bsz bs c)). { intros c Hc. apply rd_ok. unfold bs. rewrite (sh_bs A SA). auto. }
    apply wp_bind. rewrite Hbs by auto. cbn [wpq].
    apply wp_bind. rewrite b_nnz_ok by auto. cbn [wpq].
    assert (HcolsA : forall n c, In c (map (scol A ib) (seq 0 n)) <-> exists jp, jp < n /\ scol A ib jp = c).
    { intros n c. rewrite in_map_iff. split; [intros (jp & E & Hj); apply in_seq in Hj; exists jp; split; [lia|auto]|intros (jp & Hj & E); exists jp; split; [auto|apply in_seq; lia]]. }
    (* blocks of A *)
    apply wp_bind.
    eapply wp_mono with (P := fun st => let '(ix, y) := st in length ix = NB /\ yok y /\ (forall c, c < NB -> (nth c ix 0 = 0 <-> ~ In c (bcols A ib))) /\
       (forall c k, In c (bcols A ib) -> k < bsz bs ib * bsz bs c -> nth k (nth c y []) k0 = kmul alpha (bel A ib c k))).
    { apply (for_n_inv (fun n st => let '(ix, y) := st in length ix = NB /\ yok y /\ (forall c, c < NB -> (nth c ix 0 = 0 <-> ~ In c (map (scol A ib) (seq 0 n)))) /\
       (forall c k, In c (map (scol A ib) (seq 0 n)) -> k < bsz bs ib * bsz bs c -> nth k (nth c y []) k0 = kmul alpha (bel A ib c k)))).
      - split; [apply repeat_length|]. split; auto. split; [|cbn; tauto]. intros c Hc. rewrite nth_repeat. cbn. tauto.
      - intros jp [ix1 y1] Hjp (I1 & I2 & I3 & I4). destruct (ebwf_slot A ib jp) as (Pm & Pc & Px & Pl); auto. fold NB in Pc. fold bs in Pl. pose proof I2 as [Y1 Y2].
        change (ROWMAJOR ib jp NB (bMB A)) with (b_at A ib jp). apply wp_bind. rewrite rd_idx_ok by auto. cbn [wpq]. set (c := scol A ib jp) in *.
        apply wp_bind. rewrite Hbs by auto. cbn [wpq]. apply wp_bind. rewrite wr_ok by lia. cbn [wpq].
        apply wp_bind. rewrite (b_blk_ok A ib jp (sblk A ib jp)) by auto. cbn [wpq].
        apply wp_bind. rewrite (rd_ok _ _ []) by lia. cbn [wpq]. apply wp_bind.
        eapply wp_mono. { apply (blk_map_ok (bsz bs ib * bsz bs c) _ (fun k => kmul alpha (nth k (sblk A ib jp) k0))).
          - rewrite Y2 by auto. apply Hm2; auto.
          - intros k Hk. rewrite (rd_ok _ _ k0) by lia. reflexivity. }
        intros x (Lx & Vx & _). apply wp_bind. rewrite wr_ok by lia. cbn [wpq]. rewrite seq_S, map_app. cbn [map plus]. fold c.
        split; [rewrite length_set_nth; auto|]. split; [apply Hyset; auto; rewrite Lx; auto|]. split.
        + intros c' Hc'. rewrite nth_set_nth, in_app_iff. cbn [In]. destruct (Nat.eqb_spec c' c) as [->|Hne]; cbn [andb].
          * destruct (Nat.ltb_spec c (length ix1)); [|lia]. split; [discriminate|tauto].
          * rewrite I3 by auto. intuition.
        + intros c' k Hc' Hk. rewrite nth_set_nth. destruct (Nat.eqb_spec c' c) as [->|Hne]; cbn [andb].
          * destruct (Nat.ltb_spec c (length y1)); [|lia]. rewrite Vx by auto. rewrite (bel_hit A ib c jp) by auto. reflexivity.
          * apply I4; auto. apply in_app_or in Hc' as [|[|[]]]; auto. congruence. }
    intros [ix y1] (I1 & I2 & I3 & I4). cbn [wpq].
    (* blocks of B *)
    assert (Hib' : ib < bNB B) by (unfold NB in *; congruence).
    apply wp_bind. rewrite b_nnz_ok by auto. cbn [wpq]. apply wp_bind.
    set (LL := fun n => filter (fun c => existsb (Nat.eqb c) (bcols A ib)) (map (scol B ib) (seq 0 n))).
    assert (HLLin : forall n c, In c (LL n) <-> In c (bcols A ib) /\ In c (map (scol B ib) (seq 0 n))).
    { intros n c. unfold LL. rewrite filter_In. rewrite existsb_exists. split; [intros [H1 (z & Hz & Ez)]; apply Nat.eqb_eq in Ez; subst; auto|intros [H1 H2]; split; auto; exists c; split; auto; apply Nat.eqb_refl]. }
    assert (HLLnd : NoDup (LL (bnz B ib))). { apply NoDup_filter. apply (RB ib Hib'). }
    assert (HLLlen : forall n, n <= bnz B ib -> length (LL n) <= n). { intros n Hn. unfold LL. etransitivity; [apply filter_length_le|]. rewrite map_length, seq_length. auto. }
    pose proof (ebwf_nnz B ib WB Hib') as HnB.
    eapply wp_mono with (P := fun st => let '(jj, y, lb) := st in length jj = bMB A /\ yok y /\ lb = length (LL (bnz B ib)) /\ (forall p, p < lb -> nth p jj 0 = nth p (LL (bnz B ib)) 0) /\
       (forall c k, In c (LL (bnz B ib)) -> k < bsz bs ib * bsz bs c -> nth k (nth c y []) k0 = el ib c k)).
    { eapply wp_mono. { apply (for_n_inv (fun n st => let '(jj, y, lb) := st in length jj = bMB A /\ yok y /\ lb = length (LL n) /\ (forall p, p < lb -> nth p jj 0 = nth p (LL n) 0) /\
         (forall c k, In c (bcols A ib) -> k < bsz bs ib * bsz bs c -> nth k (nth c y []) k0 = if existsb (Nat.eqb c) (LL n) then el ib c k else kmul alpha (bel A ib c k)))).
        - split; auto. split; auto. split; auto. split; [cbn; lia|]. intros c k Hc Hk. cbn. auto.
        - intros jp [[jj2 y2] lb] Hjp (J1 & J2 & -> & J4 & J5). pose proof J2 as [Y1 Y2]. specialize (HLLlen jp ltac:(lia)).
          destruct (ebwf_slot B ib jp) as (Pm & Pc & Px & Pl); auto.
          assert (EL : bsz bs ib * bsz bs (scol B ib jp) <= length (sblk B ib jp)) by (rewrite <- EB; exact Pl). clear Pl. rewrite <- D2 in Pc. fold NB in Pc.
          replace (ROWMAJOR ib jp NB (bMB A)) with (b_at B ib jp) by (unfold b_at, ROWMAJOR; congruence).
          apply wp_bind. rewrite rd_idx_ok by auto. cbn [wpq]. set (c := scol B ib jp) in *.
          apply wp_bind. rewrite Hbs by auto. cbn [wpq]. apply wp_bind. rewrite (rd_ok _ _ 0) by lia. cbn [wpq].
          assert (ES : LL (S jp) = LL jp ++ (if existsb (Nat.eqb c) (bcols A ib) then [c] else [])).
          { unfold LL. rewrite seq_S, map_app, filter_app. cbn [map filter plus]. fold c. reflexivity. }
          assert (Hn : ~ In c (LL jp)).
          { rewrite HLLin. intros [_ Hin]. apply in_map_iff in Hin as (r & Er & Hr). apply in_seq in Hr. assert (r = jp); [|lia]. apply (scol_inj B ib); auto; lia. }
          destruct (Nat.eqb_spec (nth c ix 0) 0) as [E0|E0].
          + apply I3 in E0; auto. assert (Ex : existsb (Nat.eqb c) (bcols A ib) = false).
            { destruct (existsb (Nat.eqb c) (bcols A ib)) eqn:E; auto. apply existsb_exists in E as (z & Hz & Ez). apply Nat.eqb_eq in Ez. subst z. tauto. }
            rewrite Ex, app_nil_r in ES. rewrite ES. cbn [wpq]. auto.
          + assert (Hin : In c (bcols A ib)). { destruct (in_dec Nat.eq_dec c (bcols A ib)); auto. exfalso. apply E0, I3; auto. }
            assert (Ex : existsb (Nat.eqb c) (bcols A ib) = true). { apply existsb_exists. exists c. split; auto. apply Nat.eqb_refl. }
            rewrite Ex in ES.
            apply wp_bind. rewrite wr_ok by lia. cbn [wpq].
            apply wp_bind. rewrite (b_blk_ok B ib jp (sblk B ib jp)) by auto. cbn [wpq].
            apply wp_bind. rewrite (rd_ok _ _ []) by lia. cbn [wpq]. apply wp_bind.
            eapply wp_mono. { apply (blk_map_ok (bsz bs ib * bsz bs c) _ (fun k => el ib c k)).
              - rewrite Y2 by auto. apply Hm2; auto.
              - intros k Hk. rewrite (rd_ok _ _ k0) by lia. cbn [bind]. rewrite J5 by auto.
                destruct (existsb (Nat.eqb c) (LL jp)) eqn:E. { apply existsb_exists in E as (z & Hz & Ez). apply Nat.eqb_eq in Ez. subst z. tauto. }
                unfold el. rewrite (bel_hit B ib c jp) by auto. reflexivity. }
            intros x (Lx & Vx & _). apply wp_bind. rewrite wr_ok by lia. cbn [wpq].
            split; [rewrite length_set_nth; auto|]. split; [apply Hyset; auto; rewrite Lx; auto|]. rewrite ES, app_length. cbn [length]. split; [lia|]. split.
            * intros p Hp. rewrite nth_set_nth. destruct (Nat.eqb_spec p (length (LL jp))) as [->|Hne]; cbn [andb].
              -- destruct (Nat.ltb_spec (length (LL jp)) (length jj2)); [|lia]. rewrite app_nth2, Nat.sub_diag by lia. reflexivity.
              -- rewrite app_nth1 by lia. apply J4. lia.
            * intros c' k Hc' Hk. rewrite existsb_app. cbn [existsb]. rewrite nth_set_nth. destruct (Nat.eqb_spec c' c) as [->|Hne]; cbn [andb].
              -- destruct (Nat.ltb_spec c (length y2)); [|lia]. rewrite Vx by auto. rewrite Bool.orb_true_r. reflexivity.
              -- rewrite Bool.orb_false_r. apply J5; auto. }
      intros [[jj2 y2] lb] (J1 & J2 & -> & J4 & J5). split; auto. split; auto. split; auto. split; auto. intros c k Hc Hk. pose proof Hc as Hc'. rewrite HLLin in Hc'. rewrite J5 by tauto.
      replace (existsb (Nat.eqb c) (LL (bnz B ib))) with true; auto. symmetry. apply existsb_exists. exists c. split; auto. apply Nat.eqb_refl. }
    intros [[jj2 y2] lb] (J1 & J2 & -> & J4 & J5). cbn [wpq]. pose proof J2 as [Y1 Y2]. set (L := LL (bnz B ib)) in *.
    assert (HLlt : forall c, In c L -> c < NB). { intros c Hc. unfold L in Hc. rewrite HLLin in Hc. destruct Hc as [Hc _]. unfold bcols in Hc. apply HcolsA in Hc as (jp & Hj & <-). apply (RA ib Hib). auto. }
    apply wp_bind. rewrite (sum_loop _ _ (fun p => kq ib (nth p L 0))).
    { cbn [wpq]. split; auto. split; auto. cbn [bigsum]. f_equal. apply sum_over; auto. intros c Hc Hn. unfold kq. assert (Eq : q ib c = k0).
      { unfold q. apply bigsum_zero. intros k Hk. assert (E : el ib c k = k0); [|rewrite E; auto]. unfold el.
        destruct (slot_dec A ib c) as [(jp & Hj & Ej)|Hno]; [|rewrite (bel_miss A) by auto; ring].
        rewrite (bel_miss B); [ring|]. intros kp Hkp Ek. apply Hn. unfold L. rewrite HLLin. split; [unfold bcols; apply HcolsA; exists jp; auto|].
        apply in_map_iff. exists kp. split; auto. apply in_seq. lia. }
      rewrite Eq. destruct (keepn k0); auto. }
    intros p s' Hp. assert (HcL : In (nth p L 0) L) by (apply nth_In; auto). specialize (HLlt _ HcL) as Hc. specialize (HLLlen (bnz B ib) ltac:(lia)). fold L in HLLlen.
    rewrite (rd_ok _ _ 0) by lia. cbn [bind]. rewrite J4 by auto. set (c := nth p L 0) in *. rewrite Hbs by auto. cbn [bind].
    rewrite (rd_ok _ _ []) by lia. cbn [bind]. unfold blk_sum. rewrite (sum_loop _ _ (fun k => abs (el ib c k))).
    2:{ intros k s'' Hk. rewrite (rd_ok _ _ k0) by (rewrite Y2 by auto; specialize (Hm2 ib c Hib Hc); lia). cbn [bind]. rewrite J5 by auto. reflexivity. }
    cbn [bind]. replace (kadd k0 (bigsum (bsz bs ib * bsz bs c) (fun k => abs (el ib c k)))) with (q ib c) by (unfold q; ring).
    change (kq ib c) with (if keepn (q ib c) then q ib c else k0). f_equal. destruct (keepn (q ib c)); ring.
  Qed.
  (** the array jjb of MB integers is cleared with NB of them *)
  Theorem eb_sum_AB_overflow (abs : F -> F) (keepn : F -> bool) (alpha : F) A B : eb_shape A -> bMB A < bNB A -> eb_sum_AB abs keepn alpha A B = UB.
  Proof.
    intros SA HM. unfold eb_sum_AB. destruct (maxbsize_ok (bNB A) (bbs A)) as (m & -> & _); [rewrite (sh_bs A SA); auto|]. cbn [bind].
    destruct (Nat.ltb_spec (bMB A) (bNB A)); [auto|lia].
  Qed.
End Norm.
