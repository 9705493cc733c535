(** The work arrays of the block additions and products, and the rows written
    from them. *)
From Verif Require Import Base BaseFacts Spec SpecFacts EllpackModel EllpackSpec EllblockModel EllblockSpec EllblockFacts EllblockHeap EllblockRead EllblockBuild EllblockMake EllblockSet EllblockCopy.
From Coq Require Import Permutation.

Section Work.
  Context {F : scalar}.
  Local Notation eb := (eb F).
  Implicit Types A B : eb.

  Lemma touch_spec L c : (In c L /\ touch L c = L) \/ (~ In c L /\ touch L c = L ++ [c]).
  Proof.
    unfold touch. destruct (existsb (Nat.eqb c) L) eqn:E.
    - left. split; auto. apply existsb_exists in E as (x & Hx & Ex). apply Nat.eqb_eq in Ex. subst; auto.
    - right. split; auto. intros H. assert (existsb (Nat.eqb c) L = true); [|congruence]. apply existsb_exists. exists c. split; auto. apply Nat.eqb_refl.
  Qed.
  Lemma touch_in L c x : In x (touch L c) <-> In x L \/ x = c.
  Proof. destruct (touch_spec L c) as [[H ->]|[H ->]]; [intuition; subst; auto|]. rewrite in_app_iff. simpl. intuition. Qed.
  Lemma touch_nodup L c : NoDup L -> NoDup (touch L c).
  Proof.
    intros H. destruct (touch_spec L c) as [[Hc ->]|[Hc ->]]; auto. apply NoDup_app_intro; auto.
    - constructor; [intros []|constructor].
    - intros x Hx [<-|[]]. auto.
  Qed.
  Lemma touch_all_in cs : forall L x, In x (touch_all L cs) <-> In x L \/ In x cs.
  Proof. induction cs as [|c t IH]; intros L x; [simpl; tauto|]. change (touch_all L (c :: t)) with (touch_all (touch L c) t). rewrite IH, touch_in. simpl. intuition. Qed.
  Lemma touch_all_nodup cs : forall L, NoDup L -> NoDup (touch_all L cs).
  Proof. induction cs as [|c t IH]; intros L H; auto. change (touch_all L (c :: t)) with (touch_all (touch L c) t). apply IH. apply touch_nodup; auto. Qed.
  Lemma touch_all_app L a b : touch_all L (a ++ b) = touch_all (touch_all L a) b.
  Proof. apply fold_left_app. Qed.
  Lemma touch_all_new cs : forall L, NoDup (L ++ cs) -> touch_all L cs = L ++ cs.
  Proof.
    induction cs as [|c t IH]; intros L H; [rewrite app_nil_r; auto|]. change (touch_all L (c :: t)) with (touch_all (touch L c) t).
    destruct (touch_spec L c) as [[Hc _]|[Hc E]].
    - apply NoDup_remove in H as [_ H]. exfalso. apply H. apply in_or_app; auto.
    - rewrite E, IH by (rewrite <- app_assoc; auto). rewrite <- app_assoc. reflexivity.
  Qed.

  Record wrep (NB m2 : nat) (sz : nat -> nat) (w : wsp (list F)) (L : list nat) (v : nat -> nat -> F) : Prop := mkWrep {
    wr_ix : length (wix w) = NB;
    wr_jx : length (wjx w) = NB;
    wr_x : length (wx w) = NB;
    wr_len : forall c, c < NB -> length (nth c (wx w) []) = m2;
    wr_nd : NoDup L;
    wr_lt : forall c, In c L -> c < NB;
    wr_pos : forall p, p < length L -> nth p (wjx w) 0 = nth p L 0;
    wr_mark : forall c, c < NB -> (nth c (wix w) 0 = 0 <-> ~ In c L);
    wr_val : forall c k, In c L -> k < sz c -> nth k (nth c (wx w) []) k0 = v c k;
    wr_zero : forall c k, c < NB -> ~ In c L -> k < sz c -> v c k = k0 }.

  Lemma wrep_room NB m2 sz w L v : wrep NB m2 sz w L v -> length L <= NB.
  Proof. intros H. rewrite <- (seq_length NB 0). apply NoDup_incl_length; [apply H|]. intros c Hc. apply in_seq. pose proof (wr_lt _ _ _ _ _ _ H c Hc). lia. Qed.
  Lemma wrep_ext NB m2 sz w L v v' : (forall c k, c < NB -> k < sz c -> v' c k = v c k) -> wrep NB m2 sz w L v -> wrep NB m2 sz w L v'.
  Proof.
    intros E []. constructor; auto.
    - intros c k Hc Hk. rewrite E; auto.
    - intros c k Hc Hn Hk. rewrite E; auto.
  Qed.
  Lemma wrep_new NB m2 sz : wrep NB m2 sz (bws_new (F:=F) NB m2) [] (fun _ _ => k0).
  Proof.
    constructor; cbn [bws_new wix wjx wx]; rewrite ?repeat_length; auto; try (intros; simpl in *; lia || tauto).
    - intros c Hc. rewrite (nth_indep _ [] (repeat k0 m2)) by (rewrite repeat_length; auto). rewrite nth_repeat. apply repeat_length.
    - constructor.
    - intros c Hc. rewrite nth_repeat. simpl. tauto.
  Qed.

  Lemma bws_touch_ok {e} NB m2 sz w L v ib c n : wrep NB m2 sz w L v -> c < NB -> sz c <= n <= m2 ->
    wpq e (bws_touch ib c n (w, length L)) (fun r => snd r = length (touch L c) /\ wrep NB m2 sz (fst r) (touch L c) v).
  Proof.
    intros HW Hc Hn. pose proof (wrep_room _ _ _ _ _ _ HW) as Hroom. pose proof HW as [H1 H2 H3 H4 H5 H6 H7 H8 H9 H10]. unfold bws_touch. apply wp_bind.
    rewrite (rd_ok _ _ 0) by lia. cbn [wpq]. destruct (touch_spec L c) as [[Hin ->]|[Hin E]].
    - destruct (Nat.eqb_spec (nth c (wix w) 0) 0) as [E0|]; [apply H8 in E0; tauto|]. cbn [wpq fst snd]. auto.
    - destruct (Nat.eqb_spec (nth c (wix w) 0) 0) as [E0|E0]; [|exfalso; apply E0, H8; auto].
      assert (Hlen : length L < NB). { rewrite <- (seq_length NB 0). change (length (c :: L) <= length (seq 0 NB)). apply NoDup_incl_length; [constructor; auto|]. intros x [<-|Hx]; apply in_seq; [lia|]. specialize (H6 x Hx). lia. }
      apply wp_bind. rewrite (rd_ok _ _ []) by lia. cbn [wpq]. apply wp_bind. eapply wp_mono; [apply (blk_map_ok n _ (fun _ => k0)); [rewrite H4; lia|auto]|].
      intros x (Lx & Vx & _). rewrite H4 in Lx by auto. apply wp_bind. rewrite wr_ok by lia. cbn [wpq]. apply wp_bind. rewrite wr_ok by lia. cbn [wpq]. apply wp_bind. rewrite wr_ok by lia. cbn [wpq fst snd].
      rewrite E. rewrite app_length. split; [simpl; lia|]. constructor; cbn [wix wjx wx]; rewrite ?length_set_nth; auto.
      + intros c' Hc'. rewrite nth_set_nth. destruct ((c' =? c) && _); auto.
      + rewrite <- E. apply touch_nodup; auto.
      + intros c' Hc'. apply in_app_or in Hc' as [|[<-|[]]]; auto.
      + intros p Hp. rewrite app_length in Hp. simpl in Hp. rewrite nth_set_nth. destruct (Nat.eqb_spec p (length L)) as [->|Hne]; cbn [andb].
        * destruct (Nat.ltb_spec (length L) (length (wjx w))); [|lia]. rewrite app_nth2, Nat.sub_diag by lia. reflexivity.
        * rewrite app_nth1 by lia. apply H7. lia.
      + intros c' Hc'. rewrite nth_set_nth. destruct (Nat.eqb_spec c' c) as [->|Hne]; cbn [andb].
        * destruct (Nat.ltb_spec c (length (wix w))); [|lia]. split; [discriminate|]. intros Hx. exfalso. apply Hx, in_or_app. right; left; auto.
        * rewrite H8 by auto. rewrite in_app_iff. simpl. split; [intros H [|[|[]]]; auto|auto].
      + intros c' k Hc' Hk. rewrite nth_set_nth. destruct (Nat.eqb_spec c' c) as [->|Hne]; cbn [andb].
        * destruct (Nat.ltb_spec c (length (wx w))); [|lia]. rewrite Vx by lia. symmetry. auto.
        * apply H9; auto. apply in_app_or in Hc' as [|[<-|[]]]; auto. congruence.
      + intros c' k Hc' Hn' Hk. apply H10; auto. intros H. apply Hn', in_or_app. auto.
  Qed.

  Lemma bws_upd_ok {e} NB m2 sz w L v c f (v' : nat -> F) : wrep NB m2 sz w L v -> In c L ->
    (forall x, length x = m2 -> (forall k, k < sz c -> nth k x k0 = v c k) -> wpq e (f x) (fun y => length y = m2 /\ forall k, k < sz c -> nth k y k0 = v' k)) ->
    wpq e (bws_upd c f w) (fun w' => wrep NB m2 sz w' L (fun c' k => if c' =? c then v' k else v c' k)).
  Proof.
    intros HW Hin Hf. pose proof HW as [H1 H2 H3 H4 H5 H6 H7 H8 H9 H10]. specialize (H6 c Hin) as Hc. unfold bws_upd. apply wp_bind. rewrite (rd_ok _ _ []) by lia. cbn [wpq].
    apply wp_bind. eapply wp_mono; [apply Hf; auto|]. intros y (Ly & Vy). apply wp_bind. rewrite wr_ok by lia. cbn [wpq].
    constructor; cbn [wix wjx wx]; rewrite ?length_set_nth; auto.
    - intros c' Hc'. rewrite nth_set_nth. destruct ((c' =? c) && _); auto.
    - intros c' k Hc' Hk. rewrite nth_set_nth. destruct (Nat.eqb_spec c' c) as [->|Hne]; cbn [andb]; auto.
      destruct (Nat.ltb_spec c (length (wx w))); [auto|lia].
    - intros c' k Hc' Hn Hk. destruct (Nat.eqb_spec c' c) as [->|Hne]; [tauto|auto].
  Qed.

  (** while the rows are written: the columns at positions from [p] are still marked *)
  Record wgat (NB m2 : nat) (sz : nat -> nat) (w : wsp (list F)) (L : list nat) (v : nat -> nat -> F) (p : nat) : Prop := mkWgat {
    wg_ix : length (wix w) = NB;
    wg_jx : length (wjx w) = NB;
    wg_x : length (wx w) = NB;
    wg_len : forall c, c < NB -> length (nth c (wx w) []) = m2;
    wg_nd : NoDup L;
    wg_lt : forall c, In c L -> c < NB;
    wg_pos : forall q, q < length L -> nth q (wjx w) 0 = nth q L 0;
    wg_mark : forall c, c < NB -> (nth c (wix w) 0 = 0 <-> ~ In c (skipn p L));
    wg_val : forall c k, In c (skipn p L) -> k < sz c -> nth k (nth c (wx w) []) k0 = v c k }.
  Lemma wgat_0 NB m2 sz w L v : wrep NB m2 sz w L v -> wgat NB m2 sz w L v 0.
  Proof. intros []. constructor; auto. Qed.
  Lemma wgat_end NB m2 sz w L v : wgat NB m2 sz w L v (length L) -> wrep NB m2 sz w [] (fun _ _ => k0).
  Proof.
    intros []. constructor; auto; try (simpl; intros; tauto || lia).
    - constructor.
    - intros c Hc. rewrite wg_mark0 by auto. rewrite skipn_all. tauto.
  Qed.
  Lemma skipn_S_in (L : list nat) p c : NoDup L -> p < length L -> (In c (skipn (S p) L) <-> In c (skipn p L) /\ c <> nth p L 0).
  Proof.
    intros HN Hp. assert (HN' : NoDup (skipn p L)). { rewrite <- (firstn_skipn p L) in HN. apply NoDup_app_inv in HN. tauto. }
    rewrite (skipn_S_nth _ _ 0 Hp) in *. inversion HN'; subst. simpl. split; [intros H; split; auto; intros ->; auto|]. intros [[H|H] H']; auto. congruence.
  Qed.
  Lemma wgat_next NB m2 sz w L v p x : wgat NB m2 sz w L v p -> p < length L -> length x = m2 ->
    wgat NB m2 sz (mkWs (set_nth (wix w) (nth p L 0) 0) (wjx w) (set_nth (wx w) (nth p L 0) x)) L v (S p).
  Proof.
    intros [] Hp Hx. assert (Hc : nth p L 0 < NB) by (apply wg_lt0, nth_In; auto). constructor; cbn [wix wjx wx]; rewrite ?length_set_nth; auto.
    - intros c Hc'. rewrite nth_set_nth. destruct ((c =? _) && _); auto.
    - intros c Hc'. rewrite skipn_S_in by auto. rewrite nth_set_nth. destruct (Nat.eqb_spec c (nth p L 0)) as [E|Hne]; cbn [andb].
      + destruct (Nat.ltb_spec (nth p L 0) (length (wix w))); [|lia]. tauto.
      + rewrite wg_mark0 by auto. tauto.
    - intros c k Hin Hk. rewrite skipn_S_in in Hin by auto. destruct Hin as [Hin Hne]. rewrite nth_set_nth.
      destruct (Nat.eqb_spec c (nth p L 0)) as [E|_]; [tauto|]. cbn [andb]. auto.
  Qed.
  Lemma in_skipn_nth (L : list nat) p : p < length L -> In (nth p L 0) (skipn p L).
  Proof. intros H. rewrite (skipn_S_nth _ _ 0 H). left. auto. Qed.

  (** ** A row written slot by slot *)
  Record gath (cap : nat -> nat) A (ib : nat) (l : list (nat * list F)) A' : Prop := mkGath {
    ga_kin : kin A A';
    ga_own : own (fun i => if i =? ib then Nat.max (cap i) (length l) else cap i) A';
    ga_nnz : bnnz A' = bnnz A;
    ga_row : forall q, q < length l -> scol A' ib q = fst (nth q l (0, [])) /\ bobj A' ib q = Some (snd (nth q l (0, [])));
    ga_cols : forall i q, i < bNB A -> q < bMB A -> (i <> ib \/ length l <= q) -> scol A' i q = scol A i q;
    ga_addrs : forall i q, i < bNB A -> q < bMB A -> (i <> ib \/ length l <= q) -> saddr A' i q = saddr A i q;
    ga_objs : forall i q, i < bNB A -> q < cap i -> (i <> ib \/ length l <= q) -> bobj A' i q = bobj A i q }.
  Lemma gath_nil cap A ib : own cap A -> gath cap A ib [] A.
  Proof.
    intros H. constructor; auto; [apply kin_refl| |simpl; intros; lia].
    eapply own_cap_eq; [|exact H]. intros i _. cbn beta. destruct (i =? ib); simpl; lia.
  Qed.
  Lemma gath_snoc cap A ib l A1 c y A2 : ib < bNB A -> length l < bMB A -> (forall i, i < bNB A -> cap i <= bMB A) -> gath cap A ib l A1 ->
    slot_set (capx (fun i => if i =? ib then Nat.max (cap i) (length l) else cap i) ib (length l)) A1 ib (length l) c y A2 ->
    gath cap A ib (l ++ [(c, y)]) A2.
  Proof.
    intros Hi Hl Hcap [K O Z R C D E] [K2 O2 Z2 C2 B2 Cs Ds Os]. pose proof K as (_ & _ & EN & EM & _). constructor.
    - eapply kin_trans; eauto.
    - eapply own_cap_eq; [|exact O2]. intros i Hi2. unfold capx. rewrite app_length. simpl. destruct (i =? ib); lia.
    - congruence.
    - intros q Hq. rewrite app_length in Hq. simpl in Hq. destruct (Nat.eq_dec q (length l)) as [->|].
      + rewrite app_nth2, Nat.sub_diag by lia. simpl. auto.
      + rewrite app_nth1 by lia. rewrite Cs by (auto; lia). rewrite Os; [apply R; lia|lia| |lia]. unfold capx. rewrite Nat.eqb_refl. lia.
    - intros i q H1 H2 H3. rewrite app_length in H3. simpl in H3. rewrite Cs by (auto; lia). apply C; auto. lia.
    - intros i q H1 H2 H3. rewrite app_length in H3. simpl in H3. rewrite Ds by (auto; lia). apply D; auto. lia.
    - intros i q H1 H2 H3. rewrite app_length in H3. simpl in H3. rewrite Os; [apply E; auto; lia|lia| |lia]. unfold capx. destruct (i =? ib); lia.
  Qed.
  (** ... and its length stored *)
  Lemma gath_done cap A ib l A1 A2 : ib < bNB A -> gath cap A ib l A1 -> nnz_set A1 ib (length l) A2 ->
    kin A A2 /\ own (fun i => if i =? ib then Nat.max (cap i) (length l) else cap i) A2 /\ rcont A2 ib l /\
    (forall i, i < bNB A -> i <> ib -> row_same cap A A2 i).
  Proof.
    intros Hi HG HN. pose proof (ga_kin _ _ _ _ _ HG) as K. split; [eapply kin_trans; [exact K|apply HN]|]. split; [eapply nnz_set_own; eauto; apply HG|]. split.
    - split; [apply HN|]. intros q Hq. rewrite (nnz_set_col _ _ _ _ _ _ HN), (nnz_set_obj _ _ _ _ _ _ HN). apply HG. auto.
    - intros i Hi' Hne. constructor.
      + rewrite (ns_other _ _ _ _ HN) by auto. unfold bnz. rewrite (ga_nnz _ _ _ _ _ HG). reflexivity.
      + intros q Hq. rewrite (nnz_set_col _ _ _ _ _ _ HN). apply HG; auto.
      + intros q Hq. rewrite (nnz_set_addr _ _ _ _ _ _ HN). apply HG; auto.
      + intros q Hq. rewrite (nnz_set_obj _ _ _ _ _ _ HN). apply HG; auto.
  Qed.

  (** the blocks of the columns [L] with values [v]: what a row stands for *)
  Lemma row_values A ib (l : list (nat * list F)) L (kp : nat -> bool) (v : nat -> nat -> F) jb k : rcont A ib l ->
    map fst l = filter kp L -> NoDup L ->
    (forall p, In p l -> forall k, k < bsz (bbs A) ib * bsz (bbs A) (fst p) -> nth k (snd p) k0 = v (fst p) k) ->
    k < bsz (bbs A) ib * bsz (bbs A) jb -> (~ In jb L -> v jb k = k0) -> bel A ib jb k = if kp jb then v jb k else k0.
  Proof.
    intros HR Hf HN Hv Hk Hz. rewrite (rcont_bel _ _ _ _ _ HR). destruct (in_dec Nat.eq_dec jb (filter kp L)) as [Hin|Hnin].
    - pose proof Hin as Hin'. apply filter_In in Hin' as [_ ->]. rewrite <- Hf in Hin. apply in_map_iff in Hin as ([c y] & E & Hp). simpl in E. subst c.
      assert (Hc : NoDup (cols (cells k l))). { rewrite cells_cols, Hf. apply NoDup_filter; auto. }
      rewrite (elook_in _ _ (nth k y k0) Hc). { apply (Hv (jb, y) Hp). auto. }
      unfold cells. apply in_map_iff. exists (jb, y). auto.
    - rewrite elook_notin. { destruct (kp jb) eqn:E; auto. symmetry. apply Hz. intros H. apply Hnin. apply filter_In. auto. }
      rewrite cells_cols, Hf. auto.
  Qed.
End Work.
