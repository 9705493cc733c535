(** Proofs about the exchange of rows between ranks. *)
From Verif Require Import Base BaseFacts Spec SpecFacts EllpackModel EllpackSpec EllpackFacts EllpackOps EllpackArith
  DenseModel DenseSpec DomainModel DomainSpec RowModel RowSpec.

Lemma ranks_ok {T} P (f : nat -> res T) (Q : nat -> T -> Prop) :
  (forall r, r < P -> wp (f r) (Q r)) ->
  exists l, ranks P f = Ok l /\ length l = P /\ forall r x, nth_error l r = Some x -> Q r x.
Proof.
  intros H. apply wp_ok. unfold ranks. eapply wp_mono.
  - apply (for_n_inv (fun n l => length l = n /\ forall r x, nth_error l r = Some x -> Q r x)).
    + split; auto. intros [|r] x; discriminate.
    + intros r l Hr [HL HQ]. apply wp_bind. eapply wp_mono; [apply H; auto|].
      intros x Hx. simpl. rewrite app_length. simpl. split; [lia|].
      intros q y Hq. destruct (Nat.lt_ge_cases q (length l)) as [Hlt|Hge].
      * rewrite nth_error_app1 in Hq by auto. auto.
      * rewrite nth_error_app2 in Hq by auto. destruct (q - length l) as [|k] eqn:Ek.
        -- simpl in Hq. injection Hq as <-. replace q with r by lia. auto.
        -- simpl in Hq. destruct k; discriminate.
  - auto.
Qed.

Lemma rd_some {T} (l : list T) i x : nth_error l i = Some x -> rd l i = Ok x.
Proof. intros H. unfold rd. rewrite H. auto. Qed.

Lemma some_lt {T} (l : list T) i : i < length l -> exists x, nth_error l i = Some x.
Proof. intros H. destruct (nth_error l i) eqn:E; eauto. apply nth_error_None in E. lia. Qed.

Lemma some_nth {T} (l : list T) i d : i < length l -> nth_error l i = Some (nth i l d).
Proof. intros H. apply nth_error_nth'. auto. Qed.

(** segments *)
Lemma put_segment_ok {T} (buf : list T) d seg x : length seg = 0 \/ d + length seg <= length buf ->
  exists b, put_segment buf d seg = Ok b /\ length b = length buf /\
    forall k, nth k b x = if (d <=? k) && (k <? d + length seg) then nth (k - d) seg x else nth k buf x.
Proof.
  intros H. unfold put_segment. destruct (Nat.eqb_spec (length seg) 0) as [E0|E0].
  { exists buf. repeat split; auto. intros k. rewrite E0.
    destruct (Nat.leb_spec d k); destruct (Nat.ltb_spec k (d + 0)); simpl; auto; lia. }
  assert (H1 : d + length seg <= length buf) by lia. clear H. rename H1 into H.
  apply Nat.leb_le in H as H'. rewrite H'.
  exists (firstn d buf ++ seg ++ skipn (d + length seg) buf). split; [auto|].
  assert (HL : length (firstn d buf) = d) by (rewrite firstn_length; lia). split.
  - rewrite !app_length, HL, skipn_length. lia.
  - intros k. destruct (Nat.leb_spec d k); simpl.
    + destruct (Nat.ltb_spec k (d + length seg)).
      * rewrite app_nth2 by lia. rewrite HL, app_nth1 by lia. auto.
      * rewrite app_nth2 by lia. rewrite HL, app_nth2 by lia.
        rewrite <- (firstn_skipn (d + length seg) buf) at 2.
        rewrite app_nth2; rewrite firstn_length; [|lia]. f_equal. lia.
    + rewrite app_nth1 by lia. rewrite <- (firstn_skipn d buf) at 2. rewrite app_nth1 by lia. auto.
Qed.

Lemma segment_ok {T} (buf : list T) d c x : c = 0 \/ d + c <= length buf ->
  exists g, segment buf d c = Ok g /\ length g = c /\ forall k, k < c -> nth k g x = nth (d + k) buf x.
Proof.
  intros H. unfold segment. destruct (Nat.eqb_spec c 0) as [->|E0].
  { exists []. repeat split; auto. intros; lia. }
  assert (H1 : d + c <= length buf) by lia. clear H. rename H1 into H.
  apply Nat.leb_le in H as H'. rewrite H'. cbn [orb].
  exists (firstn c (skipn d buf)). split; [auto|]. split.
  - rewrite firstn_length, skipn_length. lia.
  - intros k Hk. rewrite <- (firstn_skipn d buf) at 2. rewrite app_nth2; rewrite firstn_length; [|lia].
    replace (d + k - Nat.min d (length buf)) with k by lia.
    rewrite <- (firstn_skipn c (skipn d buf)) at 2. rewrite app_nth1; auto.
    rewrite firstn_length, skipn_length. lia.
Qed.

(** position [k] belongs to the segment of rank s *)
Definition in_seg (counts displs : list nat) (s k : nat) : Prop :=
  nth s displs 0 <= k < nth s displs 0 + nth s counts 0.

Lemma disjoint_segments_ok P counts displs :
  (forall s t k, s < P -> t < P -> in_seg counts displs s k -> in_seg counts displs t k -> s = t) ->
  disjoint_segments P counts displs = true.
Proof.
  intros H. unfold disjoint_segments. apply forallb_forall. intros s Hs. apply in_seq in Hs.
  apply forallb_forall. intros t Ht. apply in_seq in Ht.
  destruct (Nat.eqb_spec s t); simpl; auto.
  destruct (Nat.eqb_spec (nth s counts 0) 0); simpl; auto.
  destruct (Nat.eqb_spec (nth t counts 0) 0); simpl; auto.
  destruct (Nat.leb_spec (nth s displs 0 + nth s counts 0) (nth t displs 0)); simpl; auto.
  destruct (Nat.leb_spec (nth t displs 0 + nth t counts 0) (nth s displs 0)); simpl; auto.
  exfalso. apply n.
  apply (H s t (Nat.max (nth s displs 0) (nth t displs 0))); unfold in_seg; lia.
Qed.

(** every rank receives every contribution *)
Lemma allgatherv_ok {T} (x : T) (counts displs : list nat) (bufs : list (list T)) L :
  length counts = length bufs -> length displs = length bufs ->
  (forall r b, nth_error bufs r = Some b -> length b = L) ->
  (forall s, s < length bufs -> nth s counts 0 = 0 \/ nth s displs 0 + nth s counts 0 <= L) ->
  (forall s t k, s < length bufs -> t < length bufs ->
     in_seg counts displs s k -> in_seg counts displs t k -> s = t) ->
  exists out, allgatherv counts displs bufs = Ok out /\ length out = length bufs /\
    forall r b, nth_error out r = Some b -> length b = L /\
      (forall s k, s < length bufs -> in_seg counts displs s k -> nth k b x = nth k (nth s bufs []) x).
Proof.
  intros HC HD HL Hin Hdis. unfold allgatherv. rewrite disjoint_segments_ok by auto.
  set (P := length bufs) in *.
  destruct (ranks_ok P (fun s => b <- rd bufs s ;; c <- rd counts s ;; d <- rd displs s ;; segment b d c)
     (fun s g => length g = nth s counts 0 /\
        forall k, k < nth s counts 0 -> nth k g x = nth (nth s displs 0 + k) (nth s bufs []) x)) as (segs & Es & Ls & Hs).
  { intros s Hs. rewrite (rd_ok bufs s []) by auto. cbn [bind]. rewrite (rd_ok counts s 0) by lia. cbn [bind].
    rewrite (rd_ok displs s 0) by lia. cbn [bind].
    destruct (segment_ok (nth s bufs []) (nth s displs 0) (nth s counts 0) x) as (g & E & H1 & H2).
    { rewrite (HL s); [apply Hin; auto|]. apply some_nth. auto. }
    rewrite E. simpl. auto. }
  rewrite Es. cbn [bind].
  destruct (ranks_ok P (fun r => b <- rd bufs r ;; for_n P (fun s b => d <- rd displs s ;; g <- rd segs s ;; put_segment b d g) b)
     (fun r b => length b = L /\ forall s k, s < P -> in_seg counts displs s k -> nth k b x = nth k (nth s bufs []) x)) as (out & Eo & Lo & Ho).
  { intros r Hr. rewrite (rd_ok bufs r []) by auto. cbn [bind].
    eapply wp_mono.
    - apply (for_n_inv (fun n b => length b = L /\
        forall s k, s < n -> in_seg counts displs s k -> nth k b x = nth k (nth s bufs []) x)).
      + split; [apply (HL r), some_nth; auto|]. intros; lia.
      + intros s b Hs' [Hb1 Hb2]. rewrite (rd_ok displs s 0) by lia. cbn [bind].
        rewrite (rd_ok segs s []) by lia. cbn [bind].
        assert (Hg := Hs s (nth s segs []) (some_nth segs s [] ltac:(lia))). destruct Hg as [Hg1 Hg2].
        destruct (put_segment_ok b (nth s displs 0) (nth s segs []) x) as (b' & E & H1 & H2).
        { rewrite Hg1, Hb1. apply Hin; auto. }
        rewrite E. simpl. split; [lia|]. intros t k Ht Hk. rewrite H2, Hg1.
        destruct (Nat.leb_spec (nth s displs 0) k); simpl.
        * destruct (Nat.ltb_spec k (nth s displs 0 + nth s counts 0)).
          -- assert (s = t) by (apply (Hdis s t k); unfold in_seg in *; try lia; auto). subst t.
             rewrite Hg2 by lia. f_equal. lia.
          -- apply Hb2; auto. assert (t <> s); [|lia]. intros ->. unfold in_seg in Hk. lia.
        * apply Hb2; auto. assert (t <> s); [|lia]. intros ->. unfold in_seg in Hk. lia.
    - auto. }
  exists out. rewrite Eo. auto.
Qed.

(** ** Domains *)
Lemma owns_lt P N M d r i : row_domain P N M d -> r < P -> owns d r i -> i < N.
Proof. intros (_ & _ & (_ & H) & _). apply H. Qed.

Lemma my_rows_owns d r i : In i (my_rows d r) <-> owns d r i.
Proof. unfold my_rows, owns. rewrite in_seq. lia. Qed.

Lemma dom_rows_seg P N M d r i : row_domain P N M d -> r < P ->
  owns d r i <-> in_seg (localRowExtent d) (localRowMin d) r i.
Proof.
  intros (_ & HC & _) Hr. destruct (HC r Hr) as [H1 _]. unfold owns, in_seg. lia.
Qed.

Lemma owner_unique P N M d i r s : row_domain P N M d -> r < P -> s < P -> owns d r i -> owns d s i -> r = s.
Proof.
  intros HD Hr Hs H1 H2. assert (Hi := owns_lt _ _ _ _ _ _ HD Hr H1). destruct HD as (_ & _ & (HP & _) & _).
  destruct (HP i Hi) as (q & _ & _ & Hq). rewrite (Hq r), (Hq s); auto.
Qed.

Lemma owner_exists P N M d i : row_domain P N M d -> i < N -> exists r, r < P /\ owns d r i.
Proof. intros (_ & _ & (HP & _) & _) Hi. destruct (HP i Hi) as (q & H1 & H2 & _). eauto. Qed.

(** the elements of the rows of rank r *)
Lemma dom_elems_seg P N M d r k : row_domain P N M d -> r < P ->
  in_seg (localElements d) (localDispl d) r k <-> M <> 0 /\ owns d r (k / M).
Proof.
  intros (_ & HC & _ & HD) Hr. destruct (HC r Hr) as [H1 H2]. assert (H3 := HD r Hr).
  unfold in_seg, owns. rewrite H2, H3, H1. destruct M as [|m]; [lia|]. set (M := S m).
  assert (M <> 0) by (unfold M; lia).
  assert (E := Nat.div_mod k M H). assert (Hm := Nat.mod_upper_bound k M H).
  set (q := k / M) in *. set (z := k mod M) in *.
  split; [intros [H4 H5]; split; [auto|]; split; nia|]. intros (_ & H4 & H5). nia.
Qed.

(** the segments of the rows of M elements *)
Lemma row_cell_seg P N M d r i j : row_domain P N M d -> r < P -> owns d r i -> j < M ->
  in_seg (localElements d) (localDispl d) r (i * M + j).
Proof.
  intros HD Hr Ho Hj. apply (dom_elems_seg P N M); auto. split; [lia|].
  replace ((i * M + j) / M) with i; auto. apply Nat.div_unique with j; lia.
Qed.

Lemma rows_bound P N M d r : row_domain P N M d -> r < P ->
  nth r (localRowMin d) 0 + nth r (localRowExtent d) 0 <= N \/ nth r (localRowExtent d) 0 = 0.
Proof.
  intros HD Hr. destruct (Nat.eq_dec (nth r (localRowExtent d) 0) 0); auto. left.
  assert (HO : owns d r (nth r (localRowMin d) 0 + nth r (localRowExtent d) 0 - 1)).
  { apply (dom_rows_seg P N M); auto. unfold in_seg. lia. }
  assert (H := owns_lt _ _ _ _ _ _ HD Hr HO). lia.
Qed.
