(** Facts about blocks, loops over blocks and the heap of a block matrix. *)
From Verif Require Import Base BaseFacts Spec SpecFacts EllpackModel EllblockModel EllblockSpec.

(** ** Geometry of blocks *)
Lemma bsz_cons b t ib : bsz (b :: t) (S ib) = bsz t ib.
Proof. reflexivity. Qed.
Lemma boff_cons b t ib : boff (b :: t) (S ib) = b + boff t ib.
Proof.
  unfold boff. induction ib as [|ib IH]; [simpl; unfold bsz; simpl; lia|].
  change (nsum (S (S ib)) (bsz (b :: t))) with (nsum (S ib) (bsz (b :: t)) + bsz (b :: t) (S ib)).
  rewrite IH. simpl. unfold bsz. simpl. lia.
Qed.
Lemma boff_S bs ib : boff bs (S ib) = boff bs ib + bsz bs ib.
Proof. reflexivity. Qed.

Lemma bloc_spec bs i : i < boff bs (length bs) ->
  exists ib ii, bloc bs i = (ib, ii) /\ ib < length bs /\ ii < bsz bs ib /\ i = boff bs ib + ii.
Proof.
  revert i; induction bs as [|b t IH]; intros i H; [unfold boff in H; simpl in H; lia|].
  cbn [bloc length] in *. rewrite boff_cons in H.
  destruct (Nat.leb_spec b i) as [L|L].
  - destruct (IH (i - b)) as (ib & ii & E & H1 & H2 & H3); [lia|].
    rewrite E. exists (S ib), ii. rewrite boff_cons, bsz_cons. repeat split; auto; lia.
  - exists 0, i. repeat split; unfold bsz, boff; simpl; lia.
Qed.
Lemma bloc_at bs ib ii : ib < length bs -> ii < bsz bs ib -> bloc bs (boff bs ib + ii) = (ib, ii).
Proof.
  revert ib; induction bs as [|b t IH]; intros ib H1 H2; [simpl in H1; lia|].
  destruct ib as [|ib].
  - unfold bsz in H2; simpl in H2. cbn [bloc]. unfold boff; cbn [nsum].
    destruct (Nat.leb_spec b (0 + ii)) as [L|L]; [lia|reflexivity].
  - cbn [bloc]. rewrite boff_cons. destruct (Nat.leb_spec b (b + boff t ib + ii)) as [L|L]; [|lia].
    replace (b + boff t ib + ii - b) with (boff t ib + ii) by lia.
    simpl in H1. rewrite bsz_cons in H2. rewrite IH by (auto; lia). reflexivity.
Qed.
Lemma locate_ok bs k i : i < boff bs (length bs) -> locate bs k i = Ok (k + fst (bloc bs i), snd (bloc bs i)).
Proof.
  revert k i; induction bs as [|b t IH]; intros k i H; [unfold boff in H; simpl in H; lia|].
  cbn [bloc length locate] in *. rewrite boff_cons in H.
  destruct (Nat.leb_spec b i) as [L|L].
  - rewrite IH by lia. destruct (bloc t (i - b)); cbn [fst snd]. f_equal. f_equal. lia.
  - cbn [fst snd]. f_equal. f_equal. lia.
Qed.
Lemma locate_oob bs k i : boff bs (length bs) <= i -> locate bs k i = UB.
Proof.
  revert k i; induction bs as [|b t IH]; intros k i H; [reflexivity|].
  cbn [length locate] in *. rewrite boff_cons in H.
  destruct (Nat.leb_spec b i) as [L|L]; [|lia]. apply IH. lia.
Qed.
Lemma boff_mono bs a b : a <= b -> boff bs a <= boff bs b.
Proof. induction 1; [lia|rewrite boff_S; lia]. Qed.
Lemma boff_in bs ib ii n : ib < n -> ii < bsz bs ib -> boff bs ib + ii < boff bs n.
Proof. intros H1 H2. pose proof (boff_mono bs (S ib) n ltac:(lia)). rewrite boff_S in H. lia. Qed.

(** positions inside a block *)
Lemma pos_lt m n i j : i < m -> j < n -> i * n + j < m * n.
Proof. intros. assert (S i * n <= m * n) by (apply Nat.mul_le_mono_r; lia). simpl in *. lia. Qed.
Lemma pos_div n i j : j < n -> (i * n + j) / n = i.
Proof. intros. rewrite Nat.div_add_l by lia. rewrite Nat.div_small by lia. lia. Qed.
Lemma pos_mod n i j : j < n -> (i * n + j) mod n = j.
Proof. intros. rewrite Nat.add_comm, Nat.mod_add by lia. apply Nat.mod_small; lia. Qed.
Lemma pos_split m n k : k < m * n -> k / n < m /\ k mod n < n /\ k = k / n * n + k mod n.
Proof.
  intros H. assert (n <> 0) by (intros ->; lia).
  split; [apply Nat.div_lt_upper_bound; lia|]. split; [apply Nat.mod_upper_bound; auto|].
  rewrite (Nat.mul_comm (k / n) n). apply Nat.div_mod; auto.
Qed.

Lemma bigsum_blocks {F : scalar} bs n (f : nat -> F) :
  bigsum (boff bs n) f = bigsum n (fun ib => bigsum (bsz bs ib) (fun ii => f (boff bs ib + ii)%nat)).
Proof.
  induction n as [|n IH]; [reflexivity|].
  rewrite boff_S, bigsum_split. rewrite IH. reflexivity.
Qed.
Lemma bigsum_cells {F : scalar} m n (f : nat -> nat -> F) :
  bigsum (m * n) (fun k => f (k / n) (k mod n)) = bigsum m (fun i => bigsum n (fun j => f i j)).
Proof.
  induction m as [|m IH]; [reflexivity|].
  replace (S m * n) with (m * n + n) by lia. rewrite bigsum_split, IH. cbn [bigsum]. f_equal.
  apply bigsum_ext; intros j Hj. rewrite pos_div, pos_mod by auto. reflexivity.
Qed.

Lemma offsets_ok NB bs : 0 < NB -> NB <= length bs -> offsets NB bs = Ok (map (boff bs) (seq 0 NB)).
Proof.
  intros H0 HL. apply wp_eq. unfold offsets. apply wp_bind.
  rewrite wr_ok by (rewrite repeat_length; lia). cbn [wpq].
  set (P := fun (pre : list nat) (o : list nat) => length o = NB /\ forall i, i <= length pre -> i < NB -> nth i o 0 = boff bs i).
  apply wp_mono with (P := P (seq 1 (NB - 1))).
  - apply (forM_inv P).
    + split; [rewrite length_set_nth, repeat_length; auto|].
      intros i Hi Hn. simpl in Hi. assert (i = 0) as -> by lia. rewrite nth_set_nth_eq by (rewrite repeat_length; lia). reflexivity.
    + intros pre x post o E [HLo HP].
      assert (Hx : x = S (length pre) /\ x < NB).
      { assert (Hl : length pre < NB - 1). { rewrite <- (seq_length (NB - 1) 1), E, app_length. simpl. lia. }
        assert (nth (length pre) (seq 1 (NB - 1)) 0 = x). { rewrite E, app_nth2, Nat.sub_diag; auto. }
        rewrite seq_nth in H by lia. lia. }
      destruct Hx as [Hx Hxn].
      apply wp_bind. rewrite (rd_ok o (x - 1) 0) by lia. cbn [wpq]. apply wp_bind. rewrite (rd_ok bs (x - 1) 0) by lia. cbn [wpq].
      rewrite wr_ok by lia. cbn [wpq]. split; [rewrite length_set_nth; auto|].
      rewrite app_length. intros i Hi Hn. simpl in Hi. rewrite nth_set_nth.
      destruct (Nat.eqb_spec i x) as [Ei|Ei]; cbn [andb].
      * destruct (Nat.ltb_spec x (length o)); [|lia]. subst i. rewrite HP by lia.
        replace x with (S (x - 1)) at 3 by lia. rewrite boff_S. reflexivity.
      * apply HP; lia.
  - intros o [HLo HP]. apply list_ext_nth with (d := 0); [rewrite map_length, seq_length; auto|].
    intros i Hi. rewrite nth_map_seq by lia. apply HP; [rewrite seq_length; lia|lia].
Qed.

Lemma maxbsize_ok NB bs : NB <= length bs -> exists m, maxbsize NB bs = Ok m /\ (forall ib, ib < NB -> bsz bs ib <= m) /\
   (0 < NB -> exists ib, ib < NB /\ bsz bs ib = m).
Proof.
  intros HL. apply wp_ok. unfold maxbsize.
  apply wp_mono with (P := fun m => (forall ib, ib < NB -> bsz bs ib <= m) /\ (NB = 0 -> m = 0) /\ (0 < NB -> exists ib, ib < NB /\ bsz bs ib = m)).
  2:{ tauto. }
  apply (for_n_inv (fun n m => (forall ib, ib < n -> bsz bs ib <= m) /\ (n = 0 -> m = 0) /\ (0 < n -> exists ib, ib < n /\ bsz bs ib = m))).
  - repeat split; intros; lia.
  - intros i m Hi (H1 & H2 & H3). apply wp_bind. rewrite (rd_ok bs i 0) by lia. cbn [wpq].
    fold (bsz bs i). repeat split.
    + intros ib Hib. destruct (Nat.eq_dec ib i) as [->|]; [lia|]. specialize (H1 ib ltac:(lia)). lia.
    + lia.
    + intros _. destruct (Nat.max_spec m (bsz bs i)) as [[Hm E]|[Hm E]]; rewrite E.
      * exists i; split; auto; lia.
      * destruct (Nat.eq_dec i 0) as [E0|E0].
        { exists i. split; [lia|]. specialize (H2 E0). lia. }
        { destruct H3 as (ib & A & B); [lia|]. exists ib; split; auto; lia. }
Qed.

(** ** Loops over one block *)
Section Blocks.
  Context {F : scalar}.
  Local Open Scope K_scope.
  Implicit Types x y : list F.

  Lemma blk_map_ok {e} n f (h : nat -> F) x : (n <= length x)%nat ->
    (forall k, (k < n)%nat -> f k (nth k x 0) = Ok (h k)) ->
    wpq e (blk_map n f x) (fun y => length y = length x /\ (forall k, (k < n)%nat -> nth k y 0 = h k) /\
                                    (forall k, (n <= k)%nat -> nth k y 0 = nth k x 0)).
  Proof.
    intros HL Hf. unfold blk_map.
    apply (for_n_inv (fun n y => length y = length x /\ (forall k, (k < n)%nat -> nth k y 0 = h k) /\
                                    (forall k, (n <= k)%nat -> nth k y 0 = nth k x 0))).
    - repeat split; auto; intros; lia.
    - intros i y Hi (HLy & H1 & H2). apply wp_bind. rewrite (rd_ok y i 0) by lia. cbn [wpq].
      apply wp_bind. rewrite H2 by lia. rewrite Hf by auto. cbn [wpq].
      rewrite wr_ok by lia. cbn [wpq]. split; [rewrite length_set_nth; auto|].
      split; intros k Hk; rewrite nth_set_nth; destruct (Nat.eqb_spec k i) as [E|E]; cbn [andb].
      + destruct (Nat.ltb_spec i (length y)); [subst; auto|lia].
      + apply H1; lia.
      + lia.
      + apply H2; lia.
  Qed.

  Lemma for_2_flat {S} m n (body : nat -> nat -> S -> res S) s :
    for_2 m n body s = for_n (m * n) (fun k => body (k / n) (k mod n)) s.
  Proof.
    unfold for_2. induction m as [|m IH]; [reflexivity|].
    rewrite for_n_S, IH. unfold for_n at 1 3. replace (Datatypes.S m * n)%nat with (m * n + n)%nat by lia.
    rewrite seq_app, forM_app. destruct (forM (seq 0 (m * n)) _ s) as [s'| | |]; cbn [bind]; auto.
    cbn [plus]. unfold for_n.
    assert (E : forall d l s', (forall j, In j l -> (j < n)%nat) -> d = (m * n)%nat ->
       forM l (fun jj s => body m jj s) s' = forM (map (plus d) l) (fun k => body (k / n)%nat (k mod n)%nat) s').
    { intros d l s2 H ->. rewrite forM_map. apply forM_ext. intros j s3 Hj. specialize (H j Hj).
      rewrite pos_div, pos_mod by auto. reflexivity. }
    rewrite (E (m * n)%nat); auto.
    - f_equal. clear. generalize (m * n)%nat as d. intros d.
      assert (G : forall n a, map (plus d) (seq a n) = seq (d + a) n).
      { clear. induction n as [|n IH]; intros a; [reflexivity|]. simpl. f_equal. rewrite IH. f_equal. lia. }
      rewrite G. f_equal. lia.
    - intros j Hj. apply in_seq in Hj. lia.
  Qed.

  (** writing at different places *)
  Lemma scatter_ok {e} n (f : nat -> res F) (h : nat -> F) (sg : nat -> nat) y0 :
    (forall k, (k < n)%nat -> f k = Ok (h k)) -> (forall k, (k < n)%nat -> (sg k < length y0)%nat) ->
    (forall k k', (k < n)%nat -> (k' < n)%nat -> sg k = sg k' -> k = k') ->
    wpq e (for_n n (fun k y => v <- f k ;; wr y (sg k) v) y0)
      (fun y => length y = length y0 /\ (forall k, (k < n)%nat -> nth (sg k) y 0 = h k) /\
                (forall p, (forall k, (k < n)%nat -> p <> sg k) -> nth p y 0 = nth p y0 0)).
  Proof.
    intros Hf Hs Hi.
    apply (for_n_inv (fun i y => length y = length y0 /\ (forall k, (k < i)%nat -> nth (sg k) y 0 = h k) /\
                (forall p, (forall k, (k < i)%nat -> p <> sg k) -> nth p y 0 = nth p y0 0))).
    - repeat split; auto; intros; lia.
    - intros i y Hin (HL & H1 & H2). apply wp_bind. rewrite Hf by auto. cbn [wpq].
      rewrite wr_ok by (rewrite HL; auto). cbn [wpq]. split; [rewrite length_set_nth; auto|]. split.
      + intros k Hk. rewrite nth_set_nth. destruct (Nat.eqb_spec (sg k) (sg i)) as [E|E]; cbn [andb].
        * specialize (Hs i Hin). destruct (Nat.ltb_spec (sg i) (length y)); [|lia]. f_equal. symmetry. apply Hi; auto; lia.
        * apply H1. assert (k <> i) by (intros ->; auto). lia.
      + intros p Hp. rewrite nth_set_nth_neq by (apply Hp; lia). apply H2. intros k Hk. apply Hp. lia.
  Qed.

  Lemma blk_above_ok (keep : F -> bool) n x : (n <= length x)%nat ->
    blk_above keep n x = Ok (existsb (fun k => keep (nth k x 0)) (seq 0 n)).
  Proof.
    intros H. apply wp_eq. unfold blk_above.
    apply (for_n_inv (fun n b => b = existsb (fun k => keep (nth k x 0)) (seq 0 n))); [reflexivity|].
    intros i b Hi ->. apply wp_bind. rewrite (rd_ok x i 0) by lia. cbn [wpq].
    rewrite seq_S, existsb_app. cbn [existsb plus]. rewrite orb_false_r. reflexivity.
  Qed.

  (** sums *)
  Lemma sum_loop n (f : nat -> F -> res F) (h : nat -> F) s :
    (forall k s, (k < n)%nat -> f k s = Ok (s + h k)) -> for_n n f s = Ok (s + bigsum n h).
  Proof.
    intros H. apply wp_eq. apply (for_n_inv (fun n t => t = s + bigsum n h)).
    - simpl. pose proof (k_ring F) as R. symmetry. rewrite (Radd_comm R). apply (Radd_0_l R).
    - intros i t Hi ->. rewrite H by auto. cbn [wpq bigsum]. rewrite (Radd_assoc (k_ring F)). reflexivity.
  Qed.

  Lemma blk_fill_ok {e} m n (f : nat -> nat -> res F) (h : nat -> nat -> F) x : (m * n <= length x)%nat ->
    (forall ii jj, (ii < m)%nat -> (jj < n)%nat -> f ii jj = Ok (h ii jj)) ->
    wpq e (blk_fill m n f x) (fun y => length y = length x /\ forall k, (k < m * n)%nat -> nth k y 0 = h (k / n)%nat (k mod n)%nat).
  Proof.
    intros HL Hf. unfold blk_fill. rewrite for_2_flat.
    eapply wp_mono. { apply (scatter_ok (m * n) (fun k => f (k / n) (k mod n))%nat (fun k => h (k / n) (k mod n))%nat (fun k => ROWMAJOR (k / n) (k mod n) m n) x).
      - intros k Hk. destruct (pos_split _ _ _ Hk) as (A & B & _). apply Hf; auto.
      - intros k Hk. unfold ROWMAJOR. destruct (pos_split _ _ _ Hk) as (A & B & C). lia.
      - intros k k' Hk Hk'. unfold ROWMAJOR. destruct (pos_split _ _ _ Hk) as (_ & _ & C), (pos_split _ _ _ Hk') as (_ & _ & C'). lia. }
    intros y (A & B & _). split; auto. intros k Hk. specialize (B k Hk). unfold ROWMAJOR in B.
    destruct (pos_split _ _ _ Hk) as (_ & _ & C). rewrite <- C in B. exact B.
  Qed.
End Blocks.
