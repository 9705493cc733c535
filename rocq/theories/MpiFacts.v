(** Programs made of matched exchanges have one result under every
    interleaving, and never deadlock. *)
From Coq Require Import Lia.
From Verif Require Import Base BaseFacts MpiModel MpiSpec.

Section MpiFacts.
  Context {St Msg : Type}.
  Local Notation block := (block St Msg).
  Local Notation config := (config St Msg).
  Local Notation act := (act St Msg).

  Definition dflt : block := BLocal (fun _ s => Ok s).
  Definition partb (b : block) (r : nat) : bool := match b with BLocal _ => false | BExch _ _ part _ _ => part r end.
  Definition srcb (b : block) (r : nat) : nat := match b with BLocal _ => 0 | BExch src _ _ _ _ => src r end.
  Definition dstb (b : block) (r : nat) : nat := match b with BLocal _ => 0 | BExch _ dst _ _ _ => dst r end.
  Definition payb (b : block) (r : nat) (s : St) : list Msg :=
    match b with BLocal _ => [] | BExch _ _ _ get _ => [get r s] end.

  Variable P : nat.
  Variable bs : list block.
  Variable D : nat -> nat -> St.
  Hypothesis V : Forall (valid P) bs.
  Hypothesis LS : lockstep P bs 0 D.

  Local Notation B j := (nth j bs dflt).
  Local Notation L := (length bs).

  Lemma lockstep_nth bs0 k0 : lockstep P bs0 k0 D -> forall j, j < length bs0 -> forall r, r < P ->
    sync_block (nth j bs0 dflt) (D (k0 + j)) r = Ok (D (S (k0 + j)) r).
  Proof using.
    revert k0. induction bs0 as [|b bs0 IH]; intros k0 H j Hj r Hr; simpl in *; [lia|].
    destruct H as [H1 H2]. destruct j as [|j].
    - rewrite Nat.add_0_r. exact (H1 r Hr).
    - replace (k0 + S j) with (S k0 + j) by lia. apply IH; [exact H2|lia|exact Hr].
  Qed.

  Lemma LSn j r : j < L -> r < P -> sync_block (B j) (D j) r = Ok (D (S j) r).
  Proof using LS. intros Hj Hr. exact (lockstep_nth bs 0 LS j Hj r Hr). Qed.

  Lemma Vn j r : j < L -> r < P -> partb (B j) r = true ->
    srcb (B j) r < P /\ dstb (B j) r < P /\ partb (B j) (srcb (B j) r) = true /\ partb (B j) (dstb (B j) r) = true /\
    dstb (B j) (srcb (B j) r) = r /\ srcb (B j) (dstb (B j) r) = r.
  Proof using V.
    intros Hj Hr Hp. rewrite Forall_forall in V. specialize (V (B j) (nth_In bs dflt Hj)).
    destruct (B j) as [f|src dst part get put]; [discriminate|]. exact (V r Hr Hp).
  Qed.

  Lemma skipn_cons j : j < L -> skipn j bs = B j :: skipn (S j) bs.
  Proof using. intros Hj. apply skipn_S_nth. exact Hj. Qed.

  Definition kk (pos : nat -> nat * nat) (r : nat) := fst (pos r).
  Definition sent (pos : nat -> nat * nat) (r : nat) := fst (pos r) + (if Nat.eqb (snd (pos r)) 2 then 1 else 0).
  Definition expect (s d a n : nat) : list Msg :=
    flat_map (fun j => if (partb (B j) s && Nat.eqb (dstb (B j) s) d)%bool then payb (B j) s (D j s) else []) (seq a n).

  Definition tail (k r : nat) := program_of (skipn k bs) r.
  Definition task (c : config) (k sub r : nat) : Prop :=
    match sub with
    | 0 => todo c r = tail k r /\ posted c r = None
    | 1 => k < L /\ partb (B k) r = true /\ posted c r = Some (srcb (B k) r) /\ todo c r = skipn 1 (acts (B k) r) ++ tail (S k) r
    | 2 => k < L /\ partb (B k) r = true /\ posted c r = Some (srcb (B k) r) /\ todo c r = skipn 2 (acts (B k) r) ++ tail (S k) r
    | _ => False
    end.

  Definition Inv (c : config) (pos : nat -> nat * nat) : Prop :=
    (forall r, r < P -> kk pos r <= L /\ task c (kk pos r) (snd (pos r)) r /\ loc c r = D (kk pos r) r) /\
    (forall r j, r < P -> j < kk pos r -> partb (B j) r = true -> j < sent pos (srcb (B j) r)) /\
    (forall s d, s < P -> d < P -> chan c s d = expect s d (kk pos d) (sent pos s - kk pos d)).

  Lemma tail_cons k r : k < L -> tail k r = acts (B k) r ++ tail (S k) r.
  Proof using. intros Hk. unfold tail. rewrite (skipn_cons k Hk). reflexivity. Qed.
  Lemma tail_nil r : tail L r = [].
  Proof using. unfold tail. rewrite skipn_all. reflexivity. Qed.

  Lemma inv_init : Inv (initial (program_of bs) (D 0)) (fun _ => (0, 0)).
  Proof using.
    split; [|split].
    - intros r Hr. unfold kk. simpl. split; [lia|]. split; [|reflexivity]. split; reflexivity.
    - intros r j Hr Hj. unfold kk in Hj. simpl in Hj. lia.
    - intros s d Hs Hd. reflexivity.
  Qed.

  Lemma upd_fun_eq {A} (f : nat -> A) i v : upd_fun f i v i = v.
  Proof using. unfold upd_fun. rewrite Nat.eqb_refl. reflexivity. Qed.
  Lemma upd_fun_neq {A} (f : nat -> A) i j v : j <> i -> upd_fun f i v j = f j.
  Proof using. intros H. unfold upd_fun. destruct (Nat.eqb_spec j i); [contradiction|reflexivity]. Qed.
  Lemma upd2_eq {A} (f : nat -> nat -> A) i j v : upd2 f i j v i j = v.
  Proof using. unfold upd2. rewrite !Nat.eqb_refl. reflexivity. Qed.
  Lemma upd2_neq {A} (f : nat -> nat -> A) i j a b v : (a <> i \/ b <> j) -> upd2 f i j v a b = f a b.
  Proof using.
    intros H. unfold upd2. destruct (Nat.eqb_spec a i); simpl; [|reflexivity].
    destruct (Nat.eqb_spec b j); [|reflexivity]. subst. tauto.
  Qed.

  Lemma expect_skip s d a n : (partb (B a) s = true -> dstb (B a) s <> d) -> expect s d a n = expect s d (S a) (n - 1).
  Proof using.
    intros H. destruct n as [|n]; [reflexivity|]. unfold expect. simpl. replace (n - 0) with n by lia.
    destruct (partb (B a) s); simpl; [|reflexivity].
    destruct (Nat.eqb_spec (dstb (B a) s) d) as [E|E]; [exfalso; exact (H eq_refl E)|reflexivity].
  Qed.
  Lemma expect_snoc s d a n : (partb (B (a + n)) s = true -> dstb (B (a + n)) s <> d) -> expect s d a (S n) = expect s d a n.
  Proof using.
    intros H. unfold expect. rewrite seq_S, flat_map_app. simpl. rewrite app_nil_r.
    destruct (partb (B (a + n)) s); simpl; [|apply app_nil_r].
    destruct (Nat.eqb_spec (dstb (B (a + n)) s) d) as [E|E]; [exfalso; exact (H eq_refl E)|apply app_nil_r].
  Qed.

  (** advancing task [r] from the end of block [k] without touching channels *)
  Lemma advance c c' pos r k :
    Inv c pos -> r < P -> pos r = (k, 0) -> k < L -> partb (B k) r = false ->
    todo c' = upd_fun (todo c) r (tail (S k) r) -> posted c' = posted c -> chan c' = chan c ->
    loc c' = upd_fun (loc c) r (D (S k) r) -> Inv c' (upd_fun pos r (S k, 0)).
  Proof using V.
    intros [I1 [I2 I3]] Hr Hpos Hk Hp Ht Hpo Hch Hl.
    assert (Hkk : forall x, x <> r -> kk (upd_fun pos r (S k, 0)) x = kk pos x)
      by (intros x Hx; unfold kk; rewrite upd_fun_neq by exact Hx; reflexivity).
    assert (Hkr : kk (upd_fun pos r (S k, 0)) r = S k) by (unfold kk; rewrite upd_fun_eq; reflexivity).
    assert (Hk0 : kk pos r = k) by (unfold kk; rewrite Hpos; reflexivity).
    assert (Hse : forall x, x <> r -> sent (upd_fun pos r (S k, 0)) x = sent pos x)
      by (intros x Hx; unfold sent; rewrite upd_fun_neq by exact Hx; reflexivity).
    assert (Hsr : sent (upd_fun pos r (S k, 0)) r = S k) by (unfold sent; rewrite upd_fun_eq; simpl; lia).
    assert (Hs0 : sent pos r = k) by (unfold sent; rewrite Hpos; simpl; lia).
    split; [|split].
    - intros x Hx. destruct (Nat.eq_dec x r) as [->|Hn].
      + rewrite Hkr, upd_fun_eq. simpl. split; [lia|]. rewrite Ht, Hpo, Hl, !upd_fun_eq.
        split; [|reflexivity]. split; [reflexivity|].
        destruct (I1 r Hr) as [_ [T _]]. rewrite Hpos in T. simpl in T. exact (proj2 T).
      + rewrite (Hkk x Hn), upd_fun_neq by exact Hn. destruct (I1 x Hx) as [T1 [T2 T3]].
        split; [exact T1|]. split; [|rewrite Hl, upd_fun_neq by exact Hn; exact T3].
        unfold task in *. rewrite Ht, Hpo, upd_fun_neq by exact Hn. exact T2.
    - intros x j Hx Hj Hpx.
      assert (Hmono : forall y, sent pos y <= sent (upd_fun pos r (S k, 0)) y).
      { intros y. destruct (Nat.eq_dec y r) as [->|Hn]; [rewrite Hs0, Hsr; lia|rewrite Hse by exact Hn; lia]. }
      eapply Nat.lt_le_trans; [|apply Hmono].
      destruct (Nat.eq_dec x r) as [->|Hn].
      + rewrite Hkr in Hj. destruct (Nat.eq_dec j k) as [->|Hjk]; [congruence|]. apply I2; [exact Hr|lia|exact Hpx].
      + rewrite (Hkk x Hn) in Hj. apply I2; assumption.
    - intros s d Hs Hd. rewrite Hch, (I3 s d Hs Hd).
      destruct (Nat.eq_dec s r) as [->|Hsn]; destruct (Nat.eq_dec d r) as [->|Hdn].
      + rewrite Hkr, Hsr, Hk0, Hs0, !Nat.sub_diag. reflexivity.
      + rewrite Hsr, (Hkk d Hdn), Hs0. destruct (le_lt_dec (kk pos d) k) as [Hle|Hlt].
        * replace (S k - kk pos d) with (S (k - kk pos d)) by lia. symmetry. apply expect_snoc.
          replace (kk pos d + (k - kk pos d)) with k by lia. congruence.
        * replace (S k - kk pos d) with 0 by lia. replace (k - kk pos d) with 0 by lia. reflexivity.
      + rewrite Hkr, (Hse s Hsn), Hk0. replace (sent pos s - S k) with (sent pos s - k - 1) by lia.
        apply expect_skip. intros Hps Hds.
        destruct (Vn k s Hk Hs Hps) as [_ [_ [_ [Q1 [_ _]]]]]. rewrite Hds in Q1. congruence.
      + rewrite (Hkk d Hdn), (Hse s Hsn). reflexivity.
  Qed.

  (** what a task with work left is about to do *)
  Lemma head_cases c pos r : Inv c pos -> r < P -> forall a t, todo c r = a :: t ->
    exists k sub, pos r = (k, sub) /\ k < L /\
      ((sub = 0 /\ exists f, a = ALocal f /\ t = tail (S k) r /\ partb (B k) r = false /\ f (loc c r) = Ok (D (S k) r)) \/
       (sub = 0 /\ partb (B k) r = true /\ a = AIrecv (srcb (B k) r) /\ t = skipn 1 (acts (B k) r) ++ tail (S k) r) \/
       (sub = 1 /\ partb (B k) r = true /\ exists get, a = ASend (dstb (B k) r) get /\ t = skipn 2 (acts (B k) r) ++ tail (S k) r /\
          payb (B k) r (loc c r) = [get (loc c r)]) \/
       (sub = 2 /\ partb (B k) r = true /\ exists put, a = AWait put /\ t = tail (S k) r /\
          forall m, payb (B k) (srcb (B k) r) (D k (srcb (B k) r)) = [m] -> put m (loc c r) = Ok (D (S k) r))).
  Proof using LS.
    intros [I1 _] Hr a t Ha. destruct (I1 r Hr) as [Hk [T Hl]].
    destruct (pos r) as [k sub] eqn:Hpos. unfold kk in *. rewrite Hpos in *. simpl in *.
    exists k, sub. split; [reflexivity|]. destruct sub as [|[|[|sub]]]; simpl in T.
    - destruct T as [T1 T2]. rewrite T1 in Ha.
      destruct (Nat.eq_dec k L) as [->|Hne]; [rewrite tail_nil in Ha; discriminate|].
      assert (Hlt : k < L) by lia. split; [exact Hlt|]. rewrite (tail_cons k r Hlt) in Ha.
      pose proof (LSn k r Hlt Hr) as Q.
      destruct (B k) as [f|src dst part get put] eqn:EB; simpl in *.
      + left. split; [reflexivity|]. exists (f r). injection Ha as <- <-. rewrite Hl. repeat split; exact Q.
      + destruct (part r) eqn:Ep; simpl in *.
        * right; left. injection Ha as <- <-. repeat split.
        * left. split; [reflexivity|]. exists (fun s => Ok s). injection Ha as <- <-. rewrite Hl. repeat split; exact Q.
    - destruct T as [Hlt [Hp [_ T]]]. split; [exact Hlt|]. right; right; left. split; [reflexivity|].
      destruct (B k) as [f|src dst part get put] eqn:EB; simpl in *; [discriminate|]. rewrite Hp in *. simpl in *.
      split; [reflexivity|]. exists (get r). rewrite T in Ha. injection Ha as <- <-. repeat split.
    - destruct T as [Hlt [Hp [_ T]]]. split; [exact Hlt|]. right; right; right. split; [reflexivity|].
      pose proof (LSn k r Hlt Hr) as Q.
      destruct (B k) as [f|src dst part get put] eqn:EB; simpl in *; [discriminate|]. rewrite Hp in *. simpl in *.
      split; [reflexivity|]. exists (put r). rewrite T in Ha. injection Ha as <- <-. split; [reflexivity|]. split; [reflexivity|].
      intros m Hm. injection Hm as <-. rewrite Hl. exact Q.
    - contradiction.
  Qed.

  (** the message a waiting task finds *)
  Lemma wait_head c pos r k : Inv c pos -> r < P -> pos r = (k, 2) -> k < L -> partb (B k) r = true ->
    k < sent pos (srcb (B k) r) ->
    exists m, payb (B k) (srcb (B k) r) (D k (srcb (B k) r)) = [m] /\
      chan c (srcb (B k) r) r = m :: expect (srcb (B k) r) r (S k) (sent pos (srcb (B k) r) - S k).
  Proof using V.
    intros [I1 [I2 I3]] Hr Hpos Hk Hp Hs. destruct (Vn k r Hk Hr Hp) as [V1 [_ [V2 [_ [V3 _]]]]].
    rewrite (I3 _ r V1 Hr). unfold kk. rewrite Hpos. simpl fst.
    replace (sent pos (srcb (B k) r) - k) with (S (sent pos (srcb (B k) r) - S k)) by lia.
    unfold expect at 1. simpl seq. simpl flat_map. rewrite V2, V3, Nat.eqb_refl. simpl.
    destruct (B k) as [f|src dst part get put] eqn:EB; [discriminate|]. simpl in *.
    eexists. split; [reflexivity|]. reflexivity.
  Qed.

  (** a task waiting on a nonempty channel: its sender has passed the block *)
  Lemma wait_sent c pos r k m ms : Inv c pos -> r < P -> pos r = (k, 2) -> k < L -> partb (B k) r = true ->
    chan c (srcb (B k) r) r = m :: ms -> k < sent pos (srcb (B k) r).
  Proof using V.
    intros [I1 [I2 I3]] Hr Hpos Hk Hp Hc. destruct (Vn k r Hk Hr Hp) as [V1 _].
    rewrite (I3 _ r V1 Hr) in Hc. unfold kk in Hc. rewrite Hpos in Hc. simpl fst in Hc.
    destruct (le_lt_dec (sent pos (srcb (B k) r)) k) as [Hle|Hlt]; [|exact Hlt].
    replace (sent pos (srcb (B k) r) - k) with 0 in Hc by lia. discriminate.
  Qed.

  Lemma inv_step strict c c' pos : Inv c pos -> step strict P c c' -> exists pos', Inv c' pos'.
  Proof using V LS.
    intros HI Hs. inversion Hs as [c0 r f t s Hr Ht Hf|c0 r src t Hr Ht Hpo|c0 r dst get t Hr Hd Ht Hst|c0 r src put t m ms s Hr Ht Hpo Hc Hpu]; subst c0.
    - destruct (head_cases c pos r HI Hr _ _ Ht) as (k & sub & Hpos & Hk & [(-> & f' & Ef & Et & Hp & Q)|[(_ & _ & E & _)|[(_ & _ & g & E & _)|(_ & _ & g & E & _)]]]);
        try discriminate. injection Ef as <-. rewrite Q in Hf. injection Hf as <-.
      eexists. eapply (advance c _ pos r k); eauto. rewrite Et. reflexivity.
    - destruct (head_cases c pos r HI Hr _ _ Ht) as (k & sub & Hpos & Hk & [(_ & f' & Ef & _)|[(-> & Hp & E & Et)|[(_ & _ & g & E & _)|(_ & _ & g & E & _)]]]);
        try discriminate. injection E as ->.
      exists (upd_fun pos r (k, 1)). destruct HI as [I1 [I2 I3]].
      assert (Hkk : forall x, kk (upd_fun pos r (k, 1)) x = kk pos x).
      { intros x. unfold kk. destruct (Nat.eq_dec x r) as [->|Hn]; [rewrite upd_fun_eq, Hpos; reflexivity|rewrite upd_fun_neq by exact Hn; reflexivity]. }
      assert (Hse : forall x, sent (upd_fun pos r (k, 1)) x = sent pos x).
      { intros x. unfold sent. destruct (Nat.eq_dec x r) as [->|Hn]; [rewrite upd_fun_eq, Hpos; reflexivity|rewrite upd_fun_neq by exact Hn; reflexivity]. }
      split; [|split].
      + intros x Hx. rewrite Hkk. destruct (I1 x Hx) as [T1 [T2 T3]]. split; [exact T1|]. split; [|exact T3].
        destruct (Nat.eq_dec x r) as [->|Hn].
        * rewrite upd_fun_eq. unfold kk. rewrite Hpos. simpl. rewrite !upd_fun_eq. do 2 (split; [assumption|]). split; [reflexivity|exact Et].
        * rewrite (upd_fun_neq pos) by exact Hn. unfold task in *. simpl. rewrite !upd_fun_neq by exact Hn. exact T2.
      + intros x j Hx Hj Hpx. rewrite Hkk in Hj. rewrite Hse. apply I2; assumption.
      + intros s d Hs' Hd. rewrite Hkk, Hse. simpl. apply I3; assumption.
    - destruct (head_cases c pos r HI Hr _ _ Ht) as (k & sub & Hpos & Hk & [(_ & f' & Ef & _)|[(_ & _ & E & _)|[(-> & Hp & g & E & Et & Hpay)|(_ & _ & g & E & _)]]]);
        try discriminate. injection E as -> <-.
      exists (upd_fun pos r (k, 2)). destruct HI as [I1 [I2 I3]].
      assert (Hkk : forall x, kk (upd_fun pos r (k, 2)) x = kk pos x).
      { intros x. unfold kk. destruct (Nat.eq_dec x r) as [->|Hn]; [rewrite upd_fun_eq, Hpos; reflexivity|rewrite upd_fun_neq by exact Hn; reflexivity]. }
      assert (Hse : forall x, x <> r -> sent (upd_fun pos r (k, 2)) x = sent pos x)
        by (intros x Hn; unfold sent; rewrite upd_fun_neq by exact Hn; reflexivity).
      assert (Hsr : sent (upd_fun pos r (k, 2)) r = S k) by (unfold sent; rewrite upd_fun_eq; simpl; lia).
      assert (Hs0 : sent pos r = k) by (unfold sent; rewrite Hpos; simpl; lia).
      assert (Hl : loc c r = D k r).
      { destruct (I1 r Hr) as [_ [_ T]]. unfold kk in T. rewrite Hpos in T. exact T. }
      destruct (Vn k r Hk Hr Hp) as [_ [Vd [_ [Vp [_ Vs]]]]].
      assert (Hd_k : kk pos (dstb (B k) r) <= k).
      { destruct (le_lt_dec (kk pos (dstb (B k) r)) k) as [Hle|Hlt]; [exact Hle|].
        specialize (I2 (dstb (B k) r) k Vd Hlt Vp). rewrite Vs, Hs0 in I2. lia. }
      split; [|split].
      + intros x Hx. rewrite Hkk. destruct (I1 x Hx) as [T1 [T2 T3]]. split; [exact T1|]. split; [|exact T3].
        destruct (Nat.eq_dec x r) as [->|Hn].
        * rewrite upd_fun_eq. unfold kk in *. rewrite Hpos in *. simpl in *. rewrite !upd_fun_eq.
          destruct T2 as [_ [_ [T2 _]]]. do 2 (split; [assumption|]). split; [exact T2|exact Et].
        * rewrite (upd_fun_neq pos) by exact Hn. unfold task in *. simpl. rewrite !upd_fun_neq by exact Hn. exact T2.
      + intros x j Hx Hj Hpx. rewrite Hkk in Hj. eapply Nat.lt_le_trans; [apply I2; eassumption|].
        destruct (Nat.eq_dec (srcb (B j) x) r) as [->|Hn]; [rewrite Hs0, Hsr; lia|rewrite Hse by exact Hn; lia].
      + intros s d Hs' Hd'. rewrite Hkk. simpl.
        destruct (Nat.eq_dec s r) as [->|Hn].
        * rewrite Hsr. destruct (Nat.eq_dec d (dstb (B k) r)) as [->|Hdn].
          -- rewrite upd2_eq. rewrite (I3 r _ Hr Vd), Hs0.
             replace (S k - kk pos (dstb (B k) r)) with (S (k - kk pos (dstb (B k) r))) by lia.
             unfold expect. rewrite seq_S, flat_map_app. f_equal. simpl.
             replace (kk pos (dstb (B k) r) + (k - kk pos (dstb (B k) r))) with k by lia.
             rewrite Hp, Nat.eqb_refl. simpl. rewrite app_nil_r, <- Hl. symmetry. exact Hpay.
          -- rewrite upd2_neq by (right; exact Hdn). rewrite (I3 r d Hr Hd'), Hs0.
             destruct (le_lt_dec (kk pos d) k) as [Hle|Hlt].
             ++ replace (S k - kk pos d) with (S (k - kk pos d)) by lia. symmetry. apply expect_snoc.
                replace (kk pos d + (k - kk pos d)) with k by lia. intros _ E. exact (Hdn (eq_sym E)).
             ++ replace (S k - kk pos d) with 0 by lia. replace (k - kk pos d) with 0 by lia. reflexivity.
        * rewrite upd2_neq by (left; exact Hn). rewrite (Hse s Hn). apply I3; assumption.
    - destruct (head_cases c pos r HI Hr _ _ Ht) as (k & sub & Hpos & Hk & [(_ & f' & Ef & _)|[(_ & _ & E & _)|[(_ & _ & g & E & _)|(-> & Hp & g & E & Et & Hput)]]]);
        try discriminate. injection E as <-.
      assert (Hsrc : src = srcb (B k) r).
      { destruct HI as [I1 _]. destruct (I1 r Hr) as [_ [T _]]. unfold kk in T. rewrite Hpos in T. simpl in T.
        destruct T as [_ [_ [T _]]]. congruence. }
      subst src. pose proof (wait_sent c pos r k m ms HI Hr Hpos Hk Hp Hc) as Hsent.
      destruct (wait_head c pos r k HI Hr Hpos Hk Hp Hsent) as (m' & Hm' & Hc').
      rewrite Hc in Hc'. injection Hc' as <- ->. rewrite (Hput m Hm') in Hpu. injection Hpu as <-.
      exists (upd_fun pos r (S k, 0)). destruct HI as [I1 [I2 I3]].
      assert (Hkk : forall x, x <> r -> kk (upd_fun pos r (S k, 0)) x = kk pos x)
        by (intros x Hx; unfold kk; rewrite upd_fun_neq by exact Hx; reflexivity).
      assert (Hkr : kk (upd_fun pos r (S k, 0)) r = S k) by (unfold kk; rewrite upd_fun_eq; reflexivity).
      assert (Hk0 : kk pos r = k) by (unfold kk; rewrite Hpos; reflexivity).
      assert (Hse : forall x, sent (upd_fun pos r (S k, 0)) x = sent pos x).
      { intros x. unfold sent. destruct (Nat.eq_dec x r) as [->|Hn]; [rewrite upd_fun_eq, Hpos; simpl; lia|rewrite upd_fun_neq by exact Hn; reflexivity]. }
      split; [|split].
      + intros x Hx. destruct (Nat.eq_dec x r) as [->|Hn].
        * rewrite Hkr, upd_fun_eq. simpl. rewrite !upd_fun_eq. split; [lia|]. split; [|reflexivity]. split; [exact Et|reflexivity].
        * rewrite (Hkk x Hn), upd_fun_neq by exact Hn. destruct (I1 x Hx) as [T1 [T2 T3]].
          split; [exact T1|]. split; [|simpl; rewrite upd_fun_neq by exact Hn; exact T3].
          unfold task in *. simpl. rewrite !upd_fun_neq by exact Hn. exact T2.
      + intros x j Hx Hj Hpx. rewrite Hse. destruct (Nat.eq_dec x r) as [->|Hn].
        * rewrite Hkr in Hj. destruct (Nat.eq_dec j k) as [->|Hjk]; [exact Hsent|]. apply I2; [exact Hr|lia|exact Hpx].
        * rewrite (Hkk x Hn) in Hj. apply I2; assumption.
      + intros s d Hs' Hd'. rewrite Hse. simpl. destruct (Nat.eq_dec d r) as [->|Hdn].
        * rewrite Hkr. destruct (Nat.eq_dec s (srcb (B k) r)) as [->|Hsn].
          -- rewrite upd2_eq. reflexivity.
          -- rewrite upd2_neq by (left; exact Hsn). rewrite (I3 s r Hs' Hr), Hk0.
             replace (sent pos s - S k) with (sent pos s - k - 1) by lia.
             apply expect_skip. intros Hps Hds.
             destruct (Vn k s Hk Hs' Hps) as [_ [_ [_ [_ [_ Q]]]]]. rewrite Hds in Q. exact (Hsn (eq_sym Q)).
        * rewrite upd2_neq by (right; exact Hdn). rewrite (Hkk d Hdn). apply I3; assumption.
  Qed.

  Lemma inv_steps strict c : steps strict P (initial (program_of bs) (D 0)) c -> exists pos, Inv c pos.
  Proof using V LS.
    remember (initial (program_of bs) (D 0)) as c0 eqn:E. induction 1 as [|c1 c2 c3 H IH Hs]; subst.
    - exists (fun _ => (0, 0)). apply inv_init.
    - destruct (IH eq_refl) as [pos HI]. exact (inv_step strict c2 c3 pos HI Hs).
  Qed.

  Lemma inv_not_failed c pos : Inv c pos -> ~ failed P c.
  Proof using V LS.
    intros HI Hf. inversion Hf as [c0 r f t Hr Ht Hn|c0 r src put t m ms Hr Ht Hpo Hc Hn|c0 r dst get t Hr Ht Hn|c0 r src src' t Hr Ht Hpo]; subst c0;
      destruct (head_cases c pos r HI Hr _ _ Ht) as (k & sub & Hpos & Hk & [(-> & f' & Ef & Et & Hp & Q)|[(-> & Hp & E & Et)|[(-> & Hp & g & E & Et & Hpay)|(-> & Hp & g & E & Et & Hput)]]]);
        try discriminate.
    - injection Ef as <-. exact (Hn _ Q).
    - injection E as <-.
      assert (Hsrc : src = srcb (B k) r).
      { destruct HI as [I1 _]. destruct (I1 r Hr) as [_ [T _]]. unfold kk in T. rewrite Hpos in T. simpl in T.
        destruct T as [_ [_ [T _]]]. congruence. }
      subst src. pose proof (wait_sent c pos r k m ms HI Hr Hpos Hk Hp Hc) as Hsent.
      destruct (wait_head c pos r k HI Hr Hpos Hk Hp Hsent) as (m' & Hm' & Hc').
      rewrite Hc in Hc'. injection Hc' as <- ->. exact (Hn _ (Hput m Hm')).
    - injection E as -> <-. apply Hn. exact (proj1 (proj2 (Vn k r Hk Hr Hp))).
    - destruct HI as [I1 _]. destruct (I1 r Hr) as [_ [T _]]. unfold kk in T. rewrite Hpos in T. simpl in T.
      destruct T as [_ T]. congruence.
  Qed.

  Lemma min_rank (f : nat -> nat) : 0 < P -> exists r, r < P /\ forall x, x < P -> f r <= f x.
  Proof using.
    clear. induction P as [|Q IH]; intros HP; [lia|].
    destruct (Nat.eq_dec Q 0) as [->|HQ].
    - exists 0. split; [lia|]. intros x Hx. replace x with 0 by lia. lia.
    - destruct IH as (r & Hr & Hm); [lia|].
      destruct (le_lt_dec (f r) (f Q)) as [H|H].
      + exists r. split; [lia|]. intros x Hx. destruct (Nat.eq_dec x Q) as [->|Hn]; [exact H|]. apply Hm. lia.
      + exists Q. split; [lia|]. intros x Hx. destruct (Nat.eq_dec x Q) as [->|Hn]; [lia|].
        specialize (Hm x ltac:(lia)). lia.
  Qed.

  Lemma all_or (Q : nat -> Prop) (dec : forall r, Q r \/ ~ Q r) : (exists r, r < P /\ Q r) \/ (forall r, r < P -> ~ Q r).
  Proof using.
    clear - dec. induction P as [|n IH]; [right; lia|].
    destruct IH as [(r & Hr & H)|H]; [left; exists r; split; [lia|exact H]|].
    destruct (dec n) as [H'|H']; [left; exists n; split; [lia|exact H']|].
    right. intros r Hr. destruct (Nat.eq_dec r n) as [->|Hn]; [exact H'|]. apply H. lia.
  Qed.

  Lemma inv_progress c pos : Inv c pos -> finished P c \/ exists c', step true P c c'.
  Proof using V LS.
    intros HI. destruct (Nat.eq_dec P 0) as [HP0|HP0]; [left; intros r Hr; lia|].
    destruct (min_rank (kk pos) ltac:(lia)) as (r0 & Hr0 & Hmin). set (k := kk pos r0).
    pose proof HI as [I1 [I2 I3]].
    destruct (Nat.eq_dec k L) as [HkL|HkL].
    { left. intros r Hr. destruct (I1 r Hr) as [T1 [T2 _]].
      assert (Hkr : kk pos r = L) by (specialize (Hmin r Hr); fold k in Hmin; lia).
      rewrite Hkr in T2. unfold task in T2. destruct (snd (pos r)) as [|[|[|sub]]]; [|lia|lia|contradiction].
      destruct T2 as [T2 _]. rewrite T2. apply tail_nil. }
    assert (Hk : k < L) by (destruct (I1 r0 Hr0) as [T1 _]; fold k in T1; lia).
    right.
    (* a task at block k that has not posted yet, or that is at a local block *)
    destruct (all_or (fun r => pos r = (k, 0))) as [(r & Hr & Hpos)|Hno0].
    { intros r. destruct (pos r) as [a b]. destruct (Nat.eq_dec a k) as [->|H]; [|right; intros E; inversion E; contradiction].
      destruct (Nat.eq_dec b 0) as [->|H]; [left; reflexivity|right; intros E; inversion E; contradiction]. }
    { destruct (I1 r Hr) as [_ [T _]]. unfold kk in T. rewrite Hpos in T. simpl in T. destruct T as [T1 T2].
      rewrite (tail_cons k r Hk) in T1.
      destruct (acts (B k) r ++ tail (S k) r) as [|a t] eqn:Ea.
      { destruct (B k) as [f|src dst part get put]; simpl in Ea; [discriminate|]. destruct (part r); discriminate. }
      destruct (head_cases c pos r HI Hr _ _ T1) as (k' & sub & Hpos' & _ & H). rewrite Hpos in Hpos'. injection Hpos' as <- <-.
      destruct H as [(_ & f & -> & -> & _ & Q)|[(_ & _ & -> & ->)|[(E & _)|(E & _)]]]; try discriminate.
      - eexists. eapply st_local; eauto.
      - eexists. eapply st_irecv; eauto. }
    (* a task at block k that has posted and not sent *)
    destruct (all_or (fun r => pos r = (k, 1))) as [(r & Hr & Hpos)|Hno1].
    { intros r. destruct (pos r) as [a b]. destruct (Nat.eq_dec a k) as [->|H]; [|right; intros E; inversion E; contradiction].
      destruct (Nat.eq_dec b 1) as [->|H]; [left; reflexivity|right; intros E; inversion E; contradiction]. }
    { destruct (I1 r Hr) as [_ [T _]]. unfold kk in T. rewrite Hpos in T. simpl in T. destruct T as [_ [Hp [T2 T1]]].
      destruct (Vn k r Hk Hr Hp) as [_ [Vd [_ [Vp [_ Vs]]]]].
      assert (Hd_k : kk pos (dstb (B k) r) = k).
      { apply Nat.le_antisymm; [|apply (Hmin _ Vd)].
        destruct (le_lt_dec (kk pos (dstb (B k) r)) k) as [Hle|Hlt]; [exact Hle|].
        specialize (I2 (dstb (B k) r) k Vd Hlt Vp). rewrite Vs in I2. unfold sent in I2. rewrite Hpos in I2. simpl in I2. lia. }
      assert (Hpd : posted c (dstb (B k) r) = Some r).
      { destruct (I1 (dstb (B k) r) Vd) as [_ [Td _]]. rewrite Hd_k in Td.
        destruct (pos (dstb (B k) r)) as [kd sd] eqn:Hpd. simpl in Td.
        assert (kd = k) by (unfold kk in Hd_k; rewrite Hpd in Hd_k; exact Hd_k). subst kd.
        destruct sd as [|[|[|sd]]]; simpl in Td.
        - exfalso. exact (Hno0 _ Vd Hpd).
        - destruct Td as [_ [_ [Td _]]]. rewrite Td, Vs. reflexivity.
        - destruct Td as [_ [_ [Td _]]]. rewrite Td, Vs. reflexivity.
        - contradiction. }
      destruct (B k) as [f|src dst part get put] eqn:EB; [discriminate|]. simpl in *. rewrite Hp in T1. simpl in T1.
      eexists. eapply st_send; [exact Hr|exact Vd|exact T1|]. intros _. exact Hpd. }
    (* everyone at block k has sent *)
    destruct (pos r0) as [k0 s0] eqn:Hp0.
    assert (k0 = k) by (unfold k, kk; rewrite Hp0; reflexivity). subst k0.
    destruct s0 as [|[|[|s0]]]; [exfalso; exact (Hno0 r0 Hr0 Hp0)|exfalso; exact (Hno1 r0 Hr0 Hp0)| |].
    2:{ destruct (I1 r0 Hr0) as [_ [T _]]. rewrite Hp0 in T. contradiction. }
    destruct (I1 r0 Hr0) as [_ [T _]]. fold k in T. rewrite Hp0 in T. simpl in T. destruct T as [_ [Hp [T2 T1]]].
    destruct (Vn k r0 Hk Hr0 Hp) as [V1 [_ [V2 [_ [V3 _]]]]].
    assert (Hsent : k < sent pos (srcb (B k) r0)).
    { unfold sent. pose proof (Hmin _ V1) as Hm. fold k in Hm. unfold kk in Hm. destruct (pos (srcb (B k) r0)) as [ks ss] eqn:Hps. simpl in *.
      destruct (Nat.eq_dec ks k) as [->|Hn]; [|lia].
      destruct ss as [|[|[|ss]]]; [exfalso; exact (Hno0 _ V1 Hps)|exfalso; exact (Hno1 _ V1 Hps)|simpl; lia|].
      destruct (I1 _ V1) as [_ [T _]]. rewrite Hps in T. contradiction. }
    destruct (wait_head c pos r0 k HI Hr0 Hp0 Hk Hp Hsent) as (m & Hm & Hc).
    destruct (skipn 2 (acts (B k) r0) ++ tail (S k) r0) as [|a t] eqn:Ea.
    { destruct (B k) as [f|src dst part get put]; simpl in *; [discriminate|]. rewrite Hp in Ea. discriminate. }
    assert (T1' : todo c r0 = a :: t) by (rewrite <- Ea; exact T1).
    destruct (head_cases c pos r0 HI Hr0 _ _ T1') as (k' & sub & Hpos' & _ & H). rewrite Hp0 in Hpos'. injection Hpos' as <- <-.
    destruct H as [(E & _)|[(E & _)|[(E & _)|(_ & _ & put & -> & -> & Hput)]]]; try discriminate.
    eexists. eapply st_wait; [exact Hr0|exact T1'|exact T2|exact Hc|exact (Hput m Hm)].
  Qed.

  Lemma inv_finished c pos : Inv c pos -> finished P c ->
    (forall r, r < P -> loc c r = D L r) /\ (forall a b, a < P -> b < P -> chan c a b = []).
  Proof using.
    intros [I1 [I2 I3]] Hf.
    assert (Hpos : forall r, r < P -> pos r = (L, 0)).
    { intros r Hr. destruct (I1 r Hr) as [Hk [T _]]. specialize (Hf r Hr). unfold kk in *. destruct (pos r) as [k sub]. simpl in *.
      assert (Hnil : forall k', k' < L -> acts (B k') r ++ tail (S k') r <> []).
      { intros k' _ E. destruct (B k') as [f|src dst part get put]; simpl in E; [discriminate|]. destruct (part r); discriminate. }
      destruct sub as [|[|[|sub]]]; simpl in T.
      - destruct T as [T _]. rewrite Hf in T. destruct (Nat.eq_dec k L) as [->|Hn]; [reflexivity|].
        exfalso. apply (Hnil k); [lia|]. rewrite <- tail_cons by lia. symmetry. exact T.
      - exfalso. destruct T as [_ [Hp [_ T]]]. rewrite Hf in T. destruct (B k); simpl in *; [discriminate|]. rewrite Hp in T. discriminate.
      - exfalso. destruct T as [_ [Hp [_ T]]]. rewrite Hf in T. destruct (B k); simpl in *; [discriminate|]. rewrite Hp in T. discriminate.
      - contradiction. }
    split.
    - intros r Hr. destruct (I1 r Hr) as [_ [_ T]]. rewrite T. unfold kk. rewrite (Hpos r Hr). reflexivity.
    - intros a b Ha Hb. rewrite (I3 a b Ha Hb). unfold kk, sent. rewrite (Hpos a Ha), (Hpos b Hb). simpl.
      rewrite Nat.add_0_r, Nat.sub_diag. reflexivity.
  Qed.

  Theorem exchange_programs : always_ends P bs (D 0) (D L).
  Proof using V LS.
    intros c Hc. destruct (inv_steps false c Hc) as [pos HI].
    split; [exact (inv_not_failed c pos HI)|]. split; [exact (inv_progress c pos HI)|exact (inv_finished c pos HI)].
  Qed.
End MpiFacts.

Section Termination.
  Context {St Msg : Type}.
  Local Notation config := (config St Msg).

  Lemma left_upd P (c c' : config) r t a : r < P -> todo c r = a :: t -> todo c' = upd_fun (todo c) r t -> S (left_of P c') = left_of P c.
  Proof.
    intros Hr Ht E.
    assert (Hge : forall n, n <= r -> left_of n c' = left_of n c).
    { induction n as [|n IH]; intros Hn; [reflexivity|]. simpl. rewrite IH by lia. rewrite E, upd_fun_neq by lia. reflexivity. }
    induction P as [|P IH]; [lia|]. simpl. destruct (Nat.eq_dec r P) as [->|Hn].
    - rewrite Hge by lia. rewrite E, upd_fun_eq, Ht. simpl. lia.
    - rewrite <- (IH ltac:(lia)). rewrite E, upd_fun_neq by lia. lia.
  Qed.

  (** every step shortens what is left to do: executions are finite *)
  Theorem step_shortens strict P (c c' : config) : step strict P c c' -> left_of P c' < left_of P c.
  Proof.
    intros H. destruct H as [c r f t s Hr Ht _|c r src t Hr Ht _|c r dst get t Hr _ Ht _|c r src put t m ms s Hr Ht _ _ _];
      match goal with |- left_of P ?c' < _ => pose proof (left_upd P c c' r t _ Hr Ht eq_refl); lia end.
  Qed.
End Termination.
