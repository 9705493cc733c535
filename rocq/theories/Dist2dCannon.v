(** Cannon's algorithm on any number of tasks, under any schedule. *)
From Verif Require Import Base BaseFacts Spec SpecFacts EllpackModel EllpackSpec EllpackExact CsrModel CsrSpec
  GemmModel DenseModel DenseSpec FormatModel FormatSpec FormatFacts FormatHistModel FormatHistSpec FormatHist
  MpiModel MpiSpec MpiFacts MpiRun Dist2dModel Dist2dSpec Dist2dLocal Dist2dFacts.
From Coq Require Import Ring.

Section Cannon.
  Context {F : scalar}.
  Local Notation bmat := (bmat F).
  Local Notation env := (env F).
  Local Notation dist := (dist F).
  Local Open Scope K_scope.
  Add Ring Kringd2 : (k_ring F).

  Lemma tcut_type t (keep : F -> bool) (A : bmat) X : bml_get_type A = t -> tcut keep A X = fcut t keep X.
  Proof. intros <-. destruct A; reflexivity. Qed.
  Lemma toff_type t (keep : F -> bool) (A : bmat) X : bml_get_type A = t -> toff keep A X = foff t keep X.
  Proof. intros <-. destruct A; reflexivity. Qed.
  Lemma meq_fcut n t (keep : F -> bool) (X Y : mat F) : meq n X Y -> meq n (fcut t keep X) (fcut t keep Y).
  Proof. intros H. destruct t; cbn [fcut]; auto; apply meq_mcut, H. Qed.
  Lemma meq_foff n t (keep : F -> bool) (X Y : mat F) : meq n X Y -> meq n (foff t keep X) (foff t keep Y).
  Proof. intros H i j Hi Hj. destruct t; cbn [foff]; auto; unfold mcut_offdiag; rewrite H by auto; reflexivity. Qed.
  Lemma fcut_none t (keep : F -> bool) (X : mat F) i j : no_cut t keep -> fcut t keep X i j = X i j.
  Proof. intros [->|K]; [reflexivity|]. destruct t; auto; apply cut_exact, K. Qed.
  Lemma foff_none t (keep : F -> bool) (X : mat F) i j : no_cut t keep -> foff t keep X i j = X i j.
  Proof. intros [->|K]; [reflexivity|]. destruct t; cbn [foff]; auto; unfold mcut_offdiag; rewrite cut_exact by auto; destruct (i =? j)%nat; reflexivity. Qed.

  (** ** Blocks and whole matrices *)
  Definition part_of (t : fmt) (p n m : nat) (X : mat F) (r : nat) (A : bmat) : Prop :=
    holds t n m (sub n (cart_row p r) (cart_col p r) X) A.

  Lemma dist_parts t (D : dist) : dist_ok t D -> dist_roomy D ->
    forall r, (r < tp D * tp D)%nat -> part_of t (tp D) (tn D) (tM D / tp D) (gmx D) r (blk D r).
  Proof.
    intros ((Hp & Hn & HN) & HL & HB) HR r Hr. destruct (HB r Hr) as (W & _ & T). split; [split; [exact W|split; [apply HR, Hr|exact T]]|].
    intros i j Hi Hj. unfold sub, gmx. rewrite !Nat.div_add_l, !(Nat.div_small _ (tn D)) by lia.
    rewrite !(Nat.add_comm (_ * _)), !Nat.mod_add, !Nat.mod_small by lia. rewrite !Nat.add_0_r, rank_of by exact Hp. reflexivity.
  Qed.

  Lemma parts_dist t (D : dist) X : (0 < tp D)%nat -> (0 < tn D)%nat -> tN D = (tp D * tn D)%nat -> length (tblk D) = tasks D ->
    (forall r, (r < tp D * tp D)%nat -> part_of t (tp D) (tn D) (tM D / tp D) X r (blk D r)) ->
    dist_ok t D /\ dist_roomy D /\ meq (tN D) (gmx D) X.
  Proof.
    intros Hp Hn HN HL H. split; [|split].
    - split; auto. split; auto. intros r Hr. destruct (H r Hr) as ((W & R & T) & _). split; auto. split; auto. apply R.
    - intros r Hr. apply (H r Hr).
    - intros i j Hi Hj. unfold gmx. assert (BI : (i / tn D < tp D)%nat) by (apply Nat.div_lt_upper_bound; lia).
      assert (BJ : (j / tn D < tp D)%nat) by (apply Nat.div_lt_upper_bound; lia).
      destruct (H _ (rank_lt _ _ _ BI BJ)) as (_ & E). rewrite E by (apply Nat.mod_upper_bound; lia).
      rewrite rank_row, rank_col by exact BJ. unfold sub. f_equal; rewrite (Nat.mul_comm _ (tn D)), <- Nat.div_mod by lia; reflexivity.
  Qed.

  Lemma gather_blk {S} (D : dist) (get : S -> bmat) s r : (r < tasks D)%nat -> blk (gather D get s) r = get (s r).
  Proof.
    intros H. unfold blk, gather, with_blocks. cbn [tblk]. rewrite (nth_indep _ _ (get (s 0%nat))) by (rewrite map_length, seq_length; exact H).
    rewrite (map_nth (fun r => get (s r)) (seq 0 (tasks D)) 0%nat), seq_nth by exact H. reflexivity.
  Qed.
  Lemma parts_gather {S} t (D : dist) (get : S -> bmat) s X : (0 < tp D)%nat -> (0 < tn D)%nat -> tN D = (tp D * tn D)%nat ->
    (forall r, (r < tp D * tp D)%nat -> part_of t (tp D) (tn D) (tM D / tp D) X r (get (s r))) ->
    dist_ok t (gather D get s) /\ dist_roomy (gather D get s) /\ meq (tN D) (gmx (gather D get s)) X.
  Proof.
    intros Hp Hn HN H. apply (parts_dist t (gather D get s) X); auto.
    - unfold gather, with_blocks, tasks. cbn [tblk tp]. rewrite map_length, seq_length. reflexivity.
    - intros r Hr. rewrite gather_blk by exact Hr. apply H, Hr.
  Qed.

  (** ** The algorithm *)
  Section Run.
    Variables (t : fmt) (p n m : nat) (keep nz : F -> bool) (alpha beta : F) (E : nat -> nat -> env).
    Variables (A B C : mat F) (a0 b0 : nat -> bmat).
    Hypothesis Hp : (0 < p)%nat.
    Hypothesis Hn : (0 < n)%nat.
    Hypothesis Hnz : keeps_nonzero nz.
    Hypothesis HE : forall r k, (r < p * p)%nat -> good_schedules n (E r k).
    Local Notation row := (cart_row p).
    Local Notation col := (cart_col p).
    Local Notation blockC := (cannon_block (fcut t keep) (foff t keep) p n alpha beta A B C).

    Definition same_args (r : nat) (s : cstate F) : Prop := qA s = a0 r /\ qB s = b0 r.
    Definition at_start r (s : cstate F) : Prop := same_args r s /\
      part_of t p n m A r (qA s) /\ part_of t p n m B r (qB s) /\ part_of t p n m C r (qC s).
    (** after the copies; the flags tell whether A2, B2 have been replaced *)
    Definition skewed (x y : bool) r (s : cstate F) : Prop := same_args r s /\ part_of t p n m C r (qC s) /\
      part_of t p n m A r (qA1 s) /\ part_of t p n m B r (qB1 s) /\
      holds t n m (sub n (row r) (if x then (row r + col r) mod p else col r) A) (qA2 s) /\
      holds t n m (sub n (if y then (row r + col r) mod p else row r) (col r) B) (qB2 s).
    (** [k] products done: the last one used the blocks in A2, B2 *)
    Definition turned (k : nat) r (s : cstate F) : Prop := same_args r s /\ holds t n m (blockC (row r) (col r) (k - 1)%nat) (qC s) /\
      shaped t n m (qA1 s) /\ shaped t n m (qB1 s) /\
      holds t n m (sub n (row r) ((row r + col r + (k - 1)) mod p) A) (qA2 s) /\
      holds t n m (sub n ((row r + col r + (k - 1)) mod p) (col r) B) (qB2 s).
    (** inside the loop: the flags tell whether A2, B2 have been received *)
    Definition turning (k : nat) (x y : bool) r (s : cstate F) : Prop := same_args r s /\ holds t n m (blockC (row r) (col r) (k - 1)%nat) (qC s) /\
      holds t n m (sub n (row r) ((row r + col r + (k - 1)) mod p) A) (qA1 s) /\
      holds t n m (sub n ((row r + col r + (k - 1)) mod p) (col r) B) (qB1 s) /\
      shaped t n m (qA2 s) /\ shaped t n m (qB2 s) /\
      (x = true -> holds t n m (sub n (row r) ((row r + col r + k) mod p) A) (qA2 s)) /\
      (y = true -> holds t n m (sub n ((row r + col r + k) mod p) (col r) B) (qB2 s)).

    Lemma copies_ok : hoare (p * p) at_start [BLocal (cannon_copies E)] (skewed false false) (Msg := bmat).
    Proof.
      apply hoare_local. intros r s Hr (S0 & HA & HB & HC). unfold cannon_copies.
      destruct (sh_copy_new t n m (qA s) _ (E r 0%nat) (HE r _ Hr) HA) as (A1 & -> & HA1).
      destruct (sh_copy_new t n m (qA s) _ (E r 1%nat) (HE r _ Hr) HA) as (A2 & -> & HA2).
      destruct (sh_copy_new t n m (qB s) _ (E r 2%nat) (HE r _ Hr) HB) as (B1 & -> & HB1).
      destruct (sh_copy_new t n m (qB s) _ (E r 3%nat) (HE r _ Hr) HB) as (B2 & -> & HB2).
      eexists. split; [reflexivity|]. split; [exact S0|]. split; [exact HC|]. auto.
    Qed.

    Lemma skew_A_ok : hoare (p * p) (skewed false false)
      [shift_block p 1%nat (fun r => (-1 * Z.of_nat (row r))%Z) (fun r => 0 <? row r)%nat (fun _ => qA1) (recv_A nz)] (skewed true false).
    Proof.
      apply hoare_exch.
      - intros r s Hr Hg (S0 & HC & HA1 & HB1 & HA2 & HB2). apply Nat.ltb_ge in Hg. assert (row r = 0)%nat as R0 by lia.
        do 4 (split; [assumption|]). split; [|assumption]. rewrite R0 in *. rewrite Nat.mod_small by (apply col_lt, Hp). exact HA2.
      - intros r s s' Hr Hs Hg (S0 & HC & HA1 & HB1 & HA2 & HB2) (_ & _ & HA1' & _).
        unfold recv_A. unfold part_of in HA1'. cbn [cart_shift fst] in HA1'.
        rewrite rank_row, rank_col in HA1' by (apply wrap_lt, Hp). replace (- (-1 * Z.of_nat (row r)))%Z with (Z.of_nat (row r)) in HA1' by lia.
        rewrite wrap_nat in HA1' by exact Hp.
        destruct (sh_receive t n m nz (qA2 s) _ _ Hnz (proj1 HA2) HA1') as (x & -> & Hx). eexists. split; [reflexivity|].
        do 4 (split; [assumption|]). split; [|assumption]. cbn [qA2]. rewrite (Nat.add_comm (row r)). exact Hx.
      - intros r Hr Hg. cbn [cart_shift fst]. apply rank_lt; [apply row_lt, Hr|apply wrap_lt, Hp].
    Qed.
    Lemma skew_B_ok : hoare (p * p) (skewed true false)
      [shift_block p 0%nat (fun r => (-1 * Z.of_nat (col r))%Z) (fun r => 0 <? col r)%nat (fun _ => qB1) (recv_B nz)] (skewed true true).
    Proof.
      apply hoare_exch.
      - intros r s Hr Hg (S0 & HC & HA1 & HB1 & HA2 & HB2). apply Nat.ltb_ge in Hg. assert (col r = 0)%nat as R0 by lia.
        do 5 (split; [assumption|]). rewrite R0 in *. rewrite Nat.add_0_r, Nat.mod_small by (apply row_lt, Hr). exact HB2.
      - intros r s s' Hr Hs Hg (S0 & HC & HA1 & HB1 & HA2 & HB2) (_ & _ & _ & HB1' & _).
        unfold recv_B. unfold part_of in HB1'. cbn [cart_shift fst] in HB1'.
        rewrite rank_row, rank_col in HB1' by (apply col_lt, Hp). replace (- (-1 * Z.of_nat (col r)))%Z with (Z.of_nat (col r)) in HB1' by lia.
        rewrite wrap_nat in HB1' by exact Hp.
        destruct (sh_receive t n m nz (qB2 s) _ _ Hnz (proj1 HB2) HB1') as (x & -> & Hx). eexists. split; [reflexivity|].
        do 5 (split; [assumption|]). exact Hx.
      - intros r Hr Hg. cbn [cart_shift fst]. apply rank_lt; [apply wrap_lt, Hp|apply col_lt, Hp].
    Qed.

    Lemma product_ok (X Y Z : mat F) be (A2 B2 C2 : bmat) e : good_schedules n e -> holds t n m X A2 -> holds t n m Y B2 -> holds t n m Z C2 ->
      exists C', bml_multiply keep alpha be A2 B2 C2 e = Ok C' /\
        holds t n m (fcut t keep (madd (mscale be Z) (mscale alpha (foff t keep (mmul n X Y))))) C'.
    Proof.
      intros He [HA EA] [HB EB] [HC EC]. destruct (sh_multiply t n m keep alpha be A2 B2 C2 e Hn He HA HB HC) as (C' & EM & HC' & M).
      exists C'. split; auto. split; auto. eapply meq_trans; [exact M|]. rewrite (tcut_type t), (toff_type t) by apply HC.
      apply meq_fcut. apply meq_madd; [apply meq_mscale; exact EC|]. apply meq_mscale, meq_foff, meq_mmul; auto.
    Qed.

    Lemma first_ok : hoare (p * p) (skewed true true) [BLocal (cannon_multiply keep E alpha beta 0%nat)] (turned 1%nat) (Msg := bmat).
    Proof.
      apply hoare_local. intros r s Hr (S0 & HC & HA1 & HB1 & HA2 & HB2). unfold cannon_multiply.
      destruct (product_ok _ _ _ beta _ _ _ _ (HE r (4 + 0)%nat Hr) HA2 HB2 HC) as (C' & -> & HC'). eexists. split; [reflexivity|].
      split; [exact S0|]. cbn [qC qA1 qB1 qA2 qB2]. replace (1 - 1)%nat with 0%nat by lia. rewrite Nat.add_0_r. cbn [cannon_block]. rewrite Nat.add_0_r.
      split; [exact HC'|]. split; [apply HA1|]. split; [apply HB1|]. auto.
    Qed.

    Lemma swap_ok k : hoare (p * p) (turned k) [BLocal cannon_swap] (turning k false false) (Msg := bmat).
    Proof.
      apply hoare_local. intros r s Hr (S0 & HC & HA1 & HB1 & HA2 & HB2). eexists. split; [reflexivity|].
      do 6 (split; [assumption|]). split; discriminate.
    Qed.
    Lemma next_l a k : ((((a + 1) mod p) + k) mod p = (a + (k + 1)) mod p)%nat.
    Proof. rewrite Nat.add_mod_idemp_l by lia. f_equal. lia. Qed.

    Lemma turn_A_ok k : (1 <= k)%nat -> hoare (p * p) (turning k false false)
      [shift_block p 1%nat (fun _ => (-1)%Z) (fun _ => true) (fun _ => qA1) (recv_A nz)] (turning k true false).
    Proof.
      intros Hk. apply hoare_exch.
      - discriminate.
      - intros r s s' Hr Hs _ (S0 & HC & HA1 & HB1 & HA2 & HB2 & _ & _) (_ & _ & HA1' & _).
        cbn [cart_shift fst] in HA1'. change (- (-1))%Z with (Z.of_nat 1) in HA1'.
        rewrite rank_row, rank_col in HA1' by (apply wrap_lt, Hp). rewrite wrap_nat in HA1' by exact Hp.
        unfold recv_A. destruct (sh_receive t n m nz (qA2 s) _ _ Hnz HA2 HA1') as (x & -> & Hx). eexists. split; [reflexivity|].
        do 4 (split; [assumption|]). split; [apply Hx|]. split; [assumption|]. split; [|discriminate]. intros _. cbn [qA2].
        replace ((row r + col r + k) mod p)%nat with ((row r + (col r + 1) mod p + (k - 1)) mod p)%nat; [exact Hx|].
        rewrite <- Nat.add_assoc, (Nat.add_comm (row r)), <- Nat.add_assoc, Nat.add_mod_idemp_l by lia. f_equal. lia.
      - intros r Hr Hg. cbn [cart_shift fst]. apply rank_lt; [apply row_lt, Hr|apply wrap_lt, Hp].
    Qed.
    Lemma turn_B_ok k : (1 <= k)%nat -> hoare (p * p) (turning k true false)
      [shift_block p 0%nat (fun _ => (-1)%Z) (fun _ => true) (fun _ => qB1) (recv_B nz)] (turning k true true).
    Proof.
      intros Hk. apply hoare_exch.
      - discriminate.
      - intros r s s' Hr Hs _ (S0 & HC & HA1 & HB1 & HA2 & HB2 & HX & _) (_ & _ & _ & HB1' & _).
        cbn [cart_shift fst] in HB1'. change (- (-1))%Z with (Z.of_nat 1) in HB1'.
        rewrite rank_row, rank_col in HB1' by (apply col_lt, Hp). rewrite wrap_nat in HB1' by exact Hp.
        unfold recv_B. destruct (sh_receive t n m nz (qB2 s) _ _ Hnz HB2 HB1') as (x & -> & Hx). eexists. split; [reflexivity|].
        do 5 (split; [assumption|]). split; [apply Hx|]. split; [assumption|]. intros _. cbn [qB2].
        replace ((row r + col r + k) mod p)%nat with (((row r + 1) mod p + col r + (k - 1)) mod p)%nat; [exact Hx|].
        rewrite <- Nat.add_assoc, Nat.add_mod_idemp_l by lia. f_equal. lia.
      - intros r Hr Hg. cbn [cart_shift fst]. apply rank_lt; [apply wrap_lt, Hp|apply col_lt, Hp].
    Qed.
    Lemma meq_one (Z Y : mat F) : meq n (fcut t keep (madd (mscale 1 Z) Y)) (fcut t keep (madd Z Y)).
    Proof. apply meq_fcut. intros i j _ _. unfold madd, mscale. ring. Qed.

    Lemma product_loop_ok k : (1 <= k)%nat -> hoare (p * p) (turning k true true) [BLocal (cannon_multiply keep E alpha 1 k)] (turned (S k)) (Msg := bmat).
    Proof.
      intros Hk. apply hoare_local. intros r s Hr (S0 & HC & HA1 & HB1 & _ & _ & HA2 & HB2). specialize (HA2 eq_refl). specialize (HB2 eq_refl).
      unfold cannon_multiply. destruct (product_ok _ _ _ 1 _ _ _ _ (HE r (4 + k)%nat Hr) HA2 HB2 HC) as (C' & -> & HC'). eexists. split; [reflexivity|].
      split; [exact S0|]. cbn [qC qA1 qB1 qA2 qB2]. replace (S k - 1)%nat with k by lia.
      split; [|split; [apply HA1|split; [apply HB1|auto]]].
      split; [apply HC'|]. eapply meq_trans; [apply HC'|]. eapply meq_trans; [apply meq_one|].
      destruct k as [|k]; [lia|]. replace (S k - 1)%nat with k by lia. apply meq_refl.
    Qed.

    Lemma cannon_valid : Forall (valid (p * p)) (cannon keep nz p alpha beta E).
    Proof.
      apply Forall_app. split.
      - constructor; [exact I|]. constructor; [apply (shift_matched_1 p (fun i => (-1 * Z.of_nat i)%Z) (fun i => 0 <? i)%nat)|].
        constructor; [apply (shift_matched_0 p (fun i => (-1 * Z.of_nat i)%Z) (fun i => 0 <? i)%nat)|]. constructor; [exact I|constructor].
      - apply Forall_flat_map, Forall_forall. intros k _.
        constructor; [exact I|]. constructor; [apply (shift_matched_1 p (fun i => (-1)%Z) (fun i => true))|].
        constructor; [apply (shift_matched_0 p (fun i => (-1)%Z) (fun i => true))|]. constructor; [exact I|constructor].
    Qed.

    Lemma cannon_hoare : hoare (p * p) at_start (cannon keep nz p alpha beta E) (turned p).
    Proof.
      eapply hoare_app.
      - eapply hoare_cons; [apply copies_ok|]. eapply hoare_cons; [apply skew_A_ok|]. eapply hoare_cons; [apply skew_B_ok|]. apply first_ok.
      - replace (turned p) with (turned (1 + (p - 1))%nat) by (f_equal; lia). apply (hoare_loop (p * p) turned). intros k Hk _.
        eapply hoare_cons; [apply swap_ok|]. eapply hoare_cons; [apply turn_A_ok, Hk|]. eapply hoare_cons; [apply turn_B_ok, Hk|]. apply product_loop_ok, Hk.
    Qed.
  End Run.

  (** ** The whole matrices *)
  Lemma cannon_exact t keep p n alpha beta (A B C : mat F) I J k : no_cut t keep ->
    meq n (cannon_block (fcut t keep) (foff t keep) p n alpha beta A B C I J k)
      (fun i j => beta * sub n I J C i j + alpha * bigsum (S k) (fun q => mmul n (sub n I ((I + J + q) mod p) A) (sub n ((I + J + q) mod p) J B) i j)).
  Proof.
    intros K. induction k as [|k IH]; intros i j Hi Hj; cbn [cannon_block]; rewrite fcut_none by exact K; unfold madd, mscale; rewrite foff_none by exact K.
    - cbn [bigsum]. ring.
    - rewrite IH by auto. cbn [bigsum]. ring.
  Qed.

  Theorem cannon_blocks t (keep nz : F -> bool) alpha beta (A B C : dist) E :
    dist_ok t A -> dist_ok t B -> dist_ok t C -> dist_roomy A -> dist_roomy B -> dist_roomy C -> same_grid A B -> same_grid A C ->
    keeps_nonzero nz -> (forall r k, (r < tasks A)%nat -> good_schedules (tn A) (E r k)) -> tprec A = true ->
    exists prog s, dist_multiply keep nz alpha beta A E = Ok prog /\ always_ends (tasks A) prog (cannon_start A B C) s /\
      (forall r, (r < tasks A)%nat -> qA (s r) = blk A r /\ qB (s r) = blk B r) /\
      dist_ok t (gather C qC s) /\ dist_roomy (gather C qC s) /\
      forall I J, (I < tp A)%nat -> (J < tp A)%nat ->
        meq (tn A) (sub (tn A) I J (gmx (gather C qC s)))
          (cannon_block (fcut t keep) (foff t keep) (tp A) (tn A) alpha beta (gmx A) (gmx B) (gmx C) I J (tp A - 1)).
  Proof.
    intros OA OB OC RA RB RC (GB1 & GB2 & GB3) (GC1 & GC2 & GC3) Hnz HE HP. pose proof OA as ((Hp & Hn & HN) & _).
    unfold dist_multiply. rewrite HP. eexists. 
    assert (TB : tn B = tn A) by (unfold tn; congruence). assert (TC : tn C = tn A) by (unfold tn; congruence).
    set (p := tp A) in *. set (n := tn A) in *. set (m := (tM A / p)%nat).
    destruct (hoare_always_ends (p * p) _ _ _ (cannon_start A B C) (cannon_valid p keep nz alpha beta E)
      (cannon_hoare t p n m keep nz alpha beta E (gmx A) (gmx B) (gmx C) (blk A) (blk B) Hp Hn Hnz HE)) as (s & AE & PO).
    { intros r Hr. split; [split; reflexivity|]. cbn [cannon_start qA qB qC]. split; [apply (dist_parts t A OA RA r Hr)|]. split.
      - assert (X := dist_parts t B OB RB r). rewrite <- GB1, <- GB3, TB in X. apply X, Hr.
      - assert (X := dist_parts t C OC RC r). rewrite <- GC1, <- GC3, TC in X. apply X, Hr. }
    exists s. split; [reflexivity|]. split; [exact AE|]. split; [intros r Hr; apply (PO r Hr)|].
    destruct (parts_gather t C qC s (fun i j => cannon_block (fcut t keep) (foff t keep) p n alpha beta (gmx A) (gmx B) (gmx C) (i / n) (j / n) (p - 1) (i mod n) (j mod n)))
      as (O & R & M); try (rewrite <- ?GC1, ?TC, <- ?GC2; assumption).
    { intros r Hr. rewrite <- GC1 in Hr. destruct (PO r Hr) as (_ & (HS & HX) & _). rewrite <- GC1, <- GC3, TC. fold m. split; [exact HS|].
      eapply meq_trans; [exact HX|]. intros i j Hi Hj. unfold sub at 1.
      rewrite !Nat.div_add_l, !(Nat.div_small _ n) by lia. rewrite !(Nat.add_comm (_ * n)), !Nat.mod_add, !Nat.mod_small by lia. rewrite !Nat.add_0_r. reflexivity. }
    split; [exact O|]. split; [exact R|]. intros I J HI HJ i j Hi Hj. unfold sub at 1. rewrite M by (rewrite <- GC2, HN; nia).
    rewrite !Nat.div_add_l, !(Nat.div_small _ n) by lia. rewrite !(Nat.add_comm (_ * n)), !Nat.mod_add, !Nat.mod_small by lia. rewrite !Nat.add_0_r. reflexivity.
  Qed.

  Theorem cannon_product t (keep nz : F -> bool) alpha beta (A B C : dist) E :
    dist_ok t A -> dist_ok t B -> dist_ok t C -> dist_roomy A -> dist_roomy B -> dist_roomy C -> same_grid A B -> same_grid A C ->
    keeps_nonzero nz -> no_cut t keep -> (forall r k, (r < tasks A)%nat -> good_schedules (tn A) (E r k)) -> tprec A = true ->
    exists prog s, dist_multiply keep nz alpha beta A E = Ok prog /\ always_ends (tasks A) prog (cannon_start A B C) s /\
      dist_ok t (gather C qC s) /\ dist_roomy (gather C qC s) /\
      meq (tN A) (gmx (gather C qC s)) (madd (mscale beta (gmx C)) (mscale alpha (mmul (tN A) (gmx A) (gmx B)))).
  Proof.
    intros OA OB OC RA RB RC GB GC Hnz K HE HP. destruct (cannon_blocks t keep nz alpha beta A B C E) as (prog & s & E1 & E2 & _ & E3 & E4 & E5); auto.
    exists prog, s. do 4 (split; [assumption|]). destruct OA as ((Hp & Hn & HN) & _). intros i j Hi Hj.
    assert (BI : (i / tn A < tp A)%nat) by (apply Nat.div_lt_upper_bound; lia). assert (BJ : (j / tn A < tp A)%nat) by (apply Nat.div_lt_upper_bound; lia).
    assert (DI : i = (i / tn A * tn A + i mod tn A)%nat) by (rewrite (Nat.mul_comm _ (tn A)); apply Nat.div_mod; lia).
    assert (DJ : j = (j / tn A * tn A + j mod tn A)%nat) by (rewrite (Nat.mul_comm _ (tn A)); apply Nat.div_mod; lia).
    assert (MI : (i mod tn A < tn A)%nat) by (apply Nat.mod_upper_bound; lia). assert (MJ : (j mod tn A < tn A)%nat) by (apply Nat.mod_upper_bound; lia).
    specialize (E5 _ _ BI BJ _ _ MI MJ). rewrite (cannon_exact t keep (tp A) (tn A) alpha beta _ _ _ _ _ _ K _ _ MI MJ) in E5.
    unfold sub at 1 2 in E5. rewrite <- DI, <- DJ in E5. rewrite E5. unfold madd, mscale. f_equal. f_equal.
    replace (S (tp A - 1)) with (tp A) by lia. unfold mmul. rewrite HN, bigsum_blocks.
    rewrite (bigsum_cycle (fun l => bigsum (tn A) (fun k => sub (tn A) (i / tn A) l (gmx A) (i mod tn A) k * sub (tn A) l (j / tn A) (gmx B) k (j mod tn A)))) by exact Hp.
    apply bigsum_ext. intros l Hl. apply bigsum_ext. intros k Hk. unfold sub. rewrite <- DI, <- DJ. reflexivity.
  Qed.
End Cannon.
