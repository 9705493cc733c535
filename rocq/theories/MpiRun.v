(** Reasoning about exchange programs block by block. *)
From Verif Require Import Base BaseFacts MpiModel MpiSpec MpiFacts.

Section MpiRun.
  Context {St Msg : Type}.
  Local Notation block := (block St Msg).
  Variable P : nat.

  (** all tasks execute the blocks in lockstep *)
  Fixpoint runs (bs : list block) (s s' : nat -> St) : Prop :=
    match bs with
    | [] => s = s'
    | b :: bs => exists s1, (forall r, r < P -> sync_block b s r = Ok (s1 r)) /\ runs bs s1 s'
    end.

  Lemma lockstep_shift (bs : list block) k (D D' : nat -> nat -> St) :
    (forall j, D' (S j) = D j) -> lockstep P bs k D -> lockstep P bs (S k) D'.
  Proof.
    intros E. revert k. induction bs as [|b bs IH]; intros k; cbn [lockstep]; auto.
    intros [H1 H2]. split; auto. intros r Hr. rewrite !E. auto.
  Qed.

  Lemma runs_lockstep (bs : list block) s s' : runs bs s s' -> exists D, D 0 = s /\ D (length bs) = s' /\ lockstep P bs 0 D.
  Proof.
    revert s. induction bs as [|b bs IH]; intros s; cbn [runs length lockstep].
    - intros E. exists (fun _ => s). auto.
    - intros (s1 & H1 & H2). destruct (IH _ H2) as (D & D0 & DL & DD).
      exists (fun k => match k with 0 => s | S k => D k end). split; [reflexivity|]. split; [exact DL|].
      split; [intros r Hr; rewrite D0; auto|]. eapply lockstep_shift; [|exact DD]. reflexivity.
  Qed.

  Lemma runs_always_ends (bs : list block) s s' : Forall (valid P) bs -> runs bs s s' -> always_ends P bs s s'.
  Proof.
    intros V R. destruct (runs_lockstep _ _ _ R) as (D & <- & <- & DD). apply exchange_programs; auto.
  Qed.

  Lemma runs_app (bs cs : list block) s s1 s2 : runs bs s s1 -> runs cs s1 s2 -> runs (bs ++ cs) s s2.
  Proof.
    revert s. induction bs as [|b bs IH]; intros s; cbn [runs app].
    - intros ->. auto.
    - intros (t & H1 & H2) H3. exists t. split; auto.
  Qed.

  (** from states satisfying [Pre] the blocks succeed and lead to [Post] *)
  Definition hoare (Pre : nat -> St -> Prop) (bs : list block) (Post : nat -> St -> Prop) : Prop :=
    forall s, (forall r, r < P -> Pre r (s r)) -> exists s', runs bs s s' /\ forall r, r < P -> Post r (s' r).

  Lemma choice_le (Q : nat -> St -> Prop) (s0 : nat -> St) : (forall r, r < P -> exists x, Q r x) ->
    exists f, forall r, r < P -> Q r (f r).
  Proof.
    induction P as [|p IH]; intros H; [exists s0; lia|].
    destruct IH as (f & Hf); [intros; apply H; lia|]. destruct (H p) as (x & Hx); [lia|].
    exists (upd_fun f p x). intros r Hr. unfold upd_fun. destruct (Nat.eqb_spec r p) as [->|N]; [exact Hx|]. apply Hf. lia.
  Qed.

  Lemma hoare_one (Pre : nat -> St -> Prop) (b : block) Post :
    (forall s, (forall r, r < P -> Pre r (s r)) -> forall r, r < P -> exists x, sync_block b s r = Ok x /\ Post r x) ->
    hoare Pre [b] Post.
  Proof.
    intros H s Hs. destruct (choice_le (fun r x => sync_block b s r = Ok x /\ Post r x) s) as (f & Hf).
    { intros r Hr. apply H; auto. }
    exists f. split; [|intros r Hr; apply (Hf r Hr)]. exists f. split; [|reflexivity]. intros r Hr. apply (Hf r Hr).
  Qed.

  Lemma hoare_app Pre (bs cs : list block) Mid Post : hoare Pre bs Mid -> hoare Mid cs Post -> hoare Pre (bs ++ cs) Post.
  Proof.
    intros H1 H2 s Hs. destruct (H1 s Hs) as (s1 & R1 & M1). destruct (H2 s1 M1) as (s2 & R2 & M2).
    exists s2. split; auto. eapply runs_app; eauto.
  Qed.

  Lemma hoare_cons Pre (b : block) bs Mid Post : hoare Pre [b] Mid -> hoare Mid bs Post -> hoare Pre (b :: bs) Post.
  Proof. apply (hoare_app Pre [b] bs). Qed.

  Lemma hoare_nil Pre : hoare Pre [] Pre.
  Proof. intros s Hs. exists s. split; [reflexivity|auto]. Qed.

  Lemma hoare_local (Pre : nat -> St -> Prop) (f : nat -> St -> res St) (Post : nat -> St -> Prop) :
    (forall r s, r < P -> Pre r s -> exists x, f r s = Ok x /\ Post r x) -> hoare Pre [BLocal f] Post.
  Proof. intros H. apply hoare_one. intros s Hs r Hr. cbn [sync_block]. apply H; auto. Qed.

  Lemma hoare_exch (Pre : nat -> St -> Prop) src dst part (get : nat -> St -> Msg) put (Post : nat -> St -> Prop) :
    (forall r s, r < P -> part r = false -> Pre r s -> Post r s) ->
    (forall r s s', r < P -> src r < P -> part r = true -> Pre r s -> Pre (src r) s' ->
       exists x, put r (get (src r) s') s = Ok x /\ Post r x) ->
    (forall r, r < P -> part r = true -> src r < P) ->
    hoare Pre [BExch src dst part get put] Post.
  Proof.
    intros H1 H2 H3. apply hoare_one. intros s Hs r Hr. cbn [sync_block]. destruct (part r) eqn:E.
    - apply H2; auto.
    - exists (s r). auto.
  Qed.

  (** a loop, one iteration after the other *)
  Lemma hoare_loop (I : nat -> nat -> St -> Prop) (body : nat -> list block) n : forall a,
    (forall k, a <= k -> k < a + n -> hoare (I k) (body k) (I (S k))) -> hoare (I a) (flat_map body (seq a n)) (I (a + n)).
  Proof.
    induction n as [|n IH]; intros a H; cbn [seq flat_map].
    - rewrite Nat.add_0_r. apply hoare_nil.
    - eapply hoare_app; [apply H; lia|]. replace (a + S n) with (S a + n) by lia. apply IH. intros; apply H; lia.
  Qed.

  Theorem hoare_always_ends Pre (bs : list block) Post s : Forall (valid P) bs -> hoare Pre bs Post -> (forall r, r < P -> Pre r (s r)) ->
    exists s', always_ends P bs s s' /\ forall r, r < P -> Post r (s' r).
  Proof.
    intros V H Hs. destruct (H s Hs) as (s' & R & Q). exists s'. split; auto. apply runs_always_ends; auto.
  Qed.
End MpiRun.
