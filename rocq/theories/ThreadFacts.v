(** Programs whose accesses stay inside their own cells: no races, and the
    result does not depend on the interleaving. *)
From Verif Require Import Base ThreadModel.

(** Who may access a cell: everybody may read it and nobody writes it; only one
    thread; only the thread that holds a lock. *)
Inductive owner := Shared | OfThread (t : nat) | OfLock (q : nat).

Section Facts.
  Context {L V : Type} (eqL : forall a b : L, {a = b} + {a <> b}).
  Variable own : L -> owner.
  Local Notation prog := (prog L V).
  Local Notation mem := (mem L V).
  Local Notation mstate := (mstate L V).
  Local Notation mset := (mset eqL).
  Local Notation mstep := (mstep eqL).
  Local Notation msteps := (msteps eqL).

  Definition can_write (t : nat) (h : option nat) (l : L) : bool :=
    match own l with
    | Shared => false
    | OfThread t' => t' =? t
    | OfLock q => match h with Some q' => q =? q' | None => false end
    end.
  Definition can_read (t : nat) (h : option nat) (l : L) : bool :=
    match own l with Shared => true | _ => can_write t h l end.

  Lemma can_write_read t h l : can_write t h l = true -> can_read t h l = true.
  Proof. unfold can_read. destruct (own l); auto. Qed.

  (** Run [p] as thread [t], holding [h], up to its next Acq or its end;
      [None] if an access is not allowed or not possible. *)
  Fixpoint ahead {A} (t : nat) (h : option nat) (p : prog A) (m : mem) : option (prog A * mem) :=
    match p with
    | Ret a => match h with None => Some (Ret a, m) | Some _ => None end
    | Rd l k =>
        if can_read t h l
        then match m l with Some v => ahead t h (k v) m | None => None end
        else None
    | Wr l v p =>
        if can_write t h l
        then match m l with Some _ => ahead t h p (mset m l v) | None => None end
        else None
    | Acq q p => match h with None => Some (Acq q p, m) | Some _ => None end
    | Rel q p => match h with
                 | Some q' => if q =? q' then ahead t None p m else None
                 | None => None end
    | Exit => None
    end.

  (** Run [p] without locks to its end. *)
  Fixpoint run {A} (t : nat) (h : option nat) (p : prog A) (m : mem) : option (A * mem) :=
    match p with
    | Ret a => Some (a, m)
    | Rd l k =>
        if can_read t h l
        then match m l with Some v => run t h (k v) m | None => None end
        else None
    | Wr l v p =>
        if can_write t h l
        then match m l with Some _ => run t h p (mset m l v) | None => None end
        else None
    | _ => None
    end.

  Lemma mset_same (m : mem) l v : mset m l v l = Some v.
  Proof. unfold ThreadModel.mset. destruct (eqL l l); congruence. Qed.
  Lemma mset_other (m : mem) l v l' : l <> l' -> mset m l v l' = m l'.
  Proof. intros H. unfold ThreadModel.mset. destruct (eqL l l'); congruence. Qed.

  Lemma run_bind {A B} t h (p : prog A) (f : A -> prog B) m a m' :
    run t h p m = Some (a, m') -> run t h (pbind p f) m = run t h (f a) m'.
  Proof.
    revert m; induction p; intros m0 Hr; simpl in *; try discriminate.
    - injection Hr as <- <-. reflexivity.
    - destruct (can_read t h l); [|discriminate].
      destruct (m0 l); [|discriminate]. auto.
    - destruct (can_write t h l); [|discriminate].
      destruct (m0 l); [|discriminate]. auto.
  Qed.

  Lemma ahead_bind {A B} t h (p : prog A) (f : A -> prog B) m a m' :
    run t h p m = Some (a, m') -> ahead t h (pbind p f) m = ahead t h (f a) m'.
  Proof.
    revert m; induction p; intros m0 Hr; simpl in *; try discriminate.
    - injection Hr as <- <-. reflexivity.
    - destruct (can_read t h l); [|discriminate].
      destruct (m0 l); [|discriminate]. auto.
    - destruct (can_write t h l); [|discriminate].
      destruct (m0 l); [|discriminate]. auto.
  Qed.

  (** What is allowed depends on the readable cells only, and only writable
      cells change. *)
  Definition agree t h (m m' : mem) := forall l, can_read t h l = true -> m l = m' l.

  Lemma agree_set t h (m m' : mem) l v : agree t h m m' -> agree t h (mset m l v) (mset m' l v).
  Proof.
    intros H l' Hl'. unfold ThreadModel.mset. destruct (eqL l l'); auto.
  Qed.

  Lemma agree_None t h m m' : agree t h m m' -> agree t None m m'.
  Proof.
    intros H l Hl. apply H. unfold can_read, can_write in *.
    destruct (own l); auto; discriminate.
  Qed.

  Lemma ahead_local {A} t h (p : prog A) m m' p1 m1 :
    ahead t h p m = Some (p1, m1) -> agree t h m m' ->
    exists m1', ahead t h p m' = Some (p1, m1') /\
      (forall l, can_read t h l = true -> m1 l = m1' l) /\
      (forall l, can_write t h l = false -> m1' l = m' l).
  Proof.
    revert h m m'; induction p; intros h m0 m' Ha Hag; simpl in *; try discriminate.
    - destruct h; [discriminate|]. injection Ha as <- <-. exists m'. auto.
    - destruct (can_read t h l) eqn:Hc; [|discriminate].
      rewrite <- (Hag l Hc). destruct (m0 l); [|discriminate]. eauto.
    - destruct (can_write t h l) eqn:Hc; [|discriminate].
      rewrite <- (Hag l (can_write_read _ _ _ Hc)). destruct (m0 l); [|discriminate].
      destruct (IHp _ _ (mset m' l v) Ha (agree_set _ _ _ _ _ _ Hag)) as (m1' & E & Hr & Hw).
      exists m1'. split; [exact E|]. split; [exact Hr|].
      intros l' Hl'. rewrite (Hw l' Hl'). apply mset_other. congruence.
    - destruct h; [discriminate|]. injection Ha as <- <-. exists m'. auto.
    - destruct h as [q'|]; [|discriminate]. destruct (Nat.eqb_spec q q'); [|discriminate]. subst q'.
      destruct (IHp _ _ m' Ha (agree_None _ _ _ _ Hag)) as (m1' & E & Hr & Hw).
      assert (Hnw : forall l, can_write t None l = false -> m1 l = m0 l).
      { intros l Hl.
        destruct (IHp _ _ m0 Ha (fun _ _ => eq_refl)) as (m1'' & E'' & _ & Hw'').
        rewrite Ha in E''. injection E'' as <-. auto. }
      exists m1'. split; [exact E|]. split.
      + intros l Hl. destruct (can_read t None l) eqn:Hc; [auto|].
        assert (Hcw : can_write t None l = false).
        { destruct (can_write t None l) eqn:?; auto.
          apply can_write_read in Heqb. congruence. }
        rewrite (Hnw l Hcw), (Hw l Hcw). auto.
      + intros l Hl. apply Hw. unfold can_write in *. destruct (own l); auto.
  Qed.

  Lemma ahead_frame {A} t h (p : prog A) m p1 m1 :
    ahead t h p m = Some (p1, m1) -> forall l, can_write t h l = false -> m1 l = m l.
  Proof.
    intros Ha. destruct (ahead_local t h p m m p1 m1 Ha (fun _ _ => eq_refl)) as (m1' & E & _ & Hw).
    rewrite Ha in E. injection E as <-. exact Hw.
  Qed.

  Lemma run_local {A} t h (p : prog A) m m' a m1 :
    run t h p m = Some (a, m1) -> agree t h m m' ->
    exists m1', run t h p m' = Some (a, m1') /\
      (forall l, can_read t h l = true -> m1 l = m1' l) /\
      (forall l, can_write t h l = false -> m1' l = m' l).
  Proof.
    revert m m'; induction p; intros m0 m' Ha Hag; simpl in *; try discriminate.
    - injection Ha as <- <-. exists m'. auto.
    - destruct (can_read t h l) eqn:Hc; [|discriminate].
      rewrite <- (Hag l Hc). destruct (m0 l); [|discriminate]. eauto.
    - destruct (can_write t h l) eqn:Hc; [|discriminate].
      rewrite <- (Hag l (can_write_read _ _ _ Hc)). destruct (m0 l); [|discriminate].
      destruct (IHp _ (mset m' l v) Ha (agree_set _ _ _ _ _ _ Hag)) as (m1' & E & Hr & Hw).
      exists m1'. split; [exact E|]. split; [exact Hr|].
      intros l' Hl'. rewrite (Hw l' Hl'). apply mset_other. congruence.
  Qed.

  Lemma run_frame {A} t h (p : prog A) m a m1 :
    run t h p m = Some (a, m1) -> forall l, can_write t h l = false -> m1 l = m l.
  Proof.
    intros Ha. destruct (run_local t h p m m a m1 Ha (fun _ _ => eq_refl)) as (m1' & E & _ & Hw).
    rewrite Ha in E. injection E as <-. exact Hw.
  Qed.

  (** * The invariant of all interleavings

      [C, cm] is the coarse state: every thread of the fine state [s] has run
      ahead to its next Acq or its end. *)
  Definition inv (s : mstate) (C : nat -> prog unit) (cm : mem) (h : nat -> option nat) : Prop :=
    (forall q t, lk s q = Some t <-> h t = Some q) /\
    (forall l, own l = Shared -> cm l = me s l) /\
    (forall l q, own l = OfLock q -> lk s q = None -> cm l = me s l) /\
    (forall t, exists mt, ahead t (h t) (th s t) (me s) = Some (C t, mt) /\
       (forall l, can_write t (h t) l = true -> cm l = mt l)).

  Lemma inv_no_race s C cm h : inv s C cm h -> ~ race s.
  Proof.
    intros (Hlk & _ & _ & Ht) (t & t' & l & w & w' & Hne & Ha & Hb & Hw).
    assert (HA : forall t l w, next_access (th s t) = Some (l, w) ->
              can_read t (h t) l = true /\ (w = true -> can_write t (h t) l = true)).
    { clear -Ht. intros t l w Ha. destruct (Ht t) as (mt & E & _).
      destruct (th s t); simpl in *; try discriminate; injection Ha as <- <-.
      - destruct (can_read t (h t) l0) eqn:Hc; [|discriminate]. split; [auto|discriminate].
      - destruct (can_write t (h t) l0) eqn:Hc; [|discriminate].
        split; auto using can_write_read. }
    destruct (HA _ _ _ Ha) as [R1 W1], (HA _ _ _ Hb) as [R2 W2].
    assert (Hx : (can_write t (h t) l = true /\ can_read t' (h t') l = true) \/
                 (can_write t' (h t') l = true /\ can_read t (h t) l = true)).
    { destruct w; [left; auto|]. destruct w'; [right; auto|discriminate]. }
    clear W1 W2. unfold can_read, can_write in *.
    destruct (own l) as [|t0|q].
    - destruct Hx as [[? _]|[? _]]; discriminate.
    - apply Nat.eqb_eq in R1. apply Nat.eqb_eq in R2. congruence.
    - destruct (h t) as [q1|] eqn:E1; [|discriminate]. destruct (h t') as [q2|] eqn:E2; [|discriminate].
      apply Nat.eqb_eq in R1. apply Nat.eqb_eq in R2. subst q1 q2.
      apply Hlk in E1. apply Hlk in E2. congruence.
  Qed.

  Lemma inv_no_crash s C cm h t : inv s C cm h -> ~ crashed eqL t s.
  Proof.
    intros (Hlk & _ & _ & Ht) (Hn & Hs & Hw). destruct s as [P Q m]; simpl in *.
    destruct (Ht t) as (mt & E & _). destruct (P t) eqn:EP; simpl in *.
    - destruct a. auto.
    - destruct (can_read t (h t) l); [|discriminate].
      destruct (m l) eqn:El; [|discriminate]. eapply Hs. econstructor; eauto.
    - destruct (can_write t (h t) l); [|discriminate].
      destruct (m l) eqn:El; [|discriminate]. eapply Hs. eapply ms_wr; eauto. congruence.
    - destruct (h t) eqn:Eh; [discriminate|]. destruct (Q q) as [t'|] eqn:EQ.
      + apply Hw. exists q, p, t'. repeat split; auto. intros ->. apply Hlk in EQ. congruence.
      + eapply Hs. eapply ms_acq; eauto.
    - destruct (h t) as [q'|] eqn:Eh; [|discriminate]. destruct (Nat.eqb_spec q q'); [|discriminate].
      subst q'. apply Hlk in Eh. eapply Hs. eapply ms_rel; eauto.
    - discriminate.
  Qed.

  Lemma inv_no_deadlock s C cm h : inv s C cm h -> ~ deadlock eqL s.
  Proof.
    intros Hi (Hn & Hs). apply Hn. intros t.
    pose proof (inv_no_crash s C cm h) as Hc.
    destruct Hi as (Hlk & Hsh & Hlo & Ht).
    (* a thread that holds a lock can make a step *)
    assert (Hh : forall t q, h t = Some q -> False).
    { intros t0 q Hq. apply (Hc t0); [repeat split; auto; apply Hlk|].
      destruct (Ht t0) as (mt & E & _). split; [|split; [intros s'; apply Hs|]].
      - intros E1. rewrite E1, Hq in E. discriminate.
      - intros (q1 & p1 & t1 & E1 & _). rewrite E1, Hq in E. discriminate. }
    destruct (th s t) as [[]| | | | |] eqn:ET; [reflexivity|exfalso..];
      (apply (Hc t); [repeat split; auto; apply Hlk|]);
      (split; [rewrite ET; discriminate|split; [intros s'; apply Hs|]]);
      intros (q1 & p1 & t1 & E1 & E2 & _); apply Hlk in E2; eauto.
  Qed.

  Lemma inv_finished s C cm h : inv s C cm h -> finished s ->
    (forall t, C t = Ret tt) /\ (forall l, cm l = me s l).
  Proof.
    intros (Hlk & Hsh & Hlo & Ht) Hf.
    assert (Hh : forall t, h t = None /\ C t = Ret tt /\
               (forall l, can_write t None l = true -> cm l = me s l)).
    { intros t. destruct (Ht t) as (mt & E & Hw). rewrite Hf in E. simpl in E.
      destruct (h t); [discriminate|]. injection E as <- <-. auto. }
    split; [intros t; apply Hh|]. intros l. destruct (own l) as [|t|q] eqn:Eo.
    - auto.
    - destruct (Hh t) as (_ & _ & Hw). apply Hw. unfold can_write. rewrite Eo. apply Nat.eqb_refl.
    - apply (Hlo l q Eo). destruct (lk s q) as [t|] eqn:El; auto.
      apply Hlk in El. destruct (Hh t). congruence.
  Qed.

  (** cells that two different threads may both access are only read *)
  Lemma write_excl h Q t t' l : (forall q t, Q q = Some t <-> h t = Some q) -> t <> t' ->
    can_write t (h t) l = true -> can_read t' (h t') l = false.
  Proof.
    intros Hlk Hne. unfold can_read, can_write. destruct (own l) as [|t0|q]; [discriminate| |].
    - intros E. apply Nat.eqb_eq in E. subst. apply Nat.eqb_neq. auto.
    - destruct (h t) as [q1|] eqn:E1; [|discriminate]. intros E. apply Nat.eqb_eq in E. subst q1.
      destruct (h t') as [q2|] eqn:E2; [|reflexivity]. apply Nat.eqb_neq. intros ->.
      apply Hlk in E1. apply Hlk in E2. congruence.
  Qed.

  Lemma upd_fun_same {A} (f : nat -> A) t a : upd_fun f t a t = a.
  Proof. unfold upd_fun. now rewrite Nat.eqb_refl. Qed.
  Lemma upd_fun_other {A} (f : nat -> A) t a t' : t' <> t -> upd_fun f t a t' = f t'.
  Proof. intros H. unfold upd_fun. apply Nat.eqb_neq in H. now rewrite H. Qed.

  Lemma can_read_not_write t h l : can_read t h l = false -> can_write t h l = false.
  Proof. intros H. destruct (can_write t h l) eqn:E; auto. apply can_write_read in E. congruence. Qed.

  (** A read, a write or an unlock does not change the coarse state. *)
  Lemma inv_step s s' t C cm h : inv s C cm h -> mstep t s s' ->
    (forall q p, th s t <> Acq q p) -> exists h', inv s' C cm h'.
  Proof.
    intros (Hlk & Hsh & Hlo & Ht) Hst Hna. destruct (Ht t) as (mt & E & Hmt).
    inversion Hst; subst; simpl in *; rewrite H in E; simpl in E.
    - (* read *)
      destruct (can_read t (h t) l) eqn:Hc; [|discriminate]. rewrite H0 in E.
      exists h. split; [exact Hlk|]. split; [exact Hsh|]. split; [exact Hlo|].
      intros t'. simpl. destruct (Nat.eq_dec t' t) as [->|Hne].
      + rewrite upd_fun_same. eauto.
      + rewrite upd_fun_other by auto. apply Ht.
    - (* write *)
      destruct (can_write t (h t) l) eqn:Hc; [|discriminate].
      destruct (m l) eqn:Hl; [|congruence].
      exists h. split; [exact Hlk|]. split; [|split].
      + intros l' Hl'. simpl. rewrite mset_other; auto. intros ->. unfold can_write in Hc.
        rewrite Hl' in Hc. discriminate.
      + intros l' q Hl' Hq. simpl. rewrite mset_other; eauto. intros ->. unfold can_write in Hc.
        rewrite Hl' in Hc. destruct (h t) eqn:Eh; [|discriminate]. apply Nat.eqb_eq in Hc. subst.
        apply Hlk in Eh. simpl in Hq. congruence.
      + intros t'. simpl. destruct (Nat.eq_dec t' t) as [->|Hne].
        * rewrite upd_fun_same. eauto.
        * rewrite upd_fun_other by auto. destruct (Ht t') as (mt' & E' & Hmt').
          destruct (ahead_local t' (h t') (P t') m (mset m l v) _ _ E') as (m1' & E1 & Hr1 & Hw1).
          { intros l' Hl'. symmetry. apply mset_other. intros ->.
            rewrite (write_excl h Q t t' l' Hlk) in Hl'; [discriminate|auto|auto]. }
          exists m1'. split; [exact E1|]. intros l' Hl'. rewrite (Hmt' l' Hl'). apply Hr1.
          now apply can_write_read.
    - (* lock *) exfalso. eapply Hna; eauto.
    - (* unlock *)
      destruct (h t) as [q'|] eqn:Eh; [|discriminate].
      destruct (Nat.eqb_spec q q'); [|discriminate]. subst q'.
      exists (upd_fun h t None). split; [|split; [exact Hsh|split]].
      + intros q' t'. simpl. unfold upd_fun.
        destruct (Nat.eqb_spec q' q); destruct (Nat.eqb_spec t' t); subst; split; try discriminate; intros X.
        * apply Hlk in X. congruence.
        * apply Hlk in X. congruence.
        * now apply Hlk.
        * now apply Hlk.
      + intros l q' Hl Hq. simpl in *. destruct (Nat.eq_dec q' q) as [->|Hne].
        * rewrite (Hmt l) by (unfold can_write; rewrite Hl; apply Nat.eqb_refl).
          eapply ahead_frame; [exact E|]. unfold can_write. now rewrite Hl.
        * rewrite upd_fun_other in Hq by auto. eauto.
      + intros t'. simpl. destruct (Nat.eq_dec t' t) as [->|Hne].
        * rewrite !upd_fun_same. exists mt. split; [exact E|]. intros l Hl. apply Hmt.
          unfold can_write in *. destruct (own l); auto. discriminate.
        * rewrite !upd_fun_other by auto. apply Ht.
  Qed.

  (** ** Loops without locks *)

  (** The iterations one after the other, in the order of the schedule. *)
  Fixpoint atomic (body : nat -> nat -> prog unit) (sched : list (nat * nat)) (m : mem) : option mem :=
    match sched with
    | [] => Some m
    | (t, i) :: rest =>
        match run t None (body t i) m with
        | Some (_, m') => atomic body rest m'
        | None => None
        end
    end.

  Fixpoint no_acq {A} (p : prog A) : Prop :=
    match p with
    | Ret _ => True
    | Rd _ k => forall v, no_acq (k v)
    | Wr _ _ p => no_acq p
    | Acq _ _ => False
    | Rel _ p => no_acq p
    | Exit => True
    end.

  Lemma run_run_None {A} t h (p : prog A) m a m' :
    run t h p m = Some (a, m') -> h = None -> ahead t h p m = Some (Ret a, m').
  Proof.
    intros Hr ->. revert m Hr; induction p; intros m0 Hr; simpl in *; try discriminate.
    - injection Hr as <- <-. reflexivity.
    - destruct (can_read t None l); [|discriminate]. destruct (m0 l); [|discriminate]. auto.
    - destruct (can_write t None l); [|discriminate]. destruct (m0 l); [|discriminate]. auto.
  Qed.

  (** Each thread alone, from the initial memory, does what it does in the
      atomic execution. *)
  Lemma atomic_threads body sched m m' : atomic body sched m = Some m' ->
    (forall l, own l = Shared -> m' l = m l) /\
    (forall l q, own l = OfLock q -> m' l = m l) /\
    forall t, exists mt, run t None (thread_prog body sched t) m = Some (tt, mt) /\
      (forall l, can_write t None l = true -> m' l = mt l).
  Proof.
    revert m; induction sched as [|[t0 i] rest IH]; intros m Ha; simpl in *.
    - injection Ha as <-. split; [auto|]. split; [auto|]. intros t. exists m. auto.
    - destruct (run t0 None (body t0 i) m) as [[[] m1]|] eqn:E; [|discriminate].
      destruct (IH m1 Ha) as (Hs & Hlo & Ht). clear IH.
      pose proof (run_frame _ _ _ _ _ _ E) as Hf.
      split; [|split].
      + intros l Hl. rewrite Hs by auto. apply Hf. unfold can_write. now rewrite Hl.
      + intros l q Hl. rewrite (Hlo l q) by auto. apply Hf. unfold can_write. now rewrite Hl.
      + intros t. destruct (Nat.eqb_spec t0 t) as [->|Hne].
        * rewrite (run_bind _ _ _ _ _ _ _ E). apply Ht.
        * destruct (Ht t) as (mt & Et & Hmt).
          destruct (run_local t None _ m1 m tt mt Et) as (mt' & Et' & Hr & Hw).
          { intros l Hl. apply Hf. unfold can_read, can_write in *. destruct (own l); [reflexivity| |reflexivity].
            apply Nat.eqb_eq in Hl. subst. apply Nat.eqb_neq. auto. }
          exists mt'. split; [exact Et'|]. intros l Hl. rewrite (Hmt l Hl). apply Hr.
          now apply can_write_read.
  Qed.

  Lemma inv_init_atomic body sched m m' : atomic body sched m = Some m' ->
    inv (mkM (thread_prog body sched) (fun _ => None) m) (fun _ => Ret tt) m' (fun _ => None).
  Proof.
    intros Ha. destruct (atomic_threads _ _ _ _ Ha) as (Hs & Hlo & Ht).
    split; [split; discriminate|]. split; [exact Hs|]. split; [intros l q Hl _; eapply Hlo; eauto|].
    intros t. simpl. destruct (Ht t) as (mt & E & Hw). exists mt. split; [|exact Hw].
    apply run_run_None; auto.
  Qed.

  Lemma inv_steps tr s s' C cm h : msteps tr s s' -> inv s C cm h -> (forall t, C t = Ret tt) ->
    exists h', inv s' C cm h'.
  Proof.
    intros Hs. revert h; induction Hs; intros h Hi HC; [eauto|].
    destruct (inv_step s s1 t C cm h Hi H) as (h' & Hi').
    { intros q p E. destruct Hi as (_ & _ & _ & Ht). destruct (Ht t) as (mt & Ea & _).
      rewrite E in Ea. simpl in Ea. destruct (h t); [discriminate|]. rewrite HC in Ea. discriminate. }
    eauto.
  Qed.

  (** A thread that takes no further lock can run to its end, whatever the
      others do afterwards. *)
  Lemma run_to_end t C cm : C t = Ret tt -> forall p P Q m h,
    inv (mkM P Q m) C cm h -> P t = p ->
    exists tr P' Q' m' h', msteps tr (mkM P Q m) (mkM P' Q' m') /\
      inv (mkM P' Q' m') C cm h' /\ P' t = Ret tt /\ (forall t', t' <> t -> P' t' = P t').
  Proof.
    intros HC p. induction p as [[]|l k IH|l v p IH|q p IH|q p IH|]; intros P Q m h Hi HP;
      pose proof Hi as (Hlk & _ & _ & Ht); destruct (Ht t) as (mt & E & _); simpl in E; rewrite HP in E;
      simpl in E.
    - exists [], P, Q, m, h. repeat split; auto; try apply Hi. constructor.
    - destruct (can_read t (h t) l) eqn:Hc; [|discriminate]. destruct (m l) as [v|] eqn:El; [|discriminate].
      assert (Hst : mstep t (mkM P Q m) (mkM (upd_fun P t (k v)) Q m)) by (eapply ms_rd; eauto).
      destruct (inv_step _ _ _ _ _ _ Hi Hst) as (h' & Hi'); [simpl; congruence|].
      destruct (IH v _ _ _ _ Hi' (upd_fun_same _ _ _)) as (tr & P' & Q' & m' & h'' & Hs & Hi'' & HP' & Ho).
      exists (t :: tr), P', Q', m', h''. split; [econstructor; eauto|]. split; [auto|]. split; [auto|].
      intros t' Hne. rewrite Ho by auto. now apply upd_fun_other.
    - destruct (can_write t (h t) l) eqn:Hc; [|discriminate]. destruct (m l) as [v'|] eqn:El; [|discriminate].
      assert (Hst : mstep t (mkM P Q m) (mkM (upd_fun P t p) Q (mset m l v))) by (eapply ms_wr; eauto; congruence).
      destruct (inv_step _ _ _ _ _ _ Hi Hst) as (h' & Hi'); [simpl; congruence|].
      destruct (IH _ _ _ _ Hi' (upd_fun_same _ _ _)) as (tr & P' & Q' & m' & h'' & Hs & Hi'' & HP' & Ho).
      exists (t :: tr), P', Q', m', h''. split; [econstructor; eauto|]. split; [auto|]. split; [auto|].
      intros t' Hne. rewrite Ho by auto. now apply upd_fun_other.
    - destruct (h t); [discriminate|]. rewrite HC in E. discriminate.
    - destruct (h t) as [q'|] eqn:Eh; [|discriminate]. destruct (Nat.eqb_spec q q'); [|discriminate]. subst q'.
      assert (Hst : mstep t (mkM P Q m) (mkM (upd_fun P t p) (upd_fun Q q None) m)).
      { eapply ms_rel; eauto. now apply Hlk. }
      destruct (inv_step _ _ _ _ _ _ Hi Hst) as (h' & Hi'); [simpl; congruence|].
      destruct (IH _ _ _ _ Hi' (upd_fun_same _ _ _)) as (tr & P' & Q' & m' & h'' & Hs & Hi'' & HP' & Ho).
      exists (t :: tr), P', Q', m', h''. split; [econstructor; eauto|]. split; [auto|]. split; [auto|].
      intros t' Hne. rewrite Ho by auto. now apply upd_fun_other.
    - discriminate.
  Qed.

  Lemma msteps_app tr1 tr2 (s1 s2 s3 : mstate) : msteps tr1 s1 s2 -> msteps tr2 s2 s3 -> msteps (tr1 ++ tr2) s1 s3.
  Proof. induction 1; intros; simpl; [auto|]. econstructor; eauto. Qed.

  Lemma run_all_to_end C cm ts : (forall t, C t = Ret tt) -> forall P Q m h,
    inv (mkM P Q m) C cm h ->
    exists tr P' Q' m' h', msteps tr (mkM P Q m) (mkM P' Q' m') /\ inv (mkM P' Q' m') C cm h' /\
      (forall t, In t ts \/ P t = Ret tt -> P' t = Ret tt).
  Proof.
    intros HC. induction ts as [|t ts IH]; intros P Q m h Hi.
    - exists [], P, Q, m, h. split; [constructor|]. split; [auto|]. intros t [[]|]; auto.
    - destruct (run_to_end t C cm (HC t) _ _ _ _ _ Hi eq_refl) as (tr & P1 & Q1 & m1 & h1 & Hs & Hi1 & HP1 & Ho).
      destruct (IH _ _ _ _ Hi1) as (tr2 & P2 & Q2 & m2 & h2 & Hs2 & Hi2 & HP2).
      exists (tr ++ tr2), P2, Q2, m2, h2. split; [eapply msteps_app; eauto|]. split; [auto|].
      intros t' [[->|Hin]|He].
      + apply HP2. auto.
      + apply HP2. auto.
      + apply HP2. right. destruct (Nat.eq_dec t' t) as [->|Hne]; [auto|]. rewrite Ho; auto.
  Qed.

  Lemma thread_prog_none (body : nat -> nat -> prog unit) sched t : ~ In t (map fst sched) -> thread_prog body sched t = Ret tt.
  Proof.
    induction sched as [|[t' i] rest IH]; simpl; intros H; [reflexivity|].
    destruct (Nat.eqb_spec t' t); [tauto|]. apply IH. tauto.
  Qed.

  (** a thread that has finished stays finished *)
  Lemma msteps_ret tr (s s' : mstate) t : msteps tr s s' -> th s t = Ret tt -> th s' t = Ret tt.
  Proof.
    induction 1; intros E; [auto|]. apply IHmsteps. inversion H; subst; simpl in *;
      (destruct (Nat.eq_dec t t0) as [->|Hne]; [congruence|rewrite upd_fun_other; auto]).
  Qed.

  (** If the iterations, executed one after the other, respect the owners, then
      in every interleaving of single accesses there is no data race, no crash
      and no deadlock, and the final memory is the same. *)
  Theorem atomic_all body sched m m' : atomic body sched m = Some m' ->
    forall s, reachable eqL (mkM (thread_prog body sched) (fun _ => None) m) s ->
      ~ race s /\ (forall t, ~ crashed eqL t s) /\ ~ deadlock eqL s /\
      (exists s', reachable eqL s s' /\ finished s') /\
      (finished s -> forall l, me s l = m' l).
  Proof.
    intros Ha s (tr & Hs). pose proof (inv_init_atomic _ _ _ _ Ha) as Hi.
    destruct (inv_steps _ _ _ _ _ _ Hs Hi (fun _ => eq_refl)) as (h & Hi').
    split; [eapply inv_no_race; eauto|]. split; [intros t; eapply inv_no_crash; eauto|].
    split; [eapply inv_no_deadlock; eauto|]. split.
    { destruct s as [P Q ms]. destruct (run_all_to_end _ _ (map fst sched) (fun _ => eq_refl) _ _ _ _ Hi')
        as (tr2 & P2 & Q2 & m2 & h2 & Hs2 & _ & HP2).
      exists (mkM P2 Q2 m2). split; [exists tr2; exact Hs2|]. intros t. simpl. apply HP2.
      destruct (in_dec Nat.eq_dec t (map fst sched)); [auto|right].
      apply (msteps_ret _ _ _ t Hs). simpl. now apply thread_prog_none. }
    intros Hf l. destruct (inv_finished _ _ _ _ Hi' Hf) as [_ H]. symmetry. apply H.
  Qed.
End Facts.
