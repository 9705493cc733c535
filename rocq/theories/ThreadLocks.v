(** Loops whose shared cells are protected by locks: every interleaving of
    single accesses is as good as one in which the critical sections, with what
    follows them up to the next lock, happen one at a time. *)
From Verif Require Import Base ThreadModel ThreadFacts.

Section Locks.
  Context {L V : Type} (eqL : forall a b : L, {a = b} + {a <> b}).
  Variable own : L -> owner.
  Local Notation prog := (prog L V).
  Local Notation mem := (mem L V).
  Local Notation mstate := (mstate L V).
  Local Notation mset := (mset eqL).
  Local Notation mstep := (mstep eqL).
  Local Notation msteps := (msteps eqL).
  Local Notation inv := (inv (V := V) eqL own).
  Local Notation ahead := (ahead eqL own).

  (** what is claimed about the coarse states *)
  Variable I : (nat -> prog unit) -> mem -> Prop.
  Hypothesis I_step : forall C cm t q p, I C cm -> C t = Acq q p ->
    exists p1 m1, ahead t (Some q) p cm = Some (p1, m1) /\ I (upd_fun C t p1) m1.

  Lemma inv_acq P Q m t q p C cm h : inv (mkM P Q m) C cm h -> I C cm ->
    P t = Acq q p -> Q q = None ->
    exists C' cm' h', inv (mkM (upd_fun P t p) (upd_fun Q q (Some t)) m) C' cm' h' /\ I C' cm' /\
      (forall t', t' <> t -> C' t' = C t').
  Proof.
    intros (Hlk & Hsh & Hlo & Ht) HI HP HQ. simpl in *.
    destruct (Ht t) as (mt & E & Hmt). rewrite HP in E. simpl in E.
    destruct (h t) eqn:Eh; [discriminate|]. injection E as EC Em. symmetry in EC. subst mt.
    destruct (I_step C cm t q p HI EC) as (p1 & m1 & Ea & HI1).
    assert (Hag : forall l, can_read own t (Some q) l = true -> cm l = m l).
    { intros l Hl. unfold can_read, can_write in Hl. destruct (own l) as [|t'|q'] eqn:Eo.
      - now apply Hsh.
      - apply Hmt. unfold can_write. rewrite Eo. exact Hl.
      - apply Nat.eqb_eq in Hl. subst q'. eapply Hlo; eauto. }
    destruct (ahead_local eqL own t (Some q) p cm m p1 m1 Ea Hag) as (m1' & Ea' & Hr & Hw).
    pose proof (ahead_frame eqL own _ _ _ _ _ _ Ea) as Hf.
    set (h' := upd_fun h t (Some q)).
    assert (Hlk' : forall q' t', upd_fun Q q (Some t) q' = Some t' <-> h' t' = Some q').
    { intros q' t'. unfold h', upd_fun.
      destruct (Nat.eqb_spec q' q); destruct (Nat.eqb_spec t' t); subst; split; intros X; try congruence.
      - apply Hlk in X. congruence.
      - apply Hlk in X. congruence.
      - apply Hlk; auto.
      - apply Hlk; auto. }
    exists (upd_fun C t p1), m1, h'. split; [|split; [exact HI1|intros; now apply upd_fun_other]].
    split; [exact Hlk'|]. split; [|split].
    - intros l Hl. rewrite Hf; [auto|]. unfold can_write. now rewrite Hl.
    - intros l q' Hl Hq. simpl in *. destruct (Nat.eq_dec q' q) as [->|Hne].
      { rewrite upd_fun_same in Hq. discriminate. }
      rewrite upd_fun_other in Hq by auto. rewrite Hf; [eauto|]. unfold can_write. rewrite Hl.
      now apply Nat.eqb_neq.
    - intros t'. simpl. destruct (Nat.eq_dec t' t) as [->|Hne].
      + unfold h'. rewrite !upd_fun_same. exists m1'. split; [exact Ea'|]. intros l Hl. apply Hr.
        now apply can_write_read.
      + rewrite !upd_fun_other by auto. destruct (Ht t') as (mt' & E' & Hmt').
        exists mt'. unfold h'. rewrite upd_fun_other by auto. split; [exact E'|].
        intros l Hl. rewrite Hf; [auto|].
        assert (Hx : can_read own t (h' t) l = false).
        { apply (write_excl own h' (upd_fun Q q (Some t)) t' t l Hlk'); [auto|]. unfold h'.
          rewrite upd_fun_other by auto. exact Hl. }
        unfold h' in Hx. rewrite upd_fun_same in Hx. now apply can_read_not_write.
  Qed.

  Lemma inv_any_step s s' t C cm h : inv s C cm h -> I C cm -> mstep t s s' ->
    exists C' cm' h', inv s' C' cm' h' /\ I C' cm'.
  Proof.
    intros Hi HI Hst. destruct (th s t) as [| | |q p| |] eqn:ET.
    4:{ inversion Hst; subst; simpl in *; try congruence.
        rewrite H in ET. injection ET as -> ->.
        destruct (inv_acq _ _ _ _ _ _ _ _ _ Hi HI H H0) as (C' & cm' & h' & A1 & A2 & _). eauto. }
    all: destruct (inv_step eqL own _ _ _ _ _ _ Hi Hst) as (h' & Hi'); [congruence|eauto].
  Qed.

  Lemma inv_any_steps tr s s' : msteps tr s s' -> forall C cm h, inv s C cm h -> I C cm ->
    exists C' cm' h', inv s' C' cm' h' /\ I C' cm'.
  Proof.
    induction 1; intros C cm h Hi HI; [eauto|].
    destruct (inv_any_step _ _ _ _ _ _ Hi HI H) as (C' & cm' & h' & Hi' & HI'). eauto.
  Qed.

  (** a thread can run up to its next Acq or its end, where it holds no lock *)
  Lemma run_to_acq t C (cm : mem) : forall (p : prog unit) P Q (m : mem) h,
    inv (mkM P Q m) C cm h -> P t = p ->
    exists tr P' Q' m' h', msteps tr (mkM P Q m) (mkM P' Q' m') /\
      inv (mkM P' Q' m') C cm h' /\ P' t = C t /\ (forall t', t' <> t -> P' t' = P t') /\
      (forall q t', Q' q = Some t' -> t' <> t /\ Q q = Some t').
  Proof.
    intros p. induction p as [[]|l k IH|l v p IH|q p IH|q p IH|]; intros P Q m h Hi HP;
      pose proof Hi as (Hlk & _ & _ & Ht); destruct (Ht t) as (mt & E & _); simpl in E; rewrite HP in E;
      simpl in E.
    - destruct (h t) eqn:Eh; [discriminate|]. injection E as EC _.
      exists [], P, Q, m, h. split; [constructor|]. split; [exact Hi|]. split; [congruence|]. split; [auto|].
      intros q t' Hq. split; [|auto]. intros ->. apply Hlk in Hq. congruence.
    - destruct (can_read own t (h t) l) eqn:Hc; [|discriminate]. destruct (m l) as [v|] eqn:El; [|discriminate].
      assert (Hst : mstep t (mkM P Q m) (mkM (upd_fun P t (k v)) Q m)) by (eapply ms_rd; eauto).
      destruct (inv_step eqL own _ _ _ _ _ _ Hi Hst) as (h' & Hi'); [simpl; congruence|].
      destruct (IH v _ _ _ _ Hi' (upd_fun_same _ _ _)) as (tr & P' & Q' & m' & h'' & Hs & Hi'' & HP' & Ho & Hq).
      exists (t :: tr), P', Q', m', h''. split; [econstructor; eauto|]. split; [auto|]. split; [auto|].
      split; [|auto]. intros t' Hne. rewrite Ho by auto. now apply upd_fun_other.
    - destruct (can_write own t (h t) l) eqn:Hc; [|discriminate]. destruct (m l) as [v'|] eqn:El; [|discriminate].
      assert (Hst : mstep t (mkM P Q m) (mkM (upd_fun P t p) Q (mset m l v))) by (eapply ms_wr; eauto; congruence).
      destruct (inv_step eqL own _ _ _ _ _ _ Hi Hst) as (h' & Hi'); [simpl; congruence|].
      destruct (IH _ _ _ _ Hi' (upd_fun_same _ _ _)) as (tr & P' & Q' & m' & h'' & Hs & Hi'' & HP' & Ho & Hq).
      exists (t :: tr), P', Q', m', h''. split; [econstructor; eauto|]. split; [auto|]. split; [auto|].
      split; [|auto]. intros t' Hne. rewrite Ho by auto. now apply upd_fun_other.
    - destruct (h t) eqn:Eh; [discriminate|]. injection E as EC _.
      exists [], P, Q, m, h. split; [constructor|]. split; [exact Hi|]. split; [congruence|]. split; [auto|].
      intros q' t' Hq. split; [|auto]. intros ->. apply Hlk in Hq. congruence.
    - destruct (h t) as [q'|] eqn:Eh; [|discriminate]. destruct (Nat.eqb_spec q q'); [|discriminate]. subst q'.
      assert (Hst : mstep t (mkM P Q m) (mkM (upd_fun P t p) (upd_fun Q q None) m)).
      { eapply ms_rel; eauto. now apply Hlk. }
      destruct (inv_step eqL own _ _ _ _ _ _ Hi Hst) as (h' & Hi'); [simpl; congruence|].
      destruct (IH _ _ _ _ Hi' (upd_fun_same _ _ _)) as (tr & P' & Q' & m' & h'' & Hs & Hi'' & HP' & Ho & Hq).
      exists (t :: tr), P', Q', m', h''. split; [econstructor; eauto|]. split; [auto|]. split; [auto|]. split.
      { intros t' Hne. rewrite Ho by auto. now apply upd_fun_other. }
      intros q' t' Hx. destruct (Hq q' t' Hx) as [H1 H2]. split; [auto|].
      unfold upd_fun in H2. destruct (q' =? q); [discriminate|auto].
    - discriminate.
  Qed.

  (** all threads can leave their critical sections *)
  Lemma free_locks ts C cm : forall P Q m h, inv (mkM P Q m) C cm h ->
    exists tr P' Q' m' h', msteps tr (mkM P Q m) (mkM P' Q' m') /\ inv (mkM P' Q' m') C cm h' /\
      (forall t, ~ In t ts -> P' t = P t) /\
      (forall q t, Q' q = Some t -> ~ In t ts /\ Q q = Some t).
  Proof.
    induction ts as [|t ts IH]; intros P Q m h Hi.
    - exists [], P, Q, m, h. split; [constructor|]. split; [auto|]. split; [auto|]. intros; split; auto.
    - destruct (run_to_acq t C cm _ _ _ _ _ Hi eq_refl) as (tr & P1 & Q1 & m1 & h1 & Hs & Hi1 & HP1 & Ho & Hq).
      destruct (IH _ _ _ _ Hi1) as (tr2 & P2 & Q2 & m2 & h2 & Hs2 & Hi2 & Ho2 & Hq2).
      exists (tr ++ tr2), P2, Q2, m2, h2. split; [eapply msteps_app; eauto|]. split; [auto|]. split.
      + intros t' Hn. simpl in Hn. rewrite Ho2 by tauto. apply Ho. intros ->. tauto.
      + intros q t' Hx. destruct (Hq2 q t' Hx) as [H1 H2]. destruct (Hq q t' H2) as [H3 H4].
        split; [|auto]. simpl. intros [->|]; auto.
  Qed.

  (** a thread can run to its end when no other thread holds a lock *)
  Lemma run_to_end_locks t : forall (p : prog unit) P Q m h C cm,
    inv (mkM P Q m) C cm h -> I C cm -> P t = p -> (forall q t', Q q = Some t' -> t' = t) ->
    exists tr P' Q' m' h' C' cm', msteps tr (mkM P Q m) (mkM P' Q' m') /\
      inv (mkM P' Q' m') C' cm' h' /\ I C' cm' /\ P' t = Ret tt /\ (forall t', t' <> t -> P' t' = P t') /\
      (forall q, Q' q = None).
  Proof.
    intros p. induction p as [[]|l k IH|l v p IH|q p IH|q p IH|]; intros P Q m h C cm Hi HI HP HQ;
      pose proof Hi as (Hlk & _ & _ & Ht); destruct (Ht t) as (mt & E & _); simpl in E; rewrite HP in E;
      simpl in E.
    - destruct (h t) eqn:Eh; [discriminate|]. exists [], P, Q, m, h, C, cm.
      split; [constructor|]. split; [auto|]. split; [auto|]. split; [auto|]. split; [auto|].
      intros q. destruct (Q q) as [t'|] eqn:EQ; [|auto]. pose proof (HQ _ _ EQ). subst t'.
      apply Hlk in EQ. congruence.
    - destruct (can_read own t (h t) l) eqn:Hc; [|discriminate]. destruct (m l) as [v|] eqn:El; [|discriminate].
      assert (Hst : mstep t (mkM P Q m) (mkM (upd_fun P t (k v)) Q m)) by (eapply ms_rd; eauto).
      destruct (inv_step eqL own _ _ _ _ _ _ Hi Hst) as (h' & Hi'); [simpl; congruence|].
      destruct (IH v _ _ _ _ _ _ Hi' HI (upd_fun_same _ _ _) HQ) as (tr & P' & Q' & m' & h'' & C' & cm' & Hs & Hi'' & HI' & HP' & Ho & Hq).
      exists (t :: tr), P', Q', m', h'', C', cm'. split; [econstructor; eauto|]. split; [auto|]. split; [auto|]. split; [auto|].
      split; [|auto]. intros t' Hne. rewrite Ho by auto. now apply upd_fun_other.
    - destruct (can_write own t (h t) l) eqn:Hc; [|discriminate]. destruct (m l) as [v'|] eqn:El; [|discriminate].
      assert (Hst : mstep t (mkM P Q m) (mkM (upd_fun P t p) Q (mset m l v))) by (eapply ms_wr; eauto; congruence).
      destruct (inv_step eqL own _ _ _ _ _ _ Hi Hst) as (h' & Hi'); [simpl; congruence|].
      destruct (IH _ _ _ _ _ _ Hi' HI (upd_fun_same _ _ _) HQ) as (tr & P' & Q' & m' & h'' & C' & cm' & Hs & Hi'' & HI' & HP' & Ho & Hq).
      exists (t :: tr), P', Q', m', h'', C', cm'. split; [econstructor; eauto|]. split; [auto|]. split; [auto|]. split; [auto|].
      split; [|auto]. intros t' Hne. rewrite Ho by auto. now apply upd_fun_other.
    - destruct (h t) eqn:Eh; [discriminate|].
      assert (HQq : Q q = None).
      { destruct (Q q) as [t'|] eqn:EQ; [|auto]. pose proof (HQ _ _ EQ). subst t'. apply Hlk in EQ. congruence. }
      assert (Hst : mstep t (mkM P Q m) (mkM (upd_fun P t p) (upd_fun Q q (Some t)) m)) by (eapply ms_acq; eauto).
      destruct (inv_acq _ _ _ _ _ _ _ _ _ Hi HI HP HQq) as (C1 & cm1 & h1 & Hi1 & HI1 & _).
      destruct (IH _ _ _ _ _ _ Hi1 HI1 (upd_fun_same _ _ _)) as (tr & P' & Q' & m' & h'' & C' & cm' & Hs & Hi'' & HI' & HP' & Ho & Hq).
      { intros q' t' Hx. unfold upd_fun in Hx. destruct (q' =? q); [congruence|eauto]. }
      exists (t :: tr), P', Q', m', h'', C', cm'. split; [econstructor; eauto|]. split; [auto|]. split; [auto|]. split; [auto|].
      split; [|auto]. intros t' Hne. rewrite Ho by auto. now apply upd_fun_other.
    - destruct (h t) as [q'|] eqn:Eh; [|discriminate]. destruct (Nat.eqb_spec q q'); [|discriminate]. subst q'.
      assert (Hst : mstep t (mkM P Q m) (mkM (upd_fun P t p) (upd_fun Q q None) m)).
      { eapply ms_rel; eauto. now apply Hlk. }
      destruct (inv_step eqL own _ _ _ _ _ _ Hi Hst) as (h' & Hi'); [simpl; congruence|].
      destruct (IH _ _ _ _ _ _ Hi' HI (upd_fun_same _ _ _)) as (tr & P' & Q' & m' & h'' & C' & cm' & Hs & Hi'' & HI' & HP' & Ho & Hq).
      { intros q' t' Hx. unfold upd_fun in Hx. destruct (q' =? q); [congruence|eauto]. }
      exists (t :: tr), P', Q', m', h'', C', cm'. split; [econstructor; eauto|]. split; [auto|]. split; [auto|]. split; [auto|].
      split; [|auto]. intros t' Hne. rewrite Ho by auto. now apply upd_fun_other.
    - discriminate.
  Qed.

  Lemma run_all_locks ts : forall P Q m h C cm, inv (mkM P Q m) C cm h -> I C cm -> (forall q, Q q = None) ->
    exists tr s', msteps tr (mkM P Q m) s' /\ (forall t, In t ts \/ P t = Ret tt -> th s' t = Ret tt).
  Proof.
    induction ts as [|t ts IH]; intros P Q m h C cm Hi HI HQ.
    - exists [], (mkM P Q m). split; [constructor|]. intros t [[]|]; auto.
    - destruct (run_to_end_locks t _ _ _ _ _ _ _ Hi HI eq_refl)
        as (tr & P1 & Q1 & m1 & h1 & C1 & cm1 & Hs & Hi1 & HI1 & HP1 & Ho & HQ1).
      { intros q t' Hx. rewrite HQ in Hx. discriminate. }
      destruct (IH _ _ _ _ _ _ Hi1 HI1 HQ1) as (tr2 & s2 & Hs2 & HP2).
      exists (tr ++ tr2), s2. split; [eapply msteps_app; eauto|].
      intros t' [[->|Hin]|He].
      + apply HP2. auto.
      + apply HP2. auto.
      + apply HP2. right. destruct (Nat.eq_dec t' t) as [->|Hne]; [auto|]. rewrite Ho; auto.
  Qed.

  (** If the coarse states satisfy [I], then in every interleaving of single
      accesses there is no data race, no crash and no deadlock, the threads can
      always finish, and the final memory is one that [I] allows. *)
  Theorem locks_all ts s0 C0 cm0 h0 : inv s0 C0 cm0 h0 -> I C0 cm0 -> (forall t, ~ In t ts -> th s0 t = Ret tt) ->
    forall s, reachable eqL s0 s ->
      ~ race s /\ (forall t, ~ crashed eqL t s) /\ ~ deadlock eqL s /\
      (exists s', reachable eqL s s' /\ finished s') /\
      (finished s -> exists C cm, (forall t, C t = Ret tt) /\ (forall l, cm l = me s l) /\ I C cm).
  Proof.
    intros Hi0 HI0 Hts s (tr & Hs).
    destruct (inv_any_steps _ _ _ Hs _ _ _ Hi0 HI0) as (C & cm & h & Hi & HI).
    split; [eapply inv_no_race; eauto|]. split; [intros t; eapply inv_no_crash; eauto|].
    split; [eapply inv_no_deadlock; eauto|]. split.
    { destruct s as [P Q m]. destruct (free_locks ts C cm _ _ _ _ Hi) as (tr1 & P1 & Q1 & m1 & h1 & Hs1 & Hi1 & Ho1 & Hq1).
      assert (Hout : forall t, ~ In t ts -> P t = Ret tt).
      { intros t Hn. apply (msteps_ret eqL _ _ _ t Hs). auto. }
      assert (HQ1 : forall q, Q1 q = None).
      { intros q. destruct (Q1 q) as [t|] eqn:EQ; [|auto]. destruct (Hq1 q t EQ) as [Hn _].
        destruct Hi1 as (Hlk & _ & _ & Ht). apply Hlk in EQ. destruct (Ht t) as (mt & E & _). simpl in E.
        rewrite Ho1, Hout, EQ in E by auto. discriminate. }
      destruct (run_all_locks ts _ _ _ _ _ _ Hi1 HI HQ1) as (tr2 & s2 & Hs2 & HP2).
      exists s2. split; [exists (tr1 ++ tr2); eapply msteps_app; eauto|].
      intros t. apply HP2. destruct (in_dec Nat.eq_dec t ts); [auto|right]. rewrite Ho1 by auto. auto. }
    intros Hf. destruct (inv_finished eqL own _ _ _ _ Hi Hf) as [H1 H2]. exists C, cm. auto.
  Qed.

  (** threads that write nothing before their first lock *)
  Lemma inv_start (P : nat -> prog unit) m C :
    (forall t, ahead t None (P t) m = Some (C t, m)) ->
    inv (mkM P (fun _ => None) m) C m (fun _ => None).
  Proof.
    intros H. split; [split; discriminate|]. split; [auto|]. split; [auto|].
    intros t. exists m. auto.
  Qed.
End Locks.
