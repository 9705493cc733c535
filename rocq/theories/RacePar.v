(** From one iteration to the whole loop. *)
From Verif Require Import Base BaseFacts Spec SpecFacts EllpackModel EllpackSpec EllpackFacts
  EllpackArith EllpackMul ThreadModel ThreadFacts RaceModel RaceSpec RaceSim RaceLoops.

Section Par.
  Context {F : scalar}.
  Local Notation mem := (mem loc (val F)).
  Local Notation pr := (prog loc (val F)).

  Lemma par_atomic {S W} own (body : nat -> S * W -> res (S * W)) (pbody : nat -> nat -> pr unit)
        (J : list (nat * nat) -> mem -> S -> (nat -> W) -> Prop) :
    (forall t i rest m s w s' wt, J ((t, i) :: rest) m s w -> body i (s, w t) = Ok (s', wt) ->
       exists m', run loc_eq_dec own t None (pbody t i) m = Some (tt, m') /\ J rest m' s' (upd_fun w t wt)) ->
    forall sched m s w s' w', J sched m s w -> par_for sched body s w = Ok (s', w') ->
      exists m', atomic loc_eq_dec own pbody sched m = Some m' /\ J [] m' s' w'.
  Proof.
    intros H sched. induction sched as [|[t i] rest IH]; intros m s w s' w' HJ E; simpl in E.
    - injection E as <- <-. exists m. auto.
    - destruct (body i (s, w t)) as [[s1 wt]| | |] eqn:Eb; try discriminate. simpl in E.
      destruct (H _ _ _ _ _ _ _ _ HJ Eb) as (m1 & Er & HJ1).
      destruct (IH _ _ _ _ _ HJ1 E) as (m' & Ea & HJ'). exists m'. split; [|auto].
      simpl. rewrite Er. exact Ea.
  Qed.

  Lemma interleave own (pbody : nat -> nat -> pr unit) sched m m' (Q : mem -> Prop) :
    atomic loc_eq_dec own pbody sched m = Some m' ->
    (forall m1, (forall l, m1 l = m' l) -> Q m1) ->
    all_interleavings pbody sched m Q.
  Proof.
    intros Ha HQ s Hr. destruct (atomic_all loc_eq_dec own pbody sched m m' Ha s Hr) as (H1 & H2 & H3 & H4 & H5).
    auto 10.
  Qed.

  Lemma holdsN_ext (m m' : mem) a xs : holdsN m a xs -> (forall k, m' (a, k) = m (a, k)) -> holdsN m' a xs.
  Proof. intros H E k. rewrite E. apply H. Qed.
  Lemma holdsK_ext (m m' : mem) a (xs : list F) : holdsK m a xs -> (forall k, m' (a, k) = m (a, k)) -> holdsK m' a xs.
  Proof. intros H E k. rewrite E. apply H. Qed.
  Lemma holds_ext (m m' : mem) o (A : ell F) : holds m o A -> (forall l, m' l = m l) -> holds m' o A.
  Proof. intros (H1 & H2 & H3) E. split; [|split]; [eapply holdsK_ext|eapply holdsN_ext..]; eauto. Qed.
  Lemma holds_ws_ext (m m' : mem) t (w : wsp F) : holds_ws m t w ->
    (forall l, fst l = aIx t \/ fst l = aJx t \/ fst l = aX t -> m' l = m l) -> holds_ws m' t w.
  Proof.
    intros (H1 & H2 & H3) E. split; [|split]; [eapply holdsN_ext..|eapply holdsK_ext]; eauto; intros; apply E; simpl; auto.
  Qed.

  (** the work arrays of another thread are not touched *)
  Lemma run_ws_other thr M dr t (p : pr unit) m m' : run loc_eq_dec (own_of thr M dr) t None p m = Some (tt, m') ->
    forall t' w, t' <> t -> holds_ws m t' w -> holds_ws m' t' w.
  Proof.
    intros Er t' w Hne Hw. eapply holds_ws_ext; [exact Hw|]. intros [a k] Hl.
    eapply run_frame; [exact Er|]. unfold can_write, own_of. simpl in *.
    destruct Hl as [Hl|[Hl|Hl]]; rewrite Hl; simpl; now apply Nat.eqb_neq.
  Qed.

  (** ** Loops that replace row i of object 0 *)
  Lemma rows_atomic {W} (PW : W -> Prop) (RW : mem -> nat -> W -> Prop) thr M dr (A : ell F)
        (body : nat -> ell F * W -> res (ell F * W))
        (pbody : nat -> nat -> pr unit) (rowf : nat -> list (nat * F)) (e : Prop) (Rin : mem -> Prop) ts :
    (forall t p m m', run loc_eq_dec (own_of thr M dr) t None p m = Some (tt, m') ->
       forall t' w, t' <> t -> RW m t' w -> RW m' t' w) ->
    eM A = M ->
    (forall i, i < eN A -> nnz A i <= M) -> shape A ->
    (forall i A1 w, i < eN A -> same_dims A A1 -> shape A1 -> erow A1 i = erow A i -> PW w ->
       wpq e (body i (A1, w)) (fun r => length (rowf i) <= M /\ upd_row A1 (fst r) i (rowf i) /\ PW (snd r))) ->
    (forall t i A1 w m A2 w2, i < eN A -> thr i = t -> same_dims A A1 -> nnz A1 i <= M ->
       holds m 0 A1 -> RW m t w -> Rin m ->
       body i (A1, w) = Ok (A2, w2) -> nnz A2 i <= M ->
       exists m', run loc_eq_dec (own_of thr M dr) t None (pbody t i) m = Some (tt, m') /\
         holds m' 0 A2 /\ RW m' t w2 /\ Rin m') ->
    forall sched m w A' w', par_for sched body A w = Ok (A', w') ->
      NoDup (map snd sched) -> (forall t i, In (t, i) sched -> i < eN A /\ thr i = t /\ In t ts) ->
      holds m 0 A -> Rin m -> (forall t, In t ts -> RW m t (w t)) -> (forall t, PW (w t)) ->
      exists m', atomic loc_eq_dec (own_of thr M dr) pbody sched m = Some m' /\ holds m' 0 A' /\ Rin m' /\
        (forall t, In t ts -> RW m' t (w' t)).
  Proof.
    intros Hfr HM Hn Hs Hb Hsim sched m w A' w' Hp Hnd Hin Hh HR Hw Hc.
    edestruct (par_atomic (own_of thr M dr) body pbody
      (fun rest m A1 w => same_dims A A1 /\ shape A1 /\ NoDup (map snd rest) /\
         (forall t i, In (t, i) rest -> i < eN A /\ thr i = t /\ In t ts) /\
         (forall i, In i (map snd rest) -> erow A1 i = erow A i) /\
         (forall i, i < eN A -> nnz A1 i <= M) /\ holds m 0 A1 /\ Rin m /\
         (forall t, In t ts -> RW m t (w t)) /\ (forall t, PW (w t))))
      as (m' & Ha & HJ); [| |exact Hp|].
    2:{ split; [split; reflexivity|]. split; [exact Hs|]. split; [exact Hnd|]. split; [exact Hin|].
        split; [reflexivity|]. split; [exact Hn|]. split; [exact Hh|]. auto. }
    - clear -Hfr Hb Hsim HM. intros t i rest m A1 w A2 w2 (D & Hs & Hnd & Hin & He & Hn & Hh & HR & Hw & Hc) Eb.
      destruct (Hin t i (or_introl eq_refl)) as (Hi & Ht & Htt). simpl in Hnd, He.
      pose proof (Hb i A1 (w t) Hi D Hs (He i (or_introl eq_refl)) (Hc t)) as Hwp. rewrite Eb in Hwp.
      simpl in Hwp. destruct Hwp as (Hl & Hu & Hc2).
      assert (Hn2 : nnz A2 i <= M).
      { rewrite <- erow_length. rewrite (upd_row_self _ _ _ _ Hu). exact Hl. }
      destruct (Hsim t i A1 (w t) m A2 w2) as (m' & Er & Hh2 & Hw2 & HR2); auto.
      exists m'. split; [exact Er|]. pose proof Hu as (D2 & Hs2 & _ & Hno & _).
      assert (DM : eM A1 = M) by (rewrite <- HM; symmetry; apply D).
      inversion Hnd; subst.
      split; [destruct D, D2; split; congruence|]. split; [exact Hs2|]. split; [assumption|].
      split; [intros; apply Hin; simpl; auto|]. split.
      { intros i' Hi'. rewrite (upd_row_other _ _ _ _ i' Hu).
        - apply He. auto.
        - intros ->. contradiction.
        - rewrite DM. apply Hn. apply in_map_iff in Hi' as ([t' i''] & E & Hx). simpl in E. subst i''.
          apply (Hin t' i'). simpl; auto. }
      split.
      { intros i' Hi'. destruct (Nat.eq_dec i' i) as [->|Hne]; [auto|]. rewrite Hno by auto. auto. }
      split; [auto|]. split; [auto|]. split.
      { intros t' Ht'. destruct (Nat.eq_dec t' (thr i)) as [->|Hne].
        - rewrite upd_fun_same. auto.
        - rewrite upd_fun_other by auto. eapply Hfr; eauto. }
      { intros t'. destruct (Nat.eq_dec t' (thr i)) as [->|Hne].
        - rewrite upd_fun_same. auto.
        - rewrite upd_fun_other by auto. auto. }
    - destruct HJ as (_ & _ & _ & _ & _ & _ & H1 & H2 & H3 & _). exists m'. auto.
  Qed.
End Par.
