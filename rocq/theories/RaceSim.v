(** The loops at the level of single accesses do what the loops of
    EllpackModel.v do, and each iteration stays in its own row. *)
From Verif Require Import Base BaseFacts Spec SpecFacts EllpackModel EllpackSpec EllpackFacts
  ThreadModel ThreadFacts RaceModel RaceSpec.

(** rows of object 0 belong to the thread that executes the row, the private
    arrays to their thread, everything else is only read *)
Definition own_of (thr : nat -> nat) (M : nat) (dr : nat -> nat) (l : loc) : owner :=
  match fst l with
  | aVal 0 | aIdx 0 => OfThread (thr (snd l / M))
  | aNnz 0 => OfThread (thr (snd l))
  | aDense 0 => OfThread (thr (dr (snd l)))
  | aIx t | aJx t | aX t | aAcc t => OfThread t
  | _ => Shared
  end.

(** the thread that executes row i *)
Fixpoint thr_of (sched : list (nat * nat)) (i : nat) : nat :=
  match sched with
  | [] => 0
  | (t, i') :: rest => if i' =? i then t else thr_of rest i
  end.

Lemma thr_of_in sched t i : NoDup (map snd sched) -> In (t, i) sched -> thr_of sched i = t.
Proof.
  induction sched as [|[t' i'] rest IH]; simpl; [tauto|]. intros Hn [E|Hin].
  - injection E as -> ->. now rewrite Nat.eqb_refl.
  - inversion Hn; subst. destruct (Nat.eqb_spec i' i) as [->|]; [|auto].
    exfalso. apply H1. apply in_map_iff. exists (t, i). auto.
Qed.

Section Sim.
  Context {F : scalar}.
  Local Notation mem := (mem loc (val F)).
  Local Notation pr := (prog loc (val F)).
  Local Notation mset := (mset loc_eq_dec).
  Variable own : loc -> owner.
  Local Notation run := (run loc_eq_dec own).

  Definition sim {A B} (t : nat) (p : pr A) (m : mem) (r : res B) (Q : A -> mem -> B -> Prop) : Prop :=
    forall b, r = Ok b -> exists a m', run t None p m = Some (a, m') /\ Q a m' b.

  Lemma sim_ret {A B} t (a : A) m (b : B) (Q : A -> mem -> B -> Prop) : Q a m b -> sim t (Ret a) m (Ok b) Q.
  Proof. intros H b' E. injection E as <-. exists a, m. auto. Qed.

  Lemma sim_bind {A B A' B'} t (p : pr A) (f : A -> pr A') m (r : res B) (g : B -> res B')
        (Q1 : A -> mem -> B -> Prop) (Q : A' -> mem -> B' -> Prop) :
    sim t p m r Q1 -> (forall a m' b, Q1 a m' b -> sim t (f a) m' (g b) Q) ->
    sim t (pbind p f) m (bind r g) Q.
  Proof.
    intros H1 H2 b' E. destruct r as [b| | |]; try discriminate. simpl in E.
    destruct (H1 b eq_refl) as (a & m' & Er & Hq). destruct (H2 a m' b Hq b' E) as (a' & m'' & Er' & Hq').
    exists a', m''. split; [|auto]. rewrite (run_bind loc_eq_dec own _ _ _ _ _ _ _ Er). exact Er'.
  Qed.

  Lemma sim_mono {A B} t (p : pr A) m (r : res B) (Q1 Q2 : A -> mem -> B -> Prop) :
    sim t p m r Q1 -> (forall a m' b, Q1 a m' b -> Q2 a m' b) -> sim t p m r Q2.
  Proof. intros H1 H2 b E. destruct (H1 b E) as (a & m' & ? & ?). eauto. Qed.

  Lemma sim_rdn {B} t a xs k m (f : nat -> pr B) {C} (g : nat -> res C) Q :
    holdsN m a xs -> can_read own t None (a, k) = true ->
    (forall x, nth_error xs k = Some x -> sim t (f x) m (g x) Q) ->
    sim t (pbind (rdn (a, k)) f) m (bind (rd xs k) g) Q.
  Proof.
    intros Hh Hc H b E. unfold rd in E. destruct (nth_error xs k) as [x|] eqn:Ex; [|discriminate].
    simpl in E. destruct (H x eq_refl b E) as (r & m' & Er & Hq). exists r, m'. split; [|auto].
    simpl. rewrite Hc, (Hh k), Ex. simpl. exact Er.
  Qed.

  Lemma sim_rdk {B} t a (xs : list F) k m (f : F -> pr B) {C} (g : F -> res C) Q :
    holdsK m a xs -> can_read own t None (a, k) = true ->
    (forall x, nth_error xs k = Some x -> sim t (f x) m (g x) Q) ->
    sim t (pbind (rdk (a, k)) f) m (bind (rd xs k) g) Q.
  Proof.
    intros Hh Hc H b E. unfold rd in E. destruct (nth_error xs k) as [x|] eqn:Ex; [|discriminate].
    simpl in E. destruct (H x eq_refl b E) as (r & m' & Er & Hq). exists r, m'. split; [|auto].
    simpl. rewrite Hc, (Hh k), Ex. simpl. exact Er.
  Qed.

  (** a read that the model does not have *)
  Lemma sim_extra_n {B C} t a xs k m x (f : nat -> pr B) (r : res C) Q :
    holdsN m a xs -> can_read own t None (a, k) = true -> nth_error xs k = Some x ->
    sim t (f x) m r Q -> sim t (pbind (rdn (a, k)) f) m r Q.
  Proof.
    intros Hh Hc Ex H b E. destruct (H b E) as (r' & m' & Er & Hq). exists r', m'. split; [|auto].
    simpl. rewrite Hc, (Hh k), Ex. simpl. exact Er.
  Qed.
  Lemma sim_extra_k {B C} t a (xs : list F) k m x (f : F -> pr B) (r : res C) Q :
    holdsK m a xs -> can_read own t None (a, k) = true -> nth_error xs k = Some x ->
    sim t (f x) m r Q -> sim t (pbind (rdk (a, k)) f) m r Q.
  Proof.
    intros Hh Hc Ex H b E. destruct (H b E) as (r' & m' & Er & Hq). exists r', m'. split; [|auto].
    simpl. rewrite Hc, (Hh k), Ex. simpl. exact Er.
  Qed.

  Lemma nth_error_lt {X} (xs : list X) k : k < length xs -> exists x, nth_error xs k = Some x.
  Proof. intros H. destruct (nth_error xs k) eqn:E; eauto. apply nth_error_None in E. lia. Qed.

  Lemma sim_wrn {B C} t a xs k v m (f : unit -> pr B) (g : list nat -> res C) Q :
    holdsN m a xs -> can_write own t None (a, k) = true ->
    (k < length xs -> sim t (f tt) (mset m (a, k) (VN v)) (g (set_nth xs k v)) Q) ->
    sim t (pbind (wrn (a, k) v) f) m (bind (wr xs k v) g) Q.
  Proof.
    intros Hh Hc H b E. unfold wr in E. destruct (Nat.ltb_spec k (length xs)); [|discriminate].
    simpl in E. destruct (H H0 b E) as (r & m' & Er & Hq). exists r, m'. split; [|auto].
    destruct (nth_error_lt xs k H0) as (x & Ex).
    simpl. rewrite Hc, (Hh k), Ex. simpl. exact Er.
  Qed.

  Lemma sim_wrk {B C} t a (xs : list F) k v m (f : unit -> pr B) (g : list F -> res C) Q :
    holdsK m a xs -> can_write own t None (a, k) = true ->
    (k < length xs -> sim t (f tt) (mset m (a, k) (VK v)) (g (set_nth xs k v)) Q) ->
    sim t (pbind (wrk (a, k) v) f) m (bind (wr xs k v) g) Q.
  Proof.
    intros Hh Hc H b E. unfold wr in E. destruct (Nat.ltb_spec k (length xs)); [|discriminate].
    simpl in E. destruct (H H0 b E) as (r & m' & Er & Hq). exists r, m'. split; [|auto].
    destruct (nth_error_lt xs k H0) as (x & Ex).
    simpl. rewrite Hc, (Hh k), Ex. simpl. exact Er.
  Qed.

  Lemma sim_forM {X A B} t (l : list X) (pb : X -> A -> pr A) (b : X -> B -> res B)
        (I : A -> mem -> B -> Prop) :
    (forall x a m s, In x l -> I a m s -> sim t (pb x a) m (b x s) I) ->
    forall a m s, I a m s -> sim t (pforM l pb a) m (forM l b s) I.
  Proof.
    induction l as [|x l IH]; intros H a m s HI; simpl.
    - now apply sim_ret.
    - eapply sim_bind; [apply H; simpl; auto|]. intros. apply IH; auto. intros. apply H; simpl; auto.
  Qed.

  Lemma sim_for_n {A B} t n (pb : nat -> A -> pr A) (b : nat -> B -> res B)
        (I : A -> mem -> B -> Prop) :
    (forall x a m s, x < n -> I a m s -> sim t (pb x a) m (b x s) I) ->
    forall a m s, I a m s -> sim t (pfor_n n pb a) m (for_n n b s) I.
  Proof.
    intros H. apply sim_forM. intros x a m s Hx. apply in_seq in Hx. apply H. lia.
  Qed.

  (** the program returns nothing that the model needs *)
  Lemma bind_ret_r {A} (r : res A) : bind r (@Ok A) = r.
  Proof. destruct r; reflexivity. Qed.
  Lemma pbind_ret_unit (p : pr unit) t m : run t None (pbind p (fun _ => Ret tt)) m = run t None p m.
  Proof.
    revert m; induction p; intros m; simpl; try reflexivity.
    - now destruct a.
    - destruct (can_read own t None l); auto. destruct (m l); auto.
    - destruct (can_write own t None l); auto. destruct (m l); auto.
  Qed.
  Lemma sim_unit_r {B} t (p : pr unit) m (r : res B) Q :
    sim t (pbind p (fun _ => Ret tt)) m r Q -> sim t p m r Q.
  Proof. intros H b E. destruct (H b E) as (a & m' & Er & Hq). rewrite pbind_ret_unit in Er. eauto. Qed.

  (** what writes do to the arrays *)
  Lemma holdsN_set (m : mem) a xs k v : holdsN m a xs -> k < length xs ->
    holdsN (mset m (a, k) (VN v)) a (set_nth xs k v).
  Proof.
    intros Hh Hk k'. destruct (Nat.eq_dec k k') as [<-|Hne].
    - rewrite mset_same. rewrite nth_error_set_nth_eq by auto. reflexivity.
    - rewrite mset_other by congruence. rewrite nth_error_set_nth_neq by auto. apply Hh.
  Qed.
  Lemma holdsK_set (m : mem) a (xs : list F) k v : holdsK m a xs -> k < length xs ->
    holdsK (mset m (a, k) (VK v)) a (set_nth xs k v).
  Proof.
    intros Hh Hk k'. destruct (Nat.eq_dec k k') as [<-|Hne].
    - rewrite mset_same. rewrite nth_error_set_nth_eq by auto. reflexivity.
    - rewrite mset_other by congruence. rewrite nth_error_set_nth_neq by auto. apply Hh.
  Qed.
  Lemma holdsN_other (m : mem) a xs b k v : holdsN m a xs -> b <> a -> holdsN (mset m (b, k) v) a xs.
  Proof. intros Hh Hne k'. rewrite mset_other by congruence. apply Hh. Qed.
  Lemma holdsK_other (m : mem) a (xs : list F) b k v : holdsK m a xs -> b <> a -> holdsK (mset m (b, k) v) a xs.
  Proof. intros Hh Hne k'. rewrite mset_other by congruence. apply Hh. Qed.
End Sim.
