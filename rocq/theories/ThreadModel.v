(** Threads that share memory, at the level of single reads and writes.

    The loops "#pragma omp parallel for" of src/C-interface are modelled in the
    other files with [par_for] (Base.v), where one iteration is atomic.  Here an
    iteration is a sequence of single array accesses, and the accesses of
    different threads interleave in any order.  Nothing of bml is modelled in
    this file; RaceModel.v contains the loops.

    - a location is one array cell (or one scalar variable);
    - memory is sequentially consistent: the accesses happen one at a time.  A
      C11/OpenMP implementation promises that only for executions without data
      races, which is why the absence of races is part of the theorems;
    - omp_set_lock waits until the lock is free (Acq), omp_unset_lock frees it
      (Rel);
    - local variables of an iteration are Gallina variables; variables that
      live longer than one iteration and are private to a thread are locations. *)
From Verif Require Import Base.

Inductive prog (L V A : Type) : Type :=
| Ret (a : A)                          (* finished *)
| Rd (l : L) (k : V -> prog L V A)     (* read a cell *)
| Wr (l : L) (v : V) (p : prog L V A)  (* write a cell *)
| Acq (q : nat) (p : prog L V A)       (* omp_set_lock *)
| Rel (q : nat) (p : prog L V A)       (* omp_unset_lock *)
| Exit.                                (* LOG_ERROR: exit(EXIT_FAILURE) *)
Arguments Ret {L V A} a.
Arguments Rd {L V A} l k.
Arguments Wr {L V A} l v p.
Arguments Acq {L V A} q p.
Arguments Rel {L V A} q p.
Arguments Exit {L V A}.

(** Sequential composition. *)
Fixpoint pbind {L V A B} (p : prog L V A) (f : A -> prog L V B) : prog L V B :=
  match p with
  | Ret a => f a
  | Rd l k => Rd l (fun v => pbind (k v) f)
  | Wr l v p => Wr l v (pbind p f)
  | Acq q p => Acq q (pbind p f)
  | Rel q p => Rel q (pbind p f)
  | Exit => Exit
  end.

Declare Scope prog_scope.
Delimit Scope prog_scope with prog.
Notation "x <-- p ;; k" := (pbind p (fun x => k))
  (at level 61, p at next level, right associativity) : prog_scope.
Notation "' x <-- p ;; k" := (pbind p (fun x => k))
  (at level 61, x pattern, p at next level, right associativity) : prog_scope.

(** [for (x in l) s = body(x, s)] *)
Fixpoint pforM {L V X S} (l : list X) (body : X -> S -> prog L V S) (s : S) : prog L V S :=
  match l with
  | [] => Ret s
  | x :: l' => pbind (body x s) (fun s' => pforM l' body s')
  end.
(** [for (i = 0; i < n; i++)] *)
Definition pfor_n {L V S} (n : nat) (body : nat -> S -> prog L V S) (s : S) : prog L V S :=
  pforM (seq 0 n) body s.

(** The program of thread [t] in a parallel loop: its iterations, in the order
    of the schedule.  [body t i] is iteration [i] executed by thread [t]. *)
Fixpoint thread_prog {L V} (body : nat -> nat -> prog L V unit) (sched : list (nat * nat))
         (t : nat) : prog L V unit :=
  match sched with
  | [] => Ret tt
  | (t', i) :: rest =>
      if t' =? t then pbind (body t i) (fun _ => thread_prog body rest t)
      else thread_prog body rest t
  end.

Section Machine.
  Context {L V : Type} (eqL : forall a b : L, {a = b} + {a <> b}).

  (** Memory: [None] for a cell that does not exist. *)
  Definition mem := L -> option V.
  Definition mset (m : mem) (l : L) (v : V) : mem :=
    fun l' => if eqL l l' then Some v else m l'.

  (** State of the machine: what each thread still has to do, who holds which
      lock, and the memory. *)
  Record mstate := mkM {
    th : nat -> prog L V unit; lk : nat -> option nat; me : mem }.

  (** One access by thread [t].  No step exists for an access to a cell that
      does not exist, for a lock that is held, for unlocking a lock of another
      thread, and after exit(). *)
  Inductive mstep (t : nat) : mstate -> mstate -> Prop :=
  | ms_rd l k v P Q m : P t = Rd l k -> m l = Some v ->
      mstep t (mkM P Q m) (mkM (upd_fun P t (k v)) Q m)
  | ms_wr l v p P Q m : P t = Wr l v p -> m l <> None ->
      mstep t (mkM P Q m) (mkM (upd_fun P t p) Q (mset m l v))
  | ms_acq q p P Q m : P t = Acq q p -> Q q = None ->
      mstep t (mkM P Q m) (mkM (upd_fun P t p) (upd_fun Q q (Some t)) m)
  | ms_rel q p P Q m : P t = Rel q p -> Q q = Some t ->
      mstep t (mkM P Q m) (mkM (upd_fun P t p) (upd_fun Q q None) m).

  (** [msteps tr s s']: the threads of [tr] make one step each, in this order. *)
  Inductive msteps : list nat -> mstate -> mstate -> Prop :=
  | mss_nil s : msteps [] s s
  | mss_cons t tr s s1 s2 : mstep t s s1 -> msteps tr s1 s2 -> msteps (t :: tr) s s2.

  Definition reachable (s s' : mstate) : Prop := exists tr, msteps tr s s'.

  (** All threads have finished. *)
  Definition finished (s : mstate) : Prop := forall t, th s t = Ret tt.

  (** The next access of a program: the cell, and whether it is a write. *)
  Definition next_access {A} (p : prog L V A) : option (L * bool) :=
    match p with Rd l _ => Some (l, false) | Wr l _ _ => Some (l, true) | _ => None end.

  (** A data race: two threads are about to access the same cell, at least one
      of them to write it. *)
  Definition race (s : mstate) : Prop :=
    exists t t' l w w', t <> t' /\ next_access (th s t) = Some (l, w) /\
      next_access (th s t') = Some (l, w') /\ (w || w' = true)%bool.

  (** Thread [t] has not finished, cannot make a step, and is not waiting for a
      lock of another thread: an access outside the arrays, a wrong unlock,
      a lock taken twice, or exit(). *)
  Definition crashed (t : nat) (s : mstate) : Prop :=
    th s t <> Ret tt /\ (forall s', ~ mstep t s s') /\
    ~ (exists q p t', th s t = Acq q p /\ lk s q = Some t' /\ t' <> t).

  (** Some thread has not finished but none can make a step. *)
  Definition deadlock (s : mstate) : Prop :=
    ~ finished s /\ forall t s', ~ mstep t s s'.
End Machine.
Arguments mstate L V : clear implicits.
Arguments mem L V : clear implicits.
