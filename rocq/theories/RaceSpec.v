(** What the memory of the machine of ThreadModel.v holds, and what is claimed
    about a parallel loop. *)
From Verif Require Import Base Spec EllpackModel EllpackSpec ThreadModel RaceModel.

Section RaceSpec.
  Context {F : scalar}.
  Local Notation mem := (mem loc (val F)).
  Local Notation mstate := (mstate loc (val F)).

  (** array [a] exists and has exactly the cells of the list *)
  Definition holdsN (m : mem) (a : arr) (xs : list nat) : Prop :=
    forall k, m (a, k) = option_map VN (nth_error xs k).
  Definition holdsK (m : mem) (a : arr) (xs : list F) : Prop :=
    forall k, m (a, k) = option_map VK (nth_error xs k).

  (** matrix object [o] holds the ellpack matrix [A] *)
  Definition holds (m : mem) (o : nat) (A : ell F) : Prop :=
    holdsK m (aVal o) (eval A) /\ holdsN m (aIdx o) (eidx A) /\ holdsN m (aNnz o) (ennz A).

  (** the private arrays ix, jx, x of thread [t] *)
  Definition holds_ws (m : mem) (t : nat) (w : wsp F) : Prop :=
    holdsN m (aIx t) (wix w) /\ holdsN m (aJx t) (wjx w) /\ holdsK m (aX t) (wx w).

  (** the state at the start of the parallel loop: no lock is held *)
  Definition start (body : nat -> nat -> prog loc (val F) unit) (sched : list (nat * nat)) (m : mem) : mstate :=
    mkM (thread_prog body sched) (fun _ => None) m.

  (** In every interleaving of the single accesses of the threads: no data
      race, no access outside the arrays, no deadlock; the loop can always be
      completed, and whenever all threads have finished the memory satisfies
      [Q]. *)
  Definition all_interleavings (body : nat -> nat -> prog loc (val F) unit)
             (sched : list (nat * nat)) (m : mem) (Q : mem -> Prop) : Prop :=
    forall s, reachable loc_eq_dec (start body sched m) s ->
      ~ race s /\ (forall t, ~ crashed loc_eq_dec t s) /\ ~ deadlock loc_eq_dec s /\
      (exists s', reachable loc_eq_dec s s' /\ finished s') /\
      (finished s -> Q (me s)).

  (** Some interleaving reaches a data race. *)
  Definition has_race (body : nat -> nat -> prog loc (val F) unit)
             (sched : list (nat * nat)) (m : mem) : Prop :=
    exists s, reachable loc_eq_dec (start body sched m) s /\ race s.
End RaceSpec.
