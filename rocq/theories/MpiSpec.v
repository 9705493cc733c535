(** What the message passing theorems are about. *)
From Verif Require Import Base MpiModel.

Section MpiSpec.
  Context {St Msg : Type}.
  Local Notation block := (block St Msg).

  (** Among [P] tasks, whoever sends is received from and conversely. *)
  Definition matched (P : nat) (src dst : nat -> nat) (part : nat -> bool) : Prop :=
    forall r, r < P -> part r = true ->
      src r < P /\ dst r < P /\ part (src r) = true /\ part (dst r) = true /\ dst (src r) = r /\ src (dst r) = r.
  Definition valid (P : nat) (b : block) : Prop :=
    match b with BLocal _ => True | BExch src dst part _ _ => matched P src dst part end.

  (** [D k r] is the state of task [r] after [k] blocks executed in lockstep,
      every task succeeding *)
  Fixpoint lockstep (P : nat) (bs : list block) (k : nat) (D : nat -> nat -> St) : Prop :=
    match bs with
    | [] => True
    | b :: bs => (forall r, r < P -> sync_block b (D k) r = Ok (D (S k) r)) /\ lockstep P bs (S k) D
    end.

  (** Every execution (any interleaving, any mixture of buffered and
      synchronous sends) of the program of [bs] from [s0] is free of failures
      and deadlocks and can only end with the states [s1] and no message left. *)
  Definition always_ends (P : nat) (bs : list block) (s0 s1 : nat -> St) : Prop :=
    forall c, steps false P (initial (program_of bs) s0) c ->
      ~ failed P c /\
      (finished P c \/ exists c', step true P c c') /\
      (finished P c -> (forall r, r < P -> loc c r = s1 r) /\ (forall a b, a < P -> b < P -> chan c a b = [])).

  (** number of actions the [P] tasks have left *)
  Fixpoint left_of (P : nat) (c : config St Msg) : nat :=
    match P with 0 => 0 | S n => left_of n c + length (todo c n) end.
End MpiSpec.
