(** Point-to-point message passing between the MPI tasks, as used by the
    distributed format: every task runs its own list of actions, the tasks
    interleave arbitrarily, messages between two tasks arrive in the order in
    which they were sent (the non-overtaking rule of MPI; all matrix messages of
    one format use one tag, csr's three messages per matrix are taken as one).

    bml_mpi_irecv posts a receive and bml_mpi_irecv_complete waits for it;
    bml_mpi_send is a blocking send.  Whether a blocking send waits for the
    receiver depends on the MPI library and on the size of the message, so both
    are allowed ([step]), and [step_strict] is the restriction to sends that
    find their receive already posted. *)
From Verif Require Import Base.

Section Mpi.
  (** state of a task, and messages *)
  Context {St Msg : Type}.

  Inductive act :=
  | ALocal (f : St -> res St)
  | AIrecv (src : nat)
  | ASend (dst : nat) (get : St -> Msg)
  | AWait (put : Msg -> St -> res St).

  Record config := mkConfig {
    todo : nat -> list act;
    loc : nat -> St;
    posted : nat -> option nat;
    chan : nat -> nat -> list Msg }.

  Definition upd2 {A} (f : nat -> nat -> A) (i j : nat) (v : A) : nat -> nat -> A :=
    fun a b => if (Nat.eqb a i && Nat.eqb b j)%bool then v else f a b.

  (** task [r] makes one step *)
  Inductive step (strict : bool) (P : nat) : config -> config -> Prop :=
  | st_local c r f t s :
      r < P -> todo c r = ALocal f :: t -> f (loc c r) = Ok s ->
      step strict P c (mkConfig (upd_fun (todo c) r t) (upd_fun (loc c) r s) (posted c) (chan c))
  | st_irecv c r src t :
      r < P -> todo c r = AIrecv src :: t -> posted c r = None ->
      step strict P c (mkConfig (upd_fun (todo c) r t) (loc c) (upd_fun (posted c) r (Some src)) (chan c))
  | st_send c r dst get t :
      r < P -> dst < P -> todo c r = ASend dst get :: t -> (strict = true -> posted c dst = Some r) ->
      step strict P c (mkConfig (upd_fun (todo c) r t) (loc c) (posted c)
        (upd2 (chan c) r dst (chan c r dst ++ [get (loc c r)])))
  | st_wait c r src put t m ms s :
      r < P -> todo c r = AWait put :: t -> posted c r = Some src -> chan c src r = m :: ms -> put m (loc c r) = Ok s ->
      step strict P c (mkConfig (upd_fun (todo c) r t) (upd_fun (loc c) r s) (upd_fun (posted c) r None)
        (upd2 (chan c) src r ms)).

  (** a task aborts (LOG_ERROR) or runs into undefined behaviour *)
  Inductive failed (P : nat) : config -> Prop :=
  | fl_local c r f t : r < P -> todo c r = ALocal f :: t -> (forall s, f (loc c r) <> Ok s) -> failed P c
  | fl_wait c r src put t m ms : r < P -> todo c r = AWait put :: t -> posted c r = Some src -> chan c src r = m :: ms ->
      (forall s, put m (loc c r) <> Ok s) -> failed P c
  | fl_send c r dst get t : r < P -> todo c r = ASend dst get :: t -> ~ dst < P -> failed P c
  | fl_posted c r src src' t : r < P -> todo c r = AIrecv src :: t -> posted c r = Some src' -> failed P c.

  Inductive steps (strict : bool) (P : nat) : config -> config -> Prop :=
  | steps_nil c : steps strict P c c
  | steps_cons c1 c2 c3 : steps strict P c1 c2 -> step strict P c2 c3 -> steps strict P c1 c3.

  Definition initial (prog : nat -> list act) (s : nat -> St) : config :=
    mkConfig prog s (fun _ => None) (fun _ _ => []).
  Definition finished (P : nat) (c : config) : Prop := forall r, r < P -> todo c r = [].

  (** ** Programs made of exchanges and local computations

      The communication of the distributed format consists of exchanges: task r
      posts a receive from [src r], sends to [dst r] and waits; a task that does
      not take part only evaluates the condition. *)
  Inductive block :=
  | BLocal (f : nat -> St -> res St)
  | BExch (src dst : nat -> nat) (part : nat -> bool) (get : nat -> St -> Msg) (put : nat -> Msg -> St -> res St).

  Definition acts (b : block) (r : nat) : list act :=
    match b with
    | BLocal f => [ALocal (f r)]
    | BExch src dst part get put =>
        if part r then [AIrecv (src r); ASend (dst r) (get r); AWait (put r)] else [ALocal (fun s => Ok s)]
    end.
  Definition program_of (bs : list block) (r : nat) : list act := flat_map (fun b => acts b r) bs.

  (** one block executed by all tasks in lockstep, seen from task [r] *)
  Definition sync_block (b : block) (s : nat -> St) (r : nat) : res St :=
    match b with
    | BLocal f => f r (s r)
    | BExch src dst part get put =>
        if part r then put r (get (src r) (s (src r))) (s r) else Ok (s r)
    end.
End Mpi.
Arguments act : clear implicits.
Arguments config : clear implicits.
Arguments block : clear implicits.
