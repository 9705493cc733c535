(** Theorems about message passing: exchange programs (C56), the process
    grid (C57). *)
From Verif Require Import Base Spec EllpackCheck FormatModel MpiModel MpiSpec MpiFacts Dist2dModel Dist2dSpec Dist2dFacts Dist2dCheck.

(** C56: every interleaving of a program of matched exchanges is free of deadlock and failure and ends in the one state computed in lockstep *)
Theorem c56_exchange_programs :
  forall (St Msg : Type) (P : nat) (bs : list (block St Msg)) (D : nat -> nat -> St),
  Forall (valid P) bs -> lockstep P bs 0 D -> always_ends P bs (D 0) (D (length bs)).
Proof. exact (@exchange_programs). Qed.
Print Assumptions c56_exchange_programs.

(** ... and each step shortens what is left to do *)
Theorem c56_terminates :
  forall (St Msg : Type) (strict : bool) (P : nat) (c c' : config St Msg), step strict P c c' -> left_of P c' < left_of P c.
Proof. exact (@step_shortens). Qed.
Print Assumptions c56_terminates.

Example c56_instance : forall t, exists (A B C : dist Zscalar) prog s,
  dist_ok t A /\ dist_multiply (gtZ 0) (gtZ 0) (2%Z : Zscalar) (3%Z : Zscalar) A exSeq = Ok prog /\ tasks A = 4%nat /\ Forall (valid 4) prog /\
  always_ends 4 prog (cannon_start A B C) s /\ length prog = 8%nat.
Proof. exact exCannon. Qed.

(** C57: exactly the square numbers of tasks are accepted, and the grid is the square root *)
Theorem c57_setcomm :
  forall ntasks : nat,
  0 < ntasks ->
  (forall p : nat, ntasks = p * p -> bml_setcomm ntasks = Ok p) /\
  ((forall p : nat, ntasks <> p * p) -> bml_setcomm ntasks = Err).
Proof. exact (@setcomm_ok). Qed.
Print Assumptions c57_setcomm.

(** the block size N / p is accepted exactly when p divides N *)
Theorem c57_block_size :
  forall p N n : nat,
  0 < p -> (dist_setup p N = Ok n <-> N = n * p) /\ (dist_setup p N = Err <-> ~ (exists k : nat, N = k * p)).
Proof. exact (@setup_exact). Qed.
Print Assumptions c57_block_size.

(** coordinates and ranks are inverse to each other *)
Theorem c57_coordinates :
  forall p : nat,
  0 < p ->
  (forall r : nat, r < p * p -> cart_row p r < p /\ cart_col p r < p /\ cart_rank p (cart_row p r) (cart_col p r) = r) /\
  (forall i j : nat,
   i < p -> j < p -> cart_rank p i j < p * p /\ cart_row p (cart_rank p i j) = i /\ cart_col p (cart_rank p i j) = j).
Proof. exact (@grid_bijection). Qed.
Print Assumptions c57_coordinates.
