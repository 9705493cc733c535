(** Specification of row domains: a partition of the rows among the ranks. *)
From Verif Require Import Base Spec DomainModel.

(** the arrays of the domain have one entry per rank *)
Definition dom_shape (P : nat) (d : domain) : Prop :=
  length (localRowMin d) = P /\ length (localRowMax d) = P /\ length (localRowExtent d) = P /\
  length (localElements d) = P /\ length (localDispl d) = P.

(** rank [i] holds row [r] *)
Definition owns (d : domain) (i r : nat) : Prop :=
  nth i (localRowMin d) 0 <= r < nth i (localRowMax d) 0.

(** the extents, element counts and displacements agree with the row ranges,
    a row having [M] entries *)
Definition dom_consistent (P M : nat) (d : domain) : Prop :=
  forall i, i < P ->
    nth i (localRowMax d) 0 = nth i (localRowMin d) 0 + nth i (localRowExtent d) 0 /\
    nth i (localElements d) 0 = nth i (localRowExtent d) 0 * M.

(** every row below [N] is held by exactly one rank, and no other row is *)
Definition dom_partition (P N : nat) (d : domain) : Prop :=
  (forall r, r < N -> exists i, i < P /\ owns d i r /\ forall j, j < P -> owns d j r -> j = i) /\
  (forall i r, i < P -> owns d i r -> r < N).
