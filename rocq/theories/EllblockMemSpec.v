(** What the theorems about the memory of block ellpack matrices say. *)
From Coq Require Import ZArith.
From Verif Require Import Base Spec EllblockModel EllblockSpec.

Section EllblockMemSpec.
  Context {F : scalar}.

  (** number of live blocks in a heap *)
  Definition nlive (h : list (option (list F))) : nat :=
    length (filter (fun o => match o with Some _ => true | None => false end) h).
  (** number of slots in use *)
  Definition blocks (A : eb F) : nat := list_sum (bnnz A).
  (** blocks that are live but in no slot in use *)
  Definition orphans (A : eb F) : Z := (Z.of_nat (nlive (bheap A)) - Z.of_nat (blocks A))%Z.
End EllblockMemSpec.
