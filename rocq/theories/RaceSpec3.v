(** What it means that the memory holds a csr matrix (see RaceModel3.v for the
    numbering of the rows). *)
From Verif Require Import Base Spec CsrModel ThreadModel RaceModel RaceModel3.

Section RaceSpec3.
  Context {F : scalar}.
  Local Notation mem := (mem loc (val F)).

  (** the arrays of a row: a cell that was never written exists with any value *)
  Definition holds_cells (m : mem) (c : nat) (cs : list (option (nat * F))) : Prop :=
    forall pos, match nth_error cs pos with
                | Some (Some (k, v)) => m (aIdx c, pos) = Some (VN k) /\ m (aVal c, pos) = Some (VK v)
                | Some None => m (aIdx c, pos) <> None /\ m (aVal c, pos) <> None
                | None => m (aIdx c, pos) = None /\ m (aVal c, pos) = None
                end.
  Definition holds_row (m : mem) (c : nat) (r : row F) : Prop :=
    m (aNnz c, 0) = Some (VN (rnnz r)) /\ holds_cells m c (rcells r).
  Definition holds_csr (m : mem) (o : nat) (A : csr F) : Prop :=
    forall i r, nth_error (cdata A) i = Some r -> holds_row m (ro o i) r.
End RaceSpec3.
