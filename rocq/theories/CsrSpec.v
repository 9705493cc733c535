(** What a csr matrix represents. *)
From Verif Require Import Base Spec SpecFacts EllpackModel EllpackSpec CsrModel.

Section CsrSpec.
  Context {F : scalar}.

  Definition row0 : row F := mkRow [] 0.

  (** the stored (column, value) pairs of a row *)
  Definition rE (r : row F) : list (nat * F) :=
    flat_map (fun o => match o with Some kv => [kv] | None => [] end) (firstn (rnnz r) (rcells r)).

  Definition crow (A : csr F) (i : nat) : list (nat * F) := rE (nth i (cdata A) row0).

  (** the represented matrix *)
  Definition cmat (A : csr F) : mat F := fun i j => elook (crow A i) j.

  (** the counter is within the allocation and all counted slots are initialised *)
  Definition row_init (r : row F) : Prop :=
    INIT_ROW_SPACE <= ralloc r /\ rnnz r <= ralloc r /\
    forall p, p < rnnz r -> nth p (rcells r) None <> None.

  (** no column twice, columns in range *)
  Definition cols_ok (N : nat) (E : list (nat * F)) : Prop :=
    NoDup (cols E) /\ forall k, In k (cols E) -> k < N.

  Definition cshape (A : csr F) : Prop :=
    length (cdata A) = cN A /\ forall i, i < cN A -> row_init (nth i (cdata A) row0).

  Definition cwf (A : csr F) : Prop :=
    cshape A /\ forall i, i < cN A -> cols_ok (cN A) (crow A i).

  Definition cdims (A B : csr F) : Prop := cN A = cN B /\ cM A = cM B.

  (** allocated slots of row i *)
  Definition calloc (A : csr F) (i : nat) : nat := ralloc (nth i (cdata A) row0).

  (** all (row, slot) pairs that hold an entry *)
  Definition c_slots (A : csr F) : list (nat * nat) :=
    flat_map (fun i => map (fun j => (i, j)) (seq 0 (length (crow A i)))) (seq 0 (cN A)).

  (** column k is stored in row i *)
  Definition cstored (A : csr F) (i k : nat) : bool := existsb (Nat.eqb k) (cols (crow A i)).
End CsrSpec.
