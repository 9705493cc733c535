(** What an ellpack matrix represents.  [erow A i] is the list of the stored
    (column, value) pairs of row i, [emat A] the represented matrix,
    [wf A] the structural invariant. *)
From Verif Require Import Base Spec SpecFacts EllpackModel.

Section EllpackSpec.
  Context {F : scalar}.

  (** the first n slots of row i *)
  Definition slots (A : ell F) (i n : nat) : list (nat * F) :=
    map (fun j => (nth (i * eM A + j) (eidx A) 0, nth (i * eM A + j) (eval A) k0)) (seq 0 n).

  Definition nnz (A : ell F) (i : nat) : nat := nth i (ennz A) 0.

  Definition erow (A : ell F) (i : nat) : list (nat * F) := slots A i (nnz A i).

  (** the represented matrix: value stored at column j of row i, 0 if none *)
  Definition emat (A : ell F) : mat F := fun i j => elook (erow A i) j.

  (** the arrays have the sizes given by N and M *)
  Definition shape (A : ell F) : Prop :=
    length (eval A) = eN A * eM A /\ length (eidx A) = eN A * eM A /\ length (ennz A) = eN A.

  (** no more than M entries, columns in range, no column twice *)
  Definition row_ok (N M : nat) (E : list (nat * F)) : Prop :=
    length E <= M /\ NoDup (cols E) /\ (forall k, In k (cols E) -> k < N).

  Definition wf (A : ell F) : Prop :=
    shape A /\ forall i, i < eN A -> row_ok (eN A) (eM A) (erow A i).

  Definition same_dims (A B : ell F) : Prop := eN A = eN B /\ eM A = eM B.

  (** column k is stored in row i *)
  Definition stored (A : ell F) (i k : nat) : bool := existsb (Nat.eqb k) (cols (erow A i)).

  (** number of stored elements of column r *)
  Definition colcount (A : ell F) (r : nat) : nat := count (eN A) (fun i => stored A i r).

  (** number of columns of row i of the symbolic product: columns k for which
      some j is stored in row i of A and k is stored in row j of B *)
  Definition prod_cols (A B : ell F) (i : nat) : nat :=
    count (eN A) (fun k => existsb (fun j => existsb (Nat.eqb k) (cols (erow B j))) (cols (erow A i))).

  (** all (row, slot) pairs of A that hold an entry *)
  Definition all_slots (A : ell F) : list (nat * nat) :=
    flat_map (fun i => map (fun j => (i, j)) (seq 0 (nnz A i))) (seq 0 (eN A)).

  (** the matrix held by a dense array in row-major or column-major order *)
  Definition dmat (o : dorder) (N : nat) (D : list F) : mat F :=
    fun i j => nth (match o with row_major => i * N + j | col_major => i + j * N end) D k0.
End EllpackSpec.

(** All schedules of a loop over the rows 0..N-1 with threads 0..nth-1. *)
Definition full_sched (N nth : nat) (sched : list (nat * nat)) : Prop :=
  Permutation (map snd sched) (seq 0 N) /\ forall t i, In (t, i) sched -> t < nth.
