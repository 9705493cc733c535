(** Specification: the matrix described by a Matrix Market file. *)
From Verif Require Import Base Spec MmModel.

Section MmSpec.
  Context {F : scalar}.
  (** 0-based cells with their values; in a symmetric file an entry off the
      diagonal stands for two cells *)
  Definition mm_cells (f : mmfile F) : list (nat * nat * F) :=
    flat_map (fun e => let '(r, c, v) := e in
      (r - 1, c - 1, v) :: (if mm_sym f && negb (c =? r) then [(c - 1, r - 1, v)] else [])) (mm_ents f).
  Definition at_cell (i j : nat) (e : nat * nat * F) : bool := (fst (fst e) =? i) && (snd (fst e) =? j).
  Definition cell_get (l : list (nat * nat * F)) (i j : nat) : option F :=
    match find (at_cell i j) l with Some e => Some (snd e) | None => None end.
  Definition mm_mat (f : mmfile F) : mat F := fun i j => match cell_get (mm_cells f) i j with Some v => v | None => k0 end.
  (** a complete file of an n x n matrix that gives every cell at most once *)
  Definition mm_good (n : nat) (f : mmfile F) : Prop :=
    mm_n f = n /\ mm_nnz f = length (mm_ents f) /\
    (forall r c v, In (r, c, v) (mm_ents f) -> 1 <= r <= n /\ 1 <= c <= n) /\ NoDup (map fst (mm_cells f)).
  (** number of cells in row i *)
  Definition mm_row_count (f : mmfile F) (i : nat) : nat := length (filter (fun e => fst (fst e) =? i) (mm_cells f)).
  (** the file of an N x N matrix X, values rounded by fmt *)
  Definition written (N : nat) (X : mat F) (fmt : F -> F) (f : mmfile F) : Prop :=
    mm_sym f = false /\ mm_good N f /\ meq N (mm_mat f) (fun i j => fmt (X i j)).
End MmSpec.
