(** Specification of the submatrix and graph functions. *)
From Verif Require Import Base Spec SpecFacts EllpackModel EllpackSpec DenseModel DenseSpec.

Section SubSpec.
  Context {F : scalar}.

  (** k is one of the nodes, or adjacent to one of them in one of the graphs *)
  Definition reach1 (graphs : list (ell F)) (nodes : list nat) (k : nat) : Prop :=
    In k nodes \/ exists G i, In G graphs /\ In i nodes /\ stored G i k = true.
  (** ... or adjacent in B to such a k *)
  Definition reach2 (graphs : list (ell F)) (B : ell F) (nodes : list nat) (k : nat) : Prop :=
    reach1 graphs nodes k \/ exists i, reach1 graphs nodes i /\ stored B i k = true.

  (** the nodes in the order of their first occurrence *)
  Fixpoint first_occ (seen l : list nat) : list nat :=
    match l with
    | [] => []
    | k :: l' => if existsb (Nat.eqb k) seen then first_occ seen l' else k :: first_occ (k :: seen) l'
    end.

  (** the rows of group i: hindex holds the 1-based first row of each group *)
  Definition grp_first (hindex : list nat) (i : nat) : nat := nth i hindex 0 - 1.
  Definition grp_last (N : nat) (hindex : list nat) (i : nat) : nat :=
    if i =? length hindex - 1 then N else nth (i + 1) hindex 0 - 1.
  Definition in_group (N : nat) (hindex : list nat) (i r : nat) : bool :=
    (grp_first hindex i <=? r) && (r <? grp_last N hindex i).
  (** the groups partition the rows: ascending, starting with row 1 *)
  Definition groups_ok (N : nat) (hindex : list nat) : Prop :=
    0 < length hindex /\ nth 0 hindex 0 = 1 /\
    (forall i, S i < length hindex -> nth i hindex 0 <= nth (S i) hindex 0) /\
    nth (length hindex - 1) hindex 0 <= N + 1.
  (** groups i and k are connected: some element (r, c), r in group i, c in
      group k, is stored and is above the threshold, or some element of row c
      back into group i is *)
  Definition connected (keep : F -> bool) (A : ell F) (hindex : list nat) (i k : nat) : Prop :=
    exists r c, in_group (eN A) hindex i r = true /\ in_group (eN A) hindex k c = true /\ r < eN A /\ c < eN A /\ stored A r c = true /\
      (keep (emat A r c) = true \/ exists r', in_group (eN A) hindex i r' = true /\ r' < eN A /\ stored A c r' = true /\ keep (emat A c r') = true).

  (** off-diagonal columns of row i in ascending order *)
  Definition offdiag_cols (A : ell F) (i : nat) : list nat := filter (fun k => negb (k =? i) && stored A i k) (seq 0 (eN A)).
  (** number of neighbours of row i *)
  Definition deg (A : ell F) (i : nat) : nat := length (offdiag_cols A i).
  (** the listed nodes stored in the row of the i-th listed node, by position *)
  Definition nbr_nodes (A : ell F) (hindex : list nat) (i : nat) : list nat :=
    filter (fun j => stored A (nth i hindex 0 - 1) (nth j hindex 0 - 1)) (seq 0 (length hindex)).
  (** the diagonal element of row i is stored *)
  Definition has_diag (A : ell F) (i : nat) : bool := stored A i i.

  (** a cell of the block at (irow, icol) *)
  Definition in_block (irow icol n i j : nat) : bool :=
    (irow <=? i) && (i <? irow + n) && (icol <=? j) && (j <? icol + n).
  Definition sub_at (X : mat F) (irow icol : nat) : mat F := fun i j => X (irow + i) (icol + j).
  Definition paste (X Y : mat F) (irow icol n : nat) : mat F :=
    fun i j => if in_block irow icol n i j then Y (i - irow) (j - icol) else X i j.
  (** number of columns of the block stored in row i *)
  Definition block_count (A : ell F) (icol n i : nat) : nat := count n (fun j => stored A i (icol + j)).
End SubSpec.
