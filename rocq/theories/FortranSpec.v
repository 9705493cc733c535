(** Vocabulary for the statements about the Fortran interface. *)
From Verif Require Import Base Spec SpecFacts EllpackModel EllpackSpec CsrModel CsrSpec GemmModel DenseModel DenseSpec
  FormatModel FormatSpec FortranModel.

Section FortranSpec.
  Context {F : scalar}.

  (** the element a(i, j) of a Fortran array, i and j counted from 1 *)
  Definition fa_at (a : farr F) (i j : nat) : F :=
    nth (fa_off a + (i - 1) * fa_s1 a + (j - 1) * fa_s2 a) (fa_mem a) k0.

  (** the array as a matrix (indices from 0) *)
  Definition fa_mat (a : farr F) : mat F := fun i j => fa_at a (S i) (S j).

  (** the array is a whole n x n array: consecutive columns of n elements *)
  Definition whole (a : farr F) (n : nat) : Prop :=
    fa_n1 a = n /\ fa_n2 a = n /\ fa_s1 a = 1 /\ fa_s2 a = n /\ fa_off a + n * n <= length (fa_mem a).

  (** what a format keeps of the element x at import or when a row is set *)
  Definition kept (t : fmt) (keep : F -> bool) (x : F) : F :=
    match t with FDense => x | _ => cut keep x end.

  (** the threshold used when the optional argument is missing is 0 *)
  Definition or_zero (nz : F -> bool) (threshold : option (F -> bool)) : F -> bool :=
    match threshold with Some k => k | None => nz end.

  (** the ellpack rows hold m entries; m must be given unless the format is dense *)
  Definition import_room (t : fmt) (keep : F -> bool) (a : farr F) (n : nat) (m : option nat) : Prop :=
    match t, m with
    | FDense, _ => True
    | FEll, Some m => 0 < m /\ fits n m keep (fa_mat a)
    | FCsr, Some _ => True
    | _, None => False
    end.
  Definition set_element_room (A : bmat F) (i j : nat) : Prop :=
    match A with
    | BEll A => (2 < nnz A i \/ ~ In j (cols (erow A i))) /\ (In j (cols (erow A i)) \/ nnz A i < eM A)
    | _ => True
    end.
  Definition set_row_room (keep : F -> bool) (A : bmat F) (row : list F) : Prop :=
    match A with
    | BEll A => count (eN A) (fun j => keep (nth j row k0)) <= eM A
    | _ => True
    end.

  (** the pairs (column, value) seen by the typed getters of ellpack: the
      columns are those of row [ri], the values those of row [i] *)
  Definition seen (A : ell F) (ri i : nat) : list (nat * F) :=
    map (fun l => (nth (ri * eM A + l) (eidx A) 0, nth (i * eM A + l) (eval A) k0)) (seq 0 (nnz A i)).

  (** every variable is null or holds a live matrix, no two variables hold the
      same one, and every live matrix belongs to a variable (no leak) *)
  Definition f_ok (s : fstate F) : Prop :=
    (forall v h, nth v (f_var s) None = Some h -> exists A, nth h (f_heap s) None = Some A) /\
    (forall v w h, nth v (f_var s) None = Some h -> nth w (f_var s) None = Some h -> v = w) /\
    (forall h A, nth h (f_heap s) None = Some A -> exists v, nth v (f_var s) None = Some h).

  (** the matrix of variable [v] *)
  Definition holds (s : fstate F) (v : nat) : option (bmat F) :=
    match nth v (f_var s) None with Some h => nth h (f_heap s) None | None => None end.
  (** all variables but [v] hold what they held *)
  Definition same_but (v : nat) (s s' : fstate F) : Prop :=
    length (f_var s') = length (f_var s) /\ forall w, w <> v -> holds s' w = holds s w.
End FortranSpec.
