(** Specification of matrices distributed by rows: which rank is responsible for
    which row, and what the ranks' matrices represent together. *)
From Verif Require Import Base Spec EllpackModel EllpackSpec DenseModel DenseSpec DomainModel DomainSpec.

(** a domain for [P] ranks and [N] rows of [M] elements: a partition of the rows,
    with displacements that fit the row ranges *)
Definition row_domain (P N M : nat) (d : domain) : Prop :=
  dom_shape P d /\ dom_consistent P M d /\ dom_partition P N d /\
  forall i, i < P -> nth i (localDispl d) 0 = nth i (localRowMin d) 0 * M.

(** the rows of rank [r] *)
Definition my_rows (d : domain) (r : nat) : list nat :=
  seq (nth r (localRowMin d) 0) (nth r (localRowMax d) 0 - nth r (localRowMin d) 0).

(** all schedules of a loop over the rows of rank [r] with threads 0..nth-1 *)
Definition rank_sched (d : domain) (r nth : nat) (sched : list (nat * nat)) : Prop :=
  Permutation (map snd sched) (my_rows d r) /\ forall t i, In (t, i) sched -> t < nth.

(** the cells of the rows of rank [r] in a dense N x N matrix *)
Definition my_cells (d : domain) (N r : nat) : list nat :=
  seq (nth r (localRowMin d) 0 * N) ((nth r (localRowMax d) 0 - nth r (localRowMin d) 0) * N).
Definition cell_sched (d : domain) (N r nth : nat) (sched : list (nat * nat)) : Prop :=
  Permutation (map snd sched) (my_cells d N r) /\ forall t i, In (t, i) sched -> t < nth.

Section RowSpec.
  Context {F : scalar}.

  (** every rank holds a well-formed N x N matrix with room for M elements per
      row, whose own rows are those of X *)
  Definition held (P : nat) (d : domain) (N M : nat) (As : list (ell F)) (X : mat F) : Prop :=
    length As = P /\ forall r A, nth_error As r = Some A ->
      wf A /\ eN A = N /\ eM A = M /\ forall i j, owns d r i -> j < N -> emat A i j = X i j.

  (** every rank holds the whole matrix X *)
  Definition replicated (P N M : nat) (As : list (ell F)) (X : mat F) : Prop :=
    length As = P /\ forall r A, nth_error As r = Some A ->
      wf A /\ eN A = N /\ eM A = M /\ meq N (emat A) X.

  Definition held_dense (P : nat) (d : domain) (N : nat) (As : list (dense F)) (X : mat F) : Prop :=
    length As = P /\ forall r A, nth_error As r = Some A ->
      dwf A /\ dN A = N /\ forall i j, owns d r i -> j < N -> denm A i j = X i j.
  Definition replicated_dense (P N : nat) (As : list (dense F)) (X : mat F) : Prop :=
    length As = P /\ forall r A, nth_error As r = Some A ->
      dwf A /\ dN A = N /\ meq N (denm A) X.
End RowSpec.
