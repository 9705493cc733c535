(** What a distributed matrix represents. *)
From Verif Require Import Base Spec EllpackModel EllpackSpec CsrModel CsrSpec GemmModel DenseModel DenseSpec FormatModel FormatSpec
  FormatHistModel FormatHistSpec EllpackExact Dist2dModel.

Section Dist2dSpec.
  Context {F : scalar}.
  Local Open Scope K_scope.

  (** element (i, j) of the matrix is in block (i / n, j / n) *)
  Definition gmx (D : dist F) : mat F := fun i j =>
    bmx (blk D (cart_rank (tp D) (i / tn D) (j / tn D))) (i mod tn D) (j mod tn D).

  (** all tasks have a block of the right size and format [t] *)
  Definition dist_ok (t : fmt) (D : dist F) : Prop :=
    (0 < tp D /\ 0 < tn D /\ tN D = tp D * tn D)%nat /\ length (tblk D) = tasks D /\
    forall r, (r < tasks D)%nat -> bwf (blk D r) /\ bml_get_N (blk D r) = tn D /\ bml_get_type (blk D r) = t.
  (** ... and every block has room for full rows *)
  Definition dist_roomy (D : dist F) : Prop :=
    forall r, (r < tasks D)%nat -> roomy (tn D) (tM D / tp D)%nat (blk D r).
  (** the same grid and sizes *)
  Definition same_grid (D D' : dist F) : Prop := tp D = tp D' /\ tN D = tN D' /\ tM D = tM D'.

  (** the schedules of the loops inside the calls of every task *)
  Definition dist_env (D : dist F) (e : nat -> env F) : Prop := forall r, (r < tasks D)%nat -> good_env (blk D r) (e r).

  (** block (I, J) of a matrix *)
  Definition sub (n I J : nat) (X : mat F) : mat F := fun i j => X (I * n + i)%nat (J * n + j)%nat.

  (** what a threshold does to a matrix of format [t]: dense ignores it *)
  Definition fcut (t : fmt) (keep : F -> bool) (X : mat F) : mat F := match t with FDense => X | _ => mcut keep X end.
  Definition foff (t : fmt) (keep : F -> bool) (X : mat F) : mat F := match t with FDense => X | _ => mcut_offdiag keep X end.
  (** no effect *)
  Definition no_cut (t : fmt) (keep : F -> bool) : Prop := t = FDense \/ keeps_nonzero keep.

  (** the matrix whose blocks the tasks hold after a program *)
  Definition gather {S : Type} (D : dist F) (get : S -> bmat F) (s : nat -> S) : dist F :=
    with_blocks D (map (fun r => get (s r)) (seq 0 (tasks D))).

  (** [D'] is a matrix with the grid of [D] that represents [Y] *)
  Definition becomes (t : fmt) (D D' : dist F) (Y : mat F) : Prop :=
    dist_ok t D' /\ dist_roomy D' /\ same_grid D D' /\ meq (tN D) (gmx D') Y.

  (** the identity repeated in every n x n block *)
  Definition tiled_identity (n : nat) : mat F := fun i j => if (i mod n =? j mod n)%nat then 1 else 0.

  (** where the elements of the array end up: block (I, J) for row-major
      arrays, block (J, I) for column-major arrays *)
  Definition placed (o : dorder) (n : nat) (X : mat F) : mat F :=
    match o with
    | row_major => X
    | col_major => fun i j => X (j / n * n + i mod n)%nat (i / n * n + j mod n)%nat
    end.

  (** ** Multiplication with thresholds

      The local products are thresholded one by one: every product of blocks
      loses its small elements outside of the diagonal of the block, and every
      partial sum its small elements. *)
  Fixpoint cannon_block (cutC : mat F -> mat F) (cutAB : mat F -> mat F) (p n : nat) (alpha beta : F) (A B C : mat F) (I J k : nat) : mat F :=
    let l := ((I + J + k) mod p)%nat in
    let AB := mscale alpha (cutAB (mmul n (sub n I l A) (sub n l J B))) in
    match k with
    | 0%nat => cutC (madd (mscale beta (sub n I J C)) AB)
    | S k => cutC (madd (cannon_block cutC cutAB p n alpha beta A B C I J k) AB)
    end.
End Dist2dSpec.
