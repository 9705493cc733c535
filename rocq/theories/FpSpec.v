(** Rounding: what a rounded operation may do, and the size of error bounds. *)
From Coq Require Import Reals.
From Verif Require Import Base Spec SpecFacts EllpackModel EllpackSpec RealSpec.
Local Open Scope R_scope.

(** every result is off by at most a fraction [u] of itself or, if it is smaller than
    [lam], by [u lam]. [lam] is the smallest normal number: below it the numbers are
    evenly spaced (gradual underflow). [lam = 0] means no underflow. *)
Definition rounds (u lam : R) (rnd : R -> R) : Prop := 0 <= u /\ 0 <= lam /\ forall x, Rabs (rnd x - x) <= u * Rmax (Rabs x) lam.
(** the relative error of [k] roundings in a row: (1 + u)^k - 1, which is k u + O(u^2) *)
Definition gam (u : R) (k : nat) : R := (1 + u) ^ k - 1.
(** element by element *)
Definition mabs (A : mat Rscalar) : mat Rscalar := fun i j => Rabs (A i j).
(** the number of columns in row i of A or of B *)
Definition either_cols (A B : ell Rscalar) (i : nat) : nat :=
  count (eN A) (fun j => (existsb (Nat.eqb j) (cols (erow A i)) || existsb (Nat.eqb j) (cols (erow B i)))%bool).
