(** Mathematical specification: scalars, finite sums, matrices.
    Nothing in this file refers to bml's data structures or algorithms. *)
From Coq Require Import List Arith ZArith Bool Ring.
Import ListNotations.

(** A commutative ring with decidable equality.  Every theorem below holds for
    each such ring, in particular for exact real and exact complex numbers
    (bml's single/double real/complex without rounding). *)
Record scalar : Type := mkScalar {
  K :> Type;
  k0 : K; k1 : K;
  kadd : K -> K -> K; kmul : K -> K -> K; ksub : K -> K -> K; kopp : K -> K;
  keqb : K -> K -> bool;
  k_ring : ring_theory k0 k1 kadd kmul ksub kopp (@eq K);
  keqb_spec : forall x y, keqb x y = true <-> x = y
}.
Arguments k0 {s}.
Arguments k1 {s}.
Arguments kadd {s} _ _.
Arguments kmul {s} _ _.
Arguments ksub {s} _ _.
Arguments kopp {s} _.
Arguments keqb {s} _ _.

Declare Scope K_scope.
Delimit Scope K_scope with K.
Notation "x + y" := (kadd x y) : K_scope.
Notation "x * y" := (kmul x y) : K_scope.
Notation "x - y" := (ksub x y) : K_scope.
Notation "- x" := (kopp x) : K_scope.
Notation "0" := k0 : K_scope.
Notation "1" := k1 : K_scope.

(** The integers as a scalar ring (used for concrete instances). *)
Definition Zscalar : scalar :=
  {| K := Z; k0 := 0%Z; k1 := 1%Z; kadd := Z.add; kmul := Z.mul; ksub := Z.sub;
     kopp := Z.opp; keqb := Z.eqb; k_ring := Zth; keqb_spec := Z.eqb_eq |}.

(** [nsum n f = f 0 + ... + f (n-1)] on natural numbers *)
Fixpoint nsum (n : nat) (f : nat -> nat) : nat := match n with O => 0 | S n => nsum n f + f n end.

(** number of j < n with p j *)
Definition count (n : nat) (p : nat -> bool) : nat := length (filter p (seq 0 n)).

Section Spec.
  Context {F : scalar}.
  Local Open Scope K_scope.

  (** Matrices are functions of row and column. *)
  Definition mat := nat -> nat -> F.

  (** [bigsum n f = f 0 + ... + f (n-1)] *)
  Fixpoint bigsum (n : nat) (f : nat -> F) : F :=
    match n with O => 0 | S m => bigsum m f + f m end.

  (** equality of the N x N matrices *)
  Definition meq (N : nat) (A B : mat) : Prop :=
    forall i j, (i < N)%nat -> (j < N)%nat -> A i j = B i j.

  Definition mmul (N : nat) (A B : mat) : mat := fun i j => bigsum N (fun k => A i k * B k j).
  Definition madd (A B : mat) : mat := fun i j => A i j + B i j.
  Definition mscale (a : F) (A : mat) : mat := fun i j => a * A i j.
  Definition mtrans (A : mat) : mat := fun i j => A j i.
  Definition mid : mat := fun i j => if Nat.eqb i j then 1 else 0.
  Definition mzero : mat := fun _ _ => 0.
  Definition mhad (A B : mat) : mat := fun i j => A i j * B i j.
  Definition mtrace (N : nat) (A : mat) : F := bigsum N (fun i => A i i).
  Definition msum (N : nat) (A : mat) : F := bigsum N (fun i => bigsum N (fun j => A i j)).

  (** Thresholding of one number: [keep x] stands for [|x| > t]. *)
  Definition cut (keep : F -> bool) (x : F) : F := if keep x then x else 0.
  Definition mcut (keep : F -> bool) (A : mat) : mat := fun i j => cut keep (A i j).
  (** Thresholding that always keeps the diagonal. *)
  Definition mcut_offdiag (keep : F -> bool) (A : mat) : mat :=
    fun i j => if Nat.eqb i j then A i j else cut keep (A i j).

  (** Every row of X has at most M elements that pass the threshold test. *)
  Definition fits (N M : nat) (keep : F -> bool) (X : mat) : Prop :=
    forall i, (i < N)%nat -> (count N (fun j => keep (X i j)) <= M)%nat.
End Spec.
Arguments mat F : clear implicits.
