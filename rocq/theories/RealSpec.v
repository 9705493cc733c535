(** Specification over the real numbers of the standard library: the scalar
    ring R, thresholds, eigenvalues and Gershgorin discs. *)
From Coq Require Import Reals.
From Verif Require Import Base Spec.
Local Open Scope R_scope.

Definition Reqb (x y : R) : bool := if Req_EM_T x y then true else false.

Lemma Reqb_spec x y : Reqb x y = true <-> x = y.
Proof. unfold Reqb. destruct (Req_EM_T x y); split; intros; congruence. Qed.

Definition Rscalar : scalar :=
  {| K := R; k0 := 0; k1 := 1; kadd := Rplus; kmul := Rmult; ksub := Rminus;
     kopp := Ropp; keqb := Reqb; k_ring := RTheory; keqb_spec := Reqb_spec |}.

(** is_above_threshold (src/C-interface/bml_utilities.c, typed): |x| > t *)
Definition gtR (t : R) (x : R) : bool := if Rlt_dec t (Rabs x) then true else false.

Fixpoint Rsum (n : nat) (f : nat -> R) : R :=
  match n with O => 0 | S m => Rsum m f + f m end.

(** sum of the magnitudes of the off-diagonal elements of row i *)
Definition radius (N : nat) (A : mat Rscalar) (i : nat) : R :=
  Rsum N (fun j => if Nat.eqb i j then 0 else Rabs (A i j)).

(** lambda is a (real) eigenvalue of the N x N matrix A *)
Definition eigenvalue (N : nat) (A : mat Rscalar) (lambda : R) : Prop :=
  exists x : nat -> R, (exists k, (k < N)%nat /\ x k <> 0) /\
    forall i, (i < N)%nat -> Rsum N (fun j => A i j * x j) = lambda * x i.
