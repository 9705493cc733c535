(** What the LAPACK routines promise, eigenvectors and inverses. *)
From Verif Require Import Base Spec EllpackModel GemmModel DenseModel DenseSpec.

Section LapackSpec.
  Context {F : scalar}.
  Local Open Scope K_scope.

  (** the conjugate transpose *)
  Definition madj (conj : F -> F) (X : mat F) : mat F := fun i j => conj (X j i).
  Definition hermitian (conj : F -> F) (N : nat) (X : mat F) : Prop := meq N X (madj conj X).
  Definition mdiag (w : list F) : mat F := fun i j => if Nat.eqb i j then nth i w 0 else 0.
  Definition inverse_of (N : nat) (X Y : mat F) : Prop := meq N (mmul N X Y) mid /\ meq N (mmul N Y X) mid.
  Definition unitary (conj : F -> F) (N : nat) (V : mat F) : Prop := inverse_of N V (madj conj V).
  (** the columns of V are orthonormal eigenvectors of X with the eigenvalues w, which
      are real and in ascending order *)
  Definition eigensystem (conj : F -> F) (le : F -> F -> Prop) (N : nat) (X : mat F) (w : list F) (V : mat F) : Prop :=
    meq N (mmul N X V) (mmul N V (mdiag w)) /\ unitary conj N V /\
    (forall i, (i < N)%nat -> conj (nth i w 0) = nth i w 0) /\
    (forall i, (S i < N)%nat -> le (nth i w 0) (nth (S i) w 0)).
  (** what complex conjugation is *)
  Definition conj_morphism (conj : F -> F) : Prop :=
    conj 0 = 0 /\ conj 1 = 1 /\ (forall x y, conj (x + y) = conj x + conj y) /\ (forall x y, conj (x * y) = conj x * conj y) /\ forall x, conj (conj x) = x.
  Definition mconj (conj : F -> F) (X : mat F) : mat F := fun i j => conj (X i j).

  (** the Hermitian matrix given by its upper triangle, stored by columns *)
  Definition upper (conj : F -> F) (N : nat) (a : list F) : mat F :=
    fun i j => if Nat.leb i j then colm N a i j else conj (colm N a j i).
  (** SYEV, SYEVD, HEEVR with jobz 'V' and uplo 'U' on the array a *)
  Definition eig_call (conj : F -> F) (le : F -> F -> Prop) (eigs : nat -> list F -> res (list F * list F)) (N : nat) (a : list F) : Prop :=
    exists w v, eigs N a = Ok (w, v) /\ length w = N /\ length v = (N * N)%nat /\ eigensystem conj le N (upper conj N a) w (colm N v).
  (** GETRF and GETRI on the array a *)
  Definition inv_call (invs : nat -> list F -> res (list F)) (N : nat) (a : list F) : Prop :=
    (exists Y, inverse_of N (colm N a) Y) ->
    exists b, invs N a = Ok b /\ length b = (N * N)%nat /\ inverse_of N (colm N a) (colm N b).
  (** ... on every array that stores the matrix X by rows *)
  Definition by_rows (N : nat) (X : mat F) (a : list F) : Prop :=
    length a = (N * N)%nat /\ forall i j, (i < N)%nat -> (j < N)%nat -> nth (i * N + j)%nat a 0 = X i j.
End LapackSpec.
