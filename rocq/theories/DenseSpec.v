(** What a dense matrix represents, and the specification of gemm. *)
From Verif Require Import Base Spec EllpackModel GemmModel DenseModel.

Section DenseSpec.
  Context {F : scalar}.
  Local Open Scope K_scope.

  (** the represented matrix; the array holds N*N numbers *)
  Definition denm (A : dense F) : mat F := fun i j => nth (i * dN A + j)%nat (dmx A) 0.
  Definition dwf (A : dense F) : Prop := length (dmx A) = (dN A * dN A)%nat.

  (** op(X): X, its transpose or its conjugate transpose *)
  Definition opm (conj : F -> F) (t : trans) (X : mat F) : mat F :=
    match t with TrN => X | TrC => fun i j => conj (X j i) | _ => mtrans X end.
  (** the matrix stored by columns with leading dimension ld *)
  Definition colm (ld : nat) (c : list F) : mat F := fun i j => nth (i + j * ld)%nat c 0.
End DenseSpec.
