(** What bml_add_norm_ellblock needs of the slots of A, and the number it returns,
    stated with the matrices. *)
From Verif Require Import Base Spec EllpackModel EllblockModel EllblockSpec.

Section AddNormSpec.
  Context {F : scalar}.
  Local Open Scope K_scope.
  Local Notation eb := (eb F).

  (** the block columns of row [ib] of A, then the others of B *)
  Definition an_cols (A B : eb) (ib : nat) : list nat := touch_all (touch_all [] (bcols A ib)) (bcols B ib).
  Definition an_kept (keep : F -> bool) (alpha beta : F) (A B : eb) (ib : nat) : list nat :=
    filter (blk_keep (bbs A) keep (madd (mscale alpha (ebmx A)) (mscale beta (ebmx B))) ib) (an_cols A B ib).
  (** for every block that is kept the next slot of the row holds an object, large enough *)
  Definition an_slots (keep : F -> bool) (alpha beta : F) (A B : eb) : Prop :=
    forall ib, (ib < bNB A)%nat ->
      (length (an_kept keep alpha beta A B ib) <= bMB A)%nat /\
      forall q, (q < length (an_kept keep alpha beta A B ib))%nat -> exists x, bobj A ib q = Some x /\
        (bsz (bbs A) ib * bsz (bbs A) (nth q (an_kept keep alpha beta A B ib) 0%nat) <= length x)%nat.

  (** the sum over the blocks of the square of the sum of the squares of their elements *)
  Definition blk_norm4 (bs : list nat) (NB : nat) (X : mat F) : F :=
    bigsum NB (fun ib => bigsum NB (fun jb =>
      let q := bigsum (bsz bs ib) (fun ii => bigsum (bsz bs jb) (fun jj => X (boff bs ib + ii)%nat (boff bs jb + jj)%nat * X (boff bs ib + ii)%nat (boff bs jb + jj)%nat)) in
      q * q)).
End AddNormSpec.
