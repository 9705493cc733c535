(** Sizes of the blocks of a submatrix. *)
From Verif Require Import Base EllblockModel EllblockSpec.

(** no block is empty *)
Definition positive (bs : list nat) : Prop := forall ib, ib < length bs -> 0 < bsz bs ib.
(** blocks b, b+1, ... of sizes bs are as large as the first ones of bs' *)
Definition sub_sizes (bs bs' : list nat) (b nb : nat) : Prop := forall k, k < nb -> bsz bs' k = bsz bs (b + k).
