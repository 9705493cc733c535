(** What the theorems about integer arithmetic say. *)
From Coq Require Import ZArith List String.
From Verif Require Import IntModel.
Local Open Scope Z_scope.

Definition ival_z (v : ival) : Z := match v with VInt z => z | VSize z => z end.
(** the expression is defined and has the value [z] *)
Definition evals_to (env : nat -> Z) (e : iexpr) (z : Z) : Prop := exists v, ieval env e = Some v /\ ival_z v = z.
(** evaluating the expression is undefined behaviour *)
Definition overflows (env : nat -> Z) (e : iexpr) : Prop := ieval env e = None.

(** N, M and the indices i, j, the number of threads t *)
Definition env5 (N M i j t : Z) : nat -> Z := fun x => match x with 0%nat => N | 1%nat => M | 2%nat => i | 3%nat => j | _ => t end.
(** a dimension that an int can hold *)
Definition dimension (N : Z) : Prop := 0 <= N < 2 ^ 31.
