(** Outcomes, bounds-checked arrays and loops used by all models.

    No bml code is modelled here; this file fixes the meaning of the C
    constructs that occur in the models:
    - [Ok a]  : the statement completed;
    - [Err]   : LOG_ERROR was called.  src/C-interface/bml_logger.c
                (bml_log_real) calls exit(EXIT_FAILURE) after printing, so the
                call does not return;
    - [UB]    : undefined behaviour (access outside an array, use of freed or
                uninitialised memory).
    - [Loop]  : a while loop did not finish within the fuel given to the model. *)
From Coq Require Export List Arith ZArith Lia Bool Permutation.
Export ListNotations.

Inductive res (A : Type) : Type :=
| Ok (a : A)
| Err
| UB
| Loop.
Arguments Ok {A} a.
Arguments Err {A}.
Arguments UB {A}.
Arguments Loop {A}.

Definition bind {A B} (r : res A) (f : A -> res B) : res B :=
  match r with Ok a => f a | Err => Err | UB => UB | Loop => Loop end.

Notation "x <- r ;; k" := (bind r (fun x => k))
  (at level 61, r at next level, right associativity).
Notation "' p <- r ;; k" := (bind r (fun p => k))
  (at level 61, p pattern, r at next level, right associativity).

(** Array read [a[i]]: undefined behaviour outside the array. *)
Definition rd {A} (a : list A) (i : nat) : res A :=
  match nth_error a i with Some x => Ok x | None => UB end.

(** Pure update of cell [i]; leaves the list unchanged outside its range. *)
Fixpoint set_nth {A} (a : list A) (i : nat) (v : A) : list A :=
  match a, i with
  | [], _ => []
  | _ :: t, 0 => v :: t
  | x :: t, S i' => x :: set_nth t i' v
  end.

(** Array write [a[i] = v]: undefined behaviour outside the array. *)
Definition wr {A} (a : list A) (i : nat) (v : A) : res (list A) :=
  if i <? length a then Ok (set_nth a i v) else UB.

(** [for (x in l) s = body(x, s)] *)
Fixpoint forM {X S} (l : list X) (body : X -> S -> res S) (s : S) : res S :=
  match l with
  | [] => Ok s
  | x :: l' => s' <- body x s ;; forM l' body s'
  end.

(** [for (i = 0; i < n; i++)] *)
Definition for_n {S} (n : nat) (body : nat -> S -> res S) (s : S) : res S :=
  forM (seq 0 n) body s.

(** src/macros.h: ROWMAJOR(i,j,M,N) = (i)*(N)+(j), COLMAJOR(i,j,M,N) = (i)+(j)*(M).
    At every call site in the formats the last argument is the row length. *)
Definition ROWMAJOR (i j m n : nat) : nat := i * n + j.
Definition COLMAJOR (i j m n : nat) : nat := i + j * m.

(** An OpenMP "parallel for": [sched] lists the iterations in the order in
    which they are executed, each with the thread executing it; [w] holds the
    private variables of each thread.  One iteration is atomic: in all loops
    modelled with this combinator an iteration writes only its own row and the
    private variables of its thread, or is protected by a lock. *)
Definition upd_fun {A} (f : nat -> A) (t : nat) (a : A) : nat -> A :=
  fun t' => if t' =? t then a else f t'.

Fixpoint par_for {S W} (sched : list (nat * nat)) (body : nat -> S * W -> res (S * W))
         (s : S) (w : nat -> W) : res (S * (nat -> W)) :=
  match sched with
  | [] => Ok (s, w)
  | (t, i) :: rest =>
      '(s', wt) <- body i (s, w t) ;;
      par_for rest body s' (upd_fun w t wt)
  end.
