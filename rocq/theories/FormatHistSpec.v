(** Hypotheses of the program theorems of FormatHist.v. *)
From Verif Require Import Base Spec EllpackModel EllpackSpec EllpackExact CsrModel CsrSpec CsrHash GemmModel DenseModel DenseSpec FormatModel FormatSpec FormatHistModel.

Section FormatHistSpec.
  Context {F : scalar}.
  Local Notation bmat := (bmat F).
  Local Notation env := (env F).
  Local Notation instr := (@instr F).

  (** the handle [h] is that of matrix [A] *)
  Definition at_handle (st : list bmat) (h : nat) (A : bmat) : Prop := nth_error st h = Some A.

  (** A legal call: handles exist, sizes and formats agree, an overwritten
      matrix is not also an operand, and there is room for the result. *)
  Definition bguard (c : instr) (e : env) (st : list bmat) : Prop :=
    match c with
    | IAdd h h2 alpha beta keep => h <> h2 /\
        exists A B, at_handle st h A /\ at_handle st h2 B /\ alike A B /\ good_env A e /\ add_room keep alpha beta A B
    | IAddIdentity h beta keep => exists A, at_handle st h A /\ good_env A e /\ identity_room beta A
    | IScaleAddIdentity h alpha beta keep => exists A, at_handle st h A /\ good_env A e /\ identity_room beta A
    | IMultiplyAB h h2 h3 keep => h3 <> h /\ h3 <> h2 /\
        exists A B C, at_handle st h A /\ at_handle st h2 B /\ at_handle st h3 C /\ alike A B /\ alike A C /\ good_env A e /\
          product_room A B C
    | IMultiply h h2 h3 alpha beta keep => h <> h2 /\ h3 <> h /\ h3 <> h2 /\
        exists A B C, at_handle st h A /\ at_handle st h2 B /\ at_handle st h3 C /\ alike A B /\ alike A C /\ good_env A e /\
          multiply_room keep alpha beta A B C
    | IMultiplyX2 h h2 keep => h <> h2 /\
        exists A C, at_handle st h A /\ at_handle st h2 C /\ alike A C /\ good_env A e /\ square_room keep A C
    | IElementMultiply h h2 h3 keep => h3 <> h /\ h3 <> h2 /\
        exists A B C, at_handle st h A /\ at_handle st h2 B /\ at_handle st h3 C /\ alike A B /\ alike A C /\ good_env A e /\
          had_room A C
    | ITransposeNew h => exists A, at_handle st h A /\ good_env A e /\ transpose_room A
    | ITranspose h => exists A, at_handle st h A /\ good_env A e /\ transpose_inplace_room A
    | IScale h _ | ICopyNew h | IThreshold h _ | ITrace h | ISumSquares h => exists A, at_handle st h A /\ good_env A e
    | ISetDiagonal h keep diag => exists A, at_handle st h A /\ length diag = bml_get_N A /\ diag_room keep A diag
    | IGetElement h i j => exists A, at_handle st h A /\ i < bml_get_N A /\ j < bml_get_N A
    | IGetRow h i => exists A, at_handle st h A /\ i < bml_get_N A
    end.

  (** every call made while running [prog] from [s] is legal *)
  Fixpoint legal (prog : list (instr * env)) (s : bstore) : Prop :=
    match prog with
    | [] => True
    | (c, e) :: prog => bguard c e (fst s) /\ forall s', bexec c e s = Ok s' -> legal prog s'
    end.

  (** the thresholds of the call drop no nonzero number (bml_threshold, which
      drops the same in every format, excepted) *)
  Definition exact_instr (c : instr) : Prop :=
    match c with
    | IAdd _ _ _ _ keep | IAddIdentity _ _ keep | IScaleAddIdentity _ _ _ keep | IMultiplyAB _ _ _ keep
    | IMultiply _ _ _ _ _ keep | IMultiplyX2 _ _ keep | IElementMultiply _ _ _ keep | ISetDiagonal _ keep _ => keeps_nonzero keep
    | _ => True
    end.

  (** corresponding matrices are both sparse or both dense *)
  Definition same_kind (st1 st2 : list bmat) : Prop := Forall2 (fun A B => sparse A = sparse B) st1 st2.

  (** ** Programs on matrices with room for everything *)

  (** a matrix of size N that is dense, or ellpack with M >= N slots per row, or
      csr with space for N entries in every row *)
  Definition roomy (N M : nat) (A : bmat) : Prop :=
    bml_get_N A = N /\ N <= M /\ match A with
    | BDense _ => True
    | BEll A => eM A = M
    | BCsr A => cM A = M /\ N <= table_max /\ forall i, i < N -> N <= calloc A i
    end.

  (** a store of well-formed matrices of one of these formats *)
  Definition uniform (N M : nat) (t : fmt) (st : list bmat) : Prop :=
    Forall (fun A => bwf A /\ roomy N M A /\ bml_get_type A = t) st.

  (** the handles used by a call, and the number of matrices it adds *)
  Definition handles (c : instr) : list nat :=
    match c with
    | IAdd h h2 _ _ _ | IMultiplyX2 h h2 _ => [h; h2]
    | IMultiplyAB h h2 h3 _ | IMultiply h h2 h3 _ _ _ | IElementMultiply h h2 h3 _ => [h; h2; h3]
    | IAddIdentity h _ _ | IScaleAddIdentity h _ _ _ | ITransposeNew h | ITranspose h | IScale h _ | ICopyNew h
    | IThreshold h _ | ISetDiagonal h _ _ | IGetElement h _ _ | IGetRow h _ | ITrace h | ISumSquares h => [h]
    end.
  Definition creates (c : instr) : nat := match c with ITransposeNew _ | ICopyNew _ => 1 | _ => 0 end.
  Definition distinct_handles (c : instr) : Prop :=
    match c with
    | IAdd h h2 _ _ _ | IMultiplyX2 h h2 _ => h <> h2
    | IMultiplyAB h h2 h3 _ | IElementMultiply h h2 h3 _ => h3 <> h /\ h3 <> h2
    | IMultiply h h2 h3 _ _ _ => h <> h2 /\ h3 <> h /\ h3 <> h2
    | _ => True
    end.
  Definition in_bounds (N : nat) (c : instr) : Prop :=
    match c with
    | IGetElement _ i j => i < N /\ j < N
    | IGetRow _ i => i < N
    | ISetDiagonal _ _ diag => length diag = N
    | _ => True
    end.

  (** [prog] is a well-formed program for a store of [n] matrices of size N *)
  Fixpoint program (N n : nat) (prog : list instr) : Prop :=
    match prog with
    | [] => True
    | c :: prog => (forall h, In h (handles c) -> h < n) /\ distinct_handles c /\ in_bounds N c /\ program N (n + creates c) prog
    end.

  (** schedules for matrices of size N *)
  Definition good_schedules (N : nat) (e : env) : Prop :=
    (forall k, full_sched N (e_nth e) (e_rows e k)) /\
    (forall k, full_sched (N * N) (e_nth e) (e_cells e k)) /\
    Permutation (map snd (e_tri e)) (seq 0 (N - 1)) /\
    (forall l, Permutation (e_slots e l) l).
End FormatHistSpec.
