(** Programs written against the format-independent interface.  A program
    works on a store of matrices addressed by handles and produces a list of
    numbers; the formats of the matrices in the store are not mentioned. *)
From Verif Require Import Base Spec EllpackModel CsrModel GemmModel DenseModel FormatModel.

Section FormatHist.
  Context {F : scalar}.
  Local Notation bmat := (bmat F).
  Local Notation env := (env F).

  Inductive instr : Type :=
  | IAdd (h h2 : nat) (alpha beta : F) (keep : F -> bool)
  | IAddIdentity (h : nat) (beta : F) (keep : F -> bool)
  | IScaleAddIdentity (h : nat) (alpha beta : F) (keep : F -> bool)
  | IMultiplyAB (h h2 h3 : nat) (keep : F -> bool)
  | IMultiply (h h2 h3 : nat) (alpha beta : F) (keep : F -> bool)
  | IMultiplyX2 (h h2 : nat) (keep : F -> bool)
  | IElementMultiply (h h2 h3 : nat) (keep : F -> bool)
  | ITransposeNew (h : nat)
  | ITranspose (h : nat)
  | IScale (h : nat) (a : F)
  | ICopyNew (h : nat)
  | IThreshold (h : nat) (keep : F -> bool)
  | ISetDiagonal (h : nat) (keep : F -> bool) (diag : list F)
  | IGetElement (h i j : nat)
  | IGetRow (h i : nat)
  | ITrace (h : nat)
  | ISumSquares (h : nat).

  Definition bstore := (list bmat * list F)%type.

  Definition bgetm (st : list bmat) (h : nat) : res bmat :=
    match nth_error st h with Some A => Ok A | None => Err end.

  Definition bexec (c : instr) (e : env) (s : bstore) : res bstore :=
    let '(st, out) := s in
    match c with
    | IAdd h h2 alpha beta keep =>
        A <- bgetm st h ;; B <- bgetm st h2 ;; A <- bml_add keep alpha beta A B e ;; Ok (set_nth st h A, out)
    | IAddIdentity h beta keep =>
        A <- bgetm st h ;; A <- bml_add_identity keep beta A e ;; Ok (set_nth st h A, out)
    | IScaleAddIdentity h alpha beta keep =>
        A <- bgetm st h ;; A <- bml_scale_add_identity keep alpha beta A e ;; Ok (set_nth st h A, out)
    | IMultiplyAB h h2 h3 keep =>
        A <- bgetm st h ;; B <- bgetm st h2 ;; C <- bgetm st h3 ;;
        C <- bml_multiply_AB keep A B C e ;; Ok (set_nth st h3 C, out)
    | IMultiply h h2 h3 alpha beta keep =>
        A <- bgetm st h ;; B <- bgetm st h2 ;; C <- bgetm st h3 ;;
        C <- bml_multiply keep alpha beta A B C e ;; Ok (set_nth st h3 C, out)
    | IMultiplyX2 h h2 keep =>
        X <- bgetm st h ;; X2 <- bgetm st h2 ;;
        '(C, t, t2) <- bml_multiply_x2 keep X X2 e ;; Ok (set_nth st h2 C, out ++ [t; t2])
    | IElementMultiply h h2 h3 keep =>
        A <- bgetm st h ;; B <- bgetm st h2 ;; C <- bgetm st h3 ;;
        C <- bml_element_multiply_AB keep A B C e ;; Ok (set_nth st h3 C, out)
    | ITransposeNew h => A <- bgetm st h ;; B <- bml_transpose_new A e ;; Ok (st ++ [B], out)
    | ITranspose h => A <- bgetm st h ;; A <- bml_transpose A e ;; Ok (set_nth st h A, out)
    | IScale h a => A <- bgetm st h ;; A <- bml_scale_inplace a A e ;; Ok (set_nth st h A, out)
    | ICopyNew h => A <- bgetm st h ;; B <- bml_copy_new A e ;; Ok (st ++ [B], out)
    | IThreshold h keep => A <- bgetm st h ;; A <- bml_threshold keep A e ;; Ok (set_nth st h A, out)
    | ISetDiagonal h keep diag => A <- bgetm st h ;; A <- bml_set_diagonal keep A diag ;; Ok (set_nth st h A, out)
    | IGetElement h i j => A <- bgetm st h ;; v <- bml_get_element A i j ;; Ok (st, out ++ [v])
    | IGetRow h i => A <- bgetm st h ;; r <- bml_get_row A i ;; Ok (st, out ++ r)
    | ITrace h => A <- bgetm st h ;; t <- bml_trace A e ;; Ok (st, out ++ [t])
    | ISumSquares h => A <- bgetm st h ;; t <- bml_sum_squares A e ;; Ok (st, out ++ [t])
    end.

  (** run a program; each call has its own schedules *)
  Fixpoint brun (prog : list (instr * env)) (s : bstore) : res bstore :=
    match prog with
    | [] => Ok s
    | (c, e) :: prog => s <- bexec c e s ;; brun prog s
    end.
End FormatHist.
