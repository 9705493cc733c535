(** What a program written against the format-independent interface (see
    [instr] in FormatHistModel) means: the same calls on mathematical matrices.
    Thresholds of the arithmetic calls do not appear. *)
From Verif Require Import Base Spec FormatModel FormatHistModel.

Section ProgSpec.
  Context {F : scalar}.
  Local Open Scope K_scope.

  Definition mexec (N : nat) (c : @instr F) (s : list (mat F) * list F) : list (mat F) * list F :=
    let '(st, out) := s in
    let X h := nth h st mzero in
    match c with
    | IAdd h h2 alpha beta _ => (set_nth st h (madd (mscale alpha (X h)) (mscale beta (X h2))), out)
    | IAddIdentity h beta _ => (set_nth st h (madd (X h) (mscale beta mid)), out)
    | IScaleAddIdentity h alpha beta _ => (set_nth st h (madd (mscale alpha (X h)) (mscale beta mid)), out)
    | IMultiplyAB h h2 h3 _ => (set_nth st h3 (mmul N (X h) (X h2)), out)
    | IMultiply h h2 h3 alpha beta _ => (set_nth st h3 (madd (mscale beta (X h3)) (mscale alpha (mmul N (X h) (X h2)))), out)
    | IMultiplyX2 h h2 _ => (set_nth st h2 (mmul N (X h) (X h)), out ++ [mtrace N (X h); mtrace N (mmul N (X h) (X h))])
    | IElementMultiply h h2 h3 _ => (set_nth st h3 (mhad (X h) (X h2)), out)
    | ITransposeNew h => (st ++ [mtrans (X h)], out)
    | ITranspose h => (set_nth st h (mtrans (X h)), out)
    | IScale h a => (set_nth st h (mscale a (X h)), out)
    | ICopyNew h => (st ++ [X h], out)
    | IThreshold h keep => (set_nth st h (mcut keep (X h)), out)
    | ISetDiagonal h _ diag => (set_nth st h (fun i j => if (i =? j)%nat then nth i diag 0 else X h i j), out)
    | IGetElement h i j => (st, out ++ [X h i j])
    | IGetRow h i => (st, out ++ map (X h i) (seq 0 N))
    | ITrace h => (st, out ++ [mtrace N (X h)])
    | ISumSquares h => (st, out ++ [msum N (mhad (X h) (X h))])
    end.
  Definition mrun (N : nat) (prog : list instr) (s : list (mat F) * list F) : list (mat F) * list F :=
    fold_left (fun s c => mexec N c s) prog s.
End ProgSpec.
