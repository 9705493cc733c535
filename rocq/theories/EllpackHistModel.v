(** Programs of API calls on ellpack matrices.  A program works on a store of
    matrices addressed by handles (the bml_matrix_t pointers held by the
    caller); distinct handles are distinct objects.  Each command is the
    modelled ellpack function of that name. *)
From Verif Require Import Base Spec EllpackModel EllpackSpec.

Section Hist.
  Context {F : scalar}.
  Local Notation ell := (ell F).
  Local Notation sched := (list (nat * nat)).

  Inductive cmd : Type :=
  | CZero (N M : nat)
  | CIdentity (N M : nat)
  | CBanded (N M : nat) (rnd : nat -> nat -> F)
  | CImport (o : dorder) (N M : nat) (keep : F -> bool) (D : list F) (s : sched)
  | CSetRow (h i : nat) (keep : F -> bool) (row : list F)
  | CSetElement (h i j : nat) (v : F)
  | CSetDiagonal (h : nat) (keep : F -> bool) (diag : list F)
  | CScale (h : nat) (a : F)
  | CCopyNew (h : nat) (gv : nat -> F) (gi : nat -> nat)
  | CCopy (h h2 : nat)
  | CAdd (h h2 : nat) (alpha beta : F) (keep : F -> bool) (s : sched)
  | CAddIdentity (h : nat) (beta : F) (keep : F -> bool) (s : sched)
  | CScaleAddIdentity (h : nat) (alpha beta : F) (keep : F -> bool) (s : sched)
  | CThreshold (h : nat) (keep : F -> bool) (s : sched)
  | CThresholdNew (h : nat) (keep : F -> bool) (s : sched)
  | CMultiplyAB (h h2 h3 : nat) (keep : F -> bool) (s : sched)
  | CMultiply (h h2 h3 : nat) (alpha beta : F) (keep : F -> bool) (nth : nat) (s1 s2 : sched) (gv : nat -> F) (gi : nat -> nat)
  | CMultiplyX2 (h h2 : nat) (keep : F -> bool) (nth : nat) (s : sched)
  | CElementMultiply (h h2 h3 : nat) (keep : F -> bool) (s : sched)
  | CTransposeNew (h : nat) (ev : sched) (gv : nat -> F) (gi : nat -> nat)
  | CTranspose (h : nat)
  | CReorder (h : nat) (perm : list nat) (s1 s2 : sched) (gv : nat -> F) (gi : nat -> nat).

  Definition store := list ell.

  (** no matrix behind the handle: not a call of the API *)
  Definition getm (st : store) (h : nat) : res ell :=
    match nth_error st h with Some A => Ok A | None => Err end.

  Definition exec (c : cmd) (st : store) : res store :=
    match c with
    | CZero N M => A <- ell_zero N M ;; Ok (st ++ [A])
    | CIdentity N M => A <- ell_identity N M ;; Ok (st ++ [A])
    | CBanded N M rnd => A <- ell_banded N M rnd ;; Ok (st ++ [A])
    | CImport o N M keep D s => A <- ell_import o N M keep D s ;; Ok (st ++ [A])
    | CSetRow h i keep row => A <- getm st h ;; A <- ell_set_row keep A i row ;; Ok (set_nth st h A)
    | CSetElement h i j v => A <- getm st h ;; A <- ell_set_element A i j v ;; Ok (set_nth st h A)
    | CSetDiagonal h keep diag => A <- getm st h ;; A <- ell_set_diagonal keep A diag ;; Ok (set_nth st h A)
    | CScale h a => A <- getm st h ;; A <- ell_scale_inplace a A ;; Ok (set_nth st h A)
    | CCopyNew h gv gi => A <- getm st h ;; B <- ell_copy_new A gv gi ;; Ok (st ++ [B])
    | CCopy h h2 => A <- getm st h ;; B <- getm st h2 ;; B <- ell_copy A B ;; Ok (set_nth st h2 B)
    | CAdd h h2 alpha beta keep s =>
        A <- getm st h ;; B <- getm st h2 ;;
        A <- (if h =? h2 then ell_add_self keep alpha beta A s else ell_add keep alpha beta A B s) ;;
        Ok (set_nth st h A)
    | CAddIdentity h beta keep s => A <- getm st h ;; A <- ell_add_identity keep beta A s ;; Ok (set_nth st h A)
    | CScaleAddIdentity h alpha beta keep s =>
        A <- getm st h ;; A <- ell_scale_add_identity keep alpha beta A s ;; Ok (set_nth st h A)
    | CThreshold h keep s => A <- getm st h ;; A <- ell_threshold keep A s ;; Ok (set_nth st h A)
    | CThresholdNew h keep s => A <- getm st h ;; B <- ell_threshold_new keep A s ;; Ok (st ++ [B])
    | CMultiplyAB h h2 h3 keep s =>
        A <- getm st h ;; B <- getm st h2 ;; C <- getm st h3 ;;
        C <- ell_multiply_AB keep A B C s ;; Ok (set_nth st h3 C)
    | CMultiply h h2 h3 alpha beta keep nth s1 s2 gv gi =>
        A <- getm st h ;; B <- getm st h2 ;; C <- getm st h3 ;;
        (* bml_multiply_ellpack tests A == B *)
        C <- (if h =? h2 then
                if h =? h3 then ell_multiply_sq_inplace keep alpha beta A nth s1 s2 gv gi
                else ell_multiply_sq keep alpha beta A C nth s1 s2 gv gi
              else ell_multiply keep alpha beta A B C s1 s2 gv gi) ;;
        Ok (set_nth st h3 C)
    | CMultiplyX2 h h2 keep nth s =>
        X <- getm st h ;; X2 <- getm st h2 ;;
        '(C, _, _) <- ell_multiply_x2 keep X X2 nth s ;; Ok (set_nth st h2 C)
    | CElementMultiply h h2 h3 keep s =>
        A <- getm st h ;; B <- getm st h2 ;; C <- getm st h3 ;;
        C <- ell_element_multiply keep A B C s ;; Ok (set_nth st h3 C)
    | CTransposeNew h ev gv gi => A <- getm st h ;; B <- ell_transpose_new A ev gv gi ;; Ok (st ++ [B])
    | CTranspose h => A <- getm st h ;; A <- ell_transpose A ;; Ok (set_nth st h A)
    | CReorder h perm s1 s2 gv gi => A <- getm st h ;; A <- ell_reorder A perm s1 s2 gv gi ;; Ok (set_nth st h A)
    end.

  Fixpoint run (cs : list cmd) (st : store) : res store :=
    match cs with
    | [] => Ok st
    | c :: cs => st <- exec c st ;; run cs st
    end.

  (** ** What a caller must respect: arguments of the right sizes, complete
      schedules, and room for the result in rows of M entries (the library
      does not check the room, except in multiply_AB and element_multiply). *)
  Definition has (st : store) (h : nat) (P : ell -> Prop) : Prop :=
    match nth_error st h with Some A => P A | None => True end.

  Definition all_rows (s : sched) (N : nat) : Prop := Permutation (map snd s) (seq 0 N).

  Definition guard (c : cmd) (st : store) : Prop :=
    match c with
    | CZero N M | CIdentity N M | CBanded N M _ => True
    | CImport o N M keep D s => length D = N * N /\ all_rows s N /\ fits N M keep (dmat o N D)
    | CSetRow h i keep row => has st h (fun A => i < eN A /\ length row = eN A /\
        count (eN A) (fun j => keep (nth j row k0)) <= eM A)
    | CSetElement h i j v => has st h (fun A => i < eN A /\ j < eN A /\
        (2 < nnz A i \/ ~ In j (SpecFacts.cols (erow A i))) /\
        (In j (SpecFacts.cols (erow A i)) \/ nnz A i < eM A))
    | CSetDiagonal h keep diag => has st h (fun A => length diag = eN A /\
        forall i, i < eN A -> In i (SpecFacts.cols (erow A i)) \/ nnz A i < eM A \/ keep (nth i diag k0) = false)
    | CScale h a => True
    | CCopyNew h gv gi => True
    | CCopy h h2 => has st h (fun A => has st h2 (fun B => same_dims A B /\ 0 < eM A))
    | CAdd h h2 alpha beta keep s => has st h (fun A => has st h2 (fun B => eN A = eN B /\ all_rows s (eN A) /\
        fits (eN A) (eM A) keep (madd (mscale alpha (emat A)) (mscale beta (emat B)))))
    | CAddIdentity h beta keep s | CScaleAddIdentity h _ beta keep s => has st h (fun A => all_rows s (eN A) /\
        forall i, i < eN A -> beta = k0 \/ In i (SpecFacts.cols (erow A i)) \/ nnz A i < eM A)
    | CThreshold h keep s | CThresholdNew h keep s => has st h (fun A => all_rows s (eN A))
    | CMultiplyAB h h2 h3 keep s => has st h (fun A => has st h2 (fun B => has st h3 (fun C =>
        h <> h3 /\ h2 <> h3 /\ eN A = eN B /\ eN C = eN A /\ all_rows s (eN A))))
    | CMultiply h h2 h3 alpha beta keep nth s1 s2 gv gi => has st h (fun A => has st h2 (fun B => has st h3 (fun C =>
        ~ (h = h2 /\ h = h3) /\ eN A = eN B /\ eN C = eN A /\ full_sched (eN A) nth s1 /\ all_rows s2 (eN A) /\
        (forall i, i < eN A -> prod_cols A B i <= eM C) /\
        (forall i, i < eN A -> h = h2 ->
           count (eN A) (fun j => (i =? j) || keep (mmul (eN A) (emat A) (emat B) i j)) <= eM C) /\
        fits (eN A) (eM C) keep (madd (mscale beta (emat C))
          (mscale alpha (mcut_offdiag keep (mmul (eN A) (emat A) (emat B))))))))
    | CMultiplyX2 h h2 keep nth s => has st h (fun X => has st h2 (fun X2 =>
        h <> h2 /\ eN X2 = eN X /\ full_sched (eN X) nth s /\
        forall i, i < eN X -> count (eN X) (fun j => (i =? j) || keep (mmul (eN X) (emat X) (emat X) i j)) <= eM X2))
    | CElementMultiply h h2 h3 keep s => has st h (fun A => has st h2 (fun B => has st h3 (fun C =>
        h <> h3 /\ h2 <> h3 /\ eN A = eN B /\ eN C = eN A /\ eM A <= eM C /\ all_rows s (eN A))))
    | CTransposeNew h ev gv gi => has st h (fun A => Permutation ev (all_slots A) /\
        forall r, r < eN A -> colcount A r <= eM A)
    | CTranspose h => has st h (fun A =>
        forall r, r < eN A -> count (eN A) (fun c => stored A r c || stored A c r) <= eM A)
    | CReorder h perm s1 s2 gv gi => has st h (fun A => Permutation perm (seq 0 (eN A)) /\
        all_rows s1 (eN A) /\ all_rows s2 (eN A))
    end.

  (** the guard holds at every call of the run *)
  Fixpoint guarded (cs : list cmd) (st : store) : Prop :=
    match cs with
    | [] => True
    | c :: cs => guard c st /\ match exec c st with Ok st' => guarded cs st' | _ => True end
    end.
End Hist.
Arguments cmd F : clear implicits.
Arguments store F : clear implicits.
