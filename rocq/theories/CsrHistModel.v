(** Programs of API calls on csr matrices, over a store of matrices addressed
    by handles as in EllpackHistModel.v.  Each command is the modelled csr
    function of that name. *)
From Verif Require Import Base Spec EllpackModel EllpackSpec CsrModel CsrSpec CsrHash CsrMore.

Section CHist.
  Context {F : scalar}.
  Local Notation csr := (csr F).
  Local Notation sched := (list (nat * nat)).

  Inductive ccmd : Type :=
  | KZero (N M : nat)
  | KIdentity (N M : nat) (s : sched)
  | KBanded (N M : nat) (rnd : nat -> nat -> F) (s : sched)
  | KRandom (N M : nat) (rv : nat -> nat -> F) (rc : nat -> nat -> nat)
  | KImport (o : dorder) (N M : nat) (keep : F -> bool) (D : list F) (s : sched)
  | KClear (h : nat) (s : sched)
  | KSetRow (h i : nat) (keep : F -> bool) (row : list F)
  | KSetElement (h i j : nat) (v : F)
  | KSetDiagonal (h : nat) (keep : F -> bool) (diag : list F)
  | KScale (h : nat) (a : F) (s : sched)
  | KCopyNew (h : nat) (s : sched)
  | KCopy (h h2 : nat) (s : sched)
  | KAdd (h h2 : nat) (alpha beta : F) (keep : F -> bool) (s1 s2 : sched)
  | KAddIdentity (h : nat) (beta : F) (keep : F -> bool) (s1 s2 : sched)
  | KScaleAddIdentity (h : nat) (alpha beta : F) (keep : F -> bool) (s0 s1 s2 : sched)
  | KThreshold (h : nat) (keep : F -> bool) (s : sched)
  | KThresholdNew (h : nat) (keep : F -> bool) (s : sched)
  | KMultiplyAB (h h2 h3 : nat) (keep : F -> bool) (s : sched)
  | KMultiply (h h2 h3 : nat) (alpha beta : F) (keep : F -> bool) (nth : nat) (s1 s2 s3 : sched)
  | KMultiplyX2 (h h2 : nat) (keep : F -> bool) (nth : nat) (s : sched)
  | KElementMultiply (h h2 h3 : nat) (keep : F -> bool) (s : sched)
  | KTransposeNew (h : nat) (ev : sched)
  | KTranspose (h : nat)
  | KExtract (h irow icol BN BM : nat) (keep : F -> bool)
  | KAssign (h h2 irow icol : nat).

  Definition cstore := list csr.

  Definition cgetm (st : cstore) (h : nat) : res csr :=
    match nth_error st h with Some A => Ok A | None => Err end.

  Definition cexec (c : ccmd) (st : cstore) : res cstore :=
    match c with
    | KZero N M => Ok (st ++ [csr_zero N M])
    | KIdentity N M s => A <- csr_identity N M s ;; Ok (st ++ [A])
    | KBanded N M rnd s => A <- csr_banded N M rnd s ;; Ok (st ++ [A])
    | KRandom N M rv rc => A <- csr_random N M rv rc ;; Ok (st ++ [A])
    | KImport o N M keep D s => A <- csr_import o N M keep D s ;; Ok (st ++ [A])
    | KClear h s => A <- cgetm st h ;; A <- csr_clear A s ;; Ok (set_nth st h A)
    | KSetRow h i keep row => A <- cgetm st h ;; A <- csr_set_row keep A i row ;; Ok (set_nth st h A)
    | KSetElement h i j v => A <- cgetm st h ;; A <- csr_set_element A i j v ;; Ok (set_nth st h A)
    | KSetDiagonal h keep diag => A <- cgetm st h ;; A <- csr_set_diagonal keep A diag ;; Ok (set_nth st h A)
    | KScale h a s => A <- cgetm st h ;; A <- csr_scale_inplace a A s ;; Ok (set_nth st h A)
    | KCopyNew h s => A <- cgetm st h ;; B <- csr_copy_new A s ;; Ok (st ++ [B])
    | KCopy h h2 s => A <- cgetm st h ;; B <- cgetm st h2 ;; B <- csr_copy A B s ;; Ok (set_nth st h2 B)
    | KAdd h h2 alpha beta keep s1 s2 =>
        A <- cgetm st h ;; B <- cgetm st h2 ;;
        A <- (if h =? h2 then csr_add_self keep alpha beta A s1 s2 else csr_add keep alpha beta A B s1 s2) ;;
        Ok (set_nth st h A)
    | KAddIdentity h beta keep s1 s2 => A <- cgetm st h ;; A <- csr_add_identity keep beta A s1 s2 ;; Ok (set_nth st h A)
    | KScaleAddIdentity h alpha beta keep s0 s1 s2 =>
        A <- cgetm st h ;; A <- csr_scale_add_identity keep alpha beta A s0 s1 s2 ;; Ok (set_nth st h A)
    | KThreshold h keep s => A <- cgetm st h ;; A <- csr_threshold keep A s ;; Ok (set_nth st h A)
    | KThresholdNew h keep s => A <- cgetm st h ;; B <- csr_threshold_new keep A s ;; Ok (st ++ [B])
    | KMultiplyAB h h2 h3 keep s =>
        A <- cgetm st h ;; B <- cgetm st h2 ;; C <- cgetm st h3 ;;
        C <- csr_multiply_AB keep A B C s ;; Ok (set_nth st h3 C)
    | KMultiply h h2 h3 alpha beta keep nth s1 s2 s3 =>
        A <- cgetm st h ;; B <- cgetm st h2 ;; C <- cgetm st h3 ;;
        (* bml_multiply_csr tests A == B *)
        C <- (if h =? h2 then csr_multiply_sq keep alpha beta A C nth s1 s2 s3
              else csr_multiply keep alpha beta A B C s1 s2 s3) ;;
        Ok (set_nth st h3 C)
    | KMultiplyX2 h h2 keep nth s =>
        X <- cgetm st h ;; X2 <- cgetm st h2 ;;
        '(C, _, _) <- csr_multiply_x2 keep X X2 nth s ;; Ok (set_nth st h2 C)
    | KElementMultiply h h2 h3 keep s =>
        A <- cgetm st h ;; B <- cgetm st h2 ;; C <- cgetm st h3 ;;
        C <- csr_element_multiply keep A B C s ;; Ok (set_nth st h3 C)
    | KTransposeNew h ev => A <- cgetm st h ;; B <- csr_transpose_new A ev ;; Ok (st ++ [B])
    | KTranspose h => A <- cgetm st h ;; A <- csr_transpose A ;; Ok (set_nth st h A)
    | KExtract h irow icol BN BM keep => A <- cgetm st h ;; B <- csr_extract keep A irow icol BN BM ;; Ok (st ++ [B])
    | KAssign h h2 irow icol => A <- cgetm st h ;; B <- cgetm st h2 ;; A <- csr_assign A B irow icol ;; Ok (set_nth st h A)
    end.

  Definition crun (cs : list ccmd) (st : cstore) : res cstore := forM cs cexec st.

  (** ** What a caller must respect.  Besides sizes, complete schedules and
      distinct operands: where the library is defective the guard asks for the
      cases in which the defect does not show (rows that add would have to
      enlarge, threshold_new keeping two entries of a row, assigning over
      stored entries). *)
  Definition chas (st : cstore) (h : nat) (P : csr -> Prop) : Prop :=
    match nth_error st h with Some A => P A | None => True end.

  Definition call_rows (s : sched) (N : nat) : Prop := Permutation (map snd s) (seq 0 N).

  (** rows short enough for the hash table *)
  Definition small_rows (A : csr) : Prop := forall i, i < cN A -> length (crow A i) <= table_max.

  Definition cguard (c : ccmd) (st : cstore) : Prop :=
    match c with
    | KZero N M => True
    | KIdentity N M s | KBanded N M _ s => call_rows s N
    | KRandom N M rv rc => forall i j, rc i j < N
    | KImport o N M keep D s => length D = N * N /\ call_rows s N
    | KClear h s | KScale h _ s | KCopyNew h s => chas st h (fun A => call_rows s (cN A))
    | KSetRow h i keep row => chas st h (fun A => i < cN A /\ length row = cN A)
    | KSetElement h i j v => chas st h (fun A => i < cN A /\ j < cN A)
    | KSetDiagonal h keep diag => chas st h (fun A => length diag = cN A)
    | KCopy h h2 s => chas st h (fun A => chas st h2 (fun B => cN A = cN B /\ call_rows s (cN A)))
    | KAdd h h2 alpha beta keep s1 s2 => chas st h (fun A => chas st h2 (fun B => cN A = cN B /\
        call_rows s1 (cN A) /\ call_rows s2 (cN A) /\ small_rows A /\
        (h <> h2 -> forall i, i < cN A -> union_cols A B i <= calloc A i)))
    | KAddIdentity h beta keep s1 s2 => chas st h (fun A => call_rows s1 (cN A) /\ call_rows s2 (cN A))
    | KScaleAddIdentity h _ beta keep s0 s1 s2 =>
        chas st h (fun A => call_rows s0 (cN A) /\ call_rows s1 (cN A) /\ call_rows s2 (cN A))
    | KThreshold h keep s => chas st h (fun A => call_rows s (cN A))
    | KThresholdNew h keep s => chas st h (fun A => call_rows s (cN A) /\
        forall i, i < cN A -> count (cN A) (fun j => cstored A i j && keep (cmat A i j)) <= 1)
    | KMultiplyAB h h2 h3 keep s | KElementMultiply h h2 h3 keep s =>
        chas st h (fun A => chas st h2 (fun B => chas st h3 (fun C =>
          h <> h3 /\ h2 <> h3 /\ cN A = cN B /\ cN C = cN A /\ call_rows s (cN A))))
    | KMultiply h h2 h3 alpha beta keep nth s1 s2 s3 => chas st h (fun A => chas st h2 (fun B => chas st h3 (fun C =>
        h <> h3 /\ h2 <> h3 /\ cN A = cN B /\ cN C = cN A /\ full_sched (cN C) nth s1 /\
        call_rows s2 (cN C) /\ call_rows s3 (cN C) /\ small_rows C /\
        forall i, i < cN C -> mul_room keep A B C i <= calloc C i)))
    | KMultiplyX2 h h2 keep nth s => chas st h (fun X => chas st h2 (fun X2 =>
        h <> h2 /\ cN X2 = cN X /\ full_sched (cN X) nth s))
    | KTransposeNew h ev => chas st h (fun A => Permutation ev (c_slots A))
    | KTranspose h => True
    | KExtract h irow icol BN BM keep => chas st h (fun A => irow + BN <= cN A)
    | KAssign h h2 irow icol => chas st h (fun A => chas st h2 (fun B =>
        irow + cN B <= cN A /\ icol + cN B <= cN A /\
        forall i j, i < cN B -> j < cN B -> cstored A (irow + i) (icol + j) = false))
    end.

  (** the guard holds at every call of the run *)
  Fixpoint cguarded (cs : list ccmd) (st : cstore) : Prop :=
    match cs with
    | [] => True
    | c :: cs => cguard c st /\ match cexec c st with Ok st' => cguarded cs st' | _ => True end
    end.
End CHist.
Arguments ccmd F : clear implicits.
Arguments cstore F : clear implicits.
