(** What a matrix of any format represents. *)
From Verif Require Import Base Spec SpecFacts EllpackModel EllpackSpec CsrModel CsrSpec GemmModel DenseModel DenseSpec
  CsrHash CsrMore CsrTop EllpackTrans EllpackExact FormatModel.

Section FormatSpec.
  Context {F : scalar}.

  Definition bmx (A : bmat F) : mat F :=
    match A with BDense A => denm A | BEll A => emat A | BCsr A => cmat A end.
  Definition bwf (A : bmat F) : Prop :=
    match A with BDense A => dwf A | BEll A => wf A | BCsr A => cwf A end.

  (** all parallel loops execute every iteration exactly once on one of the
      threads, and every insertion is made once *)
  Definition good_env (A : bmat F) (e : env F) : Prop :=
    let N := bml_get_N A in
    (forall k, full_sched N (e_nth e) (e_rows e k)) /\
    (forall k, full_sched (N * N) (e_nth e) (e_cells e k)) /\
    Permutation (map snd (e_tri e)) (seq 0 (N - 1)) /\
    (forall l, Permutation (e_slots e l) l).

  (** [A] and [B] have the same format and size *)
  Definition alike (A B : bmat F) : Prop := bml_get_type A = bml_get_type B /\ bml_get_N A = bml_get_N B.

  (** ... and the same number of slots per row *)
  Definition like (A B : bmat F) : Prop := alike A B /\ bml_get_M A = bml_get_M B.

  (** the two operands have the same size and represent the same matrix *)
  Definition same_matrix (A B : bmat F) : Prop :=
    bml_get_N A = bml_get_N B /\ meq (bml_get_N A) (bmx A) (bmx B).

  (** results of the two calls, replacing [D1] and [D2] *)
  Definition agree (D1 D2 C1 C2 : bmat F) : Prop :=
    bwf C1 /\ like D1 C1 /\ bwf C2 /\ like D2 C2 /\ same_matrix C1 C2.

  (** The sparse formats drop entries by the threshold test [keep] (the
      products always keep the diagonal); dense keeps everything. *)
  Definition sparse (A : bmat F) : bool := match A with BDense _ => false | _ => true end.
  Definition tcut (keep : F -> bool) (A : bmat F) (X : mat F) : mat F := if sparse A then mcut keep X else X.
  Definition toff (keep : F -> bool) (A : bmat F) (X : mat F) : mat F := if sparse A then mcut_offdiag keep X else X.
  (** the threshold drops no nonzero number, or has the same effect on both *)
  Definition comparable (keep : F -> bool) (A B : bmat F) : Prop := keeps_nonzero keep \/ sparse A = sparse B.

  (** the room needed by each format: ellpack rows have M slots, csr's hash
      table and rows must be large enough *)
  Definition add_room (keep : F -> bool) (alpha beta : F) (A B : bmat F) : Prop :=
    match A, B with
    | BEll A, BEll B => fits (eN A) (eM A) keep (madd (mscale alpha (emat A)) (mscale beta (emat B)))
    | BCsr A, BCsr B => (forall i, i < cN A -> length (crow A i) <= table_max) /\
                        (forall i, i < cN A -> union_cols A B i <= calloc A i)
    | _, _ => True
    end.
  Definition identity_room (beta : F) (A : bmat F) : Prop :=
    match A with
    | BEll A => forall i, i < eN A -> beta = k0 \/ In i (cols (erow A i)) \/ nnz A i < eM A
    | _ => True
    end.
  Definition product_room (A B C : bmat F) : Prop :=
    match A, B, C with
    | BDense A, _, _ => 0 < dN A
    | BEll A, BEll B, BEll C => forall i, i < eN A -> prod_cols A B i <= eM C
    | _, _, _ => True
    end.
  Definition multiply_room (keep : F -> bool) (alpha beta : F) (A B C : bmat F) : Prop :=
    match A, B, C with
    | BDense A, _, _ => 0 < dN A
    | BEll A, BEll B, BEll C =>
        (forall i, i < eN A -> prod_cols A B i <= eM C) /\
        fits (eN A) (eM C) keep (madd (mscale beta (emat C)) (mscale alpha (mcut_offdiag keep (mmul (eN A) (emat A) (emat B)))))
    | BCsr A, BCsr B, BCsr C =>
        (forall i, i < cN C -> length (crow C i) <= table_max) /\
        (forall i, i < cN C -> mul_room keep A B C i <= calloc C i)
    | _, _, _ => True
    end.
  Definition square_room (keep : F -> bool) (X X2 : bmat F) : Prop :=
    match X, X2 with
    | BDense X, _ => 0 < dN X
    | BEll X, BEll X2 => forall i, i < eN X ->
        count (eN X) (fun j => (Nat.eqb i j || keep (mmul (eN X) (emat X) (emat X) i j))%bool) <= eM X2
    | _, _ => True
    end.
  Definition had_room (A C : bmat F) : Prop :=
    match A, C with BEll A, BEll C => eM A <= eM C | _, _ => True end.
  Definition transpose_room (A : bmat F) : Prop :=
    match A with BEll A => forall r, r < eN A -> colcount A r <= eM A | _ => True end.
  Definition transpose_inplace_room (A : bmat F) : Prop :=
    match A with BEll A => forall r, r < eN A -> count (eN A) (fun c => stored A r c || stored A c r)%bool <= eM A | _ => True end.
  Definition diag_room (keep : F -> bool) (A : bmat F) (diag : list F) : Prop :=
    match A with
    | BEll A => forall i, i < eN A -> In i (cols (erow A i)) \/ nnz A i < eM A \/ keep (nth i diag k0) = false
    | _ => True
    end.
  Definition norm_room (A : bmat F) : Prop :=
    match A with BCsr A => forall i, i < cN A -> length (crow A i) <= table_max | _ => True end.
End FormatSpec.
