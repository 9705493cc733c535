(** The interface functions (src/C-interface/bml_*.c) for all four formats:
    conversion from and to block ellpack, and the programs of FormatHistModel on a
    store of block ellpack matrices.  The default block sizes are part of the state. *)
From Verif Require Import Base Spec EllpackModel CsrModel GemmModel DenseModel FormatModel FormatHistModel EllblockModel.

Section EbProg.
  Context {F : scalar}.
  Local Notation bmat := (bmat F).
  Local Notation eb := (eb F).
  Local Notation env := (env F).

  (** a matrix of one of the four formats *)
  Inductive amat : Type := AB (A : bmat) | AEb (A : eb).
  Inductive afmt : Type := TB (t : fmt) | TEb.
  (** bml_introspection.c (bml_get_N) and bml_getters.c 20-90 *)
  Definition aml_get_N (A : amat) : nat := match A with AB A => bml_get_N A | AEb A => bN A end.
  Definition aml_get_type (A : amat) : afmt := match A with AB A => TB (bml_get_type A) | AEb _ => TEb end.
  Definition aml_get_element (A : amat) (i j : nat) : res F :=
    match A with AB A => bml_get_element A i j | AEb A => eb_get_element A i j end.
  Definition aml_get_row (A : amat) (i : nat) : res (list F) :=
    match A with AB A => bml_get_row A i | AEb A => eb_get_row A i end.

  (** dense/bml_convert_dense_typed.c 15-55, ellpack/bml_convert_ellpack_typed.c 12-38,
      csr/bml_convert_csr_typed.c 20-45, ellblock/bml_convert_ellblock_typed.c *)
  Definition to_dense (A : amat) : res (dense F) :=
    let N := aml_get_N A in
    for_n N (fun i B => for_n N (fun j B => v <- aml_get_element A i j ;; d_put B i j v) B) (dense_zero N).
  Definition to_ell (A : amat) (M : nat) : res (ell F) :=
    let N := aml_get_N A in
    B <- ell_zero N M ;;
    for_n N (fun i B => for_n N (fun j B => v <- aml_get_element A i j ;; ell_set_element B i j v) B) B.
  Definition to_csr (nz : F -> bool) (A : amat) (M : nat) : res (csr F) :=
    let N := aml_get_N A in
    for_n N (fun i B => row <- aml_get_row A i ;; csr_set_row nz B i row) (csr_zero N M).
  (** bml_convert.c 20-54 *)
  Definition aml_convert (c : cache) (nz : F -> bool) (A : amat) (t : afmt) (M : nat) (g : nat -> F) : res (cache * amat) :=
    match t with
    | TB FDense => B <- to_dense A ;; Ok (c, AB (BDense B))
    | TB FEll => B <- to_ell A M ;; Ok (c, AB (BEll B))
    | TB FCsr => B <- to_csr nz A M ;; Ok (c, AB (BCsr B))
    | TEb => '(c, B) <- eb_convert c (aml_get_N A) (aml_get_element A) M g ;; Ok (c, AEb B)
    end.

  (** ** Programs: the ellblock case of every dispatcher *)
  Definition ebgetm (st : list eb) (h : nat) : res eb :=
    match nth_error st h with Some A => Ok A | None => Err end.

  (** bml_add.c, bml_multiply.c (A and B are the same object when h = h2),
      bml_element_multiply.c (no ellblock case: LOG_ERROR), bml_transpose.c, bml_scale.c,
      bml_copy.c, bml_threshold.c, bml_setters.c, bml_getters.c, bml_trace.c, bml_norm.c *)
  Definition ebexec (c : @instr F) (e : env) (s : cache * list eb * list F) : res (cache * list eb * list F) :=
    let '(d, st, out) := s in
    let g := e_gv e in
    match c with
    | IAdd h h2 alpha beta keep =>
        A <- ebgetm st h ;; B <- ebgetm st h2 ;; A <- eb_add keep alpha beta A B g (e_rows e 0) ;; Ok (d, set_nth st h A, out)
    | IAddIdentity h beta keep =>
        A <- ebgetm st h ;; '(d, A) <- eb_add_identity d keep beta A g (e_rows e 0) ;; Ok (d, set_nth st h A, out)
    | IScaleAddIdentity h alpha beta keep =>
        A <- ebgetm st h ;; '(d, A) <- eb_scale_add_identity d keep alpha beta A g (e_rows e 0) ;; Ok (d, set_nth st h A, out)
    | IMultiplyAB h h2 h3 keep =>
        A <- ebgetm st h ;; B <- ebgetm st h2 ;; C <- ebgetm st h3 ;;
        C <- eb_multiply_AB keep A B C g (e_rows e 0) ;; Ok (d, set_nth st h3 C, out)
    | IMultiply h h2 h3 alpha beta keep =>
        A <- ebgetm st h ;; B <- ebgetm st h2 ;; C <- ebgetm st h3 ;;
        '(d, C) <- (if h =? h2 then eb_multiply_sq d keep alpha beta A C (e_nth e) g (e_rows e 0) (e_rows e 1)
                    else eb_multiply d keep alpha beta A B C g (e_rows e 0) (e_rows e 1)) ;;
        Ok (d, set_nth st h3 C, out)
    | IMultiplyX2 h h2 keep =>
        X <- ebgetm st h ;; X2 <- ebgetm st h2 ;;
        '(C, t, t2) <- eb_multiply_x2 keep X X2 (e_nth e) g (e_rows e 0) ;; Ok (d, set_nth st h2 C, out ++ [t; t2])
    | IElementMultiply _ _ _ _ => Err
    | ITransposeNew h => A <- ebgetm st h ;; '(d, B) <- eb_transpose_new d A g ;; Ok (d, st ++ [B], out)
    | ITranspose h => A <- ebgetm st h ;; A <- eb_transpose A g ;; Ok (d, set_nth st h A, out)
    | IScale h a => A <- ebgetm st h ;; A <- eb_scale_inplace a A ;; Ok (d, set_nth st h A, out)
    | ICopyNew h => A <- ebgetm st h ;; '(d, B) <- eb_copy_new d A g (e_rows e 0) ;; Ok (d, st ++ [B], out)
    | IThreshold h keep => A <- ebgetm st h ;; A <- eb_threshold keep A ;; Ok (d, set_nth st h A, out)
    | ISetDiagonal h keep diag => A <- ebgetm st h ;; A <- eb_set_diagonal keep A diag g ;; Ok (d, set_nth st h A, out)
    | IGetElement h i j => A <- ebgetm st h ;; v <- eb_get_element A i j ;; Ok (d, st, out ++ [v])
    | IGetRow h i => A <- ebgetm st h ;; r <- eb_get_row A i ;; Ok (d, st, out ++ r)
    | ITrace h => A <- ebgetm st h ;; t <- eb_trace A ;; Ok (d, st, out ++ [t])
    | ISumSquares h => A <- ebgetm st h ;; t <- eb_sum_squares A ;; Ok (d, st, out ++ [t])
    end.
  Fixpoint ebrun (prog : list (@instr F * env)) (s : cache * list eb * list F) : res (cache * list eb * list F) :=
    match prog with
    | [] => Ok s
    | (c, e) :: prog => s <- ebexec c e s ;; ebrun prog s
    end.
End EbProg.
Arguments amat : clear implicits.
