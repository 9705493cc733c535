(** The format-independent interface (src/C-interface/bml_*.c): a matrix is one
    of the formats and every function dispatches on the format of its first
    argument.  The other matrix arguments are cast to that format without a
    check, which is undefined behaviour when their format is another one.
    Modelled formats: dense, ellpack, csr. *)
From Verif Require Import Base Spec EllpackModel EllpackSpec CsrModel CsrSpec GemmModel DenseModel.

Inductive bmat (F : scalar) : Type :=
| BDense (A : dense F)
| BEll (A : ell F)
| BCsr (A : csr F).
Arguments BDense {F} A.
Arguments BEll {F} A.
Arguments BCsr {F} A.

(** bml_matrix_type_t (bml_types.h) *)
Inductive fmt := FDense | FEll | FCsr.

(** What the execution of one call depends on besides its arguments: number of
    threads, the schedule of the k-th parallel loop over rows and over cells,
    over the rows but the last one, the order in which the stored elements are
    inserted under locks (a rearrangement of the list of all of them),
    and the contents of uninitialised memory. *)
Record env (F : scalar) := mkEnv {
  e_nth : nat;
  e_rows : nat -> list (nat * nat);
  e_cells : nat -> list (nat * nat);
  e_tri : list (nat * nat);
  e_slots : list (nat * nat) -> list (nat * nat);
  e_gv : nat -> F;
  e_gi : nat -> nat }.
Arguments mkEnv {F}.
Arguments e_nth {F}. Arguments e_rows {F}. Arguments e_cells {F}. Arguments e_tri {F}.
Arguments e_slots {F}. Arguments e_gv {F}. Arguments e_gi {F}.

Section Format.
  Context {F : scalar}.
  Local Open Scope K_scope.
  Local Notation bmat := (bmat F).
  Local Notation env := (env F).

  (** bml_get_N (bml_introspection.c) *)
  Definition bml_get_N (A : bmat) : nat :=
    match A with BDense A => dN A | BEll A => eN A | BCsr A => cN A end.
  (** bml_get_M *)
  Definition bml_get_M (A : bmat) : nat :=
    match A with BDense A => dN A | BEll A => eM A | BCsr A => cM A end.
  (** bml_get_type *)
  Definition bml_get_type (A : bmat) : fmt :=
    match A with BDense _ => FDense | BEll _ => FEll | BCsr _ => FCsr end.

  (** bml_getters.c 20-48: bml_get_element; 55-90: bml_get_row *)
  Definition bml_get_element (A : bmat) (i j : nat) : res F :=
    match A with
    | BDense A => dense_get_element A i j
    | BEll A => ell_get_element A i j
    | BCsr A => csr_get_element A i j
    end.
  Definition bml_get_row (A : bmat) (i : nat) : res (list F) :=
    match A with
    | BDense A => dense_get_row A i
    | BEll A => ell_get_row A i
    | BCsr A => csr_get_row A i
    end.
  (** bml_getters.c 92-130 *)
  Definition bml_get_diagonal (A : bmat) : res (list F) :=
    match A with
    | BDense A => dense_get_diagonal A
    | BEll A => ell_get_diagonal A
    | BCsr A => csr_get_diagonal A
    end.

  (** ** Conversion *)

  (** bml_convert_dense (dense/bml_convert_dense_typed.c 15-55) *)
  Definition convert_dense (A : bmat) : res (dense F) :=
    let N := bml_get_N A in
    for_n N (fun i B => for_n N (fun j B => v <- bml_get_element A i j ;; d_put B i j v) B) (dense_zero N).
  (** bml_convert_ellpack (ellpack/bml_convert_ellpack_typed.c 12-38): every
      element, zero or not, is stored with bml_set_element *)
  Definition convert_ell (A : bmat) (M : nat) : res (ell F) :=
    let N := bml_get_N A in
    B <- ell_zero N M ;;
    for_n N (fun i B => for_n N (fun j B => v <- bml_get_element A i j ;; ell_set_element B i j v) B) B.
  (** bml_convert_csr (csr/bml_convert_csr_typed.c 20-45); [nz] is |x| > 0.0 *)
  Definition convert_csr (nz : F -> bool) (A : bmat) (M : nat) : res (csr F) :=
    let N := bml_get_N A in
    for_n N (fun i B => row <- bml_get_row A i ;; csr_set_row nz B i row) (csr_zero N M).
  (** bml_convert (bml_convert.c 20-54) *)
  Definition bml_convert (nz : F -> bool) (A : bmat) (t : fmt) (M : nat) : res bmat :=
    match t with
    | FDense => B <- convert_dense A ;; Ok (BDense B)
    | FEll => B <- convert_ell A M ;; Ok (BEll B)
    | FCsr => B <- convert_csr nz A M ;; Ok (BCsr B)
    end.

  (** ** Dispatchers *)

  (** bml_add.c 27-57 *)
  Definition bml_add (keep : F -> bool) (alpha beta : F) (A B : bmat) (e : env) : res bmat :=
    match A, B with
    | BDense A, BDense B => A <- dense_add alpha beta A B ;; Ok (BDense A)
    | BEll A, BEll B => A <- ell_add keep alpha beta A B (e_rows e 0) ;; Ok (BEll A)
    | BCsr A, BCsr B => A <- csr_add keep alpha beta A B (e_rows e 0) (e_rows e 1) ;; Ok (BCsr A)
    | _, _ => UB
    end.
  (** bml_add.c 118-146 *)
  Definition bml_add_identity (keep : F -> bool) (beta : F) (A : bmat) (e : env) : res bmat :=
    match A with
    | BDense A => A <- dense_add_identity beta A (e_rows e 0) ;; Ok (BDense A)
    | BEll A => A <- ell_add_identity keep beta A (e_rows e 0) ;; Ok (BEll A)
    | BCsr A => A <- csr_add_identity keep beta A (e_rows e 0) (e_rows e 1) ;; Ok (BCsr A)
    end.
  (** bml_add.c 160-189 *)
  Definition bml_scale_add_identity (keep : F -> bool) (alpha beta : F) (A : bmat) (e : env) : res bmat :=
    match A with
    | BDense A => A <- dense_scale_add_identity alpha beta A (e_rows e 0) ;; Ok (BDense A)
    | BEll A => A <- ell_scale_add_identity keep alpha beta A (e_rows e 0) ;; Ok (BEll A)
    | BCsr A => A <- csr_scale_add_identity keep alpha beta A (e_rows e 0) (e_rows e 1) (e_rows e 2) ;; Ok (BCsr A)
    end.
  (** bml_multiply.c 115-144 *)
  Definition bml_multiply_AB (keep : F -> bool) (A B C : bmat) (e : env) : res bmat :=
    match A, B, C with
    | BDense A, BDense B, BDense C => C <- dense_multiply_AB A B C ;; Ok (BDense C)
    | BEll A, BEll B, BEll C => C <- ell_multiply_AB keep A B C (e_rows e 0) ;; Ok (BEll C)
    | BCsr A, BCsr B, BCsr C => C <- csr_multiply_AB keep A B C (e_rows e 0) ;; Ok (BCsr C)
    | _, _, _ => UB
    end.
  (** bml_multiply.c 28-59, A, B and C three different objects *)
  Definition bml_multiply (keep : F -> bool) (alpha beta : F) (A B C : bmat) (e : env) : res bmat :=
    match A, B, C with
    | BDense A, BDense B, BDense C => C <- dense_multiply alpha beta A B C ;; Ok (BDense C)
    | BEll A, BEll B, BEll C =>
        C <- ell_multiply keep alpha beta A B C (e_rows e 0) (e_rows e 1) (e_gv e) (e_gi e) ;; Ok (BEll C)
    | BCsr A, BCsr B, BCsr C =>
        C <- csr_multiply keep alpha beta A B C (e_rows e 0) (e_rows e 1) (e_rows e 2) ;; Ok (BCsr C)
    | _, _, _ => UB
    end.
  (** bml_multiply.c 72-101: result, trace of X, trace of X^2 *)
  Definition bml_multiply_x2 (keep : F -> bool) (X X2 : bmat) (e : env) : res (bmat * F * F) :=
    match X, X2 with
    | BDense X, BDense X2 =>
        '(C, t, t2) <- dense_multiply_x2 X X2 (e_nth e) (e_rows e 0) (e_rows e 1) ;; Ok (BDense C, t, t2)
    | BEll X, BEll X2 => '(C, t, t2) <- ell_multiply_x2 keep X X2 (e_nth e) (e_rows e 0) ;; Ok (BEll C, t, t2)
    | BCsr X, BCsr X2 => '(C, t, t2) <- csr_multiply_x2 keep X X2 (e_nth e) (e_rows e 0) ;; Ok (BCsr C, t, t2)
    | _, _ => UB
    end.
  (** bml_element_multiply.c 25-50 *)
  Definition bml_element_multiply_AB (keep : F -> bool) (A B C : bmat) (e : env) : res bmat :=
    match A, B, C with
    | BDense A, BDense B, BDense C => C <- dense_element_multiply_AB A B C (e_cells e 0) ;; Ok (BDense C)
    | BEll A, BEll B, BEll C => C <- ell_element_multiply keep A B C (e_rows e 0) ;; Ok (BEll C)
    | BCsr A, BCsr B, BCsr C => C <- csr_element_multiply keep A B C (e_rows e 0) ;; Ok (BCsr C)
    | _, _, _ => UB
    end.
  (** bml_transpose.c 22-49 and 59-86 *)
  Definition bml_transpose_new (A : bmat) (e : env) : res bmat :=
    match A with
    | BDense A => B <- dense_transpose_new A (e_gv e) (e_rows e 0) ;; Ok (BDense B)
    | BEll A => B <- ell_transpose_new A (e_slots e (all_slots A)) (e_gv e) (e_gi e) ;; Ok (BEll B)
    | BCsr A => B <- csr_transpose_new A (e_slots e (c_slots A)) ;; Ok (BCsr B)
    end.
  Definition bml_transpose (A : bmat) (e : env) : res bmat :=
    match A with
    | BDense A => A <- dense_transpose A (e_tri e) ;; Ok (BDense A)
    | BEll A => A <- ell_transpose A ;; Ok (BEll A)
    | BCsr A => A <- csr_transpose A ;; Ok (BCsr A)
    end.
  (** bml_scale.c 102-131 *)
  Definition bml_scale_inplace (a : F) (A : bmat) (e : env) : res bmat :=
    match A with
    | BDense A => A <- dense_scale_inplace a A ;; Ok (BDense A)
    | BEll A => A <- ell_scale_inplace a A ;; Ok (BEll A)
    | BCsr A => A <- csr_scale_inplace a A (e_rows e 0) ;; Ok (BCsr A)
    end.
  (** bml_copy.c: bml_copy_new *)
  Definition bml_copy_new (A : bmat) (e : env) : res bmat :=
    match A with
    | BDense A => B <- dense_copy_new A (e_gv e) ;; Ok (BDense B)
    | BEll A => B <- ell_copy_new A (e_gv e) (e_gi e) ;; Ok (BEll B)
    | BCsr A => B <- csr_copy_new A (e_rows e 0) ;; Ok (BCsr B)
    end.
  (** bml_threshold.c: bml_threshold *)
  Definition bml_threshold (keep : F -> bool) (A : bmat) (e : env) : res bmat :=
    match A with
    | BDense A => A <- dense_threshold keep A (e_cells e 0) ;; Ok (BDense A)
    | BEll A => A <- ell_threshold keep A (e_rows e 0) ;; Ok (BEll A)
    | BCsr A => A <- csr_threshold keep A (e_rows e 0) ;; Ok (BCsr A)
    end.
  (** bml_setters.c: bml_set_diagonal *)
  Definition bml_set_diagonal (keep : F -> bool) (A : bmat) (diag : list F) : res bmat :=
    match A with
    | BDense A => A <- dense_set_diagonal A diag ;; Ok (BDense A)
    | BEll A => A <- ell_set_diagonal keep A diag ;; Ok (BEll A)
    | BCsr A => A <- csr_set_diagonal keep A diag ;; Ok (BCsr A)
    end.
  (** bml_trace.c 21-49, 60-88 *)
  Definition bml_trace (A : bmat) (e : env) : res F :=
    match A with
    | BDense A => dense_trace A (e_nth e) (e_rows e 0)
    | BEll A => ell_trace A (e_nth e) (e_rows e 0)
    | BCsr A => csr_trace A (e_nth e) (e_rows e 0)
    end.
  Definition bml_trace_mult (A B : bmat) (e : env) : res F :=
    match A, B with
    | BDense A, BDense B => dense_trace_mult A B (e_nth e) (e_cells e 0)
    | BEll A, BEll B => ell_trace_mult A B (e_nth e) (e_rows e 0)
    | BCsr A, BCsr B => csr_trace_mult A B (e_nth e) (e_rows e 0)
    | _, _ => UB
    end.
  (** bml_norm.c: bml_sum_squares, bml_sum_AB, bml_sum_squares2 *)
  Definition bml_sum_squares (A : bmat) (e : env) : res F :=
    match A with
    | BDense A => dense_sum_squares A (e_nth e) (e_cells e 0)
    | BEll A => ell_sum_squares A (e_nth e) (e_rows e 0)
    | BCsr A => csr_sum_squares A (e_nth e) (e_rows e 0)
    end.
  Definition bml_sum_AB (keep : F -> bool) (alpha : F) (A B : bmat) (e : env) : res F :=
    match A, B with
    | BDense A, BDense B => dense_sum_AB keep A B alpha (e_nth e) (e_cells e 0)
    | BEll A, BEll B => ell_sum_AB keep alpha A B (e_nth e) (e_rows e 0)
    | BCsr A, BCsr B => csr_sum_AB keep alpha A B
    | _, _ => UB
    end.
  Definition bml_sum_squares2 (keep : F -> bool) (alpha beta : F) (A B : bmat) (e : env) : res F :=
    match A, B with
    | BDense A, BDense B => dense_sum_squares2 keep A B alpha beta (e_nth e) (e_cells e 0)
    | BEll A, BEll B => ell_sum_squares2 keep alpha beta A B (e_nth e) (e_rows e 0)
    | BCsr A, BCsr B => csr_sum_squares2 keep alpha beta A B
    | _, _ => UB
    end.
  (** bml_add.c 73-105, bml_add_norm for the formats modelled here; csr's
      version is an error, "Not implemented" (bml_add_csr_typed.c 105-115) *)
  Definition bml_add_norm (keep : F -> bool) (alpha beta : F) (A B : bmat) (e : env) : res (bmat * F) :=
    match A, B with
    | BDense A, BDense B => '(A, t) <- dense_add_norm alpha beta A B (e_nth e) (e_cells e 0) ;; Ok (BDense A, t)
    | BEll A, BEll B => '(A, t) <- ell_add_norm keep alpha beta A B (e_nth e) (e_rows e 0) ;; Ok (BEll A, t)
    | BCsr _, BCsr _ => Err
    | _, _ => UB
    end.
End Format.
