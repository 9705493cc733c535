(** Diagonalisation and inverse (src/C-interface/*/bml_diagonalize_*.c,
    bml_inverse_*.c) of the dense, ellpack, csr and ellblock formats, without
    vendor libraries for GPUs.  The LAPACK routines are parameters of the model:
    - [eigs n a] is the call SYEV/SYEVD("V", "U", n, a, n, w, ...) (real) or
      HEEVR("V", "A", "U", n, a, n, ...) (complex) on the n*n numbers a: the
      eigenvalues and the array of the eigenvectors;
    - [invs n a] is the call of GETRF followed by GETRI: the changed array.
    The info arguments are not looked at by the code. *)
From Verif Require Import Base Spec EllpackModel CsrModel GemmModel DenseModel EllblockModel.

Section Lapack.
  Context {F : scalar}.
  Local Open Scope K_scope.
  Local Notation dense := (dense F).
  Local Notation ell := (ell F).
  Local Notation csr := (csr F).
  Local Notation eb := (eb F).
  Variable eigs : nat -> list F -> res (list F * list F).
  Variable invs : nat -> list F -> res (list F).

  (** bml_diagonalize_dense.c: 232-281 (single real), 603-649 (double real), 707-771,
      817-881 (complex).  [ev] is the array eigenvalues of the caller, [E] the matrix
      eigenvectors; indices are formed with A->N. *)
  Definition dense_diagonalize (A : dense) (ev : list F) (E : dense) : res (list F * dense) :=
    let N := dN A in
    evecs <- copy_cells (repeat 0 (N * N)) 0 (dmx A) 0 (N * N) ;;
    '(w, v) <- eigs N evecs ;;
    '(ev, m) <- for_n N (fun i '(ev, m) =>
      x <- rd w i ;; ev <- wr ev i x ;;
      m <- for_n N (fun j m => x <- rd v (COLMAJOR i j N N) ;; wr m (ROWMAJOR i j N N) x) m ;;
      Ok (ev, m)) (ev, dmx E) ;;
    Ok (ev, mkDense (dN E) m).

  (** the dense part of bml_diagonalize_{ellpack,csr,ellblock}: import of the exported
      array (the threshold is ignored by the dense import), diagonalisation, export *)
  Definition diagonalize_array (N : nat) (D : list F) (ev : list F) : res (list F * list F) :=
    D <- dense_import row_major N D ;;
    '(ev, V) <- dense_diagonalize D ev (dense_zero N) ;;
    D <- dense_export V row_major ;; Ok (ev, D).
  (** bml_diagonalize_ellpack_typed.c 36-90; [keep x] is |x| > 0.0 *)
  Definition ell_diagonalize (keep : F -> bool) (A : ell) (ev : list F) (E : ell) (s1 s2 : list (nat * nat)) : res (list F * ell) :=
    D <- ell_export row_major A s1 ;;
    '(ev, D) <- diagonalize_array (eN A) D ev ;;
    X <- ell_import row_major (eN A) (eM A) keep D s2 ;;
    E <- ell_copy X E ;; Ok (ev, E).
  (** bml_diagonalize_csr_typed.c 36-93 *)
  Definition csr_diagonalize (keep : F -> bool) (A : csr) (ev : list F) (E : csr) (s1 s2 s3 : list (nat * nat)) : res (list F * csr) :=
    D <- csr_export row_major A s1 ;;
    '(ev, D) <- diagonalize_array (cN A) D ev ;;
    X <- csr_import row_major (cN A) (cM A) keep D s2 ;;
    E <- csr_copy X E s3 ;; Ok (ev, E).
  (** bml_diagonalize_ellblock_typed.c 36-91 *)
  Definition eb_diagonalize (c : cache) (keep : F -> bool) (A : eb) (ev : list F) (E : eb) (g : nat -> F) (sched : list (nat * nat)) : res (cache * list F * eb) :=
    D <- eb_export A row_major ;;
    '(ev, D) <- diagonalize_array (bN A) D ev ;;
    '(c, X) <- eb_import c row_major (bN A) D keep (bM A) g ;;
    E <- eb_copy X E g sched ;; Ok (c, ev, E).

  (** bml_inverse_dense_typed.c 59-136; A->ld is A->N *)
  Definition dense_inverse_inplace (A : dense) : res dense := m <- invs (dN A) (dmx A) ;; Ok (mkDense (dN A) m).
  (** 39-48 *)
  Definition dense_inverse (A : dense) (gv : nat -> F) : res dense := B <- dense_copy_new A gv ;; dense_inverse_inplace B.
  Definition inverse_array (N : nat) (D : list F) : res (list F) :=
    D <- dense_import row_major N D ;; D <- dense_inverse_inplace D ;; dense_export D row_major.
  (** bml_inverse_ellpack_typed.c 35-70 *)
  Definition ell_inverse (keep : F -> bool) (A : ell) (s1 s2 : list (nat * nat)) : res ell :=
    D <- ell_export row_major A s1 ;; D <- inverse_array (eN A) D ;; ell_import row_major (eN A) (eM A) keep D s2.
  (** bml_inverse_csr_typed.c 35-72 *)
  Definition csr_inverse (keep : F -> bool) (A : csr) (s1 s2 : list (nat * nat)) : res csr :=
    D <- csr_export row_major A s1 ;; D <- inverse_array (cN A) D ;; csr_import row_major (cN A) (cM A) keep D s2.
  (** bml_inverse_ellblock_typed.c 35-70 *)
  Definition eb_inverse (c : cache) (keep : F -> bool) (A : eb) (g : nat -> F) : res (cache * eb) :=
    D <- eb_export A row_major ;; D <- inverse_array (bN A) D ;; eb_import c row_major (bN A) D keep (bM A) g.
End Lapack.
