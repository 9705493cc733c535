(** Model of bml_read_bml_matrix / bml_write_bml_matrix (Matrix Market files):
    src/C-interface/{ellpack,csr,dense,ellblock}/bml_utilities_<format>_typed.c.

    A file is a record, not text: the fifth word of the header is "symmetric"
    or not, the matrix size, the announced number of entries, the entries.
    fprintf/fscanf of integers is exact; a value is written with 15 (ellblock:
    16) significant digits, [fmt v] is the value read back.  The size in the
    file is read but not used by any reader.  Not modelled: opening and closing
    the file, header words longer than the 20-character buffers, the test for
    rank 0 (the model is the run on rank 0).  fscanf failing (fewer entries
    than announced) ends in LOG_ERROR, which aborts: Err. *)
From Verif Require Import Base Spec EllpackModel DenseModel CsrModel EllblockModel.

Section Mm.
  Context {F : scalar}.
  Local Open Scope K_scope.
  Local Notation ell := (ell F).
  Local Notation dense := (dense F).
  Local Notation csr := (csr F).
  Local Notation eb := (eb F).

  Record mmfile : Type := mkMm { mm_sym : bool; mm_n : nat; mm_nnz : nat; mm_ents : list (nat * nat * F) }.

  (** for (i = 0; i < nnz; i++) { fscanf(..., &irow, &icol, &value); body } *)
  Definition mm_for {S} (f : mmfile) (body : nat -> nat -> F -> S -> res S) (s : S) : res S :=
    for_n (mm_nnz f) (fun i s => match nth_error (mm_ents f) i with None => Err | Some (irow, icol, v) => body irow icol v s end) s.
  (** irow--: a negative index is out of bounds *)
  Definition dec (x : nat) : res nat := match x with O => UB | S y => Ok y end.

  (** ** ellpack: read 22-119, write 128-199 *)
  Definition ell_read (A : ell) (f : mmfile) : res ell :=
    mm_for f (fun irow icol v A =>
      irow <- dec irow ;; icol <- dec icol ;;
      A <- e_push A irow icol v ;;
      if mm_sym f && negb (icol =? irow)%nat then e_push A icol irow v else Ok A) A.
  Definition ell_write (fmt : F -> F) (A : ell) : res mmfile :=
    msum <- for_n (eN A) (fun i m => n <- e_nnz A i ;; Ok (m + n)%nat) 0%nat ;;
    out <- for_n (eN A) (fun i out => e_for_row A i (fun j v out => Ok (out ++ [((i + 1)%nat, (j + 1)%nat, fmt v)])) out) [] ;;
    Ok (mkMm false (eN A) msum out).

  (** ** csr: read 23-101, write 110-182 *)
  Definition csr_read (A : csr) (f : mmfile) : res csr :=
    mm_for f (fun irow icol v A =>
      irow <- dec irow ;; icol <- dec icol ;;
      A <- csr_set_element_new A irow icol v ;;
      if mm_sym f && negb (icol =? irow)%nat then csr_set_element_new A icol irow v else Ok A) A.
  Definition csr_write (fmt : F -> F) (A : csr) : res mmfile :=
    msum <- for_n (cN A) (fun i m => r <- c_row A i ;; Ok (m + rnnz r)%nat) 0%nat ;;
    out <- for_n (cN A) (fun i out => r <- c_row A i ;; r_for r (fun j v out => Ok (out ++ [((i + 1)%nat, (j + 1)%nat, fmt v)])) out) [] ;;
    Ok (mkMm false (cN A) msum out).

  (** ** dense: read 27-113 (the header word is not inspected), write 124-203;
      ABS(value) > 0. *)
  Definition dense_read (A : dense) (f : mmfile) : res dense :=
    mm_for f (fun irow icol v A => irow <- dec irow ;; icol <- dec icol ;; d_put A irow icol v) A.
  Definition dense_write (fmt : F -> F) (A : dense) : res mmfile :=
    let nz (v : F) := negb (keqb v 0) in
    msum <- for_n (dN A) (fun i m => for_n (dN A) (fun j m => v <- d_at A i j ;; Ok (if nz v then S m else m)) m) 0%nat ;;
    out <- for_n (dN A) (fun i out => for_n (dN A) (fun j out =>
        v <- d_at A i j ;; Ok (if nz v then out ++ [((i + 1)%nat, (j + 1)%nat, fmt v)] else out)) out) [] ;;
    Ok (mkMm false (dN A) msum out).

  (** ** ellblock: read 24-163, write 172-250.  In the symmetric part (133-159)
      irow and icol are the positions inside the blocks; the new block's column
      goes to A_indexb[A_nnzb[jb]] (not of row jb) and the block is not
      allocated, so the pointer found there is used. *)
  Definition eb_read (A : eb) (f : mmfile) (g : nat -> F) : res eb :=
    mm_for f (fun irow icol v A =>
      irow <- dec irow ;; icol <- dec icol ;;
      '(ib, ii) <- locate (bbs A) 0 irow ;; '(jb, jj) <- locate (bbs A) 0 icol ;;
      '(A, found) <- put_found A ib ii jb jj v ;;
      A <- (if (found : bool) then Ok A else
            n <- b_nnz A ib ;;
            if (bMB A <=? n)%nat then Err else put_new A ib ii jb jj v g) ;;
      if mm_sym f && negb (jj =? ii)%nat then
        '(A, found) <- put_found A jb jj ib ii v ;;
        if (found : bool) then Ok A else
        n <- b_nnz A jb ;;
        A <- b_widx A n ib ;;
        A <- b_wnnz A jb (S n) ;;
        x <- b_blk A (b_at A jb n) ;; bi <- b_bs A ib ;; bj <- b_bs A jb ;;
        x <- wr x (ROWMAJOR jj ii bj bi) v ;; b_wblk A (b_at A jb n) x
      else Ok A) A.
  Definition eb_write (fmt : F -> F) (A : eb) : res mmfile :=
    msum <- for_n (bNB A) (fun ib m => b_for_row A ib (fun _ jb m => bi <- b_bs A ib ;; bj <- b_bs A jb ;; Ok (m + bi * bj)%nat) m) 0%nat ;;
    off <- offsets (bNB A) (bbs A) ;;
    out <- for_n (bNB A) (fun ib out =>
      b_for_row A ib (fun k jb out =>
        x <- b_blk A k ;; bi <- b_bs A ib ;; bj <- b_bs A jb ;;
        for_2 bi bj (fun ii jj out =>
          oi <- rd off ib ;; oj <- rd off jb ;; v <- rd x (ROWMAJOR ii jj bi bj) ;;
          Ok (out ++ [((oi + 1 + ii)%nat, (oj + 1 + jj)%nat, fmt v)])) out) out) [] ;;
    Ok (mkMm false (bN A) msum out).
End Mm.
Arguments mmfile F : clear implicits.
