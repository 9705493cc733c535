(** Model of the allocations made by the library: which calls of malloc, calloc,
    realloc and free each function makes, in which order, and what it does with
    the pointers.  All files cited below are in /repo/src/C-interface.

    Simplifications common to the whole file:
    - the contents of the objects are not modelled (they are in the other model
      files); what a function allocates depends on them only through the test
      A == B && alpha == 1 && beta == 0 of bml_multiply and through the rows of
      csr matrices that have to grow: the tests are parameters, and the rows
      that grow, and whether realloc moves them, are an arbitrary list;
    - the heap is the set of live objects.  The allocator is any function of the
      number of allocations made and of the live objects ([fresh]): it may hand
      out a freed address again.  It does not fail (the code stops the program,
      bml_allocate.c 70-74);
    - free of an object that is not live is undefined behaviour, free of NULL
      does nothing;
    - loops over rows executed by several threads are executed in order;
    - host memory only, no MAGMA, no offload; arrays with automatic storage
      (int ix[N]) are not in the heap. *)
From Verif Require Import Base.

Record heap := mkHeap { htime : nat; hlive : list nat }.

(** a computation that allocates and frees *)
Definition mem (X : Type) : Type := heap -> res (X * heap).
Definition mret {X} (x : X) : mem X := fun h => Ok (x, h).
Definition mbind {X Y} (m : mem X) (k : X -> mem Y) : mem Y := fun h => '(x, h) <- m h ;; k x h.
Notation "x <-- m ;; k" := (mbind m (fun x => k)) (at level 60, m at next level, right associativity).
Notation "'run' m ;; k" := (mbind m (fun _ => k)) (at level 60, m at next level, right associativity).

Definition mub {X} : mem X := fun _ => UB.

(** for (i = 0; i < n; i++) x[i] = f() *)
Fixpoint mmany {X} (n : nat) (f : mem X) : mem (list X) :=
  match n with
  | 0 => mret []
  | S n => x <-- f ;; l <-- mmany n f ;; mret (x :: l)
  end.
(** the same body for each element of a list *)
Fixpoint meach {X} (f : X -> mem unit) (l : list X) : mem unit :=
  match l with
  | [] => mret tt
  | x :: l => run f x ;; meach f l
  end.
Fixpoint mmap {X Y} (f : X -> mem Y) (l : list X) : mem (list Y) :=
  match l with
  | [] => mret []
  | x :: l => y <-- f x ;; r <-- mmap f l ;; mret (y :: r)
  end.

(** bml_types.h 75-120: a domain is a struct with five arrays *)
Record mdomain := mkMD { md_self : nat; md_rmin : nat; md_rmax : nat; md_ext : nat; md_displ : nat; md_elem : nat }.
(** dense/bml_types_dense.h *)
Record mdense := mkMDe { de_self : nat; de_mat : nat; de_dom : mdomain; de_dom2 : mdomain }.
(** ellpack/bml_types_ellpack.h *)
Record mellpack := mkMEl { el_self : nat; el_index : nat; el_nnz : nat; el_value : nat; el_dom : mdomain; el_dom2 : mdomain }.
(** csr/bml_types_csr.h 47-59: a row; 61-90: a matrix (no domains are allocated) *)
Record mrow := mkMRow { ro_self : nat; ro_cols : nat; ro_vals : nat }.
Record mcsr := mkMCsr { cs_self : nat; cs_data : nat; cs_rows : list mrow }.
(** bml_types_csr.h 30-45: a hash table *)
Record mtable := mkMT { ta_self : nat; ta_slots : nat; ta_storage : nat }.
(** a matrix behind the pointer bml_matrix_t *; block ellpack is in EllblockMem *)
Inductive mmat := MDense (A : mdense) | MEll (A : mellpack) | MCsr (A : mcsr).
(** distributed2d/bml_types_distributed2d.h: the part of one process *)
Record mdist := mkMDist { di_self : nat; di_mat : mmat }.
(** the three kinds of format *)
Inductive mkind := KDense | KEll | KCsr.
(** which row grows, and whether realloc moves cols_ and vals_ *)
Definition growth := list (nat * (bool * bool)).

Section Alloc.
  Variable fresh : nat -> list nat -> nat.

  (** bml_allocate.c 43-76, 83-100; malloc, calloc *)
  Definition malloc : mem nat := fun h =>
    let p := fresh (htime h) (hlive h) in Ok (p, mkHeap (S (htime h)) (p :: hlive h)).
  (** bml_free_memory, bml_allocate.c 132-142; free *)
  Definition mfree (p : nat) : mem unit := fun h =>
    if existsb (Nat.eqb p) (hlive h) then Ok (tt, mkHeap (htime h) (remove Nat.eq_dec p (hlive h))) else UB.
  Definition mfree_opt (p : option nat) : mem unit := match p with Some p => mfree p | None => mret tt end.
  (** bml_reallocate_memory, bml_allocate.c 109-123; realloc: in place, or a new
      object and the old one freed *)
  Definition mrealloc (moves : bool) (p : nat) : mem nat :=
    if moves then (q <-- malloc ;; run mfree p ;; mret q)
    else fun h => if existsb (Nat.eqb p) (hlive h) then Ok (p, h) else UB.

  (** ** Domains: bml_allocate.c *)

  (** bml_default_domain 600-660 *)
  Definition m_default_domain : mem mdomain :=
    s <-- malloc ;; a <-- malloc ;; b <-- malloc ;; c <-- malloc ;; d <-- malloc ;; e <-- malloc ;; mret (mkMD s a b c d e).
  (** bml_deallocate_domain 208-218 *)
  Definition m_deallocate_domain (D : mdomain) : mem unit :=
    run mfree (md_rmin D) ;; run mfree (md_rmax D) ;; run mfree (md_ext D) ;; run mfree (md_displ D) ;;
    run mfree (md_elem D) ;; mfree (md_self D).

  (** ** Dense *)

  (** bml_noinit_matrix_dense, dense/bml_allocate_dense_typed.c 91-133;
      bml_zero_matrix_dense 146-190 allocates the same *)
  Definition m_noinit_dense : mem mdense :=
    s <-- malloc ;; m <-- malloc ;; d <-- m_default_domain ;; d2 <-- m_default_domain ;; mret (mkMDe s m d d2).
  Definition m_zero_dense : mem mdense := m_noinit_dense.
  (** bml_deallocate_dense 34-52 *)
  Definition m_deallocate_dense (A : mdense) : mem unit :=
    run m_deallocate_domain (de_dom A) ;; run m_deallocate_domain (de_dom2 A) ;; run mfree (de_mat A) ;; mfree (de_self A).
  (** bml_copy_dense_new, dense/bml_copy_dense_typed.c 32-78; bml_transpose_new_dense,
      dense/bml_transpose_dense_typed.c 32-70 *)
  Definition m_copy_new_dense : mem mdense := m_noinit_dense.
  (** bml_scale_dense_new, dense/bml_scale_dense_typed.c 39-55 *)
  Definition m_scale_new_dense : mem mdense := m_copy_new_dense.
  (** bml_import_from_dense_dense, dense/bml_import_dense_typed.c 28-75;
      bml_threshold_new_dense, dense/bml_threshold_dense_typed.c 34-75;
      bml_extract_submatrix_dense, dense/bml_submatrix_dense_typed.c 23-50;
      bml_convert_dense, dense/bml_convert_dense_typed.c 15-57 *)
  Definition m_import_dense : mem mdense := m_zero_dense.
  (** bml_export_to_dense_dense, dense/bml_export_dense_typed.c 36; bml_get_row_dense
      and bml_get_diagonal_dense, dense/bml_getters_dense_typed.c 66, 92;
      bml_accumulate_offdiag_dense, dense/bml_normalize_dense_typed.c 56;
      bml_gershgorin_dense 113; bml_multiply_x2_dense, dense/bml_multiply_dense_typed.c 121:
      one array, returned to the caller *)
  Definition m_array : mem nat := malloc.
  (** bml_reorder_dense, dense/bml_copy_dense_typed.c 110-155 *)
  Definition m_reorder_dense : mem unit := B <-- m_copy_new_dense ;; m_deallocate_dense B.
  (** bml_diagonalize_dense_double_real, dense/bml_diagonalize_dense.c 614-649 (and
      single_real 243-281) *)
  Definition m_diagonalize_real : mem unit :=
    evecs <-- malloc ;; evals <-- malloc ;; work <-- malloc ;;
    run mfree evecs ;; run mfree evals ;; mfree work.
  (** bml_diagonalize_dense_double_complex 826-884 (and single_complex 716-774) *)
  Definition m_diagonalize_complex : mem unit :=
    isuppz <-- malloc ;; iwork <-- malloc ;; evals <-- malloc ;; rwork <-- malloc ;; acopy <-- malloc ;;
    evecs <-- malloc ;; work <-- malloc ;;
    run mfree acopy ;; run mfree evecs ;; run mfree isuppz ;; run mfree work ;; run mfree rwork ;; run mfree iwork ;; mfree evals.
  Definition m_diagonalize_dense (cplx : bool) : mem unit := if cplx then m_diagonalize_complex else m_diagonalize_real.
  (** bml_inverse_inplace_dense, dense/bml_inverse_dense_typed.c 59-134 *)
  Definition m_inverse_inplace_dense : mem unit :=
    ipiv <-- malloc ;; work <-- malloc ;; run mfree work ;; mfree ipiv.
  (** bml_inverse_dense 40-48 *)
  Definition m_inverse_dense : mem mdense := B <-- m_copy_new_dense ;; run m_inverse_inplace_dense ;; mret B.

  (** ** Ellpack *)

  (** bml_noinit_matrix_ellpack, ellpack/bml_allocate_ellpack_typed.c 146-186;
      bml_zero_matrix_ellpack 205-265 allocates the same *)
  Definition m_noinit_ellpack : mem mellpack :=
    s <-- malloc ;; i <-- malloc ;; n <-- malloc ;; v <-- malloc ;; d <-- m_default_domain ;; d2 <-- m_default_domain ;;
    mret (mkMEl s i n v d d2).
  Definition m_zero_ellpack : mem mellpack := m_noinit_ellpack.
  (** bml_deallocate_ellpack 32-67 *)
  Definition m_deallocate_ellpack (A : mellpack) : mem unit :=
    run m_deallocate_domain (el_dom A) ;; run m_deallocate_domain (el_dom2 A) ;;
    run mfree (el_value A) ;; run mfree (el_index A) ;; run mfree (el_nnz A) ;; mfree (el_self A).
  (** bml_copy_ellpack_new, ellpack/bml_copy_ellpack_typed.c 22-70; bml_scale_ellpack_new,
      ellpack/bml_scale_ellpack_typed.c 28-60; bml_group_matrix_ellpack,
      ellpack/bml_submatrix_ellpack_typed.c 417-560 *)
  Definition m_copy_new_ellpack : mem mellpack := m_noinit_ellpack.
  (** bml_import_from_dense_ellpack, ellpack/bml_import_ellpack_typed.c 28-80;
      bml_banded_matrix_ellpack, bml_identity_matrix_ellpack, ellpack/
      bml_allocate_ellpack_typed.c 283-315, 414-440; bml_threshold_new_ellpack,
      ellpack/bml_threshold_ellpack_typed.c 28-75; bml_extract_submatrix_ellpack,
      ellpack/bml_submatrix_ellpack_typed.c 564-600; bml_convert_ellpack,
      ellpack/bml_convert_ellpack_typed.c 12-38 *)
  Definition m_import_ellpack : mem mellpack := m_zero_ellpack.
  (** bml_random_matrix_ellpack, ellpack/bml_allocate_ellpack_typed.c 340-395 *)
  Definition m_random_ellpack : mem mellpack :=
    A <-- m_zero_ellpack ;; a <-- malloc ;; b <-- malloc ;; run mfree a ;; run mfree b ;; mret A.
  (** bml_reorder_ellpack, ellpack/bml_copy_ellpack_typed.c 140-191 *)
  Definition m_reorder_ellpack : mem unit := B <-- m_copy_new_ellpack ;; m_deallocate_ellpack B.
  (** bml_multiply_ellpack, ellpack/bml_multiply_ellpack_typed.c 52-118: [same] is
      A == B, [plain] is alpha == 1 && beta == 0; bml_multiply_x2_ellpack 154
      returns the array of the two traces *)
  Definition m_multiply_ellpack (same plain : bool) : mem unit :=
    trace <-- (if same && plain then (t <-- malloc ;; mret (Some t))
               else (A2 <-- m_noinit_ellpack ;;
                     t <-- (if same then (t <-- malloc ;; mret (Some t)) else mret None) ;;
                     run m_deallocate_ellpack A2 ;; mret t)) ;;
    mfree_opt trace.
  (** bml_trace_mult_ellpack, ellpack/bml_trace_ellpack_typed.c 98-162: getVector
      allocates one array for each row; bml_matrix2submatrix_ellpack,
      ellpack/bml_submatrix_ellpack_typed.c 244-284, one for each column of the
      submatrix *)
  Definition m_vectors_ellpack (n : nat) : mem unit :=
    run mmany n (r <-- malloc ;; mfree r) ;; mret tt.
  (** bml_transpose_new_ellpack, ellpack/bml_transpose_ellpack_typed.c 33-104: the
      array of locks of line 61 is not freed *)
  Definition m_transpose_new_ellpack : mem mellpack :=
    B <-- m_noinit_ellpack ;; lock <-- malloc ;; mret B.
  (** bml_adjacency_group_ellpack, ellpack/bml_submatrix_ellpack.c 431-512: hnode of
      line 446 is not freed *)
  Definition m_adjacency_group_ellpack : mem unit := hnode <-- malloc ;; mret tt.
  (** bml_diagonalize_ellpack, ellpack/bml_diagonalize_ellpack_typed.c 37-91 *)
  Definition m_diagonalize_ellpack (cplx : bool) : mem unit :=
    Ad <-- m_array ;; D <-- m_import_dense ;; run mfree Ad ;;
    V <-- m_zero_dense ;; run m_diagonalize_dense cplx ;; run m_deallocate_dense D ;;
    vd <-- m_array ;; run m_deallocate_dense V ;;
    W <-- m_import_ellpack ;; run mfree vd ;; m_deallocate_ellpack W.
  (** bml_inverse_ellpack, ellpack/bml_inverse_ellpack_typed.c 35-68 *)
  Definition m_inverse_ellpack : mem mellpack :=
    Ad <-- m_array ;; D <-- m_import_dense ;; run mfree Ad ;; run m_inverse_inplace_dense ;;
    Ad <-- m_array ;; run m_deallocate_dense D ;; B <-- m_import_ellpack ;; run mfree Ad ;; mret B.

  (** ** Csr *)

  (** csr_noinit_row, csr/bml_allocate_csr_typed.c 66-81; csr_zero_row 148-163 *)
  Definition m_row : mem mrow := s <-- malloc ;; c <-- malloc ;; v <-- malloc ;; mret (mkMRow s c v).
  (** csr_deallocate_row, csr/bml_allocate_csr.c 169-176 *)
  Definition m_deallocate_row (r : mrow) : mem unit := run mfree (ro_vals r) ;; run mfree (ro_cols r) ;; mfree (ro_self r).
  (** bml_noinit_matrix_csr, csr/bml_allocate_csr_typed.c 98-136; bml_zero_matrix_csr 180-215 *)
  Definition m_noinit_csr (N : nat) : mem mcsr :=
    s <-- malloc ;; d <-- malloc ;; rows <-- mmany N m_row ;; mret (mkMCsr s d rows).
  Definition m_zero_csr (N : nat) : mem mcsr := m_noinit_csr N.
  (** bml_deallocate_csr, csr/bml_allocate_csr.c 184-200 *)
  Definition m_deallocate_csr (A : mcsr) : mem unit :=
    run meach m_deallocate_row (cs_rows A) ;; run mfree (cs_data A) ;; mfree (cs_self A).
  (** bml_copy_csr_new, csr/bml_copy_csr_typed.c 46-79, with csr_copy_row_new 23-37 *)
  Definition m_copy_new_csr (A : mcsr) : mem mcsr :=
    s <-- malloc ;; d <-- malloc ;; rows <-- mmap (fun _ => m_row) (cs_rows A) ;; mret (mkMCsr s d rows).
  (** csr_set_row_element_new, csr/bml_setters_csr_typed.c 26-49, csr_set_row 101-132,
      csr_set_sparse_row 263-297, when the row has to grow: cols_ and vals_ are
      reallocated *)
  Definition m_grow_row (mv : bool * bool) (r : mrow) : mem mrow :=
    c <-- mrealloc (fst mv) (ro_cols r) ;; v <-- mrealloc (snd mv) (ro_vals r) ;; mret (mkMRow (ro_self r) c v).
  Definition m_grow1 (e : nat * (bool * bool)) (A : mcsr) : mem mcsr :=
    match nth_error (cs_rows A) (fst e) with
    | None => mub
    | Some r => r <-- m_grow_row (snd e) r ;; mret (mkMCsr (cs_self A) (cs_data A) (set_nth (cs_rows A) (fst e) r))
    end.
  (** any number of insertions into the rows of [A] *)
  Fixpoint m_fill_csr (g : growth) (A : mcsr) : mem mcsr :=
    match g with
    | [] => mret A
    | e :: g => A <-- m_grow1 e A ;; m_fill_csr g A
    end.
  (** bml_set_row_csr, csr/bml_setters_csr_typed.c 192-224 *)
  Definition m_set_row_csr (g : growth) (A : mcsr) : mem mcsr :=
    c <-- malloc ;; A <-- m_fill_csr g A ;; run mfree c ;; mret A.
  (** csr_noinit_table, csr/bml_allocate_csr.c 17-60 *)
  Definition m_table : mem mtable := s <-- malloc ;; sl <-- malloc ;; st <-- malloc ;; mret (mkMT s sl st).
  (** csr_table_insert 63-110 with its reallocation of slot_storage_ (line 82) *)
  Definition m_table_grow (moves : list bool) (t : mtable) : mem mtable :=
    st <-- (fix go (l : list bool) (p : nat) : mem nat :=
              match l with [] => mret p | b :: l => q <-- mrealloc b p ;; go l q end) moves (ta_storage t) ;;
    mret (mkMT (ta_self t) (ta_slots t) st).
  (** csr_deallocate_table 134-142 *)
  Definition m_deallocate_table (t : mtable) : mem unit := run mfree (ta_storage t) ;; run mfree (ta_slots t) ;; mfree (ta_self t).
  (** bml_import_from_dense_csr, csr/bml_import_csr_typed.c 29-70; bml_banded_matrix_csr,
      bml_identity_matrix_csr, csr/bml_allocate_csr_typed.c 233-262, 376-400;
      bml_threshold_new_csr, csr/bml_threshold_csr_typed.c 28-70 *)
  Definition m_import_csr (N : nat) (g : growth) : mem mcsr := A <-- m_zero_csr N ;; m_fill_csr g A.
  (** bml_random_matrix_csr, csr/bml_allocate_csr_typed.c 292-360 *)
  Definition m_random_csr (N : nat) (g : growth) : mem mcsr :=
    A <-- m_zero_csr N ;; a <-- malloc ;; b <-- malloc ;; A <-- m_fill_csr g A ;; run mfree a ;; run mfree b ;; mret A.
  (** bml_convert_csr, csr/bml_convert_csr_typed.c 22-46: one row of the source at a
      time; [gs] are the insertions for each row *)
  Fixpoint m_convert_rows (gs : list growth) (A : mcsr) : mem mcsr :=
    match gs with
    | [] => mret A
    | g :: gs => r <-- m_array ;; A <-- m_set_row_csr g A ;; run mfree r ;; m_convert_rows gs A
    end.
  Definition m_convert_csr (N : nat) (gs : list growth) : mem mcsr := A <-- m_zero_csr N ;; m_convert_rows gs A.
  (** bml_add_csr, csr/bml_add_csr_typed.c 38-90: one hash table per thread;
      [ts] are the reallocations of the tables *)
  Definition m_add_csr (ts : list (list bool)) (g : growth) (A : mcsr) : mem mcsr :=
    tabs <-- mmap (fun mv => t <-- m_table ;; m_table_grow mv t) ts ;;
    A <-- m_fill_csr g A ;;
    run meach m_deallocate_table tabs ;; mret A.
  (** bml_sum_AB_csr and bml_sum_squares2_csr, csr/bml_norm_csr_typed.c 99-150, 168-222:
      one hash table for each row *)
  Definition m_sums_csr (ts : list (list bool)) : mem unit :=
    meach (fun mv => t <-- m_table ;; t <-- m_table_grow mv t ;; m_deallocate_table t) ts.
  (** bml_multiply_csr, csr/bml_multiply_csr_typed.c 38-89; bml_multiply_x2_csr 100-205
      returns the array of the two traces *)
  Definition m_multiply_csr (same plain : bool) (N : nat) (g1 : growth) (ts : list (list bool)) (g2 : growth) (C : mcsr) : mem mcsr :=
    tc <-- (if same && plain then (t <-- malloc ;; C <-- m_fill_csr g1 C ;; mret (Some t, C))
            else (A2 <-- m_noinit_csr N ;;
                  t <-- (if same then (t <-- malloc ;; mret (Some t)) else mret None) ;;
                  A2 <-- m_fill_csr g1 A2 ;;
                  C <-- m_add_csr ts g2 C ;; run m_deallocate_csr A2 ;; mret (t, C))) ;;
    run mfree_opt (fst tc) ;; mret (snd tc).
  (** bml_transpose_new_csr, csr/bml_transpose_csr_typed.c 28-79: here the locks are freed *)
  Definition m_transpose_new_csr (N : nat) (g : growth) : mem mcsr :=
    B <-- m_noinit_csr N ;; lock <-- malloc ;; B <-- m_fill_csr g B ;; run mfree lock ;; mret B.
  (** bml_extract_submatrix_csr, csr/bml_submatrix_csr_typed.c 29-61: newcols and newvals
      of each row are not freed; [gs] are the insertions for each row *)
  Fixpoint m_extract_rows (gs : list growth) (B : mcsr) : mem mcsr :=
    match gs with
    | [] => mret B
    | g :: gs => newcols <-- malloc ;; newvals <-- malloc ;; B <-- m_fill_csr g B ;; m_extract_rows gs B
    end.
  Definition m_extract_submatrix_csr (BN : nat) (gs : list growth) : mem mcsr :=
    B <-- m_zero_csr BN ;; m_extract_rows gs B.
  (** bml_diagonalize_csr, csr/bml_diagonalize_csr_typed.c 38-92 *)
  Definition m_diagonalize_csr (cplx : bool) (N : nat) (g : growth) : mem unit :=
    Ad <-- m_array ;; D <-- m_import_dense ;; run mfree Ad ;;
    V <-- m_zero_dense ;; run m_diagonalize_dense cplx ;; run m_deallocate_dense D ;;
    vd <-- m_array ;; run m_deallocate_dense V ;;
    W <-- m_import_csr N g ;; run mfree vd ;; m_deallocate_csr W.
  (** bml_inverse_csr, csr/bml_inverse_csr_typed.c 37-70 *)
  Definition m_inverse_csr (N : nat) (g : growth) : mem mcsr :=
    Ad <-- m_array ;; D <-- m_import_dense ;; run mfree Ad ;; run m_inverse_inplace_dense ;;
    Ad <-- m_array ;; run m_deallocate_dense D ;; B <-- m_import_csr N g ;; run mfree Ad ;; mret B.

  (** ** Any format *)

  (** bml_deallocate, bml_allocate.c 160-199 *)
  Definition m_deallocate (A : mmat) : mem unit :=
    match A with
    | MDense A => m_deallocate_dense A
    | MEll A => m_deallocate_ellpack A
    | MCsr A => m_deallocate_csr A
    end.
  (** bml_zero_matrix, bml_allocate.c 356-410 *)
  Definition m_zero (k : mkind) (N : nat) : mem mmat :=
    match k with
    | KDense => A <-- m_zero_dense ;; mret (MDense A)
    | KEll => A <-- m_zero_ellpack ;; mret (MEll A)
    | KCsr => A <-- m_zero_csr N ;; mret (MCsr A)
    end.
  (** bml_import_from_dense, bml_import.c 27-75 *)
  Definition m_import (k : mkind) (N : nat) (g : growth) : mem mmat :=
    match k with
    | KDense => A <-- m_import_dense ;; mret (MDense A)
    | KEll => A <-- m_import_ellpack ;; mret (MEll A)
    | KCsr => A <-- m_import_csr N g ;; mret (MCsr A)
    end.
  (** bml_copy_new, bml_copy.c 18-56 *)
  Definition m_copy_new (A : mmat) : mem mmat :=
    match A with
    | MDense _ => B <-- m_copy_new_dense ;; mret (MDense B)
    | MEll _ => B <-- m_copy_new_ellpack ;; mret (MEll B)
    | MCsr A => B <-- m_copy_new_csr A ;; mret (MCsr B)
    end.
  (** bml_multiply, bml_multiply.c 22-60; the dense product allocates nothing
      (dense/bml_multiply_dense_typed.c 38-100) *)
  Definition m_multiply (same plain : bool) (g1 : growth) (ts : list (list bool)) (g2 : growth) (C : mmat) : mem mmat :=
    match C with
    | MDense C => mret (MDense C)
    | MEll C => run m_multiply_ellpack same plain ;; mret (MEll C)
    | MCsr C => C <-- m_multiply_csr same plain (length (cs_rows C)) g1 ts g2 C ;; mret (MCsr C)
    end.
  (** bml_transpose_new, bml_transpose.c 18-52 *)
  Definition m_transpose_new (g : growth) (A : mmat) : mem mmat :=
    match A with
    | MDense _ => B <-- m_copy_new_dense ;; mret (MDense B)
    | MEll _ => B <-- m_transpose_new_ellpack ;; mret (MEll B)
    | MCsr A => B <-- m_transpose_new_csr (length (cs_rows A)) g ;; mret (MCsr B)
    end.
  (** bml_inverse, bml_inverse.c 18-50 *)
  Definition m_inverse (g : growth) (A : mmat) : mem mmat :=
    match A with
    | MDense _ => B <-- m_inverse_dense ;; mret (MDense B)
    | MEll _ => B <-- m_inverse_ellpack ;; mret (MEll B)
    | MCsr A => B <-- m_inverse_csr (length (cs_rows A)) g ;; mret (MCsr B)
    end.
  (** bml_diagonalize, bml_diagonalize.c 18-60 *)
  Definition m_diagonalize (cplx : bool) (g : growth) (A : mmat) : mem unit :=
    match A with
    | MDense _ => m_diagonalize_dense cplx
    | MEll _ => m_diagonalize_ellpack cplx
    | MCsr A => m_diagonalize_csr cplx (length (cs_rows A)) g
    end.
  (** bml_extract_submatrix, bml_submatrix.c: a matrix of [BN] rows *)
  Definition m_extract_submatrix (BN : nat) (gs : list growth) (A : mmat) : mem mmat :=
    match A with
    | MDense _ => B <-- m_zero_dense ;; mret (MDense B)
    | MEll _ => B <-- m_zero_ellpack ;; mret (MEll B)
    | MCsr _ => B <-- m_extract_submatrix_csr BN gs ;; mret (MCsr B)
    end.

  (** ** Distributed2d: one process *)

  (** bml_zero_matrix_distributed2d, distributed2d/bml_allocate_distributed2d.c 150-170 *)
  Definition m_zero_dist (k : mkind) (n : nat) : mem mdist :=
    s <-- malloc ;; L <-- m_zero k n ;; mret (mkMDist s L).
  (** bml_deallocate_distributed2d, distributed2d/bml_allocate_distributed2d.c 83-91 *)
  Definition m_deallocate_dist (A : mdist) : mem unit := run m_deallocate (di_mat A) ;; mfree (di_self A).
  (** bml_import_from_dense_distributed2d, distributed2d/bml_import_distributed2d_typed.c
      27-104; [root] is myrank == 0 *)
  Definition m_import_dist (root : bool) (ntasks : nat) (k : mkind) (n : nat) (g : growth) : mem mdist :=
    s <-- malloc ;; recvbuf <-- malloc ;;
    run (if root then
           (sendbuf <-- malloc ;; request <-- malloc ;; bufs <-- mmany (ntasks - 1) malloc ;;
            run meach mfree bufs ;; run mfree request ;; mfree sendbuf)
         else mret tt) ;;
    L <-- m_import k n g ;; run mfree recvbuf ;; mret (mkMDist s L).
  (** bml_export_to_dense_distributed2d, distributed2d/bml_export_distributed2d_typed.c
      23-82: the exported local matrix of line 40 is not freed *)
  Definition m_export_dist (root : bool) (ntasks : nat) : mem (option nat) :=
    Ad <-- (if root then (a <-- malloc ;; mret (Some a)) else mret None) ;;
    sendbuf <-- m_array ;;
    run (if root then
           (recvbuf <-- malloc ;; request <-- malloc ;; bufs <-- mmany (ntasks - 1) malloc ;;
            run meach mfree bufs ;; run mfree request ;; mfree recvbuf)
         else mret tt) ;;
    mret Ad.
  (** bml_get_row_distributed2d, distributed2d/bml_getters_distributed2d_typed.c 9-55: the
      row of the local matrix (line 26, if this process has it) is not freed *)
  Definition m_get_row_dist (mine : bool) : mem nat :=
    row <-- malloc ;; counts <-- malloc ;;
    sub <-- (if mine then (r <-- m_array ;; mret (Some r)) else mret None) ;;
    recvcounts <-- malloc ;; displs <-- malloc ;;
    run mfree recvcounts ;; run mfree counts ;; run mfree displs ;; mret row.
  (** bml_gershgorin_distributed2d, distributed2d/bml_normalize_distributed2d_typed.c 32-69 *)
  Definition m_gershgorin_dist (diag : bool) : mem nat :=
    rad <-- malloc ;; off <-- m_array ;; run mfree off ;;
    run (if diag then (d <-- m_array ;; mfree d) else mret tt) ;;
    run mfree rad ;; malloc.
  (** bml_copy_distributed2d_new, distributed2d/bml_copy_distributed2d.c 19-35: the
      struct and a local matrix of the same number of rows
      (bml_noinit_matrix_distributed2d, bml_allocate_distributed2d.c 117-135) *)
  Definition m_copy_new_dist (A : mdist) : mem mdist := s <-- malloc ;; L <-- m_copy_new (di_mat A) ;; mret (mkMDist s L).
  (** bml_transpose_distributed2d, distributed2d/bml_transpose_distributed2d.c 49-71
      (the exchange is in place) *)
  Definition m_transpose_dist (A : mdist) : mem unit := B <-- m_copy_new_dist A ;; m_deallocate_dist B.
  (** bml_multiply_distributed2d, distributed2d/bml_multiply_distributed2d_typed.c 32-105:
      one local product and one for each further column of processes, each with
      its own insertions *)
  Fixpoint m_cannon_steps (gs : list (growth * list (list bool) * growth)) (C : mmat) : mem mmat :=
    match gs with
    | [] => mret C
    | (g1, ts, g2) :: gs => C <-- m_multiply false false g1 ts g2 C ;; m_cannon_steps gs C
    end.
  Definition m_multiply_dist (gs : list (growth * list (list bool) * growth)) (A B C : mdist) : mem mdist :=
    A1 <-- m_copy_new (di_mat A) ;; A2 <-- m_copy_new (di_mat A) ;;
    B1 <-- m_copy_new (di_mat B) ;; B2 <-- m_copy_new (di_mat B) ;;
    L <-- m_cannon_steps gs (di_mat C) ;;
    run m_deallocate A1 ;; run m_deallocate A2 ;; run m_deallocate B1 ;; run m_deallocate B2 ;;
    mret (mkMDist (di_self C) L).
  (** bml_convert_distributed2d, distributed2d/bml_convert_distributed2d.c 12-31: the
      local matrix that bml_zero_matrix_distributed2d made is overwritten *)
  Definition m_convert_dist (k : mkind) (n : nat) (g : growth) : mem mdist :=
    B <-- m_zero_dist k n ;; L <-- m_import k n g ;; mret (mkMDist (di_self B) L).
End Alloc.

(** ** Programs: a caller that keeps the pointers it is given in variables *)

Inductive mobj := OMat (A : mmat) | OArr (p : nat).
Definition mvars := list (option mobj).

Inductive mop :=
| PZero (k : mkind) (N : nat)
| PImport (k : mkind) (N : nat) (g : growth)
| PExport (i : nat)
| PCopyNew (i : nat)
| PTransposeNew (i : nat) (g : growth)
| PInverse (i : nat) (g : growth)
| PExtract (i BN : nat) (gs : list growth)
| PMultiply (c : nat) (same plain : bool) (g1 : growth) (ts : list (list bool)) (g2 : growth)
| PAdd (i : nat) (ts : list (list bool)) (g : growth)
| PSetRow (i : nat) (g : growth)
| PDiagonalize (i : nat) (cplx : bool) (g : growth)
| PReorder (i : nat)
| PDeallocate (i : nat)
| PFree (i : nat).

Section Programs.
  Variable fresh : nat -> list nat -> nat.

  Definition v_mat (vs : mvars) (i : nat) : res mmat :=
    match nth_error vs i with Some (Some (OMat A)) => Ok A | _ => Err end.
  Definition v_arr (vs : mvars) (i : nat) : res nat :=
    match nth_error vs i with Some (Some (OArr p)) => Ok p | _ => Err end.
  Definition v_new (vs : mvars) (o : mobj) : mvars := vs ++ [Some o].

  (** one call; using a variable that does not hold a matrix (an array) is an
      error of the caller, [Err]; bml_deallocate and bml_free_ptr are called once
      for each object, the variable is NULL afterwards (bml_allocate.c 197) *)
  Definition m_step (o : mop) (vs : mvars) (h : heap) : res (mvars * heap) :=
    match o with
    | PZero k N => '(A, h) <- m_zero fresh k N h ;; Ok (v_new vs (OMat A), h)
    | PImport k N g => '(A, h) <- m_import fresh k N g h ;; Ok (v_new vs (OMat A), h)
    | PExport i => A <- v_mat vs i ;; '(p, h) <- m_array fresh h ;; Ok (v_new vs (OArr p), h)
    | PCopyNew i => A <- v_mat vs i ;; '(B, h) <- m_copy_new fresh A h ;; Ok (v_new vs (OMat B), h)
    | PTransposeNew i g => A <- v_mat vs i ;; '(B, h) <- m_transpose_new fresh g A h ;; Ok (v_new vs (OMat B), h)
    | PInverse i g => A <- v_mat vs i ;; '(B, h) <- m_inverse fresh g A h ;; Ok (v_new vs (OMat B), h)
    | PExtract i BN gs => A <- v_mat vs i ;; '(B, h) <- m_extract_submatrix fresh BN gs A h ;; Ok (v_new vs (OMat B), h)
    | PMultiply c same plain g1 ts g2 =>
        C <- v_mat vs c ;; '(C, h) <- m_multiply fresh same plain g1 ts g2 C h ;; Ok (set_nth vs c (Some (OMat C)), h)
    | PAdd i ts g =>
        A <- v_mat vs i ;;
        match A with
        | MCsr A => '(A, h) <- m_add_csr fresh ts g A h ;; Ok (set_nth vs i (Some (OMat (MCsr A))), h)
        | _ => Ok (vs, h)
        end
    | PSetRow i g =>
        A <- v_mat vs i ;;
        match A with
        | MCsr A => '(A, h) <- m_set_row_csr fresh g A h ;; Ok (set_nth vs i (Some (OMat (MCsr A))), h)
        | _ => Ok (vs, h)
        end
    | PDiagonalize i cplx g => A <- v_mat vs i ;; '(_, h) <- m_diagonalize fresh cplx g A h ;; Ok (vs, h)
    | PReorder i =>
        A <- v_mat vs i ;;
        match A with
        | MDense _ => '(_, h) <- m_reorder_dense fresh h ;; Ok (vs, h)
        | MEll _ => '(_, h) <- m_reorder_ellpack fresh h ;; Ok (vs, h)
        | MCsr _ => Err
        end
    | PDeallocate i => A <- v_mat vs i ;; '(_, h) <- m_deallocate A h ;; Ok (set_nth vs i None, h)
    | PFree i => p <- v_arr vs i ;; '(_, h) <- mfree p h ;; Ok (set_nth vs i None, h)
    end.
  Fixpoint m_run (p : list mop) (vs : mvars) (h : heap) : res (mvars * heap) :=
    match p with
    | [] => Ok (vs, h)
    | o :: p => '(vs, h) <- m_step o vs h ;; m_run p vs h
    end.
End Programs.
