(** The typed element getters (bml_elemental.c, {dense,ellpack}/bml_elemental_*.c)
    and the Fortran interface (src/Fortran-interface/*.F90).

    Simplifications:
    - Fortran INTEGER indices are natural numbers; the wrappers pass i-1 to C,
      and for i = 0 the C function receives -1;
    - a scalar is one commutative ring for all precisions ([fprec] only selects
      the C function that is called);
    - an optional threshold is [option (F -> bool)], the test |x| > threshold;
      the default threshold 0 is the test [nz] (|x| > 0);
    - an array section is described by base memory, offset of its first element,
      the distances between consecutive elements of the first and second
      dimension (not negative) and the extents;
    - one rank (bml_getMyRank() = 0), formats dense, ellpack and csr. *)
From Coq Require Import String Ascii.
From Verif Require Import Base Spec EllpackModel EllpackSpec CsrModel CsrSpec GemmModel DenseModel FormatModel.
Local Open Scope nat_scope.

(** bml_matrix_precision_t (bml_types.h 31-43) *)
Inductive fprec := single_real | double_real | single_complex | double_complex.

Section Elemental.
  Context {F : scalar}.
  Local Open Scope K_scope.

  (** the loops of bml_elemental_ellpack.c: the index array is read in row [ri],
      the value array in row [i]; [n] iterations from slot [l] on. *)
  Fixpoint elem_scan (A : ell F) (ri i j l n : nat) : res F :=
    match n with
    | O => Ok 0
    | S n =>
      c <- rd (eidx A) (ROWMAJOR ri l (eN A) (eM A)) ;;
      if (c =? j)%nat then rd (eval A) (ROWMAJOR i l (eN A) (eM A))
      else elem_scan A ri i j (S l) n
    end.

  (** ellpack/bml_elemental_ellpack.c: single_real 17-42 tests
      A->index[ROWMAJOR(i, j_index, N, M)], while double_real 51-75,
      single_complex 85-110 and double_complex 119-144 test A->index[j_index],
      which is the index array of row 0. *)
  Definition ell_get_element_typed (p : fprec) (A : ell F) (i j : nat) : res F :=
    if (eN A <=? i)%nat then Err
    else if (eN A <=? j)%nat then Err
    else n <- e_nnz A i ;;
         elem_scan A (match p with single_real => i | _ => 0%nat end) i j 0 n.

  (** bml_elemental.c 18-125: bml_get_element_{single,double}_{real,complex};
      formats other than dense and ellpack end in LOG_ERROR. *)
  Definition bml_get_element_typed (p : fprec) (A : bmat F) (i j : nat) : res F :=
    match A with
    | BDense A => dense_get_element_checked A i j
    | BEll A => ell_get_element_typed p A i j
    | BCsr _ => Err
    end.

  (** ** Dispatch of the setters: bml_setters.c 13-95 *)
  Definition bml_set_element (A : bmat F) (i j : nat) (v : F) : res (bmat F) :=
    match A with
    | BDense A => A <- dense_set_element A i j v ;; Ok (BDense A)
    | BEll A => A <- ell_set_element A i j v ;; Ok (BEll A)
    | BCsr A => A <- csr_set_element A i j v ;; Ok (BCsr A)
    end.
  Definition bml_set_row (keep : F -> bool) (A : bmat F) (i : nat) (row : list F) : res (bmat F) :=
    match A with
    | BDense A => A <- dense_set_row A i row ;; Ok (BDense A)
    | BEll A => A <- ell_set_row keep A i row ;; Ok (BEll A)
    | BCsr A => A <- csr_set_row keep A i row ;; Ok (BCsr A)
    end.

  (** bml_import.c 28-68: bml_import_from_dense *)
  Definition bml_import_from_dense (t : fmt) (o : dorder) (N M : nat) (D : list F) (keep : F -> bool)
             (sched : list (nat * nat)) : res (bmat F) :=
    match t with
    | FDense => A <- dense_import o N D ;; Ok (BDense A)
    | FEll => A <- ell_import o N M keep D sched ;; Ok (BEll A)
    | FCsr => A <- csr_import o N M keep D sched ;; Ok (BCsr A)
    end.
  (** bml_export.c 37-62: bml_export_to_dense *)
  Definition bml_export_to_dense (A : bmat F) (o : dorder) (sched : list (nat * nat)) : res (list F) :=
    match A with
    | BDense A => dense_export A o
    | BEll A => ell_export o A sched
    | BCsr A => csr_export o A sched
    end.
End Elemental.

(** ** Fortran arrays of rank two *)
Record farr (F : scalar) := mkFarr {
  fa_mem : list F; fa_off : nat; fa_s1 : nat; fa_s2 : nat; fa_n1 : nat; fa_n2 : nat }.
Arguments mkFarr {F}.
Arguments fa_mem {F}. Arguments fa_off {F}. Arguments fa_s1 {F}. Arguments fa_s2 {F}.
Arguments fa_n1 {F}. Arguments fa_n2 {F}.

Section Fortran.
  Context {F : scalar}.
  Local Open Scope K_scope.
  Local Notation bmat := (bmat F).

  (** what a C function sees at c_loc(a(lbound(a,1), lbound(a,2))): [n] elements
      read one after the other from that address *)
  Definition f_loc (a : farr F) (n : nat) : res (list F) :=
    if (fa_off a + n <=? length (fa_mem a))%nat then Ok (firstn n (skipn (fa_off a) (fa_mem a)))
    else UB.

  (** bml_import_m.F90 31-81 (double 92-142, complex 153-202, 213-262):
      the size is size(a_dense, 1), the element order BML_DENSE_COLUMN_MAJOR,
      m is required for formats other than dense. *)
  Definition f_import (nz : F -> bool) (t : fmt) (a : farr F) (threshold : option (F -> bool)) (m : option nat)
             (sched : list (nat * nat)) : res bmat :=
    let n_ := fa_n1 a in
    let keep := match threshold with Some k => k | None => nz end in
    m_ <- match m, t with
          | Some m, _ => Ok m
          | None, FDense => Ok n_
          | None, _ => Err
          end ;;
    D <- f_loc a (n_ * n_) ;;
    bml_import_from_dense t col_major n_ m_ D keep sched.

  (** bml_export_m.F90 29-46 (54-121): c_f_pointer with shape [N, N], then
      assignment to an allocatable array *)
  Definition f_export (A : bmat) (sched : list (nat * nat)) : res (farr F) :=
    D <- bml_export_to_dense A col_major sched ;;
    Ok (mkFarr D 0 1 (bml_get_N A) (bml_get_N A) (bml_get_N A)).

  (** bml_elemental_m.F90 28-89 *)
  Definition f_get_element (p : fprec) (A : bmat) (i j : nat) : res F :=
    match i, j with
    | S i, S j => bml_get_element_typed p A i j
    | _, _ => Err
    end.
  (** bml_getters_m.F90 112-190 *)
  Definition f_get_row (A : bmat) (i : nat) : res (list F) :=
    match i with S i => bml_get_row A i | O => UB end.
  (** bml_getters_m.F90 33-104 *)
  Definition f_get_diagonal (A : bmat) : res (list F) := bml_get_diagonal A.
  (** bml_setters_m.F90 104-146 *)
  Definition f_set_element (A : bmat) (i j : nat) (v : F) : res bmat :=
    match i, j with
    | S i, S j => bml_set_element A i j v
    | _, _ => UB
    end.
  (** bml_setters_m.F90 150-224 *)
  Definition f_set_row (nz : F -> bool) (A : bmat) (i : nat) (row : list F) (threshold : option (F -> bool)) : res bmat :=
    match i with
    | S i => bml_set_row (match threshold with Some k => k | None => nz end) A i row
    | O => UB
    end.

  (** bml_multiply_m.F90 31-60: optional alpha = 1, beta = 0, threshold = 0 *)
  Definition f_multiply (nz : F -> bool) (A B C : bmat) (alpha beta : option F) (threshold : option (F -> bool))
             (e : env F) : res bmat :=
    bml_multiply (match threshold with Some k => k | None => nz end)
      (match alpha with Some x => x | None => 1 end) (match beta with Some x => x | None => 0 end) A B C e.
  (** bml_add_m.F90 47-64: optional threshold = 0; 78-95: the deprecated argument order *)
  Definition f_add (nz : F -> bool) (A B : bmat) (alpha beta : F) (threshold : option (F -> bool)) (e : env F) : res bmat :=
    bml_add (match threshold with Some k => k | None => nz end) alpha beta A B e.
  Definition f_add_deprecated (nz : F -> bool) (alpha : F) (A : bmat) (beta : F) (B : bmat) (threshold : option (F -> bool))
             (e : env F) : res bmat :=
    f_add nz A B alpha beta (Some (match threshold with Some k => k | None => nz end)) e.

  (** ** Matrix variables: type(bml_matrix_t) holds a C pointer
      (bml_types_m.F90 36-41).  [f_var] gives the pointer of each variable,
      [f_heap] the matrices allocated so far, None once they are freed. *)
  Record fstate := mkFstate { f_var : list (option nat); f_heap : list (option bmat) }.

  (** the matrix of variable [v].  A null pointer is an error reported by C
      (bml_introspection.c 22-35: the type is type_uninitialized), a freed
      one undefined behaviour. *)
  Definition f_deref (s : fstate) (v : nat) : res bmat :=
    p <- rd (f_var s) v ;;
    match p with
    | None => Err
    | Some h => o <- rd (f_heap s) h ;; match o with None => UB | Some A => Ok A end
    end.
  (** bml_deallocate (bml_types_m.F90 79-88) *)
  Definition f_deallocate (s : fstate) (v : nat) : res fstate :=
    p <- rd (f_var s) v ;;
    match p with
    | None => Ok s
    | Some h =>
      o <- rd (f_heap s) h ;;
      match o with
      | None => UB
      | Some _ =>
        hp <- wr (f_heap s) h None ;; vs <- wr (f_var s) v None ;; Ok (mkFstate vs hp)
      end
    end.
  (** a%ptr = <a new matrix> *)
  Definition f_assign (s : fstate) (v : nat) (B : bmat) : res fstate :=
    vs <- wr (f_var s) v (Some (length (f_heap s))) ;; Ok (mkFstate vs (f_heap s ++ [Some B])).
  (** call bml_deallocate(a); a%ptr = ... *)
  Definition f_fresh (s : fstate) (v : nat) (make : fstate -> res bmat) : res fstate :=
    s <- f_deallocate s v ;; B <- make s ;; f_assign s v B.
  (** an operation that changes the matrix of a variable in place *)
  Definition f_update (s : fstate) (v : nat) (f : bmat -> res bmat) : res fstate :=
    A <- f_deref s v ;; B <- f A ;;
    p <- rd (f_var s) v ;;
    match p with
    | None => Err
    | Some h => hp <- wr (f_heap s) h (Some B) ;; Ok (mkFstate (f_var s) hp)
    end.

  (** bml_import_m.F90 73-79 *)
  Definition fs_import (nz : F -> bool) s t (a : farr F) v threshold m sched : res fstate :=
    f_fresh s v (fun _ => f_import nz t a threshold m sched).
  (** bml_copy_m.F90 24-32 *)
  Definition fs_copy_new s (a b : nat) (e : env F) : res fstate :=
    f_fresh s b (fun s => A <- f_deref s a ;; bml_copy_new A e).
  (** bml_transpose_m.F90 18-26 *)
  Definition fs_transpose s (a b : nat) (e : env F) : res fstate :=
    f_fresh s b (fun s => A <- f_deref s a ;; bml_transpose_new A e).

  (** calls a Fortran program can make *)
  Inductive fcall :=
  | FImport (t : fmt) (a : farr F) (v : nat) (threshold : option (F -> bool)) (m : option nat) (sched : list (nat * nat))
  | FCopyNew (a b : nat) (e : env F)
  | FTranspose (a b : nat) (e : env F)
  | FDeallocate (v : nat)
  | FSetElement (v i j : nat) (x : F)
  | FSetRow (v i : nat) (row : list F) (threshold : option (F -> bool)).
  Definition fs_call (nz : F -> bool) (c : fcall) (s : fstate) : res fstate :=
    match c with
    | FImport t a v thr m sched => fs_import nz s t a v thr m sched
    | FCopyNew a b e => fs_copy_new s a b e
    | FTranspose a b e => fs_transpose s a b e
    | FDeallocate v => f_deallocate s v
    | FSetElement v i j x => f_update s v (fun A => f_set_element A i j x)
    | FSetRow v i row thr => f_update s v (fun A => f_set_row nz A i row thr)
    end.
  Definition fs_run (nz : F -> bool) (p : list fcall) (s : fstate) : res fstate := forM p (fs_call nz) s.
End Fortran.
Arguments fstate : clear implicits.
Arguments fcall : clear implicits.

(** ** Names and codes *)
Local Open Scope string_scope.

(** bml_matrix_type_t (bml_types.h 8-23) and its codes in C *)
Inductive ctype := type_uninitialized | t_dense | t_ellpack | t_ellblock | t_csr | t_distributed2d.
Definition ctype_id (t : ctype) : nat :=
  match t with
  | type_uninitialized => 0 | t_dense => 1 | t_ellpack => 2 | t_ellblock => 3 | t_csr => 4 | t_distributed2d => 5
  end.
(** bml_matrix_precision_t (bml_types.h 26-38), after precision_uninitialized = 0 *)
Definition fprec_id (p : fprec) : nat :=
  match p with single_real => 1 | double_real => 2 | single_complex => 3 | double_complex => 4 end.
(** bml_distribution_mode_t (bml_types.h 69-77) *)
Inductive dmode := sequential | distributed | graph_distributed.
Definition dmode_id (d : dmode) : nat :=
  match d with sequential => 0 | distributed => 1 | graph_distributed => 2 end.

(** the names of the Fortran API: bml_types_m.F90 46-70 *)
Definition ctype_name (t : ctype) : option string :=
  match t with
  | t_dense => Some "dense" | t_ellpack => Some "ellpack" | t_ellblock => Some "ellblock" | t_csr => Some "csr"
  | _ => None
  end.
Definition dmode_name (d : dmode) : string :=
  match d with
  | sequential => "sequential" | distributed => "distributed" | graph_distributed => "graph_distributed"
  end.

(** get_matrix_id (bml_interface_m.F90 102-122) *)
Definition get_matrix_id (s : string) : res nat :=
  if s =? "dense" then Ok 1 else if s =? "ellpack" then Ok 2 else if s =? "ellblock" then Ok 3
  else if s =? "csr" then Ok 4 else Err.
(** get_dmode_id (bml_interface_m.F90 165-182) *)
Definition get_dmode_id (s : string) : res nat :=
  if s =? "sequential" then Ok 0 else if s =? "distributed" then Ok 1 else if s =? "graph_distributed" then Ok 2 else Err.
(** get_element_id (bml_interface_m.F90 124-157): element type and number of
    bytes of the kind; in the default cases the result is never assigned. *)
Definition get_element_id (ty : string) (kind : nat) : res nat :=
  if ty =? "real" then match kind with 4 => Ok 1 | 8 => Ok 2 | _ => UB end
  else if ty =? "complex" then match kind with 4 => Ok 3 | 8 => Ok 4 | _ => UB end
  else UB.

(** bml_get_type (bml_introspection_m.F90 82-105; bml_get_deep_type 111-134 is the same) of a
    matrix whose C type code is [n] *)
Definition f_get_type (n : nat) : res string :=
  match n with
  | 0 => Ok "Unformatted" | 1 => Ok "dense" | 2 => Ok "ellpack" | 3 => Ok "ellblock" | 5 => Ok "csr" | _ => Err
  end.
(** bml_get_distribution_mode (bml_introspection_m.F90 213-232) *)
Definition f_get_distribution_mode (n : nat) : res string :=
  match n with 0 => Ok "sequential" | 1 => Ok "distributed" | 3 => Ok "graph_distributed" | _ => Err end.
(** bml_get_element_type (184-207), bml_get_element_precision (158-177; the kind is
    the number of bytes) *)
Definition f_get_element_type (n : nat) : res string :=
  match n with 1 | 2 => Ok "real" | 3 | 4 => Ok "complex" | _ => Err end.
Definition f_get_element_precision (n : nat) : res nat :=
  match n with 1 => Ok 4 | 2 => Ok 8 | _ => Err end.

(** bml_f_c_string (bml_fc_tools_m.F90 15-35): trailing blanks removed, NUL appended *)
Fixpoint f_trim (s : string) : string :=
  match s with
  | EmptyString => EmptyString
  | String c r => match f_trim r with
                  | EmptyString => if Ascii.eqb c " "%char then EmptyString else String c EmptyString
                  | t => String c t
                  end
  end.
Definition f_c_string (s : string) : string := f_trim s ++ String "000"%char EmptyString.
