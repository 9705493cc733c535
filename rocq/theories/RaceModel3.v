(** Parallel loops of the csr format at the level of single array accesses
    (same simplifications as in RaceModel.v).

    Row i of csr matrix object [o] (0, 1 or 2) is row object 3*i+o: arrays
    cols_ (aIdx), vals_ (aVal) and NNZ_ (cell 0 of aNnz), bml_types_csr.h 46-59.
    The pointers A->data_[i], ->cols_, ->vals_ are not changed by these loops and
    their reads are left out.  Loops that make a row grow (realloc) are not
    modelled here. *)
From Verif Require Import Base Spec EllpackModel CsrModel ThreadModel RaceModel RaceModel2.

Definition ro (o i : nat) : nat := 3 * i + o.

Section Race3.
  Context {F : scalar}.
  Local Open Scope K_scope.
  Local Open Scope prog_scope.
  Local Notation pr := (prog loc (val F)).

  (** for (pos = 0; pos < NNZ_; pos++) { cols[pos], vals[pos]; body }.
      Simplification: both are read even if the body needs one of them. *)
  Definition p_r_for {S} (c : nat) (body : nat -> F -> S -> pr S) (s : S) : pr S :=
    n <-- rdn (aNnz c, 0%nat) ;;
    pfor_n n (fun pos s => k <-- rdn (aIdx c, pos) ;; v <-- rdk (aVal c, pos) ;; body k v s) s.

  (** bml_scale_csr_typed.c 92-97 (bml_scale_inplace_csr): SCAL over vals_ of row i; A is object 0 *)
  Definition p_csr_scale_row (a : F) (t i : nat) : pr unit :=
    n <-- rdn (aNnz (ro 0 i), 0%nat) ;;
    pfor_n n (fun pos _ => v <-- rdk (aVal (ro 0 i), pos) ;; wrk (aVal (ro 0 i), pos) (a * v)) tt.

  (** bml_threshold_csr_typed.c 84-103 (bml_threshold_csr): A is object 0 *)
  Definition p_csr_threshold_row (keep : F -> bool) (t i : nat) : pr unit :=
    n <-- rdn (aNnz (ro 0 i), 0%nat) ;;
    rlen <-- pfor_n n (fun pos rlen =>
      v <-- rdk (aVal (ro 0 i), pos) ;;
      if keep v then
        _ <-- (if (rlen <? pos)%nat then
                 k <-- rdn (aIdx (ro 0 i), pos) ;; _ <-- wrn (aIdx (ro 0 i), rlen) k ;;
                 v <-- rdk (aVal (ro 0 i), pos) ;; wrk (aVal (ro 0 i), rlen) v
               else Ret tt) ;;
        Ret (S rlen)
      else Ret rlen) 0%nat ;;
    wrn (aNnz (ro 0 i), 0%nat) rlen.

  (** bml_norm_csr_typed.c 38-48 (bml_sum_squares_csr): A is object 1, sum is
      reduction variable 0 *)
  Definition p_csr_sum_squares_row (t i : nat) : pr unit :=
    p_r_for (ro 1 i) (fun _ v _ => p_reduce t 0 (v * v)) tt.

  (** bml_trace_csr_typed.c 82-103 (bml_trace_mult_csr): A is object 1, B object
      2, trace is reduction variable 0.  Simplification: after the break the
      rest of the row of B is still read. *)
  Definition p_csr_trace_mult_row (t i : nat) : pr unit :=
    p_r_for (ro 1 i) (fun j a _ =>
      _ <-- p_r_for (ro 2 j) (fun k b (stop : bool) =>
              if stop then Ret stop
              else if (i =? k)%nat then _ <-- p_reduce t 0 (a * b) ;; Ret true else Ret false) false ;;
      Ret tt) tt.

  (** bml_norm_csr_typed.c 71-84 (bml_sum_squares_submatrix_csr): A is object 1 *)
  Definition p_csr_sum_squares_sub_row (core t i : nat) : pr unit :=
    p_r_for (ro 1 i) (fun k v _ => if (k <? core)%nat then p_reduce t 0 (v * v) else Ret tt) tt.

  (** csr_get_row_element (bml_getters_csr_typed.c 20-44) of row object [c].
      The constant ZERO is not a shared cell here: it is never written. *)
  Definition p_r_elem (c j : nat) : pr F :=
    n <-- rdn (aNnz c, 0%nat) ;;
    f <-- pfor_n n (fun pos (f : option F) =>
            match f with
            | Some _ => Ret f
            | None => k <-- rdn (aIdx c, pos) ;;
                      if (k =? j)%nat then v <-- rdk (aVal c, pos) ;; Ret (Some v) else Ret None
            end) None ;;
    Ret (match f with Some v => v | None => 0 end).

  (** bml_trace_csr_typed.c 46-50 (bml_trace_csr): A is object 1 *)
  Definition p_csr_trace_row (t i : nat) : pr unit :=
    v <-- p_r_elem (ro 1 i) i ;; p_reduce t 0 v.

  (** bml_export_csr_typed.c 38-48, 52-62 (bml_export_to_dense_csr): A is object
      1, A_dense is dense array 0 *)
  Definition p_csr_export_row (o : dorder) (N t i : nat) : pr unit :=
    p_r_for (ro 1 i) (fun j v _ =>
      wrk (aDense 0, match o with row_major => ROWMAJOR i j N N | col_major => COLMAJOR i j N N end) v) tt.

  (** bml_allocate_csr_typed.c 242-257 (bml_banded_matrix_csr): A is object 0;
      rand() as in RaceModel.v *)
  Definition p_csr_banded_row (next : nat -> nat) (out : nat -> F) (N M t i : nat) : pr unit :=
    let lo := (i - M / 2)%nat in
    let hi := Nat.min N (i + (M - M / 2)) in
    jind <-- pforM (seq lo (hi - lo)) (fun j jind =>
      _ <-- wrn (aIdx (ro 0 i), jind) j ;;
      r <-- p_rand next out ;;
      _ <-- wrk (aVal (ro 0 i), jind) r ;; Ret (S jind)) 0%nat ;;
    wrn (aNnz (ro 0 i), 0%nat) jind.
End Race3.
