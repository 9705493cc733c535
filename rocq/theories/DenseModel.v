(** Model of the dense format: src/C-interface/dense/*.
    All files cited below are in /repo/src/C-interface/dense unless a
    directory is given.

    Simplifications common to the whole file:
    - REAL_T is an arbitrary commutative ring; |x| > threshold is [keep];
    - int indices are natural numbers;
    - host code path (no MAGMA, no MKL_GPU), one rank: localRowMin = 0,
      localRowMax = N, localDispl = 0, localRowExtent = N
      (bml_default_domain in sequential mode, ../bml_allocate.c 600-700), so a
      loop over [rowMin, rowMax) runs over all rows, and one over
      [rowMin*N, rowMax*N) over all N*N cells;
    - the BLAS routines SCAL and AXPY are modelled by their definition;
    - BML_INTERNAL_GEMM: bml_gemm is bml_gemm_internal (GemmModel). *)
From Verif Require Import Base Spec EllpackModel GemmModel.

(** bml_types_dense.h: N and the row-major array matrix (ld = N). *)
Record dense (F : scalar) : Type := mkDense { dN : nat; dmx : list F }.
Arguments mkDense {F} _ _.
Arguments dN {F} _.
Arguments dmx {F} _.

(** "#pragma omp parallel for" without private state: [sched] lists the
    iterations in execution order *)
Definition par_do {S} (sched : list (nat * nat)) (body : nat -> S -> res S) (s : S) : res S :=
  '(s, _) <- par_for sched (fun i '(s, w) => s <- body i s ;; Ok (s, w)) s (fun _ => tt) ;;
  Ok s.

(** the character arguments of adjungate_triangle and transpose_triangle *)
Inductive triangle := TriU | TriL | TriOther.

Section Dense.
  Context {F : scalar}.
  Local Open Scope K_scope.
  Local Notation dense := (dense F).

  (** "#pragma omp parallel for reduction(+:sum)": sum += f(i) *)
  Definition par_sum (nth : nat) (sched : list (nat * nat)) (f : nat -> res F) : res F :=
    '(_, w) <- par_for sched (fun i '(s, sum) => v <- f i ;; Ok (s, sum + v)) tt (fun _ => 0) ;;
    Ok (reduce_sum nth w).

  (** A_matrix[ROWMAJOR(i, j, N, N)]: read and write *)
  Definition d_at (A : dense) (i j : nat) : res F := rd (dmx A) (ROWMAJOR i j (dN A) (dN A)).
  Definition d_put (A : dense) (i j : nat) (v : F) : res dense :=
    m <- wr (dmx A) (ROWMAJOR i j (dN A) (dN A)) v ;; Ok (mkDense (dN A) m).

  (** memcpy(dst + doff, src + soff, n * sizeof(REAL_T)), src not overlapping dst *)
  Definition copy_cells (dst : list F) (doff : nat) (src : list F) (soff n : nat) : res (list F) :=
    for_n n (fun q dst => v <- rd src (soff + q) ;; wr dst (doff + q) v) dst.

  (** ** Constructors: bml_allocate_dense_typed.c *)

  (** bml_zero_matrix_dense 146-191 *)
  Definition dense_zero (N : nat) : dense := mkDense N (repeat 0 (N * N)).
  (** bml_noinit_matrix_dense 88-132: [gv] gives the unspecified contents *)
  Definition dense_noinit (N : nat) (gv : nat -> F) : dense := mkDense N (map gv (seq 0 (N * N))).
  (** bml_banded_matrix_dense 206-250 (the column bounds as in ell_banded) *)
  Definition dense_banded (N M : nat) (rnd : nat -> nat -> F) (sched : list (nat * nat)) : res dense :=
    par_do sched (fun i A =>
      let lo := (i - M / 2)%nat in
      let hi := Nat.min N (i + (M - M / 2)) in
      forM (seq lo (hi - lo)) (fun j A => d_put A i j (rnd i j)) A) (dense_zero N).
  (** bml_random_matrix_dense 267-309 *)
  Definition dense_random (N : nat) (rnd : nat -> nat -> F) : res dense :=
    for_n N (fun i A => for_n N (fun j A => d_put A i j (rnd i j)) A) (dense_zero N).
  (** bml_identity_matrix_dense 323-362 *)
  Definition dense_identity (N : nat) (sched : list (nat * nat)) : res dense :=
    par_do sched (fun i A => d_put A i i 1) (dense_zero N).

  (** ** Setters and getters: bml_setters_dense_typed.c, bml_getters_dense_typed.c *)

  (** bml_set_element_dense 17-46 *)
  Definition dense_set_element (A : dense) (i j : nat) (v : F) : res dense := d_put A i j v.
  (** bml_set_row_dense 48-80 *)
  Definition dense_set_row (A : dense) (i : nat) (row : list F) : res dense :=
    for_n (dN A) (fun j A => v <- rd row j ;; d_put A i j v) A.
  (** bml_set_diagonal_dense 82-119 *)
  Definition dense_set_diagonal (A : dense) (diag : list F) : res dense :=
    for_n (dN A) (fun j A => v <- rd diag j ;; d_put A j j v) A.
  (** bml_get_element_dense 19-44 (returns a pointer; the caller reads through
      it, e.g. bml_convert_dense_typed.c 42) *)
  Definition dense_get_element (A : dense) (i j : nat) : res F := d_at A i j.
  (** bml_elemental_dense.c 17-60: the bounds-checked variants *)
  Definition dense_get_element_checked (A : dense) (i j : nat) : res F :=
    if dN A <=? i then Err else if dN A <=? j then Err else d_at A i j.
  (** bml_get_row_dense 46-74 *)
  Definition dense_get_row (A : dense) (i : nat) : res (list F) :=
    for_n (dN A) (fun j row => v <- d_at A i j ;; wr row j v) (repeat 0 (dN A)).
  (** bml_get_diagonal_dense 76-103 *)
  Definition dense_get_diagonal (A : dense) : res (list F) :=
    for_n (dN A) (fun j diag => v <- d_at A j j ;; wr diag j v) (repeat 0 (dN A)).

  (** ** Import and export *)

  (** bml_import_dense_typed.c 28-76 *)
  Definition dense_import (o : dorder) (N : nat) (D : list F) : res dense :=
    match o with
    | row_major =>
        m <- copy_cells (dmx (dense_zero N)) 0 D 0 (N * N) ;; Ok (mkDense N m)
    | col_major =>
        for_n N (fun i A => for_n N (fun j A =>
          v <- rd D (COLMAJOR i j N N) ;; d_put A i j v) A) (dense_zero N)
    end.
  (** bml_export_dense_typed.c 25-76 *)
  Definition dense_export (A : dense) (o : dorder) : res (list F) :=
    let N := dN A in
    match o with
    | row_major => copy_cells (repeat 0 (N * N)) 0 (dmx A) 0 (N * N)
    | col_major =>
        for_n N (fun i D => for_n N (fun j D =>
          v <- d_at A i j ;; wr D (COLMAJOR i j N N) v) D) (repeat 0 (N * N))
    end.

  (** ** Addition and scaling: bml_add_dense_typed.c, bml_scale_dense_typed.c *)

  (** BLAS SCAL(n, alpha, x, 1) and AXPY(n, a, x, 1, y, 1) with x and y different *)
  Definition scal (n : nat) (alpha : F) (x : list F) : res (list F) :=
    for_n n (fun i x => upd x i (fun v => alpha * v)) x.
  Definition axpy (n : nat) (a : F) (x y : list F) : res (list F) :=
    for_n n (fun i y => v <- rd x i ;; upd y i (fun w => w + a * v)) y.
  (** AXPY with x == y *)
  Definition axpy_self (n : nat) (a : F) (y : list F) : res (list F) :=
    for_n n (fun i y => v <- rd y i ;; upd y i (fun w => w + a * v)) y.

  (** bml_add_dense 49-142: nElems = B's localRowExtent * B->N *)
  Definition dense_add (alpha beta : F) (A B : dense) : res dense :=
    let n := (dN B * dN B)%nat in
    a <- scal n alpha (dmx A) ;; a <- axpy n beta (dmx B) a ;; Ok (mkDense (dN A) a).
  (** the same call with B == A *)
  Definition dense_add_self (alpha beta : F) (A : dense) : res dense :=
    let n := (dN A * dN A)%nat in
    a <- scal n alpha (dmx A) ;; a <- axpy_self n beta a ;; Ok (mkDense (dN A) a).
  (** bml_add_norm_dense 155-184 *)
  Definition dense_add_norm (alpha beta : F) (A B : dense) (nth : nat) (sched : list (nat * nat)) : res (dense * F) :=
    trnorm <- par_sum nth sched (fun i => b <- rd (dmx B) i ;; Ok (b * b)) ;;
    A <- dense_add alpha beta A B ;;
    Ok (A, trnorm).
  (** bml_add_identity_dense 195-231 *)
  Definition dense_add_identity (beta : F) (A : dense) (sched : list (nat * nat)) : res dense :=
    par_do sched (fun i A => x <- d_at A i i ;; d_put A i i (x + beta)) A.
  (** bml_scale_inplace_dense 114-141 *)
  Definition dense_scale_inplace (s : F) (A : dense) : res dense :=
    a <- scal (dN A * dN A) s (dmx A) ;; Ok (mkDense (dN A) a).
  (** bml_scale_add_identity_dense 243-253 *)
  Definition dense_scale_add_identity (alpha beta : F) (A : dense) (sched : list (nat * nat)) : res dense :=
    A <- dense_scale_inplace alpha A ;; dense_add_identity beta A sched.

  (** ** Copy and reorder: bml_copy_dense_typed.c *)

  (** bml_copy_dense_new 32-64 *)
  Definition dense_copy_new (A : dense) (gv : nat -> F) : res dense :=
    m <- copy_cells (dmx (dense_noinit (dN A) gv)) 0 (dmx A) 0 (dN A * dN A) ;; Ok (mkDense (dN A) m).
  (** bml_copy_dense 73-104 *)
  Definition dense_copy (A B : dense) : res dense :=
    m <- copy_cells (dmx B) 0 (dmx A) 0 (dN A * dN A) ;; Ok (mkDense (dN B) m).
  (** bml_scale_dense_new 39-70 *)
  Definition dense_scale_new (s : F) (A : dense) (gv : nat -> F) : res dense :=
    B <- dense_copy_new A gv ;; dense_scale_inplace s B.
  (** bml_scale_dense 79-112 with A != B (with A == B it is dense_scale_inplace) *)
  Definition dense_scale (s : F) (A B : dense) : res dense :=
    B <- dense_copy A B ;; dense_scale_inplace s B.
  (** bml_reorder_dense 113-155 *)
  Definition dense_reorder (A : dense) (perm : list nat) (gv : nat -> F) (s1 s2 : list (nat * nat)) : res dense :=
    let N := dN A in
    B <- dense_copy_new A gv ;;
    A <- par_do s1 (fun i A =>
      pi <- rd perm i ;;
      m <- copy_cells (dmx A) (ROWMAJOR pi 0 N N) (dmx B) (ROWMAJOR i 0 N N) N ;;
      Ok (mkDense N m)) A ;;
    par_do s2 (fun i A =>
      for_n N (fun j A =>
        pj <- rd perm j ;;
        v <- d_at B i pj ;;
        d_put A i j v) A) A.

  (** ** Transpose: bml_transpose_dense_typed.c *)

  (** bml_transpose_new_dense 32-79 *)
  Definition dense_transpose_new (A : dense) (gv : nat -> F) (sched : list (nat * nat)) : res dense :=
    par_do sched (fun i B => for_n (dN A) (fun j B => v <- d_at A j i ;; d_put B i j v) B)
      (dense_noinit (dN A) gv).
  (** bml_transpose_dense 88-123: [sched] runs over i < N - 1; iteration i
      touches only the cells (i, j) and (j, i) with j > i *)
  Definition dense_transpose (A : dense) (sched : list (nat * nat)) : res dense :=
    let N := dN A in
    par_do sched (fun i A =>
      forM (seq (i + 1) (N - (i + 1))) (fun j A =>
        tmp <- d_at A i j ;;
        w <- d_at A j i ;;
        A <- d_put A i j w ;;
        d_put A j i tmp) A) A.

  (** bml_adjungate_triangle_dense_typed.c 27-65 with [conj], and
      bml_transpose_triangle_dense_typed.c 26-61 with the identity; an unknown
      character is rejected by the former and ignored by the latter *)
  Definition tri_u (conj : F -> F) (A : dense) (sched : list (nat * nat)) : res dense :=
    let N := dN A in
    par_do sched (fun i A =>
      forM (seq (i + 1) (N - (i + 1))) (fun j A => v <- d_at A i j ;; d_put A j i (conj v)) A) A.
  Definition tri_l (conj : F -> F) (A : dense) (sched : list (nat * nat)) : res dense :=
    let N := dN A in
    par_do sched (fun i A =>
      forM (seq (i + 1) (N - (i + 1))) (fun j A => v <- d_at A j i ;; d_put A i j (conj v)) A) A.
  Definition dense_adjungate_triangle (conj : F -> F) (A : dense) (t : triangle) (sched : list (nat * nat)) : res dense :=
    match t with TriU => tri_u conj A sched | TriL => tri_l conj A sched | TriOther => Err end.
  Definition dense_transpose_triangle (A : dense) (t : triangle) (sched : list (nat * nat)) : res dense :=
    match t with TriU => tri_u (fun x => x) A sched | TriL => tri_l (fun x => x) A sched | TriOther => Ok A end.

  (** ** Threshold: bml_threshold_dense_typed.c *)

  (** bml_threshold_new_dense 34-76 *)
  Definition dense_threshold_new (keep : F -> bool) (A : dense) (sched : list (nat * nat)) : res dense :=
    b <- par_do sched (fun i b => a <- rd (dmx A) i ;; if keep a then wr b i a else Ok b)
           (dmx (dense_zero (dN A))) ;;
    Ok (mkDense (dN A) b).
  (** bml_threshold_dense 86-125 *)
  Definition dense_threshold (keep : F -> bool) (A : dense) (sched : list (nat * nat)) : res dense :=
    a <- par_do sched (fun i a => x <- rd a i ;; if keep x then Ok a else wr a i 0) (dmx A) ;;
    Ok (mkDense (dN A) a).

  (** ** Traces: bml_trace_dense_typed.c *)

  (** bml_trace_dense 31-84 *)
  Definition dense_trace (A : dense) (nth : nat) (sched : list (nat * nat)) : res F :=
    par_sum nth sched (fun i => d_at A i i).
  (** bml_trace_mult_dense 95-157 *)
  Definition dense_trace_mult (A B : dense) (nth : nat) (sched : list (nat * nat)) : res F :=
    if negb (dN A =? dN B) then Err
    else par_sum nth sched (fun i => a <- rd (dmx A) i ;; b <- rd (dmx B) i ;; Ok (a * b)).

  (** ** Norms: bml_norm_dense_typed.c *)

  (** bml_sum_squares_dense 32-85 (the schedule covers all cells) and
      bml_sum_squares_submatrix_dense 95-155 (the schedule covers the cells
      0 .. core_size*N - 1) *)
  Definition dense_sum_squares (A : dense) (nth : nat) (sched : list (nat * nat)) : res F :=
    par_sum nth sched (fun i => a <- rd (dmx A) i ;; Ok (a * a)).
  (** bml_sum_AB_dense 167-227 *)
  Definition dense_sum_AB (keep : F -> bool) (A B : dense) (alpha : F) (nth : nat) (sched : list (nat * nat)) : res F :=
    par_sum nth sched (fun i => a <- rd (dmx A) i ;; b <- rd (dmx B) i ;;
      let temp := alpha * a * b in Ok (if keep temp then temp else 0)).
  (** bml_sum_squares2_dense 240-307 *)
  Definition dense_sum_squares2 (keep : F -> bool) (A B : dense) (alpha beta : F) (nth : nat) (sched : list (nat * nat)) : res F :=
    par_sum nth sched (fun i => a <- rd (dmx A) i ;; b <- rd (dmx B) i ;;
      let temp := alpha * a + beta * b in Ok (if keep temp then temp * temp else 0)).
  (** bml_fnorm2_dense 342-385 before the square root.  [temp] is shared by
      all threads, so the two statements of an iteration are separate events:
      [EvWr i]: temp = A_matrix[i] - B_matrix[i];  [EvAcc]: fnorm += temp * temp. *)
  Inductive f2_event := EvWr (i : nat) | EvAcc.
  Definition fnorm2_step (A B : dense) (te : nat * f2_event) (s : option F * (nat -> F)) : res (option F * (nat -> F)) :=
    let '(t, ev) := te in
    let '(temp, w) := s in
    match ev with
    | EvWr i => a <- rd (dmx A) i ;; b <- rd (dmx B) i ;; Ok (Some (a - b), w)
    | EvAcc => x <- use temp ;; Ok (temp, upd_fun w t (w t + x * x))
    end.
  Definition dense_fnorm2_sq (A B : dense) (nth : nat) (trace : list (nat * f2_event)) : res F :=
    '(_, w) <- forM trace (fnorm2_step A B) (None, fun _ => 0) ;;
    Ok (reduce_sum nth w).

  (** ** Products: bml_multiply_dense_typed.c, bml_element_multiply_dense_typed.c *)

  (** bml_multiply_dense 56-105, C different from A and B *)
  Definition dense_multiply (alpha beta : F) (A B C : dense) : res dense :=
    let N := dN A in
    c <- gemm TrN TrN N N N alpha (dmx B) N (dmx A) N beta (dmx C) N ;;
    Ok (mkDense (dN C) c).
  (** bml_multiply_x2_dense 116-128 *)
  Definition dense_multiply_x2 (X X2 : dense) (nth : nat) (s1 s2 : list (nat * nat)) : res (dense * F * F) :=
    t0 <- dense_trace X nth s1 ;;
    X2 <- dense_multiply 1 0 X X X2 ;;
    t1 <- dense_trace X2 nth s2 ;;
    Ok (X2, t0, t1).
  (** bml_multiply_AB_dense 140-147 *)
  Definition dense_multiply_AB (A B C : dense) : res dense := dense_multiply 1 0 A B C.
  (** bml_multiply_adjust_AB_dense 161-172 *)
  Definition dense_multiply_adjust_AB (A B C : dense) : res dense :=
    let N := dN A in
    c <- gemm TrT TrT N N N 1 (dmx A) N (dmx B) N 0 (dmx C) N ;;
    Ok (mkDense (dN C) c).
  (** bml_element_multiply_AB_dense 41-98 *)
  Definition dense_element_multiply_AB (A B C : dense) (sched : list (nat * nat)) : res dense :=
    c <- par_do sched (fun i c => a <- rd (dmx A) i ;; b <- rd (dmx B) i ;; wr c i (a * b)) (dmx C) ;;
    Ok (mkDense (dN C) c).

  (** ** Introspection: bml_introspection_dense_typed.c *)

  (** bml_get_row_bandwidth_dense 18-43; [nz] is |x| > 0 *)
  Definition dense_row_bandwidth (nz : F -> bool) (A : dense) (i : nat) : res nat :=
    for_n (dN A) (fun j bw => v <- d_at A i j ;; Ok (if nz v then S bw else bw)) 0%nat.
  (** bml_get_bandwidth_dense 50-83 *)
  Definition dense_bandwidth (nz : F -> bool) (A : dense) : res nat :=
    for_n (dN A) (fun i bw =>
      rb <- dense_row_bandwidth nz A i ;; Ok (if bw <? rb then rb else bw)) 0%nat.
  (** bml_get_sparsity_dense 91-124: the integer nnzs (the result is
      1 - nnzs / (N*N)) *)
  Definition dense_nnz_above (keep : F -> bool) (A : dense) : res nat :=
    for_n (dN A) (fun i n => for_n (dN A) (fun j n =>
      v <- d_at A i j ;; Ok (if keep v then S n else n)) n) 0%nat.

  (** ** Submatrices: bml_submatrix_dense_typed.c *)

  (** bml_extract_submatrix_dense 23-52 *)
  Definition dense_extract_submatrix (A : dense) (irow icol B_N : nat) : res dense :=
    forM (seq irow B_N) (fun i B => forM (seq icol B_N) (fun j B =>
      v <- d_at A i j ;; d_put B (i - irow) (j - icol) v) B) (dense_zero B_N).
  (** bml_assign_submatrix_dense 61-86 *)
  Definition dense_assign_submatrix (A B : dense) (irow icol : nat) : res dense :=
    let A_N := dN A in
    let B_N := dN B in
    for_n B_N (fun i A =>
      m <- copy_cells (dmx A) (ROWMAJOR (i + irow) icol A_N A_N) (dmx B) (ROWMAJOR i 0 B_N B_N) B_N ;;
      Ok (mkDense A_N m)) A.
End Dense.
