(** The distributed format (src/C-interface/distributed2d): p x p tasks, task
    r = myprow * p + mypcol holds the block (myprow, mypcol) of the matrix as a
    matrix of one of the other formats. *)
From Verif Require Import Base Spec EllpackModel EllpackSpec CsrModel CsrSpec GemmModel DenseModel FormatModel MpiModel.

(** bml_sqrtint (bml_utilities.c 561-573), for non-negative int; the products
    are not checked for overflow *)
Fixpoint sqrtint_loop (fuel i result x : nat) : res nat :=
  match fuel with
  | 0 => Loop
  | S fuel => if result <? x then sqrtint_loop fuel (S i) (S i * S i) x else Ok i
  end.
Definition bml_sqrtint (x : nat) : res nat := sqrtint_loop (S x) 1 1 x.

(** bml_setcomm_distributed2d (bml_allocate_distributed2d.c 16-39): the grid is
    dims = {p, p}; LOG_ERROR unless the number of tasks is a square *)
Definition bml_setcomm (ntasks : nat) : res nat :=
  p <- bml_sqrtint ntasks ;; if p * p =? ntasks then Ok p else Err.

(** bml_setup_distributed2d 42-75: n = N / p; assert(n * p == N) *)
Definition dist_setup (p N : nat) : res nat :=
  let n := N / p in if n * p =? N then Ok n else Err.

(** MPI_Cart_coords and MPI_Cart_shift on the periodic p x p grid in row-major
    rank order: (source, destination) of a shift by [disp] in dimension [dim] *)
Definition cart_row (p r : nat) : nat := r / p.
Definition cart_col (p r : nat) : nat := r mod p.
Definition cart_rank (p i j : nat) : nat := i * p + j.
Definition wrap (p x : nat) (d : Z) : nat := Z.to_nat ((Z.of_nat x + d) mod Z.of_nat p)%Z.
Definition cart_shift (p r dim : nat) (disp : Z) : nat * nat :=
  let i := cart_row p r in
  let j := cart_col p r in
  match dim with
  | 0 => (cart_rank p (wrap p i (- disp)) j, cart_rank p (wrap p i disp) j)
  | _ => (cart_rank p i (wrap p j (- disp)), cart_rank p i (wrap p j disp))
  end.

(** bml_matrix_distributed2d_t (bml_types_distributed2d.h 11-38), the fields of
    all tasks together: [tprec] tells whether matrix_precision is set *)
Record dist (F : scalar) := mkDist { tp : nat; tN : nat; tM : nat; tprec : bool; tblk : list (bmat F) }.
Arguments mkDist {F}. Arguments tp {F}. Arguments tN {F}. Arguments tM {F}. Arguments tprec {F}. Arguments tblk {F}.

Section Dist.
  Context {F : scalar}.
  Local Open Scope K_scope.
  Local Notation bmat := (bmat F).
  Local Notation env := (env F).
  Local Notation dist := (dist F).

  (** ** Functions of the formats not needed before *)

  (** bml_setters.c 60-99: bml_set_row *)
  Definition bml_set_row (keep : F -> bool) (A : bmat) (i : nat) (row : list F) : res bmat :=
    match A with
    | BDense A => A <- dense_set_row A i row ;; Ok (BDense A)
    | BEll A => A <- ell_set_row keep A i row ;; Ok (BEll A)
    | BCsr A => A <- csr_set_row keep A i row ;; Ok (BCsr A)
    end.
  (** bml_allocate.c: bml_noinit_matrix, bml_zero_matrix, bml_identity_matrix *)
  Definition bml_noinit_matrix (t : fmt) (N M : nat) (e : env) : bmat :=
    match t with
    | FDense => BDense (dense_noinit N (e_gv e))
    | FEll => BEll (ell_noinit N M (e_gv e) (e_gi e))
    | FCsr => BCsr (csr_noinit N M)
    end.
  Definition bml_zero_matrix (t : fmt) (N M : nat) : res bmat :=
    match t with
    | FDense => Ok (BDense (dense_zero N))
    | FEll => A <- ell_zero N M ;; Ok (BEll A)
    | FCsr => Ok (BCsr (csr_zero N M))
    end.
  Definition bml_identity_matrix (t : fmt) (N M : nat) (e : env) : res bmat :=
    match t with
    | FDense => A <- dense_identity N (e_rows e 0) ;; Ok (BDense A)
    | FEll => A <- ell_identity N M ;; Ok (BEll A)
    | FCsr => A <- csr_identity N M (e_rows e 0) ;; Ok (BCsr A)
    end.
  (** bml_copy.c 80-115: bml_copy into an existing matrix *)
  Definition bml_copy (A B : bmat) (e : env) : res bmat :=
    match A, B with
    | BDense A, BDense B => B <- dense_copy A B ;; Ok (BDense B)
    | BEll A, BEll B => B <- ell_copy A B ;; Ok (BEll B)
    | BCsr A, BCsr B => B <- csr_copy A B (e_rows e 0) ;; Ok (BCsr B)
    | _, _ => UB
    end.
  (** bml_import.c, bml_export.c *)
  Definition bml_import_from_dense (t : fmt) (o : dorder) (N M : nat) (keep : F -> bool) (D : list F) (e : env) : res bmat :=
    match t with
    | FDense => A <- dense_import o N D ;; Ok (BDense A)
    | FEll => A <- ell_import o N M keep D (e_rows e 0) ;; Ok (BEll A)
    | FCsr => A <- csr_import o N M keep D (e_rows e 0) ;; Ok (BCsr A)
    end.
  Definition bml_export_to_dense (A : bmat) (o : dorder) (e : env) : res (list F) :=
    match A with
    | BDense A => dense_export A o
    | BEll A => ell_export o A (e_rows e 0)
    | BCsr A => csr_export o A (e_rows e 0)
    end.

  (** ** Messages

      bml_mpi_send packs the matrix [msg]; bml_mpi_irecv and
      bml_mpi_irecv_complete store it into [own].
      dense (bml_parallel_dense_typed.c 76-145): the N*N cells.
      ellpack (bml_parallel_ellpack_typed.c 121-180): the arrays value, index, nnz.
      csr (bml_parallel_csr_typed.c 23-177): number of elements of every row,
      columns, values; the receive buffers hold NZMAX_*N*2 elements (a longer
      message is an MPI error), every row is then replaced with
      bml_set_sparse_row_csr and threshold 0 ([nz] is |x| > 0).
      Messages of another shape than [own] are not modelled (UB). *)
  Definition csr_nnz (A : csr F) : nat := fold_right (fun r s => (rnnz r + s)%nat) 0%nat (cdata A).
  Definition csr_receive (nz : F -> bool) (own msg : csr F) : res (csr F) :=
    if (cM own * cN own * 2 <? csr_nnz msg)%nat then Err else
    for_n (cN own) (fun i own =>
      r <- c_row msg i ;;
      '(cs, vs) <- for_n (rnnz r) (fun k '(cs, vs) => '(j, v) <- r_get r k ;; Ok (cs ++ [j], vs ++ [v])) ([], []) ;;
      csr_set_sparse_row nz own i cs vs) own.
  Definition bml_receive (nz : F -> bool) (own msg : bmat) : res bmat :=
    match own, msg with
    | BDense own, BDense msg => if (dN own =? dN msg)%nat then Ok (BDense msg) else UB
    | BEll own, BEll msg => if ((eN own =? eN msg) && (eM own =? eM msg))%nat%bool then Ok (BEll msg) else UB
    | BCsr own, BCsr msg => if (cN own =? cN msg)%nat then A <- csr_receive nz own msg ;; Ok (BCsr A) else UB
    | _, _ => UB
    end.

  (** ** All tasks *)
  Definition nowhere : bmat := BDense (dense_zero 0).
  Definition blk (D : dist) (r : nat) : bmat := nth r (tblk D) nowhere.
  Definition tasks (D : dist) : nat := (tp D * tp D)%nat.
  Definition tn (D : dist) : nat := tN D / tp D.
  Definition myprow (D : dist) (r : nat) : nat := cart_row (tp D) r.
  Definition mypcol (D : dist) (r : nat) : nat := cart_col (tp D) r.

  (** every task computes on its own *)
  Definition each {X} (P : nat) (f : nat -> res X) : res (list X) :=
    for_n P (fun r l => x <- f r ;; Ok (l ++ [x])) [].
  Definition with_blocks (D : dist) (b : list bmat) : dist := mkDist (tp D) (tN D) (tM D) (tprec D) b.
  Definition local (D : dist) (f : nat -> bmat -> res bmat) : res dist :=
    b <- each (tasks D) (fun r => f r (blk D r)) ;; Ok (with_blocks D b).

  (** MPI_Allreduce with MPI_SUM: every task gets the sum of the contributions,
      taken in some order of the tasks *)
  Definition allreduce (order : list nat) (v : list F) : F :=
    fold_left (fun s r => s + nth r v 0) order 0.

  (** ** Multiplication: bml_multiply_distributed2d_typed.c 30-105 *)
  Record cstate := mkC { qA : bmat; qB : bmat; qC : bmat; qA1 : bmat; qA2 : bmat; qB1 : bmat; qB2 : bmat }.

  Definition cannon_copies (E : nat -> nat -> env) (r : nat) (s : cstate) : res cstate :=
    A1 <- bml_copy_new (qA s) (E r 0%nat) ;;
    A2 <- bml_copy_new (qA s) (E r 1%nat) ;;
    B1 <- bml_copy_new (qB s) (E r 2%nat) ;;
    B2 <- bml_copy_new (qB s) (E r 3%nat) ;;
    Ok (mkC (qA s) (qB s) (qC s) A1 A2 B1 B2).
  Definition cannon_multiply (keep : F -> bool) (E : nat -> nat -> env) (alpha beta : F) (k : nat) (r : nat) (s : cstate) : res cstate :=
    C <- bml_multiply keep alpha beta (qA2 s) (qB2 s) (qC s) (E r (4 + k)%nat) ;;
    Ok (mkC (qA s) (qB s) C (qA1 s) (qA2 s) (qB1 s) (qB2 s)).
  Definition cannon_swap (r : nat) (s : cstate) : res cstate :=
    Ok (mkC (qA s) (qB s) (qC s) (qA2 s) (qA1 s) (qB2 s) (qB1 s)).
  Definition recv_A (nz : F -> bool) (r : nat) (m : bmat) (s : cstate) : res cstate :=
    A2 <- bml_receive nz (qA2 s) m ;; Ok (mkC (qA s) (qB s) (qC s) (qA1 s) A2 (qB1 s) (qB2 s)).
  Definition recv_B (nz : F -> bool) (r : nat) (m : bmat) (s : cstate) : res cstate :=
    B2 <- bml_receive nz (qB2 s) m ;; Ok (mkC (qA s) (qB s) (qC s) (qA1 s) (qA2 s) (qB1 s) B2).

  (** the block moved along dimension [dim] by [disp r], by the tasks [part] *)
  Definition shift_block (p dim : nat) (disp : nat -> Z) (part : nat -> bool)
      (get : nat -> cstate -> bmat) (put : nat -> bmat -> cstate -> res cstate) : block cstate bmat :=
    BExch (fun r => fst (cart_shift p r dim (disp r))) (fun r => snd (cart_shift p r dim (disp r))) part get put.

  Definition cannon (keep nz : F -> bool) (p : nat) (alpha beta : F) (E : nat -> nat -> env) : list (block cstate bmat) :=
    [ BLocal (cannon_copies E);
      shift_block p 1%nat (fun r => (-1 * Z.of_nat (cart_row p r))%Z) (fun r => 0 <? cart_row p r)%nat (fun _ => qA1) (recv_A nz);
      shift_block p 0%nat (fun r => (-1 * Z.of_nat (cart_col p r))%Z) (fun r => 0 <? cart_col p r)%nat (fun _ => qB1) (recv_B nz);
      BLocal (cannon_multiply keep E alpha beta 0%nat) ] ++
    flat_map (fun k =>
      [ BLocal cannon_swap;
        shift_block p 1%nat (fun _ => (-1)%Z) (fun _ => true) (fun _ => qA1) (recv_A nz);
        shift_block p 0%nat (fun _ => (-1)%Z) (fun _ => true) (fun _ => qB1) (recv_B nz);
        BLocal (cannon_multiply keep E alpha 1 k) ]) (seq 1 (p - 1))%nat.

  (** the three matrices A, B, C at the start of the call; the copies do not
      exist yet *)
  Definition cannon_start (A B C : dist) (r : nat) : cstate :=
    mkC (blk A r) (blk B r) (blk C r) nowhere nowhere nowhere nowhere.

  (** bml_multiply_distributed2d.c 23-56: LOG_ERROR when the precision field of
      A is not set; 68-99 bml_multiply_x2 and 112-143 bml_multiply_AB are calls
      with 1 and 0 *)
  Definition dist_multiply (keep nz : F -> bool) (alpha beta : F) (A : dist) (E : nat -> nat -> env) : res (list (block cstate bmat)) :=
    if tprec A then Ok (cannon keep nz (tp A) alpha beta E) else Err.

  (** ** Transpose: bml_transpose_distributed2d.c *)

  (** bml_noinit_matrix_distributed2d 115-134 on a given grid, one task *)
  Definition dist_noinit_block (t : fmt) (p N M : nat) (e : env) : res bmat :=
    if ((N =? 0) || (M =? 0))%nat%bool then Err else
    n <- dist_setup p N ;; Ok (bml_noinit_matrix t n (M / p)%nat e).
  (** bml_copy_distributed2d_new (bml_copy_distributed2d.c 19-35), one task *)
  Definition dist_copy_block (p N M : nat) (A : bmat) (e0 e1 : env) : res bmat :=
    if (M =? 0)%nat then Err else
    B <- dist_noinit_block (bml_get_type A) p N M e0 ;; bml_copy A B e1.

  Record tstate := mkT { uA : bmat; uB : bmat }.
  (** tasks on the diagonal do not exchange *)
  Definition exchange_block (p : nat) (get : nat -> tstate -> bmat) (put : nat -> bmat -> tstate -> res tstate) : block tstate bmat :=
    let remote r := cart_rank p (cart_col p r) (cart_row p r) in
    BExch remote remote (fun r => negb (cart_row p r =? cart_col p r))%nat get put.
  (** bml_transpose_new_distributed2d 21-42: B is received and transposed *)
  Definition dist_transpose_new (nz : F -> bool) (p N M : nat) (E : nat -> nat -> env) : list (block tstate bmat) :=
    [ BLocal (fun r s => B <- dist_copy_block p N M (uA s) (E r 0%nat) (E r 1%nat) ;; Ok (mkT (uA s) B));
      exchange_block p (fun _ => uA) (fun _ m s => B <- bml_receive nz (uB s) m ;; Ok (mkT (uA s) B));
      BLocal (fun r s => B <- bml_transpose (uB s) (E r 2%nat) ;; Ok (mkT (uA s) B)) ].
  (** bml_transpose_distributed2d 51-71: the copy B is sent, A is received and
      transposed *)
  Definition dist_transpose (nz : F -> bool) (p N M : nat) (E : nat -> nat -> env) : list (block tstate bmat) :=
    [ BLocal (fun r s => B <- dist_copy_block p N M (uA s) (E r 0%nat) (E r 1%nat) ;; Ok (mkT (uA s) B));
      exchange_block p (fun _ => uB) (fun _ m s => A <- bml_receive nz (uA s) m ;; Ok (mkT A (uB s)));
      BLocal (fun r s => A <- bml_transpose (uA s) (E r 2%nat) ;; Ok (mkT A (uB s))) ].
  Definition transpose_start (A : dist) (r : nat) : tstate := mkT (blk A r) nowhere.

  (** ** Constructors: bml_allocate_distributed2d.c *)

  (** bml_zero_matrix_distributed2d 149-168, bml_identity_matrix_distributed2d
      216-239 (the identity on the tasks of the diagonal, zero elsewhere) *)
  Definition dist_zero (t : fmt) (p N M : nat) : res dist :=
    if ((N =? 0) || (M =? 0))%nat%bool then Err else
    n <- dist_setup p N ;;
    b <- each (p * p)%nat (fun _ => bml_zero_matrix t n (M / p)%nat) ;;
    Ok (mkDist p N M true b).
  Definition dist_identity (t : fmt) (p N M : nat) (E : nat -> env) : res dist :=
    if (M =? 0)%nat then Err else
    n <- dist_setup p N ;;
    b <- each (p * p)%nat (fun r => if (cart_row p r =? cart_col p r)%nat then bml_identity_matrix t n (M / p)%nat (E r)
                                else bml_zero_matrix t n (M / p)%nat) ;;
    Ok (mkDist p N M true b).

  (** ** Setters and getters *)

  (** the n cells an array pointer at offset [off] is used for *)
  Definition window {X} (off n : nat) (l : list X) : list X := firstn n (skipn off l).

  (** bml_set_diagonal_distributed2d (typed 7-20), precision test in
      bml_setters_distributed2d.c 12-42 *)
  Definition dist_set_diagonal (keep : F -> bool) (A : dist) (diag : list F) : res dist :=
    if tprec A then
      local A (fun r b =>
        if (myprow A r =? mypcol A r)%nat
        then let offset := (myprow A r * tN A / tp A)%nat in bml_set_diagonal keep b (window offset (tn A) diag)
        else Ok b)
    else Err.
  (** bml_set_row_distributed2d (typed 22-43) *)
  Definition dist_set_row (keep : F -> bool) (A : dist) (i : nat) (row : list F) : res dist :=
    if tprec A then
      let nloc := tn A in
      local A (fun r b =>
        if (i <? myprow A r * nloc)%nat then Ok b else
        if ((myprow A r + 1) * nloc <=? i)%nat then Ok b else
        bml_set_row keep b (i - myprow A r * nloc)%nat (window (mypcol A r * nloc)%nat nloc row))
    else Err.
  (** bml_get_row_distributed2d (typed 9-55): the pieces, their lengths, the
      displacements displs[i+1] += recvcounts[i], then MPI_Allgatherv, which
      stores the pieces in some order of the tasks into the zeroed buffer *)
  Definition store_at (buf : list F) (d : nat) (piece : list F) : res (list F) :=
    for_n (length piece) (fun k buf => v <- rd piece k ;; wr buf (d + k)%nat v) buf.
  Definition get_row_displs (counts : list nat) (P : nat) : res (list nat) :=
    for_n (P - 1)%nat (fun i ds => c <- rd counts i ;; d <- rd ds (i + 1)%nat ;; wr ds (i + 1)%nat (d + c)%nat) (repeat 0%nat P).
  Definition dist_get_row (A : dist) (i : nat) (order : list nat) : res (list F) :=
    if tprec A then
      let nloc := tn A in
      pieces <- each (tasks A) (fun r =>
        if ((myprow A r * nloc <=? i) && (i <? (myprow A r + 1) * nloc))%nat%bool
        then row <- bml_get_row (blk A r) (i - myprow A r * nloc)%nat ;; Ok (firstn nloc row)
        else Ok []) ;;
      displs <- get_row_displs (map (@length F) pieces) (tasks A) ;;
      forM order (fun r buf => piece <- rd pieces r ;; d <- rd displs r ;; store_at buf d piece) (repeat 0 (tN A))
    else Err.

  (** ** Addition: bml_add_distributed2d.c *)

  (** 24-33, 47-60, 72-79, 91-99 *)
  Definition dist_add (keep : F -> bool) (alpha beta : F) (A B : dist) (E : nat -> env) : res dist :=
    local A (fun r b => bml_add keep alpha beta b (blk B r) (E r)).
  Definition dist_add_identity (keep : F -> bool) (beta : F) (A : dist) (E : nat -> env) : res dist :=
    local A (fun r b => bml_add_identity keep beta b (E r)).
  Definition dist_scale_add_identity (keep : F -> bool) (alpha beta : F) (A : dist) (E : nat -> env) : res dist :=
    local A (fun r b => bml_scale_add_identity keep alpha beta b (E r)).

  (** ** Copy, scale, threshold *)

  (** bml_copy_distributed2d.c 19-50 *)
  Definition dist_copy_new (A : dist) (E : nat -> nat -> env) : res dist :=
    b <- each (tasks A) (fun r => dist_copy_block (tp A) (tN A) (tM A) (blk A r) (E r 0%nat) (E r 1%nat)) ;;
    Ok (mkDist (tp A) (tN A) (tM A) true b).
  Definition dist_copy (A B : dist) (E : nat -> env) : res dist := local B (fun r b => bml_copy (blk A r) b (E r)).
  (** bml_scale_distributed2d.c 51-57 *)
  Definition dist_scale_inplace (a : F) (A : dist) (E : nat -> env) : res dist :=
    local A (fun r b => bml_scale_inplace a b (E r)).
  (** bml_threshold_distributed2d.c 19-35; bml_threshold.c 80-82 *)
  Definition dist_threshold_new (keep : F -> bool) (A : dist) (E : nat -> nat -> env) : res dist :=
    if (tM A =? 0)%nat then Err else
    b <- each (tasks A) (fun r =>
      B <- dist_copy_block (tp A) (tN A) (tM A) (blk A r) (E r 0%nat) (E r 1%nat) ;; bml_threshold keep B (E r 2%nat)) ;;
    Ok (mkDist (tp A) (tN A) (tM A) true b).
  Definition dist_threshold (keep : F -> bool) (A : dist) (E : nat -> env) : res dist :=
    local A (fun r b => bml_threshold keep b (E r)).

  (** ** Traces and norms: bml_trace_distributed2d.c, bml_norm_distributed2d.c *)

  Definition summed (P : nat) (order : list nat) (f : nat -> res F) : res F :=
    v <- each P f ;; Ok (allreduce order v).
  (** 18-30, 41-51 *)
  Definition dist_trace (A : dist) (E : nat -> env) (order : list nat) : res F :=
    summed (tasks A) order (fun r => if (myprow A r =? mypcol A r)%nat then bml_trace (blk A r) (E r) else Ok 0).
  Definition dist_trace_mult (A B : dist) (E : nat -> env) (order : list nat) : res F :=
    summed (tasks A) order (fun r => bml_trace_mult (blk A r) (blk B r) (E r)).
  (** norm 21-83 *)
  Definition dist_sum_squares (A : dist) (E : nat -> env) (order : list nat) : res F :=
    summed (tasks A) order (fun r => bml_sum_squares (blk A r) (E r)).
  Definition dist_sum_AB (keep : F -> bool) (alpha : F) (A B : dist) (E : nat -> env) (order : list nat) : res F :=
    summed (tasks A) order (fun r => bml_sum_AB keep alpha (blk A r) (blk B r) (E r)).
  Definition dist_sum_squares2 (keep : F -> bool) (alpha beta : F) (A B : dist) (E : nat -> env) (order : list nat) : res F :=
    summed (tasks A) order (fun r => bml_sum_squares2 keep alpha beta (blk A r) (blk B r) (E r)).

  (** ** Import and export *)

  (** LAPACK lacpy("A"): copy an m x m part between arrays in column-major order *)
  Definition lacpy (m : nat) (src : list F) (soff lds : nat) (dst : list F) (doff ldd : nat) : res (list F) :=
    for_n m (fun c dst => for_n m (fun r dst => v <- rd src (soff + r + c * lds)%nat ;; wr dst (doff + r + c * ldd)%nat v) dst) dst.

  (** bml_import_from_dense_distributed2d (typed 28-104): task 0 packs and sends
      the n x n part of every other task; the precision field stays unset *)
  Definition dist_import (t : fmt) (o : dorder) (p N M : nat) (keep : F -> bool) (D : list F) (E : nat -> env) : res dist :=
    if (M =? 0)%nat then Err else
    n <- dist_setup p N ;;
    let m := (M / p)%nat in
    if (n <? m)%nat then Err else if (m =? 0)%nat then Err else
    b <- each (p * p)%nat (fun r =>
      let off := if (r =? 0)%nat then 0%nat else (N * n * cart_row p r + n * cart_col p r)%nat in
      buf <- lacpy n D off N (repeat 0 (n * n)%nat) 0%nat n ;;
      bml_import_from_dense t o n m keep buf (E r)) ;;
    Ok (mkDist p N M false b).
  (** bml_export_to_dense_distributed2d (typed 24-82): task 0's array *)
  Definition dist_export (A : dist) (o : dorder) (E : nat -> env) : res (list F) :=
    let n := tn A in
    bufs <- each (tasks A) (fun r => bml_export_to_dense (blk A r) o (E r)) ;;
    for_n (tasks A) (fun r D =>
      buf <- rd bufs r ;;
      let off := if (r =? 0)%nat then 0%nat else (n * tN A * cart_row (tp A) r + n * cart_col (tp A) r)%nat in
      lacpy n buf 0%nat n D off (tN A)) (repeat 0 (tN A * tN A)%nat).
End Dist.
Arguments cstate F : clear implicits.
Arguments tstate F : clear implicits.
