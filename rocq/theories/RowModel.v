(** Matrices distributed by rows over MPI ranks (distribution_mode ==
    distributed): every rank has a whole matrix, computes the rows
    localRowMin[myRank] .. localRowMax[myRank] - 1 of its domain (DomainModel),
    and bml_allGatherVParallel exchanges the computed rows.
    A matrix of all ranks is the list of the ranks' matrices.  The ranks hold the
    same domain [d].  Rank r runs its loops over its rows with the schedule
    [scheds r].  Host code path. *)
From Verif Require Import Base Spec EllpackModel GemmModel DenseModel DomainModel.

(** the ranks 0 .. P-1 each run [f] *)
Definition ranks {T} (P : nat) (f : nat -> res T) : res (list T) :=
  for_n P (fun r l => x <- f r ;; Ok (l ++ [x])) [].

(** MPI_Allgatherv(MPI_IN_PLACE, 0, MPI_DATATYPE_NULL, buf, counts, displs, ...):
    rank s contributes the elements displs[s] .. displs[s] + counts[s] - 1 of its
    buffer, every rank receives all contributions at the same places.  Receive
    places outside the buffer or written twice are erroneous (UB). *)
Definition disjoint_segments (P : nat) (counts displs : list nat) : bool :=
  forallb (fun s => forallb (fun t =>
      (s =? t) || (nth s counts 0 =? 0) || (nth t counts 0 =? 0) ||
      (nth s displs 0 + nth s counts 0 <=? nth t displs 0) ||
      (nth t displs 0 + nth t counts 0 <=? nth s displs 0)) (seq 0 P)) (seq 0 P).
Definition segment {T} (buf : list T) (displ count : nat) : res (list T) :=
  if (count =? 0) || (displ + count <=? length buf) then Ok (firstn count (skipn displ buf)) else UB.
Definition put_segment {T} (buf : list T) (displ : nat) (seg : list T) : res (list T) :=
  if length seg =? 0 then Ok buf
  else if displ + length seg <=? length buf
  then Ok (firstn displ buf ++ seg ++ skipn (displ + length seg) buf) else UB.
Definition allgatherv {T} (counts displs : list nat) (bufs : list (list T)) : res (list (list T)) :=
  let P := length bufs in
  if disjoint_segments P counts displs then
    segs <- ranks P (fun s => b <- rd bufs s ;; c <- rd counts s ;; d <- rd displs s ;; segment b d c) ;;
    ranks P (fun r =>
      b <- rd bufs r ;;
      for_n P (fun s b => d <- rd displs s ;; g <- rd segs s ;; put_segment b d g) b)
  else UB.

(** MPI_Allreduce with MPI_SUM of one value per rank, in the order [order] *)
Definition allreduce_sum {F : scalar} (order : list nat) (vals : list F) : res F :=
  forM order (fun r s => v <- rd vals r ;; Ok (kadd s v)) k0.

Section Row.
  Context {F : scalar}.
  Local Open Scope K_scope.
  Local Notation ell := (ell F).
  Local Notation dense := (dense F).
  Variable d : domain.

  (** ** ellpack *)

  (** ellpack/bml_parallel_ellpack_typed.c 30-83 *)
  Definition row_gather (As : list ell) : res (list ell) :=
    nnzs <- allgatherv (localRowExtent d) (localRowMin d) (map ennz As) ;;
    idxs <- allgatherv (localElements d) (localDispl d) (map eidx As) ;;
    vals <- allgatherv (localElements d) (localDispl d) (map eval As) ;;
    ranks (length As) (fun r =>
      A <- rd As r ;; n <- rd nnzs r ;; x <- rd idxs r ;; v <- rd vals r ;;
      Ok (mkEll (eN A) (eM A) v x n)).

  (** bml_add_ellpack_typed.c 60-243, the rows of rank r *)
  Definition row_add (keep : F -> bool) (alpha beta : F) (As Bs : list ell)
             (scheds : nat -> list (nat * nat)) : res (list ell) :=
    ranks (length As) (fun r => A <- rd As r ;; B <- rd Bs r ;; ell_add keep alpha beta A B (scheds r)).

  (** bml_add_norm_ellpack, bml_add_ellpack_typed.c 243-424: every rank returns
      the norm of its rows *)
  Definition row_add_norm (keep : F -> bool) (alpha beta : F) (As Bs : list ell) (nth : nat)
             (scheds : nat -> list (nat * nat)) : res (list ell * list F) :=
    rs <- ranks (length As) (fun r => A <- rd As r ;; B <- rd Bs r ;; ell_add_norm keep alpha beta A B nth (scheds r)) ;;
    Ok (map fst rs, map snd rs).

  (** bml_multiply_AB_ellpack, bml_multiply_ellpack_typed.c 372-570 *)
  Definition row_multiply_AB (keep : F -> bool) (As Bs Cs : list ell)
             (scheds : nat -> list (nat * nat)) : res (list ell) :=
    ranks (length As) (fun r =>
      A <- rd As r ;; B <- rd Bs r ;; C <- rd Cs r ;; ell_multiply_AB keep A B C (scheds r)).

  (** bml_multiply_x2_ellpack 127-360: the matrices and the traces of X and X2 of
      every rank's rows *)
  Definition row_multiply_x2 (keep : F -> bool) (Xs X2s : list ell) (nth : nat)
             (scheds : nat -> list (nat * nat)) : res (list ell * list F * list F) :=
    rs <- ranks (length Xs) (fun r => X <- rd Xs r ;; X2 <- rd X2s r ;; ell_multiply_x2 keep X X2 nth (scheds r)) ;;
    Ok (map (fun c => fst (fst c)) rs, map (fun c => snd (fst c)) rs, map snd rs).

  (** bml_multiply_ellpack 55-118 for A != B: A2 is gathered (105-110) before it is
      added to C *)
  Definition row_multiply (keep : F -> bool) (alpha beta : F) (As Bs Cs : list ell)
             (s1 s2 : nat -> list (nat * nat)) (gv : nat -> F) (gi : nat -> nat) : res (list ell) :=
    A2s <- ranks (length Cs) (fun r => C <- rd Cs r ;; Ok (ell_noinit (eN C) (eM C) gv gi)) ;;
    A2s <- row_multiply_AB keep As Bs A2s s1 ;;
    A2s <- (if 1 <? length As then row_gather A2s else Ok A2s) ;;
    row_add keep beta alpha Cs A2s s2.

  (** bml_element_multiply_AB_ellpack, bml_element_multiply_ellpack_typed.c 40-250 *)
  Definition row_element_multiply (keep : F -> bool) (As Bs Cs : list ell)
             (scheds : nat -> list (nat * nat)) : res (list ell) :=
    ranks (length As) (fun r =>
      A <- rd As r ;; B <- rd Bs r ;; C <- rd Cs r ;; ell_element_multiply keep A B C (scheds r)).

  (** bml_threshold_new_ellpack and bml_threshold_ellpack,
      bml_threshold_ellpack_typed.c 29-145 *)
  Definition row_threshold_new (keep : F -> bool) (As : list ell) (scheds : nat -> list (nat * nat)) : res (list ell) :=
    ranks (length As) (fun r => A <- rd As r ;; ell_threshold_new keep A (scheds r)).
  Definition row_threshold (keep : F -> bool) (As : list ell) (scheds : nat -> list (nat * nat)) : res (list ell) :=
    ranks (length As) (fun r => A <- rd As r ;; ell_threshold keep A (scheds r)).

  (** bml_scale_inplace_ellpack, bml_scale_ellpack_typed.c 91-125:
      nElems = localRowExtent[myRank] * M values from localDispl[myRank] on *)
  Definition rank_scale (a : F) (r : nat) (A : ell) : res ell :=
    e <- rd (localRowExtent d) r ;; s <- rd (localDispl d) r ;;
    v <- blas_scal (e * eM A)%nat s a (eval A) ;;
    Ok (mkEll (eN A) (eM A) v (eidx A) (ennz A)).
  Definition row_scale (a : F) (As : list ell) : res (list ell) :=
    ranks (length As) (fun r => A <- rd As r ;; rank_scale a r A).

  (** bml_add_identity_ellpack, bml_add_ellpack_typed.c 432-550: on every rank a
      loop over all N rows *)
  Definition row_add_identity (keep : F -> bool) (beta : F) (As : list ell)
             (scheds : nat -> list (nat * nat)) : res (list ell) :=
    ranks (length As) (fun r => A <- rd As r ;; ell_add_identity keep beta A (scheds r)).
  (** bml_scale_add_identity_ellpack 562-573 *)
  Definition row_scale_add_identity (keep : F -> bool) (alpha beta : F) (As : list ell)
             (scheds : nat -> list (nat * nat)) : res (list ell) :=
    As <- row_scale alpha As ;; row_add_identity keep beta As scheds.

  (** bml_trace_ellpack and bml_trace_mult_ellpack (bml_trace_ellpack_typed.c
      30-180), bml_sum_squares_ellpack, bml_sum_AB_ellpack, bml_sum_squares2_ellpack
      (bml_norm_ellpack_typed.c 25-337): the values of the ranks' rows; the caller
      adds them with bml_sumRealReduce (bml_parallel.c 130-141) *)
  Definition row_trace (As : list ell) (nth : nat) (scheds : nat -> list (nat * nat)) : res (list F) :=
    ranks (length As) (fun r => A <- rd As r ;; ell_trace A nth (scheds r)).
  Definition row_trace_mult (As Bs : list ell) (nth : nat) (scheds : nat -> list (nat * nat)) : res (list F) :=
    ranks (length As) (fun r => A <- rd As r ;; B <- rd Bs r ;; ell_trace_mult A B nth (scheds r)).
  Definition row_sum_squares (As : list ell) (nth : nat) (scheds : nat -> list (nat * nat)) : res (list F) :=
    ranks (length As) (fun r => A <- rd As r ;; ell_sum_squares A nth (scheds r)).
  Definition row_sum_AB (keep : F -> bool) (alpha : F) (As Bs : list ell) (nth : nat)
             (scheds : nat -> list (nat * nat)) : res (list F) :=
    ranks (length As) (fun r => A <- rd As r ;; B <- rd Bs r ;; ell_sum_AB keep alpha A B nth (scheds r)).
  Definition row_sum_squares2 (keep : F -> bool) (alpha beta : F) (As Bs : list ell) (nth : nat)
             (scheds : nat -> list (nat * nat)) : res (list F) :=
    ranks (length As) (fun r => A <- rd As r ;; B <- rd Bs r ;; ell_sum_squares2 keep alpha beta A B nth (scheds r)).
  (** bml_fnorm_ellpack 346-361 and bml_fnorm2_ellpack 371-455 without the square
      root: the sum is taken over the ranks *)
  Definition row_fnorm_sq (As : list ell) (nth : nat) (scheds : nat -> list (nat * nat)) (order : list nat) : res F :=
    vs <- row_sum_squares As nth scheds ;;
    if 1 <? length As then allreduce_sum order vs else rd vs 0.
  Definition row_fnorm2_sq (As Bs : list ell) (nth : nat) (scheds : nat -> list (nat * nat)) (order : list nat) : res F :=
    vs <- ranks (length As) (fun r => A <- rd As r ;; B <- rd Bs r ;; ell_fnorm2_sq A B nth (scheds r)) ;;
    if 1 <? length As then allreduce_sum order vs else rd vs 0.

  (** bml_copy_ellpack, bml_copy_ellpack_typed.c 86-148: all rows on every rank *)
  Definition row_copy (As Bs : list ell) : res (list ell) :=
    ranks (length As) (fun r => A <- rd As r ;; B <- rd Bs r ;; ell_copy A B).

  (** ** dense: the domain has totalCols = N *)

  (** dense/bml_parallel_dense_typed.c 30-45 *)
  Definition row_gather_dense (As : list dense) : res (list dense) :=
    ms <- allgatherv (localElements d) (localDispl d) (map dmx As) ;;
    ranks (length As) (fun r => A <- rd As r ;; m <- rd ms r ;; Ok (mkDense (dN A) m)).

  (** bml_add_dense_typed.c 50-140: nElems = localRowExtent[myRank] * N elements.
      A->matrix is a void pointer, so A->matrix + startIndex is startIndex BYTES
      past the start of the array: with elements of [sz] bytes the operation
      starts at element startIndex / sz; an address that is not a multiple of the
      element size is UB. *)
  Definition scal_at (n start : nat) (a : F) (x : list F) : res (list F) :=
    for_n n (fun q x => v <- rd x (start + q)%nat ;; wr x (start + q)%nat (a * v)) x.
  Definition axpy_at (n start : nat) (a : F) (x y : list F) : res (list F) :=
    for_n n (fun q y => v <- rd x (start + q)%nat ;; u <- rd y (start + q)%nat ;;
                        wr y (start + q)%nat (u + a * v)) y.
  Definition rank_add_dense (sz : nat) (alpha beta : F) (r : nat) (A B : dense) : res dense :=
    e <- rd (localRowExtent d) r ;; s <- rd (localDispl d) r ;;
    if negb (s mod sz =? 0) then UB else
    let start := (s / sz)%nat in
    m <- scal_at (e * dN B)%nat start alpha (dmx A) ;;
    m <- axpy_at (e * dN B)%nat start beta (dmx B) m ;;
    Ok (mkDense (dN A) m).
  Definition row_add_dense (sz : nat) (alpha beta : F) (As Bs : list dense) : res (list dense) :=
    ranks (length As) (fun r => A <- rd As r ;; B <- rd Bs r ;; rank_add_dense sz alpha beta r A B).

  (** bml_scale_inplace_dense, bml_scale_dense_typed.c: &(A_matrix[startIndex]) with
      REAL_T *A_matrix, nElems = localRowExtent[myRank] * ld *)
  Definition rank_scale_dense (a : F) (r : nat) (A : dense) : res dense :=
    e <- rd (localRowExtent d) r ;; s <- rd (localDispl d) r ;;
    m <- scal_at (e * dN A)%nat s a (dmx A) ;;
    Ok (mkDense (dN A) m).
  Definition row_scale_dense (a : F) (As : list dense) : res (list dense) :=
    ranks (length As) (fun r => A <- rd As r ;; rank_scale_dense a r A).

  (** bml_add_identity_dense 200-240: the diagonal elements of the rank's rows *)
  Definition row_add_identity_dense (beta : F) (As : list dense) (scheds : nat -> list (nat * nat)) : res (list dense) :=
    ranks (length As) (fun r => A <- rd As r ;; dense_add_identity beta A (scheds r)).
  (** bml_threshold_dense, bml_threshold_dense_typed.c 90-125: cells
      localRowMin[myRank] * N .. localRowMax[myRank] * N - 1 *)
  Definition row_threshold_dense (keep : F -> bool) (As : list dense) (scheds : nat -> list (nat * nat)) : res (list dense) :=
    ranks (length As) (fun r => A <- rd As r ;; dense_threshold keep A (scheds r)).
  (** bml_element_multiply_AB_dense, bml_element_multiply_dense_typed.c 60-95 *)
  Definition row_element_multiply_dense (As Bs Cs : list dense) (scheds : nat -> list (nat * nat)) : res (list dense) :=
    ranks (length As) (fun r =>
      A <- rd As r ;; B <- rd Bs r ;; C <- rd Cs r ;; dense_element_multiply_AB A B C (scheds r)).
  (** bml_transpose_new_dense, bml_transpose_dense_typed.c 30-77: the rows of B of
      the rank, from the columns of A *)
  Definition row_transpose_new_dense (As : list dense) (gv : nat -> F) (scheds : nat -> list (nat * nat)) : res (list dense) :=
    ranks (length As) (fun r => A <- rd As r ;; dense_transpose_new A gv (scheds r)).
  (** bml_trace_mult_dense, bml_trace_dense_typed.c 95-157 *)
  Definition row_trace_mult_dense (As Bs : list dense) (nth : nat) (scheds : nat -> list (nat * nat)) : res (list F) :=
    ranks (length As) (fun r => A <- rd As r ;; B <- rd Bs r ;; dense_trace_mult A B nth (scheds r)).
  (** bml_multiply_dense: the whole product on every rank *)
  Definition row_multiply_dense (alpha beta : F) (As Bs Cs : list dense) : res (list dense) :=
    ranks (length As) (fun r =>
      A <- rd As r ;; B <- rd Bs r ;; C <- rd Cs r ;; dense_multiply alpha beta A B C).
  (** bml_trace_dense (bml_trace_dense_typed.c 40-90), bml_sum_squares_dense
      (bml_norm_dense_typed.c 40-90) *)
  Definition row_trace_dense (As : list dense) (nth : nat) (scheds : nat -> list (nat * nat)) : res (list F) :=
    ranks (length As) (fun r => A <- rd As r ;; dense_trace A nth (scheds r)).
  Definition row_sum_squares_dense (As : list dense) (nth : nat) (scheds : nat -> list (nat * nat)) : res (list F) :=
    ranks (length As) (fun r => A <- rd As r ;; dense_sum_squares A nth (scheds r)).
End Row.
