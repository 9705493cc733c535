(** Distributed 2d matrices: scale into another matrix, conversion of the local
    format, and over the real numbers Gershgorin bounds, normalize, Frobenius
    norm and sparsity. *)
From Coq Require Import Reals.
From Verif Require Import Base Spec RealSpec EllpackModel GershModel CsrModel CsrGershModel GemmModel DenseModel DenseRealModel FormatModel
  MpiModel Dist2dModel.

Section DistRest.
  Context {F : scalar}.
  Local Notation bmat := (bmat F).
  Local Notation env := (env F).
  Local Notation dist := (dist F).

  (** bml_scale.c 63-93: bml_scale (A into B) *)
  Definition bml_scale (a : F) (A B : bmat) (e : env) : res bmat :=
    match A, B with
    | BDense A, BDense B => B <- dense_scale a A B ;; Ok (BDense B)
    | BEll A, BEll B => B <- ell_scale a A B ;; Ok (BEll B)
    | BCsr A, BCsr B => B <- csr_scale a A B (e_rows e 0) (e_rows e 1) ;; Ok (BCsr B)
    | _, _ => UB
    end.
  (** bml_scale_distributed2d.c 18-34: bml_scale_distributed2d_new *)
  Definition dist_scale_new (a : F) (A : dist) (E : nat -> nat -> env) : res dist :=
    if tM A =? 0 then Err else
    b <- each (tasks A) (fun r =>
      B <- dist_noinit_block (bml_get_type (blk A r)) (tp A) (tN A) (tM A) (E r 0) ;; bml_scale a (blk A r) B (E r 1)) ;;
    Ok (mkDist (tp A) (tN A) (tM A) true b).
  (** 43-49: bml_scale_distributed2d *)
  Definition dist_scale (a : F) (A B : dist) (E : nat -> env) : res dist := local B (fun r b => bml_scale a (blk A r) b (E r)).

  (** bml_convert_distributed2d.c 13-33: the blocks are converted; B is made by
      bml_zero_matrix_distributed2d and its block replaced (the zero block is
      not freed) *)
  Definition dist_convert (nz : F -> bool) (A : dist) (t : fmt) (M : nat) : res dist :=
    if ((tN A =? 0) || (M =? 0))%bool then Err else
    _ <- dist_setup (tp A) (tN A) ;;
    b <- each (tasks A) (fun r => bml_convert nz (blk A r) t (bml_get_M (blk A r))) ;;
    Ok (mkDist (tp A) (tN A) M true b).

  (** bml_add_distributed2d.c 47-60: the norms of the tasks are added *)
  Definition dist_add_norm (keep : F -> bool) (alpha beta : F) (A B : dist) (E : nat -> env) (order : list nat) : res (dist * F) :=
    l <- each (tasks A) (fun r => bml_add_norm keep alpha beta (blk A r) (blk B r) (E r)) ;;
    Ok (with_blocks A (map fst l), allreduce order (map snd l)).
End DistRest.

Local Open Scope R_scope.

(** bml_normalize.c 53-77: bml_accumulate_offdiag *)
Definition bml_accumulate_offdiag (A : bmat Rscalar) (flag : bool) : res (list R) :=
  match A with
  | BDense A => dense_accumulate_offdiag A flag
  | BEll A => ell_accumulate_offdiag A flag
  | BCsr A => csr_accumulate_offdiag A flag
  end.

(** MPI_Allreduce with MPI_MIN, MPI_MAX: taken in some order of the tasks *)
Definition allreduce_with (op : R -> R -> R) (order : list nat) (v : list R) : R :=
  match order with
  | nil => 0
  | cons r rs => fold_left (fun s r => op s (nth r v 0)) rs (nth r v 0)
  end.

(** bml_gershgorin_distributed2d (typed 32-67).  row_comm contains the tasks of
    one grid row in the order of their columns (bml_allocate_distributed2d.c
    71); [rowo r] is the order in which the sums of the row of task r are added. *)
Definition dist_row_sum (D : dist Rscalar) (sums : list (list R)) (rowo : list nat) (r : nat) : list R :=
  map (fun i => fold_left (fun s J => s + nth i (nth (cart_rank (tp D) (myprow D r) J) sums nil) 0) rowo 0) (seq 0 (tn D)).
Definition dist_gershgorin (A : dist Rscalar) (rowo : nat -> list nat) (omin omax : list nat) : res (R * R) :=
  sums <- each (tasks A) (fun r => bml_accumulate_offdiag (blk A r) (negb (myprow A r =? mypcol A r)%nat)) ;;
  ev <- each (tasks A) (fun r =>
    if (myprow A r =? mypcol A r)%nat then
      dval <- bml_get_diagonal (blk A r) ;;
      gersh_scan (tn A) (map Some (dval : list R)) (map Some (dist_row_sum A sums (rowo r) r))
    else Ok (DBL_MAX, DBL_MIN)) ;;
  Ok (allreduce_with Rmin omin (map fst ev), allreduce_with Rmax omax (map snd ev)).

(** bml_normalize_distributed2d (typed 16-30) *)
Definition dist_normalize (A : dist Rscalar) (mineval maxeval : R) (E : nat -> nat -> env Rscalar) : res (dist Rscalar) :=
  let maxminusmin := maxeval - mineval in
  let gershfact := maxeval / maxminusmin in
  let scalar := -1 / maxminusmin in
  local A (fun r b =>
    b <- bml_scale_inplace (scalar : Rscalar) b (E r 0%nat) ;;
    if (myprow A r =? mypcol A r)%nat then bml_add_identity (gtR 0 : Rscalar -> bool) (gershfact : Rscalar) b (E r 1%nat) else Ok b).

(** bml_fnorm of the formats (dense norm 316-332, ellpack 346-360, csr 237-251, without the reduction for row-distributed matrices):
    the square root of the sum of squares; bml_norm.c 180-207 *)
Definition bml_fnorm (A : bmat Rscalar) (e : env Rscalar) : res R := s <- bml_sum_squares A e ;; Ok (sqrt s).
(** bml_norm_distributed2d.c 90-100 *)
Definition dist_fnorm (A : dist Rscalar) (E : nat -> env Rscalar) (order : list nat) : res R :=
  s <- summed (tasks A) order (fun r => norm <- bml_fnorm (blk A r) (E r) ;; Ok ((norm * norm)%R : Rscalar)) ;;
  Ok (sqrt s).

(** bml_introspection.c 293-327: bml_get_sparsity, 1 - nnz / (N * N)
    (dense 91-124, ellpack 25-62, csr 24-60) *)
Definition bml_nnz_above {F : scalar} (keep : F -> bool) (A : bmat F) : res nat :=
  match A with
  | BDense A => dense_nnz_above keep A
  | BEll A => ell_nnz_above keep A
  | BCsr A => csr_nnz_above keep A
  end.
Definition bml_get_sparsity (keep : R -> bool) (A : bmat Rscalar) : res R :=
  c <- bml_nnz_above (keep : Rscalar -> bool) A ;; Ok (1 - INR c / INR (bml_get_N A * bml_get_N A)).
(** bml_introspection_distributed2d.c 90-103 *)
Definition dist_get_sparsity (keep : R -> bool) (A : dist Rscalar) (order : list nat) : res R :=
  let nloc := tn A in
  s <- summed (tasks A) order (fun r => sp <- bml_get_sparsity keep (blk A r) ;; Ok (sp * INR (nloc * nloc) : Rscalar)) ;;
  Ok (s / INR (tN A * tN A)).
