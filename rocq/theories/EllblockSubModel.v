(** Submatrices of block ellpack matrices
    (src/C-interface/ellblock/bml_submatrix_ellblock_typed.c). *)
From Verif Require Import Base Spec EllpackModel EllblockModel.

(** while (count < n) { count += bsize[b]; b++; } (54-59, 62-68, 71-77): the
    number of blocks counted and their rows; reading past the array is UB *)
Fixpoint count_blocks (bs : list nat) (b count n : nat) : res (nat * nat) :=
  if n <=? count then Ok (b, count) else
  match bs with [] => UB | x :: bs => count_blocks bs (S b) (count + x) n end.
(** ... followed by assert(count == n) *)
Definition block_start (bs : list nat) (n : nat) : res nat :=
  '(b, count) <- count_blocks bs 0 0 n ;; if count =? n then Ok b else Err.

Section EllblockSub.
  Context {F : scalar}.
  Local Notation eb := (eb F).

  (** bml_extract_submatrix_ellblock 28-111 *)
  Definition eb_extract (c : cache) (A : eb) (irow icol BN BM : nat) (g : nat -> F) : res (cache * eb) :=
    '(c, B) <- eb_zero c BN BM ;;
    irowb <- block_start (bbs A) irow ;;
    icolb <- block_start (bbs A) icol ;;
    '(nb, _) <- count_blocks (bbs A) 0 0 BN ;;
    B <- forM (seq irowb nb) (fun ib B =>
      b_for_row A ib (fun k jb B =>
        if ((icolb <=? jb) && (jb <? icolb + nb))%bool then
          bi <- b_bs A ib ;; bj <- b_bs A jb ;; n <- b_nnz B (ib - irowb) ;; x <- b_blk A k ;;
          b_new B (ib - irowb) n (jb - icolb) (bi * bj) g (fun y => blk_copy (bi * bj) x y)
        else Ok B) B) B ;;
    Ok (c, B).

  (** bml_assign_submatrix_ellblock 120-183 *)
  Definition eb_assign (A B : eb) (irow icol : nat) (g : nat -> F) : res eb :=
    irowb <- block_start (bbs A) irow ;;
    icolb <- block_start (bbs A) icol ;;
    for_n (bNB B) (fun ib A =>
      b_for_row B ib (fun k jb A =>
        bi <- b_bs A ib ;; bj <- b_bs A jb ;; n <- b_nnz A (ib + irowb) ;; x <- b_blk B k ;;
        b_new A (ib + irowb) n (jb + icolb) (bi * bj) g (fun y => blk_copy (bi * bj) x y)) A) A.
End EllblockSub.
