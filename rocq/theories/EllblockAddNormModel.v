(** bml_add_norm_ellblock (src/C-interface/ellblock/bml_add_ellblock_typed.c). *)
From Verif Require Import Base Spec EllpackModel EllblockModel.

Section AddNorm.
  Context {F : scalar}.
  Local Open Scope K_scope.
  Local Notation eb := (eb F).

  (** bml_types_ellblock.h 56 *)
  Definition BMAXSIZE : nat := 25.

  (** the state of one row: ix, jx and x in [w], then y, and l.  x and y are one
      array each, cut into NB pieces of BMAXSIZE elements (236-249); the model has NB
      separate arrays, so that an access past the piece of a column is UB. *)
  Definition an_row : Type := wsp (list F) * list (list F) * nat.

  (** lines 259-271, 288-300: clear x and y where the column is new *)
  Definition an_touch (ib jb n : nat) (s : an_row) : res an_row :=
    let '(w, ys, l) := s in
    m <- rd (wix w) jb ;;
    '(w, l) <- bws_touch ib jb n (w, l) ;;
    ys <- (if (m =? 0)%nat then y <- rd ys jb ;; y <- blk_zero n y ;; wr ys jb y else Ok ys) ;;
    Ok (w, ys, l).
  (** lines 255-279 and 284-309: x = x + a * B, y = y + b * B with b = 1 for the row of A
      and b = -1 for the row of B.  ROWMAJOR(ib, jp, NB, MB) with the dimensions of A. *)
  Definition an_acc (bs : list nat) (NB MB : nat) (B : eb) (a b : F) (ib : nat) (s : an_row) : res an_row :=
    n <- b_nnz B ib ;;
    for_n n (fun jp s =>
      let k := ROWMAJOR ib jp NB MB in
      jb <- rd (bidx B) k ;;
      bi <- rd bs ib ;; bj <- rd bs jb ;;
      '(w, ys, l) <- an_touch ib jb (bi * bj)%nat s ;;
      v <- b_blk B k ;;
      w <- bws_upd jb (blk_axpy (bi * bj)%nat a v) w ;;
      y <- rd ys jb ;; y <- blk_axpy (bi * bj)%nat b v y ;; ys <- wr ys jb y ;;
      Ok (w, ys, l)) s.

  (** one iteration of lines 253-339.  The block is copied into A_ptr_value[kb] as it is:
      no block is allocated. *)
  Definition an_iter (keep : F -> bool) (alpha beta : F) (B : eb) (ib : nat) (s : eb * wsp (list F) * list (list F) * F)
      : res (eb * wsp (list F) * list (list F) * F) :=
    let '(A, w, ys, t) := s in
    s1 <- an_acc (bbs A) (bNB A) (bMB A) A alpha 1 ib (w, ys, 0%nat) ;;
    s2 <- an_acc (bbs A) (bNB A) (bMB A) B beta (- (1)) ib s1 ;;
    let '(w, ys, l) := s2 in
    A <- b_wnnz A ib l ;;
    '(A, w, ys, t, ll) <- for_n l (fun jp '(A, w, ys, t, ll) =>
      jb <- rd (wjx w) jp ;;
      x <- rd (wx w) jb ;; y <- rd ys jb ;;
      bi <- b_bs A ib ;; bj <- b_bs A jb ;;
      above <- blk_above keep (bi * bj)%nat x ;;
      q <- blk_sum (fun v => v * v) (bi * bj)%nat y ;;
      '(A, ll) <- (if (above : bool) then
          let kb := b_at A ib ll in
          z <- b_blk A kb ;; z <- blk_copy (bi * bj)%nat x z ;; A <- b_wblk A kb z ;;
          A <- b_widx A kb jb ;;
          Ok (A, S ll)
        else Ok (A, ll)) ;;
      w <- bws_upd jb (blk_zero (bi * bj)%nat) w ;;
      y <- blk_zero (bi * bj)%nat y ;; ys <- wr ys jb y ;;
      ix <- wr (wix w) jb 0%nat ;;
      Ok (A, mkWs ix (wjx w) (wx w), ys, t + q * q, ll)) (A, w, ys, t, 0%nat) ;;
    A <- b_wnnz A ib ll ;;
    Ok (A, w, ys, t).

  (** lines 211-342, B another object than A: the changed A and trnorm *)
  Definition eb_add_norm (keep : F -> bool) (alpha beta : F) (A B : eb) : res (eb * F) :=
    '(A, _, _, t) <- for_n (bNB A) (an_iter keep alpha beta B)
      (A, bws_new (bNB A) BMAXSIZE, repeat (repeat 0 BMAXSIZE) (bNB A), 0) ;;
    Ok (A, t).
End AddNorm.
