(** Model of the block ellpack format: src/C-interface/ellblock/*.
    All files cited below are in /repo/src/C-interface/ellblock.

    Simplifications common to the whole file:
    - REAL_T is an arbitrary commutative ring; the test |x| > threshold is the
      parameter [keep : F -> bool], so that bml_norm_inf(block) > threshold is
      "some element of the block is kept";
    - int indices are natural numbers;
    - the build without BML_ELLBLOCK_USE_MEMPOOL: every block is one malloc'ed
      object.  The blocks of one matrix live in its own heap: a list of objects,
      [None] once freed.  A pointer is an index into that heap, NULL is [None];
    - indexb of an unused slot (-1 in the code) is the number NB, which is not
      the index of a block column;
    - a loop over the elements of one block takes the contents of the block out
      of the heap, changes it and puts it back; where a loop changes two blocks
      both are taken out (blocks of slots in use are different objects);
    - asserts are checked: a failed one is Err;
    - OpenMP loops over block rows are [par_for], as in EllpackModel. *)
From Verif Require Import Base Spec EllpackModel.

(** bml_types_ellblock.h 11-53 *)
Record eb (F : scalar) : Type := mkEb {
  bN : nat; bM : nat; bNB : nat; bMB : nat;
  bbs : list nat;
  bptr : list (option nat); bidx : list nat; bnnz : list nat;
  bheap : list (option (list F)) }.
Arguments mkEb {F} _ _ _ _ _ _ _ _ _.
Arguments bN {F} _.
Arguments bM {F} _.
Arguments bNB {F} _.
Arguments bMB {F} _.
Arguments bbs {F} _.
Arguments bptr {F} _.
Arguments bidx {F} _.
Arguments bnnz {F} _.
Arguments bheap {F} _.

(** bml_allocate_ellblock.c 15-18: the static variables s_default_bsize,
    s_nb, s_mb; [None] while s_default_bsize is NULL. *)
Record defaults := mkDef { s_bsize : list nat; s_nb : nat; s_mb : nat }.
Definition cache := option defaults.

(** bml_get_block_sizes, bml_allocate_ellblock.c 48-81; s_default_block_dim is
    4.  For N = 0 the code writes s_default_bsize[-1]. *)
Definition bml_get_block_sizes (c : cache) (N M : nat) : res defaults :=
  match c with
  | Some d => Ok d
  | None =>
      if M =? 0 then Err else
      let nb := N / 4 in let nb := if nb * 4 <? N then S nb else nb in
      let mb := M / 4 in let mb := if mb * 4 <? M then S mb else mb in
      let mb := if mb <? 4 then 4 else mb in
      let mb := if nb <? mb then nb else mb in
      if nb =? 0 then UB else
      Ok (mkDef (repeat 4 (nb - 1) ++ [N - 4 * (nb - 1)]) nb mb)
  end.

Section Ellblock.
  Context {F : scalar}.
  Local Open Scope K_scope.
  Local Notation eb := (eb F).

  (** ** Access to slots and blocks *)

  Definition b_bs (A : eb) (ib : nat) : res nat := rd (bbs A) ib.
  Definition b_nnz (A : eb) (ib : nat) : res nat := rd (bnnz A) ib.
  Definition b_at (A : eb) (ib jp : nat) : nat := ROWMAJOR ib jp (bNB A) (bMB A).

  Definition b_widx (A : eb) (k c : nat) : res eb :=
    a <- wr (bidx A) k c ;; Ok (mkEb (bN A) (bM A) (bNB A) (bMB A) (bbs A) (bptr A) a (bnnz A) (bheap A)).
  Definition b_wptr (A : eb) (k : nat) (p : option nat) : res eb :=
    a <- wr (bptr A) k p ;; Ok (mkEb (bN A) (bM A) (bNB A) (bMB A) (bbs A) a (bidx A) (bnnz A) (bheap A)).
  Definition b_wnnz (A : eb) (ib n : nat) : res eb :=
    a <- wr (bnnz A) ib n ;; Ok (mkEb (bN A) (bM A) (bNB A) (bMB A) (bbs A) (bptr A) (bidx A) a (bheap A)).

  (** the object behind a pointer *)
  Definition deref (h : list (option (list F))) (p : option nat) : res (list F) :=
    match p with
    | None => UB
    | Some a => match nth_error h a with Some (Some v) => Ok v | _ => UB end
    end.
  (** contents of the block at A_ptr_value[k] *)
  Definition b_blk (A : eb) (k : nat) : res (list F) := p <- rd (bptr A) k ;; deref (bheap A) p.
  (** the block at A_ptr_value[k] gets the contents [v] *)
  Definition b_wblk (A : eb) (k : nat) (v : list F) : res eb :=
    p <- rd (bptr A) k ;;
    match p with
    | None => UB
    | Some a =>
        _ <- deref (bheap A) p ;;
        Ok (mkEb (bN A) (bM A) (bNB A) (bMB A) (bbs A) (bptr A) (bidx A) (bnnz A) (set_nth (bheap A) a (Some v)))
    end.
  (** A_ptr_value[k] = bml_allocate_block_ellblock(A, ib, nelements)
      (bml_allocate_ellblock_typed.c 21-39): a new object; [g] gives its
      unspecified contents *)
  Definition b_alloc (A : eb) (k nelements : nat) (g : nat -> F) : res eb :=
    A <- b_wptr A k (Some (length (bheap A))) ;;
    Ok (mkEb (bN A) (bM A) (bNB A) (bMB A) (bbs A) (bptr A) (bidx A) (bnnz A)
             (bheap A ++ [Some (map g (seq 0 nelements))])).
  (** bml_free_memory(A->ptr_value[k]); free(NULL) does nothing *)
  Definition b_free (A : eb) (k : nat) : res eb :=
    p <- rd (bptr A) k ;;
    match p with
    | None => Ok A
    | Some a =>
        _ <- deref (bheap A) p ;;
        Ok (mkEb (bN A) (bM A) (bNB A) (bMB A) (bbs A) (bptr A) (bidx A) (bnnz A) (set_nth (bheap A) a None))
    end.

  (** for (kk = 0; kk < n; kk++) x[kk] = f(kk) where [f] may read arrays and x[kk] *)
  Definition blk_map (n : nat) (f : nat -> F -> res F) (x : list F) : res (list F) :=
    for_n n (fun k x => v <- rd x k ;; u <- f k v ;; wr x k u) x.
  (** memset(x, 0, n) *)
  Definition blk_zero (n : nat) (x : list F) : res (list F) := blk_map n (fun _ _ => Ok 0) x.
  (** memcpy(dst, src, n) *)
  Definition blk_copy (n : nat) (src dst : list F) : res (list F) := blk_map n (fun k _ => rd src k) dst.
  (** x[kk] = x[kk] + a * v[kk] *)
  Definition blk_axpy (n : nat) (a : F) (v x : list F) : res (list F) :=
    blk_map n (fun k y => u <- rd v k ;; Ok (y + a * u)) x.
  (** bml_norm_inf(v, nrows, ncols, ncols) > threshold and bml_norm_inf_fast
      (bml_utilities_ellblock_typed.c 259-296); ROWMAJOR(i, j, nrows, ncols)
      runs through 0 .. nrows*ncols-1 *)
  Definition blk_above (keep : F -> bool) (n : nat) (x : list F) : res bool :=
    for_n n (fun k b => v <- rd x k ;; Ok (b || keep v)) false.

  (** Statements shared by the constructors and setters: allocate a block at
      slot [n] of row [ib], set its column, fill it, A_nnzb[ib] = n + 1.  In the
      code indexb is set before or after the block is filled and A_nnzb[ib]++
      comes last or before: no statement in between reads them. *)
  Definition b_new (A : eb) (ib n jb nelements : nat) (g : nat -> F) (fill : list F -> res (list F)) : res eb :=
    let k := b_at A ib n in
    A <- b_alloc A k nelements g ;;
    A <- b_widx A k jb ;;
    x <- b_blk A k ;; x <- fill x ;; A <- b_wblk A k x ;;
    b_wnnz A ib (S n).

  (** for (ii < m) for (jj < n) *)
  Definition for_2 {S} (m n : nat) (body : nat -> nat -> S -> res S) (s : S) : res S :=
    for_n m (fun ii s => for_n n (fun jj s => body ii jj s) s) s.

  (** for (jp = 0; jp < A_nnzb[ib]; jp++) { ind = ROWMAJOR(ib, jp, NB, MB); jb =
      A_indexb[ind]; body }; the bound is read once: the bodies do not change
      A_nnzb[ib] before the loop ends *)
  Definition b_for_row {S} (A : eb) (ib : nat) (body : nat -> nat -> S -> res S) (s : S) : res S :=
    n <- b_nnz A ib ;;
    for_n n (fun jp s => jb <- rd (bidx A) (b_at A ib jp) ;; body (b_at A ib jp) jb s) s.

  (** while (ii >= bsize[ib]) { ii -= bsize[ib]; ib++; } *)
  Fixpoint locate (bs : list nat) (ib ii : nat) : res (nat * nat) :=
    match bs with
    | [] => UB
    | b :: bs => if b <=? ii then locate bs (S ib) (ii - b) else Ok (ib, ii)
    end.
  (** offset[0] = 0; offset[ib] = offset[ib - 1] + bsize[ib - 1] for 1 <= ib < NB
      (export 43-49, import 48-53, get_row 103-106) *)
  Definition offsets (NB : nat) (bs : list nat) : res (list nat) :=
    o <- wr (repeat 0%nat NB) 0 0%nat ;;
    forM (seq 1 (NB - 1)) (fun ib o => p <- rd o (ib - 1) ;; b <- rd bs (ib - 1) ;; wr o ib (p + b)%nat) o.
  (** maxbsize = max of bsize[0..NB-1] (add 68-70, multiply 278-280) *)
  Definition maxbsize (NB : nat) (bs : list nat) : res nat :=
    for_n NB (fun ib m => b <- rd bs ib ;; Ok (Nat.max m b)) 0%nat.

  (** ** Constructors: bml_allocate_ellblock_typed.c, bml_allocate_ellblock.c *)

  (** bml_block_matrix_ellblock 176-243; bml_set_block_sizes 24-46.  The assert
      bsize[ib] < 1e6 is not modelled (int overflow guard). *)
  Definition block_matrix (c : cache) (NB MB M : nat) (bs : list nat) : res (cache * eb) :=
    if ((NB =? 0) || (MB =? 0))%nat%bool then Err else
    N <- for_n NB (fun ib N => b <- rd bs ib ;; Ok (N + b)%nat) 0%nat ;;
    if (N <? M)%nat then Err else
    let A := mkEb N M NB MB (firstn NB bs) (repeat None (NB * MB)) (repeat NB (NB * MB)) (repeat 0%nat NB) [] in
    match c with
    | Some d => if (s_mb d =? 0)%nat then Err else Ok (c, A)
    | None => Ok (Some (mkDef (firstn NB bs) NB MB), A)
    end.
  (** bml_zero_matrix_ellblock 224-256 and typed 245-261 *)
  Definition eb_zero (c : cache) (N M : nat) : res (cache * eb) :=
    if (N <? M)%nat then Err else
    d <- bml_get_block_sizes c N M ;; block_matrix (Some d) (s_nb d) (s_mb d) M (s_bsize d).
  (** bml_noinit_matrix_ellblock typed 146-159: bml_get_block_sizes(N, 0) *)
  Definition eb_noinit (c : cache) (N M : nat) : res (cache * eb) :=
    d <- bml_get_block_sizes c N 0 ;; block_matrix (Some d) (s_nb d) (s_mb d) M (s_bsize d).
  (** bml_identity_matrix_ellblock typed 410-449 *)
  Definition eb_identity (c : cache) (N M : nat) (g : nat -> F) : res (cache * eb) :=
    d <- bml_get_block_sizes c N M ;;
    '(c, A) <- block_matrix (Some d) (s_nb d) (s_mb d) M (s_bsize d) ;;
    A <- for_n (bNB A) (fun ib A =>
      b <- rd (s_bsize d) ib ;;
      b_new A ib 0 ib (b * b)%nat g (fun x =>
        x <- blk_zero (b * b)%nat x ;;
        for_n b (fun ii x => wr x (ROWMAJOR ii ii b b) 1) x)) A ;;
    Ok (c, A).

  (** bml_clear_ellblock 127-144: the blocks are freed, the pointers stay *)
  Definition eb_clear (A : eb) : res eb :=
    A <- for_n (bNB A) (fun ib A => n <- b_nnz A ib ;; for_n n (fun jp A => b_free A (b_at A ib jp)) A) A ;;
    for_n (bNB A) (fun ib A => b_wnnz A ib 0%nat) A.

  (** bml_free_block_ellblock 41-117 (the #else branch) *)
  Definition b_free_block (A : eb) (ib jb : nat) : res eb :=
    n <- b_nnz A ib ;;
    '(A, _) <- for_n n (fun jp '(A, found) =>
      if (found : bool) then Ok (A, true) else
      j <- rd (bidx A) (b_at A ib jp) ;;
      if (j =? jb)%nat then
        A <- b_free A (b_at A ib jp) ;;
        A <- forM (seq (S jp) (n - S jp)) (fun jpp A =>
               c <- rd (bidx A) (b_at A ib jpp) ;; A <- b_widx A (b_at A ib jpp - 1) c ;;
               p <- rd (bptr A) (b_at A ib jpp) ;; b_wptr A (b_at A ib jpp - 1) p) A ;;
        A <- b_wptr A (b_at A ib (n - 1)) None ;;
        A <- b_widx A (b_at A ib (n - 1)) (bNB A) ;;
        Ok (A, true)
      else Ok (A, false)) (A, false) ;;
    b_wnnz A ib (n - 1)%nat.

  (** ** Setters and getters: bml_setters_ellblock_typed.c, bml_getters_ellblock_typed.c *)

  (** A_value[ROWMAJOR(ii, jj, bsize[ib], bsize[jb])] = v for every slot of row
      ib holding column jb; whether there was one *)
  Definition put_found (A : eb) (ib ii jb jj : nat) (v : F) : res (eb * bool) :=
    n <- b_nnz A ib ;;
    for_n n (fun jp '(A, found) =>
      c <- rd (bidx A) (b_at A ib jp) ;;
      if (c =? jb)%nat then
        x <- b_blk A (b_at A ib jp) ;; bj <- b_bs A jb ;; bi <- b_bs A ib ;;
        x <- wr x (ROWMAJOR ii jj bi bj) v ;; A <- b_wblk A (b_at A ib jp) x ;; Ok (A, true)
      else Ok (A, found)) (A, false).
  (** a new zeroed block at slot A_nnzb[ib] with one element set *)
  Definition put_new (A : eb) (ib ii jb jj : nat) (v : F) (g : nat -> F) : res eb :=
    n <- b_nnz A ib ;; bi <- b_bs A ib ;; bj <- b_bs A jb ;;
    b_new A ib n jb (bi * bj)%nat g (fun x => x <- blk_zero (bi * bj)%nat x ;; wr x (ROWMAJOR ii jj bi bj) v).

  (** bml_set_element_new_ellblock 32-95; bml_set_element_ellblock 111-119 calls it *)
  Definition eb_set_element (A : eb) (i j : nat) (v : F) (g : nat -> F) : res eb :=
    '(ib, ii) <- locate (bbs A) 0 i ;; '(jb, jj) <- locate (bbs A) 0 j ;;
    '(A, found) <- put_found A ib ii jb jj v ;;
    if (found : bool) then Ok A else
    n <- b_nnz A ib ;;
    if (n =? bMB A)%nat then Err else
    p <- rd (bptr A) (b_at A ib n) ;;
    match p with Some _ => Err | None => put_new A ib ii jb jj v g end.

  (** bml_set_row_ellblock 131-199 *)
  Definition eb_set_row (keep : F -> bool) (A : eb) (i : nat) (row : list F) (g : nat -> F) : res eb :=
    '(ib, ii) <- locate (bbs A) 0 i ;;
    for_n (bN A) (fun k A =>
      v <- rd row k ;;
      if keep v then
        '(jb, jj) <- locate (bbs A) 0 k ;;
        '(A, found) <- put_found A ib ii jb jj v ;;
        if (found : bool) then Ok A else put_new A ib ii jb jj v g
      else Ok A) A.

  (** bml_set_diagonal_ellblock 209-284; &diagonal[offset] is [skipn offset] *)
  Definition eb_set_diagonal (keep : F -> bool) (A : eb) (diag : list F) (g : nat -> F) : res eb :=
    '(A, _) <- for_n (bNB A) (fun ib '(A, off) =>
      b <- b_bs A ib ;;
      n <- b_nnz A ib ;;
      '(A, found) <- for_n n (fun jp '(A, found) =>
        c <- rd (bidx A) (b_at A ib jp) ;;
        if (c =? ib)%nat then
          above <- blk_above keep b (skipn off diag) ;;
          x <- b_blk A (b_at A ib jp) ;;
          x <- for_n b (fun ii x => v <- (if (above : bool) then rd diag (off + ii) else Ok 0) ;; wr x (ROWMAJOR ii ii b b) v) x ;;
          A <- b_wblk A (b_at A ib jp) x ;; Ok (A, true)
        else Ok (A, found)) (A, false) ;;
      A <- (if (found : bool) then Ok A else
            above <- blk_above keep b (skipn off diag) ;;
            if (above : bool) then
              b_new A ib n ib (b * b)%nat g (fun x =>
                x <- blk_zero (b * b)%nat x ;;
                for_n b (fun ii x => v <- rd diag (off + ii) ;; wr x (ROWMAJOR ii ii b b) v) x)
            else Ok A) ;;
      Ok (A, (off + b)%nat)) (A, 0%nat) ;;
    Ok A.

  (** bml_get_element_ellblock 19-65 *)
  Definition eb_get_element (A : eb) (i j : nat) : res F :=
    if (bN A <=? i)%nat then Err else
    if (bN A <=? j)%nat then Err else
    '(ib, ii) <- locate (bbs A) 0 i ;; '(jb, jj) <- locate (bbs A) 0 j ;;
    r <- b_for_row A ib (fun k c r =>
      match r with
      | Some _ => Ok r
      | None => if (c =? jb)%nat then
                  x <- b_blk A k ;; bi <- b_bs A ib ;; bj <- b_bs A jb ;; v <- rd x (ROWMAJOR ii jj bi bj) ;; Ok (Some v)
                else Ok None
      end) None ;;
    Ok (match r with Some v => v | None => 0 end).

  (** bml_get_row_ellblock 76-125 *)
  Definition eb_get_row (A : eb) (i : nat) : res (list F) :=
    '(ib, ii) <- locate (bbs A) 0 i ;;
    off <- offsets (bNB A) (bbs A) ;;
    b_for_row A ib (fun k jb row =>
      if (jb <? bNB A)%nat then
        x <- b_blk A k ;; bi <- b_bs A ib ;; bj <- b_bs A jb ;;
        for_n bj (fun jj row => o <- rd off jb ;; v <- rd x (ROWMAJOR ii jj bi bj) ;; wr row (o + jj) v) row
      else Ok row) (repeat 0 (bN A)).

  (** bml_get_diagonal_ellblock 135-166 *)
  Definition eb_get_diagonal (A : eb) : res (list F) :=
    '(d, _) <- for_n (bNB A) (fun ib '(d, off) =>
      b <- b_bs A ib ;;
      d <- b_for_row A ib (fun k c d =>
        if (c =? ib)%nat then
          x <- b_blk A k ;; for_n b (fun ii d => v <- rd x (ROWMAJOR ii ii b b) ;; wr d (off + ii) v) d
        else Ok d) d ;;
      Ok (d, (off + b)%nat)) (repeat 0 (bN A), 0%nat) ;;
    Ok d.

  (** bml_set_block_ellblock 290-319 *)
  Definition eb_set_block (A : eb) (ib jb : nat) (elements : list F) : res eb :=
    if ((bNB A <=? ib) || (bNB A <=? jb))%nat%bool then Err else
    n <- b_nnz A ib ;;
    '(A, done) <- for_n n (fun jp '(A, done) =>
      if (done : bool) then Ok (A, true) else
      c <- rd (bidx A) (b_at A ib jp) ;;
      if (c =? jb)%nat then
        bi <- b_bs A ib ;; bj <- b_bs A jb ;;
        x <- b_blk A (b_at A ib jp) ;; x <- blk_copy (bi * bj)%nat elements x ;; A <- b_wblk A (b_at A ib jp) x ;; Ok (A, true)
      else Ok (A, false)) (A, false) ;;
    if (done : bool) then Ok A else Err.

  (** ** Import, export, convert *)

  Definition dense_pos (o : dorder) (N i j : nat) : nat := match o with row_major => ROWMAJOR i j N N | col_major => COLMAJOR i j N N end.

  (** a block filled with [f ii jj] *)
  Definition blk_fill (m n : nat) (f : nat -> nat -> res F) (x : list F) : res (list F) :=
    for_2 m n (fun ii jj x => v <- f ii jj ;; wr x (ROWMAJOR ii jj m n) v) x.

  (** bml_import_from_dense_ellblock 30-103; the temporary A_ij is malloc'ed
      (contents [g]) *)
  Definition eb_import (c : cache) (o : dorder) (N : nat) (D : list F) (keep : F -> bool) (M : nat) (g : nat -> F) : res (cache * eb) :=
    '(c, A) <- eb_zero c N M ;;
    off <- offsets (bNB A) (bbs A) ;;
    let NB := bNB A in
    A <- for_n NB (fun ib A =>
      A <- b_wnnz A ib 0%nat ;;
      for_n NB (fun jb A =>
        bi <- b_bs A ib ;; bj <- b_bs A jb ;;
        x <- blk_fill bi bj (fun ii jj => oi <- rd off ib ;; oj <- rd off jb ;; rd D (dense_pos o N (oi + ii) (oj + jj))) (map g (seq 0 (bi * bj))) ;;
        above <- blk_above keep (bi * bj)%nat x ;;
        if (above : bool) then
          n <- b_nnz A ib ;;
          b_new A ib n jb (bi * bj)%nat g (blk_copy (bi * bj)%nat x)
        else Ok A) A) A ;;
    Ok (c, A).

  (** bml_export_to_dense_ellblock 28-102; the asserts N > 0 and offset[ib] < N *)
  Definition eb_export (A : eb) (o : dorder) : res (list F) :=
    if (bN A =? 0)%nat then Err else
    off <- offsets (bNB A) (bbs A) ;;
    if negb (forallb (fun x => x <? bN A)%nat off) then Err else
    for_n (bNB A) (fun ib D =>
      b_for_row A ib (fun k jb D =>
        x <- b_blk A k ;; bi <- b_bs A ib ;; bj <- b_bs A jb ;;
        for_2 bi bj (fun ii jj D =>
          oi <- rd off ib ;; oj <- rd off jb ;; v <- rd x (ROWMAJOR ii jj bi bj) ;;
          wr D (dense_pos o (bN A) (oi + ii) (oj + jj)) v) D) D) (repeat 0 (bN A * bN A)).

  (** bml_convert_ellblock 16-73; [get i j] is bml_get_element of the source.
      Each block is written through bml_set_block,
      which searches the slots below B->nnzb[ib] = NB. *)
  Definition eb_convert (c : cache) (N : nat) (get : nat -> nat -> res F) (M : nat) (g : nat -> F) : res (cache * eb) :=
    d <- bml_get_block_sizes c N N ;;
    '(c, B) <- block_matrix (Some d) (s_nb d) (s_nb d) M (s_bsize d) ;;
    let NB := bNB B in
    off <- offsets NB (s_bsize d) ;;
    B <- for_n NB (fun ib B =>
      B <- b_wnnz B ib NB ;;
      for_n NB (fun jb B =>
        bi <- rd (s_bsize d) ib ;; bj <- rd (s_bsize d) jb ;;
        let ind := ROWMAJOR ib jb NB NB in
        B <- b_alloc B ind (bi * bj)%nat g ;;
        B <- b_widx B ind jb ;;
        x <- blk_fill bi bj (fun ii jj => oi <- rd off ib ;; oj <- rd off jb ;; get (oi + ii)%nat (oj + jj)%nat) (map g (seq 0 (bi * bj))) ;;
        eb_set_block B ib jb x) B) B ;;
    Ok (c, B).

  (** ** Copy and scale *)

  (** bml_copy_ellblock_new 22-62 *)
  Definition eb_copy_new (c : cache) (A : eb) (g : nat -> F) (sched : list (nat * nat)) : res (cache * eb) :=
    '(c, B) <- block_matrix c (bNB A) (bMB A) (bM A) (bbs A) ;;
    let B := mkEb (bN B) (bM B) (bNB B) (bMB B) (bbs B) (bptr B) (bidx A) (bnnz A) (bheap B) in
    '(B, _) <- par_for sched (fun ib '(B, tt) =>
      b <- b_bs B ib ;;
      if ((b =? 0) || (10 <=? b))%nat%bool then Err else
      B <- b_for_row A ib (fun k jb B =>
        if (bNB A <=? jb)%nat then Err else
        p <- rd (bptr B) k ;;
        match p with
        | Some _ => Err
        | None =>
            bi <- b_bs A ib ;; bj <- b_bs A jb ;;
            B <- b_alloc B k (bi * bj)%nat g ;;
            x <- b_blk A k ;; y <- b_blk B k ;; y <- blk_copy (bi * bj)%nat x y ;; b_wblk B k y
        end) B ;;
      Ok (B, tt)) B (fun _ => tt) ;;
    Ok (c, B).

  (** bml_copy_ellblock 71-109, B another object than A; memcpy of NB*MB
      indices with A's dimensions *)
  Definition eb_copy (A B : eb) (g : nat -> F) (sched : list (nat * nat)) : res eb :=
    if negb (bNB A =? bNB B)%nat then Err else
    if (length (bidx B) <? bNB A * bMB A)%nat then UB else
    let B := mkEb (bN B) (bM B) (bNB B) (bMB B) (bbs B) (bptr B)
                  (firstn (bNB A * bMB A) (bidx A) ++ skipn (bNB A * bMB A) (bidx B)) (bnnz A) (bheap B) in
    '(B, _) <- par_for sched (fun ib '(B, tt) =>
      B <- b_for_row A ib (fun k _ B =>
        jb <- rd (bidx B) k ;;
        bi <- b_bs A ib ;; bj <- b_bs A jb ;;
        p <- rd (bptr B) k ;;
        B <- match p with None => b_alloc B k (bi * bj)%nat g | Some _ => Ok B end ;;
        x <- b_blk A k ;; y <- b_blk B k ;; y <- blk_copy (bi * bj)%nat x y ;; b_wblk B k y) B ;;
      Ok (B, tt)) B (fun _ => tt) ;;
    Ok B.

  (** the loop of bml_scale_ellblock 66-77 on A == B (bml_scale_inplace 81-87);
      C_BLAS(SCAL) multiplies nElems elements by the factor *)
  Definition eb_scale_inplace (a : F) (A : eb) : res eb :=
    for_n (bNB A) (fun ib A =>
      n <- b_nnz A ib ;;
      for_n n (fun jp A =>
        jb <- rd (bidx A) (b_at A ib jp) ;; bi <- b_bs A ib ;; bj <- b_bs A jb ;;
        x <- b_blk A (b_at A ib jp) ;; x <- blk_map (bi * bj)%nat (fun _ v => Ok (a * v)) x ;; b_wblk A (b_at A ib jp) x) A) A.

  (** ** Addition: bml_add_ellblock_typed.c *)

  (** the work arrays of one thread: ix[NB], jx[NB], and NB blocks of maxbsize^2
      elements (add 61-77, multiply 271-288, 482-498).  The storage of add and
      multiply_AB is calloc'ed; that of multiply_x2 comes from
      bml_allocate_memory, which clears it too. *)
  Definition bws_new (NB m2 : nat) : wsp (list F) := mkWs (repeat 0%nat NB) (repeat 0%nat NB) (repeat (repeat 0 m2) NB).

  (** if (ix[jb] == 0) { clear n elements of x; ix[jb] = ib + 1; jx[l] = jb; l++ } *)
  Definition bws_touch (ib jb n : nat) (s : wsp (list F) * nat) : res (wsp (list F) * nat) :=
    let '(w, l) := s in
    m <- rd (wix w) jb ;;
    if (m =? 0)%nat then
      x <- rd (wx w) jb ;; x <- blk_zero n x ;; xs <- wr (wx w) jb x ;;
      ix <- wr (wix w) jb (S ib) ;; jx <- wr (wjx w) l jb ;; Ok (mkWs ix jx xs, S l)
    else Ok (w, l).
  (** change the work block of column jb *)
  Definition bws_upd (jb : nat) (f : list F -> res (list F)) (w : wsp (list F)) : res (wsp (list F)) :=
    x <- rd (wx w) jb ;; x <- f x ;; xs <- wr (wx w) jb x ;; Ok (mkWs (wix w) (wjx w) xs).

  (** one of the loops 117-138, 141-162: accumulate row ib of [B] times [a].
      ROWMAJOR(ib, jp, NB, MB) with the dimensions of the matrix [A] added to *)
  Definition badd_acc (bs : list nat) (NB MB : nat) (B : eb) (a : F) (ib : nat) (s : wsp (list F) * nat) : res (wsp (list F) * nat) :=
    n <- b_nnz B ib ;;
    for_n n (fun jp s =>
      let k := ROWMAJOR ib jp NB MB in
      jb <- rd (bidx B) k ;;
      bi <- rd bs ib ;; bj <- rd bs jb ;;
      '(w, l) <- bws_touch ib jb (bi * bj)%nat s ;;
      v <- b_blk B k ;;
      w <- bws_upd jb (blk_axpy (bi * bj)%nat a v) w ;; Ok (w, l)) s.

  (** one iteration of bml_add_ellblock, lines 93-194 *)
  Definition badd_row (keep : F -> bool) (alpha beta : F) (B : eb) (g : nat -> F) (ib : nat) (s : eb * wsp (list F)) : res (eb * wsp (list F)) :=
    let '(A, w) := s in
    s1 <- (if keqb alpha 0 then Ok (w, 0%nat) else badd_acc (bbs A) (bNB A) (bMB A) A alpha ib (w, 0%nat)) ;;
    s2 <- (if keqb beta 0 then Ok s1 else badd_acc (bbs A) (bNB A) (bMB A) B beta ib s1) ;;
    let '(w, l) := s2 in
    A <- b_wnnz A ib l ;;
    '(A, w, ll) <- for_n l (fun jp '(A, w, ll) =>
      jb <- rd (wjx w) jp ;;
      x <- rd (wx w) jb ;;
      bi <- b_bs A ib ;; bj <- b_bs A jb ;;
      above <- blk_above keep (bi * bj)%nat x ;;
      '(A, ll) <- (if (above : bool) then
          let kb := b_at A ib ll in
          p <- rd (bptr A) kb ;;
          A <- match p with None => b_alloc A kb (bi * bj)%nat g | Some _ => Ok A end ;;
          y <- b_blk A kb ;; y <- blk_copy (bi * bj)%nat x y ;; A <- b_wblk A kb y ;;
          A <- b_widx A kb jb ;;
          Ok (A, S ll)
        else Ok (A, ll)) ;;
      w <- bws_upd jb (blk_zero (bi * bj)%nat) w ;;
      ix <- wr (wix w) jb 0%nat ;;
      Ok (A, mkWs ix (wjx w) (wx w), ll)) (A, w, 0%nat) ;;
    A <- b_wnnz A ib ll ;;
    Ok (A, w).

  (** bml_add_ellblock 35-197, B another object than A.  The test "alpha > 0.0 ||
      alpha < 0.0" is "alpha is not 0". *)
  Definition eb_add (keep : F -> bool) (alpha beta : F) (A B : eb) (g : nat -> F) (sched : list (nat * nat)) : res eb :=
    if negb (bNB A =? bNB B)%nat then Err else
    a0 <- b_bs A 0 ;; b0 <- b_bs B 0 ;;
    if negb (a0 =? b0)%nat then Err else
    m <- maxbsize (bNB A) (bbs A) ;;
    '(A, _) <- par_for sched (fun ib s => badd_row keep alpha beta B g ib s) A (fun _ => bws_new (bNB A) (m * m)) ;;
    Ok A.

  (** bml_add_identity_ellblock 354-370: the identity has the default block sizes *)
  Definition eb_add_identity (c : cache) (keep : F -> bool) (beta : F) (A : eb) (g : nat -> F) (sched : list (nat * nat)) : res (cache * eb) :=
    '(c, Id) <- eb_identity c (bN A) 1 g ;;
    A <- eb_add keep 1 beta A Id g sched ;; Ok (c, A).
  (** bml_scale_add_identity_ellblock 383-394 *)
  Definition eb_scale_add_identity (c : cache) (keep : F -> bool) (alpha beta : F) (A : eb) (g : nat -> F) (sched : list (nat * nat)) : res (cache * eb) :=
    A <- eb_scale_inplace alpha A ;; eb_add_identity c keep beta A g sched.

  (** ** Multiplication: bml_multiply_ellblock_typed.c *)

  (** bml_multiply_block1 .. bml_multiply_block6 (28-168), called through
      fun_ptr_arr[bsizejb - 1] with ld = bsizejb: [r] products per element.  A
      table index outside 0..5 is undefined behaviour. *)
  Definition multiply_block (r : nat) (a b : list F) (bi bk : nat) (x : list F) : res (list F) :=
    if ((r =? 0) || (6 <? r))%nat%bool then UB else
    '(x, _) <- for_2 bi bk (fun ii jj '(x, xk) =>
      s <- for_n r (fun m s => u <- rd a (r * ii + m) ;; v <- rd b (r * jj + m) ;; Ok (s + u * v)) 0 ;;
      y <- rd x xk ;; x <- wr x xk (y + s) ;; Ok (x, S xk)) (x, 0%nat) ;;
    Ok x.
  (** T_value_right[jj * bsizejb + ii] = B_value[ii * bsizekb + jj] *)
  Definition transposed (bj bk : nat) (v T : list F) : res (list F) :=
    for_2 bj bk (fun ii jj T => u <- rd v (ii * bk + jj) ;; wr T (jj * bj + ii) u) T.

  (** the loops 553-584 of multiply_AB: row ib of A times B; [m2] = maxbsize^2,
      [g] the initial contents of T_value_right *)
  Definition bmul_acc (A B : eb) (m2 : nat) (g : nat -> F) (ib : nat) (s : wsp (list F) * nat) : res (wsp (list F) * nat) :=
    bi <- b_bs A ib ;;
    '(s, _) <- b_for_row A ib (fun k jb '(s, T) =>
      a <- b_blk A k ;; bj <- b_bs A jb ;;
      n <- b_nnz B jb ;;
      for_n n (fun kp '(s, T) =>
        let k2 := ROWMAJOR jb kp (bNB A) (bMB B) in
        kb <- rd (bidx B) k2 ;;
        '(w, l) <- bws_touch ib kb m2 s ;;
        v <- b_blk B k2 ;; bk <- b_bs A kb ;;
        T <- transposed bj bk v T ;;
        w <- bws_upd kb (multiply_block bj a T bi bk) w ;; Ok ((w, l), T)) (s, T)) (s, map g (seq 0 m2)) ;;
    Ok s.

  (** the loops 592-615 of multiply_AB and 400-431 of multiply_x2: blocks into
      row ib of C.  [extra] is evaluated on every kept block, with the position
      of the block in jx. *)
  Definition bmul_gather {T} (keep : F -> bool) (bs : list nat) (NB MB m2 : nat) (g : nat -> F) (ib l : nat)
      (extra : nat -> nat -> list F -> T -> res T) (C : eb) (w : wsp (list F)) (t : T) : res (eb * wsp (list F) * T) :=
    '(C, w, ll, t) <- for_n l (fun pos '(C, w, ll, t) =>
      jp <- rd (wjx w) pos ;; x <- rd (wx w) jp ;;
      bi <- rd bs ib ;; bj <- rd bs jp ;;
      above <- blk_above keep (bi * bj)%nat x ;;
      '(C, ll, t) <- (if ((jp =? ib)%nat || above)%bool then
          t <- extra pos jp x t ;;
          let ind := ROWMAJOR ib ll NB MB in
          C <- b_alloc C ind (bi * bj)%nat g ;;
          y <- b_blk C ind ;; y <- blk_copy (bi * bj)%nat x y ;; C <- b_wblk C ind y ;;
          C <- b_widx C ind jp ;; Ok (C, S ll, t)
        else Ok (C, ll, t)) ;;
      ix <- wr (wix w) jp 0%nat ;;
      w <- bws_upd jp (blk_zero m2) (mkWs ix (wjx w) (wx w)) ;;
      Ok (C, w, ll, t)) (C, w, 0%nat, t) ;;
    C <- b_wnnz C ib ll ;;
    Ok (C, w, t).

  (** bml_multiply_AB_ellblock 455-621; C another object than A and B *)
  Definition eb_multiply_AB (keep : F -> bool) (A B C : eb) (g : nat -> F) (sched : list (nat * nat)) : res eb :=
    if negb ((bNB A =? bNB B) && (bNB A =? bNB C))%nat%bool then Err else
    m <- maxbsize (bNB A) (bbs A) ;;
    '(C, _) <- par_for sched (fun ib '(C, w) =>
      '(w, lb) <- bmul_acc A B (m * m) g ib (w, 0%nat) ;;
      if (bMB C <? lb)%nat then Err else
      '(C, w, _) <- bmul_gather keep (bbs A) (bNB A) (bMB C) (m * m) g ib lb (fun _ _ _ t => Ok t) C w tt ;;
      Ok (C, w)) C (fun _ => bws_new (bNB A) (m * m)) ;;
    Ok C.

  (** bml_multiply_x2_ellblock 246-442; X2 another object than X.  The trace of
      the square reads xtmp[kk * (1 + bsize[jb])] with jb the position in jx.
      Thread state: work arrays and the partial sums of traceX and traceX2. *)
  Definition eb_multiply_x2 (keep : F -> bool) (X X2 : eb) (nth : nat) (g : nat -> F) (sched : list (nat * nat)) : res (eb * F * F) :=
    X2 <- eb_clear X2 ;;
    m <- maxbsize (bNB X) (bbs X) ;;
    '(X2, w) <- par_for sched (fun ib '(X2, (w, tx, tx2)) =>
      bi <- b_bs X ib ;;
      '((w, lb), tx) <- (
        tx <- b_for_row X ib (fun k jb tx =>
          if (jb =? ib)%nat then
            a <- b_blk X k ;; for_n bi (fun kk tx => v <- rd a (kk * (1 + bi)) ;; Ok (tx + v)) tx
          else Ok tx) tx ;;
        s <- bmul_acc X X (m * m) g ib (w, 0%nat) ;; Ok (s, tx)) ;;
      if (bMB X <? lb)%nat then Err else
      '(X2, w, tx2) <- bmul_gather keep (bbs X) (bNB X) (bMB X) (m * m) g ib lb
        (fun pos jp x t => if (jp =? ib)%nat then
            b <- b_bs X pos ;; for_n bi (fun kk t => v <- rd x (kk * (1 + b)) ;; Ok (t + v)) t
          else Ok t) X2 w tx2 ;;
      Ok (X2, (w, tx, tx2))) X2 (fun _ => (bws_new (bNB X) (m * m), 0, 0)) ;;
    Ok (X2, reduce_sum nth (fun t => snd (fst (w t))), reduce_sum nth (fun t => snd (w t))).

  (** bml_multiply_ellblock 183-231: A and B different objects, C another one *)
  Definition eb_multiply (c : cache) (keep : F -> bool) (alpha beta : F) (A B C : eb) (g : nat -> F) (s1 s2 : list (nat * nat)) : res (cache * eb) :=
    '(c, A2) <- block_matrix c (bNB C) (bMB C) (bM C) (bbs C) ;;
    A2 <- eb_multiply_AB keep A B A2 g s1 ;;
    C <- eb_add keep beta alpha C A2 g s2 ;; Ok (c, C).
  (** ... A == B *)
  Definition eb_multiply_sq (c : cache) (keep : F -> bool) (alpha beta : F) (A C : eb) (nth : nat) (g : nat -> F) (s1 s2 : list (nat * nat)) : res (cache * eb) :=
    if keqb alpha 1 && keqb beta 0 then
      '(C, _, _) <- eb_multiply_x2 keep A C nth g s1 ;; Ok (c, C)
    else
      '(c, A2) <- block_matrix c (bNB C) (bMB C) (bM C) (bbs C) ;;
      '(A2, _, _) <- eb_multiply_x2 keep A A2 nth g s1 ;;
      C <- eb_add keep beta alpha C A2 g s2 ;; Ok (c, C).

  (** ** Threshold: bml_threshold_ellblock_typed.c *)

  Definition blk_threshold (keep : F -> bool) (n : nat) (x : list F) : res (list F) :=
    blk_map n (fun _ v => Ok (if keep v then v else 0)) x.
  (** bml_threshold_new_ellblock 29-85 *)
  Definition eb_threshold_new (c : cache) (keep : F -> bool) (A : eb) (g : nat -> F) : res (cache * eb) :=
    '(c, B) <- block_matrix c (bNB A) (bMB A) (bM A) (bbs A) ;;
    B <- for_n (bNB A) (fun ib B =>
      b_for_row A ib (fun k jb B =>
        x <- b_blk A k ;; bi <- b_bs A ib ;; bj <- b_bs A jb ;;
        above <- blk_above keep (bi * bj)%nat x ;;
        if (above : bool) then
          n <- b_nnz B ib ;;
          b_new B ib n jb (bi * bj)%nat g (fun y => y <- blk_copy (bi * bj)%nat x y ;; blk_threshold keep (bi * bj)%nat y)
        else Ok B) B) B ;;
    Ok (c, B).
  (** bml_threshold_ellblock 95-140; row ib: jp++ or a block removed and jp-- *)
  Fixpoint threshold_row (keep : F -> bool) (ib fuel jp : nat) (A : eb) : res eb :=
    n <- b_nnz A ib ;;
    if (jp <? n)%nat then
      match fuel with
      | O => Loop
      | S fuel =>
          jb <- rd (bidx A) (b_at A ib jp) ;;
          x <- b_blk A (b_at A ib jp) ;; bi <- b_bs A ib ;; bj <- b_bs A jb ;;
          above <- blk_above keep (bi * bj)%nat x ;;
          if (above : bool) then
            x <- blk_threshold keep (bi * bj)%nat x ;; A <- b_wblk A (b_at A ib jp) x ;;
            threshold_row keep ib fuel (S jp) A
          else A <- b_free_block A ib jb ;; threshold_row keep ib fuel jp A
      end
    else Ok A.
  Definition eb_threshold (keep : F -> bool) (A : eb) : res eb :=
    for_n (bNB A) (fun ib A => n <- b_nnz A ib ;; threshold_row keep ib n 0 A) A.

  (** ** Transpose: bml_transpose_ellblock_typed.c *)

  (** bml_transpose_new_ellblock 28-73; B has the NB and MB of A *)
  Definition eb_transpose_new (c : cache) (A : eb) (g : nat -> F) : res (cache * eb) :=
    '(c, B) <- block_matrix c (bNB A) (bMB A) (bM A) (bbs A) ;;
    B <- for_n (bNB A) (fun ib B =>
      b_for_row A ib (fun k jb B =>
        n <- b_nnz B jb ;;
        bi <- b_bs A ib ;; bj <- b_bs A jb ;;
        x <- b_blk A k ;;
        b_new B jb n ib (bi * bj)%nat g (fun y =>
          for_2 bi bj (fun ii jj y => v <- rd x (ROWMAJOR ii jj bi bj) ;; wr y (ROWMAJOR jj ii bj bi) v) y)) B) B ;;
    Ok (c, B).

  (** ellblock_swap_block_row_entries 83-106 *)
  Definition swap_entries (A : eb) (ib p q : nat) : res eb :=
    if (p =? q)%nat then Ok A else
    t <- rd (bptr A) (b_at A ib p) ;; i <- rd (bidx A) (b_at A ib p) ;;
    t2 <- rd (bptr A) (b_at A ib q) ;;
    A <- b_wptr A (b_at A ib p) t2 ;; A <- b_wptr A (b_at A ib q) t ;;
    i2 <- rd (bidx A) (b_at A ib q) ;;
    A <- b_widx A (b_at A ib p) i2 ;; b_widx A (b_at A ib q) i.

  (** buffer[COLMAJOR(ii,jj)] = A_value[ROWMAJOR(ii,jj)]; memcpy back
      (195-205, 227-237); buffer has max_block_size^2 elements, contents [g] *)
  Definition transpose_block (bi bj m2 : nat) (g : nat -> F) (x : list F) : res (list F) :=
    buf <- for_2 bi bj (fun ii jj buf => v <- rd x (ROWMAJOR ii jj bi bj) ;; wr buf (COLMAJOR ii jj bi bj) v) (map g (seq 0 m2)) ;;
    blk_copy (bi * bj)%nat buf x.
  (** 160-172: exchange a bi x bj block with the transpose of a bj x bi block *)
  Definition exchange_blocks (bi bj : nat) (x y : list F) : res (list F * list F) :=
    for_2 bi bj (fun ii jj '(x, y) =>
      t <- rd x (ROWMAJOR ii jj bi bj) ;; v <- rd y (ROWMAJOR jj ii bj bi) ;;
      x <- wr x (ROWMAJOR ii jj bi bj) v ;; y <- wr y (ROWMAJOR jj ii bj bi) t ;; Ok (x, y)) (x, y).
  (** 251-261: transpose a diagonal block in place *)
  Definition transpose_diag (b : nat) (x : list F) : res (list F) :=
    for_n b (fun ii x => forM (seq ii (b - ii)) (fun jj x =>
      t <- rd x (ROWMAJOR ii jj b b) ;; v <- rd x (ROWMAJOR jj ii b b) ;;
      x <- wr x (ROWMAJOR ii jj b b) v ;; wr x (ROWMAJOR jj ii b b) t) x) x.

  (** move the block at slot (ib, iposb) to the end of row jb, transpose it and
      bring it to position nz_t[jb]: 189-215 and 221-247 (the same statements) *)
  Definition move_block (m2 : nat) (g : nat -> F) (ib jb iposb : nat) (A : eb) (nzt : list nat) : res (eb * list nat) :=
    nj <- b_nnz A jb ;;
    p <- rd (bptr A) (b_at A ib iposb) ;;
    A <- b_wptr A (b_at A jb nj) p ;;
    A <- b_widx A (b_at A jb nj) ib ;;
    A <- b_wnnz A jb (S nj) ;;
    bi <- b_bs A ib ;; bj <- b_bs A jb ;;
    x <- b_blk A (b_at A jb nj) ;; x <- transpose_block bi bj m2 g x ;; A <- b_wblk A (b_at A jb nj) x ;;
    t <- rd nzt jb ;;
    A <- swap_entries A jb nj t ;;
    nzt <- wr nzt jb (S t) ;;
    ni <- b_nnz A ib ;; A <- b_wnnz A ib (ni - 1)%nat ;;
    Ok (A, nzt).

  (** first jposb in [start, end) of row jb with indexb == ib (152-155) *)
  Definition find_block (A : eb) (jb start stop ib : nat) : res (option nat) :=
    forM (seq start (stop - start)) (fun q r =>
      match r with
      | Some _ => Ok r
      | None => c <- rd (bidx A) (b_at A jb q) ;; Ok (if (c =? ib)%nat then Some q else None)
      end) None.

  (** while (iposb >= nz_t[ib]) of bml_transpose_ellblock 143-268; [ipos] is
      iposb + 1 *)
  Fixpoint transpose_row (m2 : nat) (g : nat -> F) (ib fuel ipos : nat) (A : eb) (nzt : list nat) : res (eb * list nat) :=
    t <- rd nzt ib ;;
    if (t <? ipos)%nat then
      match fuel with
      | O => Loop
      | S fuel =>
          let iposb := (ipos - 1)%nat in
          jb <- rd (bidx A) (b_at A ib iposb) ;;
          if (ib <? jb)%nat then
            nj <- b_nnz A jb ;; tj <- rd nzt jb ;;
            f <- find_block A jb tj nj ib ;;
            match f with
            | Some jposb =>
                bi <- b_bs A ib ;; bj <- b_bs A jb ;;
                x <- b_blk A (b_at A ib iposb) ;; y <- b_blk A (b_at A jb jposb) ;;
                '(x, y) <- exchange_blocks bi bj x y ;;
                A <- b_wblk A (b_at A ib iposb) x ;; A <- b_wblk A (b_at A jb jposb) y ;;
                A <- swap_entries A ib iposb t ;;
                A <- swap_entries A jb jposb tj ;;
                nzt <- wr nzt ib (S t) ;; nzt <- wr nzt jb (S tj) ;;
                transpose_row m2 g ib fuel ipos A nzt
            | None =>
                '(A, nzt) <- move_block m2 g ib jb iposb A nzt ;;
                transpose_row m2 g ib fuel iposb A nzt
            end
          else if (jb <? ib)%nat then
            '(A, nzt) <- move_block m2 g ib jb iposb A nzt ;;
            transpose_row m2 g ib fuel iposb A nzt
          else
            b <- b_bs A ib ;;
            x <- b_blk A (b_at A ib iposb) ;; x <- transpose_diag b x ;; A <- b_wblk A (b_at A ib iposb) x ;;
            A <- swap_entries A ib iposb t ;;
            nzt <- wr nzt ib (S t) ;;
            transpose_row m2 g ib fuel ipos A nzt
      end
    else Ok (A, nzt).
  (** bml_transpose_ellblock 115-270 *)
  Definition eb_transpose (A : eb) (g : nat -> F) : res eb :=
    m <- maxbsize (bNB A) (bbs A) ;;
    '(A, _) <- for_n (bNB A) (fun ib '(A, nzt) =>
      n <- b_nnz A ib ;; transpose_row (m * m) g ib n n A nzt) (A, repeat 0%nat (bNB A)) ;;
    Ok A.

  (** ** Traces, norms, introspection *)

  (** bml_trace_ellblock 27-58: the first block on the diagonal of each row *)
  Definition eb_trace (A : eb) : res F :=
    for_n (bNB A) (fun ib t =>
      b <- b_bs A ib ;;
      '(t, _) <- b_for_row A ib (fun k jb '(t, done) =>
        if (done : bool) then Ok (t, true) else
        if (ib =? jb)%nat then
          x <- b_blk A k ;; t <- for_n b (fun ii t => v <- rd x (ROWMAJOR ii ii b b) ;; Ok (t + v)) t ;; Ok (t, true)
        else Ok (t, false)) (t, false) ;;
      Ok t) 0.
  (** bml_trace_mult_ellblock 69-122 *)
  Definition eb_trace_mult (A B : eb) : res F :=
    if negb ((bNB A =? bNB B) && (bMB A =? bMB B))%nat%bool then Err else
    for_n (bNB A) (fun ib t =>
      b_for_row A ib (fun k jb t =>
        x <- b_blk A k ;;
        n <- b_nnz B jb ;;
        for_n n (fun kp t =>
          let k2 := ROWMAJOR jb kp (bNB A) (bMB A) in
          kb <- rd (bidx B) k2 ;;
          if (kb =? ib)%nat then
            y <- b_blk B k2 ;; bi <- b_bs A ib ;; bj <- b_bs A jb ;;
            for_2 bi bj (fun ii jj t =>
              u <- rd x (ROWMAJOR ii jj bi bj) ;; v <- rd y (ROWMAJOR jj ii bj bi) ;; Ok (t + u * v)) t
          else Ok t) t) t) 0.
  (** bml_sum_squares_ellblock 26-57 *)
  Definition eb_sum_squares (A : eb) : res F :=
    for_n (bNB A) (fun ib t =>
      b_for_row A ib (fun k jb t =>
        x <- b_blk A k ;; bi <- b_bs A ib ;; bj <- b_bs A jb ;;
        for_2 bi bj (fun ii jj t => v <- rd x (ROWMAJOR ii jj bi bj) ;; Ok (t + v * v)) t) t) 0.
  (** bml_get_sparsity_ellblock 26-61: the number of elements above the threshold *)
  Definition eb_nnz_above (keep : F -> bool) (A : eb) : res nat :=
    for_n (bNB A) (fun ib t =>
      b_for_row A ib (fun k jb t =>
        x <- b_blk A k ;; bi <- b_bs A ib ;; bj <- b_bs A jb ;;
        for_2 bi bj (fun ii jj t => v <- rd x (ROWMAJOR ii jj bi bj) ;; Ok (if keep v then S t else t)) t) t) 0%nat.
  (** bml_get_row_bandwidth_ellblock, bml_introspection_ellblock.c 110-130 *)
  Definition eb_row_bandwidth (A : eb) (i : nat) : res nat :=
    '(ib, _) <- locate (bbs A) 0 i ;;
    b_for_row A ib (fun _ jb w => b <- b_bs A jb ;; Ok (w + b)%nat) 0%nat.

  (** bml_sum_squares (bml_utilities_ellblock_typed.c 318-336): |v| * |v| is v * v *)
  Definition blk_sum (f : F -> F) (n : nat) (x : list F) : res F :=
    for_n n (fun k s => v <- rd x k ;; Ok (s + f v)) 0.
  (** bml_sum_squares2_ellblock 174-272; the test "normx > threshold * threshold"
      is [keepn] *)
  Definition eb_sum_squares2 (keepn : F -> bool) (alpha beta : F) (A B : eb) : res F :=
    let NB := bNB A in let MB := bMB A in let bs := bbs A in
    m <- maxbsize NB bs ;;
    '(s, _, _, _) <- for_n NB (fun ib '(s, ix, jj, y) =>
      bi <- rd bs ib ;;
      nA <- b_nnz A ib ;;
      '(ix, jj, y, lb) <- for_n nA (fun jp '(ix, jj, y, lb) =>
        let k := ROWMAJOR ib jp NB MB in
        jb <- rd (bidx A) k ;; bj <- rd bs jb ;;
        ix <- wr ix jb 1%nat ;; jj <- wr jj lb jb ;;
        v <- b_blk A k ;; x <- rd y jb ;; x <- blk_axpy (bi * bj)%nat alpha v x ;; y <- wr y jb x ;;
        Ok (ix, jj, y, S lb)) (ix, jj, y, 0%nat) ;;
      nB <- b_nnz B ib ;;
      '(ix, jj, y, lb) <- for_n nB (fun jp '(ix, jj, y, lb) =>
        let k := ROWMAJOR ib jp NB MB in
        jb <- rd (bidx B) k ;; bj <- rd bs jb ;;
        i <- rd ix jb ;;
        '(jj, lb) <- (if (i =? 0)%nat then jj <- wr jj lb jb ;; Ok (jj, S lb) else Ok (jj, lb)) ;;
        v <- b_blk B k ;; x <- rd y jb ;; x <- blk_axpy (bi * bj)%nat beta v x ;; y <- wr y jb x ;;
        Ok (ix, jj, y, lb)) (ix, jj, y, lb) ;;
      for_n lb (fun jp '(s, ix, jj, y) =>
        jb <- rd jj jp ;; bj <- rd bs jb ;;
        x <- rd y jb ;; q <- blk_sum (fun v => v * v) (bi * bj)%nat x ;;
        ix <- wr ix jb 0%nat ;;
        x <- blk_zero (m * m)%nat x ;; y <- wr y jb x ;;
        jj <- wr jj jp 0%nat ;;
        Ok (if keepn q then s + q else s, ix, jj, y)) (s, ix, jj, y))
      (0, repeat 0%nat NB, repeat 0%nat NB, repeat (repeat 0 (m * m)) NB) ;;
    Ok s.
  (** bml_sum_AB_ellblock 70-161; bml_sum_AB (bml_utilities_ellblock_typed.c
      298-316) adds absolute values: [abs].  jjb has MB elements but NB are
      cleared (line 102). *)
  Definition eb_sum_AB (abs : F -> F) (keepn : F -> bool) (alpha : F) (A B : eb) : res F :=
    let NB := bNB A in let MB := bMB A in let bs := bbs A in
    m <- maxbsize NB bs ;;
    if (MB <? NB)%nat then UB else
    '(s, _, _) <- for_n NB (fun ib '(s, jj, y) =>
      bi <- rd bs ib ;;
      nA <- b_nnz A ib ;;
      '(ix, y) <- for_n nA (fun jp '(ix, y) =>
        let k := ROWMAJOR ib jp NB MB in
        jb <- rd (bidx A) k ;; bj <- rd bs jb ;;
        ix <- wr ix jb 1%nat ;;
        v <- b_blk A k ;; x <- rd y jb ;; x <- blk_map (bi * bj)%nat (fun k _ => u <- rd v k ;; Ok (alpha * u)) x ;; y <- wr y jb x ;;
        Ok (ix, y)) (repeat 0%nat NB, y) ;;
      nB <- b_nnz B ib ;;
      '(jj, y, lb) <- for_n nB (fun jp '(jj, y, lb) =>
        let k := ROWMAJOR ib jp NB MB in
        jb <- rd (bidx B) k ;; bj <- rd bs jb ;;
        i <- rd ix jb ;;
        if (i =? 0)%nat then Ok (jj, y, lb) else
        jj <- wr jj lb jb ;;
        v <- b_blk B k ;; x <- rd y jb ;; x <- blk_map (bi * bj)%nat (fun k z => u <- rd v k ;; Ok (z * u)) x ;; y <- wr y jb x ;;
        Ok (jj, y, S lb)) (jj, y, 0%nat) ;;
      s <- for_n lb (fun jp s =>
        jb <- rd jj jp ;; bj <- rd bs jb ;;
        x <- rd y jb ;; q <- blk_sum abs (bi * bj)%nat x ;;
        Ok (if keepn q then s + q else s)) s ;;
      Ok (s, jj, y)) (0, repeat 0%nat MB, repeat (repeat 0 (m * m)) NB) ;;
    Ok s.

  (** the pointer rvalue of bml_fnorm2_ellblock (line 313): not initialised,
      NULL, the block of zeros, or a block *)
  Inductive rval := Unset | Null | Block (x : list F).
  (** bml_fnorm2_ellblock 305-400, up to the square root.  Line 375 reads the
      column of a block of B from A's index array. *)
  Definition eb_fnorm2_sq (A B : eb) : res F :=
    let NB := bNB A in let MB := bMB A in
    m <- maxbsize NB (bbs A) ;;
    let zero := repeat 0 (m * m)%nat in
    '(s, _) <- for_n NB (fun ib s =>
      bi <- b_bs A ib ;; nA <- b_nnz A ib ;; nB <- b_nnz B ib ;;
      s <- for_n nA (fun jp '(s, r) =>
        let k := ROWMAJOR ib jp NB MB in
        jb <- rd (bidx A) k ;; bj <- b_bs A jb ;;
        '(r, _) <- for_n nB (fun kp '(r, done) =>
          if (done : bool) then Ok (r, true) else
          c <- rd (bidx B) (ROWMAJOR ib kp NB MB) ;;
          if (jb =? c)%nat then y <- b_blk B (ROWMAJOR ib kp NB MB) ;; Ok (Block y, true) else Ok (Block zero, false)) (r, false) ;;
        x <- b_blk A k ;;
        s <- for_2 bi bj (fun ii jj s =>
          u <- rd x (ROWMAJOR ii jj bi bj) ;;
          v <- match r with Block y => rd y (ROWMAJOR ii jj bi bj) | _ => UB end ;;
          Ok (s + (u - v) * (u - v))) s ;;
        Ok (s, r)) s ;;
      for_n nB (fun jp '(s, r) =>
        let k := ROWMAJOR ib jp NB MB in
        c <- rd (bidx B) k ;;
        '(r, _) <- for_n nA (fun kp '(r, done) =>
          if (done : bool) then Ok (r, true) else
          a <- rd (bidx A) (ROWMAJOR ib kp NB MB) ;;
          if (a =? c)%nat then x <- b_blk A (ROWMAJOR ib kp NB MB) ;; Ok (Block x, true) else Ok (Null, false)) (r, false) ;;
        match r with
        | Unset => UB
        | Block _ => Ok (s, r)
        | Null =>
            jb <- rd (bidx A) k ;; bj <- b_bs A jb ;;
            x <- b_blk B k ;;
            s <- for_2 bi bj (fun ii jj s => v <- rd x (ROWMAJOR ii jj bi bj) ;; Ok (s + v * v)) s ;;
            Ok (s, r)
        end) s) (0, Unset) ;;
    Ok s.
End Ellblock.
