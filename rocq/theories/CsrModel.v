(** Model of the csr format (src/C-interface/csr).

    Simplifications: the arrays cols_ and vals_ of a row always have the same
    allocation and are indexed together, so a row is one array of (column,
    value) slots; [None] is memory never written since malloc/realloc, and
    reading it is undefined behaviour.  Indices are natural numbers; int
    overflow is not modelled.  Precision dispatch, MPI and deallocation are
    not modelled. *)
From Verif Require Import Base Spec EllpackModel.

Section Csr.
  Context {F : scalar}.
  Local Open Scope K_scope.

  (** csr_sparse_row_t (bml_types_csr.h 46-59): alloc_size_ is the length. *)
  Record row := mkRow { rcells : list (option (nat * F)); rnnz : nat }.

  (** bml_matrix_csr_t (60-80): N_, NZMAX_, data_ *)
  Record csr := mkCsr { cN : nat; cM : nat; cdata : list row }.

  Definition ralloc (r : row) : nat := length (rcells r).

  Definition r_get (r : row) (pos : nat) : res (nat * F) := x <- rd (rcells r) pos ;; use x.

  Definition r_put (r : row) (pos : nat) (k : nat) (v : F) : res row :=
    c <- wr (rcells r) pos (Some (k, v)) ;; Ok (mkRow c (rnnz r)).

  (** for (pos = 0; pos < NNZ_; pos++) over a row that the body does not modify *)
  Definition r_for {S} (r : row) (body : nat -> F -> S -> res S) (s : S) : res S :=
    for_n (rnnz r) (fun pos s => '(k, v) <- r_get r pos ;; body k v s) s.

  Definition c_row (A : csr) (i : nat) : res row := rd (cdata A) i.
  Definition c_put (A : csr) (i : nat) (r : row) : res csr :=
    d <- wr (cdata A) i r ;; Ok (mkCsr (cN A) (cM A) d).

  (** realloc(p, n): the first min(alloc, n) slots are preserved *)
  Definition realloc (c : list (option (nat * F))) (n : nat) : list (option (nat * F)) :=
    firstn n (c ++ repeat None n).

  (** ** Rows: bml_allocate_csr_typed.c, bml_setters_csr_typed.c *)

  Definition INIT_ROW_SPACE : nat := 10.  (* bml_types_csr.h 10 *)

  (** alloc_size_ *= EXPAND_FACT with EXPAND_FACT = 1.3, truncated *)
  Definition expand (n : nat) : nat := (13 * n / 10)%nat.

  (** csr_noinit_row 66-81 *)
  Definition noinit_row (alloc : nat) : row := mkRow (repeat None (max INIT_ROW_SPACE alloc)) 0.
  (** csr_zero_row 146-161 *)
  Definition zero_row (alloc : nat) : row := mkRow (repeat (Some (0%nat, 0)) (max INIT_ROW_SPACE alloc)) 0.

  (** csr_clear_row 24-31 *)
  Definition clear_row (r : row) : res row :=
    c <- for_n (rnnz r) (fun p c => wr c p (Some (0%nat, 0))) (rcells r) ;; Ok (mkRow c 0).

  (** csr_set_row_element_new 26-49 *)
  Definition r_push (r : row) (j : nat) (v : F) : res row :=
    let pos := rnnz r in
    let c := if (ralloc r <? S pos)%nat then realloc (rcells r) (expand (ralloc r)) else rcells r in
    c <- wr c pos (Some (j, v)) ;; Ok (mkRow c (S pos)).

  (** the push reallocates the arrays of the row *)
  Definition grows (r : row) : bool := (ralloc r <? S (rnnz r))%nat.

  (** csr_set_row_element 62-86 *)
  Definition r_set (r : row) (j : nat) (v : F) : res row :=
    f <- for_n (rnnz r) (fun pos f =>
        match f with
        | Some _ => Ok f
        | None => '(k, _) <- r_get r pos ;; Ok (if (k =? j)%nat then Some pos else None)
        end) None ;;
    match f with
    | Some pos => r_put r pos j v
    | None => r_push r j v
    end.

  (** csr_set_row 102-132 *)
  Definition r_set_row (r : row) (nzcols : list nat) (vals : list F) : res row :=
    let count := length nzcols in
    let c := if (ralloc r <? count)%nat then realloc (rcells r) count else rcells r in
    c <- for_n count (fun j c => col <- rd nzcols j ;; v <- rd vals col ;; wr c j (Some (col, v))) c ;;
    Ok (mkRow c count).

  (** csr_set_sparse_row 257-290 *)
  Definition r_set_sparse (keep : F -> bool) (r : row) (cols : list nat) (vals : list F) : res row :=
    let count := length cols in
    let c := if (ralloc r <? count)%nat then realloc (rcells r) count else rcells r in
    for_n count (fun j r =>
      col <- rd cols j ;; v <- rd vals j ;;
      if keep v then c <- wr (rcells r) (rnnz r) (Some (col, v)) ;; Ok (mkRow c (S (rnnz r))) else Ok r) (mkRow c 0).

  (** csr_get_row_element (bml_getters_csr_typed.c 20-44) *)
  Definition r_elem (r : row) (j : nat) : res F :=
    f <- for_n (rnnz r) (fun pos f =>
        match f with
        | Some _ => Ok f
        | None => '(k, v) <- r_get r pos ;; Ok (if (k =? j)%nat then Some v else None)
        end) None ;;
    Ok (match f with Some v => v | None => 0 end).

  (** ** Matrices: bml_allocate_csr_typed.c *)

  (** bml_noinit_matrix_csr 99-131, bml_zero_matrix_csr 178-216 *)
  Definition csr_noinit (N M : nat) : csr := mkCsr N M (repeat (noinit_row M) N).
  Definition csr_zero (N M : nat) : csr := mkCsr N M (repeat (zero_row M) N).

  (** bml_clear_csr 42-52 *)
  Definition csr_clear (A : csr) (sched : list (nat * nat)) : res csr :=
    '(A, _) <- par_for sched (fun i '(A, w) =>
        r <- c_row A i ;; r <- clear_row r ;; A <- c_put A i r ;; Ok (A, w)) A (fun _ => tt) ;;
    Ok A.

  (** bml_identity_matrix_csr 376-406 *)
  Definition csr_identity (N M : nat) (sched : list (nat * nat)) : res csr :=
    '(A, _) <- par_for sched (fun i '(A, w) =>
        r <- c_row A i ;; r <- r_put r 0 i 1 ;;
        A <- c_put A i (mkRow (rcells r) 1) ;; Ok (A, w)) (csr_zero N M) (fun _ => tt) ;;
    Ok A.

  (** bml_banded_matrix_csr 233-270; [rnd i j] is the value drawn for (i, j) *)
  Definition csr_banded (N M : nat) (rnd : nat -> nat -> F) (sched : list (nat * nat)) : res csr :=
    '(A, _) <- par_for sched (fun i '(A, w) =>
        r <- c_row A i ;;
        let lo := (i - M / 2)%nat in
        let hi := (if i + M <=? N + M / 2 then i + M - M / 2 else N)%nat in
        r <- for_n (hi - lo) (fun q r => r_put r q (lo + q) (rnd i (lo + q)%nat)) r ;;
        A <- c_put A i (mkRow (rcells r) (hi - lo)) ;; Ok (A, w)) (csr_zero N M) (fun _ => tt) ;;
    Ok A.

  (** bml_random_matrix_csr 292-359: [rv i j], [rc i j] are the value and the
      column (rand() % N) drawn in step j of row i.  The loop is sequential. *)
  Definition csr_random (N M : nat) (rv : nat -> nat -> F) (rc : nat -> nat -> nat) : res csr :=
    '(A, _) <- for_n N (fun i '(A, marker) =>
        r <- c_row A i ;;
        '(r, marker, pos, _) <- for_n M (fun j '(r, marker, pos, col) =>
            m <- rd marker col ;;
            '(r, marker, pos) <- (if (m : bool) then Ok (r, marker, pos) else
               r <- r_put r (length pos) col (rv i j) ;;
               marker <- wr marker col true ;;
               if (length pos <? M)%nat then Ok (r, marker, pos ++ [col]) else UB) ;;
            Ok (r, marker, pos, rc i j)) (r, marker, [], i) ;;
        A <- c_put A i (mkRow (rcells r) (length pos)) ;;
        marker <- for_n (length pos) (fun j marker => c <- rd pos j ;; wr marker c false) marker ;;
        Ok (A, marker)) (csr_zero N M, repeat false N) ;;
    Ok A.

  (** ** Setters and getters *)

  (** bml_set_element_new_csr 144-156, bml_set_element_csr 170-183 *)
  Definition csr_set_element_new (A : csr) (i j : nat) (v : F) : res csr :=
    r <- c_row A i ;; r <- r_push r j v ;; c_put A i r.
  Definition csr_set_element (A : csr) (i j : nat) (v : F) : res csr :=
    r <- c_row A i ;; r <- r_set r j v ;; c_put A i r.

  (** bml_set_row_csr 195-225 *)
  Definition csr_set_row (keep : F -> bool) (A : csr) (i : nat) (vals : list F) : res csr :=
    r <- c_row A i ;;
    let r := mkRow (rcells r) 0 in
    cols <- for_n (cN A) (fun j cols => v <- rd vals j ;; Ok (if keep v then cols ++ [j] else cols)) [] ;;
    r <- r_set_row r cols vals ;;
    c_put A i r.

  (** bml_set_diagonal_csr 235-249 *)
  Definition csr_set_diagonal (keep : F -> bool) (A : csr) (diag : list F) : res csr :=
    for_n (cN A) (fun i A =>
      d <- rd diag i ;; r <- c_row A i ;;
      r <- r_set r i (if keep d then d else 0) ;; c_put A i r) A.

  (** bml_set_sparse_row_csr 306-321 *)
  Definition csr_set_sparse_row (keep : F -> bool) (A : csr) (i : nat) (cols : list nat) (vals : list F) : res csr :=
    r <- c_row A i ;; r <- r_set_sparse keep r cols vals ;; c_put A i r.

  (** bml_get_csr (bml_getters_csr_typed.c 53-67) *)
  Definition csr_get_element (A : csr) (i j : nat) : res F :=
    if (cN A <=? i)%nat then Err else r <- c_row A i ;; r_elem r j.

  (** bml_get_row_csr 153-174 *)
  Definition csr_get_row (A : csr) (i : nat) : res (list F) :=
    r <- c_row A i ;; r_for r (fun k v out => wr out k v) (repeat 0 (cN A)).

  (** bml_get_diagonal_csr 184-195 *)
  Definition csr_get_diagonal (A : csr) : res (list F) :=
    for_n (cN A) (fun i out => r <- c_row A i ;; v <- r_elem r i ;; wr out i v) (repeat 0 (cN A)).

  (** bml_get_sparse_row_csr 114-143 *)
  Definition csr_get_sparse_row (A : csr) (i : nat) : res (list (nat * F)) :=
    r <- c_row A i ;; r_for r (fun k v out => Ok (out ++ [(k, v)])) [].

  (** ** Import and export *)

  (** bml_import_csr_typed.c 25-68 *)
  Definition csr_import (o : dorder) (N M : nat) (keep : F -> bool) (D : list F) (sched : list (nat * nat)) : res csr :=
    '(A, _) <- par_for sched (fun i '(A, w) =>
        r <- c_row A i ;;
        r <- for_n N (fun j r =>
            v <- rd D (match o with row_major => ROWMAJOR i j N N | col_major => COLMAJOR i j N N end) ;;
            if keep v then r_push r j v else Ok r) r ;;
        A <- c_put A i r ;; Ok (A, w)) (csr_zero N M) (fun _ => tt) ;;
    Ok A.

  (** bml_export_csr_typed.c 24-69 *)
  Definition csr_export (o : dorder) (A : csr) (sched : list (nat * nat)) : res (list F) :=
    '(D, _) <- par_for sched (fun i '(D, w) =>
        r <- c_row A i ;;
        D <- r_for r (fun j v D =>
            wr D (match o with row_major => ROWMAJOR i j (cN A) (cN A) | col_major => COLMAJOR i j (cN A) (cN A) end) v) D ;;
        Ok (D, w)) (repeat 0 (cN A * cN A)) (fun _ => tt) ;;
    Ok D.

  (** ** Copy and scale: bml_copy_csr_typed.c, bml_scale_csr_typed.c *)

  (** csr_copy_row_new 23-37: memcpy of the first NNZ_ slots *)
  Definition memcpy_row (src : row) (dst : list (option (nat * F))) : res row :=
    c <- for_n (rnnz src) (fun p c => x <- rd (rcells src) p ;; wr c p x) dst ;; Ok (mkRow c (rnnz src)).
  Definition copy_row_new (r : row) : res row := memcpy_row r (rcells (noinit_row (ralloc r))).
  (** csr_copy_row 88-104: LOG_ERROR if the destination is too small *)
  Definition copy_row (r b : row) : res row :=
    if (ralloc b <? rnnz r)%nat then Err else memcpy_row r (rcells b).

  (** bml_copy_csr_new 46-77 *)
  Definition csr_copy_new (A : csr) (sched : list (nat * nat)) : res csr :=
    '(B, _) <- par_for sched (fun i '(B, w) =>
        r <- c_row A i ;; b <- copy_row_new r ;; B <- c_put B i b ;; Ok (B, w))
        (mkCsr (cN A) (cM A) (repeat (mkRow [] 0) (cN A))) (fun _ => tt) ;;
    Ok B.

  (** bml_copy_csr 115-139 *)
  Definition csr_copy (A B : csr) (sched : list (nat * nat)) : res csr :=
    if negb (cN A =? cN B)%nat then Err else
    '(B, _) <- par_for sched (fun i '(B, w) =>
        r <- c_row A i ;; b <- c_row B i ;; b <- copy_row r b ;; B <- c_put B i b ;; Ok (B, w)) B (fun _ => tt) ;;
    Ok B.

  (** csr_scale_row 26-40 (BLAS SCAL on the first NNZ_ values) *)
  Definition scale_row (a : F) (r : row) : res row :=
    for_n (rnnz r) (fun p r => '(k, v) <- r_get r p ;; r_put r p k (a * v)) r.

  (** bml_scale_inplace_csr 83-98, bml_scale_csr_new 49-60, bml_scale_csr 69-82 *)
  Definition csr_scale_inplace (a : F) (A : csr) (sched : list (nat * nat)) : res csr :=
    '(A, _) <- par_for sched (fun i '(A, w) =>
        r <- c_row A i ;; r <- scale_row a r ;; A <- c_put A i r ;; Ok (A, w)) A (fun _ => tt) ;;
    Ok A.
  Definition csr_scale_new (a : F) (A : csr) (s1 s2 : list (nat * nat)) : res csr :=
    B <- csr_copy_new A s1 ;; csr_scale_inplace a B s2.
  Definition csr_scale (a : F) (A B : csr) (s1 s2 : list (nat * nat)) : res csr :=
    B <- csr_copy A B s1 ;; csr_scale_inplace a B s2.

  (** ** Threshold: bml_threshold_csr_typed.c *)

  (** bml_threshold_csr 71-105 *)
  Definition thr_row (keep : F -> bool) (r : row) : res row :=
    '(r, rlen) <- for_n (rnnz r) (fun pos '(r, rlen) =>
        '(k, v) <- r_get r pos ;;
        if keep v then
          r <- (if (rlen <? pos)%nat then r_put r rlen k v else Ok r) ;; Ok (r, S rlen)
        else Ok (r, rlen)) (r, 0%nat) ;;
    Ok (mkRow (rcells r) rlen).

  Definition csr_threshold (keep : F -> bool) (A : csr) (sched : list (nat * nat)) : res csr :=
    '(A, _) <- par_for sched (fun i '(A, w) =>
        r <- c_row A i ;; r <- thr_row keep r ;; A <- c_put A i r ;; Ok (A, w)) A (fun _ => tt) ;;
    Ok A.

  (** bml_threshold_new_csr 28-62: bnnz is a constant read before the loop,
      so every kept entry is written at the same position. *)
  Definition csr_threshold_new (keep : F -> bool) (A : csr) (sched : list (nat * nat)) : res csr :=
    '(B, _) <- par_for sched (fun i '(B, w) =>
        b <- c_row B i ;;
        let bnnz := rnnz b in
        r <- c_row A i ;;
        b <- r_for r (fun k v b =>
            if keep v then b <- r_put b bnnz k v ;; Ok (mkRow (rcells b) (S (rnnz b))) else Ok b) b ;;
        B <- c_put B i b ;; Ok (B, w)) (csr_zero (cN A) (cM A)) (fun _ => tt) ;;
    Ok B.

  (** ** Hash table: bml_allocate_csr.c *)

  (** csr_row_index_hash_t: Slots_ holds the index in slot_storage_ of the
      first slot of each chain; a storage cell is (key, value, link). *)
  Record table := mkTable { tslots : list (option nat); tstore : list (option (nat * nat * option nat)); tsize : nat }.

  Definition INIT_SLOT_STORAGE_SIZE : nat := 5.
  Definition powersof2 : list nat := map (fun k => 2 ^ k)%nat (seq 3 16).

  (** csr_noinit_table 17-61: the loop reads powersof2[i] past its end when
      no entry is large enough.  At most 16 iterations are in bounds. *)
  Fixpoint table_size (fuel i alloc : nat) : res nat :=
    match fuel with
    | O => Loop
    | S fuel => p <- rd powersof2 i ;; if (p * 2 / 3 <? alloc)%nat then table_size fuel (S i) alloc else Ok p
    end.
  Definition table_new (ts : nat) : res table :=
    space <- table_size 20 1 (max INIT_SLOT_STORAGE_SIZE ts) ;;
    Ok (mkTable (repeat None space) (repeat None space) 0).

  (** csr_table_insert 70-100; hash_key_index(key, space-1) = key & (space-1) *)
  Definition table_insert (t : table) (key : nat) : res table :=
    let index := Nat.land key (length (tslots t) - 1) in
    head <- rd (tslots t) index ;;
    st <- wr (tstore t) (tsize t) (Some (key, tsize t, head)) ;;
    sl <- wr (tslots t) index (Some (tsize t)) ;;
    Ok (mkTable sl st (S (tsize t))).

  (** csr_table_lookup 109-126: follow the links *)
  Fixpoint table_chain (fuel : nat) (t : table) (key : nat) (p : option nat) : res (option nat) :=
    match fuel, p with
    | O, _ => Loop
    | S fuel, None => Ok None
    | S fuel, Some q =>
        c <- rd (tstore t) q ;; '(k, v, link) <- use c ;;
        if (k =? key)%nat then Ok (Some v) else table_chain fuel t key link
    end.
  Definition table_lookup (t : table) (key : nat) : res (option nat) :=
    head <- rd (tslots t) (Nat.land key (length (tslots t) - 1)) ;;
    table_chain (S (length (tstore t))) t key head.

  (** csr_reset_table 150-161 *)
  Definition table_reset (t : table) : table := mkTable (repeat None (length (tslots t))) (tstore t) 0.

  (** ** Addition: bml_add_csr_typed.c *)

  (** bml_get_bandwidth_csr (bml_introspection_csr.c 117-131) *)
  Definition csr_bandwidth (A : csr) : res nat :=
    for_n (cN A) (fun i m => r <- c_row A i ;; Ok (if m <? rnnz r then rnnz r else m)%nat) 0%nat.

  (** bml_add_csr 37-90, row i, B another object than A: acols/avals point to
      the arrays of the row at the start; csr_set_row_element_new may move
      them ([stale]), after which avals[..] is a use after free. *)
  Definition add_row_a (alpha : F) (r : row) (t : table) : res (row * table) :=
    for_n (rnnz r) (fun pos '(r, t) =>
      '(k, v) <- r_get r pos ;; r <- r_put r pos k (alpha * v) ;; t <- table_insert t k ;; Ok (r, t)) (r, t).
  Definition add_row_b (beta : F) (t : table) (k : nat) (v : F) (s : row * bool) : res (row * bool) :=
    let '(r, stale) := s in
    idx <- table_lookup t k ;;
    match idx with
    | Some p => if (stale : bool) then UB else '(ka, a) <- r_get r p ;; r <- r_put r p ka (a + beta * v) ;; Ok (r, stale)
    | None => r' <- r_push r k (beta * v) ;; Ok (r', stale || grows r)
    end.
  Definition csr_add (keep : F -> bool) (alpha beta : F) (A B : csr) (s1 s2 : list (nat * nat)) : res csr :=
    ts <- csr_bandwidth A ;;
    t0 <- table_new ts ;;
    '(A, _) <- par_for s1 (fun i '(A, t) =>
        r <- c_row A i ;;
        '(r, t) <- add_row_a alpha r t ;;
        b <- c_row B i ;;
        '(r, _) <- r_for b (add_row_b beta t) (r, false) ;;
        A <- c_put A i r ;;
        Ok (A, table_reset t)) A (fun _ => t0) ;;
    csr_threshold keep A s2.

  (** the same with B == A: the loop over B reads the row being updated *)
  Definition csr_add_self (keep : F -> bool) (alpha beta : F) (A : csr) (s1 s2 : list (nat * nat)) : res csr :=
    ts <- csr_bandwidth A ;;
    t0 <- table_new ts ;;
    '(A, _) <- par_for s1 (fun i '(A, t) =>
        r <- c_row A i ;;
        '(r, t) <- add_row_a alpha r t ;;
        '(r, _) <- for_n (rnnz r) (fun pos '(r, stale) =>
            '(k, v) <- r_get r pos ;; add_row_b beta t k v (r, stale)) (r, false) ;;
        A <- c_put A i r ;;
        Ok (A, table_reset t)) A (fun _ => t0) ;;
    csr_threshold keep A s2.

  (** bml_add_identity_csr 127-172 (beta > 0 or beta < 0 is beta <> 0) *)
  Definition add_identity_row (beta : F) (i : nat) (r : row) : res row :=
    diag <- for_n (rnnz r) (fun pos f =>
        match f with
        | Some _ => Ok f
        | None => '(k, _) <- r_get r pos ;; Ok (if (k =? i)%nat then Some pos else None)
        end) None ;;
    if keqb beta 0 then Ok r
    else match diag with
         | None => r_push r i beta
         | Some pos => '(k, v) <- r_get r pos ;; r_put r pos k (v + beta)
         end.
  Definition csr_add_identity (keep : F -> bool) (beta : F) (A : csr) (s1 s2 : list (nat * nat)) : res csr :=
    '(A, _) <- par_for s1 (fun i '(A, w) =>
        r <- c_row A i ;; r <- add_identity_row beta i r ;; A <- c_put A i r ;; Ok (A, w)) A (fun _ => tt) ;;
    csr_threshold keep A s2.

  (** bml_scale_add_identity_csr 185-196 *)
  Definition csr_scale_add_identity (keep : F -> bool) (alpha beta : F) (A : csr) (s0 s1 s2 : list (nat * nat)) : res csr :=
    A <- csr_scale_inplace alpha A s0 ;; csr_add_identity keep beta A s1 s2.

  (** ** Products: bml_multiply_csr_typed.c, bml_element_multiply_csr_typed.c *)

  (** The gather loop (174-192, 271-288): the row was cleared, entries are
      appended. [side] accumulates traceX2. *)
  Definition c_gather {T} (kc : nat -> F -> bool) (side : nat -> F -> T -> T) (l : nat) (r : row) (w : wsp F) (t : T) :
    res (row * wsp F * T) :=
    for_n l (fun jp '(r, w, t) =>
      jind <- rd (wjx w) jp ;;
      xtmp <- rd (wx w) jind ;;
      let t := side jind xtmp t in
      r <- (if kc jind xtmp then r_push r jind xtmp else Ok r) ;;
      ix' <- wr (wix w) jind 0%nat ;;
      x' <- wr (wx w) jind 0 ;;
      Ok (r, mkWs ix' (wjx w) x', t)) (r, w, t).

  (** bml_multiply_AB_csr 209-290 *)
  Definition csr_mul_row (keep : F -> bool) (A B : csr) (i : nat) (s : csr * wsp F) : res (csr * wsp F) :=
    let '(C, w) := s in
    ra <- c_row A i ;;
    '(w, l) <- r_for ra (fun j a s => rb <- c_row B j ;; r_for rb (fun k b s => ws_acc 0 kadd i k (a * b) s) s) (w, 0%nat) ;;
    rc <- c_row C i ;; rc <- clear_row rc ;;
    '(rc, w, _) <- c_gather (kc_offdiag keep i) (fun _ _ t => t) l rc w tt ;;
    C <- c_put C i rc ;; Ok (C, w).
  Definition csr_multiply_AB (keep : F -> bool) (A B C : csr) (sched : list (nat * nat)) : res csr :=
    '(C, _) <- par_for sched (fun i s => csr_mul_row keep A B i s) C (fun _ => ws_new 0 (cN C)) ;; Ok C.

  (** bml_multiply_x2_csr 97-199 *)
  Definition csr_x2_row (keep : F -> bool) (X : csr) (i : nat) (s : csr * (wsp F * F * F)) : res (csr * (wsp F * F * F)) :=
    let '(C, (w, tx, tx2)) := s in
    rx <- c_row X i ;;
    '(w, l, tx) <- r_for rx (fun j a '(w, l, tx) =>
        let tx := if (j =? i)%nat then tx + a else tx in
        rj <- c_row X j ;;
        '(w, l) <- r_for rj (fun k b s => ws_acc 0 kadd i k (a * b) s) (w, l) ;; Ok (w, l, tx)) (w, 0%nat, tx) ;;
    rc <- c_row C i ;; rc <- clear_row rc ;;
    '(rc, w, tx2) <- c_gather (kc_offdiag keep i) (fun j x t => if (j =? i)%nat then t + x else t) l rc w tx2 ;;
    C <- c_put C i rc ;; Ok (C, (w, tx, tx2)).
  Definition csr_multiply_x2 (keep : F -> bool) (X X2 : csr) (nth : nat) (sched : list (nat * nat)) : res (csr * F * F) :=
    '(C, w) <- par_for sched (fun i s => csr_x2_row keep X i s) X2 (fun _ => (ws_new 0 (cN X), 0, 0)) ;;
    Ok (C, reduce_sum nth (fun t => snd (fst (w t))), reduce_sum nth (fun t => snd (w t))).

  (** bml_multiply_csr 36-86: A and B different objects *)
  Definition csr_multiply (keep : F -> bool) (alpha beta : F) (A B C : csr) (s1 s2 s3 : list (nat * nat)) : res csr :=
    A2 <- csr_multiply_AB keep A B (csr_noinit (cN C) (cM C)) s1 ;;
    csr_add keep beta alpha C A2 s2 s3.
  (** A == B, C another object *)
  Definition csr_multiply_sq (keep : F -> bool) (alpha beta : F) (A C : csr) (nth : nat) (s1 s2 s3 : list (nat * nat)) : res csr :=
    if keqb alpha 1 && keqb beta 0 then
      '(C, _, _) <- csr_multiply_x2 keep A C nth s1 ;; Ok C
    else
      '(A2, _, _) <- csr_multiply_x2 keep A (csr_noinit (cN C) (cM C)) nth s1 ;;
      csr_add keep beta alpha C A2 s2 s3.

  (** bml_element_multiply_AB_csr 36-119 *)
  Definition csr_emul_row (keep : F -> bool) (A B : csr) (i : nat) (s : csr * wsp F) : res (csr * wsp F) :=
    let '(C, w) := s in
    ra <- c_row A i ;;
    '(w, l) <- r_for ra (fun k a s =>
        s <- ws_mark 0 i k s ;;
        rb <- c_row B i ;;
        r_for rb (fun kb b s => if (k =? kb)%nat then ws_plus kadd k (a * b) s else Ok s) s) (w, 0%nat) ;;
    rc <- c_row C i ;; rc <- clear_row rc ;;
    '(rc, w, _) <- c_gather (kc_offdiag keep i) (fun _ _ t => t) l rc w tt ;;
    C <- c_put C i rc ;; Ok (C, w).
  Definition csr_element_multiply (keep : F -> bool) (A B C : csr) (sched : list (nat * nat)) : res csr :=
    '(C, _) <- par_for sched (fun i s => csr_emul_row keep A B i s) C (fun _ => ws_new 0 (cN C)) ;; Ok C.

  (** ** Transposition: bml_transpose_csr_typed.c *)

  (** bml_transpose_new_csr 29-79: [ev] is the order in which the critical
      sections (row, slot) are executed *)
  Definition csr_transpose_new (A : csr) (ev : list (nat * nat)) : res csr :=
    forM ev (fun '(i, pos) B =>
      r <- c_row A i ;; '(j, v) <- r_get r pos ;; csr_set_element_new B j i v) (csr_noinit (cN A) (cM A)).

  (** csr_swap_row_entries 89-107 *)
  Definition r_swap (r : row) (i j : nat) : res row :=
    if (i =? j)%nat then Ok r else
    '(ki, vi) <- r_get r i ;; '(kj, vj) <- r_get r j ;;
    r <- r_put r i kj vj ;; r_put r j ki vi.

  (** bml_transpose_csr 116-206, one iteration of the while loop; the loop
      variable is ipos + 1 ([n]). *)
  Definition ctr_step (i : nat) (A : csr) (nzt : list nat) (n : nat) : res (csr * list nat * nat) :=
    let ipos := (n - 1)%nat in
    ri <- c_row A i ;;
    '(j, v) <- r_get ri ipos ;;
    if (i <? j)%nat then
      rj <- c_row A j ;;
      jstart <- rd nzt j ;;
      f <- for_n (rnnz rj - jstart) (fun q f =>
          match f with
          | Some _ => Ok f
          | None => '(k, _) <- r_get rj (jstart + q) ;; Ok (if (k =? i)%nat then Some (jstart + q)%nat else None)
          end) None ;;
      match f with
      | Some jpos =>
          '(kj, vj) <- r_get rj jpos ;;
          ri <- r_put ri ipos j vj ;; rj <- r_put rj jpos kj v ;;
          ni <- rd nzt i ;; ri <- r_swap ri ipos ni ;;
          nj <- rd nzt j ;; rj <- r_swap rj jpos nj ;;
          A <- c_put A i ri ;; A <- c_put A j rj ;;
          nzt <- wr nzt i (S ni) ;; nzt <- wr nzt j (S nj) ;;
          Ok (A, nzt, n)
      | None =>
          rj <- r_push rj i v ;;
          nj <- rd nzt j ;;
          rj <- r_swap rj (rnnz rj - 1) nj ;;
          nzt <- wr nzt j (S nj) ;;
          A <- c_put A j rj ;; A <- c_put A i (mkRow (rcells ri) (rnnz ri - 1)) ;;
          Ok (A, nzt, ipos)
      end
    else if (j <? i)%nat then
      rj <- c_row A j ;;
      rj <- r_push rj i v ;;
      nj <- rd nzt j ;; nzt <- wr nzt j (S nj) ;;
      A <- c_put A j rj ;; A <- c_put A i (mkRow (rcells ri) (rnnz ri - 1)) ;;
      Ok (A, nzt, ipos)
    else
      ni <- rd nzt i ;; ri <- r_swap ri ipos ni ;;
      A <- c_put A i ri ;;
      nzt <- wr nzt i (S ni) ;; Ok (A, nzt, n).
  Fixpoint ctr_while (fuel i : nat) (A : csr) (nzt : list nat) (n : nat) : res (csr * list nat) :=
    ni <- rd nzt i ;;
    if (n <=? ni)%nat then Ok (A, nzt) else
    match fuel with
    | O => Loop
    | S fuel => '(A, nzt, n) <- ctr_step i A nzt n ;; ctr_while fuel i A nzt n
    end.
  Definition csr_transpose (A : csr) : res csr :=
    '(A, _) <- for_n (cN A) (fun i '(A, nzt) =>
        ri <- c_row A i ;; ctr_while (S (rnnz ri)) i A nzt (rnnz ri)) (A, repeat 0%nat (cN A)) ;;
    Ok A.

  (** ** Traces: bml_trace_csr_typed.c *)

  (** bml_trace_csr 26-52 *)
  Definition csr_trace (A : csr) (nth : nat) (sched : list (nat * nat)) : res F :=
    '(_, w) <- par_for sched (fun i '(s, tr) =>
        r <- c_row A i ;; v <- r_elem r i ;; Ok (s, tr + v)) tt (fun _ => 0) ;;
    Ok (reduce_sum nth w).

  (** bml_trace_mult_csr 63-107 *)
  Definition csr_trace_mult (A B : csr) (nth : nat) (sched : list (nat * nat)) : res F :=
    if negb (cN A =? cN B)%nat then Err else
    '(_, w) <- par_for sched (fun i '(s, tr) =>
        ra <- c_row A i ;;
        tr <- r_for ra (fun j a tr =>
            rb <- c_row B j ;;
            '(tr, _) <- r_for rb (fun k b '(tr, stop) =>
                if (stop : bool) then Ok (tr, stop)
                else if (i =? k)%nat then Ok (tr + a * b, true) else Ok (tr, false)) (tr, false) ;;
            Ok tr) tr ;;
        Ok (s, tr)) tt (fun _ => 0) ;;
    Ok (reduce_sum nth w).

  (** ** Norms: bml_norm_csr_typed.c *)

  (** bml_sum_squares_csr 27-50, bml_sum_squares_submatrix_csr 61-86 *)
  Definition csr_sum_squares (A : csr) (nth : nat) (sched : list (nat * nat)) : res F :=
    '(_, w) <- par_for sched (fun i '(s, sum) =>
        r <- c_row A i ;; sum <- r_for r (fun _ v sum => Ok (sum + v * v)) sum ;; Ok (s, sum)) tt (fun _ => 0) ;;
    Ok (reduce_sum nth w).
  Definition csr_sum_squares_submatrix (A : csr) (core : nat) (nth : nat) (sched : list (nat * nat)) : res F :=
    '(_, w) <- par_for sched (fun i '(s, sum) =>
        r <- c_row A i ;;
        sum <- r_for r (fun k v sum => Ok (if (k <? core)%nat then sum + v * v else sum)) sum ;; Ok (s, sum)) tt (fun _ => 0) ;;
    Ok (reduce_sum nth w).

  (** the part common to bml_sum_AB_csr 119-125 and bml_sum_squares2_csr
      188-194: cvals[pos] = alpha * avals[pos] and a table of the columns *)
  Definition fill_row (alpha : F) (r : row) (cv : list F) : res (list F * table) :=
    t <- table_new (rnnz r) ;;
    for_n (rnnz r) (fun pos '(cv, t) =>
      '(k, v) <- r_get r pos ;; cv <- wr cv pos (alpha * v) ;; t <- table_insert t k ;; Ok (cv, t)) (cv, t).

  (** bml_sum_AB_csr 98-154: cvals and ipos live across rows *)
  Definition csr_sum_AB (keep : F -> bool) (alpha : F) (A B : csr) : res F :=
    '(_, _, sum) <- for_n (cN A) (fun i '(cv, ip, sum) =>
        ra <- c_row A i ;;
        '(cv, t) <- fill_row alpha ra cv ;;
        rb <- c_row B i ;;
        '(cv, ip, cnt) <- r_for rb (fun k v '(cv, ip, cnt) =>
            idx <- table_lookup t k ;;
            match idx with
            | Some p => x <- rd cv p ;; cv <- wr cv p (x * v) ;; ip <- wr ip cnt p ;; Ok (cv, ip, S cnt)
            | None => Ok (cv, ip, cnt)
            end) (cv, ip, 0%nat) ;;
        sum <- for_n cnt (fun q sum => p <- rd ip q ;; x <- rd cv p ;; Ok (if keep x then sum + x else sum)) sum ;;
        Ok (cv, ip, sum)) (repeat 0 (cN A), repeat 0%nat (cN A), 0) ;;
    Ok sum.

  (** bml_sum_squares2_csr 168-228 *)
  Definition csr_sum_squares2 (keep : F -> bool) (alpha beta : F) (A B : csr) : res F :=
    '(_, sum) <- for_n (cN A) (fun i '(cv, sum) =>
        ra <- c_row A i ;;
        '(cv, t) <- fill_row alpha ra cv ;;
        rb <- c_row B i ;;
        '(cv, cnt) <- r_for rb (fun k v '(cv, cnt) =>
            idx <- table_lookup t k ;;
            match idx with
            | Some p => x <- rd cv p ;; cv <- wr cv p (x + beta * v) ;; Ok (cv, cnt)
            | None => cv <- wr cv cnt (beta * v) ;; Ok (cv, S cnt)
            end) (cv, rnnz ra) ;;
        '(cv, sum) <- for_n cnt (fun q '(cv, sum) =>
            x <- rd cv q ;; cv <- wr cv q 0 ;; Ok (cv, if keep x then sum + x * x else sum)) (cv, sum) ;;
        Ok (cv, sum)) (repeat 0 (cN A), 0) ;;
    Ok sum.

  (** ** Introspection: bml_introspection_csr(_typed).c *)
  Definition csr_nnz_above (keep : F -> bool) (A : csr) : res nat :=
    for_n (cN A) (fun i s => r <- c_row A i ;; r_for r (fun _ v s => Ok (if keep v then S s else s)) s) 0%nat.
  Definition csr_row_bandwidth (A : csr) (i : nat) : res nat := r <- c_row A i ;; Ok (rnnz r).

  (** ** Submatrices: bml_submatrix_csr_typed.c *)

  (** bml_extract_submatrix_csr 30-64 (set_sparse_row with threshold 0);
      newcols and newvals have B_N cells *)
  Definition csr_extract (keep0 : F -> bool) (A : csr) (irow icol BN BM : nat) : res csr :=
    for_n BN (fun q B =>
      r <- c_row A (irow + q)%nat ;;
      '(cs, vs) <- r_for r (fun k v '(cs, vs) =>
          if (icol <=? k)%nat && (k <? icol + BN)%nat then
            if (length cs <? BN)%nat then Ok (cs ++ [(k - icol)%nat], vs ++ [v]) else UB
          else Ok (cs, vs)) ([], []) ;;
      csr_set_sparse_row keep0 B q cs vs) (csr_zero BN BM).

  (** bml_assign_submatrix_csr 73-97 (the assert is the Err) *)
  Definition csr_assign (A B : csr) (irow icol : nat) : res csr :=
    for_n (cN B) (fun i A =>
      r <- c_row B i ;;
      _ <- r_for r (fun k _ s => if (k <? cN B)%nat then Ok s else Err) tt ;;
      r_for r (fun k v A => csr_set_element_new A (i + irow)%nat (k + icol)%nat v) A) A.
End Csr.
Arguments row F : clear implicits.
Arguments csr F : clear implicits.
