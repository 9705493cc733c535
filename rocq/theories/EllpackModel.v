(** Model of the ellpack format: src/C-interface/ellpack/*.
    All files cited below are in /repo/src/C-interface/ellpack unless a
    directory is given.

    Simplifications common to the whole file:
    - REAL_T is an arbitrary commutative ring (no rounding, no overflow);
      the test |x| > threshold is the parameter [keep : F -> bool];
    - int indices are natural numbers (no negative index, no overflow of i*M+j);
    - host code path only (no USE_OMP_OFFLOAD, CUSPARSE, ROCSPARSE, HYPRE, MAGMA);
    - an OpenMP "parallel for" is [par_for] with an explicit schedule [sched]
      (list of (thread, row)); the rows of the schedule are the rows of
      [rowMin, rowMax) of the calling rank, or [0, N) where the code says so;
    - a loop bound [A_nnz[i]] is read once, which is what the code observes
      because the bodies do not change A_nnz[i] before the loop ends. *)
From Verif Require Import Base Spec.

(** bml_types_ellpack.h 15-60: value and index are N*M arrays, nnz has N cells. *)
Record ell (F : scalar) : Type := mkEll {
  eN : nat; eM : nat;
  eval : list F; eidx : list nat; ennz : list nat }.
Arguments mkEll {F} _ _ _ _ _.
Arguments eN {F} _.
Arguments eM {F} _.
Arguments eval {F} _.
Arguments eidx {F} _.
Arguments ennz {F} _.

(** Work arrays of add / multiply: ix[N], jx[N], x[N]
    (bml_add_ellpack_typed.c 83-90, bml_multiply_ellpack_typed.c 174-181, 405-412). *)
Record wsp (V : Type) : Type := mkWs { wix : list nat; wjx : list nat; wx : list V }.
Arguments mkWs {V} _ _ _.
Arguments wix {V} _.
Arguments wjx {V} _.
Arguments wx {V} _.

Inductive dorder := row_major | col_major. (* bml_types.h: bml_dense_order_t *)

Section Ellpack.
  Context {F : scalar}.
  Local Open Scope K_scope.
  Local Notation ell := (ell F).

  (** A_value[ROWMAJOR(i,j,N,M)], A_index[..], A_nnz[i] : read *)
  Definition e_val (A : ell) (i j : nat) : res F := rd (eval A) (ROWMAJOR i j (eN A) (eM A)).
  Definition e_idx (A : ell) (i j : nat) : res nat := rd (eidx A) (ROWMAJOR i j (eN A) (eM A)).
  Definition e_nnz (A : ell) (i : nat) : res nat := rd (ennz A) i.

  (** the same cells: write *)
  Definition e_wval (A : ell) (i j : nat) (v : F) : res ell :=
    a <- wr (eval A) (ROWMAJOR i j (eN A) (eM A)) v ;;
    Ok (mkEll (eN A) (eM A) a (eidx A) (ennz A)).
  Definition e_widx (A : ell) (i j c : nat) : res ell :=
    a <- wr (eidx A) (ROWMAJOR i j (eN A) (eM A)) c ;;
    Ok (mkEll (eN A) (eM A) (eval A) a (ennz A)).
  Definition e_wnnz (A : ell) (i n : nat) : res ell :=
    a <- wr (ennz A) i n ;;
    Ok (mkEll (eN A) (eM A) (eval A) (eidx A) a).

  (** A_value[ROWMAJOR(i,j)] = v; A_index[ROWMAJOR(i,j)] = c; *)
  Definition e_put (A : ell) (i j c : nat) (v : F) : res ell :=
    A1 <- e_wval A i j v ;; e_widx A1 i j c.

  (** A_value[ROWMAJOR(i,A_nnz[i])] = v; A_index[..] = c; A_nnz[i]++; *)
  Definition e_push (A : ell) (i c : nat) (v : F) : res ell :=
    n <- e_nnz A i ;; A1 <- e_put A i n c v ;; e_wnnz A1 i (S n).

  (** for (jp = 0; jp < A_nnz[i]; jp++) { k = A_index[..]; v = A_value[..]; body } *)
  Definition e_for_row {S} (A : ell) (i : nat) (body : nat -> F -> S -> res S) (s : S) : res S :=
    n <- e_nnz A i ;;
    for_n n (fun jp s => k <- e_idx A i jp ;; v <- e_val A i jp ;; body k v s) s.

  (** ** Constructors: bml_allocate_ellpack_typed.c *)

  (** bml_zero_matrix_ellpack 205-266 (calloc). assert(M > 0) is a failed
      assertion, modelled by Err. *)
  Definition ell_zero (N M : nat) : res ell :=
    if M =? 0 then Err
    else Ok (mkEll N M (repeat 0 (N * M)) (repeat 0%nat (N * M)) (repeat 0%nat N)).

  (** bml_noinit_matrix_ellpack 146-188: malloc for value/index, calloc for nnz.
      [gv], [gi] give the unspecified initial contents. *)
  Definition ell_noinit (N M : nat) (gv : nat -> F) (gi : nat -> nat) : ell :=
    mkEll N M (map gv (seq 0 (N * M))) (map gi (seq 0 (N * M))) (repeat 0%nat N).

  (** bml_clear_ellpack 77-130 (memset of the three arrays). *)
  Definition ell_clear (A : ell) : ell :=
    mkEll (eN A) (eM A) (repeat 0 (length (eval A))) (repeat 0%nat (length (eidx A)))
          (repeat 0%nat (length (ennz A))).

  (** bml_identity_matrix_ellpack 414-443. *)
  Definition ell_identity (N M : nat) : res ell :=
    A <- ell_zero N M ;;
    for_n N (fun i A => A1 <- e_put A i 0 i 1 ;; e_wnnz A1 i 1) A.

  (** bml_banded_matrix_ellpack 283-314.  [rnd i j] is the value of
      rand() * INV_RAND_MAX drawn for element (i, j).  The bounds
      max(0, i - M/2) and min(N, i - M/2 + M) are written with truncated
      subtraction: i - M/2 + M = i + (M - M/2) as integers. *)
  Definition ell_banded (N M : nat) (rnd : nat -> nat -> F) : res ell :=
    A <- ell_zero N M ;;
    for_n N (fun i A =>
      let lo := (i - M / 2)%nat in
      let hi := Nat.min N (i + (M - M / 2)) in
      '(A, jind) <- forM (seq lo (hi - lo))
          (fun j '(A, jind) => A1 <- e_put A i jind j (rnd i j) ;; Ok (A1, S jind)) (A, 0%nat) ;;
      e_wnnz A i jind) A.

  (** bml_random_matrix_ellpack 340-397.  [rv i j] / [rc i j] are the rand()
      value and the rand() % N column drawn in iteration (i, j). *)
  Definition ell_random (N M : nat) (rv : nat -> nat -> F) (rc : nat -> nat -> nat) : res ell :=
    A <- ell_zero N M ;;
    '(A, _) <- for_n N (fun i '(A, mark) =>
      '(A, mark, pos, _) <- for_n M (fun j '(A, mark, pos, col) =>
          m <- rd mark col ;;
          let nnz_row := length pos in
          if (m : bool) then Ok (A, mark, pos, (rc i j mod N)%nat)
          else
            A1 <- e_put A i nnz_row col (rv i j) ;;
            mark' <- wr mark col true ;;
            Ok (A1, mark', pos ++ [col], (rc i j mod N)%nat))
        (A, mark, [], i) ;;
      A <- e_wnnz A i (length pos) ;;
      mark <- forM pos (fun c mark => wr mark c false) mark ;;
      Ok (A, mark)) (A, repeat false N) ;;
    Ok A.

  (** ** Setters: bml_setters_ellpack_typed.c *)

  (** bml_set_element_new_ellpack 26-50 *)
  Definition ell_set_element_new (A : ell) (i j : nat) (v : F) : res ell := e_push A i j v.

  (** for (l = 0; l < A_nnz[i]; l++) if (A_index[..] == j) { found l; break; } *)
  Definition e_find (A : ell) (i j : nat) : res (option nat) :=
    n <- e_nnz A i ;;
    for_n n (fun l found =>
      match found with
      | Some p => Ok (Some p)
      | None => k <- e_idx A i l ;; Ok (if k =? j then Some l else None)
      end) None.

  (** bml_set_element_ellpack 66-113: the search is made only if nnz > 2. *)
  Definition ell_set_element (A : ell) (i j : nat) (v : F) : res ell :=
    n <- e_nnz A i ;;
    if 2 <? n then
      f <- e_find A i j ;;
      match f with
      | Some l => e_wval A i l v
      | None => e_push A i j v
      end
    else e_push A i j v.

  (** bml_set_row_ellpack 125-161.  ll is kept as ll+1 (number written). *)
  Definition ell_set_row (keep : F -> bool) (A : ell) (i : nat) (row : list F) : res ell :=
    '(A, ll) <- for_n (eN A) (fun j '(A, ll) =>
        r <- rd row j ;;
        if keep r then A1 <- e_put A i ll j r ;; Ok (A1, S ll) else Ok (A, ll)) (A, 0%nat) ;;
    e_wnnz A i ll.

  (** bml_set_diagonal_ellpack 171-221.  The inner "parallel for" over the
      entries of row i only writes entries with column i. *)
  Definition ell_set_diagonal (keep : F -> bool) (A : ell) (diag : list F) : res ell :=
    for_n (eN A) (fun i A =>
      n <- e_nnz A i ;;
      d <- rd diag i ;;
      '(A, ll) <- for_n n (fun j '(A, ll) =>
          k <- e_idx A i j ;;
          if k =? i then A1 <- e_wval A i j (if keep d then d else 0) ;; Ok (A1, true)
          else Ok (A, ll)) (A, false) ;;
      if (ll : bool) then Ok A
      else if keep d then e_push A i i d else Ok A) A.

  (** ** Getters: bml_getters_ellpack_typed.c *)

  (** bml_get_element_ellpack 18-55 *)
  Definition ell_get_element (A : ell) (i j : nat) : res F :=
    if eN A <=? i then Err
    else if eN A <=? j then Err
    else f <- e_find A i j ;;
         match f with Some l => e_val A i l | None => Ok 0 end.

  (** bml_get_row_ellpack 66-98 (ll >= 0 always holds for nat) *)
  Definition ell_get_row (A : ell) (i : nat) : res (list F) :=
    e_for_row A i (fun k v row => wr row k v) (repeat 0 (eN A)).

  (** bml_get_diagonal_ellpack 108-136 *)
  Definition ell_get_diagonal (A : ell) : res (list F) :=
    for_n (eN A) (fun i diag =>
      diag <- wr diag i 0 ;;
      e_for_row A i (fun k v diag => if k =? i then wr diag i v else Ok diag) diag)
      (repeat 0 (eN A)).

  (** ** Import / export *)

  Definition dense_at (o : dorder) (N : nat) (D : list F) (i j : nat) : res F :=
    rd D (match o with row_major => ROWMAJOR i j N N | col_major => COLMAJOR i j N N end).

  (** bml_import_ellpack_typed.c 28-76 *)
  Definition ell_import (o : dorder) (N M : nat) (keep : F -> bool) (D : list F)
             (sched : list (nat * nat)) : res ell :=
    A <- ell_zero N M ;;
    '(A, _) <- par_for sched (fun i '(A, w) =>
        A <- e_wnnz A i 0 ;;
        A <- for_n N (fun j A =>
            a <- dense_at o N D i j ;;
            if keep a then e_push A i j a else Ok A) A ;;
        Ok (A, w)) A (fun _ => tt) ;;
    Ok A.

  (** bml_export_ellpack_typed.c 26-73 *)
  Definition ell_export (o : dorder) (A : ell) (sched : list (nat * nat)) : res (list F) :=
    '(D, _) <- par_for sched (fun i '(D, w) =>
        D <- e_for_row A i (fun k v D =>
          wr D (match o with row_major => ROWMAJOR i k (eN A) (eN A)
                           | col_major => COLMAJOR i k (eN A) (eN A) end) v) D ;;
        Ok (D, w)) (repeat 0 (eN A * eN A)) (fun _ => tt) ;;
    Ok D.

  (** ** Accumulation work arrays *)

  Definition ws_new {V} (zero : V) (N : nat) : wsp V :=
    mkWs (repeat 0%nat N) (repeat 0%nat N) (repeat zero N).

  (** if (ix[k] == 0) { x[k] = 0.0; ix[k] = i + 1; jx[l] = k; l++; }
      (bml_add_ellpack_typed.c 166-172) *)
  Definition ws_mark {V} (zero : V) (i k : nat) (s : wsp V * nat) : res (wsp V * nat) :=
    let '(w, l) := s in
    m <- rd (wix w) k ;;
    if m =? 0 then
      x' <- wr (wx w) k zero ;;
      ix' <- wr (wix w) k (i + 1)%nat ;;
      jx' <- wr (wjx w) l k ;;
      Ok (mkWs ix' jx' x', S l)
    else Ok (w, l).

  (** x[k] = x[k] + v (bml_add_ellpack_typed.c 173) *)
  Definition ws_plus {V} (plus : V -> V -> V) (k : nat) (v : V) (s : wsp V * nat) : res (wsp V * nat) :=
    let '(w, l) := s in
    xk <- rd (wx w) k ;;
    x' <- wr (wx w) k (plus xk v) ;;
    Ok (mkWs (wix w) (wjx w) x', l).

  Definition ws_acc {V} (zero : V) (plus : V -> V -> V) (i k : nat) (v : V) (s : wsp V * nat) :
    res (wsp V * nat) :=
    s <- ws_mark zero i k s ;; ws_plus plus k v s.

  (** The gather loop (bml_add_ellpack_typed.c 191-204,
      bml_multiply_ellpack_typed.c 301-321, 521-541):
      for (jp = 0; jp < l; jp++) { jind = jx[jp]; xTmp = x[jind];
        if (kc jind xTmp) { A_value[ROWMAJOR(i,ll)] = xTmp; A_index[..] = jind; ll++; }
        x[jind] = 0.0; ix[jind] = 0; }
      [side] accumulates the extra scalar of add_norm / x2. *)
  Definition ws_gather {V T} (zero : V) (proj : V -> F) (kc : nat -> F -> bool)
             (side : nat -> V -> T -> T) (i l : nat) (A : ell) (w : wsp V) (t : T) :
    res (ell * wsp V * T * nat) :=
    for_n l (fun jp '(A, w, t, ll) =>
      jind <- rd (wjx w) jp ;;
      xtmp <- rd (wx w) jind ;;
      let t := side jind xtmp t in
      '(A, ll) <- (if kc jind (proj xtmp)
                   then A1 <- e_put A i ll jind (proj xtmp) ;; Ok (A1, S ll)
                   else Ok (A, ll)) ;;
      x' <- wr (wx w) jind zero ;;
      ix' <- wr (wix w) jind 0%nat ;;
      Ok (A, mkWs ix' (wjx w) x', t, ll)) (A, w, t, 0%nat).

  (** ** Addition: bml_add_ellpack_typed.c *)

  (** One iteration of bml_add_ellpack, lines 161-205. *)
  Definition add_row (keep : F -> bool) (alpha beta : F) (B : ell) (i : nat)
             (s : ell * wsp F) : res (ell * wsp F) :=
    let '(A, w) := s in
    s1 <- (if keqb alpha 0 then Ok (w, 0%nat)
           else e_for_row A i (fun k v s => ws_acc 0 kadd i k (alpha * v) s) (w, 0%nat)) ;;
    s2 <- (if keqb beta 0 then Ok s1
           else e_for_row B i (fun k v s => ws_acc 0 kadd i k (beta * v) s) s1) ;;
    let '(w, l) := s2 in
    A <- e_wnnz A i l ;;
    '(A, w, _, ll) <- ws_gather 0 (fun x => x) (fun _ x => keep x) (fun _ _ t => t) i l A w tt ;;
    A <- e_wnnz A i ll ;;
    Ok (A, w).

  (** bml_add_ellpack 50-216: A = alpha A + beta B, B a different object than A. *)
  Definition ell_add (keep : F -> bool) (alpha beta : F) (A B : ell) (sched : list (nat * nat)) : res ell :=
    '(A, _) <- par_for sched (fun i s => add_row keep alpha beta B i s) A
                  (fun _ => ws_new 0 (eN A)) ;;
    Ok A.

  (** The same call with B the same object as A. *)
  Definition ell_add_self (keep : F -> bool) (alpha beta : F) (A : ell) (sched : list (nat * nat)) : res ell :=
    '(A, _) <- par_for sched (fun i s => add_row keep alpha beta (fst s) i s) A
                  (fun _ => ws_new 0 (eN A)) ;;
    Ok A.

  (** bml_add_norm_ellpack 230-408: the arrays x and y are modelled as one
      array of pairs (they are always indexed by the same k).  Private state of
      a thread: work arrays and its partial sum of the reduction(+:trnorm). *)
  Definition padd (p q : F * F) : F * F := (fst p + fst q, snd p + snd q).
  Definition add_norm_row (keep : F -> bool) (alpha beta : F) (B : ell) (i : nat)
             (s : ell * (wsp (F * F) * F)) : res (ell * (wsp (F * F) * F)) :=
    let '(A, (w, tr)) := s in
    s1 <- e_for_row A i (fun k v s => ws_acc (0, 0) padd i k (alpha * v, v) s) (w, 0%nat) ;;
    s2 <- e_for_row B i (fun k v s => ws_acc (0, 0) padd i k (beta * v, - v) s) s1 ;;
    let '(w, l) := s2 in
    A <- e_wnnz A i l ;;
    '(A, w, tr, ll) <- ws_gather (0, 0) fst (fun _ x => keep x)
        (fun _ xy t => t + snd xy * snd xy) i l A w tr ;;
    A <- e_wnnz A i ll ;;
    Ok (A, (w, tr)).

  (** Combination of a reduction(+:v) variable: initial value plus the partial
      sums of the threads 0..nth-1. *)
  Definition reduce_sum (nth : nat) (p : nat -> F) : F := bigsum nth p.

  Definition ell_add_norm (keep : F -> bool) (alpha beta : F) (A B : ell)
             (nth : nat) (sched : list (nat * nat)) : res (ell * F) :=
    '(A, w) <- par_for sched (fun i s => add_norm_row keep alpha beta B i s) A
                  (fun _ => (ws_new (0, 0) (eN A), 0)) ;;
    Ok (A, reduce_sum nth (fun t => snd (w t))).

  (** bml_add_identity_ellpack 420-549: private arrays jx[A_M], x[A_M]. *)
  Definition add_identity_row (keep : F -> bool) (beta : F) (i : nat)
             (s : ell * (list nat * list F)) : res (ell * (list nat * list F)) :=
    let '(A, (jx, x)) := s in
    '(jx, x, l, diag) <- e_for_row A i (fun k v '(jx, x, l, diag) =>
        let diag := if k =? i then Some l else diag in
        x <- wr x l v ;; jx <- wr jx l k ;; Ok (jx, x, S l, diag)) (jx, x, 0%nat, None) ;;
    '(jx, x, l) <- (if keqb beta 0 then Ok (jx, x, l)
                    else match diag with
                         | None => x <- wr x l beta ;; jx <- wr jx l i ;; Ok (jx, x, S l)
                         | Some d => xd <- rd x d ;; x <- wr x d (xd + beta) ;; Ok (jx, x, l)
                         end) ;;
    '(A, ll) <- for_n l (fun jp '(A, ll) =>
        jind <- rd jx jp ;; xtmp <- rd x jp ;;
        if keep xtmp then A1 <- e_put A i ll jind xtmp ;; Ok (A1, S ll) else Ok (A, ll)) (A, 0%nat) ;;
    A <- e_wnnz A i ll ;;
    Ok (A, (jx, x)).

  Definition ell_add_identity (keep : F -> bool) (beta : F) (A : ell) (sched : list (nat * nat)) : res ell :=
    '(A, _) <- par_for sched (fun i s => add_identity_row keep beta i s) A
                 (fun _ => (repeat 0%nat (eM A), repeat 0 (eM A))) ;;
    Ok A.

  (** ** Scaling: bml_scale_ellpack_typed.c *)

  (** C_BLAS(SCAL)(n, a, &v[start], 1): reference BLAS semantics. *)
  Definition blas_scal (n start : nat) (a : F) (v : list F) : res (list F) :=
    for_n n (fun p v => x <- rd v (start + p)%nat ;; wr v (start + p)%nat (a * x)) v.

  (** bml_scale_inplace_ellpack 91-125 with localRowExtent = N, localDispl = 0
      (one rank). *)
  Definition ell_scale_inplace (a : F) (A : ell) : res ell :=
    v <- blas_scal (eN A * eM A) 0 a (eval A) ;;
    Ok (mkEll (eN A) (eM A) v (eidx A) (ennz A)).

  (** bml_copy_ellpack 86-148 and bml_copy_ellpack_new 22-77 (host path):
      nnz by one memcpy, index/value by one memcpy per row. *)
  Definition memcpy {T} (dst : list T) (d : nat) (src : list T) (s n : nat) : res (list T) :=
    for_n n (fun p dst => x <- rd src (s + p)%nat ;; wr dst (d + p)%nat x) dst.

  Definition ell_copy (A B : ell) : res ell :=
    if eM A =? 0 then Err else
    nz <- memcpy (ennz B) 0 (ennz A) 0 (eN A) ;;
    '(ix, vl) <- for_n (eN A) (fun i '(ix, vl) =>
        ix <- memcpy ix (ROWMAJOR i 0 (eN A) (eM A)) (eidx A) (ROWMAJOR i 0 (eN A) (eM A)) (eM A) ;;
        vl <- memcpy vl (ROWMAJOR i 0 (eN A) (eM A)) (eval A) (ROWMAJOR i 0 (eN A) (eM A)) (eM A) ;;
        Ok (ix, vl)) (eidx B, eval B) ;;
    Ok (mkEll (eN B) (eM B) vl ix nz).

  Definition ell_copy_new (A : ell) (gv : nat -> F) (gi : nat -> nat) : res ell :=
    let B := ell_noinit (eN A) (eM A) gv gi in
    nz <- memcpy (ennz B) 0 (ennz A) 0 (eN A) ;;
    '(ix, vl) <- for_n (eN A) (fun i '(ix, vl) =>
        ix <- memcpy ix (ROWMAJOR i 0 (eN A) (eM A)) (eidx A) (ROWMAJOR i 0 (eN A) (eM A)) (eM A) ;;
        vl <- memcpy vl (ROWMAJOR i 0 (eN A) (eM A)) (eval A) (ROWMAJOR i 0 (eN A) (eM A)) (eM A) ;;
        Ok (ix, vl)) (eidx B, eval B) ;;
    Ok (mkEll (eN B) (eM B) vl ix nz).

  (** bml_scale_ellpack 47-89 (A != B) and bml_scale_ellpack_new 28-38. *)
  Definition ell_scale (a : F) (A B : ell) : res ell :=
    B <- ell_copy A B ;; ell_scale_inplace a B.
  Definition ell_scale_new (a : F) (A : ell) (gv : nat -> F) (gi : nat -> nat) : res ell :=
    B <- ell_copy_new A gv gi ;; ell_scale a A B.

  (** bml_scale_add_identity_ellpack (bml_add_ellpack_typed.c 562-573).  The C code
      passes the address of a double as scale factor; this model is the
      double_real instantiation, where REAL_T is double. *)
  Definition ell_scale_add_identity (keep : F -> bool) (alpha beta : F) (A : ell)
             (sched : list (nat * nat)) : res ell :=
    A <- ell_scale_inplace alpha A ;; ell_add_identity keep beta A sched.

  (** bml_reorder_ellpack (bml_copy_ellpack_typed.c 157-205). *)
  Definition ell_reorder (A : ell) (perm : list nat) (s1 s2 : list (nat * nat))
             (gv : nat -> F) (gi : nat -> nat) : res ell :=
    B <- ell_copy_new A gv gi ;;
    '(A, _) <- par_for s1 (fun i '(A, w) =>
        p <- rd perm i ;;
        ix <- memcpy (eidx A) (ROWMAJOR p 0 (eN A) (eM A)) (eidx B) (ROWMAJOR i 0 (eN A) (eM A)) (eM A) ;;
        vl <- memcpy (eval A) (ROWMAJOR p 0 (eN A) (eM A)) (eval B) (ROWMAJOR i 0 (eN A) (eM A)) (eM A) ;;
        n <- e_nnz B i ;;
        A <- e_wnnz (mkEll (eN A) (eM A) vl ix (ennz A)) p n ;;
        Ok (A, w)) A (fun _ => tt) ;;
    '(A, _) <- par_for s2 (fun i '(A, w) =>
        n <- e_nnz A i ;;
        A <- for_n n (fun j A => k <- e_idx A i j ;; p <- rd perm k ;; e_widx A i j p) A ;;
        Ok (A, w)) A (fun _ => tt) ;;
    Ok A.

  (** ** Products: bml_multiply_ellpack_typed.c *)

  Definition kc_offdiag (keep : F -> bool) (i jp : nat) (x : F) : bool :=
    if jp =? i then true else keep x.

  (** One iteration of bml_multiply_AB_ellpack, lines 491-542. *)
  Definition mul_row (keep : F -> bool) (A B : ell) (i : nat) (s : ell * wsp F) : res (ell * wsp F) :=
    let '(C, w) := s in
    '(w, l) <- e_for_row A i (fun j a s =>
        e_for_row B j (fun k b s => ws_acc 0 kadd i k (a * b) s) s) (w, 0%nat) ;;
    if eM C <? l then Err else
    '(C, w, _, ll) <- ws_gather 0 (fun x => x) (kc_offdiag keep i) (fun _ _ t => t) i l C w tt ;;
    C <- e_wnnz C i ll ;;
    Ok (C, w).

  (** bml_multiply_AB_ellpack 362-553; C a different object than A and B. *)
  Definition ell_multiply_AB (keep : F -> bool) (A B C : ell) (sched : list (nat * nat)) : res ell :=
    '(C, _) <- par_for sched (fun i s => mul_row keep A B i s) C (fun _ => ws_new 0 (eN C)) ;;
    Ok C.

  (** One iteration of bml_multiply_x2_ellpack, lines 271-332.  The overflow
      test ll > X2_M comes after the writes. Thread state: work arrays, traceX,
      traceX2.  [getX] gives the matrix read: constant when X2 is another
      object, the matrix being written when X2 == X. *)
  Definition x2_row (keep : F -> bool) (getX : ell -> ell) (i : nat) (s : ell * (wsp F * F * F)) :
    res (ell * (wsp F * F * F)) :=
    let '(C, (w, tx, tx2)) := s in
    let X := getX C in
    '(w, l, tx) <- e_for_row X i (fun j a '(w, l, tx) =>
        let tx := if j =? i then tx + a else tx in
        '(w, l) <- e_for_row X j (fun k b s => ws_acc 0 kadd i k (a * b) s) (w, l) ;;
        Ok (w, l, tx)) (w, 0%nat, tx) ;;
    '(C, w, tx2, ll) <- ws_gather 0 (fun x => x) (kc_offdiag keep i)
        (fun jp x t => if jp =? i then t + x else t) i l C w tx2 ;;
    if eM C <? ll then Err else
    C <- e_wnnz C i ll ;;
    Ok (C, (w, tx, tx2)).

  (** bml_multiply_x2_ellpack 130-349: result matrix, trace of X, trace of X^2. *)
  Definition ell_multiply_x2 (keep : F -> bool) (X X2 : ell) (nth : nat) (sched : list (nat * nat)) :
    res (ell * F * F) :=
    '(C, w) <- par_for sched (x2_row keep (fun _ => X)) X2 (fun _ => (ws_new 0 (eN X), 0, 0)) ;;
    Ok (C, reduce_sum nth (fun t => snd (fst (w t))), reduce_sum nth (fun t => snd (w t))).

  (** the same with X2 == X *)
  Definition ell_multiply_x2_inplace (keep : F -> bool) (X : ell) (nth : nat) (sched : list (nat * nat)) :
    res (ell * F * F) :=
    '(C, w) <- par_for sched (x2_row keep (fun c => c)) X (fun _ => (ws_new 0 (eN X), 0, 0)) ;;
    Ok (C, reduce_sum nth (fun t => snd (fst (w t))), reduce_sum nth (fun t => snd (w t))).

  (** bml_multiply_ellpack 55-118, A and B different objects (both different from C). *)
  Definition ell_multiply (keep : F -> bool) (alpha beta : F) (A B C : ell)
             (s1 s2 : list (nat * nat)) (gv : nat -> F) (gi : nat -> nat) : res ell :=
    A2 <- ell_multiply_AB keep A B (ell_noinit (eN C) (eM C) gv gi) s1 ;;
    ell_add keep beta alpha C A2 s2.

  (** bml_multiply_ellpack 55-118, A == B, C a different object. *)
  Definition ell_multiply_sq (keep : F -> bool) (alpha beta : F) (A C : ell) (nth : nat)
             (s1 s2 : list (nat * nat)) (gv : nat -> F) (gi : nat -> nat) : res ell :=
    if keqb alpha 1 && keqb beta 0 then
      '(C, _, _) <- ell_multiply_x2 keep A C nth s1 ;; Ok C
    else
      '(A2, _, _) <- ell_multiply_x2 keep A (ell_noinit (eN C) (eM C) gv gi) nth s1 ;;
      ell_add keep beta alpha C A2 s2.

  (** bml_multiply_ellpack 55-118 with A == B == C. *)
  Definition ell_multiply_sq_inplace (keep : F -> bool) (alpha beta : F) (A : ell) (nth : nat)
             (s1 s2 : list (nat * nat)) (gv : nat -> F) (gi : nat -> nat) : res ell :=
    if keqb alpha 1 && keqb beta 0 then
      '(C, _, _) <- ell_multiply_x2_inplace keep A nth s1 ;; Ok C
    else
      '(A2, _, _) <- ell_multiply_x2 keep A (ell_noinit (eN A) (eM A) gv gi) nth s1 ;;
      ell_add keep beta alpha A A2 s2.

  (** bml_multiply_adjust_AB_ellpack 566-707: one pass of the while loop; the
      thread state carries aflag.  [keep] is the test with the current
      adjust_threshold.  There is no LOG_ERROR: an overfull row is written. *)
  Definition adjust_row (keep : F -> bool) (A B : ell) (i : nat) (s : ell * (wsp F * bool)) :
    res (ell * (wsp F * bool)) :=
    let '(C, (w, fl)) := s in
    '(w, l) <- e_for_row A i (fun j a s =>
        e_for_row B j (fun k b s => ws_acc 0 kadd i k (a * b) s) s) (w, 0%nat) ;;
    let fl := if eM C <? l then true else fl in
    '(C, w, _, ll) <- ws_gather 0 (fun x => x) (kc_offdiag keep i) (fun _ _ t => t) i l C w tt ;;
    C <- e_wnnz C i ll ;;
    Ok (C, (w, fl)).

  (** The while loop, with [fuel] passes; [keeps n] is the threshold test of
      pass n (threshold * 2^n); pass n runs with the schedule [scheds n].
      firstprivate(ix,jx,x): each pass starts from the work arrays of the
      master, which the passes never modify. *)
  Fixpoint ell_adjust (fuel n : nat) (keeps : nat -> F -> bool) (A B C : ell) (nth : nat)
           (scheds : nat -> list (nat * nat)) : res ell :=
    match fuel with
    | O => Loop
    | S fuel =>
        '(C, w) <- par_for (scheds n) (adjust_row (keeps n) A B) C
                     (fun _ => (ws_new 0 (eN C), false)) ;;
        if existsb (fun t => snd (w t)) (seq 0 nth)
        then ell_adjust fuel (S n) keeps A B C nth scheds
        else Ok C
    end.

  (** ** Element-wise product: bml_element_multiply_ellpack_typed.c 36-210 *)
  Definition emul_row (keep : F -> bool) (A B : ell) (i : nat) (s : ell * wsp F) : res (ell * wsp F) :=
    let '(C, w) := s in
    '(w, l) <- e_for_row A i (fun k a s =>
        s <- ws_mark 0 i k s ;;
        e_for_row B i (fun kB b s => if k =? kB then ws_plus kadd k (a * b) s else Ok s) s) (w, 0%nat) ;;
    if eM C <? l then Err else
    '(C, w, _, ll) <- ws_gather 0 (fun x => x) (kc_offdiag keep i) (fun _ _ t => t) i l C w tt ;;
    C <- e_wnnz C i ll ;;
    Ok (C, w).

  Definition ell_element_multiply (keep : F -> bool) (A B C : ell) (sched : list (nat * nat)) : res ell :=
    '(C, _) <- par_for sched (fun i s => emul_row keep A B i s) C (fun _ => ws_new 0 (eN C)) ;;
    Ok C.

  (** ** Threshold: bml_threshold_ellpack_typed.c *)

  (** bml_threshold_new_ellpack 28-78 *)
  Definition ell_threshold_new (keep : F -> bool) (A : ell) (sched : list (nat * nat)) : res ell :=
    B <- ell_zero (eN A) (eM A) ;;
    '(B, _) <- par_for sched (fun i '(B, w) =>
        B <- e_for_row A i (fun k v B => if keep v then e_push B i k v else Ok B) B ;;
        Ok (B, w)) B (fun _ => tt) ;;
    Ok B.

  (** bml_threshold_ellpack 88-133 *)
  Definition ell_threshold (keep : F -> bool) (A : ell) (sched : list (nat * nat)) : res ell :=
    '(A, _) <- par_for sched (fun i '(A, w) =>
        n <- e_nnz A i ;;
        '(A, rlen) <- for_n n (fun j '(A, rlen) =>
            v <- e_val A i j ;;
            if keep v then
              A <- (if rlen <? j then
                      A <- e_wval A i rlen v ;; k <- e_idx A i j ;; e_widx A i rlen k
                    else Ok A) ;;
              Ok (A, S rlen)
            else Ok (A, rlen)) (A, 0%nat) ;;
        A <- e_wnnz A i rlen ;;
        Ok (A, w)) A (fun _ => tt) ;;
    Ok A.

  (** ** Transpose: bml_transpose_ellpack_typed.c *)

  (** bml_transpose_new_ellpack 35-105.  The row loop is parallel and the
      insertion into row trow is protected by row_lock[trow]; the possible
      executions are the interleavings of the insertions, i.e. orders [ev] of
      the pairs (i, j) (row, slot) of A. *)
  Definition ell_transpose_new (A : ell) (ev : list (nat * nat)) (gv : nat -> F) (gi : nat -> nat) : res ell :=
    forM ev (fun '(i, j) B =>
      trow <- e_idx A i j ;; v <- e_val A i j ;; e_push B trow i v)
      (ell_noinit (eN A) (eM A) gv gi).

  (** ellpack_swap_row_entries 140-163 *)
  Definition e_swap (A : ell) (row ipos jpos : nat) : res ell :=
    if ipos =? jpos then Ok A else
    tmp <- e_val A row ipos ;;
    itmp <- e_idx A row ipos ;;
    vj <- e_val A row jpos ;;
    A <- e_wval A row ipos vj ;;
    A <- e_wval A row jpos tmp ;;
    kj <- e_idx A row jpos ;;
    A <- e_widx A row ipos kj ;;
    e_widx A row jpos itmp.

  (** ellpack_transpose_left_looking 172-284: one pass of the while loop of
      row i; state A, nz_t, ipos+1. *)
  Definition tr_left_step (i : nat) (A : ell) (nzt : list nat) (ip1 : nat) :
    res (ell * list nat * nat) :=
    let ipos := (ip1 - 1)%nat in
    j <- e_idx A i ipos ;;
    if i <? j then
      jnnz <- e_nnz A j ;;
      jstart <- rd nzt j ;;
      (* search for symmetric position *)
      f <- forM (seq jstart (jnnz - jstart)) (fun jpos found =>
             match found with
             | Some p => Ok (Some p)
             | None => k <- e_idx A j jpos ;; Ok (if k =? i then Some jpos else None)
             end) None ;;
      match f with
      | Some jpos =>
          tmp <- e_val A i ipos ;;
          vj <- e_val A j jpos ;;
          A <- e_wval A i ipos vj ;;
          A <- e_wval A j jpos tmp ;;
          zi <- rd nzt i ;;
          A <- e_swap A i ipos zi ;;
          zj <- rd nzt j ;;
          A <- e_swap A j jpos zj ;;
          nzt <- wr nzt i (S zi) ;;
          zj <- rd nzt j ;;
          nzt <- wr nzt j (S zj) ;;
          Ok (A, nzt, ip1)
      | None =>
          v <- e_val A i ipos ;;
          A <- e_push A j i v ;;
          nj <- e_nnz A j ;;
          zj <- rd nzt j ;;
          A <- e_swap A j (nj - 1)%nat zj ;;
          nzt <- wr nzt j (S zj) ;;
          ni <- e_nnz A i ;;
          A <- e_wnnz A i (ni - 1)%nat ;;
          Ok (A, nzt, (ip1 - 1)%nat)
      end
    else if j <? i then
      v <- e_val A i ipos ;;
      A <- e_push A j i v ;;
      zj <- rd nzt j ;;
      nzt <- wr nzt j (S zj) ;;
      ni <- e_nnz A i ;;
      A <- e_wnnz A i (ni - 1)%nat ;;
      Ok (A, nzt, (ip1 - 1)%nat)
    else
      zi <- rd nzt i ;;
      A <- e_swap A i ipos zi ;;
      nzt <- wr nzt i (S zi) ;;
      Ok (A, nzt, ip1).

  (** while (ipos >= nz_t[i]) *)
  Fixpoint tr_left_while (fuel i : nat) (A : ell) (nzt : list nat) (ip1 : nat) : res (ell * list nat) :=
    match fuel with
    | O => Loop
    | S fuel =>
        zi <- rd nzt i ;;
        if zi <? ip1 then
          '(A, nzt, ip1) <- tr_left_step i A nzt ip1 ;;
          tr_left_while fuel i A nzt ip1
        else Ok (A, nzt)
    end.

  (** bml_transpose_ellpack 406-416 = ellpack_transpose_left_looking *)
  Definition ell_transpose (A : ell) : res ell :=
    '(A, _) <- for_n (eN A) (fun i '(A, nzt) =>
        innz <- e_nnz A i ;;
        tr_left_while (S innz) i A nzt innz) (A, repeat 0%nat (eN A)) ;;
    Ok A.

  (** ** Traces: bml_trace_ellpack_typed.c *)

  (** bml_trace_ellpack 29-92 (break after the first diagonal entry) *)
  Definition ell_trace (A : ell) (nth : nat) (sched : list (nat * nat)) : res F :=
    '(_, w) <- par_for sched (fun i '(s, tr) =>
        '(tr, _) <- e_for_row A i (fun k v '(tr, stop) =>
           if (stop : bool) then Ok (tr, stop)
           else if i =? k then Ok (tr + v, true) else Ok (tr, false)) (tr, false) ;;
        Ok (s, tr)) tt (fun _ => 0) ;;
    Ok (reduce_sum nth w).

  (** bml_getVector_ellpack (bml_submatrix_ellpack_typed.c 377-406): rvalue is
      malloc'ed; a cell is written only if row irow has at least one entry.
      [None] is an uninitialised cell. *)
  Definition ell_getVector (A : ell) (jj : list nat) (irow : nat) : res (list (option F)) :=
    forM jj (fun c rv =>
      '(x, _) <- e_for_row A irow (fun k v '(x, stop) =>
           if (stop : bool) then Ok (x, stop)
           else if k =? c then Ok (Some v, true) else Ok (Some 0, false)) (None, false) ;;
      Ok (rv ++ [x])) [].

  Definition use {T} (x : option T) : res T := match x with Some v => Ok v | None => UB end.

  (** bml_trace_mult_ellpack 103-164 *)
  Definition ell_trace_mult (A B : ell) (nth : nat) (sched : list (nat * nat)) : res F :=
    if negb ((eN A =? eN B) && (eM A =? eM B)) then Err else
    '(_, w) <- par_for sched (fun i '(s, tr) =>
        n <- e_nnz A i ;;
        jj <- for_n n (fun j jj => k <- e_idx A i j ;; Ok (jj ++ [k])) [] ;;
        rv <- ell_getVector B jj i ;;
        tr <- for_n n (fun j tr =>
            a <- e_val A i j ;; r <- rd rv j ;; r <- use r ;; Ok (tr + a * r)) tr ;;
        Ok (s, tr)) tt (fun _ => 0) ;;
    Ok (reduce_sum nth w).

  (** ** Norms: bml_norm_ellpack_typed.c *)

  (** bml_sum_squares_ellpack 25-62 *)
  Definition ell_sum_squares (A : ell) (nth : nat) (sched : list (nat * nat)) : res F :=
    '(_, w) <- par_for sched (fun i '(s, sum) =>
        sum <- e_for_row A i (fun _ v sum => Ok (sum + v * v)) sum ;; Ok (s, sum)) tt (fun _ => 0) ;;
    Ok (reduce_sum nth w).

  (** bml_sum_squares_submatrix_ellpack 73-106 *)
  Definition ell_sum_squares_submatrix (A : ell) (core : nat) (nth : nat) (sched : list (nat * nat)) : res F :=
    '(_, w) <- par_for sched (fun i '(s, sum) =>
        sum <- e_for_row A i (fun k v sum => Ok (if k <? core then sum + v * v else sum)) sum ;;
        Ok (s, sum)) tt (fun _ => 0) ;;
    Ok (reduce_sum nth w).

  (** bml_sum_AB_ellpack 118-215: thread state ix[N], jjb[M], y[N], sum. *)
  Definition ell_sum_AB (keep : F -> bool) (alpha : F) (A B : ell) (nth : nat) (sched : list (nat * nat)) : res F :=
    '(_, w) <- par_for sched (fun i '(s, (jjb, y, sum)) =>
        '(ix, y) <- e_for_row A i (fun k v '(ix, y) =>
            ix <- wr ix k 1%nat ;; y <- wr y k (alpha * v) ;; Ok (ix, y)) (repeat 0%nat (eN A), y) ;;
        '(jjb, y, l) <- e_for_row B i (fun k v '(jjb, y, l) =>
            m <- rd ix k ;;
            if m =? 0 then Ok (jjb, y, l)
            else jjb <- wr jjb l k ;; yk <- rd y k ;; y <- wr y k (yk * v) ;; Ok (jjb, y, S l))
            (jjb, y, 0%nat) ;;
        sum <- for_n l (fun jp sum =>
            k <- rd jjb jp ;; yk <- rd y k ;; Ok (if keep yk then sum + yk else sum)) sum ;;
        Ok (s, (jjb, y, sum))) tt (fun _ => (repeat 0%nat (eM A), repeat 0 (eN A), 0)) ;;
    Ok (reduce_sum nth (fun t => snd (w t))).

  (** bml_sum_squares2_ellpack 228-337: in the loop over A the entry is
      initialised without testing ix. *)
  Definition ell_sum_squares2 (keep : F -> bool) (alpha beta : F) (A B : ell) (nth : nat)
             (sched : list (nat * nat)) : res F :=
    '(_, w) <- par_for sched (fun i '(s, (ix, jjb, y, sum)) =>
        '(ix, jjb, y, l) <- e_for_row A i (fun k v '(ix, jjb, y, l) =>
            y <- wr y k 0 ;; ix <- wr ix k 1%nat ;; jjb <- wr jjb l k ;;
            yk <- rd y k ;; y <- wr y k (yk + alpha * v) ;; Ok (ix, jjb, y, S l))
            (ix, jjb, y, 0%nat) ;;
        '(jjb, y, l) <- e_for_row B i (fun k v '(jjb, y, l) =>
            m <- rd ix k ;;
            '(jjb, y, l) <- (if m =? 0 then y <- wr y k 0 ;; jjb <- wr jjb l k ;; Ok (jjb, y, S l)
                             else Ok (jjb, y, l)) ;;
            yk <- rd y k ;; y <- wr y k (yk + beta * v) ;; Ok (jjb, y, l)) (jjb, y, l) ;;
        '(ix, sum) <- for_n l (fun jp '(ix, sum) =>
            k <- rd jjb jp ;; yk <- rd y k ;;
            ix <- wr ix k 0%nat ;;
            Ok (ix, if keep yk then sum + yk * yk else sum)) (ix, sum) ;;
        Ok (s, (ix, jjb, y, sum))) tt
        (fun _ => (repeat 0%nat (eN A), repeat 0%nat (eN A), repeat 0 (eN A), 0)) ;;
    Ok (reduce_sum nth (fun t => snd (w t))).

  (** bml_fnorm2_ellpack 370-456 before the square root.  Both matrices are
      indexed with A's N and M; rvalue is uninitialised at the start of every
      thread and keeps its last value. *)
  Definition fnorm2_scan (P Q : ell) (i c : nat) (rv : option F) : res (option F) :=
    n <- e_nnz Q i ;;
    '(rv, _) <- for_n n (fun k '(rv, stop) =>
        if (stop : bool) then Ok (rv, stop)
        else
          kc <- rd (eidx Q) (ROWMAJOR i k (eN P) (eM P)) ;;
          if c =? kc then v <- rd (eval Q) (ROWMAJOR i k (eN P) (eM P)) ;; Ok (Some v, true)
          else Ok (Some 0, false)) (rv, false) ;;
    Ok rv.

  Definition ell_fnorm2_sq (A B : ell) (nth : nat) (sched : list (nat * nat)) : res F :=
    '(_, w) <- par_for sched (fun i '(s, (rv, fn)) =>
        '(rv, fn) <- e_for_row A i (fun k v '(rv, fn) =>
            rv <- fnorm2_scan A B i k rv ;;
            r <- use rv ;;
            let temp := v - r in Ok (rv, fn + temp * temp)) (rv, fn) ;;
        nb <- e_nnz B i ;;
        '(rv, fn) <- for_n nb (fun j '(rv, fn) =>
            c <- rd (eidx B) (ROWMAJOR i j (eN A) (eM A)) ;;
            rv <- fnorm2_scan A A i c rv ;;
            r <- use rv ;;
            if keqb r 0 then
              temp <- rd (eval B) (ROWMAJOR i j (eN A) (eM A)) ;; Ok (rv, fn + temp * temp)
            else Ok (rv, fn)) (rv, fn) ;;
        Ok (s, (rv, fn))) tt (fun _ => (None, 0)) ;;
    Ok (reduce_sum nth (fun t => snd (w t))).

  (** ** Introspection: bml_introspection_ellpack_typed.c 25-54 (number of
      entries above the threshold), bml_introspection_ellpack.c 96-120. *)
  Definition ell_nnz_above (keep : F -> bool) (A : ell) : res nat :=
    for_n (eN A) (fun i s => e_for_row A i (fun _ v s => Ok (if keep v then S s else s)) s) 0%nat.
  Definition ell_row_bandwidth (A : ell) (i : nat) : res nat := e_nnz A i.
  Definition ell_bandwidth (A : ell) : res nat :=
    for_n (eN A) (fun i m => n <- e_nnz A i ;; Ok (if m <? n then n else m)) 0%nat.
End Ellpack.
