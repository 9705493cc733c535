(** Model of the submatrix and graph functions of the ellpack format:
    src/C-interface/ellpack/bml_submatrix_ellpack_typed.c ([typed] below),
    bml_submatrix_ellpack.c and bml_adjungate_triangle_ellpack_typed.c.
    The simplifications of EllpackModel apply.  Arrays handed in by the caller
    (nodelist, core_halo_index, xadj, adjncy, hindex) are lists: their length
    is the allocated size and an access outside is UB.  A list argument of
    length n stands for the array and its size argument n. *)
From Verif Require Import Base Spec EllpackModel DenseModel.

Section Sub.
  Context {F : scalar}.
  Local Open Scope K_scope.
  Local Notation ell := (ell F).
  Local Notation dense := (dense F).

  (** for (jp = 0; jp < A_nnz[i]; jp++) { k = A_index[..]; body } *)
  Definition e_for_cols {S} (A : ell) (i : nat) (body : nat -> S -> res S) (s : S) : res S :=
    n <- e_nnz A i ;; for_n n (fun jp s => k <- e_idx A i jp ;; body k s) s.

  (** ** bml_matrix2submatrix_index_ellpack [typed] 38-142 *)

  (** if (ix[k] == 0) { ix[k] = ii + 1; core_halo_index[l] = k; l++; }
      ([typed] 75-80, 92-97, 110-115, 131-136).  State: ix, core_halo_index, l *)
  Definition idx_visit (ii k : nat) (s : list nat * list nat * nat) : res (list nat * list nat * nat) :=
    let '(ix, ch, l) := s in
    m <- rd ix k ;;
    if m =? 0 then
      ix <- wr ix k (ii + 1)%nat ;; ch <- wr ch l k ;; Ok (ix, ch, S l)
    else Ok (ix, ch, l).

  (** the cores ([typed] 70-83; ll is l after this loop) *)
  Definition idx_cores (nodelist : list nat) (s : list nat * list nat * nat) : res (list nat * list nat * nat) :=
    forM nodelist (fun ii s => idx_visit ii ii s) s.
  (** the columns of the rows of nodelist in the graph B ([typed] 86-100, 103-117) *)
  Definition idx_halo (B : ell) (nodelist : list nat) (s : list nat * list nat * nat) : res (list nat * list nat * nat) :=
    forM nodelist (fun ii s => e_for_cols B ii (fun k s => idx_visit ii k s) s) s.
  (** the "double jump" ([typed] 121-139): ls = l is read once *)
  Definition idx_jump (B : ell) (s : list nat * list nat * nat) : res (list nat * list nat * nat) :=
    let '(_, _, ls) := s in
    for_n ls (fun j '(ix, ch, l) =>
      ii <- rd ch j ;; e_for_cols B ii (fun k s => idx_visit ii k s) (ix, ch, l)) s.

  (** returns core_halo_index, vsize[0], vsize[1] *)
  Definition ell_sub_index (A B : ell) (nodelist ch : list nat) (double_jump : bool) : res (list nat * nat * nat) :=
    '(ix, ch, ll) <- idx_cores nodelist (repeat 0%nat (eN A), ch, 0%nat) ;;
    s <- idx_halo B nodelist (ix, ch, ll) ;;
    s <- idx_halo A nodelist s ;;
    '(_, ch, l) <- (if double_jump then idx_jump B s else Ok s) ;;
    Ok (ch, l, ll).

  (** bml_matrix2submatrix_index_graph_ellpack [typed] 155-233 *)
  Definition ell_sub_index_graph (B : ell) (nodelist ch : list nat) (double_jump : bool) : res (list nat * nat * nat) :=
    '(ix, ch, ll) <- idx_cores nodelist (repeat 0%nat (eN B), ch, 0%nat) ;;
    s <- idx_halo B nodelist (ix, ch, ll) ;;
    '(_, ch, l) <- (if double_jump then idx_jump B s else Ok s) ;;
    Ok (ch, l, ll).

  (** ** bml_matrix2submatrix_ellpack [typed] 244-294: [ch] is core_halo_index
      up to lsize, the schedule runs over jb < lsize *)
  Definition ell_sub_extract (A : ell) (B : dense) (ch : list nat) (sched : list (nat * nat)) : res dense :=
    par_do sched (fun jb B =>
      ii <- rd ch jb ;;
      rv <- ell_getVector A ch ii ;;
      for_n (length ch) (fun j B => r <- rd rv j ;; r <- use r ;; d_put B jb j r) B) B.

  (** ** bml_submatrix2matrix_ellpack [typed] 306-374: the schedule runs over
      ja < llsize.  The row length is checked after the row has been written;
      LOG_ERROR aborts.  Column and value are written in this order; e_put
      writes the value first. *)
  Definition ell_sub_assemble (keep : F -> bool) (A : dense) (B : ell) (ch : list nat) (sched : list (nat * nat)) : res ell :=
    par_do sched (fun ja B =>
      ii <- rd ch ja ;;
      '(B, icol) <- for_n (length ch) (fun jb '(B, icol) =>
          a <- d_at A ja jb ;;
          if keep a then c <- rd ch jb ;; B <- e_put B ii icol c a ;; Ok (B, S icol)
          else Ok (B, icol)) (B, 0%nat) ;;
      if eM B <? icol then Err else e_wnnz B ii icol) B.

  (** ** bml_group_matrix_ellpack [typed] 417-552 (not IBM: ix is one array,
      firstprivate, so every thread starts with zeros and never resets them).
      hindex holds 1-based first rows of the groups. *)

  (** hindex[i] - 1 as a row (a negative row is out of bounds) *)
  Definition grp_beg (hindex : list nat) (i : nat) : res nat :=
    h <- rd hindex i ;; if h =? 0 then UB else Ok (h - 1)%nat.
  (** [typed] 459-462, 497-500 *)
  Definition grp_end (N : nat) (hindex : list nat) (i : nat) : res nat :=
    if i =? (length hindex - 1)%nat then Ok N else h <- rd hindex (i + 1) ;; Ok (h - 1)%nat.
  (** [typed] 453-467: group of every row, None if not initialised.  The
      parallel loop writes disjoint ranges when hindex is increasing. *)
  Definition grp_nodes (N : nat) (hindex : list nat) : res (list (option nat)) :=
    for_n (length hindex) (fun i hn =>
      lo <- grp_beg hindex i ;; hi <- grp_end N hindex i ;;
      forM (seq lo (hi - lo)) (fun j hn => wr hn j (Some i)) hn) (repeat None N).

  (** ix[ii] = i + 1; B_index[..] = ii; B_value[..] = 1.0; B_nnz[i]++ *)
  Definition grp_add (i ii : nat) (s : ell * list nat) : res (ell * list nat) :=
    let '(B, ix) := s in
    ix <- wr ix ii (i + 1)%nat ;; B <- e_push B i ii 1 ;; Ok (B, ix).
  (** [typed] 518-541: look for a kept element back into group i in row kk *)
  Definition grp_back (keep : F -> bool) (A : ell) (hn : list (option nat)) (i ii kk : nat) (s : ell * list nat) : res (ell * list nat) :=
    '(s, _) <- e_for_row A kk (fun c v '(s, stop) =>
        if (stop : bool) then Ok (s, stop) else
        jj <- rd hn c ;; jj <- use jj ;;
        if (jj =? i) && keep v then s <- grp_add i ii s ;; Ok (s, true) else Ok (s, false)) (s, false) ;;
    Ok s.
  (** one row of the parallel loop, [typed] 484-545 *)
  Definition grp_row (keep : F -> bool) (A : ell) (hindex : list nat) (hn : list (option nat)) (i : nat) (s : ell * list nat) :
    res (ell * list nat) :=
    let '(B, ix) := s in
    ix <- wr ix i (i + 1)%nat ;;
    B <- e_put B i 0 i 1 ;; B <- e_wnnz B i 1 ;;
    lo <- grp_beg hindex i ;; hi <- grp_end (eN A) hindex i ;;
    forM (seq lo (hi - lo)) (fun j s =>
      e_for_row A j (fun kk v s =>
        ii <- rd hn kk ;; ii <- use ii ;;
        m <- rd (snd s) ii ;;
        if (m =? 0) && negb (ii =? i) then
          if keep v then grp_add i ii s else grp_back keep A hn i ii kk s
        else Ok s) s) (B, ix).
  Definition ell_group_matrix (keep : F -> bool) (A : ell) (hindex : list nat) (gv : nat -> F) (gi : nat -> nat)
             (sched : list (nat * nat)) : res ell :=
    let ng := length hindex in
    hn <- grp_nodes (eN A) hindex ;;
    '(B, _) <- par_for sched (fun i s => grp_row keep A hindex hn i s) (ell_noinit ng ng gv gi) (fun _ => repeat 0%nat ng) ;;
    Ok B.

  (** the same with the IBM compilers ([typed] 467-472, 485-489): ix is zeroed
      for every row *)
  Definition ell_group_matrix_ibm (keep : F -> bool) (A : ell) (hindex : list nat) (gv : nat -> F) (gi : nat -> nat)
             (sched : list (nat * nat)) : res ell :=
    let ng := length hindex in
    hn <- grp_nodes (eN A) hindex ;;
    par_do sched (fun i B => '(B, _) <- grp_row keep A hindex hn i (B, repeat 0%nat ng) ;; Ok B) (ell_noinit ng ng gv gi).

  (** ** bml_adjacency_ellpack, bml_submatrix_ellpack.c 338-418 *)

  (** qsort with sortById (313-327) sorts a range of integers: insertion sort *)
  Fixpoint insert_id (x : nat) (l : list nat) : list nat :=
    match l with [] => [x] | y :: l' => if x <=? y then x :: l else y :: insert_id x l' end.
  Definition sort_ids (l : list nat) : list nat := fold_right insert_id [] l.
  (** qsort(&a[lo], hi - lo, ...): a negative count is a huge size_t *)
  Definition sort_range (a : list nat) (lo hi : nat) : res (list nat) :=
    if (hi <? lo) || (length a <? hi) then UB
    else Ok (firstn lo a ++ sort_ids (firstn (hi - lo) (skipn lo a)) ++ skipn hi a).

  (** 357-366: is the diagonal stored in row 0?  (only reached with N > 0) *)
  Definition adj_check (A : ell) : res bool :=
    e_for_cols A 0 (fun k (c : bool) => if c then Ok c else Ok (k =? 0)) false.
  (** 354, 368-374.  A negative offset makes the later qsort undefined, so it
      is UB here. *)
  Definition adj_offsets (A : ell) (check : bool) (xadj : list nat) : res (list nat) :=
    xadj <- wr xadj 0 0%nat ;;
    for_n (eN A) (fun i xadj =>
      x <- rd xadj i ;; n <- e_nnz A i ;;
      if check then (if (x + n =? 0)%nat then UB else wr xadj (i + 1) (x + n - 1)%nat)
      else wr xadj (i + 1) (x + n)%nat) xadj.
  (** 376-390, one row *)
  Definition adj_row (A : ell) (xadj : list nat) (i : nat) (adj : list nat) : res (list nat) :=
    j <- rd xadj i ;;
    '(adj, _) <- e_for_cols A i (fun k '(adj, j) =>
        if k =? i then Ok (adj, j) else adj <- wr adj j k ;; Ok (adj, S j)) (adj, j) ;;
    Ok adj.
  (** 400-417: 1-based *)
  Definition adj_incr (a : list nat) (js : list nat) : res (list nat) :=
    forM js (fun j a => v <- rd a j ;; wr a j (v + 1)%nat) a.
  Definition ell_adjacency (A : ell) (xadj adj : list nat) (base1 : bool) (s1 s2 s3 : list (nat * nat)) : res (list nat * list nat) :=
    check <- adj_check A ;;
    xadj <- adj_offsets A check xadj ;;
    adj <- par_do s1 (fun i adj => adj_row A xadj i adj) adj ;;
    adj <- par_do s2 (fun i adj => lo <- rd xadj i ;; hi <- rd xadj (i + 1) ;; sort_range adj lo hi) adj ;;
    if base1 then
      adj <- par_do s3 (fun i adj => lo <- rd xadj i ;; hi <- rd xadj (i + 1) ;; adj_incr adj (seq lo (hi - lo))) adj ;;
      xadj <- adj_incr xadj (seq 0 (eN A + 1)) ;;
      Ok (xadj, adj)
    else Ok (xadj, adj).

  (** ** bml_adjacency_group_ellpack, bml_submatrix_ellpack.c 431-512.
      hindex holds 1-based rows. *)
  Definition grp_rows (hindex : list nat) : res (list nat) :=
    forM hindex (fun h l => if h =? 0 then UB else Ok (l ++ [(h - 1)%nat])) [].
  (** 463-471, 487-497: is column c stored in row r? *)
  Definition has_col (A : ell) (r c : nat) : res bool :=
    e_for_cols A r (fun k (b : bool) => if b then Ok b else Ok (c =? k)) false.
  Definition ell_adjacency_group (A : ell) (hindex xadj adj : list nat) (base1 : bool) (s1 : list (nat * nat)) : res (list nat * list nat) :=
    hn <- grp_rows hindex ;;
    xadj <- wr xadj 0 0%nat ;;
    xadj <- for_n (length hn) (fun i xadj =>
        r <- rd hn i ;;
        cnt <- forM hn (fun c n => b <- has_col A r c ;; Ok (if (b : bool) then S n else n)) 0%nat ;;
        x <- rd xadj i ;; wr xadj (i + 1) (x + cnt)%nat) xadj ;;
    adj <- par_do s1 (fun i adj =>
        ll <- rd xadj i ;; r <- rd hn i ;;
        '(adj, _) <- for_n (length hn) (fun j '(adj, ll) =>
            c <- rd hn j ;; b <- has_col A r c ;;
            if (b : bool) then adj <- wr adj ll j ;; Ok (adj, S ll) else Ok (adj, ll)) (adj, ll) ;;
        Ok adj) adj ;;
    if base1 then
      last <- rd xadj (length hn) ;;
      adj <- adj_incr adj (seq 0 (last + 1)) ;; (* 503: i <= xadj[nnodes] *)
      xadj <- adj_incr xadj (seq 0 (length hn + 1)) ;;
      Ok (xadj, adj)
    else Ok (xadj, adj).

  (** ** bml_extract_submatrix_ellpack [typed] 564-600 *)
  Definition ell_extract (A : ell) (irow icol BN BM : nat) : res ell :=
    B <- ell_zero BN BM ;;
    for_n BN (fun iB B =>
      e_for_row A (irow + iB)%nat (fun j v B =>
        if (icol <=? j)%nat && (j <? icol + BN)%nat then e_push B iB (j - icol)%nat v else Ok B) B) B.

  (** ** bml_assign_submatrix_ellpack [typed] 609-641 *)
  Definition ell_assign (A B : ell) (irow icol : nat) : res ell :=
    for_n (eN B) (fun i A =>
      e_for_row B i (fun jB v A => e_push A (i + irow)%nat (jB + icol)%nat v) A) A.

  (** ** bml_adjungate_triangle_ellpack, bml_adjungate_triangle_ellpack_typed.c
      28-142.  [cj] is conj.  The lock array has M entries (40, 47, 99) and is
      indexed by a row (69, 115).  An iteration of the parallel loop is
      atomic here; the loop bound l is read at its start. *)
  Definition ell_adjungate (cj : F -> F) (A : ell) (tri : triangle) (sched : list (nat * nat)) : res ell :=
    let row (sel : nat -> nat -> bool) i A :=
      n <- e_nnz A i ;;
      for_n n (fun j A =>
        ll <- e_idx A i j ;;
        if sel i ll then
          if eM A <=? ll then UB else v <- e_val A i j ;; e_push A ll i (cj v)
        else Ok A) A in
    match tri with
    | TriU => par_do sched (row (fun i ll => (0 <? ll)%nat && (i <? ll)%nat)) A
    | TriL => par_do sched (row (fun i ll => (ll <? i)%nat)) A
    | TriOther => Err
    end.
End Sub.
