(** The numerical kernels with rounding: the same loops as in DenseModel.v,
    GemmModel.v and EllpackModel.v for the real precisions, where every addition
    and multiplication is followed by a rounding [rnd] of its result.

    Simplifications: no overflow (rnd is a function on the reals), no fused
    multiply-add, no reassociation by the compiler or by an external BLAS.  The
    order in which the threads of a reduction are combined, which OpenMP leaves
    open, is the parameter [ord]. *)
From Coq Require Import Reals.
From Verif Require Import Base Spec EllpackModel GemmModel DenseModel RealSpec.

Section Fp.
  Variable rnd : R -> R.
  Local Notation F := Rscalar.
  Local Notation ell := (ell F).
  Local Notation dense := (dense F).
  Local Open Scope K_scope.

  (** x + y and x * y of REAL_T, in every kernel below *)
  Definition fadd (x y : F) : F := rnd (x + y).
  Definition fmul (x y : F) : F := rnd (x * y).

  (** reduction(+:sum), bml_trace_dense_typed.c 51-53 and others *)
  Definition fp_reduce (ord : list nat) (p : nat -> F) : F := fold_left (fun s t => fadd s (p t)) ord 0.
  Definition fp_par_sum (ord : list nat) (sched : list (nat * nat)) (f : nat -> res F) : res F :=
    '(_, w) <- par_for sched (fun i '(s, sum) => v <- f i ;; Ok (s, fadd sum v)) tt (fun _ => 0) ;;
    Ok (fp_reduce ord w).

  (** bml_trace_dense 31-84 (bml_trace_dense_typed.c) and bml_sum_squares_dense 32-85 (bml_norm_dense_typed.c) *)
  Definition fp_dense_trace (A : dense) (ord : list nat) (sched : list (nat * nat)) : res F :=
    fp_par_sum ord sched (fun i => d_at A i i).
  Definition fp_dense_sum_squares (A : dense) (ord : list nat) (sched : list (nat * nat)) : res F :=
    fp_par_sum ord sched (fun i => a <- rd (dmx A) i ;; Ok (fmul a a)).

  (** SCAL and AXPY as called by bml_add_dense 49-142 (bml_add_dense_typed.c) and
      bml_scale_inplace_dense 114-141 (bml_scale_dense_typed.c) *)
  Definition fp_scal (n : nat) (alpha : F) (x : list F) : res (list F) :=
    for_n n (fun i x => upd x i (fun v => fmul alpha v)) x.
  Definition fp_axpy (n : nat) (a : F) (x y : list F) : res (list F) :=
    for_n n (fun i y => v <- rd x i ;; upd y i (fun w => fadd w (fmul a v))) y.
  Definition fp_dense_add (alpha beta : F) (A B : dense) : res dense :=
    let n := (dN B * dN B)%nat in
    a <- fp_scal n alpha (dmx A) ;; a <- fp_axpy n beta (dmx B) a ;; Ok (mkDense (dN A) a).
  Definition fp_dense_scale_inplace (s : F) (A : dense) : res dense :=
    a <- fp_scal (dN A * dN A) s (dmx A) ;; Ok (mkDense (dN A) a).

  (** internal-blas/bml_gemm.c 8-254: alpha == 0, the start of a column, A not transposed, A transposed, all *)
  Definition fp_gemm_alpha0 (m n : nat) (beta : F) (c : list F) : res (list F) :=
    if keqb beta 0 then
      for_n n (fun j c => for_n m (fun i c => wr c (COLMAJOR i j m n) 0) c) c
    else
      for_n n (fun j c => for_n m (fun i c => upd c (COLMAJOR i j m n) (fun x => fmul beta x)) c) c.
  Definition fp_gemm_prep (m n : nat) (beta : F) (j : nat) (c : list F) : res (list F) :=
    if keqb beta 0 then for_n m (fun i c => wr c (COLMAJOR i j m n) 0) c
    else if keqb beta 1 then Ok c
    else for_n m (fun i c => upd c (COLMAJOR i j m n) (fun x => fmul x beta)) c.
  Definition fp_gemm_N (bpos : nat -> nat -> nat) (m n k : nat) (alpha : F) (a b : list F)
             (beta : F) (c : list F) : res (list F) :=
    for_n n (fun j c =>
      c <- fp_gemm_prep m n beta j c ;;
      for_n k (fun l c =>
        blj <- rd b (bpos l j) ;;
        let temp := fmul alpha blj in
        for_n m (fun i c =>
          ail <- rd a (COLMAJOR i l m k) ;;
          upd c (COLMAJOR i j m n) (fun x => fadd x (fmul temp ail))) c) c) c.
  Definition fp_gemm_T (bpos : nat -> nat -> nat) (m n k : nat) (alpha : F) (a b : list F)
             (beta : F) (c : list F) : res (list F) :=
    for_n n (fun j c =>
      for_n m (fun i c =>
        temp <- for_n k (fun l temp =>
          ali <- rd a (COLMAJOR l i k m) ;;
          blj <- rd b (bpos l j) ;;
          Ok (fadd temp (fmul ali blj))) 0 ;;
        if keqb beta 0 then wr c (COLMAJOR i j m n) (fmul alpha temp)
        else upd c (COLMAJOR i j m n) (fun x => fadd (fmul alpha temp) (fmul beta x))) c) c.
  Definition fp_gemm (ta tb : trans) (m n k : nat) (alpha : F) (a : list F) (lda : nat)
             (b : list F) (ldb : nat) (beta : F) (c : list F) (ldc : nat) : res (list F) :=
    let rowsA := if is_N ta then m else k in
    let rowsB := if is_N tb then k else n in
    if bad_trans ta || bad_trans tb || (lda <? Nat.max 1 rowsA) || (ldb <? Nat.max 1 rowsB)
       || (ldc <? Nat.max 1 m) then Err
    else if ((m =? 0) || (n =? 0)) || ((keqb alpha 0 || (k =? 0)) && keqb beta 1) then Ok c
    else if keqb alpha 0 then fp_gemm_alpha0 m n beta c
    else
      let bpos := if is_N tb then fun l j => COLMAJOR l j k n else fun l j => COLMAJOR j l n k in
      if is_N ta then fp_gemm_N bpos m n k alpha a b beta c
      else fp_gemm_T bpos m n k alpha a b beta c.
  (** bml_multiply_dense_typed.c 56-105 *)
  Definition fp_dense_multiply (alpha beta : F) (A B C : dense) : res dense :=
    let N := dN A in
    c <- fp_gemm TrN TrN N N N alpha (dmx B) N (dmx A) N beta (dmx C) N ;;
    Ok (mkDense (dN C) c).

  (** bml_trace_ellpack 29-92 (bml_trace_ellpack_typed.c) and bml_sum_squares_ellpack 25-62 (bml_norm_ellpack_typed.c) *)
  Definition fp_ell_trace (A : ell) (ord : list nat) (sched : list (nat * nat)) : res F :=
    '(_, w) <- par_for sched (fun i '(s, tr) =>
        '(tr, _) <- e_for_row A i (fun k v '(tr, stop) =>
           if (stop : bool) then Ok (tr, stop)
           else if i =? k then Ok (fadd tr v, true) else Ok (tr, false)) (tr, false) ;;
        Ok (s, tr)) tt (fun _ => 0) ;;
    Ok (fp_reduce ord w).
  Definition fp_ell_sum_squares (A : ell) (ord : list nat) (sched : list (nat * nat)) : res F :=
    '(_, w) <- par_for sched (fun i '(s, sum) =>
        sum <- e_for_row A i (fun _ v sum => Ok (fadd sum (fmul v v))) sum ;; Ok (s, sum)) tt (fun _ => 0) ;;
    Ok (fp_reduce ord w).

  (** bml_add_ellpack_typed.c 50-216: one row, all rows *)
  Definition fp_add_row (keep : F -> bool) (alpha beta : F) (B : ell) (i : nat)
             (s : ell * wsp F) : res (ell * wsp F) :=
    let '(A, w) := s in
    s1 <- (if keqb alpha 0 then Ok (w, 0%nat)
           else e_for_row A i (fun k v s => ws_acc 0 fadd i k (fmul alpha v) s) (w, 0%nat)) ;;
    s2 <- (if keqb beta 0 then Ok s1
           else e_for_row B i (fun k v s => ws_acc 0 fadd i k (fmul beta v) s) s1) ;;
    let '(w, l) := s2 in
    A <- e_wnnz A i l ;;
    '(A, w, _, ll) <- ws_gather 0 (fun x => x) (fun _ x => keep x) (fun _ _ t => t) i l A w tt ;;
    A <- e_wnnz A i ll ;;
    Ok (A, w).
  Definition fp_ell_add (keep : F -> bool) (alpha beta : F) (A B : ell) (sched : list (nat * nat)) : res ell :=
    '(A, _) <- par_for sched (fun i s => fp_add_row keep alpha beta B i s) A
                  (fun _ => ws_new 0 (eN A)) ;;
    Ok A.

  (** bml_multiply_AB_ellpack, bml_multiply_ellpack_typed.c 362-553: one row, all rows *)
  Definition fp_mul_row (keep : F -> bool) (A B : ell) (i : nat) (s : ell * wsp F) : res (ell * wsp F) :=
    let '(C, w) := s in
    '(w, l) <- e_for_row A i (fun j a s =>
        e_for_row B j (fun k b s => ws_acc 0 fadd i k (fmul a b) s) s) (w, 0%nat) ;;
    if eM C <? l then Err else
    '(C, w, _, ll) <- ws_gather 0 (fun x => x) (kc_offdiag keep i) (fun _ _ t => t) i l C w tt ;;
    C <- e_wnnz C i ll ;;
    Ok (C, w).
  Definition fp_ell_multiply_AB (keep : F -> bool) (A B C : ell) (sched : list (nat * nat)) : res ell :=
    '(C, _) <- par_for sched (fun i s => fp_mul_row keep A B i s) C (fun _ => ws_new 0 (eN C)) ;;
    Ok C.
End Fp.
