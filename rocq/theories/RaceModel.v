(** The parallel loops of the ellpack format at the level of single array
    accesses: src/C-interface/ellpack/*.

    Each program below is one iteration (one row [i]) of a loop
    "#pragma omp parallel for", executed by thread [t]; the accesses appear in
    the order of the C text.  EllpackModel.v models the same loops with one
    iteration as one step.

    Simplifications:
    - REAL_T is an arbitrary commutative ring and is|x|>threshold the parameter
      [keep], as in EllpackModel.v; host code path only;
    - where C leaves the order of evaluation of a single statement open, one
      order is used (operands before the assignment, index before value);
    - the sizes N and M and the array addresses are read before the loop;
    - a loop bound A_nnz[i] is read before the loop and again before every
      pass; a pass is skipped when the second read says so. *)
From Verif Require Import Base Spec EllpackModel ThreadModel.

(** The arrays of matrix object [o] (bml_types_ellpack.h 15-60), a dense array
    [o], the arrays ix, jx, x that are firstprivate in thread [t], a reduction
    variable of thread [t], and the hidden state of rand(). *)
Inductive arr :=
| aVal (o : nat) | aIdx (o : nat) | aNnz (o : nat) | aDense (o : nat)
| aIx (t : nat) | aJx (t : nat) | aX (t : nat) | aAcc (t : nat) | aRand.

(** a cell: array and offset *)
Definition loc := (arr * nat)%type.
Definition arr_eq_dec : forall a b : arr, {a = b} + {a <> b}.
Proof. decide equality; apply Nat.eq_dec. Defined.
Definition loc_eq_dec : forall a b : loc, {a = b} + {a <> b}.
Proof. decide equality; [apply Nat.eq_dec | apply arr_eq_dec]. Defined.

(** the contents of a cell: an int or a REAL_T *)
Inductive val (F : Type) := VN (n : nat) | VK (x : F).
Arguments VN {F} n.
Arguments VK {F} x.

Section Race.
  Context {F : scalar}.
  Local Open Scope K_scope.
  Local Open Scope prog_scope.
  Local Notation pr := (prog loc (val F)).

  (** read an int cell, a REAL_T cell *)
  Definition rdn (l : loc) : pr nat :=
    Rd l (fun v => match v with VN n => Ret n | VK _ => Exit end).
  Definition rdk (l : loc) : pr F :=
    Rd l (fun v => match v with VK x => Ret x | VN _ => Exit end).
  (** write an int cell, a REAL_T cell *)
  Definition wrn (l : loc) (n : nat) : pr unit := Wr l (VN n) (Ret tt).
  Definition wrk (l : loc) (x : F) : pr unit := Wr l (VK x) (Ret tt).

  (** A_value[ROWMAJOR(i,j,N,M)], A_index[..], A_nnz[i] of matrix object [o] *)
  Definition p_val (o N M i j : nat) : pr F := rdk (aVal o, ROWMAJOR i j N M).
  Definition p_idx (o N M i j : nat) : pr nat := rdn (aIdx o, ROWMAJOR i j N M).
  Definition p_nnz (o i : nat) : pr nat := rdn (aNnz o, i).
  Definition p_wval (o N M i j : nat) (v : F) : pr unit := wrk (aVal o, ROWMAJOR i j N M) v.
  Definition p_widx (o N M i j k : nat) : pr unit := wrn (aIdx o, ROWMAJOR i j N M) k.
  Definition p_wnnz (o i n : nat) : pr unit := wrn (aNnz o, i) n.

  (** for (jp = 0; jp < A_nnz[i]; jp++) { k = A_index[..]; v = A_value[..]; body } *)
  Definition p_for_row {S} (o N M i : nat) (body : nat -> F -> S -> pr S) (s : S) : pr S :=
    n <-- p_nnz o i ;;
    pfor_n n (fun jp s =>
      n' <-- p_nnz o i ;;
      if jp <? n' then k <-- p_idx o N M i jp ;; v <-- p_val o N M i jp ;; body k v s
      else Ret s) s.

  (** A_value[ROWMAJOR(i,A_nnz[i])] = v; A_index[ROWMAJOR(i,A_nnz[i])] = c; A_nnz[i]++;
      A_nnz[i] is read three times. *)
  Definition p_push (o N M i c : nat) (v : F) : pr unit :=
    n <-- p_nnz o i ;; _ <-- p_wval o N M i n v ;;
    n <-- p_nnz o i ;; _ <-- p_widx o N M i n c ;;
    n <-- p_nnz o i ;; p_wnnz o i (S n).

  (** bml_threshold_ellpack_typed.c 116-132, A is object 0 *)
  Definition p_threshold_row (keep : F -> bool) (N M t i : nat) : pr unit :=
    n <-- p_nnz 0 i ;;
    rlen <-- pfor_n n (fun j rlen =>
      n' <-- p_nnz 0 i ;;
      if j <? n' then
        v <-- p_val 0 N M i j ;;
        if keep v then
          _ <-- (if rlen <? j then
                   v <-- p_val 0 N M i j ;; _ <-- p_wval 0 N M i rlen v ;;
                   k <-- p_idx 0 N M i j ;; p_widx 0 N M i rlen k
                 else Ret tt) ;;
          Ret (S rlen)
        else Ret rlen
      else Ret rlen) 0%nat ;;
    p_wnnz 0 i rlen.

  (** bml_import_ellpack_typed.c 46-71: dense array 1 into matrix 0 *)
  Definition p_import_row (o : dorder) (keep : F -> bool) (N M t i : nat) : pr unit :=
    _ <-- p_wnnz 0 i 0 ;;
    pfor_n N (fun j _ =>
      a <-- rdk (aDense 1, match o with row_major => ROWMAJOR i j N N | col_major => COLMAJOR i j N N end) ;;
      if keep a then p_push 0 N M i j a else Ret tt) tt.

  (** bml_export_ellpack_typed.c 46-71: matrix 1 into the dense array 0 *)
  Definition p_export_row (o : dorder) (N M t i : nat) : pr unit :=
    p_for_row 1 N M i (fun k v _ =>
      wrk (aDense 0, match o with row_major => ROWMAJOR i k N N | col_major => COLMAJOR i k N N end) v) tt.

  (** bml_trace_ellpack_typed.c 73-90: matrix 1, reduction variable of thread t *)
  Definition p_trace_row (N M t i : nat) : pr unit :=
    _ <-- p_for_row 1 N M i (fun k v (stop : bool) =>
      if stop then Ret stop
      else if i =? k then tr <-- rdk (aAcc t, 0%nat) ;; _ <-- wrk (aAcc t, 0%nat) (tr + v) ;; Ret true
      else Ret false) false ;;
    Ret tt.

  (** if (ix[k] == 0) { x[k] = 0.0; ix[k] = i + 1; jx[l] = k; l++; } x[k] = x[k] + v *)
  Definition p_acc (t i k : nat) (v : F) (l : nat) : pr nat :=
    m <-- rdn (aIx t, k) ;;
    l <-- (if m =? 0 then
             _ <-- wrk (aX t, k) 0 ;; _ <-- wrn (aIx t, k) (i + 1)%nat ;;
             _ <-- wrn (aJx t, l) k ;; Ret (S l)
           else Ret l) ;;
    xk <-- rdk (aX t, k) ;;
    _ <-- wrk (aX t, k) (xk + v) ;;
    Ret l.

  (** bml_add_ellpack_typed.c 191-204, bml_multiply_ellpack_typed.c 521-541:
      the gather loop into matrix [o] *)
  Definition p_gather (kc : nat -> F -> bool) (o N M t i l : nat) : pr nat :=
    pfor_n l (fun jp ll =>
      jind <-- rdn (aJx t, jp) ;;
      xtmp <-- rdk (aX t, jind) ;;
      ll <-- (if kc jind xtmp
              then _ <-- p_wval o N M i ll xtmp ;; _ <-- p_widx o N M i ll jind ;; Ret (S ll)
              else Ret ll) ;;
      _ <-- wrk (aX t, jind) 0 ;;
      _ <-- wrn (aIx t, jind) 0%nat ;;
      Ret ll) 0%nat.

  (** bml_add_ellpack_typed.c 161-205: A is object 0 (A_M = M), B object 1 (B_M = MB) *)
  Definition p_add_row (keep : F -> bool) (alpha beta : F) (N M MB t i : nat) : pr unit :=
    l <-- (if keqb alpha 0 then Ret 0%nat
           else p_for_row 0 N M i (fun k v l => p_acc t i k (alpha * v) l) 0%nat) ;;
    l <-- (if keqb beta 0 then Ret l
           else p_for_row 1 N MB i (fun k v l => p_acc t i k (beta * v) l) l) ;;
    _ <-- p_wnnz 0 i l ;;
    ll <-- p_gather (fun _ x => keep x) 0 N M t i l ;;
    p_wnnz 0 i ll.

  (** bml_multiply_ellpack_typed.c 491-542: A is object [oa], B object [ob], C object 0 *)
  Definition p_mul_row (keep : F -> bool) (oa ob N MA MB M t i : nat) : pr unit :=
    l <-- p_for_row oa N MA i (fun j a l =>
            p_for_row ob N MB j (fun k b l => p_acc t i k (a * b) l) l) 0%nat ;;
    if M <? l then Exit else
    ll <-- p_gather (kc_offdiag keep i) 0 N M t i l ;;
    p_wnnz 0 i ll.

  (** bml_transpose_ellpack_typed.c 81-100 with OpenMP: A is object 1, B object 0,
      row_lock[r] is lock r *)
  Definition p_transpose_row (N M t i : nat) : pr unit :=
    n <-- p_nnz 1 i ;;
    pfor_n n (fun j _ =>
      n' <-- p_nnz 1 i ;;
      if j <? n' then
        trow <-- p_idx 1 N M i j ;;
        Acq trow (
          colcnt <-- p_nnz 0 trow ;;
          _ <-- p_widx 0 N M trow colcnt i ;;
          v <-- p_val 1 N M i j ;;
          _ <-- p_wval 0 N M trow colcnt v ;;
          c <-- p_nnz 0 trow ;;
          _ <-- p_wnnz 0 trow (S c) ;;
          Rel trow (Ret tt))
      else Ret tt) tt.

  (** bml_adjungate_triangle_ellpack_typed.c 55-90, case 'u' with OpenMP: A is
      object 0; l = A_nnz[i] and ll are private; lock[ll] is lock ll *)
  Definition p_adjungate_row (conj : F -> F) (N M t i : nat) : pr unit :=
    l <-- p_nnz 0 i ;;
    pfor_n l (fun j _ =>
      ll <-- p_idx 0 N M i j ;;
      if (0 <? ll) && (i <? ll) then
        Acq ll (
          n <-- p_nnz 0 ll ;; _ <-- p_widx 0 N M ll n i ;;
          v <-- p_val 0 N M i j ;;
          n <-- p_nnz 0 ll ;; _ <-- p_wval 0 N M ll n (conj v) ;;
          n <-- p_nnz 0 ll ;; _ <-- p_wnnz 0 ll (S n) ;;
          Rel ll (Ret tt))
      else Ret tt) tt.

  (** bml_allocate_ellpack_typed.c 297-310 (bml_banded_matrix_ellpack): rand()
      reads and advances a hidden state that all threads share.  [next] and
      [out] are the generator. *)
  Definition p_rand (next : nat -> nat) (out : nat -> F) : pr F :=
    s <-- rdn (aRand, 0%nat) ;; _ <-- wrn (aRand, 0%nat) (next s) ;; Ret (out s).
  Definition p_banded_row (next : nat -> nat) (out : nat -> F) (N M t i : nat) : pr unit :=
    let lo := (i - M / 2)%nat in
    let hi := Nat.min N (i + (M - M / 2)) in
    jind <-- pforM (seq lo (hi - lo)) (fun j jind =>
      r <-- p_rand next out ;;
      _ <-- p_wval 0 N M i jind r ;; _ <-- p_widx 0 N M i jind j ;; Ret (S jind)) 0%nat ;;
    p_wnnz 0 i jind.
End Race.
