(** More parallel loops of the ellpack format at the level of single array
    accesses, in the style of RaceModel.v (same simplifications). *)
From Verif Require Import Base Spec EllpackModel ThreadModel RaceModel.

Section Race2.
  Context {F : scalar}.
  Local Open Scope K_scope.
  Local Open Scope prog_scope.
  Local Notation pr := (prog loc (val F)).

  (** r = r + v for the reduction variable number [r] of thread [t] *)
  Definition p_reduce (t r : nat) (v : F) : pr unit :=
    s <-- rdk (aAcc t, r) ;; wrk (aAcc t, r) (s + v).

  (** bml_multiply_ellpack_typed.c 301-323: the gather loop of multiply_x2 with
      traceX2 (reduction variable 1).  Simplification: x[jp] is reset before
      ix[jp] (both are private to the thread). *)
  Definition p_gather_x2 (kc : nat -> F -> bool) (N M t i l : nat) : pr nat :=
    pfor_n l (fun jp ll =>
      jind <-- rdn (aJx t, jp) ;;
      xtmp <-- rdk (aX t, jind) ;;
      _ <-- (if jind =? i then p_reduce t 1 xtmp else Ret tt) ;;
      ll <-- (if kc jind xtmp
              then _ <-- p_wval 0 N M i ll xtmp ;; _ <-- p_widx 0 N M i ll jind ;; Ret (S ll)
              else Ret ll) ;;
      _ <-- wrk (aX t, jind) 0 ;;
      _ <-- wrn (aIx t, jind) 0%nat ;;
      Ret ll) 0%nat.

  (** bml_multiply_ellpack_typed.c 271-332 (bml_multiply_x2_ellpack): X is object
      1 (X_M = MX), X2 object 0 (X2_M = M); traceX and traceX2 are the reduction
      variables 0 and 1.  The test ll > X2_M comes after the writes.
      Simplification: ix[k] is written before jx[l] (both are private). *)
  Definition p_x2_row (keep : F -> bool) (N MX M t i : nat) : pr unit :=
    l <-- p_for_row 1 N MX i (fun j a l =>
            _ <-- (if j =? i then p_reduce t 0 a else Ret tt) ;;
            p_for_row 1 N MX j (fun k b l => p_acc t i k (a * b) l) l) 0%nat ;;
    ll <-- p_gather_x2 (kc_offdiag keep i) N M t i l ;;
    if M <? ll then Exit else p_wnnz 0 i ll.

  (** bml_norm_ellpack_typed.c 52-60 (bml_sum_squares_ellpack): A is object 1;
      sum is the reduction variable 0.  Simplification: A_index is read too. *)
  Definition p_sum_squares_row (N M t i : nat) : pr unit :=
    p_for_row 1 N M i (fun _ v _ => p_reduce t 0 (v * v)) tt.

  (** ** Dense matrices: array [o] is A_matrix of matrix object [o] *)
  Definition p_at (o N i j : nat) : pr F := rdk (aDense o, ROWMAJOR i j N N).
  Definition p_put (o N i j : nat) (v : F) : pr unit := wrk (aDense o, ROWMAJOR i j N N) v.

  (** bml_transpose_dense_typed.c 106-119: A is object 0 *)
  Definition p_dense_transpose_row (N t i : nat) : pr unit :=
    pforM (seq (i + 1) (N - (i + 1))) (fun j _ =>
      tmp <-- p_at 0 N i j ;;
      w <-- p_at 0 N j i ;;
      _ <-- p_put 0 N i j w ;;
      p_put 0 N j i tmp) tt.

  (** bml_transpose_dense_typed.c 67-73 (bml_transpose_new_dense): A is object 1, B object 0 *)
  Definition p_dense_transpose_new_row (N t i : nat) : pr unit :=
    pfor_n N (fun j _ => v <-- p_at 1 N j i ;; p_put 0 N i j v) tt.

  (** bml_adjungate_triangle_dense_typed.c 40-47, case 'u', and 52-59, case 'l';
      with the identity bml_transpose_triangle_dense_typed.c 36-55 *)
  Definition p_dense_tri_u_row (conj : F -> F) (N t i : nat) : pr unit :=
    pforM (seq (i + 1) (N - (i + 1))) (fun j _ => v <-- p_at 0 N i j ;; p_put 0 N j i (conj v)) tt.
  Definition p_dense_tri_l_row (conj : F -> F) (N t i : nat) : pr unit :=
    pforM (seq (i + 1) (N - (i + 1))) (fun j _ => v <-- p_at 0 N j i ;; p_put 0 N i j (conj v)) tt.

  (** bml_threshold_dense_typed.c 110-117 (in place, object 0) and 64-71 (new:
      A is object 1, B object 0); one iteration is one cell *)
  Definition p_dense_threshold (keep : F -> bool) (t i : nat) : pr unit :=
    x <-- rdk (aDense 0, i) ;; if keep x then Ret tt else wrk (aDense 0, i) 0.
  Definition p_dense_threshold_new (keep : F -> bool) (t i : nat) : pr unit :=
    a <-- rdk (aDense 1, i) ;; if keep a then a <-- rdk (aDense 1, i) ;; wrk (aDense 0, i) a else Ret tt.

  (** bml_element_multiply_dense_typed.c 81-85: A, B, C are objects 1, 2, 0 *)
  Definition p_dense_element_multiply (t i : nat) : pr unit :=
    a <-- rdk (aDense 1, i) ;; b <-- rdk (aDense 2, i) ;; wrk (aDense 0, i) (a * b).

  (** bml_trace_dense_typed.c 78-81 and 146-149, bml_norm_dense_typed.c 77-81:
      A is object 1, B object 2, the sum is reduction variable 0 *)
  Definition p_dense_trace (N t i : nat) : pr unit := v <-- p_at 1 N i i ;; p_reduce t 0 v.
  Definition p_dense_trace_mult (t i : nat) : pr unit :=
    v <-- (a <-- rdk (aDense 1, i) ;; b <-- rdk (aDense 2, i) ;; Ret (a * b)) ;; p_reduce t 0 v.
  Definition p_dense_sum_squares (t i : nat) : pr unit :=
    v <-- (a <-- rdk (aDense 1, i) ;; b <-- rdk (aDense 1, i) ;; Ret (a * b)) ;; p_reduce t 0 v.

  (** bml_norm_dense_typed.c 364-375 (bml_fnorm2_dense): shared(temp); temp is
      cell 0 of array 3 *)
  Definition p_dense_fnorm2 (t i : nat) : pr unit :=
    a <-- rdk (aDense 1, i) ;; b <-- rdk (aDense 2, i) ;;
    _ <-- wrk (aDense 3, 0%nat) (a - b) ;;
    x <-- rdk (aDense 3, 0%nat) ;; y <-- rdk (aDense 3, 0%nat) ;;
    p_reduce t 0 (x * y).
End Race2.
