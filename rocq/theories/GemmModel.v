(** Model of the built-in matrix multiplication routine bml_gemm_internal,
    /repo/src/internal-blas/bml_gemm.c 8-254 (used when bml is built with
    BML_INTERNAL_GEMM; otherwise an external BLAS is called, not modelled).

    Simplifications: m, n, k and the leading dimensions are natural numbers, so
    the tests m < 0, n < 0, k < 0 (info 3, 4, 5) never fire; REAL_T is an
    arbitrary commutative ring.  REAL_T values are compared with == as in the
    code. *)
From Verif Require Import Base Spec.

(** *transa / *transb: the characters 'N', 'T', 'C', or any other one *)
Inductive trans := TrN | TrT | TrC | TrOther.

Definition is_N (t : trans) : bool := match t with TrN => true | _ => false end.
Definition bad_trans (t : trans) : bool := match t with TrOther => true | _ => false end.

Section Gemm.
  Context {F : scalar}.
  Local Open Scope K_scope.

  (** c[p] = h(c[p]) *)
  Definition upd (c : list F) (p : nat) (h : F -> F) : res (list F) :=
    x <- rd c p ;; wr c p (h x).

  (** 99-123: alpha == 0 *)
  Definition gemm_alpha0 (m n : nat) (beta : F) (c : list F) : res (list F) :=
    if keqb beta 0 then
      for_n n (fun j c => for_n m (fun i c => wr c (COLMAJOR i j m n) 0) c) c
    else
      for_n n (fun j c => for_n m (fun i c => upd c (COLMAJOR i j m n) (fun x => beta * x)) c) c.

  (** 134-147 and 198-211: initialise column j of c *)
  Definition gemm_prep (m n : nat) (beta : F) (j : nat) (c : list F) : res (list F) :=
    if keqb beta 0 then for_n m (fun i c => wr c (COLMAJOR i j m n) 0) c
    else if keqb beta 1 then Ok c
    else for_n m (fun i c => upd c (COLMAJOR i j m n) (fun x => x * beta)) c.

  (** 127-159 (transb == 'N') and 191-223 (otherwise), transa == 'N':
      column oriented update.  [bpos l j] is the position of the element of b. *)
  Definition gemm_N (bpos : nat -> nat -> nat) (m n k : nat) (alpha : F) (a b : list F)
             (beta : F) (c : list F) : res (list F) :=
    for_n n (fun j c =>
      c <- gemm_prep m n beta j c ;;
      for_n k (fun l c =>
        blj <- rd b (bpos l j) ;;
        let temp := alpha * blj in
        for_n m (fun i c =>
          ail <- rd a (COLMAJOR i l m k) ;;
          upd c (COLMAJOR i j m n) (fun x => x + temp * ail)) c) c) c.

  (** 160-187 (transb == 'N') and 224-252 (otherwise), transa != 'N':
      dot products.  [bpos l j] as above. *)
  Definition gemm_T (bpos : nat -> nat -> nat) (m n k : nat) (alpha : F) (a b : list F)
             (beta : F) (c : list F) : res (list F) :=
    for_n n (fun j c =>
      for_n m (fun i c =>
        temp <- for_n k (fun l temp =>
          ali <- rd a (COLMAJOR l i k m) ;;
          blj <- rd b (bpos l j) ;;
          Ok (temp + ali * blj)) 0 ;;
        if keqb beta 0 then wr c (COLMAJOR i j m n) (alpha * temp)
        else upd c (COLMAJOR i j m n) (fun x => alpha * temp + beta * x)) c) c.

  (** bml_gemm_internal 8-254.  The leading dimensions are checked (74-85) but
      the element positions are computed from m, n and k only. *)
  Definition gemm (ta tb : trans) (m n k : nat) (alpha : F) (a : list F) (lda : nat)
             (b : list F) (ldb : nat) (beta : F) (c : list F) (ldc : nat) : res (list F) :=
    let rowsA := if is_N ta then m else k in
    let rowsB := if is_N tb then k else n in
    if bad_trans ta || bad_trans tb || (lda <? Nat.max 1 rowsA) || (ldb <? Nat.max 1 rowsB)
       || (ldc <? Nat.max 1 m) then Err
    else if ((m =? 0) || (n =? 0)) || ((keqb alpha 0 || (k =? 0)) && keqb beta 1) then Ok c
    else if keqb alpha 0 then gemm_alpha0 m n beta c
    else
      let bpos := if is_N tb then fun l j => COLMAJOR l j k n else fun l j => COLMAJOR j l n k in
      if is_N ta then gemm_N bpos m n k alpha a b beta c
      else gemm_T bpos m n k alpha a b beta c.
End Gemm.
