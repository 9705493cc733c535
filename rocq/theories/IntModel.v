(** Model of the integer arithmetic behind array indices and sizes: int of 32
    bits with undefined overflow, size_t of 64 bits modulo 2^64, and the
    conversions between them (C11 6.3.1.8, 6.5).  All files cited below are in
    /repo/src/C-interface unless said otherwise.

    Simplifications: LP64 (int 32, size_t 64 bits).  Only the operators that
    occur in the expressions below; operands are variables of type int, sizeof,
    and int constants. *)
From Coq Require Import ZArith List String.
Import ListNotations.
Local Open Scope string_scope.
Local Open Scope Z_scope.

Inductive iexpr :=
| IVar (x : nat)             (* a variable of type int *)
| ISizeof (s : Z)            (* sizeof(...) of type size_t *)
| IMul (a b : iexpr)
| IAdd (a b : iexpr).

Inductive ival := VInt (z : Z) | VSize (z : Z).

Definition in_int (z : Z) : bool := (- 2 ^ 31 <=? z) && (z <? 2 ^ 31).
(** a result of type int: undefined if it is not an int *)
Definition as_int (z : Z) : option ival := if in_int z then Some (VInt z) else None.
(** a result of type size_t *)
Definition as_size (z : Z) : option ival := Some (VSize (z mod 2 ^ 64)).

(** the usual arithmetic conversions: int op int is int, otherwise size_t *)
Definition iop (f : Z -> Z -> Z) (a b : ival) : option ival :=
  match a, b with
  | VInt x, VInt y => as_int (f x y)
  | VInt x, VSize y => as_size (f (x mod 2 ^ 64) y)
  | VSize x, VInt y => as_size (f x (y mod 2 ^ 64))
  | VSize x, VSize y => as_size (f x y)
  end.
Fixpoint ieval (env : nat -> Z) (e : iexpr) : option ival :=
  match e with
  | IVar x => Some (VInt (env x))
  | ISizeof s => Some (VSize s)
  | IMul a b =>
      match ieval env a, ieval env b with Some u, Some v => iop Z.mul u v | _, _ => None end
  | IAdd a b =>
      match ieval env a, ieval env b with Some u, Some v => iop Z.add u v | _, _ => None end
  end.

(** variables of the expressions *)
Definition vN : iexpr := IVar 0.
Definition vM : iexpr := IVar 1.
Definition vi : iexpr := IVar 2.
Definition vj : iexpr := IVar 3.
Definition vT : iexpr := IVar 4.

(** /repo/src/macros.h 13: (i) * (N) + (j); 22: (i) + (j) * (M) *)
Definition ROWMAJOR_c (i j M N : iexpr) : iexpr := IAdd (IMul i N) j.
Definition COLMAJOR_c (i j M N : iexpr) : iexpr := IAdd i (IMul j M).

(** sizeof(T) * N * N: the int operands are converted *)
Definition size_NN (s : Z) : iexpr := IMul (IMul (ISizeof s) vN) vN.
(** sizeof(T) * N * M *)
Definition size_NM (s : Z) : iexpr := IMul (IMul (ISizeof s) vN) vM.
(** N * N, N * M, N * N * sizeof(T), N * M * sizeof(T): the first product is an int *)
Definition int_NN : iexpr := IMul vN vN.
Definition int_NM : iexpr := IMul vN vM.
Definition int_NN_size (s : Z) : iexpr := IMul int_NN (ISizeof s).
Definition int_NM_size (s : Z) : iexpr := IMul int_NM (ISizeof s).

(** sizes of N x N arrays, T = REAL_T of [s] bytes; in distributed2d N is the
    local size n *)
Definition sites_NN (s : Z) : list (string * iexpr) :=
  [("dense/bml_allocate_dense_typed.c 113 noinit", size_NN s);
   ("dense/bml_allocate_dense_typed.c 171 zero", size_NN s);
   ("dense/bml_copy_dense_typed.c 50, 88", size_NN s);
   ("dense/bml_import_dense_typed.c 45", size_NN s);
   ("dense/bml_export_dense_typed.c 36, 46", size_NN s);
   ("ellpack/bml_export_ellpack_typed.c 35", size_NN s);
   ("ellpack/bml_submatrix_ellpack_typed.c 255, 317", size_NN s);
   ("csr/bml_export_csr_typed.c 32", size_NN s);
   ("ellblock/bml_export_ellblock_typed.c 41", size_NN s);
   ("distributed2d/bml_export_distributed2d_typed.c 37", size_NN s)].
(** ... computed in int first *)
Definition sites_NN_int (s : Z) : list (string * iexpr) :=
  [("dense/bml_allocate_dense_typed.c 71 clear, ld = N", int_NN_size s);
   ("dense/bml_diagonalize_dense.c 245, 616, 726, 728, 836, 838", int_NN);
   ("dense/bml_diagonalize_dense.c 248, 619, 736, 845", int_NN_size s);
   ("dense/bml_inverse_dense_typed.c 113", int_NN);
   ("distributed2d/bml_import_distributed2d_typed.c 54, 71", int_NN_size s);
   ("distributed2d/bml_export_distributed2d_typed.c 59", int_NN_size s);
   ("dense/bml_introspection_dense_typed.c 121 sparsity", int_NN);
   ("ellpack/bml_introspection_ellpack_typed.c 52 sparsity", int_NN);
   ("csr/bml_introspection_csr_typed.c 46 sparsity", int_NN);
   ("ellblock/bml_introspection_ellblock_typed.c 59 sparsity", int_NN);
   ("distributed2d/bml_introspection_distributed2d.c 120 (N = nloc), 123 sparsity", int_NN)].
(** sizes of N x M (ellblock: NB x MB) arrays *)
Definition sites_NM (s : Z) : list (string * iexpr) :=
  [("ellpack/bml_allocate_ellpack_typed.c 159, 161 noinit", size_NM s);
   ("ellpack/bml_allocate_ellpack_typed.c 221, 223 zero", size_NM s);
   ("ellblock/bml_allocate_ellblock_typed.c 204, 205, 231", size_NM s)].
Definition sites_NM_int (s : Z) : list (string * iexpr) :=
  [("ellpack/bml_allocate_ellpack_typed.c 125, 126 clear", int_NM_size s);
   ("ellblock/bml_copy_ellblock_typed.c 39, 88", int_NM_size s)].
(** indices of element (i, j) of an N x M array: every access of dense (M = N),
    ellpack and, for slots of blocks, ellblock matrices *)
Definition sites_index : list (string * iexpr) :=
  [("ROWMAJOR(i, j, N, M)", ROWMAJOR_c vi vj vN vM); ("COLMAJOR(j, i, M, N)", COLMAJOR_c vj vi vM vN)].
(** maxbsize2 * NB * nthreads: ellblock/bml_add_ellblock_typed.c 77,
    bml_multiply_ellblock_typed.c 288, 498; N = maxbsize2, M = NB *)
Definition work_size : iexpr := IMul (IMul vN vM) vT.
