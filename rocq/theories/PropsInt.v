(** C73: array indices and sizes as int and size_t. *)
From Coq Require Import ZArith List String Lia.
From Verif Require Import IntModel IntSpec IntFacts.
Import ListNotations.
Local Open Scope Z_scope.

(** Sizes written sizeof(T) * N * N are right for every int N, as long as the array fits in 64 bits. *)
Theorem c73_sizes_NN :
  forall s N M i j t : Z,
  0 < s <= 16 ->
  dimension N ->
  s * N * N < 2 ^ 64 -> Forall (fun x : string * iexpr => evals_to (env5 N M i j t) (snd x) (s * N * N)) (sites_NN s).
Proof. exact (@sites_NN_exact). Qed.
Print Assumptions c73_sizes_NN.

(** Sizes written sizeof(T) * N * M likewise. *)
Theorem c73_sizes_NM :
  forall s N M i j t : Z,
  0 < s <= 16 ->
  dimension N ->
  dimension M ->
  s * N * M < 2 ^ 64 -> Forall (fun x : string * iexpr => evals_to (env5 N M i j t) (snd x) (s * N * M)) (sites_NM s).
Proof. exact (@sites_NM_exact). Qed.
Print Assumptions c73_sizes_NM.

(** Sizes computed in int first are right as long as N * N is an int ... *)
Theorem c73_int_sizes_NN :
  forall s N M i j t : Z,
  0 < s <= 16 ->
  dimension N ->
  N * N < 2 ^ 31 ->
  Forall
    (fun x : string * iexpr => evals_to (env5 N M i j t) (snd x) (N * N) \/ evals_to (env5 N M i j t) (snd x) (N * N * s))
    (sites_NN_int s).
Proof. exact (@sites_NN_int_exact). Qed.
Print Assumptions c73_int_sizes_NN.

Theorem c73_int_sizes_NM :
  forall s N M i j t : Z,
  0 < s <= 16 ->
  dimension N ->
  dimension M ->
  N * M < 2 ^ 31 ->
  Forall
    (fun x : string * iexpr => evals_to (env5 N M i j t) (snd x) (N * M) \/ evals_to (env5 N M i j t) (snd x) (N * M * s))
    (sites_NM_int s).
Proof. exact (@sites_NM_int_exact). Qed.
Print Assumptions c73_int_sizes_NM.

(** ... and undefined behaviour beyond, at every one of the sites. *)
Theorem c73_int_sizes_refuted :
  forall s N M i j t : Z,
  (2 ^ 31 <= N * N -> Forall (fun x : string * iexpr => overflows (env5 N M i j t) (snd x)) (sites_NN_int s)) /\
  (2 ^ 31 <= N * M -> Forall (fun x : string * iexpr => overflows (env5 N M i j t) (snd x)) (sites_NM_int s)).
Proof. exact (@sites_int_over). Qed.
Print Assumptions c73_int_sizes_refuted.

(** ROWMAJOR and COLMAJOR indices are right for every element of an N x M array of at most 2^31 elements ... *)
Theorem c73_index :
  forall N M i j t : Z,
  0 <= i < N ->
  0 <= j < M ->
  N * M <= 2 ^ 31 -> Forall (fun x : string * iexpr => evals_to (env5 N M i j t) (snd x) (i * M + j)) sites_index.
Proof. exact (@index_exact). Qed.
Print Assumptions c73_index.

(** ... and the last element of any larger one cannot be reached. *)
Theorem c73_index_refuted :
  forall N M t : Z,
  dimension N ->
  dimension M ->
  2 ^ 31 < N * M -> Forall (fun x : string * iexpr => overflows (env5 N M (N - 1) (M - 1) t) (snd x)) sites_index.
Proof. exact (@index_over). Qed.
Print Assumptions c73_index_refuted.

(** For square arrays the limit is N = 46340. *)
Theorem c73_square_limit :
  forall N : Z, 0 <= N -> N * N < 2 ^ 31 <-> N <= 46340.
Proof. exact (@square_limit). Qed.
Print Assumptions c73_square_limit.

(** Every larger dense matrix can be allocated but neither indexed to the end, nor cleared, nor diagonalized, nor have its sparsity computed. *)
Theorem c73_dense_refuted :
  forall N t : Z,
  46341 <= N ->
  dimension N ->
  16 * N * N < 2 ^ 64 ->
  Forall (fun x : string * iexpr => evals_to (env5 N N (N - 1) (N - 1) t) (snd x) (8 * N * N)) (sites_NN 8) /\
  Forall (fun x : string * iexpr => overflows (env5 N N (N - 1) (N - 1) t) (snd x)) sites_index /\
  Forall (fun x : string * iexpr => overflows (env5 N N (N - 1) (N - 1) t) (snd x)) (sites_NN_int 8).
Proof. exact (@dense_refuted). Qed.
Print Assumptions c73_dense_refuted.

(** Sparse matrices: all accesses are defined, the sparsity is not. *)
Theorem c73_sparsity_refuted :
  forall N M t : Z,
  46341 <= N ->
  dimension N ->
  0 < M ->
  N * M <= 2 ^ 31 ->
  (forall i j : Z,
   0 <= i < N -> 0 <= j < M -> Forall (fun x : string * iexpr => evals_to (env5 N M i j t) (snd x) (i * M + j)) sites_index) /\
  (forall i j : Z, overflows (env5 N M i j t) int_NN).
Proof. exact (@sparsity_refuted). Qed.
Print Assumptions c73_sparsity_refuted.

(** The work arrays of ellblock add and multiply. *)
Theorem c73_work_arrays :
  forall b2 NB t i j : Z,
  0 < b2 -> 0 < NB -> 0 < t -> evals_to (env5 b2 NB i j t) work_size (b2 * NB * t) <-> b2 * NB * t < 2 ^ 31.
Proof. exact (@work_exact). Qed.
Print Assumptions c73_work_arrays.

Example c73_example : Forall (fun x => overflows (env5 46341 46341 46340 46340 1) (snd x)) sites_index /\
  Forall (fun x => evals_to (env5 46341 46341 46340 46340 1) (snd x) (8 * 46341 * 46341)) (sites_NN 8) /\
  Forall (fun x => evals_to (env5 46340 46340 46339 46339 1) (snd x) (46340 * 46340 - 1)) sites_index.
Proof. exact big_dense_example. Qed.

Example c73_sparse_example : dimension 100000 /\ 0 < 100 /\ 100000 * 100 <= 2 ^ 31 /\ 46341 <= 100000.
Proof. unfold dimension. lia. Qed.
