OUT='PropsInt.v'
HEADER='''(** C73: array indices and sizes as int and size_t. *)
From Coq Require Import ZArith List String Lia.
From Verif Require Import IntModel IntSpec IntFacts.
Import ListNotations.
Local Open Scope Z_scope.
'''
ITEMS=[
("c73_sizes_NN","sites_NN_exact","Sizes written sizeof(T) * N * N are right for every int N, as long as the array fits in 64 bits."),
("c73_sizes_NM","sites_NM_exact","Sizes written sizeof(T) * N * M likewise."),
("c73_int_sizes_NN","sites_NN_int_exact","Sizes computed in int first are right as long as N * N is an int ..."),
("c73_int_sizes_NM","sites_NM_int_exact",None),
("c73_int_sizes_refuted","sites_int_over","... and undefined behaviour beyond, at every one of the sites."),
("c73_index","index_exact","ROWMAJOR and COLMAJOR indices are right for every element of an N x M array of at most 2^31 elements ..."),
("c73_index_refuted","index_over","... and the last element of any larger one cannot be reached."),
("c73_square_limit","square_limit","For square arrays the limit is N = 46340."),
("c73_dense_refuted","dense_refuted","Every larger dense matrix can be allocated but neither indexed to the end, nor cleared, nor diagonalized, nor have its sparsity computed."),
("c73_sparsity_refuted","sparsity_refuted","Sparse matrices: all accesses are defined, the sparsity is not."),
("c73_work_arrays","work_exact","The work arrays of ellblock add and multiply."),
"""Example c73_example : Forall (fun x => overflows (env5 46341 46341 46340 46340 1) (snd x)) sites_index /\\
  Forall (fun x => evals_to (env5 46341 46341 46340 46340 1) (snd x) (8 * 46341 * 46341)) (sites_NN 8) /\\
  Forall (fun x => evals_to (env5 46340 46340 46339 46339 1) (snd x) (46340 * 46340 - 1)) sites_index.
Proof. exact big_dense_example. Qed.
""",
"""Example c73_sparse_example : dimension 100000 /\\ 0 < 100 /\\ 100000 * 100 <= 2 ^ 31 /\\ 46341 <= 100000.
Proof. unfold dimension. lia. Qed.
""",
]
