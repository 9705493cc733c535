(** Without rounding the kernels of FpModel.v are those of the exact models. *)
From Coq Require Import Reals Lra.
From Verif Require Import Base BaseFacts Spec EllpackModel GemmModel DenseModel RealSpec FpModel.

Definition exact_rnd (x : R) : R := x.

Lemma reduce_exact nth (p : nat -> Rscalar) : fp_reduce exact_rnd (seq 0 nth) p = reduce_sum nth p.
Proof. unfold fp_reduce, reduce_sum. induction nth as [|n IH]; [auto|]. rewrite seq_S, fold_left_app, IH. auto. Qed.

Lemma par_sum_exact nth sched (f : nat -> res Rscalar) : fp_par_sum exact_rnd (seq 0 nth) sched f = par_sum nth sched f.
Proof.
  unfold fp_par_sum, par_sum. change (fadd exact_rnd) with (@kadd Rscalar). destruct (par_for _ _ _ _) as [[s w]| | |]; auto. cbn [bind].
  rewrite reduce_exact. auto.
Qed.
Lemma dense_trace_exact (A : dense Rscalar) nth sched : fp_dense_trace exact_rnd A (seq 0 nth) sched = dense_trace A nth sched.
Proof. apply par_sum_exact. Qed.
Lemma dense_sum_squares_exact (A : dense Rscalar) nth sched : fp_dense_sum_squares exact_rnd A (seq 0 nth) sched = dense_sum_squares A nth sched.
Proof. apply par_sum_exact. Qed.
Lemma dense_add_exact alpha beta (A B : dense Rscalar) : fp_dense_add exact_rnd alpha beta A B = dense_add alpha beta A B.
Proof. reflexivity. Qed.
Lemma dense_scale_exact s (A : dense Rscalar) : fp_dense_scale_inplace exact_rnd s A = dense_scale_inplace s A.
Proof. reflexivity. Qed.
Lemma gemm_exact ta tb m n k (alpha : Rscalar) a lda b ldb beta c ldc :
  fp_gemm exact_rnd ta tb m n k alpha a lda b ldb beta c ldc = gemm ta tb m n k alpha a lda b ldb beta c ldc.
Proof. reflexivity. Qed.
Lemma dense_multiply_exact alpha beta (A B C : dense Rscalar) : fp_dense_multiply exact_rnd alpha beta A B C = dense_multiply alpha beta A B C.
Proof. reflexivity. Qed.
Lemma ell_trace_exact (A : ell Rscalar) nth sched : fp_ell_trace exact_rnd A (seq 0 nth) sched = ell_trace A nth sched.
Proof.
  unfold fp_ell_trace, ell_trace. change (fadd exact_rnd) with (@kadd Rscalar). destruct (par_for _ _ _ _) as [[s w]| | |]; auto. cbn [bind].
  rewrite reduce_exact. auto.
Qed.
Lemma ell_sum_squares_exact (A : ell Rscalar) nth sched : fp_ell_sum_squares exact_rnd A (seq 0 nth) sched = ell_sum_squares A nth sched.
Proof.
  unfold fp_ell_sum_squares, ell_sum_squares. change (fadd exact_rnd) with (@kadd Rscalar). change (fmul exact_rnd) with (@kmul Rscalar).
  destruct (par_for _ _ _ _) as [[s w]| | |]; auto. cbn [bind]. rewrite reduce_exact. auto.
Qed.
Lemma ell_add_exact keep alpha beta (A B : ell Rscalar) sched : fp_ell_add exact_rnd keep alpha beta A B sched = ell_add keep alpha beta A B sched.
Proof. reflexivity. Qed.
Lemma ell_multiply_AB_exact keep (A B C : ell Rscalar) sched : fp_ell_multiply_AB exact_rnd keep A B C sched = ell_multiply_AB keep A B C sched.
Proof. reflexivity. Qed.
