(** Rounding to nearest, ties to even, in single and double precision with gradual
    underflow (Flocq's FLT format: no largest number); instances; and two schedules
    of a reduction with different results. *)
From Coq Require Import Reals Lra ZArith Lia Permutation.
From Flocq Require Import Core Relative.
From Verif Require Import Base BaseFacts Spec EllpackModel EllpackSpec EllpackCheck DenseModel DenseSpec RealSpec FpModel FpSpec FpFacts FpKernels FpEll.
Local Open Scope R_scope.

(** precision p, smallest positive number 2^e, smallest normal number 2^(e + p - 1) *)
Definition rnd_prec (e p : Z) (x : R) : R := round radix2 (FLT_exp e p) ZnearestE x.
Definition rnd64 : R -> R := rnd_prec (-1074) 53.
Definition rnd32 : R -> R := rnd_prec (-149) 24.

Lemma bpow_inv n : (0 <= n)%Z -> bpow radix2 (- n) = / 2 ^ Z.to_nat n.
Proof.
  intros H. rewrite bpow_opp. f_equal. rewrite <- (Z2Nat.id n) at 1 by lia. rewrite bpow_powerRZ, <- pow_powerRZ. reflexivity.
Qed.
Lemma rnd_prec_rounds e p : (0 < p)%Z -> rounds (bpow radix2 (- p)) (bpow radix2 (e + p - 1)) (rnd_prec e p).
Proof.
  intros Hp. pose proof (bpow_ge_0 radix2 (- p)) as Hu. split; [auto|]. split; [apply bpow_ge_0|].
  intros x. assert (P : Prec_gt_0 p) by exact Hp.
  destruct (Rle_or_lt (bpow radix2 (e + p - 1)) (Rabs x)) as [Hx|Hx].
  - rewrite Rmax_left by exact Hx. pose proof (relative_error_N_FLT radix2 e p P (fun z => negb (Z.even z)) x Hx) as H.
    replace (bpow radix2 (- p)) with (/ 2 * bpow radix2 (- p + 1)); [exact H|].
    rewrite bpow_plus. change (bpow radix2 1) with 2. field.
  - rewrite Rmax_right by lra. rewrite <- bpow_plus.
    assert (V : Valid_exp (FLT_exp e p)) by (apply FLT_exp_valid; exact P).
    pose proof (error_le_half_ulp radix2 (FLT_exp e p) (fun z => negb (Z.even z)) x) as H.
    eapply Rle_trans; [exact H|]. 
    assert (U : ulp radix2 (FLT_exp e p) x = bpow radix2 e).
    { apply (ulp_FLT_small radix2 e p). eapply Rlt_le_trans; [exact Hx|]. apply bpow_le. lia. }
    rewrite U. replace (- p + (e + p - 1))%Z with (e + -1)%Z by lia. rewrite bpow_plus. change (bpow radix2 (-1)) with (/ 2). lra.
Qed.
Lemma rnd64_rounds : rounds (/ 2 ^ 53) (/ 2 ^ 1022) rnd64.
Proof.
  pose proof (rnd_prec_rounds (-1074) 53) as H. change (-1074 + 53 - 1)%Z with (- (1022))%Z in H. rewrite !bpow_inv in H by lia. apply H. lia.
Qed.
Lemma rnd32_rounds : rounds (/ 2 ^ 24) (/ 2 ^ 126) rnd32.
Proof.
  pose proof (rnd_prec_rounds (-149) 24) as H. change (-149 + 24 - 1)%Z with (- (126))%Z in H. rewrite !bpow_inv in H by lia. apply H. lia.
Qed.
(** without underflow: the bounds are relative *)
Definition rnd_unbounded (p : Z) (x : R) : R := round radix2 (FLX_exp p) ZnearestE x.
Lemma rnd_unbounded_rounds p : (0 < p)%Z -> rounds (bpow radix2 (- p)) 0 (rnd_unbounded p).
Proof.
  intros Hp. split; [apply bpow_ge_0|]. split; [lra|]. intros x. assert (P : Prec_gt_0 p) by exact Hp.
  rewrite Rmax_left by apply Rabs_pos.
  pose proof (relative_error_N_FLX radix2 p P (fun z => negb (Z.even z)) x) as H.
  replace (bpow radix2 (- p)) with (/ 2 * bpow radix2 (- p + 1)); [exact H|].
  rewrite bpow_plus. change (bpow radix2 1) with 2. field.
Qed.
(** ... and with it they are not: half of the smallest number is rounded to 0 *)
Lemma underflow_error : rnd64 (bpow radix2 (-1075)) = 0.
Proof.
  unfold rnd64, rnd_prec, round, F2R, scaled_mantissa, cexp. cbn [Fnum Fexp]. rewrite mag_bpow.
  replace (FLT_exp (-1074) 53 (-1075 + 1)) with (-1074)%Z by reflexivity.
  rewrite <- bpow_plus. replace (-1075 + - (-1074))%Z with (-1)%Z by reflexivity.
  replace (ZnearestE (bpow radix2 (-1))) with 0%Z; [apply Rmult_0_l|].
  unfold Znearest. change (bpow radix2 (-1)) with (/ 2).
  assert (F : Zfloor (/ 2) = 0%Z) by (apply Zfloor_imp; simpl; lra). rewrite F. simpl IZR.
  rewrite Rminus_0_r, Rcompare_Eq by auto. reflexivity.
Qed.

(** the value of a rounding: x lies between two powers of two, n is the nearest integer of x in units of the last place *)
Lemma rnd_value e0 p x e n : (0 < p)%Z -> (e0 <= e - p)%Z -> bpow radix2 (e - 1) <= x < bpow radix2 e -> Rabs (x * bpow radix2 (p - e) - IZR n) < / 2 ->
  rnd_prec e0 p x = IZR n * bpow radix2 (e - p).
Proof.
  intros Hp He Hx Hn. assert (P : 0 < x) by (pose proof (bpow_gt_0 radix2 (e - 1)); lra).
  unfold rnd_prec, round, F2R, scaled_mantissa, cexp. cbn [Fnum Fexp].
  rewrite (mag_unique radix2 x e) by (rewrite Rabs_pos_eq by lra; exact Hx). unfold FLT_exp. rewrite Z.max_l by auto.
  rewrite (Znearest_imp _ (x * bpow radix2 (- (e - p))) n); auto.
  replace (- (e - p))%Z with (p - e)%Z by lia. exact Hn.
Qed.

(** 3/8 of the distance between 1 and the next number of double precision *)
Definition tiny : R := 3 / 2 ^ 55.
Definition exTr : dense Rscalar := mkDense (F := Rscalar) 3 [1; 0; 0;  0; tiny; 0;  0; 0; tiny].

Lemma rnd64_1 : rnd64 1 = 1.
Proof. unfold rnd64. rewrite (rnd_value (-1074) 53 1 1 4503599627370496); try lia; simpl; try (apply Rabs_def1); lra. Qed.
Lemma rnd64_0 : rnd64 0 = 0.
Proof. unfold rnd64, rnd_prec. apply round_0. apply valid_rnd_N. Qed.
Lemma rnd64_tiny : rnd64 tiny = tiny.
Proof. unfold rnd64, tiny. rewrite (rnd_value (-1074) 53 _ (-53) 6755399441055744); try lia; simpl; try (apply Rabs_def1); lra. Qed.
Lemma rnd64_1_tiny : rnd64 (1 + tiny) = 1.
Proof. unfold rnd64, tiny. rewrite (rnd_value (-1074) 53 _ 1 4503599627370496); try lia; simpl; try (apply Rabs_def1); lra. Qed.
Lemma rnd64_2_tiny : rnd64 (tiny + tiny) = tiny + tiny.
Proof. unfold rnd64, tiny. rewrite (rnd_value (-1074) 53 _ (-52) 6755399441055744); try lia; simpl; try (apply Rabs_def1); lra. Qed.
Lemma rnd64_1_2_tiny : rnd64 (1 + (tiny + tiny)) = 1 + / 2 ^ 52.
Proof. unfold rnd64, tiny. rewrite (rnd_value (-1074) 53 _ 1 4503599627370497); try lia; simpl; try (apply Rabs_def1); lra. Qed.

Definition one_thread : list (nat * nat) := [(0, 0); (0, 1); (0, 2)]%nat.
Definition two_threads : list (nat * nat) := [(0, 0); (1, 1); (1, 2)]%nat.
Lemma one_thread_full : full_sched 3 1 one_thread.
Proof. split; [apply Permutation_refl|]. simpl. intros t i H. repeat (destruct H as [H|H]; [injection H; lia|]). tauto. Qed.
Lemma two_threads_full : full_sched 3 2 two_threads.
Proof. split; [apply Permutation_refl|]. simpl. intros t i H. repeat (destruct H as [H|H]; [injection H; lia|]). tauto. Qed.

Lemma one_thread_trace : fp_dense_trace rnd64 exTr (seq 0 1) one_thread = Ok 1.
Proof.
  unfold fp_dense_trace, fp_par_sum, one_thread. cbn. unfold fp_reduce, upd_fun. cbn. unfold fadd. cbn.
  rewrite !Rplus_0_l, rnd64_1, rnd64_1_tiny, rnd64_1_tiny, rnd64_1. auto.
Qed.
Lemma two_threads_trace : fp_dense_trace rnd64 exTr (seq 0 2) two_threads = Ok (1 + / 2 ^ 52).
Proof.
  unfold fp_dense_trace, fp_par_sum, two_threads. cbn. unfold fp_reduce, upd_fun. cbn. unfold fadd. cbn.
  rewrite !Rplus_0_l, !rnd64_1, rnd64_tiny, rnd64_2_tiny, rnd64_1_2_tiny. auto.
Qed.

(** the same schedule on three threads, combined in two orders *)
Definition three_threads : list (nat * nat) := [(0, 0); (1, 1); (2, 2)]%nat.
Lemma three_threads_full : full_sched 3 3 three_threads.
Proof. split; [apply Permutation_refl|]. simpl. intros t i H. repeat (destruct H as [H|H]; [injection H; lia|]). tauto. Qed.
Lemma three_threads_012 : fp_dense_trace rnd64 exTr [0; 1; 2]%nat three_threads = Ok 1.
Proof.
  unfold fp_dense_trace, fp_par_sum, three_threads. cbn. unfold fp_reduce, upd_fun. cbn. unfold fadd. cbn.
  rewrite !Rplus_0_l, !rnd64_tiny, !rnd64_1, rnd64_1_tiny, rnd64_1_tiny. auto.
Qed.
Lemma three_threads_120 : fp_dense_trace rnd64 exTr [1; 2; 0]%nat three_threads = Ok (1 + / 2 ^ 52).
Proof.
  unfold fp_dense_trace, fp_par_sum, three_threads. cbn. unfold fp_reduce, upd_fun. cbn. unfold fadd. cbn.
  rewrite !Rplus_0_l, !rnd64_tiny, !rnd64_1, rnd64_2_tiny, Rplus_comm, rnd64_1_2_tiny. auto.
Qed.

Lemma two_values : 1 <> 1 + / 2 ^ 52.
Proof. assert (0 < / 2 ^ 52) by (apply Rinv_0_lt_compat, pow_lt; lra). lra. Qed.

Lemma trace_schedule_refuted : exists (A : dense Rscalar) n1 sched1 n2 sched2 t1 t2, dwf A /\ full_sched (dN A) n1 sched1 /\ full_sched (dN A) n2 sched2 /\
  fp_dense_trace rnd64 A (seq 0 n1) sched1 = Ok t1 /\ fp_dense_trace rnd64 A (seq 0 n2) sched2 = Ok t2 /\ t1 <> t2.
Proof.
  exists exTr, 1%nat, one_thread, 2%nat, two_threads, 1, (1 + / 2 ^ 52). split; [reflexivity|]. split; [apply one_thread_full|].
  split; [apply two_threads_full|]. split; [apply one_thread_trace|]. split; [apply two_threads_trace|]. apply two_values.
Qed.
Lemma trace_order_refuted : exists (A : dense Rscalar) n sched ord1 ord2 t1 t2, dwf A /\ full_sched (dN A) n sched /\
  Permutation ord1 (seq 0 n) /\ Permutation ord2 (seq 0 n) /\
  fp_dense_trace rnd64 A ord1 sched = Ok t1 /\ fp_dense_trace rnd64 A ord2 sched = Ok t2 /\ t1 <> t2.
Proof.
  exists exTr, 3%nat, three_threads, [0; 1; 2]%nat, [1; 2; 0]%nat, 1, (1 + / 2 ^ 52). split; [reflexivity|]. split; [apply three_threads_full|].
  split; [apply Permutation_refl|]. split; [|split; [apply three_threads_012|]; split; [apply three_threads_120|apply two_values]].
  simpl. apply Permutation_sym, (Permutation_cons_append [1; 2]%nat 0%nat).
Qed.
(** ... while they never differ by more than the bounds *)
Lemma trace_schedules_close u lam rnd (A : dense Rscalar) n1 ord1 sched1 n2 ord2 sched2 t1 t2 : rounds u lam rnd -> dwf A ->
  full_sched (dN A) n1 sched1 -> Permutation ord1 (seq 0 n1) -> full_sched (dN A) n2 sched2 -> Permutation ord2 (seq 0 n2) ->
  fp_dense_trace rnd A ord1 sched1 = Ok t1 -> fp_dense_trace rnd A ord2 sched2 = Ok t2 ->
  Rabs (t1 - t2) <= gam u (dN A + n1) * (mtrace (dN A) (mabs (denm A)) + INR (dN A + n1) * lam) +
    gam u (dN A + n2) * (mtrace (dN A) (mabs (denm A)) + INR (dN A + n2) * lam).
Proof.
  intros Hr W S1 O1 S2 O2 E1 E2.
  destruct (fp_dense_trace_ok u lam rnd Hr A n1 ord1 sched1 W S1 O1) as (x1 & X1 & B1).
  destruct (fp_dense_trace_ok u lam rnd Hr A n2 ord2 sched2 W S2 O2) as (x2 & X2 & B2).
  rewrite E1 in X1. rewrite E2 in X2. injection X1 as <-. injection X2 as <-.
  replace (t1 - t2) with ((t1 - mtrace (dN A) (denm A)) + - (t2 - mtrace (dN A) (denm A))) by (unfold Rminus; ring).
  pose proof (Rabs_triang (t1 - mtrace (dN A) (denm A)) (- (t2 - mtrace (dN A) (denm A)))) as T. rewrite Rabs_Ropp in T.
  change (K Rscalar) with R in *. lra.
Qed.

(** instances *)
Definition exFA : ell Rscalar := @mkEll Rscalar 2 2 [2; /3; 2; 0] [1; 0; 0; 0]%nat [2; 1]%nat.
Definition exFC : ell Rscalar := @mkEll Rscalar 2 2 [0; 0; 0; 0] [0; 0; 0; 0]%nat [0; 0]%nat.
Definition exF_sched : list (nat * nat) := [(1, 1); (0, 0)]%nat.
Lemma exFA_wf : wf exFA.
Proof. apply wfb_ok. reflexivity. Qed.
Lemma exFC_wf : wf exFC.
Proof. apply wfb_ok. reflexivity. Qed.
Lemma exF_full : full_sched 2 2 exF_sched.
Proof. apply full_schedb; reflexivity. Qed.
(** with underflow no relative bound below 1 holds *)
Lemma rnd64_not_relative u : u < 1 -> ~ rounds u 0 rnd64.
Proof.
  intros Hu (_ & _ & H). specialize (H (bpow radix2 (-1075))). rewrite underflow_error in H. unfold Rminus in H.
  rewrite Rplus_0_l, Rabs_Ropp in H. assert (P : 0 < bpow radix2 (-1075)) by apply bpow_gt_0.
  rewrite Rabs_pos_eq, Rmax_left in H by lra. nra.
Qed.
