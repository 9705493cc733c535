(** Error bounds for the kernels with rounding: the kernels. *)
From Coq Require Import Reals Lra Permutation.
From Verif Require Import Base BaseFacts Spec SpecFacts EllpackModel EllpackSpec EllpackFacts EllpackOps EllpackArith EllpackMul
  GemmModel GemmFacts DenseModel DenseSpec DenseFacts DenseOps RealSpec FpModel FpSpec FpFacts.
Local Open Scope R_scope.

Section FpKernels.
  Variables (u lam : R) (rnd : R -> R).
  Hypothesis Hr : rounds u lam rnd.
  Local Notation F := Rscalar.
  Local Notation close := (close u).
  Local Notation bigsum := (bigsum (F := Rscalar)).
  Local Notation madd := (madd (F := Rscalar)).
  Local Notation mscale := (mscale (F := Rscalar)).
  Local Notation mmul := (mmul (F := Rscalar)).
  Local Notation ell := (ell Rscalar).
  Local Notation dense := (dense Rscalar).

  Lemma close_1 (x y : R) : close 1 (x * y) (fmul rnd x y) (Rabs x * Rabs y + lam).
  Proof. apply (close_mul u lam rnd Hr 0 0); apply close_exact. Qed.

  Lemma lamK c m : 0 <= c -> m <= m + c * lam.
  Proof. intros H. pose proof (lam_pos u lam rnd Hr). assert (0 <= c * lam) by (apply Rmult_le_pos; auto). lra. Qed.

  (** ** Dense *)
  Lemma fp_par_sum_ok n nth ord sched (f : nat -> res F) (g x m : nat -> R) k : full_sched n nth sched -> Permutation ord (seq 0 nth) ->
    (forall i, (i < n)%nat -> f i = Ok (g i) /\ close k (x i) (g i) (m i)) ->
    exists s, fp_par_sum rnd ord sched f = Ok s /\ close (k + n + nth) (bigsum n x) s (bigsum n m + INR (n + nth) * lam).
  Proof.
    intros HS HO HF. unfold fp_par_sum. pose proof HS as [HP _].
    assert (HI : forall i, In i (map snd sched) -> (i < n)%nat).
    { intros i Hi. apply (Permutation_in _ HP) in Hi. apply in_seq in Hi. lia. }
    destruct (par_steps sched (fun i '(s, sum) => v <- f i ;; Ok (s, fadd rnd sum v)) (fun i v => fadd rnd v (g i)) tt (fun _ => 0)) as (w & E & V).
    { intros i v Hi. destruct (HF i) as [-> _]; auto. }
    change (@k0 Rscalar) with 0. rewrite E. cbn [bind]. eexists. split; [reflexivity|].
    assert (B : forall z : nat -> R, bigsum n z = bigsum n (fun i => sumf z [i])).
    { intros z. apply bigsum_ext. intros i _. simpl. ring. }
    rewrite (B x), (B m). apply (reduction_close u lam rnd Hr (fun i => [i]) x g m k n n nth ord sched); auto.
    - intros i a Hi [<-|[]]. apply HF; auto.
    - clear. assert (H : length (flat_map (fun i : nat => [i]) (seq 0 n)) = n); [|lia]. rewrite <- (seq_length n 0) at 2. induction (seq 0 n); simpl; auto.
  Qed.

  Theorem fp_dense_trace_ok (A : dense) nth ord sched : dwf A -> full_sched (dN A) nth sched -> Permutation ord (seq 0 nth) ->
    exists s, fp_dense_trace rnd A ord sched = Ok s /\
      Rabs (s - mtrace (dN A) (denm A)) <= gam u (dN A + nth) * (mtrace (dN A) (mabs (denm A)) + INR (dN A + nth) * lam).
  Proof.
    intros W HS HO. destruct (fp_par_sum_ok (dN A) nth ord sched (fun i => d_at A i i) (fun i => denm A i i) (fun i => denm A i i) (fun i => Rabs (denm A i i)) 0 HS HO)
      as (s & E & [H _]).
    - intros i Hi. split; [exact (d_at_ok (F := Rscalar) A i i W Hi Hi)|apply close_exact].
    - exists s. auto.
  Qed.

  Theorem fp_dense_sum_squares_ok (A : dense) nth ord sched : dwf A -> full_sched (dN A * dN A) nth sched -> Permutation ord (seq 0 nth) ->
    exists s, fp_dense_sum_squares rnd A ord sched = Ok s /\
      Rabs (s - msum (dN A) (mhad (denm A) (denm A))) <=
      gam u (1 + dN A * dN A + nth) * (msum (dN A) (mhad (denm A) (denm A)) + INR (2 * (dN A * dN A) + nth) * lam).
  Proof.
    intros W HS HO.
    destruct (fp_par_sum_ok (dN A * dN A) nth ord sched (fun i => a <- rd (dmx A) i ;; Ok (fmul rnd a a))
      (fun p => fmul rnd (List.nth p (dmx A) 0) (List.nth p (dmx A) 0)) (fun p => List.nth p (dmx A) 0 * List.nth p (dmx A) 0)
      (fun p => Rabs (List.nth p (dmx A) 0) * Rabs (List.nth p (dmx A) 0) + lam) 1 HS HO) as (s & E & [H _]).
    - intros i Hi. split; [rewrite (rd_ok (dmx A) i 0) by (rewrite W; auto); auto|apply close_1].
    - exists s. split; auto.
      assert (B : forall z : R -> R, bigsum (dN A * dN A) (fun p => z (List.nth p (dmx A) 0)) = msum (F := Rscalar) (dN A) (fun i j => z (denm A i j))).
      { intros z. apply (bigsum_flat (F := Rscalar) (dN A) (dN A) (fun p => z (List.nth p (dmx A) 0))). }
      assert (P : forall (f : nat -> R) n, bigsum n (fun p => f p + lam) = bigsum n f + INR n * lam).
      { intros f n. induction n as [|n IH]; [simpl; lra|]. rewrite S_INR. cbn [Spec.bigsum]. rewrite IH.
        change (@eq R (bigsum n f + INR n * lam + (f n + lam)) (bigsum n f + f n + (INR n + 1) * lam)). ring. }
      rewrite (P (fun p => Rabs (List.nth p (dmx A) 0) * Rabs (List.nth p (dmx A) 0))) in H.
      rewrite (B (fun v => v * v)), (B (fun v => Rabs v * Rabs v)) in H.
      assert (M : msum (F := Rscalar) (dN A) (fun i j => Rabs (denm A i j) * Rabs (denm A i j)) = msum (dN A) (mhad (denm A) (denm A))).
      { apply bigsum_ext. intros i Hi. apply bigsum_ext. intros j Hj. unfold mhad. rewrite <- Rabs_mult. apply Rabs_pos_eq.
        change (0 <= denm A i j * denm A i j). apply Rle_0_sqr. }
      rewrite M in H. eapply Rle_trans; [exact H|]. apply Req_le. f_equal.
      replace (2 * (dN A * dN A) + nth)%nat with (dN A * dN A + (dN A * dN A + nth))%nat by lia. rewrite (plus_INR (dN A * dN A) (dN A * dN A + nth)).
      change (K Rscalar) with R in *. ring.
  Qed.

  Lemma fp_scal_ok n (alpha : F) (x : list F) : (n <= length x)%nat ->
    exists y, fp_scal rnd n alpha x = Ok y /\ length y = length x /\
      (forall i, (i < n)%nat -> nth i y 0 = fmul rnd alpha (nth i x 0)) /\ (forall i, (n <= i)%nat -> nth i y 0 = nth i x 0).
  Proof.
    intros H. unfold fp_scal, for_n. apply (flat_ok (F := Rscalar) (seq 0 n) n (fun _ v => fmul rnd alpha v)); auto.
    intros i c' Hi L E. rewrite (upd_ok (F := Rscalar)) by lia. rewrite E. auto.
  Qed.
  Lemma fp_axpy_ok n (a : F) (x y : list F) : (n <= length x)%nat -> (n <= length y)%nat ->
    exists z, fp_axpy rnd n a x y = Ok z /\ length z = length y /\
      (forall i, (i < n)%nat -> nth i z 0 = fadd rnd (nth i y 0) (fmul rnd a (nth i x 0))) /\ (forall i, (n <= i)%nat -> nth i z 0 = nth i y 0).
  Proof.
    intros Hx Hy. unfold fp_axpy, for_n. apply (flat_ok (F := Rscalar) (seq 0 n) n (fun i w => fadd rnd w (fmul rnd a (nth i x 0)))); auto.
    intros i c' Hi L E. rewrite (rd_ok x i 0) by lia. cbn [bind]. rewrite (upd_ok (F := Rscalar)) by lia. rewrite E. auto.
  Qed.

  Theorem fp_dense_add_ok (alpha beta : F) (A B : dense) : dwf A -> dwf B -> dN A = dN B ->
    exists A', fp_dense_add rnd alpha beta A B = Ok A' /\ dwf A' /\ dN A' = dN A /\
      forall i j, (i < dN A)%nat -> (j < dN A)%nat ->
        Rabs (denm A' i j - madd (mscale alpha (denm A)) (mscale beta (denm B)) i j) <=
        gam u 2 * (madd (mscale (Rabs alpha) (mabs (denm A))) (mscale (Rabs beta) (mabs (denm B))) i j + 3 * lam).
  Proof.
    intros HA HB HN. unfold fp_dense_add. rewrite <- HN.
    destruct (fp_scal_ok (dN A * dN A) alpha (dmx A)) as (y & E1 & L1 & V1 & _); [rewrite HA; auto|]. rewrite E1. cbn [bind].
    destruct (fp_axpy_ok (dN A * dN A) beta (dmx B) y) as (z & E2 & L2 & V2 & _); [rewrite HB, HN; auto|rewrite L1, HA; auto|]. rewrite E2. cbn [bind].
    eexists. split; [reflexivity|]. split; [unfold dwf; simpl; exact (eq_trans L2 (eq_trans L1 HA))|]. split; auto.
    intros i j Hi Hj. unfold denm at 1. cbn [dN dmx].
    assert (i * dN A + j < dN A * dN A)%nat by nia.
    change (@k0 Rscalar) with 0. rewrite V2, V1 by auto.
    match goal with |- _ <= gam u 2 * (?a + 3 * lam) => replace (a + 3 * lam) with
      ((Rabs alpha * Rabs (denm A i j) + lam) + (Rabs beta * Rabs (denm B i j) + lam) + lam) 
      by (symmetry; change (@eq R (Rabs alpha * Rabs (denm A i j) + Rabs beta * Rabs (denm B i j) + 3 * lam) ((Rabs alpha * Rabs (denm A i j) + lam) + (Rabs beta * Rabs (denm B i j) + lam) + lam)); ring) end.
    apply (close_add u lam rnd Hr 1 1); unfold mscale, mabs, denm; rewrite <- ?HN; apply close_1.
  Qed.

  Theorem fp_dense_scale_ok (s : F) (A : dense) : dwf A ->
    exists A', fp_dense_scale_inplace rnd s A = Ok A' /\ dwf A' /\ dN A' = dN A /\
      forall i j, (i < dN A)%nat -> (j < dN A)%nat ->
        Rabs (denm A' i j - mscale s (denm A) i j) <= u * Rmax (Rabs (mscale s (denm A) i j)) lam.
  Proof.
    intros HA. unfold fp_dense_scale_inplace.
    destruct (fp_scal_ok (dN A * dN A) s (dmx A)) as (y & E1 & L1 & V1 & _); [rewrite HA; auto|]. rewrite E1. cbn [bind].
    eexists. split; [reflexivity|]. split; [unfold dwf; simpl; exact (eq_trans L1 HA)|]. split; auto.
    intros i j Hi Hj. unfold denm at 1. cbn [dN dmx]. assert (i * dN A + j < dN A * dN A)%nat by nia.
    change (@k0 Rscalar) with 0. rewrite V1 by auto. apply Hr.
  Qed.

  (** the product: what column j starts from, and the element after l steps *)
  Definition prep (beta c : R) : R := if Reqb beta 0 then 0 else if Reqb beta 1 then c else fmul rnd c beta.
  Lemma prep_close beta c : close 1 (beta * c) (prep beta c) (Rabs beta * Rabs c + lam).
  Proof.
    unfold prep. destruct (Reqb beta 0) eqn:E0; [apply Reqb_spec in E0; subst; rewrite Rmult_0_l, Rabs_R0, Rmult_0_l; eapply close_wider; [exact Hr|apply close_0|pose proof (lam_pos u lam rnd Hr); lra]|].
    destruct (Reqb beta 1) eqn:E1.
    - apply Reqb_spec in E1. subst. rewrite Rabs_R1, !Rmult_1_l. apply (close_mono u lam rnd Hr 0); [lia|]. eapply close_wider; [exact Hr|apply close_exact|pose proof (lam_pos u lam rnd Hr); lra].
    - rewrite (Rmult_comm beta), (Rmult_comm (Rabs beta)). apply close_1.
  Qed.

  Local Notation cm m n c i j := (nth (COLMAJOR i j m n) c (@k0 Rscalar)).

  Lemma fp_gemm_prep_ok m n (beta : F) j (c : list F) : (j < n)%nat -> (m * n <= length c)%nat ->
    exists c', fp_gemm_prep rnd m n beta j c = Ok c' /\ length c' = length c /\
      (forall i, (i < m)%nat -> cm m n c' i j = prep beta (cm m n c i j)) /\
      (forall i j', (i < m)%nat -> j' <> j -> cm m n c' i j' = cm m n c i j') /\
      (forall p, (m * n <= p)%nat -> nth p c' (@k0 Rscalar) = nth p c (@k0 Rscalar)).
  Proof.
    intros Hj HL. unfold fp_gemm_prep, prep.
    assert (Hlt : forall i, (i < m)%nat -> (COLMAJOR i j m n < length c)%nat).
    { intros i Hi. assert (COLMAJOR i j m n < m * n)%nat by (apply (colmajor_lt); lia). lia. }
    change (keqb beta k0) with (Reqb beta 0). change (keqb beta k1) with (Reqb beta 1).
    destruct (Reqb beta 0).
    - apply (col_sweep (F := Rscalar) m n j (fun _ _ => 0) (fun i c => wr c (COLMAJOR i j m n) 0) c); auto.
      intros i c' Hi L _. apply wr_ok. rewrite L. auto.
    - destruct (Reqb beta 1).
      + exists c. repeat split; auto.
      + apply (col_sweep (F := Rscalar) m n j (fun _ x => fmul rnd x beta) (fun i c => upd c (COLMAJOR i j m n) (fun x => fmul rnd x beta)) c); auto.
        intros i c' Hi L e. rewrite (upd_ok (F := Rscalar)) by (rewrite L; auto). rewrite e. auto.
  Qed.

  Lemma fp_gemm_N_ok bpos m n k (alpha : F) (a b : list F) (beta : F) (c : list F) :
    (m * k <= length a)%nat -> (m * n <= length c)%nat ->
    (forall l j, (l < k)%nat -> (j < n)%nat -> (bpos l j < length b)%nat) ->
    exists c', fp_gemm_N rnd bpos m n k alpha a b beta c = Ok c' /\ length c' = length c /\
      (forall i j, (i < m)%nat -> (j < n)%nat ->
         cm m n c' i j = fold_left (fun s l => fadd rnd s (fmul rnd (fmul rnd alpha (nth (bpos l j) b (@k0 Rscalar))) (cm m k a i l))) (seq 0 k) (prep beta (cm m n c i j))) /\
      (forall p, (m * n <= p)%nat -> nth p c' (@k0 Rscalar) = nth p c (@k0 Rscalar)).
  Proof.
    intros HA HC HB. unfold fp_gemm_N.
    apply (cols_sweep (F := Rscalar) m n (fun i j x => fold_left (fun s l => fadd rnd s (fmul rnd (fmul rnd alpha (nth (bpos l j) b (@k0 Rscalar))) (cm m k a i l))) (seq 0 k) (prep beta x))); auto.
    intros j c' Hj L E0.
    destruct (fp_gemm_prep_ok m n beta j c') as (c1 & E1 & L1 & V1 & O1 & U1); [auto|rewrite L; auto|].
    rewrite E1. cbn [bind].
    apply wp_ok. apply (for_n_inv (fun q c2 => length c2 = length c' /\
      (forall i, (i < m)%nat -> cm m n c2 i j = fold_left (fun s l => fadd rnd s (fmul rnd (fmul rnd alpha (nth (bpos l j) b (@k0 Rscalar))) (cm m k a i l))) (seq 0 q) (prep beta (cm m n c i j))) /\
      (forall i j', (i < m)%nat -> j' <> j -> cm m n c2 i j' = cm m n c' i j') /\
      (forall p, (m * n <= p)%nat -> nth p c2 (@k0 Rscalar) = nth p c' (@k0 Rscalar)))).
    - repeat split; auto. intros i Hi. cbn [seq fold_left]. rewrite V1 by auto. rewrite E0 by auto. auto.
    - intros l c2 Hl (L2 & V2 & O2 & U2). apply wp_ok.
      rewrite (rd_ok b (bpos l j) (@k0 Rscalar)) by auto. cbn [bind].
      destruct (col_sweep (F := Rscalar) m n j (fun i x => fadd rnd x (fmul rnd (fmul rnd alpha (nth (bpos l j) b (@k0 Rscalar))) (cm m k a i l)))
        (fun i c => ail <- rd a (COLMAJOR i l m k) ;;
           upd c (COLMAJOR i j m n) (fun x => fadd rnd x (fmul rnd (fmul rnd alpha (nth (bpos l j) b (@k0 Rscalar))) ail))) c2)
        as (c3 & E3 & L3 & V3 & O3 & U3).
      + auto.
      + rewrite L2, L; auto.
      + intros i c3 Hi L3 e3.
        assert (COLMAJOR i l m k < m * k)%nat by (apply (colmajor_lt); lia).
        assert (COLMAJOR i j m n < m * n)%nat by (apply (colmajor_lt); lia).
        rewrite (rd_ok a _ (@k0 Rscalar)) by lia. cbn [bind]. rewrite (upd_ok (F := Rscalar)) by lia. rewrite e3. auto.
      + exists c3. split; [auto|]. split; [congruence|]. split; [|split].
        * intros i Hi. rewrite seq_S, fold_left_app. cbn [fold_left Nat.add]. rewrite V3, V2 by auto. auto.
        * intros i j' Hi Hne. rewrite O3, O2; auto.
        * intros p Hp. rewrite U3, U2; auto.
  Qed.

  Lemma fp_gemm_alpha0_ok m n (beta : F) (c : list F) : (m * n <= length c)%nat ->
    exists c', fp_gemm_alpha0 rnd m n beta c = Ok c' /\ length c' = length c /\
      (forall i j, (i < m)%nat -> (j < n)%nat -> cm m n c' i j = if Reqb beta 0 then 0 else fmul rnd beta (cm m n c i j)).
  Proof.
    intros HL. unfold fp_gemm_alpha0. change (keqb beta k0) with (Reqb beta 0).
    assert (Hlt : forall i j, (i < m)%nat -> (j < n)%nat -> (COLMAJOR i j m n < length c)%nat).
    { intros i j Hi Hj. assert (COLMAJOR i j m n < m * n)%nat by (apply (colmajor_lt); lia). lia. }
    destruct (Reqb beta 0).
    - destruct (cols_sweep (F := Rscalar) m n (fun _ _ _ => 0) (fun j c => for_n m (fun i c => wr c (COLMAJOR i j m n) k0) c) c) as (c' & E & L & V & _); auto.
      { intros j c' Hj L E. apply (col_sweep (F := Rscalar) m n j (fun _ _ => 0)); auto; [lia|]. intros i c'' Hi L' _. apply wr_ok. rewrite L', L. auto. }
      exists c'. auto.
    - destruct (cols_sweep (F := Rscalar) m n (fun _ _ x => fmul rnd beta x) (fun j c => for_n m (fun i c => upd c (COLMAJOR i j m n) (fun x => fmul rnd beta x)) c) c) as (c' & E & L & V & _); auto.
      { intros j c' Hj L E. destruct (col_sweep (F := Rscalar) m n j (fun _ x => fmul rnd beta x) (fun i c => upd c (COLMAJOR i j m n) (fun x => fmul rnd beta x)) c') as (c2 & E2 & L2 & V2 & O2 & U2); auto; [lia| |].
        - intros i c'' Hi L' e. rewrite (upd_ok (F := Rscalar)) by (rewrite L', L; auto). rewrite e. auto.
        - exists c2. repeat split; auto. intros i Hi. rewrite V2, E by auto. auto. }
      exists c'. auto.
  Qed.

  Theorem fp_dense_multiply_ok (alpha beta : F) (A B C : dense) : dwf A -> dwf B -> dwf C -> dN A = dN B -> dN A = dN C -> (0 < dN A)%nat ->
    exists C', fp_dense_multiply rnd alpha beta A B C = Ok C' /\ dwf C' /\ dN C' = dN A /\
      forall i j, (i < dN A)%nat -> (j < dN A)%nat ->
        Rabs (denm C' i j - madd (mscale alpha (mmul (dN A) (denm A) (denm B))) (mscale beta (denm C)) i j) <=
        gam u (dN A + 2) * (madd (mscale (Rabs alpha) (mmul (dN A) (mabs (denm A)) (mabs (denm B)))) (mscale (Rabs beta) (mabs (denm C))) i j +
          (INR (2 * dN A + 1) + bigsum (dN A) (fun l => Rabs (denm B l j))) * lam).
  Proof.
    intros HA HB HC HNB HNC Hp. unfold fp_dense_multiply. set (N := dN A) in *.
    assert (X : exists c, fp_gemm rnd TrN TrN N N N alpha (dmx B) N (dmx A) N beta (dmx C) N = Ok c /\ length c = length (dmx C) /\
      forall i j, (i < N)%nat -> (j < N)%nat -> close (N + 2) (alpha * bigsum N (fun k => denm A i k * denm B k j) + beta * denm C i j)
        (nth (j + i * N) c 0) (Rabs alpha * bigsum N (fun k => Rabs (denm A i k) * Rabs (denm B k j)) + Rabs beta * Rabs (denm C i j) +
          (INR (2 * N + 1) + bigsum N (fun l => Rabs (denm B l j))) * lam)).
    { assert (PB : forall j q, 0 <= bigsum q (fun l => Rabs (denm B l j))).
      { intros j q. induction q as [|q IH]; [simpl; lra|]. cbn [Spec.bigsum]. apply Rplus_le_le_0_compat; [exact IH|apply Rabs_pos]. }
      assert (P1 : 1 <= INR (2 * N + 1)) by (apply (le_INR 1); lia).
      pose proof (lam_pos u lam rnd Hr) as HL.
      unfold fp_gemm. cbn [is_N bad_trans orb]. rewrite !(Nat.max_r 1 N) by lia. rewrite Nat.ltb_irrefl. cbn [orb].
      destruct (Nat.eqb_spec N 0); [lia|]. cbn [orb]. rewrite Bool.orb_false_r. change (keqb alpha k0) with (Reqb alpha 0). change (keqb beta k1) with (Reqb beta 1).
      assert (CC : forall i j, denm C i j = nth (j + i * N) (dmx C) 0) by (intros; unfold denm; rewrite <- HNC, Nat.add_comm; auto).
      destruct (Reqb alpha 0) eqn:Ea.
      - apply Reqb_spec in Ea. rewrite Ea, Rabs_R0. cbn [andb]. destruct (Reqb beta 1) eqn:Eb.
        + apply Reqb_spec in Eb. exists (dmx C). split; auto. split; auto. intros i j Hi Hj. rewrite Eb, Rabs_R1, !Rmult_0_l, !Rmult_1_l, !Rplus_0_l, CC.
          apply (close_mono u lam rnd Hr 0); [lia|]. eapply close_wider; [exact Hr|apply close_exact|]. apply lamK. specialize (PB j N). lra.
        + destruct (fp_gemm_alpha0_ok N N beta (dmx C)) as (c & E & L & V); [rewrite HC, <- HNC; auto|]. exists c. split; auto. split; auto.
          intros i j Hi Hj. change (j + i * N)%nat with (COLMAJOR j i N N). rewrite V by auto. rewrite !Rmult_0_l, !Rplus_0_l, CC.
          destruct (Reqb beta 0) eqn:E0.
          * apply Reqb_spec in E0. rewrite E0, Rabs_R0, !Rmult_0_l. eapply close_wider; [exact Hr|apply close_0|]. apply lamK. specialize (PB j N). lra.
          * apply (close_mono u lam rnd Hr 1); [lia|]. eapply close_wider; [exact Hr|apply close_1|]. specialize (PB j N).
            apply Rplus_le_compat_l. rewrite <- (Rmult_1_l lam) at 1. apply Rmult_le_compat_r; auto. change (K Rscalar) with R in *. lra.
      - cbn [andb]. destruct (fp_gemm_N_ok (fun l j => COLMAJOR l j N N) N N N alpha (dmx B) (dmx A) beta (dmx C)) as (c & E & L & V & _).
        + rewrite HB, <- HNB. auto.
        + rewrite HC, <- HNC. auto.
        + intros l j Hl Hj. assert (COLMAJOR l j N N < N * N)%nat by (apply (colmajor_lt); lia). rewrite HA. fold N. lia.
        + exists c. split; auto. split; auto. intros i j Hi Hj. change (j + i * N)%nat with (COLMAJOR j i N N). rewrite V by auto.
          set (x := fun l => alpha * denm A i l * denm B l j). set (m := fun l => Rabs alpha * Rabs (denm A i l) * Rabs (denm B l j)).
          assert (SX : alpha * bigsum N (fun k => denm A i k * denm B k j) = sumf x (seq 0 N)).
          { rewrite sumf_seq. change (alpha * bigsum N (fun k => denm A i k * denm B k j))%K with (alpha * bigsum N (fun k => denm A i k * denm B k j)).
            unfold x. clear. induction N as [|N IH]; simpl; [ring|]. rewrite Rmult_plus_distr_l, IH. ring. }
          assert (SM : Rabs alpha * bigsum N (fun k => Rabs (denm A i k) * Rabs (denm B k j)) = sumf m (seq 0 N)).
          { rewrite sumf_seq. unfold m. clear. induction N as [|N IH]; simpl; [ring|]. rewrite Rmult_plus_distr_l, IH. ring. }
          rewrite SX, SM. rewrite (Rplus_comm (sumf x _)).
          assert (SL : sumf m (seq 0 N) + Rabs beta * Rabs (denm C i j) + (INR (2 * N + 1) + bigsum N (fun l => Rabs (denm B l j))) * lam =
            (Rabs beta * Rabs (denm C i j) + lam) + sumf (fun l => (Rabs alpha * Rabs (denm A i l) + lam) * Rabs (denm B l j) + lam + lam) (seq 0 N)).
          { rewrite <- sumf_seq. rewrite (sumf_ext (fun l => (Rabs alpha * Rabs (denm A i l) + lam) * Rabs (denm B l j) + lam + lam)
              (fun l => m l + (Rabs (denm B l j) * lam + 2 * lam))) by (intros; unfold m; ring).
            rewrite !sumf_plus, sumf_const, seq_length, plus_INR, mult_INR.
            assert (SC : forall l, sumf (fun q => Rabs (denm B q j) * lam) l = sumf (fun q => Rabs (denm B q j)) l * lam) by (induction l as [|q l IH]; simpl; [ring|rewrite IH; ring]).
            rewrite SC. simpl INR. ring. }
          rewrite SL.
          eapply close_mono; [exact Hr| |apply (close_fold u lam rnd Hr x _ (fun l => (Rabs alpha * Rabs (denm A i l) + lam) * Rabs (denm B l j) + lam) 2 (seq 0 N) 1)].
          * rewrite seq_length. lia.
          * intros l Hl. unfold x. cbv beta. apply (close_mul u lam rnd Hr 1 0).
            -- assert (EA : nth (COLMAJOR l i N N) (dmx A) (@k0 Rscalar) = denm A i l) by (unfold denm, COLMAJOR; fold N; rewrite Nat.add_comm; auto). rewrite EA. apply close_1.
            -- assert (EB : nth (COLMAJOR j l N N) (dmx B) (@k0 Rscalar) = denm B l j) by (unfold denm, COLMAJOR; rewrite <- HNB, Nat.add_comm; auto). rewrite EB. apply close_exact.
          * rewrite CC. apply prep_close. }
    destruct X as (c & E & L & V). rewrite E. cbn [bind]. eexists. split; [reflexivity|]. split; [unfold dwf; simpl; exact (eq_trans L HC)|]. split; auto.
    intros i j Hi Hj. destruct (V i j Hi Hj) as [H _]. unfold denm at 1. cbn [dN dmx]. rewrite <- HNC. rewrite Nat.add_comm. exact H.
  Qed.
End FpKernels.
