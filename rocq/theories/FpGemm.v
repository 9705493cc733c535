(** The rounding error of the internal gemm, for every transposition. *)
From Coq Require Import Reals Lra Permutation.
From Verif Require Import Base BaseFacts Spec SpecFacts GemmModel GemmFacts DenseSpec DenseFacts RealSpec FpModel FpSpec FpFacts FpKernels.
Local Open Scope R_scope.
Local Arguments K : simpl never.

Section FpGemm.
  Variables (u lam : R) (rnd : R -> R).
  Hypothesis Hr : rounds u lam rnd.
  Local Notation F := Rscalar.
  Local Notation close := (close u).
  Local Notation bigsum := (bigsum (F := Rscalar)).
  Local Notation z0 := (@k0 Rscalar).
  Local Notation cm m n c i j := (nth (COLMAJOR i j m n) c (@k0 Rscalar)).

  Lemma fp_gemm_T_ok bpos m n k (alpha : F) (a b : list F) (beta : F) (c : list F) :
    (m * k <= length a)%nat -> (m * n <= length c)%nat ->
    (forall l j, (l < k)%nat -> (j < n)%nat -> (bpos l j < length b)%nat) ->
    exists c', fp_gemm_T rnd bpos m n k alpha a b beta c = Ok c' /\ length c' = length c /\
      (forall i j, (i < m)%nat -> (j < n)%nat ->
         cm m n c' i j = (let t := fmul rnd alpha (fold_left (fun s l => fadd rnd s (fmul rnd (cm k m a l i) (nth (bpos l j) b z0))) (seq 0 k) z0) in
           if Reqb beta 0 then t else fadd rnd t (fmul rnd beta (cm m n c i j)))) /\
      (forall p, (m * n <= p)%nat -> nth p c' z0 = nth p c z0).
  Proof.
    intros HA HC HB. unfold fp_gemm_T.
    set (dot := fun i j => fold_left (fun s l => fadd rnd s (fmul rnd (cm k m a l i) (nth (bpos l j) b z0))) (seq 0 k) z0).
    set (h := fun i j (x : F) => let t := fmul rnd alpha (dot i j) in if Reqb beta 0 then t else fadd rnd t (fmul rnd beta x)).
    apply (cols_sweep (F := Rscalar) m n h); auto.
    intros j c' Hj L E0.
    destruct (col_sweep (F := Rscalar) m n j (fun i x => h i j x)
      (fun i c => temp <- for_n k (fun l temp =>
          ali <- rd a (COLMAJOR l i k m) ;;
          blj <- rd b (bpos l j) ;;
          Ok (fadd rnd temp (fmul rnd ali blj))) z0 ;;
        if keqb beta z0 then wr c (COLMAJOR i j m n) (fmul rnd alpha temp)
        else upd c (COLMAJOR i j m n) (fun x => fadd rnd (fmul rnd alpha temp) (fmul rnd beta x))) c') as (c3 & E3 & L3 & V3 & O3 & U3).
    - auto.
    - rewrite L; auto.
    - intros i c2 Hi L2 e2.
      assert (COLMAJOR i j m n < m * n)%nat by (apply colmajor_lt; lia).
      assert (Hdot : for_n k (fun l temp =>
          ali <- rd a (COLMAJOR l i k m) ;;
          blj <- rd b (bpos l j) ;;
          Ok (fadd rnd temp (fmul rnd ali blj))) z0 = Ok (dot i j)).
      { apply wp_eq. apply (for_n_inv (fun q t => t = fold_left (fun s l => fadd rnd s (fmul rnd (cm k m a l i) (nth (bpos l j) b z0))) (seq 0 q) z0)); [auto|].
        intros l t Hl ->. assert (COLMAJOR l i k m < k * m)%nat by (apply colmajor_lt; lia).
        rewrite (rd_ok a _ z0) by nia. cbn [bind]. rewrite (rd_ok b _ z0) by auto. cbn [bind]. apply wp_ok. eexists. split; [reflexivity|]. rewrite seq_S, fold_left_app. reflexivity. }
      rewrite Hdot. cbn [bind]. unfold h. cbv zeta. change (keqb beta z0) with (Reqb beta 0). destruct (Reqb beta 0).
      + apply wr_ok. lia.
      + rewrite (upd_ok (F := Rscalar)) by lia. rewrite e2. auto.
    - exists c3. split; [exact E3|]. split; [auto|]. split; [|split; auto].
      intros i Hi. rewrite V3 by auto. rewrite E0 by auto. auto.
  Qed.

  Theorem fp_gemm_ok ta tb m n k (alpha : F) (a b : list F) (beta : F) (c : list F) :
    ta <> TrOther -> tb <> TrOther ->
    (m * k <= length a)%nat -> (k * n <= length b)%nat -> (m * n <= length c)%nat ->
    let lda := Nat.max 1 (if is_N ta then m else k) in
    let ldb := Nat.max 1 (if is_N tb then k else n) in
    let A := opm (F := Rscalar) (fun x => x) ta (colm lda a) in
    let B := opm (F := Rscalar) (fun x => x) tb (colm ldb b) in
    exists c', fp_gemm rnd ta tb m n k alpha a lda b ldb beta c (Nat.max 1 m) = Ok c' /\ length c' = length c /\
      forall i j, (i < m)%nat -> (j < n)%nat ->
         Rabs (colm m c' i j - (alpha * bigsum k (fun l => A i l * B l j) + beta * colm m c i j)) <=
         gam u (k + 3) * (Rabs alpha * bigsum k (fun l => Rabs (A i l) * Rabs (B l j)) + Rabs beta * Rabs (colm m c i j) +
           (INR (2 * k) * (1 + Rabs alpha) + 3 + bigsum k (fun l => Rabs (A i l))) * lam).
  Proof.
    intros Hta Htb HA HB HC lda ldb A B.
    assert (X : exists c', fp_gemm rnd ta tb m n k alpha a lda b ldb beta c (Nat.max 1 m) = Ok c' /\ length c' = length c /\
      forall i j, (i < m)%nat -> (j < n)%nat ->
         close (k + 3) (alpha * bigsum k (fun l => A i l * B l j) + beta * colm m c i j) (colm m c' i j)
         (Rabs alpha * bigsum k (fun l => Rabs (A i l) * Rabs (B l j)) + Rabs beta * Rabs (colm m c i j) +
           (INR (2 * k) * (1 + Rabs alpha) + 3 + bigsum k (fun l => Rabs (A i l))) * lam)).
    2:{ destruct X as (c' & E & L & V). exists c'. split; auto. split; auto. intros i j Hi Hj. apply (V i j Hi Hj). }
    pose proof (lam_pos u lam rnd Hr) as HL.
    assert (PB : forall i, 3 <= INR (2 * k) * (1 + Rabs alpha) + 3 + bigsum k (fun l => Rabs (A i l))).
    { intros i. assert (Q : forall q, 0 <= bigsum q (fun l => Rabs (A i l))).
      { induction q as [|q IH]; [apply Rle_refl|]. cbn [Spec.bigsum]. apply Rplus_le_le_0_compat; [exact IH|apply Rabs_pos]. }
      specialize (Q k). pose proof (pos_INR (2 * k)). pose proof (Rabs_pos alpha). assert (0 <= INR (2 * k) * (1 + Rabs alpha)) by (apply Rmult_le_pos; lra).
      change (K Rscalar) with R in *. lra. }
    assert (PL : forall i m', m' + lam <= m' + (INR (2 * k) * (1 + Rabs alpha) + 3 + bigsum k (fun l => Rabs (A i l))) * lam).
    { intros i m'. specialize (PB i). apply Rplus_le_compat_l. rewrite <- (Rmult_1_l lam) at 1. apply Rmult_le_compat_r; auto. change (K Rscalar) with R in *. lra. }
    assert (PL0 : forall i m', m' <= m' + (INR (2 * k) * (1 + Rabs alpha) + 3 + bigsum k (fun l => Rabs (A i l))) * lam).
    { intros i m'. specialize (PL i m'). change (K Rscalar) with R in *. lra. }
    unfold fp_gemm.
    replace (bad_trans ta) with false by (destruct ta; simpl; congruence).
    replace (bad_trans tb) with false by (destruct tb; simpl; congruence).
    destruct (Nat.ltb_spec lda (Nat.max 1 (if is_N ta then m else k))); [unfold lda in *; lia|].
    destruct (Nat.ltb_spec ldb (Nat.max 1 (if is_N tb then k else n))); [unfold ldb in *; lia|].
    rewrite Nat.ltb_irrefl. cbn [orb]. change (keqb alpha k0) with (Reqb alpha 0). change (keqb beta k1) with (Reqb beta 1).
    destruct (((m =? 0)%nat || (n =? 0)%nat) || ((Reqb alpha 0 || (k =? 0)%nat) && Reqb beta 1))%bool eqn:Q.
    { exists c. split; [auto|]. split; [auto|].
      intros i j Hi Hj. apply Bool.orb_true_iff in Q as [Q|Q].
      - apply Bool.orb_true_iff in Q as [Q|Q]; apply Nat.eqb_eq in Q; lia.
      - apply Bool.andb_true_iff in Q as [Q Q1]. apply Reqb_spec in Q1.
        assert (Z : forall z : R, alpha * bigsum k (fun l => A i l * B l j) = 0 /\ Rabs alpha * bigsum k (fun l => Rabs (A i l) * Rabs (B l j)) = 0).
        { intros _. apply Bool.orb_true_iff in Q as [Q|Q].
          - apply Reqb_spec in Q. rewrite Q, Rabs_R0. split; apply Rmult_0_l.
          - apply Nat.eqb_eq in Q. clear - Q. subst k. split; apply Rmult_0_r. }
        destruct (Z 0) as [Z1 Z2]. specialize (PL0 i). revert PL0. generalize (INR (2 * k) * (1 + Rabs alpha) + 3 + bigsum k (fun l => Rabs (A i l))). intros tl PL0. rewrite Z1, Z2, Q1, Rabs_R1, !Rmult_1_l, !Rplus_0_l.
        apply (close_mono u lam rnd Hr 0); [lia|]. eapply close_wider; [exact Hr|apply close_exact|auto]. }
    apply Bool.orb_false_iff in Q as [Q Q2]. apply Bool.orb_false_iff in Q as [Qm Qn].
    apply Nat.eqb_neq in Qm, Qn.
    destruct (Reqb alpha 0) eqn:A0.
    { apply Reqb_spec in A0. destruct (fp_gemm_alpha0_ok rnd m n beta c) as (c' & E & L & V); auto. exists c'. split; auto. split; auto.
      intros i j Hi Hj. specialize (PL i). specialize (PL0 i). revert PL PL0. generalize (INR (2 * k) * (1 + Rabs alpha) + 3 + bigsum k (fun l => Rabs (A i l))). intros tl PL PL0.
      rewrite A0, Rabs_R0, !Rmult_0_l, !Rplus_0_l. specialize (V i j Hi Hj). unfold COLMAJOR in V. unfold colm. rewrite V.
      destruct (Reqb beta 0) eqn:E0.
      - apply Reqb_spec in E0. rewrite E0, Rabs_R0, !Rmult_0_l. eapply close_wider; [exact Hr|apply close_0|auto].
      - apply (close_mono u lam rnd Hr 1); [lia|]. eapply close_wider; [exact Hr|apply close_1; exact Hr|auto]. }
    set (bpos := if is_N tb then fun l j => COLMAJOR l j k n else fun l j => COLMAJOR j l n k).
    assert (HB' : forall l j, (l < k)%nat -> (j < n)%nat -> (bpos l j < length b)%nat).
    { intros l j Hl Hj. unfold bpos. destruct (is_N tb); unfold COLMAJOR; nia. }
    assert (HBv : forall l j, (l < k)%nat -> (j < n)%nat -> nth (bpos l j) b z0 = B l j).
    { intros l j Hl Hj. unfold bpos, B, ldb, opm, colm, mtrans, COLMAJOR.
      destruct tb; simpl is_N; cbv iota beta; try congruence; rewrite Nat.max_r by lia; auto. }
    assert (sc : forall (al : R) (f : nat -> R) q, al * bigsum q f = sumf (fun l => al * f l) (seq 0 q)).
    { intros al f q. rewrite sumf_seq. induction q as [|q IH]; [apply Rmult_0_r|]. cbn [Spec.bigsum]. change (@kadd Rscalar) with Rplus. rewrite Rmult_plus_distr_l, IH. auto. }
    destruct (is_N ta) eqn:NA.
    - destruct (fp_gemm_N_ok rnd bpos m n k alpha a b beta c) as (c' & E & L & V & _); auto.
      exists c'. split; [auto|]. split; [auto|].
      intros i j Hi Hj. specialize (V i j Hi Hj). unfold colm at 2. unfold COLMAJOR in V. rewrite V.
      rewrite !sc. rewrite (Rplus_comm (sumf _ _)).
      assert (SL : (Rabs beta * Rabs (colm m c i j) + lam) + sumf (fun l => ((Rabs alpha * Rabs (B l j) + lam) * Rabs (A i l) + lam) + lam) (seq 0 k) <=
         sumf (fun l => Rabs alpha * (Rabs (A i l) * Rabs (B l j))) (seq 0 k) + Rabs beta * Rabs (colm m c i j) + (INR (2 * k) * (1 + Rabs alpha) + 3 + bigsum k (fun l => Rabs (A i l))) * lam).
      { rewrite <- (sumf_seq (fun l => Rabs (A i l))).
        rewrite (sumf_ext _ (fun l => Rabs alpha * (Rabs (A i l) * Rabs (B l j)) + (Rabs (A i l) * lam + 2 * lam))) by (intros; ring).
        rewrite !sumf_plus, sumf_const, seq_length.
        assert (SC : forall l, sumf (fun q => Rabs (A i q) * lam) l = sumf (fun q => Rabs (A i q)) l * lam) by (induction l as [|q l IH]; cbn [sumf]; [ring|rewrite IH; ring]).
        rewrite SC, mult_INR. simpl (INR 2). pose proof (pos_INR k). pose proof (Rabs_pos alpha).
        assert (0 <= INR k * Rabs alpha * lam) by (repeat apply Rmult_le_pos; auto). nra. }
      eapply close_wider; [exact Hr| |exact SL].
      eapply close_mono; [exact Hr| |apply (close_fold u lam rnd Hr _ _ (fun l => (Rabs alpha * Rabs (B l j) + lam) * Rabs (A i l) + lam) 2 (seq 0 k) 1)].
      + rewrite seq_length. lia.
      + intros l Hl. apply in_seq in Hl. cbv beta.
        assert (EA : nth (i + l * m)%nat a z0 = A i l).
        { unfold A, lda. destruct ta; try discriminate. unfold opm, colm. cbn [is_N]. rewrite Nat.max_r by lia. auto. }
        rewrite EA, HBv by lia.
        replace (alpha * (A i l * B l j)) with (alpha * B l j * A i l) by ring.
        apply (close_mul u lam rnd Hr 1 0); [apply close_1; auto|apply close_exact].
      + apply prep_close. auto.
    - destruct (fp_gemm_T_ok bpos m n k alpha a b beta c) as (c' & E & L & V & _); auto.
      exists c'. split; [auto|]. split; [auto|].
      intros i j Hi Hj. specialize (V i j Hi Hj). unfold colm at 2. unfold COLMAJOR in V. rewrite V. cbv zeta.
      assert (D : close (1 + k) (bigsum k (fun l => A i l * B l j))
         (fold_left (fun s l => fadd rnd s (fmul rnd (nth (l + i * k)%nat a z0) (nth (bpos l j) b z0))) (seq 0 k) z0)
         (bigsum k (fun l => Rabs (A i l) * Rabs (B l j)) + INR (2 * k) * lam)).
      { rewrite <- !sumf_seq. rewrite <- (Rplus_0_l (sumf (fun l => A i l * B l j) _)).
        replace (sumf (fun l => Rabs (A i l) * Rabs (B l j)) (seq 0 k) + INR (2 * k) * lam) with (0 + sumf (fun l => (Rabs (A i l) * Rabs (B l j) + lam) + lam) (seq 0 k))
          by (rewrite !sumf_plus, !sumf_const, seq_length, mult_INR; simpl (INR 2); ring).
        eapply close_mono; [exact Hr| |apply (close_fold u lam rnd Hr _ _ (fun l => Rabs (A i l) * Rabs (B l j) + lam) 1 (seq 0 k) 0)].
        - rewrite seq_length. lia.
        - intros l Hl. apply in_seq in Hl. cbv beta.
          assert (EA : nth (l + i * k)%nat a z0 = A i l).
          { unfold A, lda. destruct ta; try discriminate; try congruence; unfold opm, colm, mtrans; cbn [is_N]; rewrite Nat.max_r by lia; auto. }
          rewrite EA, HBv by lia. apply close_1; auto.
        - apply close_0. }
      pose proof (close_mul u lam rnd Hr 0 (1 + k) _ _ _ _ _ _ (close_exact u alpha) D) as M.
      set (S := bigsum k (fun l => Rabs (A i l) * Rabs (B l j))) in *. set (SA := bigsum k (fun l => Rabs (A i l))) in *.
      assert (HSA : 0 <= SA).
      { unfold SA. clearbody A. clear. induction k as [|q IH]; [apply Rle_refl|]. cbn [Spec.bigsum]. apply Rplus_le_le_0_compat; [exact IH|apply Rabs_pos]. }
      assert (P3 : 0 <= SA * lam) by (apply Rmult_le_pos; auto). assert (P4 : 0 <= INR (2 * k) * lam) by (apply Rmult_le_pos; auto; apply pos_INR).
      destruct (Reqb beta 0) eqn:E0.
      + apply Reqb_spec in E0. rewrite E0, Rabs_R0, !Rmult_0_l, !Rplus_0_r. eapply close_mono; [exact Hr| |eapply close_wider; [exact Hr|exact M|]]; [lia|].
        change (K Rscalar) with R in *. nra.
      + eapply close_mono; [exact Hr| |eapply close_wider; [exact Hr|apply (close_add u lam rnd Hr _ 1 _ _ _ _ _ (Rabs beta * Rabs (colm m c i j) + lam) M); apply (close_1 u lam rnd Hr)|]]; [lia|].
        change (K Rscalar) with R in *. nra.
  Qed.
End FpGemm.
