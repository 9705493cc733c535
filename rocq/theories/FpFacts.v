(** Error bounds for the kernels with rounding. *)
From Coq Require Import Reals Lra Permutation.
From Verif Require Import Base BaseFacts Spec SpecFacts EllpackModel EllpackSpec EllpackFacts EllpackOps EllpackArith EllpackMul
  GemmModel GemmFacts DenseModel DenseSpec DenseOps RealSpec FpModel FpSpec.
Local Open Scope R_scope.

Section FpFacts.
  Variables (u lam : R) (rnd : R -> R).
  Hypothesis Hr : rounds u lam rnd.

  (** [y] is [x] up to [k] roundings of quantities of size [m] *)
  Definition close (k : nat) (x y m : R) : Prop := Rabs (y - x) <= gam u k * m /\ Rabs x <= m.

  Lemma u_pos : 0 <= u. Proof. apply Hr. Qed.
  Lemma lam_pos : 0 <= lam. Proof. apply Hr. Qed.
  Lemma rnd_err x : Rabs (rnd x - x) <= u * (Rabs x + lam).
  Proof.
    destruct Hr as (Hu & Hl & H). eapply Rle_trans; [apply H|]. apply Rmult_le_compat_l; auto. pose proof (Rabs_pos x). apply Rmax_lub; lra.
  Qed.
  Lemma pow_ge1 k : 1 <= (1 + u) ^ k.
  Proof. apply pow_R1_Rle. pose proof u_pos. lra. Qed.
  Lemma gam_pos k : 0 <= gam u k.
  Proof. unfold gam. pose proof (pow_ge1 k). lra. Qed.
  Lemma gam_mono k k' : (k <= k')%nat -> gam u k <= gam u k'.
  Proof. intros H. unfold gam. pose proof (Rle_pow (1 + u) k k'). pose proof u_pos. assert ((1 + u) ^ k <= (1 + u) ^ k') by (apply H0; auto; lra). lra. Qed.
  Lemma close_size k x y m : close k x y m -> 0 <= m.
  Proof. intros [_ H]. eapply Rle_trans; [apply Rabs_pos|exact H]. Qed.
  Lemma close_mono k k' x y m : (k <= k')%nat -> close k x y m -> close k' x y m.
  Proof.
    intros Hk H. pose proof (close_size _ _ _ _ H). destruct H as [H1 H2]. split; auto. eapply Rle_trans; [exact H1|].
    apply Rmult_le_compat_r; auto. apply gam_mono; auto.
  Qed.
  Lemma close_exact x : close 0 x x (Rabs x).
  Proof. split; [|lra]. unfold gam. simpl. unfold Rminus. rewrite !Rplus_opp_r, Rabs_R0. lra. Qed.
  Lemma close_0 k : close k 0 0 0.
  Proof. split; [|rewrite Rabs_R0; lra]. unfold Rminus. rewrite Rplus_opp_r, Rabs_R0. lra. Qed.
  Lemma close_wider k x y m m' : close k x y m -> m <= m' -> close k x y m'.
  Proof.
    intros [H1 H2] H. split; [|lra]. eapply Rle_trans; [exact H1|]. apply Rmult_le_compat_l; auto. apply gam_pos.
  Qed.

  (** one rounding *)
  Lemma close_rnd k x y m : close k x y m -> close (S k) x (rnd y) (m + lam).
  Proof.
    intros H. pose proof (close_size _ _ _ _ H) as Hm. destruct H as [H1 H2]. pose proof lam_pos as Hl. split; [|lra]. pose proof u_pos as Hu.
    pose proof (rnd_err y) as HE. assert (Ay : Rabs y <= m + gam u k * m).
    { replace y with (x + (y - x)) by ring. eapply Rle_trans; [apply Rabs_triang|]. lra. }
    assert (Rabs (rnd y - x) <= u * (Rabs y + lam) + gam u k * m).
    { replace (rnd y - x) with ((rnd y - y) + (y - x)) by ring. eapply Rle_trans; [apply Rabs_triang|]. lra. }
    eapply Rle_trans; [exact H|]. pose proof (pow_ge1 k) as P. unfold gam in *. simpl.
    assert (u * (Rabs y + lam) <= u * (m + ((1 + u) ^ k - 1) * m + lam)) by (apply Rmult_le_compat_l; lra).
    assert (u * lam <= ((1 + u) * (1 + u) ^ k - 1) * lam) by (apply Rmult_le_compat_r; nra). nra.
  Qed.
  Lemma close_add k k' x y m x' y' m' : close k x y m -> close k' x' y' m' ->
    close (S (Nat.max k k')) (x + x') (fadd rnd y y') (m + m' + lam).
  Proof.
    intros H H'. apply close_rnd. apply (close_mono _ (Nat.max k k')) in H; [|lia]. apply (close_mono _ (Nat.max k k')) in H'; [|lia].
    destruct H as [H1 H2], H' as [H1' H2']. split.
    - change (Rabs ((y + y') - (x + x')) <= gam u (Nat.max k k') * (m + m')). replace (y + y' - (x + x')) with ((y - x) + (y' - x')) by ring.
      eapply Rle_trans; [apply Rabs_triang|]. lra.
    - eapply Rle_trans; [apply Rabs_triang|]. lra.
  Qed.
  Lemma close_mul k k' x y m x' y' m' : close k x y m -> close k' x' y' m' ->
    close (S (k + k')) (x * x') (fmul rnd y y') (m * m' + lam).
  Proof.
    intros H H'. apply close_rnd. pose proof (close_size _ _ _ _ H) as Hm. pose proof (close_size _ _ _ _ H') as Hm'.
    destruct H as [H1 H2], H' as [H1' H2']. split.
    - change (Rabs (y * y' - x * x') <= gam u (k + k') * (m * m')).
      replace (y * y' - x * x') with ((y - x) * (y' - x') + (y - x) * x' + x * (y' - x')) by ring.
      eapply Rle_trans; [apply Rabs_triang|]. eapply Rle_trans; [apply Rplus_le_compat_r, Rabs_triang|].
      rewrite !Rabs_mult. pose proof (Rabs_pos (y - x)). pose proof (Rabs_pos (y' - x')). pose proof (Rabs_pos x). pose proof (Rabs_pos x').
      pose proof (gam_pos k) as G. pose proof (gam_pos k') as G'.
      assert (Rabs (y - x) * Rabs (y' - x') <= (gam u k * m) * (gam u k' * m')) by (apply Rmult_le_compat; auto).
      assert (Rabs (y - x) * Rabs x' <= (gam u k * m) * m') by (apply Rmult_le_compat; auto).
      assert (Rabs x * Rabs (y' - x') <= m * (gam u k' * m')) by (apply Rmult_le_compat; auto).
      assert (E : gam u (k + k') = gam u k * gam u k' + gam u k + gam u k') by (unfold gam; rewrite pow_add; ring).
      rewrite E. nra.
    - rewrite Rabs_mult. apply Rmult_le_compat; auto using Rabs_pos.
  Qed.

  (** ** Sums *)
  Section Sums.
    Context {X : Type}.
    Fixpoint sumf (x : X -> R) (l : list X) : R := match l with [] => 0 | a :: l => x a + sumf x l end.
    Lemma sumf_app x l l' : sumf x (l ++ l') = sumf x l + sumf x l'.
    Proof. induction l; simpl; [ring|rewrite IHl; ring]. Qed.
    Lemma sumf_perm x l l' : Permutation l l' -> sumf x l = sumf x l'.
    Proof. induction 1; simpl; lra. Qed.
    Lemma sumf_ext x y l : (forall a, In a l -> x a = y a) -> sumf x l = sumf y l.
    Proof. induction l; simpl; auto. intros H. rewrite H by auto. rewrite IHl; auto. Qed.
    Lemma sumf_plus x y l : sumf (fun a => x a + y a) l = sumf x l + sumf y l.
    Proof. induction l; simpl; [ring|rewrite IHl; ring]. Qed.

    Lemma sumf_const c l : sumf (fun _ => c) l = INR (length l) * c.
    Proof. induction l as [|a l IH]; cbn [sumf length]; [simpl; ring|rewrite IH, S_INR; ring]. Qed.

    Lemma close_fold (x y m : X -> R) k l n sx sy sm : (forall a, In a l -> close k (x a) (y a) (m a)) -> close n sx sy sm ->
      close (Nat.max n k + length l) (sx + sumf x l) (fold_left (fun s a => fadd rnd s (y a)) l sy) (sm + sumf (fun a => m a + lam) l).
    Proof.
      revert n sx sy sm. induction l as [|a l IH]; intros n sx sy sm H Hs; simpl.
      - rewrite !Rplus_0_r. eapply close_mono; [|exact Hs]. lia.
      - rewrite <- !Rplus_assoc. replace (sm + m a + lam + sumf (fun a => m a + lam) l) with ((sm + m a + lam) + sumf (fun a => m a + lam) l) by ring.
        eapply close_mono; [|apply (IH (S (Nat.max n k))); [intros; apply H; right; auto|apply close_add; [exact Hs|apply H; left; auto]]]. lia.
    Qed.
  End Sums.
  Lemma sumf_map {X Y} (g : X -> Y) (x : Y -> R) l : sumf x (map g l) = sumf (fun a => x (g a)) l.
  Proof. induction l; simpl; auto. rewrite IHl. auto. Qed.
  Lemma sumf_flat_map {X Y} (g : X -> list Y) (x : Y -> R) l : sumf x (flat_map g l) = sumf (fun a => sumf x (g a)) l.
  Proof. induction l; simpl; auto. rewrite sumf_app, IHl. auto. Qed.
  Lemma sumf_seq (x : nat -> R) n : sumf x (seq 0 n) = bigsum (F := Rscalar) n x.
  Proof. induction n; [auto|]. rewrite seq_S, sumf_app, IHn. simpl. ring. Qed.

  (** the iterations of a thread *)
  Definition mine (t : nat) (sched : list (nat * nat)) : list nat := map snd (filter (fun p => fst p =? t)%nat sched).

  Lemma sumf_pick (ord : list nat) t (v : R) : NoDup ord -> In t ord -> sumf (fun t' => if (t =? t')%nat then v else 0) ord = v.
  Proof.
    induction 1 as [|a l Ha Hn IH]; simpl; [tauto|]. intros [->|Hin].
    - rewrite Nat.eqb_refl. assert (E : sumf (fun t' => if (t =? t')%nat then v else 0) l = 0).
      { clear -Ha. induction l as [|b l IH]; simpl; auto. destruct (Nat.eqb_spec t b); [subst; exfalso; apply Ha; left; auto|]. rewrite IH; [ring|]. intros H; apply Ha; right; auto. }
      rewrite E. ring.
    - destruct (Nat.eqb_spec t a) as [->|]; [contradiction|]. rewrite IH by auto. ring.
  Qed.
  Lemma sumf_mine (z : nat -> R) (ord : list nat) sched : NoDup ord -> (forall t i, In (t, i) sched -> In t ord) ->
    sumf (fun t => sumf z (mine t sched)) ord = sumf z (map snd sched).
  Proof.
    intros Hn. induction sched as [|[t i] sched IH]; intros H.
    - simpl. clear. induction ord; simpl; auto. rewrite IHord. ring.
    - cbn [map snd sumf]. rewrite <- IH by (intros; eapply H; right; eauto).
      rewrite <- (sumf_pick ord t (z i)) at 1; [|auto|eapply H; left; eauto]. rewrite <- sumf_plus. apply sumf_ext. intros t' _.
      unfold mine. simpl. destruct (Nat.eqb_spec t t'); simpl; ring.
  Qed.
  Lemma mine_len {X} (g : nat -> list X) t sched : (length (flat_map g (mine t sched)) <= length (flat_map g (map snd sched)))%nat.
  Proof.
    induction sched as [|[t' i] sched IH]; simpl; auto. unfold mine in *. simpl. destruct (t' =? t)%nat; simpl; rewrite ?app_length; lia.
  Qed.

  (** ** Reductions *)
  Lemma par_steps {S W} (sched : list (nat * nat)) (body : nat -> S * W -> res (S * W)) (step : nat -> W -> W) s (w0 : nat -> W) :
    (forall i w, In i (map snd sched) -> body i (s, w) = Ok (s, step i w)) ->
    exists w, par_for sched body s w0 = Ok (s, w) /\ forall t, w t = fold_left (fun v i => step i v) (mine t sched) (w0 t).
  Proof.
    revert w0. induction sched as [|[t i] sched IH]; intros w0 H; simpl.
    - exists w0. auto.
    - rewrite H by (simpl; auto). cbn [bind]. destruct (IH (upd_fun w0 t (step i (w0 t)))) as (w & E & V); [intros; apply H; simpl; auto|].
      exists w. split; auto. intros t'. rewrite V. unfold mine, upd_fun. cbn [filter fst].
      destruct (Nat.eqb_spec t' t) as [->|Hn]; [rewrite Nat.eqb_refl; auto|]. destruct (Nat.eqb_spec t t'); [congruence|auto].
  Qed.

  Lemma fold_flat {X} (y : X -> R) (g : nat -> list X) l s :
    fold_left (fun v i => fold_left (fun v a => fadd rnd v (y a)) (g i) v) l s = fold_left (fun v a => fadd rnd v (y a)) (flat_map g l) s.
  Proof. revert s. induction l; simpl; auto. intros s. rewrite fold_left_app. auto. Qed.

  Lemma reduction_close {X} (g : nat -> list X) (x y m : X -> R) k L n nth ord sched (w : nat -> R) :
    full_sched n nth sched -> Permutation ord (seq 0 nth) ->
    (forall i a, (i < n)%nat -> In a (g i) -> close k (x a) (y a) (m a)) -> (length (flat_map g (seq 0 n)) <= L)%nat ->
    (forall t, w t = fold_left (fun v i => fold_left (fun v a => fadd rnd v (y a)) (g i) v) (mine t sched) 0) ->
    close (k + L + nth) (bigsum (F := Rscalar) n (fun i => sumf x (g i))) (fp_reduce rnd ord w)
      (bigsum (F := Rscalar) n (fun i => sumf m (g i)) + INR (L + nth) * lam).
  Proof.
    intros [HP HT] HO HC HL HW.
    assert (HB : forall t i, In (t, i) sched -> In t ord).
    { intros t i H. eapply Permutation_in; [symmetry; exact HO|]. apply in_seq. apply HT in H. lia. }
    assert (HD : NoDup ord) by (eapply Permutation_NoDup; [symmetry; exact HO|apply seq_NoDup]).
    assert (E : forall z : X -> R, bigsum (F := Rscalar) n (fun i => sumf z (g i)) = 0 + sumf (fun t => sumf z (flat_map g (mine t sched))) ord).
    { intros z. rewrite <- sumf_seq, Rplus_0_l. rewrite <- (sumf_perm _ _ _ HP). rewrite <- (sumf_mine _ ord sched) by auto.
      apply sumf_ext. intros t _. rewrite sumf_flat_map. auto. }
    assert (HLn : length ord = nth) by (rewrite (Permutation_length HO); apply seq_length).
    set (m' := fun a => m a + lam).
    assert (EM : bigsum (F := Rscalar) n (fun i => sumf m' (g i)) + INR nth * lam <= bigsum (F := Rscalar) n (fun i => sumf m (g i)) + INR (L + nth) * lam).
    { rewrite <- !sumf_seq, <- !sumf_flat_map. unfold m'. rewrite sumf_plus, sumf_const, plus_INR. apply le_INR in HL. pose proof lam_pos.
      assert (INR (length (flat_map g (seq 0 n))) * lam <= INR L * lam) by (apply Rmult_le_compat_r; auto). lra. }
    eapply close_wider; [|exact EM]. rewrite !E. unfold fp_reduce.
    replace (0 + sumf (fun t => sumf m' (flat_map g (mine t sched))) ord + INR nth * lam)
      with (0 + sumf (fun t => sumf m' (flat_map g (mine t sched)) + lam) ord) by (rewrite sumf_plus, sumf_const, HLn; ring).
    eapply close_mono; [|apply (close_fold (fun t => sumf x (flat_map g (mine t sched))) w (fun t => sumf m' (flat_map g (mine t sched))) (k + L)); [|apply (close_0 0)]]; [lia|].
    intros t _. rewrite HW, fold_flat. rewrite <- (Rplus_0_l (sumf x _)), <- (Rplus_0_l (sumf m' _)).
    eapply close_mono; [|apply (close_fold x y m k); [|apply (close_0 0)]].
    - pose proof (mine_len g t sched). rewrite (Permutation_length (Permutation_flat_map g HP)) in H. lia.
    - intros a Ha. apply in_flat_map in Ha as (i & Hi & Ha). apply (HC i); auto. unfold mine in Hi. apply in_map_iff in Hi as ([t' i'] & <- & Hi).
      apply filter_In in Hi as [Hi _]. assert (In i' (seq 0 n)) by (eapply Permutation_in; [exact HP|]; apply in_map_iff; exists (t', i'); auto). apply in_seq in H. simpl. lia.
  Qed.
End FpFacts.

(** the usual first order form *)
Lemma gam_first_order u k : 0 <= u -> INR k * u < 1 -> gam u k <= INR k * u / (1 - INR k * u).
Proof.
  intros Hu Hk.
  assert (X : forall k, (1 + u) ^ k * (1 - INR k * u) <= 1).
  { clear k Hk. induction k as [|k IH]; [simpl; lra|]. rewrite S_INR. simpl pow.
    assert (P : 0 < (1 + u) ^ k) by (apply pow_lt; lra).
    assert (Q : (1 + u) * (1 - (INR k + 1) * u) <= 1 - INR k * u) by (pose proof (pos_INR k); nra).
    replace ((1 + u) * (1 + u) ^ k * (1 - (INR k + 1) * u)) with ((1 + u) ^ k * ((1 + u) * (1 - (INR k + 1) * u))) by ring. nra. }
  specialize (X k). unfold gam. apply Rmult_le_reg_r with (1 - INR k * u); [lra|]. unfold Rdiv. rewrite Rmult_assoc, Rinv_l by lra. lra.
Qed.
