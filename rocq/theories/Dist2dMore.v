(** Transpose, rows, sums, constructors, import and export of distributed matrices. *)
From Verif Require Import Base BaseFacts Spec SpecFacts EllpackModel EllpackSpec EllpackFacts EllpackOps EllpackExact EllpackRest EllpackMul2 EllpackNorm
  CsrModel CsrSpec CsrFacts CsrOps CsrMore CsrTop CsrHash CsrRoom
  GemmModel DenseModel DenseSpec DenseFacts DenseOps FormatModel FormatSpec FormatFacts FormatHistModel FormatHistSpec FormatHist
  MpiModel MpiSpec MpiFacts MpiRun Dist2dModel Dist2dSpec Dist2dLocal Dist2dFacts Dist2dCannon Dist2dOps.
From Coq Require Import Ring.

Section DistMore.
  Context {F : scalar}.
  Local Notation bmat := (bmat F).
  Local Notation env := (env F).
  Local Notation dist := (dist F).
  Local Open Scope K_scope.
  Add Ring Kringd4 : (k_ring F).

  (** ** Transpose *)
  Section Transpose.
    Variables (t : fmt) (p n m N M : nat) (nz : F -> bool) (E : nat -> nat -> env) (A : mat F) (a0 : nat -> bmat).
    Hypothesis Hp : (0 < p)%nat.
    Hypothesis Hn : (0 < n)%nat.
    Hypothesis HN : N = (p * n)%nat.
    Hypothesis Hm : m = (M / p)%nat.
    Hypothesis Hnz : keeps_nonzero nz.
    Hypothesis HE : forall r k, (r < p * p)%nat -> good_schedules n (E r k).
    Local Notation row := (cart_row p).
    Local Notation col := (cart_col p).

    Lemma transpose_new_valid : Forall (valid (p * p)) (dist_transpose_new nz p N M E).
    Proof. constructor; [exact I|]. constructor; [apply exchange_matched|]. constructor; [exact I|constructor]. Qed.
    Lemma transpose_valid : Forall (valid (p * p)) (dist_transpose nz p N M E).
    Proof. constructor; [exact I|]. constructor; [apply exchange_matched|]. constructor; [exact I|constructor]. Qed.

    Lemma transpose_new_hoare : hoare (p * p) (fun r s => uA s = a0 r /\ part_of t p n m A r (uA s)) (dist_transpose_new nz p N M E)
      (fun r s => uA s = a0 r /\ part_of t p n m (mtrans A) r (uB s)).
    Proof.
      eapply hoare_cons with (Mid := fun r s => uA s = a0 r /\ part_of t p n m A r (uA s) /\ part_of t p n m A r (uB s)).
      - apply hoare_local. intros r s Hr [HA HX].
        destruct (sh_dist_copy t p n m N M (uA s) _ (E r 0%nat) (E r 1%nat) Hn Hp HN Hm (HE r 1%nat Hr) HX) as (B & -> & HB).
        eexists. split; [reflexivity|]. auto.
      - eapply hoare_cons with (Mid := fun r s => uA s = a0 r /\ holds t n m (sub n (col r) (row r) A) (uB s)).
        + apply hoare_exch.
          * intros r s Hr Hg (HA & HX & HB). split; auto. destruct (Nat.eqb_spec (row r) (col r)) as [Q|]; [|discriminate]. unfold part_of in HB. rewrite Q in *. exact HB.
          * intros r s s' Hr Hs Hg (HA & HX & HB) (_ & HX' & _). unfold part_of in HX'. rewrite rank_row, rank_col in HX' by (apply row_lt, Hr).
            destruct (sh_receive t n m nz (uB s) _ _ Hnz (proj1 HB) HX') as (B & -> & HB'). eexists. split; [reflexivity|]. auto.
          * intros r Hr _. apply rank_lt; [apply col_lt, Hp|apply row_lt, Hr].
        + apply hoare_local. intros r s Hr [HA HX].
          destruct (sh_transpose t n m (uB s) _ (E r 2%nat) Hn (HE r 2%nat Hr) HX) as (B & -> & HB). eexists. split; [reflexivity|]. split; auto.
    Qed.
    Lemma transpose_hoare : hoare (p * p) (fun r s => part_of t p n m A r (uA s)) (dist_transpose nz p N M E)
      (fun r s => part_of t p n m (mtrans A) r (uA s)).
    Proof.
      eapply hoare_cons with (Mid := fun r s => part_of t p n m A r (uA s) /\ part_of t p n m A r (uB s)).
      - apply hoare_local. intros r s Hr HX.
        destruct (sh_dist_copy t p n m N M (uA s) _ (E r 0%nat) (E r 1%nat) Hn Hp HN Hm (HE r 1%nat Hr) HX) as (B & -> & HB).
        eexists. split; [reflexivity|]. auto.
      - eapply hoare_cons with (Mid := fun r s => holds t n m (sub n (col r) (row r) A) (uA s)).
        + apply hoare_exch.
          * intros r s Hr Hg (HX & HB). destruct (Nat.eqb_spec (row r) (col r)) as [Q|]; [|discriminate]. unfold part_of in HX. rewrite Q in *. exact HX.
          * intros r s s' Hr Hs Hg (HX & HB) (_ & HB'). unfold part_of in HB'. rewrite rank_row, rank_col in HB' by (apply row_lt, Hr).
            destruct (sh_receive t n m nz (uA s) _ _ Hnz (proj1 HX) HB') as (B & -> & HX'). eexists. split; [reflexivity|]. auto.
          * intros r Hr _. apply rank_lt; [apply col_lt, Hp|apply row_lt, Hr].
        + apply hoare_local. intros r s Hr HX.
          destruct (sh_transpose t n m (uA s) _ (E r 2%nat) Hn (HE r 2%nat Hr) HX) as (B & -> & HB). eexists. split; [reflexivity|]. exact HB.
    Qed.
  End Transpose.

  Lemma dist_transpose_new_ok t nz (A : dist) E : dist_ok t A -> dist_roomy A -> keeps_nonzero nz ->
    (forall r k, (r < tasks A)%nat -> good_schedules (tn A) (E r k)) ->
    exists s, always_ends (tasks A) (dist_transpose_new nz (tp A) (tN A) (tM A) E) (transpose_start A) s /\
      (forall r, (r < tasks A)%nat -> uA (s r) = blk A r) /\ becomes t A (gather A uB s) (mtrans (gmx A)).
  Proof.
    intros OA RA Hnz HE. pose proof OA as ((Hp & Hn & HN) & _).
    destruct (hoare_always_ends (tp A * tp A) _ _ _ (transpose_start A) (transpose_new_valid (tp A) (tN A) (tM A) nz E)
      (transpose_new_hoare t (tp A) (tn A) (tM A / tp A) (tN A) (tM A) nz E (gmx A) (blk A) Hp Hn HN eq_refl Hnz HE)) as (s & AE & PO).
    { intros r Hr. split; [reflexivity|]. apply (dist_parts t A OA RA r Hr). }
    exists s. split; [exact AE|]. split; [intros r Hr; apply (PO r Hr)|].
    destruct (parts_gather t A uB s (mtrans (gmx A))) as (O & R & M); auto; [intros r Hr; apply (PO r Hr)|].
    split; [exact O|]. split; [exact R|]. split; [repeat split|exact M].
  Qed.
  Lemma dist_transpose_ok t nz (A : dist) E : dist_ok t A -> dist_roomy A -> keeps_nonzero nz ->
    (forall r k, (r < tasks A)%nat -> good_schedules (tn A) (E r k)) ->
    exists s, always_ends (tasks A) (dist_transpose nz (tp A) (tN A) (tM A) E) (transpose_start A) s /\
      becomes t A (gather A uA s) (mtrans (gmx A)).
  Proof.
    intros OA RA Hnz HE. pose proof OA as ((Hp & Hn & HN) & _).
    destruct (hoare_always_ends (tp A * tp A) _ _ _ (transpose_start A) (transpose_valid (tp A) (tN A) (tM A) nz E)
      (transpose_hoare t (tp A) (tn A) (tM A / tp A) (tN A) (tM A) nz E (gmx A) Hp Hn HN eq_refl Hnz HE)) as (s & AE & PO).
    { intros r Hr. apply (dist_parts t A OA RA r Hr). }
    exists s. split; [exact AE|].
    destruct (parts_gather t A uA s (mtrans (gmx A))) as (O & R & M); auto.
    split; [exact O|]. split; [exact R|]. split; [repeat split|exact M].
  Qed.

  (** ** Sums *)
  Lemma allreduce_ok P order (v : list F) : Permutation order (seq 0 P) -> allreduce order v = bigsum P (fun r => nth r v 0).
  Proof.
    intros H. unfold allreduce. rewrite <- (lsum_rows _ P order H).
    assert (G : forall l a, fold_left (fun s r => s + nth r v 0) l a = a + lsum (map (fun r => nth r v 0) l)).
    { induction l as [|r l IH]; intros a; cbn [fold_left map]; [unfold lsum; cbn; ring|]. rewrite IH. unfold lsum. cbn [fold_right]. ring. }
    rewrite G. ring.
  Qed.
  Lemma summed_ok P order (f : nat -> res F) g : Permutation order (seq 0 P) -> (forall r, (r < P)%nat -> f r = Ok (g r)) ->
    summed P order f = Ok (bigsum P g).
  Proof.
    intros HP H. unfold summed. destruct (each_ok P f (fun r x => x = g r)) as (v & -> & HL & HV).
    { intros r Hr. exists (g r). auto. }
    cbn [bind]. rewrite (allreduce_ok P) by exact HP. f_equal. apply bigsum_ext. intros r Hr. apply HV, Hr.
  Qed.
  Lemma bigsum_grid p (g : nat -> nat -> F) : bigsum (p * p) (fun r => g (cart_row p r) (cart_col p r)) = bigsum p (fun I => bigsum p (fun J => g I J)).
  Proof.
    rewrite bigsum_flat. apply bigsum_ext. intros I HI. apply bigsum_ext. intros J HJ.
    change (I * p + J)%nat with (cart_rank p I J). rewrite rank_row, rank_col by exact HJ. reflexivity.
  Qed.
  Lemma msum_blocks p n (X : mat F) : msum (p * n) X = bigsum p (fun I => bigsum p (fun J => msum n (sub n I J X))).
  Proof.
    unfold msum. rewrite bigsum_blocks. apply bigsum_ext. intros I HI.
    rewrite (bigsum_ext n _ (fun i => bigsum p (fun J => bigsum n (fun j => X (I * n + i)%nat (J * n + j)%nat)))).
    - apply bigsum_swap.
    - intros i Hi. apply bigsum_blocks.
  Qed.
  Lemma mtrace_blocks p n (X : mat F) : mtrace (p * n) X = bigsum p (fun I => mtrace n (sub n I I X)).
  Proof. unfold mtrace. rewrite bigsum_blocks. reflexivity. Qed.

  Section Sums.
    Variables (t : fmt) (A : dist).
    Hypothesis OA : dist_ok t A.
    Hypothesis RA : dist_roomy A.
    Variables (E : nat -> env) (order : list nat).
    Hypothesis HE : forall r, (r < tasks A)%nat -> good_schedules (tn A) (E r).
    Hypothesis HO : Permutation order (seq 0 (tasks A)).
    Local Notation n := (tn A).
    Local Notation p := (tp A).
    Local Notation m := (tM A / tp A)%nat.

    Lemma dist_trace_ok : dist_trace A E order = Ok (mtrace (tN A) (gmx A)).
    Proof.
      unfold dist_trace. pose proof OA as ((Hp & Hn & HN) & _).
      rewrite (summed_ok (tasks A) order _ (fun r => (fun I J => if (I =? J)%nat then mtrace n (sub n I J (gmx A)) else 0) (cart_row p r) (cart_col p r))); auto.
      - unfold tasks. rewrite (bigsum_grid p (fun I J => if (I =? J)%nat then mtrace n (sub n I J (gmx A)) else 0)). rewrite HN, mtrace_blocks.
        f_equal. apply bigsum_ext. intros I HI. rewrite (bigsum_single p I); auto.
        + rewrite Nat.eqb_refl. reflexivity.
        + intros J HJ NJ. destruct (Nat.eqb_spec I J); [congruence|reflexivity].
      - intros r Hr. cbv beta. unfold myprow, mypcol. destruct (cart_row p r =? cart_col p r)%nat; [|reflexivity].
        destruct (here t A OA RA r Hr) as [(W & R & T) MA]. rewrite bml_trace_ok; auto; [|apply (good_env_of n m); auto].
        rewrite (proj1 R). f_equal. apply mtrace_meq, MA.
    Qed.

    (** any operation that sums a function of the elements *)
    Lemma dist_sum_ok (f : nat -> res F) (X : mat F) : (forall r, (r < tasks A)%nat -> f r = Ok (msum n (sub n (cart_row p r) (cart_col p r) X))) ->
      summed (tasks A) order f = Ok (msum (tN A) X).
    Proof.
      intros H. pose proof OA as ((Hp & Hn & HN) & _).
      rewrite (summed_ok (tasks A) order _ (fun r => (fun I J => msum n (sub n I J X)) (cart_row p r) (cart_col p r))); auto.
      unfold tasks. rewrite (bigsum_grid p (fun I J => msum n (sub n I J X))). rewrite HN, msum_blocks. reflexivity.
    Qed.
    Lemma dist_sum_squares_ok : dist_sum_squares A E order = Ok (msum (tN A) (mhad (gmx A) (gmx A))).
    Proof.
      apply dist_sum_ok. intros r Hr. destruct (here t A OA RA r Hr) as [(W & R & T) MA].
      rewrite bml_sum_squares_ok; auto; [|apply (good_env_of n m); auto]. rewrite (proj1 R). f_equal. apply msum_meq.
      intros i j Hi Hj. unfold mhad. rewrite MA by auto. reflexivity.
    Qed.

    Variable B : dist.
    Hypothesis OB : dist_ok t B.
    Hypothesis RB : dist_roomy B.
    Hypothesis GB : same_grid A B.
    Lemma there r : (r < tasks A)%nat -> part_of t p n m (gmx B) r (blk B r).
    Proof. intros Hr. assert (X := dist_parts t B OB RB r). unfold tn in X. destruct GB as (G1 & G2 & G3). rewrite <- G1, <- G2, <- G3 in X. apply X, Hr. Qed.
    Lemma roomy_norm (b : bmat) : bwf b -> roomy n m b -> norm_room b.
    Proof.
      intros W (R1 & R2 & R). destruct b as [b|b|b]; cbn [norm_room]; try exact I. intros i Hi. destruct R as (_ & R3 & _).
      assert (H := crow_len b i W Hi). cbn [bml_get_N] in R1. eapply Nat.le_trans; [exact H|]. rewrite R1. exact R3.
    Qed.

    Lemma dist_sum_AB_ok keep alpha : dist_sum_AB keep alpha A B E order = Ok (msum (tN A) (mcut keep (mscale alpha (mhad (gmx A) (gmx B))))).
    Proof.
      apply dist_sum_ok. intros r Hr. destruct (here t A OA RA r Hr) as [(W & R & T) MA]. destruct (there r Hr) as [(W' & R' & T') MB].
      rewrite bml_sum_AB_ok; auto; [|split; [congruence|rewrite (proj1 R), (proj1 R'); reflexivity]|apply (good_env_of n m); auto|apply roomy_norm; auto].
      rewrite (proj1 R). f_equal. apply msum_meq. intros i j Hi Hj. unfold mcut, mscale, mhad. rewrite MA, MB by auto. reflexivity.
    Qed.
    Lemma dist_sum_squares2_ok keep alpha beta : dist_sum_squares2 keep alpha beta A B E order =
      Ok (let Z := mcut keep (madd (mscale alpha (gmx A)) (mscale beta (gmx B))) in msum (tN A) (mhad Z Z)).
    Proof.
      apply dist_sum_ok. intros r Hr. destruct (here t A OA RA r Hr) as [(W & R & T) MA]. destruct (there r Hr) as [(W' & R' & T') MB].
      rewrite bml_sum_squares2_ok; auto; [|split; [congruence|rewrite (proj1 R), (proj1 R'); reflexivity]|apply (good_env_of n m); auto|apply roomy_norm; auto].
      rewrite (proj1 R). f_equal. apply msum_meq. intros i j Hi Hj. unfold mcut, madd, mscale, mhad. rewrite MA, MB by auto. reflexivity.
    Qed.

    (** dense: the sum of A_ij B_ij; csr: the sum of the traces of the products
        of corresponding blocks *)
    Lemma dist_trace_mult_dense : t = FDense -> dist_trace_mult A B E order = Ok (msum (tN A) (mhad (gmx A) (gmx B))).
    Proof.
      intros Et. apply dist_sum_ok. intros r Hr. destruct (here t A OA RA r Hr) as [(W & R & T) MA]. destruct (there r Hr) as [(W' & R' & T') MB].
      assert (GE := good_env_of n m _ (E r) (HE r Hr) R). destruct (blk A r) as [a|a|a], (blk B r) as [b|b|b]; cbn [bml_get_type] in T, T'; try congruence.
      cbn [bml_trace_mult]. destruct GE as (_ & GE & _). rewrite dense_trace_mult_ok; auto; [|rewrite (proj1 R : dN a = n); symmetry; apply R'].
      rewrite (proj1 R : dN a = n). f_equal. apply msum_meq. intros i j Hi Hj. unfold mhad. cbn [bmx] in MA, MB. rewrite MA, MB by auto. reflexivity.
    Qed.
    Lemma dist_trace_mult_ell : t = FEll ->
      (forall r a b i, (r < tasks A)%nat -> blk A r = BEll a -> blk B r = BEll b -> (i < n)%nat -> (nnz a i = 0 \/ nnz b i <> 0)%nat) ->
      dist_trace_mult A B E order = Ok (msum (tN A) (mhad (gmx A) (gmx B))).
    Proof.
      intros Et HZ. apply dist_sum_ok. intros r Hr. destruct (here t A OA RA r Hr) as [(W & R & T) MA]. destruct (there r Hr) as [(W' & R' & T') MB].
      assert (GE := good_env_of n m _ (E r) (HE r Hr) R). specialize (HZ r).
      destruct (blk A r) as [a|a|a], (blk B r) as [b|b|b]; cbn [bml_get_type] in T, T'; try congruence.
      cbn [bml_trace_mult]. destruct GE as (GE & _).
      assert (NA := proj1 R : eN a = n). assert (NB := proj1 R' : eN b = n).
      rewrite ell_trace_mult_ok; auto.
      - rewrite NA. f_equal. apply msum_meq. intros i j Hi Hj. unfold mhad. cbn [bmx] in MA, MB. rewrite MA, MB by auto. reflexivity.
      - split; [congruence|]. transitivity (tM A / tp A)%nat; [apply R|symmetry; apply R'].
      - intros i Hi. apply (HZ a b); auto. congruence.
    Qed.
    Lemma dist_trace_mult_csr : t = FCsr -> dist_trace_mult A B E order =
      Ok (bigsum p (fun I => bigsum p (fun J => mtrace n (mmul n (sub n I J (gmx A)) (sub n I J (gmx B)))))).
    Proof.
      intros Et. unfold dist_trace_mult.
      rewrite (summed_ok (tasks A) order _ (fun r => (fun I J => mtrace n (mmul n (sub n I J (gmx A)) (sub n I J (gmx B)))) (cart_row p r) (cart_col p r))); auto.
      - unfold tasks. rewrite (bigsum_grid p (fun I J => mtrace n (mmul n (sub n I J (gmx A)) (sub n I J (gmx B))))). reflexivity.
      - intros r Hr. destruct (here t A OA RA r Hr) as [(W & R & T) MA]. destruct (there r Hr) as [(W' & R' & T') MB].
        assert (GE := good_env_of n m _ (E r) (HE r Hr) R). destruct (blk A r) as [a|a|a], (blk B r) as [b|b|b]; cbn [bml_get_type] in T, T'; try congruence.
        cbn [bml_trace_mult]. destruct GE as (GE & _). rewrite csr_trace_mult_ok; auto; [|rewrite (proj1 R : cN a = n); symmetry; apply R'].
        rewrite (proj1 R : cN a = n). f_equal. apply mtrace_meq. apply meq_mmul; auto.
    Qed.
  End Sums.

  (** ** Constructors *)
  Lemma setup_ok p N : (0 < p)%nat -> N = (p * (N / p))%nat -> dist_setup p N = Ok (N / p)%nat.
  Proof. intros Hp HN. unfold dist_setup. destruct (Nat.eqb_spec (N / p * p) N) as [_|]; [reflexivity|nia]. Qed.

  Lemma dist_zero_ok t p N M : (0 < p)%nat -> (0 < N)%nat -> N = (p * (N / p))%nat -> (N / p <= M / p)%nat -> (N / p <= table_max)%nat ->
    exists D : dist, dist_zero t p N M = Ok D /\ tp D = p /\ tN D = N /\ tM D = M /\ tprec D = true /\ dist_ok t D /\ dist_roomy D /\ meq N (gmx D) mzero.
  Proof.
    intros Hp H0 HN HM HT. unfold dist_zero. assert (M <> 0%nat) by (intros ->; rewrite Nat.div_0_l in HM by lia; nia).
    destruct (Nat.eqb_spec N 0) as [|_]; [lia|]. destruct (Nat.eqb_spec M 0) as [|_]; [lia|]. cbn [orb]. rewrite setup_ok by auto. cbn [bind].
    assert (Hn : (0 < N / p)%nat) by nia.
    destruct (each_ok (p * p) (fun _ => bml_zero_matrix t (N / p) (M / p) : res bmat) (fun r b => part_of t p (N / p) (M / p) mzero r b)) as (l & -> & HL & HQ).
    { intros r Hr. destruct (@sh_zero F t (N / p) (M / p) Hn HM HT) as (A & EA & HA). exists A. split; [exact EA|exact HA]. }
    cbn [bind]. eexists. split; [reflexivity|]. do 4 (split; [reflexivity|]). apply (made_ok t p N M true mzero l); auto.
  Qed.
  Lemma dist_identity_ok t p N M E : (0 < p)%nat -> (0 < N)%nat -> N = (p * (N / p))%nat -> (N / p <= M / p)%nat -> (N / p <= table_max)%nat ->
    (forall r, (r < p * p)%nat -> good_schedules (N / p) (E r)) ->
    exists D : dist, dist_identity t p N M E = Ok D /\ tp D = p /\ tN D = N /\ tM D = M /\ tprec D = true /\ dist_ok t D /\ dist_roomy D /\ meq N (gmx D) mid.
  Proof.
    intros Hp H0 HN HM HT HE. unfold dist_identity. assert (M <> 0%nat) by (intros ->; rewrite Nat.div_0_l in HM by lia; nia).
    destruct (Nat.eqb_spec M 0) as [|_]; [lia|]. rewrite setup_ok by auto. cbn [bind].
    assert (Hn : (0 < N / p)%nat) by nia.
    destruct (each_ok (p * p) (fun r => if (cart_row p r =? cart_col p r)%nat then bml_identity_matrix t (N / p) (M / p) (E r) else bml_zero_matrix t (N / p) (M / p) : res bmat)
      (fun r b => part_of t p (N / p) (M / p) mid r b)) as (l & -> & HL & HQ).
    { intros r Hr. destruct (Nat.eqb_spec (cart_row p r) (cart_col p r)) as [Q|Q].
      - destruct (@sh_identity F t (N / p) (M / p) (E r) Hn HM HT (HE r Hr)) as (A & EA & SA & MA). exists A. split; [exact EA|]. split; [exact SA|].
        intros i j Hi Hj. rewrite MA by auto. unfold sub, mid. rewrite Q. destruct (Nat.eqb_spec i j), (Nat.eqb_spec (cart_col p r * (N / p) + i) (cart_col p r * (N / p) + j)); auto; lia.
      - destruct (@sh_zero F t (N / p) (M / p) Hn HM HT) as (A & EA & SA & MA). exists A. split; [exact EA|]. split; [exact SA|].
        intros i j Hi Hj. rewrite MA by auto. unfold sub, mid, mzero. destruct (Nat.eqb_spec (cart_row p r * (N / p) + i) (cart_col p r * (N / p) + j)) as [X|]; auto.
        exfalso. apply Q. nia. }
    cbn [bind]. eexists. split; [reflexivity|]. do 4 (split; [reflexivity|]). apply (made_ok t p N M true mid l); auto.
  Qed.
End DistMore.
