(** Distributed by rows: add_norm, products with traces, scaling, identity,
    reductions over the ranks. *)
From Verif Require Import Base BaseFacts Spec SpecFacts EllpackModel EllpackSpec EllpackFacts EllpackOps EllpackArith
  EllpackMul EllpackMore EllpackNorm DenseModel DenseSpec DomainModel DomainSpec RowModel RowSpec RowFacts RowLocal RowOps.
From Coq Require Import Ring.

Section RowMore.
  Context {F : scalar}.
  Local Open Scope K_scope.
  Add Ring KringRM : (k_ring F).
  Local Notation ell := (ell F).
  Variables (P N M : nat) (d : domain).
  Hypothesis HD : row_domain P N M d.

  (** the values [f] of the own rows, computed by the ranks, add up to the value of all rows *)
  Lemma reduce_intro (g : nat -> res F) (f : nat -> F) :
    (forall r, (r < P)%nat -> g r = Ok (lsum (map f (my_rows d r)))) ->
    exists vs, ranks P g = Ok vs /\
      forall order, Permutation order (seq 0 P) -> allreduce_sum order vs = Ok (bigsum N f).
  Proof.
    intros H. destruct (ranks_ok P g (fun r v => v = lsum (map f (my_rows d r)))) as (vs & E & L & Hv).
    { intros r Hr. rewrite (H r Hr). simpl. auto. }
    exists vs. split; [auto|]. apply (reduce_rows P N M d f vs HD L Hv).
  Qed.

  Lemma lsum_own (f g : nat -> F) r : (forall i, owns d r i -> f i = g i) ->
    lsum (map f (my_rows d r)) = lsum (map g (my_rows d r)).
  Proof. intros H. f_equal. apply map_ext_in. intros i Hi. apply H. apply my_rows_owns. auto. Qed.

  Lemma own_lt r i : (r < P)%nat -> owns d r i -> (i < N)%nat.
  Proof. intros Hr Ho. apply (owns_lt P N M d r); auto. Qed.

  Lemma own_in r i : (r < P)%nat -> In i (my_rows d r) -> (i < N)%nat.
  Proof. intros Hr Hi. apply my_rows_owns in Hi. apply (own_lt r); auto. Qed.

  (** trace *)
  Theorem row_trace_ok (As : list ell) X nth scheds :
    held P d N M As X -> (forall r, (r < P)%nat -> rank_sched d r nth (scheds r)) ->
    exists vs, row_trace As nth scheds = Ok vs /\
      forall order, Permutation order (seq 0 P) -> allreduce_sum order vs = Ok (mtrace N X).
  Proof.
    intros HA HS. unfold row_trace. rewrite (proj1 HA). unfold mtrace. apply reduce_intro. intros r Hr.
    destruct (held_rd _ _ _ _ _ _ r HA Hr) as (A & EA & _ & WA & NA & MA & XA). rewrite EA. cbn [bind].
    destruct (HS r Hr) as [HP Ht].
    rewrite (ell_trace_on A nth (scheds r) (my_rows d r)); auto.
    - f_equal. apply lsum_own. intros i Ho. apply XA; auto. apply (own_lt r); auto.
    - rewrite NA. intros i Hi. apply (own_in r); auto.
  Qed.

  (** sum of squares of the elements *)
  Theorem row_sum_squares_ok (As : list ell) X nth scheds :
    held P d N M As X -> (forall r, (r < P)%nat -> rank_sched d r nth (scheds r)) ->
    exists vs, row_sum_squares As nth scheds = Ok vs /\
      forall order, Permutation order (seq 0 P) -> allreduce_sum order vs = Ok (msum N (mhad X X)).
  Proof.
    intros HA HS. unfold row_sum_squares. rewrite (proj1 HA). unfold msum. apply reduce_intro. intros r Hr.
    destruct (held_rd _ _ _ _ _ _ r HA Hr) as (A & EA & _ & WA & NA & MA & XA). rewrite EA. cbn [bind].
    destruct (HS r Hr) as [HP Ht].
    rewrite (ell_sum_squares_on A nth (scheds r) (my_rows d r)); auto.
    - f_equal. apply lsum_own. intros i Ho. rewrite NA. apply bigsum_ext. intros j Hj. unfold mhad. rewrite XA; auto.
    - rewrite NA. intros i Hi. apply (own_in r); auto.
  Qed.

  Lemma order_one : Permutation [0%nat] (seq 0 1). Proof. apply Permutation_refl. Qed.

  (** the Frobenius norm sums over the ranks itself *)
  Theorem row_fnorm_ok (As : list ell) X nth scheds order :
    (0 < P)%nat -> held P d N M As X -> (forall r, (r < P)%nat -> rank_sched d r nth (scheds r)) ->
    Permutation order (seq 0 P) ->
    row_fnorm_sq As nth scheds order = Ok (msum N (mhad X X)).
  Proof.
    intros HP0 HA HS HO. unfold row_fnorm_sq.
    destruct (row_sum_squares_ok As X nth scheds HA HS) as (vs & E & Hv). rewrite E. cbn [bind].
    rewrite (proj1 HA). destruct (Nat.ltb_spec 1 P); [auto|].
    assert (HP1 : P = 1%nat) by lia.
    assert (HL : length vs = P).
    { unfold row_sum_squares in E. rewrite (proj1 HA) in E.
      destruct (ranks_ok P (fun r => A <- rd As r ;; ell_sum_squares A nth (scheds r)) (fun _ _ => True)) as (l & E' & L & _).
      { intros r Hr. destruct (held_rd _ _ _ _ _ _ r HA Hr) as (A & EA & _ & WA & NA & MA & XA). rewrite EA. cbn [bind].
        destruct (HS r Hr) as [HP' Ht]. rewrite (ell_sum_squares_on A nth (scheds r) (my_rows d r)); auto; simpl; auto.
        rewrite NA. intros i Hi. apply (own_in r); auto. }
      congruence. }
    rewrite HP1 in *. specialize (Hv [0%nat] order_one). unfold allreduce_sum in Hv. simpl in Hv.
    rewrite (rd_ok vs 0%nat 0) in * by lia. simpl in Hv. rewrite <- Hv. f_equal. ring.
  Qed.

  Theorem row_trace_mult_ok (As Bs : list ell) X Y nth scheds :
    held P d N M As X -> held P d N M Bs Y -> (forall r, (r < P)%nat -> rank_sched d r nth (scheds r)) ->
    (forall r A B i, nth_error As r = Some A -> nth_error Bs r = Some B -> owns d r i ->
       nnz A i = 0 \/ nnz B i <> 0)%nat ->
    exists vs, row_trace_mult As Bs nth scheds = Ok vs /\
      forall order, Permutation order (seq 0 P) -> allreduce_sum order vs = Ok (msum N (mhad X Y)).
  Proof.
    intros HA HB HS Hnz. unfold row_trace_mult. rewrite (proj1 HA). unfold msum. apply reduce_intro. intros r Hr.
    destruct (held_rd _ _ _ _ _ _ r HA Hr) as (A & EA & nA & WA & NA & MA & XA). rewrite EA. cbn [bind].
    destruct (held_rd _ _ _ _ _ _ r HB Hr) as (B & EB & nB & WB & NB & MB & XB). rewrite EB. cbn [bind].
    destruct (HS r Hr) as [HP Ht].
    rewrite (ell_trace_mult_on A B nth (scheds r) (my_rows d r)); auto.
    - f_equal. apply lsum_own. intros i Ho. rewrite NA. apply bigsum_ext. intros j Hj. unfold mhad. rewrite XA, XB; auto.
    - split; congruence.
    - rewrite NA. intros i Hi. apply (own_in r); auto.
    - intros i Hi. apply my_rows_owns in Hi. eauto.
  Qed.

  Theorem row_sum_AB_ok (keep : F -> bool) alpha (As Bs : list ell) X Y nth scheds :
    held P d N M As X -> held P d N M Bs Y -> (forall r, (r < P)%nat -> rank_sched d r nth (scheds r)) ->
    exists vs, row_sum_AB keep alpha As Bs nth scheds = Ok vs /\
      forall order, Permutation order (seq 0 P) ->
        allreduce_sum order vs = Ok (msum N (mcut keep (mscale alpha (mhad X Y)))).
  Proof.
    intros HA HB HS. unfold row_sum_AB. rewrite (proj1 HA). unfold msum. apply reduce_intro. intros r Hr.
    destruct (held_rd _ _ _ _ _ _ r HA Hr) as (A & EA & nA & WA & NA & MA & XA). rewrite EA. cbn [bind].
    destruct (held_rd _ _ _ _ _ _ r HB Hr) as (B & EB & nB & WB & NB & MB & XB). rewrite EB. cbn [bind].
    destruct (HS r Hr) as [HP Ht].
    rewrite (ell_sum_AB_on keep alpha A B nth (scheds r) (my_rows d r)); auto; try congruence.
    - f_equal. apply lsum_own. intros i Ho. rewrite NA. apply bigsum_ext. intros j Hj.
      unfold mcut, mscale, mhad. rewrite XA, XB; auto.
    - rewrite NA. intros i Hi. apply (own_in r); auto.
  Qed.

  Theorem row_sum_squares2_ok (keep : F -> bool) alpha beta (As Bs : list ell) X Y nth scheds :
    held P d N M As X -> held P d N M Bs Y -> (forall r, (r < P)%nat -> rank_sched d r nth (scheds r)) ->
    exists vs, row_sum_squares2 keep alpha beta As Bs nth scheds = Ok vs /\
      forall order, Permutation order (seq 0 P) ->
        allreduce_sum order vs = Ok (let S := mcut keep (madd (mscale alpha X) (mscale beta Y)) in msum N (mhad S S)).
  Proof.
    intros HA HB HS. unfold row_sum_squares2. rewrite (proj1 HA). cbv zeta. unfold msum. apply reduce_intro. intros r Hr.
    destruct (held_rd _ _ _ _ _ _ r HA Hr) as (A & EA & nA & WA & NA & MA & XA). rewrite EA. cbn [bind].
    destruct (held_rd _ _ _ _ _ _ r HB Hr) as (B & EB & nB & WB & NB & MB & XB). rewrite EB. cbn [bind].
    destruct (HS r Hr) as [HP Ht].
    rewrite (ell_sum_squares2_on keep alpha beta A B nth (scheds r) (my_rows d r)); auto; try congruence.
    - f_equal. apply lsum_own. intros i Ho. rewrite NA. apply bigsum_ext. intros j Hj.
      unfold mhad, mcut, madd, mscale. rewrite XA, XB; auto.
    - rewrite NA. intros i Hi. apply (own_in r); auto.
  Qed.

  (** A := alpha A + beta B and the squared distance of A and B *)
  Theorem row_add_norm_ok (keep : F -> bool) alpha beta (As Bs : list ell) X Y nth scheds :
    held P d N M As X -> held P d N M Bs Y -> (forall r, (r < P)%nat -> rank_sched d r nth (scheds r)) ->
    fits N M keep (madd (mscale alpha X) (mscale beta Y)) ->
    exists Cs vs, row_add_norm keep alpha beta As Bs nth scheds = Ok (Cs, vs) /\
      held P d N M Cs (mcut keep (madd (mscale alpha X) (mscale beta Y))) /\
      forall order, Permutation order (seq 0 P) ->
        allreduce_sum order vs = Ok (msum N (fun i j => (X i j - Y i j) * (X i j - Y i j))).
  Proof.
    intros HA HB HS Hf. unfold row_add_norm. rewrite (proj1 HA).
    destruct (ranks_ok P (fun r => A <- rd As r ;; B <- rd Bs r ;; ell_add_norm keep alpha beta A B nth (scheds r))
      (fun r c => (wf (fst c) /\ eN (fst c) = N /\ eM (fst c) = M /\
         forall i j, owns d r i -> (j < N)%nat -> emat (fst c) i j = mcut keep (madd (mscale alpha X) (mscale beta Y)) i j) /\
         snd c = lsum (map (fun i => bigsum N (fun j => (X i j - Y i j) * (X i j - Y i j))) (my_rows d r)))) as (rs & E & L & H).
    { intros r Hr.
      destruct (held_rd _ _ _ _ _ _ r HA Hr) as (A & EA & _ & WA & NA & MA & XA).
      destruct (held_rd _ _ _ _ _ _ r HB Hr) as (B & EB & _ & WB & NB & MB & XB).
      rewrite EA, EB. cbn [bind].
      assert (Hon := rank_sched_on P N M d r nth _ HD Hr (HS r Hr)). pose proof Hon as (_ & _ & Hlt).
      destruct (ell_add_norm_on keep alpha beta A B nth (scheds r) (my_rows d r)) as (C & EC & HC); auto; try congruence.
      { apply (HS r Hr). }
      { intros i Hi. apply my_rows_owns in Hi as Ho. rewrite NA, MA.
        rewrite (count_own N d keep _ (madd (mscale alpha X) (mscale beta Y)) r i Ho).
        - apply Hf. auto.
        - intros i' j' Ho' Hj'. unfold madd, mscale. rewrite XA, XB; auto. }
      rewrite EC. cbn [wp wpq fst snd].
      destruct (done_mat A C _ _ (mcut keep (madd (mscale alpha X) (mscale beta Y))) HC) as (W & H1 & H2 & H3).
      { intros i j Hi Hj. assert (Hi' := Hlt i Hi). apply my_rows_owns in Hi.
        rewrite elook_normrow by (apply wf_nodup; auto; congruence).
        unfold mcut, madd, mscale. fold (emat A i j) (emat B i j). rewrite XA, XB by (auto; congruence). auto. }
      split.
      - split; [auto|]. split; [congruence|]. split; [congruence|].
        intros i j Ho Hj. apply H3; [apply my_rows_owns; auto|congruence].
      - apply lsum_own. intros i Ho. rewrite NA. apply bigsum_ext. intros j Hj. rewrite XA, XB; auto. }
    rewrite E. cbn [bind]. exists (map fst rs), (map snd rs). split; [auto|]. split.
    - split; [rewrite map_length; auto|]. intros r A Er. apply map_some in Er as (c & Ec & ->). apply (H r c Ec).
    - unfold msum. apply (reduce_rows P N M d); auto; [rewrite map_length; auto|].
      intros r v Er. apply map_some in Er as (c & Ec & ->). apply (H r c Ec).
  Qed.

  (** X^2, with the traces of X and X^2 *)
  Theorem row_multiply_x2_ok (keep : F -> bool) (Xs X2s : list ell) X Z nth scheds :
    replicated P N M Xs X -> held P d N M X2s Z -> (forall r, (r < P)%nat -> rank_sched d r nth (scheds r)) ->
    (forall r A i, nth_error Xs r = Some A -> owns d r i -> (prod_cols A A i <= M)%nat) ->
    exists Cs t1 t2, row_multiply_x2 keep Xs X2s nth scheds = Ok (Cs, t1, t2) /\
      held P d N M Cs (mcut_offdiag keep (mmul N X X)) /\
      (forall order, Permutation order (seq 0 P) -> allreduce_sum order t1 = Ok (mtrace N X)) /\
      (forall order, Permutation order (seq 0 P) -> allreduce_sum order t2 = Ok (mtrace N (mmul N X X))).
  Proof.
    intros HA HB HS Hroom. unfold row_multiply_x2. rewrite (proj1 HA).
    destruct (ranks_ok P (fun r => X <- rd Xs r ;; X2 <- rd X2s r ;; ell_multiply_x2 keep X X2 nth (scheds r))
      (fun r c => (wf (fst (fst c)) /\ eN (fst (fst c)) = N /\ eM (fst (fst c)) = M /\
         forall i j, owns d r i -> (j < N)%nat -> emat (fst (fst c)) i j = mcut_offdiag keep (mmul N X X) i j) /\
         snd (fst c) = lsum (map (fun i => X i i) (my_rows d r)) /\
         snd c = lsum (map (fun i => mmul N X X i i) (my_rows d r)))) as (rs & E & L & H).
    { intros r Hr.
      destruct (repl_rd _ _ _ _ _ r HA Hr) as (A & EA & nA & WA & NA & MA & XA).
      destruct (held_rd _ _ _ _ _ _ r HB Hr) as (B & EB & _ & WB & NB & MB & _).
      rewrite EA, EB. cbn [bind].
      assert (Hon := rank_sched_on P N M d r nth _ HD Hr (HS r Hr)). pose proof Hon as (_ & _ & Hlt).
      destruct (ell_multiply_x2_on keep A B nth (scheds r) (my_rows d r)) as (C & EC & HC); auto; try congruence.
      { apply (HS r Hr). }
      { intros i Hi. apply my_rows_owns in Hi. eapply Nat.le_trans; [apply mulrow_len; auto; rewrite NA; apply (own_lt r); auto|].
        rewrite MB. eauto. }
      rewrite EC. cbn [wp wpq fst snd].
      assert (Emul : forall i j, (i < N)%nat -> (j < N)%nat -> mmul N (emat A) (emat A) i j = mmul N X X i j).
      { intros i j Hi Hj. apply bigsum_ext. intros k Hk. rewrite !XA; auto. }
      destruct (done_mat B C _ _ (mcut_offdiag keep (mmul N X X)) HC) as (W & H1 & H2 & H3).
      { intros i j Hi Hj. assert (Hi' := Hlt i Hi). rewrite elook_mulrow by (auto; congruence).
        rewrite NA, NB in *. unfold mcut_offdiag. rewrite Emul; auto. }
      split.
      - split; [auto|]. split; [congruence|]. split; [congruence|].
        intros i j Ho Hj. apply H3; [apply my_rows_owns; auto|congruence].
      - rewrite NA. split; apply lsum_own; intros i Ho; assert (Hi := own_lt r i Hr Ho); auto. }
    rewrite E. cbn [bind]. do 3 eexists. split; [reflexivity|]. split; [|split].
    - split; [rewrite map_length; auto|]. intros r A Er. apply map_some in Er as (c & Ec & ->). apply (H r c Ec).
    - unfold mtrace. apply (reduce_rows P N M d); auto; [rewrite map_length; auto|].
      intros r v Er. apply map_some in Er as (c & Ec & ->). apply (H r c Ec).
    - unfold mtrace. apply (reduce_rows P N M d); auto; [rewrite map_length; auto|].
      intros r v Er. apply map_some in Er as (c & Ec & ->). apply (H r c Ec).
  Qed.

  (** scaling of the own rows *)
  Theorem row_scale_ok a (As : list ell) X :
    held P d N M As X -> exists Cs, row_scale d a As = Ok Cs /\ held P d N M Cs (mscale a X).
  Proof.
    intros HA. pose proof HD as ((S1 & S2 & S3 & S4 & S5) & HC & _ & HDi).
    unfold row_scale. rewrite (proj1 HA). apply held_intro. intros r Hr.
    destruct (held_rd _ _ _ _ _ _ r HA Hr) as (A & EA & _ & WA & NA & MA & XA). rewrite EA. cbn [bind].
    unfold rank_scale. rewrite (rd_ok (localRowExtent d) r 0%nat) by lia. cbn [bind].
    rewrite (rd_ok (localDispl d) r 0%nat) by lia. cbn [bind]. rewrite HDi, MA by auto.
    destruct (HC r Hr) as [C1 C2]. pose proof WA as ((V1 & V2 & V3) & HrA).
    destruct (blas_scal_at (nth r (localRowExtent d) 0 * M)%nat (nth r (localRowMin d) 0 * M)%nat a (eval A)) as (v & Ev & Lv & Hv).
    { rewrite V1, NA, MA. destruct (rows_bound P N M d r HD Hr) as [H|H]; [right; nia|left; rewrite H; auto]. }
    rewrite Ev. cbn [bind]. eexists. split; [reflexivity|].
    assert (Hrow : forall i, (i < N)%nat -> erow (mkEll (eN A) M v (eidx A) (ennz A)) i =
       if ((nth r (localRowMin d) 0 <=? i) && (i <? nth r (localRowMax d) 0))%nat then sc a (erow A i) else erow A i).
    { intros i Hi.
      assert (Hb : forall j, (j < M)%nat ->
         ((nth r (localRowMin d) 0 * M <=? i * M + j) &&
          (i * M + j <? nth r (localRowMin d) 0 * M + nth r (localRowExtent d) 0 * M))%nat =
         ((nth r (localRowMin d) 0 <=? i) && (i <? nth r (localRowMax d) 0))%nat).
      { intros j Hj. rewrite C1.
        set (lo := nth r (localRowMin d) 0%nat). set (e := nth r (localRowExtent d) 0%nat).
        destruct (Nat.leb_spec lo i), (Nat.ltb_spec i (lo + e));
        destruct (Nat.leb_spec (lo * M) (i * M + j)), (Nat.ltb_spec (i * M + j) (lo * M + e * M)); simpl; auto; exfalso; nia. }
      assert (Hnz : (nnz A i <= M)%nat) by (rewrite <- MA; apply wf_nnz; auto; lia).
      unfold erow, slots, sc. unfold nnz in *. simpl. rewrite MA.
      destruct ((nth r (localRowMin d) 0 <=? i) && (i <? nth r (localRowMax d) 0))%nat eqn:Eb.
      - rewrite map_map. apply map_ext_in. intros j Hj. apply in_seq in Hj. rewrite Hv, Hb by lia. auto.
      - apply map_ext_in. intros j Hj. apply in_seq in Hj. rewrite Hv, Hb by lia. auto. }
    split; [|simpl; split; [auto|split; [auto|]]].
    - split; [unfold shape; simpl; rewrite Lv; repeat split; congruence|].
      simpl. rewrite NA in *. intros i Hi. rewrite Hrow by auto.
      assert (Hr' := HrA i Hi). rewrite MA in Hr'. destruct (_ && _); auto. apply row_ok_sc. auto.
    - intros i j Ho Hj. assert (Hi := own_lt r i Hr Ho). unfold emat. rewrite Hrow by auto.
      destruct Ho as [O1 O2]. apply Nat.leb_le in O1 as L1. apply Nat.ltb_lt in O2 as L2. rewrite L1, L2. simpl.
      rewrite elook_sc. unfold mscale. fold (emat A i j). rewrite XA; auto. split; auto.
  Qed.

  (** A + beta I, computed for all rows on every rank: a replicated matrix stays replicated *)
  Theorem row_add_identity_ok (keep : F -> bool) beta (As : list ell) X scheds :
    held P d N M As X -> (forall r, (r < P)%nat -> Permutation (map snd (scheds r)) (seq 0 N)) ->
    (forall r A i, nth_error As r = Some A -> i < N -> beta = k0 \/ In i (cols (erow A i)) \/ nnz A i < M)%nat ->
    exists Cs, row_add_identity keep beta As scheds = Ok Cs /\
      held P d N M Cs (mcut keep (madd X (mscale beta mid))) /\
      (replicated P N M As X -> replicated P N M Cs (mcut keep (madd X (mscale beta mid)))).
  Proof.
    intros HA HS Hroom. unfold row_add_identity. rewrite (proj1 HA).
    destruct (ranks_ok P (fun r => A <- rd As r ;; ell_add_identity keep beta A (scheds r))
      (fun r B => wf B /\ eN B = N /\ eM B = M /\ exists A, nth_error As r = Some A /\
         forall i, (i < N)%nat -> erow B i = cutrow keep (idrow beta i (erow A i)))) as (Bs & E & L & H).
    { intros r Hr. destruct (held_rd _ _ _ _ _ _ r HA Hr) as (A & EA & nA & WA & NA & MA & XA). rewrite EA. cbn [bind].
      destruct (ell_add_identity_ok keep beta A (scheds r)) as (B & EB & (D1 & D2) & WB & HB); auto.
      { rewrite NA; auto. }
      { rewrite NA, MA. intros i Hi. eauto. }
      rewrite EB. cbn [wp wpq]. split; [auto|]. split; [congruence|]. split; [congruence|]. exists A. rewrite NA in HB. auto. }
    assert (Hval : forall r A B i j, nth_error As r = Some A -> nth_error Bs r = Some B -> (i < N)%nat ->
       emat B i j = cut keep (emat A i j + (if j =? i then beta else 0))).
    { intros r A B i j nA nB Hi. destruct (H r B nB) as (_ & _ & _ & A' & nA' & Hrow).
      rewrite nA in nA'. injection nA' as <-. unfold emat. rewrite Hrow by auto.
      destruct (proj2 HA r A nA) as (WA & NA & MA & _).
      rewrite elook_cutrow; [rewrite elook_idrow; auto|]. rewrite cols_idrow.
      assert (Hn := wf_nodup A i WA ltac:(lia)). destruct (keqb beta 0); auto.
      destruct (existsb (Nat.eqb i) (cols (erow A i))) eqn:Ee; auto.
      apply existsb_eqb_false in Ee. apply NoDup_app_intro; auto.
      - constructor; [simpl; tauto|constructor].
      - simpl. intros x Hx [<-|[]]. auto. }
    assert (Hmid : forall i j : nat, (if j =? i then beta else 0) = beta * mid i j).
    { intros i j. unfold mid. rewrite (Nat.eqb_sym i j). destruct (j =? i)%nat; ring. }
    exists Bs. rewrite E. split; [auto|]. split.
    - split; [auto|]. intros r B nB. destruct (H r B nB) as (WB & NB & MB & A & nA & _).
      split; [auto|]. split; [auto|]. split; [auto|]. intros i j Ho Hj.
      assert (Hr : (r < P)%nat) by (rewrite <- L; apply nth_error_Some; congruence).
      rewrite (Hval r A B i j nA nB (own_lt r i Hr Ho)). unfold mcut, madd, mscale. rewrite Hmid.
      destruct (proj2 HA r A nA) as (_ & _ & _ & XA). rewrite XA; auto.
    - intros [_ HR]. split; [auto|]. intros r B nB. destruct (H r B nB) as (WB & NB & MB & A & nA & _).
      split; [auto|]. split; [auto|]. split; [auto|]. intros i j Hi Hj.
      rewrite (Hval r A B i j nA nB Hi). unfold mcut, madd, mscale. rewrite Hmid.
      destruct (HR r A nA) as (_ & _ & _ & XA). rewrite XA; auto.
  Qed.

  (** C := beta C + alpha A B *)
  Theorem row_multiply_ok (keep : F -> bool) alpha beta (As Bs Cs : list ell) X Y Z nth s1 s2 gv gi :
    held P d N M As X -> replicated P N M Bs Y -> held P d N M Cs Z ->
    (forall r, (r < P)%nat -> rank_sched d r nth (s1 r)) -> (forall r, (r < P)%nat -> rank_sched d r nth (s2 r)) ->
    (forall r A B i, nth_error As r = Some A -> nth_error Bs r = Some B -> owns d r i -> (prod_cols A B i <= M)%nat) ->
    fits N M keep (madd (mscale beta Z) (mscale alpha (mcut_offdiag keep (mmul N X Y)))) ->
    exists Ds, row_multiply d keep alpha beta As Bs Cs s1 s2 gv gi = Ok Ds /\
      held P d N M Ds (mcut keep (madd (mscale beta Z) (mscale alpha (mcut_offdiag keep (mmul N X Y))))).
  Proof.
    intros HA HB HC HS1 HS2 Hroom Hf. unfold row_multiply. rewrite (proj1 HC).
    destruct (held_intro P d N M (fun r => C <- rd Cs r ;; Ok (ell_noinit (eN C) (eM C) gv gi)) mzero) as (A2 & E2 & H2).
    { intros r Hr. destruct (held_rd _ _ _ _ _ _ r HC Hr) as (C & EC & _ & WC & NC & MC & _). rewrite EC. cbn [bind].
      eexists. split; [reflexivity|]. split; [apply wf_noinit|]. split; [auto|]. split; [auto|].
      intros i j _ _. unfold emat. rewrite erow_noinit. auto. }
    rewrite E2. cbn [bind].
    destruct (row_multiply_AB_ok P N M d HD keep As Bs A2 X Y mzero nth s1 HA HB H2 HS1 Hroom) as (A3 & E3 & H3).
    rewrite E3. cbn [bind].
    assert (H4 : exists A4, (if (1 <? length As)%nat then row_gather d A3 else Ok A3) = Ok A4 /\
       held P d N M A4 (mcut_offdiag keep (mmul N X Y))).
    { destruct (1 <? length As)%nat; [|eauto].
      destruct (row_gather_ok P N M d A3 _ HD H3) as (A4 & E4 & H4). exists A4. split; [auto|].
      apply replicated_held; auto. }
    destruct H4 as (A4 & E4 & H4). rewrite E4. cbn [bind].
    apply (row_add_ok P N M d HD keep beta alpha Cs A4 Z _ nth s2); auto.
  Qed.

  (** the rows of all ranks brought together after a product *)
  Theorem row_multiply_gather_ok (keep : F -> bool) alpha beta (As Bs Cs : list ell) X Y Z nth s1 s2 gv gi :
    held P d N M As X -> replicated P N M Bs Y -> held P d N M Cs Z ->
    (forall r, (r < P)%nat -> rank_sched d r nth (s1 r)) -> (forall r, (r < P)%nat -> rank_sched d r nth (s2 r)) ->
    (forall r A B i, nth_error As r = Some A -> nth_error Bs r = Some B -> owns d r i -> (prod_cols A B i <= M)%nat) ->
    fits N M keep (madd (mscale beta Z) (mscale alpha (mcut_offdiag keep (mmul N X Y)))) ->
    exists Ds Es, row_multiply d keep alpha beta As Bs Cs s1 s2 gv gi = Ok Ds /\ row_gather d Ds = Ok Es /\
      replicated P N M Es (mcut keep (madd (mscale beta Z) (mscale alpha (mcut_offdiag keep (mmul N X Y))))).
  Proof.
    intros. destruct (row_multiply_ok keep alpha beta As Bs Cs X Y Z nth s1 s2 gv gi) as (Ds & E & H6); auto.
    destruct (row_gather_ok P N M d Ds _ HD H6) as (Es & E' & H7). eauto 6.
  Qed.

  (** scale, then add the identity *)
  Theorem row_scale_add_identity_ok (keep : F -> bool) alpha beta (As : list ell) X scheds :
    held P d N M As X -> (forall r, (r < P)%nat -> Permutation (map snd (scheds r)) (seq 0 N)) ->
    (forall r A i, nth_error As r = Some A -> i < N -> nnz A i < M)%nat ->
    exists Cs, row_scale_add_identity d keep alpha beta As scheds = Ok Cs /\
      held P d N M Cs (mcut keep (madd (mscale alpha X) (mscale beta mid))).
  Proof.
    intros HA HS Hroom. unfold row_scale_add_identity.
    assert (HX : exists Bs, row_scale d alpha As = Ok Bs /\ held P d N M Bs (mscale alpha X) /\
       forall r B, nth_error Bs r = Some B -> exists A, nth_error As r = Some A /\ ennz B = ennz A).
    { destruct (row_scale_ok alpha As X HA) as (Bs & E & H). exists Bs. split; [auto|]. split; [auto|].
      unfold row_scale in E. rewrite (proj1 HA) in E.
      destruct (ranks_ok P (fun r => A <- rd As r ;; rank_scale d alpha r A)
         (fun r B => exists A, nth_error As r = Some A /\ ennz B = ennz A)) as (l & E' & _ & Hl).
      { intros r Hr. destruct (held_rd _ _ _ _ _ _ r HA Hr) as (A & EA & nA & WA & NA & MA & XA).
        destruct (held_rd _ _ _ _ _ _ r H Hr) as (B & EB & nB & _).
        rewrite EA. cbn [bind]. pose proof HD as ((S1 & S2 & S3 & S4 & S5) & HCs & _ & HDi).
        unfold rank_scale. rewrite (rd_ok (localRowExtent d) r 0%nat) by lia. cbn [bind].
        rewrite (rd_ok (localDispl d) r 0%nat) by lia. cbn [bind]. rewrite HDi by auto.
        destruct WA as ((V1 & _) & _).
        destruct (blas_scal_at (List.nth r (localRowExtent d) 0 * eM A)%nat (List.nth r (localRowMin d) 0 * M)%nat alpha (eval A)) as (v & Ev & _).
        { rewrite V1, NA, MA. destruct (rows_bound P N M d r HD Hr) as [Hb|Hb]; [right; nia|left; rewrite Hb; auto]. }
        rewrite Ev. simpl. eauto. }
      rewrite E in E'. injection E' as <-. exact Hl. }
    destruct HX as (Bs & E & HB & Hn). rewrite E. cbn [bind].
    destruct (row_add_identity_ok keep beta Bs (mscale alpha X) scheds HB HS) as (Cs & EC & HC & _).
    { intros r B i nB Hi. destruct (Hn r B nB) as (A & nA & En). right; right. unfold nnz. rewrite En.
      apply (Hroom r A i nA Hi). }
    eauto.
  Qed.

  (** squared distance, gathered over the ranks *)
  Theorem row_fnorm2_ok (As Bs : list ell) X Y nth scheds order :
    (1 < P)%nat -> held P d N M As X -> held P d N M Bs Y ->
    (forall r, (r < P)%nat -> rank_sched d r nth (scheds r)) -> Permutation order (seq 0 P) ->
    (forall r A B i, nth_error As r = Some A -> nth_error Bs r = Some B -> owns d r i -> (nnz A i = 0 <-> nnz B i = 0)%nat) ->
    (forall r A i kv, nth_error As r = Some A -> owns d r i -> In kv (erow A i) -> snd kv <> 0) ->
    row_fnorm2_sq As Bs nth scheds order = Ok (msum N (fun i j => (X i j - Y i j) * (X i j - Y i j))).
  Proof.
    intros HP1 HA HB HS HO Hnz Hv. unfold row_fnorm2_sq. rewrite (proj1 HA). unfold msum.
    destruct (reduce_intro (fun r => A <- rd As r ;; B <- rd Bs r ;; ell_fnorm2_sq A B nth (scheds r))
       (fun i => bigsum N (fun j => (X i j - Y i j) * (X i j - Y i j)))) as (vs & E & H).
    { intros r Hr.
      destruct (held_rd _ _ _ _ _ _ r HA Hr) as (A & EA & nA & WA & NA & MA & XA). rewrite EA. cbn [bind].
      destruct (held_rd _ _ _ _ _ _ r HB Hr) as (B & EB & nB & WB & NB & MB & XB). rewrite EB. cbn [bind].
      destruct (HS r Hr) as [HP Ht].
      rewrite (ell_fnorm2_on A B nth (scheds r) (my_rows d r)); auto.
      - f_equal. apply lsum_own. intros i Ho. rewrite NA. apply bigsum_ext. intros j Hj. rewrite XA, XB; auto.
      - split; congruence.
      - rewrite NA. intros i Hi. apply (own_in r); auto.
      - intros i Hi. apply my_rows_owns in Hi. eauto.
      - intros i Hi kv. apply my_rows_owns in Hi. eauto. }
    rewrite E. cbn [bind]. apply Nat.ltb_lt in HP1. rewrite HP1. auto.
  Qed.

  (** a copy copies everything a rank has *)
  Theorem row_copy_ok (As Bs : list ell) X Y :
    (0 < M)%nat -> held P d N M As X -> held P d N M Bs Y -> row_copy As Bs = Ok As.
  Proof.
    intros HM HA HB. unfold row_copy. rewrite (proj1 HA).
    destruct (ranks_ok P (fun r => A <- rd As r ;; B <- rd Bs r ;; ell_copy A B) (fun r C => nth_error As r = Some C)) as (l & E & L & H).
    { intros r Hr.
      destruct (held_rd _ _ _ _ _ _ r HA Hr) as (A & EA & nA & WA & NA & MA & XA). rewrite EA. cbn [bind].
      destruct (held_rd _ _ _ _ _ _ r HB Hr) as (B & EB & nB & WB & NB & MB & XB). rewrite EB. cbn [bind].
      rewrite ell_copy_ok; [simpl; auto|apply WA|apply WB|split; congruence|lia]. }
    rewrite E. f_equal. clear E. destruct HA as [LA _]. rewrite <- LA in L. clear - L H. revert As L H.
    induction l as [|x l IH]; intros As L H.
    - destruct As; simpl in *; auto; lia.
    - destruct As as [|a As]; simpl in *; [lia|].
      rewrite (IH As); try lia.
      + f_equal. specialize (H 0%nat x eq_refl). simpl in H. congruence.
      + intros r C Hr. apply (H (S r) C Hr).
  Qed.
End RowMore.
