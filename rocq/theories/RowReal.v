(** Proofs: Gershgorin bounds and normalization of matrices distributed by rows. *)
From Coq Require Import Reals Lra.
From Verif Require Import Base BaseFacts Spec SpecFacts RealSpec EllpackModel EllpackSpec EllpackFacts EllpackOps
  EllpackArith EllpackMore EllpackExact GershModel GershFacts CsrGersh DomainModel DomainSpec FormatModel Dist2dModel Dist2dRestModel Dist2dReal
  RowModel RowSpec RowFacts RowLocal RowOps RowMore RowRealModel.
Local Open Scope R_scope.

(** the bounds over the rows in a set [S] *)
Definition scan_on (S : nat -> Prop) (d r : nat -> R) (p : R * R) : Prop :=
  fst p <= DBL_MAX /\ DBL_MIN <= snd p /\
  (forall i, S i -> fst p <= d i - r i) /\ (forall i, S i -> d i + r i <= snd p) /\
  (fst p = DBL_MAX \/ exists i, S i /\ fst p = d i - r i) /\
  (snd p = DBL_MIN \/ exists i, S i /\ snd p = d i + r i).

Lemma scan_from_ok lo n (dval rad : list (option R)) (d r : nat -> R) :
  (forall i, (lo <= i < lo + n)%nat -> rd dval i = Ok (Some (d i))) ->
  (forall i, (lo <= i < lo + n)%nat -> rd rad i = Ok (Some (r i))) ->
  wp (gersh_scan_from lo n dval rad) (scan_on (fun i => (lo <= i < lo + n)%nat) d r).
Proof.
  intros Hd Hr. unfold gersh_scan_from. apply (for_n_inv (fun q => scan_on (fun i => (lo <= i < lo + q)%nat) d r)).
  - unfold scan_on. simpl. split; [lra|]. split; [lra|]. do 2 (split; [intros; lia|]). auto.
  - intros q [emin emax] Hq (H1 & H2 & H3 & H4 & H5 & H6). rewrite Hd by lia. cbn [bind]. rewrite Hr by lia. cbn [bind use].
    unfold wp, wpq, scan_on. cbn [fst snd] in *. set (i := (lo + q)%nat) in *.
    assert (forall (P : nat -> Prop), P i -> (forall k, (lo <= k < lo + q)%nat -> P k) -> forall k, (lo <= k < lo + S q)%nat -> P k) as HS.
    { intros P Hp Hlt k Hk. destruct (Nat.eq_dec k i) as [->|]; auto. apply Hlt. unfold i in *. lia. }
    destruct (Rlt_dec (d i - r i) emin), (Rlt_dec emax (d i + r i));
      (split; [lra|]); (split; [lra|]);
      (split; [apply HS; [lra|intros k Hk; specialize (H3 k Hk); lra]|]);
      (split; [apply HS; [lra|intros k Hk; specialize (H4 k Hk); lra]|]); split;
      try (right; exists i; split; [unfold i; lia|reflexivity]).
    all: try solve [destruct H5 as [H5|(k & Hk & H5)]; [left; exact H5|right; exists k; split; [lia|exact H5]]].
    all: try solve [destruct H6 as [H6|(k & Hk & H6)]; [left; exact H6|right; exists k; split; [lia|exact H6]]].
Qed.

Lemma rank_gershgorin_ok P N M dm r (A : ell Rscalar) nth sched : row_domain P N M dm -> (r < P)%nat ->
  wf A -> eN A = N -> rank_sched dm r nth sched ->
  wp (rank_gershgorin dm r A sched) (scan_on (owns dm r) (fun i => emat A i i) (radius N (emat A))).
Proof.
  intros HD Hr WA NA HS. pose proof HD as ((S1 & S2 & _) & HC & _).
  unfold rank_gershgorin. rewrite (rd_ok (localRowMin dm) r 0%nat) by lia. cbn [bind].
  rewrite (rd_ok (localRowMax dm) r 0%nat) by lia. cbn [bind].
  set (lo := List.nth r (localRowMin dm) 0%nat). set (hi := List.nth r (localRowMax dm) 0%nat).
  assert (Hle : (lo <= hi)%nat) by (destruct (HC r Hr) as [C1 _]; unfold lo, hi; lia).
  destruct (rank_sched_on P N M dm r nth sched HD Hr HS) as (HP & Hnd & Hlt).
  apply wp_bind. eapply wp_mono.
  - apply (par_for_inv (fun done (s : list (option R) * list (option R)) (_ : nat -> unit) =>
      length (fst s) = eN A /\ length (snd s) = eN A /\
      (forall i, In i done -> List.nth i (fst s) None = Some (emat A i i) /\ List.nth i (snd s) None = Some (radius (eN A) (emat A) i)))).
    + simpl. rewrite !repeat_length. tauto.
    + intros pre t i post [dv rv] w E (H1 & H2 & H3). cbn [fst snd] in *.
      assert (Hi : (i < N)%nat).
      { apply Hlt. apply (Permutation_in _ HP). rewrite E, map_app. apply in_app_iff. right; left; auto. }
      rewrite gersh_row_ok by (auto; lia). cbn [bind]. rewrite !wr_ok by lia. cbn [bind wp wpq fst snd].
      rewrite !length_set_nth. split; auto. split; auto.
      intros q Hq. apply in_app_iff in Hq. rewrite !nth_set_nth.
      replace (i <? length dv) with true by (symmetry; apply Nat.ltb_lt; lia).
      replace (i <? length rv) with true by (symmetry; apply Nat.ltb_lt; lia).
      destruct (Nat.eqb_spec q i) as [->|Hne]; simpl; auto. apply H3. destruct Hq as [Hq|[Hq|[]]]; [auto|congruence].
  - intros [[dv rv] w] (H1 & H2 & H3). cbn [fst snd] in *.
    assert (Hin : forall i, (lo <= i < lo + (hi - lo))%nat -> In i (map snd sched) /\ (i < N)%nat).
    { intros i Hi. assert (In i (my_rows dm r)) by (apply my_rows_owns; unfold owns; fold lo hi; lia).
      split; [apply (Permutation_in _ (Permutation_sym HP)); auto|apply Hlt; auto]. }
    eapply wp_mono; [apply (scan_from_ok lo (hi - lo) dv rv (fun i => emat A i i) (radius N (emat A)))|].
    + intros i Hi. destruct (Hin i Hi). rewrite (rd_ok _ _ None) by lia. f_equal. apply H3; auto.
    + intros i Hi. destruct (Hin i Hi). rewrite (rd_ok _ _ None) by lia. f_equal. rewrite <- NA. apply H3; auto.
    + assert (Ho : forall i, owns dm r i <-> (lo <= i < lo + (hi - lo))%nat) by (intros i; unfold owns; fold lo hi; lia).
      intros p (P1 & P2 & P3 & P4 & P5 & P6). split; [auto|]. split; [auto|].
      split; [intros i Hi; apply P3, Ho, Hi|]. split; [intros i Hi; apply P4, Ho, Hi|]. split.
      * destruct P5 as [P5|(i & Hi & P5)]; [auto|right; exists i; split; [apply Ho; auto|auto]].
      * destruct P6 as [P6|(i & Hi & P6)]; [auto|right; exists i; split; [apply Ho; auto|auto]].
Qed.

Lemma row_gershgorin_post P N M dm (As : list (ell Rscalar)) X nth scheds omin omax :
  row_domain P N M dm -> (0 < P)%nat -> held P dm N M As X -> (forall r, (r < P)%nat -> rank_sched dm r nth (scheds r)) ->
  Permutation omin (seq 0 P) -> Permutation omax (seq 0 P) ->
  exists emin emax, row_gershgorin dm As scheds omin omax = Ok (emin, emax) /\
    scan_post N (fun i => X i i) (radius N X) (emin, emax).
Proof.
  intros HD HP HA HS Hmin Hmax. unfold row_gershgorin. rewrite (proj1 HA).
  destruct (ranks_ok P (fun r => A <- rd As r ;; rank_gershgorin dm r A (scheds r))
     (fun r e => scan_on (owns dm r) (fun i => X i i) (radius N X) e)) as (ev & E & L & H).
  { intros r Hr. destruct (held_rd _ _ _ _ _ _ r HA Hr) as (A & EA & _ & WA & NA & MA & XA). rewrite EA. cbn [bind].
    eapply wp_mono; [apply (rank_gershgorin_ok P N M dm r A nth (scheds r)); auto|].
    assert (Eq : forall i, owns dm r i -> emat A i i = X i i /\ radius N (emat A) i = radius N X i).
    { intros i Ho. assert (Hi := owns_lt _ _ _ _ _ _ HD Hr Ho). split; [apply XA; auto|].
      apply Rsum_ext. intros j Hj. rewrite XA; auto. }
    intros p (P1 & P2 & P3 & P4 & P5 & P6). split; [auto|]. split; [auto|]. cbv beta in *.
    split; [intros i Hi; destruct (Eq i Hi) as [<- <-]; auto|]. split; [intros i Hi; destruct (Eq i Hi) as [<- <-]; auto|]. split.
    - destruct P5 as [P5|(i & Hi & P5)]; [auto|right; exists i; destruct (Eq i Hi) as [<- <-]; auto].
    - destruct P6 as [P6|(i & Hi & P6)]; [auto|right; exists i; destruct (Eq i Hi) as [<- <-]; auto]. }
  rewrite E. cbn [bind].
  assert (HR : exists emin emax,
     (if (1 <? P)%nat then Ok (allreduce_with Rmin omin (map fst ev), allreduce_with Rmax omax (map snd ev)) else rd ev 0) = Ok (emin, emax) /\
     ((forall r e, nth_error ev r = Some e -> emin <= fst e) /\ exists r e, nth_error ev r = Some e /\ emin = fst e) /\
     ((forall r e, nth_error ev r = Some e -> snd e <= emax) /\ exists r e, nth_error ev r = Some e /\ emax = snd e)).
  { destruct (Nat.ltb_spec 1 P) as [HP1|HP1].
    - eexists. eexists. split; [reflexivity|].
      destruct (allreduce_min P omin (map fst ev) HP Hmin) as (A1 & r1 & R1 & A2).
      destruct (allreduce_max P omax (map snd ev) HP Hmax) as (B1 & r2 & R2 & B2). cbv beta in *.
      assert (NE : forall r e, nth_error ev r = Some e -> (r < P)%nat /\ List.nth r (map fst ev) 0 = fst e /\ List.nth r (map snd ev) 0 = snd e).
      { intros r e Hr. split; [rewrite <- L; apply nth_error_Some; congruence|].
        split; apply nth_error_nth; rewrite nth_error_map, Hr; auto. }
      split; split.
      + intros r e Hr. destruct (NE r e Hr) as (Hlt & <- & _). auto.
      + destruct (some_lt ev r1) as (e & He); [lia|]. exists r1, e. split; [auto|]. rewrite A2. apply (NE r1 e He).
      + intros r e Hr. destruct (NE r e Hr) as (Hlt & _ & <-). auto.
      + destruct (some_lt ev r2) as (e & He); [lia|]. exists r2, e. split; [auto|]. rewrite B2. apply (NE r2 e He).
    - assert (P = 1%nat) by lia. destruct ev as [|[e1 e2] [|? ?]]; simpl in L; try lia.
      exists e1, e2. split; [reflexivity|]. split; split; cbn [fst snd].
      + intros [|[|r]] e Hr; simpl in Hr; try discriminate. injection Hr as <-. cbn. lra.
      + exists 0%nat, (e1, e2). auto.
      + intros [|[|r]] e Hr; simpl in Hr; try discriminate. injection Hr as <-. cbn. lra.
      + exists 0%nat, (e1, e2). auto. }
  destruct HR as (emin & emax & ER & (A1 & r1 & e1 & R1 & A2) & (B1 & r2 & e2 & R2 & B2)).
  exists emin, emax. split; [exact ER|].
  assert (Lt : forall r e, nth_error ev r = Some e -> (r < P)%nat) by (intros r e Hr; rewrite <- L; apply nth_error_Some; congruence).
  destruct (H r1 e1 R1) as (P1 & _ & _ & _ & P5 & _). destruct (H r2 e2 R2) as (_ & Q2 & _ & _ & _ & Q6).
  unfold scan_post. cbn [fst snd]. rewrite A2, B2. split; [auto|]. split; [auto|].
  assert (ROW : forall i, (i < N)%nat -> exists r e, nth_error ev r = Some e /\ owns dm r i).
  { intros i Hi. destruct (owner_exists P N M dm i HD Hi) as (r & Hr & Ho). destruct (some_lt ev r) as (e & He); [lia|]. eauto. }
  split; [|split; [|split]].
  - intros i Hi. destruct (ROW i Hi) as (r & e & He & Ho). destruct (H r e He) as (_ & _ & H3 & _).
    specialize (H3 i Ho). specialize (A1 r e He). rewrite A2 in A1. exact (Rle_trans _ _ _ A1 H3).
  - intros i Hi. destruct (ROW i Hi) as (r & e & He & Ho). destruct (H r e He) as (_ & _ & _ & H4 & _).
    specialize (H4 i Ho). specialize (B1 r e He). rewrite B2 in B1. exact (Rle_trans _ _ _ H4 B1).
  - destruct P5 as [P5|(i & Hi & P5)]; [auto|right; exists i; split; [apply (owns_lt P N M dm r1); eauto|auto]].
  - destruct Q6 as [Q6|(i & Hi & Q6)]; [auto|right; exists i; split; [apply (owns_lt P N M dm r2); eauto|auto]].
Qed.

Lemma row_gershgorin_bounds P N M dm (As : list (ell Rscalar)) X nth scheds omin omax :
  row_domain P N M dm -> (0 < P)%nat -> held P dm N M As X -> (forall r, (r < P)%nat -> rank_sched dm r nth (scheds r)) ->
  Permutation omin (seq 0 P) -> Permutation omax (seq 0 P) ->
  exists emin emax, row_gershgorin dm As scheds omin omax = Ok (emin, emax) /\
    forall lambda, eigenvalue N X lambda -> emin <= lambda <= emax.
Proof.
  intros HD HP HA HS Hmin Hmax.
  destruct (row_gershgorin_post P N M dm As X nth scheds omin omax HD HP HA HS Hmin Hmax) as (emin & emax & E & H).
  exists emin, emax. split; [exact E|]. intros lambda. apply (scan_bounds N X emin emax lambda H).
Qed.

Lemma row_gershgorin_exact P N M dm (As : list (ell Rscalar)) X nth scheds omin omax :
  row_domain P N M dm -> (0 < P)%nat -> held P dm N M As X -> (forall r, (r < P)%nat -> rank_sched dm r nth (scheds r)) ->
  Permutation omin (seq 0 P) -> Permutation omax (seq 0 P) ->
  (exists i, (i < N)%nat /\ DBL_MIN <= X i i + radius N X i) -> (exists i, (i < N)%nat /\ X i i - radius N X i <= DBL_MAX) ->
  exists emin emax, row_gershgorin dm As scheds omin omax = Ok (emin, emax) /\
    (forall i, (i < N)%nat -> emin <= X i i - radius N X i) /\ (exists i, (i < N)%nat /\ emin = X i i - radius N X i) /\
    (forall i, (i < N)%nat -> X i i + radius N X i <= emax) /\ (exists i, (i < N)%nat /\ emax = X i i + radius N X i).
Proof.
  intros HD HP HA HS Hmin Hmax H1 H2.
  destruct (row_gershgorin_post P N M dm As X nth scheds omin omax HD HP HA HS Hmin Hmax) as (emin & emax & E & H).
  exists emin, emax. split; [exact E|]. apply (scan_exact N (fun i => X i i) (radius N X) emin emax H H1 H2).
Qed.

Lemma row_normalize_ok P N M dm (As : list (ell Rscalar)) X mineval maxeval scheds :
  row_domain P N M dm -> held P dm N M As X -> (forall r, (r < P)%nat -> Permutation (map snd (scheds r)) (seq 0 N)) ->
  (forall r A i, nth_error As r = Some A -> i < N -> nnz A i < M)%nat -> mineval <> maxeval ->
  exists Cs, row_normalize dm As mineval maxeval scheds = Ok Cs /\
    held P dm N M Cs (fun i j => (maxeval * mid (F:=Rscalar) i j - X i j) / (maxeval - mineval)).
Proof.
  intros HD HA HS Hroom Hne. unfold row_normalize.
  destruct (row_scale_add_identity_ok P N M dm HD (gtR 0 : Rscalar -> bool) ((-1 / (maxeval - mineval)) : Rscalar)
     ((maxeval / (maxeval - mineval)) : Rscalar) As X scheds HA HS Hroom) as (Cs & E & H).
  unfold row_scale_add_identity in E. exists Cs. split; [exact E|]. destruct H as [L H]. split; [exact L|].
  intros r A Er. destruct (H r A Er) as (W & NA & MA & V). split; [auto|]. split; [auto|]. split; [auto|].
  intros i j Ho Hj. rewrite V by auto. unfold mcut. rewrite cut_exact by apply gtR0_nonzero. unfold madd, mscale.
  change (kadd (s:=Rscalar)) with Rplus. change (kmul (s:=Rscalar)) with Rmult. change (@eq (K Rscalar)) with (@eq R). field. lra.
Qed.
