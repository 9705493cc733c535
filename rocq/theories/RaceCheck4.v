(** The csr loops: a memory that meets the hypotheses, and the race of
    bml_banded_matrix_csr. *)
From Verif Require Import Base BaseFacts Spec CsrModel CsrSpec CsrCheck EllpackModel EllpackSpec EllpackCheck ThreadModel ThreadFacts RaceModel RaceModel3
  RaceSpec RaceSpec3 RaceSim RaceCheck RaceCheck3 RaceDense.

(** row [r] as row object [c]; unwritten slots hold arbitrary values *)
Definition row_obj (c : nat) (r : row Zscalar) : list (arr * (list nat + list Zscalar)) :=
  [(aIdx c, inl (map (fun x => match x with Some (k, _) => k | None => 77 end) (rcells r)));
   (aVal c, inr (map (fun x => match x with Some (_, v) => v | None => (55%Z : Zscalar) end) (rcells r)));
   (aNnz c, inl [rnnz r])].
Definition csr_obj (o : nat) (A : csr Zscalar) : list (arr * (list nat + list Zscalar)) :=
  flat_map (fun i => match nth_error (cdata A) i with Some r => row_obj (ro o i) r | None => [] end) (seq 0 (length (cdata A))).

Definition exM_c : mem loc (val Zscalar) :=
  mem_of (F := Zscalar) (csr_obj 0 exCA ++ csr_obj 1 exCA ++ csr_obj 2 exCB ++
    [(aDense 0, inr (repeat (0%Z : Zscalar) 9)); (aRand, inl [5]); (aAcc 0, inr [0%Z : Zscalar]); (aAcc 1, inr [0%Z : Zscalar])]).

Lemma row_held (m : mem loc (val Zscalar)) c (r : row Zscalar) :
  (forall pos, m (aIdx c, pos) = option_map VN (nth_error (map (fun x => match x with Some (k, _) => k | None => 77 end) (rcells r)) pos)) ->
  (forall pos, m (aVal c, pos) = option_map VK (nth_error (map (fun x => match x with Some (_, v) => v | None => (55%Z : Zscalar) end) (rcells r)) pos)) ->
  m (aNnz c, 0) = Some (VN (rnnz r)) -> holds_row m c r.
Proof.
  intros H1 H2 H3. split; [exact H3|]. intros pos. rewrite H1, H2, !nth_error_map.
  destruct (nth_error (rcells r) pos) as [[[k v]|]|]; simpl; auto. split; discriminate.
Qed.

Lemma exM_c_holds : holds_csr exM_c 0 exCA /\ holds_csr exM_c 1 exCA /\ holds_csr exM_c 2 exCB.
Proof.
  split; [|split]; (intros [|[|[|i]]] r Er;
   [injection Er as <-; apply row_held; intros; reflexivity..|destruct i; discriminate]).
Qed.

(** ** rand() in the parallel loop *)
Lemma step_wr (F : scalar) (s : mstate loc (val F)) t l v k : th s t = Wr l v k -> me s l <> None ->
  exists s', step1 t s = Some s' /\ th s' t = k /\ (forall l', l' <> l -> me s' l' = me s l') /\
    (forall l', me s l' <> None -> me s' l' <> None) /\ (forall u, u <> t -> th s' u = th s u).
Proof.
  intros E Em. unfold step1. rewrite E. destruct (me s l) as [x|] eqn:El; [|contradiction]. eexists. split; [reflexivity|]. cbn [th me].
  split; [apply upd_fun_same|]. split; [intros l' Hl; apply mset_other; congruence|]. split; [|intros u Hu; now apply upd_fun_other].
  intros l' Hl. destruct (loc_eq_dec l l') as [->|Hne]; [rewrite mset_same; discriminate|]. rewrite mset_other by congruence. exact Hl.
Qed.

Lemma csr_banded_first (F : scalar) (next : nat -> nat) (out : nat -> F) N M t i : i < N -> 0 < M ->
  exists j k, p_csr_banded_row next out N M t i = Wr (aIdx (ro 0 i), 0) (VN j) (Rd (aRand, 0) k) /\
    forall s, exists q, k (VN s) = Wr (aRand, 0) (VN (next s)) q.
Proof.
  intros Hi HM. unfold p_csr_banded_row. pose proof (Nat.div_lt M 2 HM ltac:(lia)) as Hd.
  remember (Nat.min N (i + (M - M / 2)) - (i - M / 2)) as c eqn:Ec. destruct c as [|c]; [lia|].
  exists (i - M / 2). eexists. split; [cbn [seq pforM pbind wrn rdn p_rand]; reflexivity|].
  intros s. eexists. cbn [pbind]. reflexivity.
Qed.

(** whenever two threads have at least one row each *)
Lemma csr_banded_race (F : scalar) (next : nat -> nat) (out : nat -> F) N M sched (m : mem loc (val F)) s0 t t' i i' :
  0 < M -> Permutation (map snd sched) (seq 0 N) ->
  (forall i, i < N -> m (aIdx (ro 0 i), 0) <> None) -> m (aRand, 0) = Some (VN s0) ->
  In (t, i) sched -> In (t', i') sched -> t <> t' ->
  has_race (p_csr_banded_row next out N M) sched m.
Proof.
  intros HM HP Hx Hr Hi Hi' Hne. set (P := p_csr_banded_row next out N M).
  destruct (first_iteration (F:=F) P sched t i Hi) as (j & q & Hj & E).
  destruct (first_iteration (F:=F) P sched t' i' Hi') as (j' & q' & Hj' & E').
  assert (Hb : forall u k, In (u, k) sched -> k < N).
  { intros u k Hk. apply (in_map snd) in Hk. eapply Permutation_in in Hk; [|exact HP]. apply in_seq in Hk. simpl in Hk. lia. }
  destruct (csr_banded_first F next out N M t j (Hb _ _ Hj) HM) as (c & r & R & Rk). fold P in R. rewrite R in E. cbn [pbind] in E.
  destruct (csr_banded_first F next out N M t' j' (Hb _ _ Hj') HM) as (c' & r' & R' & _). fold P in R'. rewrite R' in E'. cbn [pbind] in E'.
  apply (race_by _ _ _ [t; t; t'] t t' (aRand, 0) false Hne).
  destruct (step_wr F (start P sched m) t _ _ _ E (Hx _ (Hb _ _ Hj))) as (s1 & S1 & T1 & M1 & X1 & O1).
  assert (Hr1 : me s1 (aRand, 0) = Some (VN s0)) by (rewrite M1; [exact Hr|discriminate]).
  destruct (step_rd F s1 t _ _ _ T1 Hr1) as (s2 & S2 & T2 & M2 & O2).
  assert (E2 : th s2 t' = thread_prog P sched t') by (rewrite O2, O1 by auto; reflexivity).
  rewrite E' in E2.
  destruct (step_wr F s2 t' _ _ _ E2) as (s3 & S3 & T3 & M3 & X3 & O3).
  { rewrite M2. apply X1. apply Hx, (Hb _ _ Hj'). }
  cbn [exec]. rewrite S1, S2, S3. split; [rewrite O3 by auto; rewrite T2; destruct (Rk s0) as (q2 & ->); reflexivity|rewrite T3; reflexivity].
Qed.
