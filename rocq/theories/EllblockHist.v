(** Sequences of calls on block ellpack matrices. *)
From Verif Require Import Base BaseFacts Spec SpecFacts EllpackModel EllpackSpec
  EllblockModel EllblockSpec EllblockFacts EllblockHeap EllblockRead EllblockBuild EllblockMake EllblockSet EllblockCopy EllblockAdd.

Section Hist.
  Context {F : scalar}.
  Local Notation eb := (eb F).
  Implicit Types A B : eb.

  (** ** Constructors and the default block sizes *)

  Lemma fresh_bnz NB MB M bs A ib : fresh NB MB M bs A -> bnz A ib = 0.
  Proof. intros H. pose proof (fr_row _ _ _ _ _ H ib) as E. apply (f_equal (@length _)) in E. unfold brow in E. rewrite map_length, seq_length in E. exact E. Qed.
  Lemma fresh_zero NB MB M bs A : fresh NB MB M bs A -> (forall ib, bcols A ib = []) /\ meq (bN A) (ebmx A) mzero.
  Proof.
    intros H. split. { intros ib. unfold bcols. rewrite (fresh_bnz _ _ _ _ _ _ H). reflexivity. }
    apply meq_blocks; [apply (fr_wf _ _ _ _ _ H)|]. intros. rewrite bel_miss. { reflexivity. } intros jp Hj. rewrite (fresh_bnz _ _ _ _ _ _ H) in Hj. lia.
  Qed.

  Definition zero_matrix (d : defaults) (N M : nat) A : Prop :=
    ebwf A /\ clean A /\ bN A = N /\ bM A = M /\ bNB A = s_nb d /\ bMB A = s_mb d /\ bbs A = s_bsize d /\
    (forall ib, bcols A ib = []) /\ meq N (ebmx A) mzero.
  Lemma fresh_matrix d M N A : fresh (s_nb d) (s_mb d) M (s_bsize d) A -> bN A = N -> zero_matrix d N M A.
  Proof. intros H <-. destruct (fresh_zero _ _ _ _ _ H). destruct H. unfold zero_matrix. intuition. Qed.

  (** the first constructor chooses the sizes *)
  Theorem eb_zero_first N M : 0 < M -> M <= N ->
    exists d A, eb_zero (F:=F) None N M = Ok (Some d, A) /\ sizes_for d N /\ zero_matrix d N M A /\
      (forall ib, S ib < s_nb d -> bsz (s_bsize d) ib = 4) /\ (forall ib, ib < s_nb d -> 1 <= bsz (s_bsize d) ib <= 4) /\
      (M <= 4 * s_mb d \/ s_mb d = s_nb d).
  Proof.
    intros H1 H2. destruct (get_block_sizes_first N M) as (d & E & S & S1 & S2 & S3 & S4); [lia..|].
    destruct (eb_zero_ok (F:=F) None N M d H2 E S) as (A & EA & HF & HN). exists d, A. split; auto. split; auto.
    split; [apply fresh_matrix; auto|]. auto.
  Qed.
  (** all the later ones use these, whatever size is asked for *)
  Theorem eb_zero_again d n N M : M <= N -> sizes_for d n ->
    (n < M -> eb_zero (F:=F) (Some d) N M = Err) /\
    (M <= n -> exists A, eb_zero (F:=F) (Some d) N M = Ok (Some d, A) /\ zero_matrix d n M A).
  Proof.
    intros H1 H2. split; intros H. { eapply eb_zero_too_big; eauto. }
    destruct (eb_zero_later (F:=F) d n N M H1 H H2) as (A & EA & HF & HN). exists A. split; auto. apply fresh_matrix; auto.
  Qed.

  (** a program that makes zero matrices of the given N, M in turn *)
  Definition make_all (reqs : list (nat * nat)) (c : cache) : res (cache * list eb) :=
    forM reqs (fun nm s => let '(c, l) := s in '(c, A) <- eb_zero c (fst nm) (snd nm) ;; Ok (c, l ++ [A])) (c, []).
  (** every matrix it makes has the size of the first *)
  Theorem make_all_sizes N M reqs : 0 < M -> M <= N -> (forall n m, In (n, m) reqs -> m <= n) ->
    make_all ((N, M) :: reqs) None = Err \/
    exists c l, make_all ((N, M) :: reqs) None = Ok (c, l) /\ length l = S (length reqs) /\ (forall n m, In (n, m) reqs -> m <= N) /\
      forall A, In A l -> ebwf A /\ bN A = N /\ meq N (ebmx A) mzero.
  Proof.
    intros H1 H2 HR. unfold make_all. match goal with |- context[forM _ ?f _] => set (body := f) end.
    destruct (eb_zero_first N M H1 H2) as (d & A0 & E0 & HS & HZ & _).
    assert (EF : forall l s, forM ((N, M) :: l) body s = (s' <- body (N, M) s ;; forM l body s')) by reflexivity. rewrite EF.
    assert (EB : body (N, M) (None : cache, []) = Ok (Some d : cache, [A0])). { unfold body. cbn [fst snd]. rewrite E0. reflexivity. }
    rewrite EB. cbn [bind].
    assert (G : wpe (forM reqs body (Some d : cache, [A0]))
      (fun s => fst s = Some d /\ length (snd s) = S (length reqs) /\ (forall n m, In (n, m) reqs -> m <= N) /\
        forall A, In A (snd s) -> ebwf A /\ bN A = N /\ meq N (ebmx A) mzero)).
    { apply (forM_inv (fun pre s => fst s = Some d /\ length (snd s) = S (length pre) /\ (forall n m, In (n, m) pre -> m <= N) /\
        forall A, In A (snd s) -> ebwf A /\ bN A = N /\ meq N (ebmx A) mzero)).
      - cbn [fst snd length]. split; [reflexivity|]. split; [reflexivity|]. split; [intros ? ? []|].
        intros A [<-|[]]. unfold zero_matrix in HZ. tauto.
      - intros pre [n m] post [c l] E (P1 & P2 & P3 & P4). cbn [fst snd] in *. subst c. unfold body. cbn [fst snd].
        assert (Hm : m <= n). { apply HR. rewrite E. apply in_or_app. right. left. reflexivity. }
        destruct (eb_zero_again d N n m Hm HS) as [E1 E2]. destruct (Nat.le_gt_cases m N) as [L|L].
        + destruct (E2 L) as (A & -> & HA). cbn. split; [reflexivity|]. split; [rewrite !app_length, P2; cbn; lia|]. split.
          * intros a b Hab. apply in_app_or in Hab as [Hab|[Hab|[]]]; [eauto|]. injection Hab as <- <-. exact L.
          * intros A' HA'. apply in_app_or in HA' as [HA'|[<-|[]]]; auto. unfold zero_matrix in HA. tauto.
        + rewrite E1 by auto. exact I. }
    apply wpe_ok in G as [->|([c l] & -> & G1 & G2 & G3 & G4)]; [left; reflexivity|]. right. exists c, l. auto.
  Qed.

  (** ** Sequences of set_element *)

  (** the value last stored at i, j *)
  Definition last_set (ops : list (nat * nat * F)) (i j : nat) : option F :=
    match find (fun op => let '(i', j', _) := op in (i' =? i) && (j' =? j)) (rev ops) with Some (_, _, v) => Some v | None => None end.
  Definition set_all (ops : list (nat * nat * F)) (g : nat -> F) A : res eb :=
    forM ops (fun op A => let '(i, j, v) := op in eb_set_element A i j v g) A.

  Lemma last_set_snoc ops i j v i' j' : last_set (ops ++ [(i, j, v)]) i' j' = if ((i =? i') && (j =? j'))%bool then Some v else last_set ops i' j'.
  Proof. unfold last_set. rewrite rev_unit. cbn [find]. destruct ((i =? i') && (j =? j'))%bool; reflexivity. Qed.

  Lemma set_element_step A i j v g : ebwf A -> clean A -> i < bN A -> j < bN A ->
    wpe (eb_set_element A i j v g) (fun A' => ebwf A' /\ clean A' /\ same_dims A A' /\
      meq (bN A) (ebmx A') (fun i' j' => if ((i' =? i) && (j' =? j))%bool then v else ebmx A i' j')).
  Proof.
    intros W C Hi Hj. pose proof W as (HS & _). assert (Hib : blk_of A i < bNB A).
    { unfold blk_of. rewrite (shape_N A HS) in Hi. destruct (bloc_spec _ _ Hi) as (ib & ii & -> & P & _). rewrite (sh_bs A HS) in P. exact P. }
    pose proof (ebwf_nnz A _ W Hib) as Hn.
    destruct (in_dec Nat.eq_dec (blk_of A j) (bcols A (blk_of A i))) as [Y|Nn].
    - destruct (eb_set_element_ok A i j v g W C Hi Hj) as (A' & -> & W' & C' & K & V); [auto|]. cbn. split; auto. split; auto. split; auto. apply kin_dims; auto.
    - destruct (Nat.eq_dec (bnz A (blk_of A i)) (bMB A)) as [E|E].
      + rewrite eb_set_element_full; auto. exact I.
      + destruct (eb_set_element_ok A i j v g W C Hi Hj) as (A' & -> & W' & C' & K & V); [right; lia|]. cbn. split; auto. split; auto. split; auto. apply kin_dims; auto.
  Qed.

  (** any sequence of set_element calls stops with the error of a full row or
      ends in the matrix with the values stored last *)
  Theorem eb_set_history A ops g : ebwf A -> clean A -> (forall i j v, In (i, j, v) ops -> i < bN A /\ j < bN A) ->
    set_all ops g A = Err \/
    exists A', set_all ops g A = Ok A' /\ ebwf A' /\ clean A' /\ same_dims A A' /\
      (forall i j, i < bN A -> j < bN A -> eb_get_element A' i j = Ok (match last_set ops i j with Some v => v | None => ebmx A i j end)) /\
      meq (bN A) (ebmx A') (fun i j => match last_set ops i j with Some v => v | None => ebmx A i j end).
  Proof.
    intros W C HR. assert (G : wpe (set_all ops g A) (fun A' => ebwf A' /\ clean A' /\ same_dims A A' /\
       meq (bN A) (ebmx A') (fun i j => match last_set ops i j with Some v => v | None => ebmx A i j end))).
    { unfold set_all. apply (forM_inv (fun pre A' => ebwf A' /\ clean A' /\ same_dims A A' /\
       meq (bN A) (ebmx A') (fun i j => match last_set pre i j with Some v => v | None => ebmx A i j end))).
      - split; auto. split; auto. split; [unfold same_dims; auto|]. intros i j _ _. reflexivity.
      - intros pre [[i j] v] post B E (W' & C' & D & V). pose proof D as (DN & D'). destruct (HR i j v) as [Hi Hj]. { rewrite E. apply in_or_app. right. left. reflexivity. }
        eapply wp_mono; [apply set_element_step; auto; lia|]. cbn beta. intros B' (W2 & C2 & D2 & V2). split; auto. split; auto.
        split. { unfold same_dims in *. intuition congruence. }
        intros i' j' Hi' Hj'. rewrite V2 by lia. rewrite last_set_snoc. rewrite (Nat.eqb_sym i i'), (Nat.eqb_sym j j').
        destruct ((i' =? i) && (j' =? j))%bool; auto. }
    apply wpe_ok in G as [->|(A' & -> & W' & C' & D & V)]; [left; reflexivity|]. right. exists A'. split; auto. split; auto. split; auto. split; auto. split; auto.
    intros i j Hi Hj. pose proof D as (DN & _). rewrite eb_get_element_ok by (auto; lia). f_equal. apply V; auto.
  Qed.
  (** with room for every block no call can fail *)
  Theorem eb_set_history_room A ops g : ebwf A -> clean A -> bNB A <= bMB A -> (forall i j v, In (i, j, v) ops -> i < bN A /\ j < bN A) ->
    exists A', set_all ops g A = Ok A' /\ ebwf A' /\ clean A' /\ same_dims A A' /\
      meq (bN A) (ebmx A') (fun i j => match last_set ops i j with Some v => v | None => ebmx A i j end).
  Proof.
    intros W C HM HR. apply wp_ok. unfold set_all. apply (forM_inv (fun pre A' => ebwf A' /\ clean A' /\ same_dims A A' /\
       meq (bN A) (ebmx A') (fun i j => match last_set pre i j with Some v => v | None => ebmx A i j end))).
    - split; auto. split; auto. split; [unfold same_dims; auto|]. intros i j _ _. reflexivity.
    - intros pre [[i j] v] post B E (W' & C' & D & V). pose proof D as (DN & _ & DB & DM & _). destruct (HR i j v) as [Hi Hj]. { rewrite E. apply in_or_app. right. left. reflexivity. }
      assert (HB : forall k, k < bN B -> blk_of B k < bNB B).
      { pose proof W' as (HS & _). intros k Hk. unfold blk_of. rewrite (shape_N B HS) in Hk. destruct (bloc_spec _ _ Hk) as (ib & ii & -> & P & _). rewrite (sh_bs B HS) in P. exact P. }
      destruct (eb_set_element_ok B i j v g W' C') as (B' & -> & W2 & C2 & K2 & V2); [lia..| |].
      + destruct (in_dec Nat.eq_dec (blk_of B j) (bcols B (blk_of B i))) as [Y|Nn]; auto. right.
        pose proof W' as (_ & _ & HRows). specialize (HRows (blk_of B i) ltac:(apply HB; lia)).
        assert (NoDup (blk_of B j :: bcols B (blk_of B i))). { constructor; auto. apply HRows. }
        assert (length (blk_of B j :: bcols B (blk_of B i)) <= length (seq 0 (bNB B))).
        { apply NoDup_incl_length; auto. intros x [<-|Hx]; apply in_seq; [specialize (HB j); lia|].
          unfold bcols in Hx. apply in_map_iff in Hx as (p & <- & Hp). apply in_seq in Hp. pose proof (bro_cols _ _ HRows p). lia. }
        cbn [length] in *. unfold bcols in *. rewrite map_length, !seq_length in *. lia.
      + cbn. split; auto. split; auto. split. { apply kin_dims in K2. unfold same_dims in *. intuition congruence. }
        intros i' j' Hi' Hj'. rewrite V2 by lia. rewrite last_set_snoc. rewrite (Nat.eqb_sym i i'), (Nat.eqb_sym j j').
        destruct ((i' =? i) && (j' =? j))%bool; auto.
  Qed.

  (** ** set_row *)

  (** in a row without stored elements set_row stores the thresholded row *)
  Theorem eb_set_row_fresh (keep : F -> bool) A i row (g : nat -> F) : ebwf A -> i < bN A -> length row = bN A ->
    count (bNB A) (row_cols keep A i row) <= bMB A -> (forall j, j < bN A -> ebmx A i j = k0) ->
    exists A', eb_set_row keep A i row g = Ok A' /\ ebwf A' /\ (clean A -> clean A') /\ same_dims A A' /\
      meq (bN A) (ebmx A') (fun i' j' => if i' =? i then cut keep (nth j' row k0) else ebmx A i' j').
  Proof.
    intros W Hi HL HC HZ. destruct (eb_set_row_ok keep A i row g W Hi HL HC) as (A' & E & W' & C' & D & V). exists A'. split; auto. split; auto. split; auto. split; auto.
    intros i' j' Hi' Hj'. rewrite V by auto. destruct (Nat.eqb_spec i' i) as [->|]; auto. cbn [andb]. unfold cut. destruct (keep (nth j' row k0)); auto.
  Qed.
End Hist.
