(** Proofs about matrices distributed by rows: gathering, operations on the own
    rows, and reductions over the ranks (ellpack). *)
From Verif Require Import Base BaseFacts Spec SpecFacts EllpackModel EllpackSpec EllpackFacts EllpackOps EllpackArith
  EllpackMul EllpackMore EllpackNorm DenseModel DenseSpec DomainModel DomainSpec RowModel RowSpec RowFacts RowLocal.
From Coq Require Import Ring.

(** the rows of all ranks together *)
Lemma rows_perm P N M d : row_domain P N M d ->
  Permutation (flat_map (my_rows d) (seq 0 P)) (seq 0 N).
Proof.
  intros HD. apply NoDup_Permutation.
  - assert (H : forall k, k <= P -> NoDup (flat_map (my_rows d) (seq 0 k))).
    { induction k as [|k IH]; intros Hk; [constructor|].
      rewrite seq_S, flat_map_app. simpl. rewrite app_nil_r.
      apply NoDup_app_intro.
      - apply IH. lia.
      - apply seq_NoDup.
      - intros x Hx Hx'. apply in_flat_map in Hx as (r & Hr & Hx). apply in_seq in Hr.
        apply my_rows_owns in Hx, Hx'.
        assert (r = k) by (apply (owner_unique P N M d x); auto; lia). lia. }
    apply H. auto.
  - apply seq_NoDup.
  - intros i. rewrite in_flat_map, in_seq. split.
    + intros (r & Hr & Hi). apply in_seq in Hr. apply my_rows_owns in Hi.
      assert (i < N); [|lia]. apply (owns_lt P N M d r); auto. lia.
    + intros [_ Hi]. destruct (owner_exists P N M d i HD) as (r & Hr & Ho); [lia|].
      exists r. rewrite in_seq, my_rows_owns. auto with arith.
Qed.

Lemma rank_sched_on P N M d r nth sched : row_domain P N M d -> r < P -> rank_sched d r nth sched ->
  sched_on (my_rows d r) N sched.
Proof.
  intros HD Hr [HP _]. split; [auto|]. split; [apply seq_NoDup|].
  intros i Hi. apply my_rows_owns in Hi. apply (owns_lt P N M d r); auto.
Qed.

Lemma rank_sched_thr d r nth sched : rank_sched d r nth sched -> forall t i, In (t, i) sched -> t < nth.
Proof. intros [_ H]. auto. Qed.

Section RowOps.
  Context {F : scalar}.
  Local Open Scope K_scope.
  Add Ring KringRO : (k_ring F).
  Local Notation ell := (ell F).

  (** sum over the ranks *)
  Lemma lsum_flat (f : nat -> F) (g : nat -> list nat) l :
    lsum (map f (flat_map g l)) = lsum (map (fun r => lsum (map f (g r))) l).
  Proof. induction l as [|x l IH]; simpl; auto. rewrite map_app, lsum_app, IH. auto. Qed.

  Lemma allreduce_sum_ok order (vals : list F) P : length vals = P -> Permutation order (seq 0 P) ->
    allreduce_sum order vals = Ok (lsum vals).
  Proof.
    intros HL HP.
    assert (H : forall l s, (forall r, In r l -> (r < P)%nat) ->
       forM l (fun r s => v <- rd vals r ;; Ok (kadd s v)) s = Ok (s + lsum (map (fun r => nth r vals 0) l))).
    { induction l as [|r l IH]; intros s Hl; simpl.
      - f_equal. ring.
      - rewrite (rd_ok vals r 0) by (rewrite HL; apply Hl; left; auto). cbn [bind].
        rewrite IH by (intros; apply Hl; right; auto). f_equal. ring. }
    unfold allreduce_sum. rewrite H.
    - f_equal. rewrite (lsum_perm _ _ (Permutation_map (fun r => nth r vals 0) HP)).
      replace (map (fun r => nth r vals 0) (seq 0 P)) with vals; [ring|].
      apply (list_ext_nth _ _ 0).
      + rewrite map_length, seq_length. auto.
      + intros i Hi. rewrite (nth_map_seq (fun r => nth r vals 0)) by lia. auto.
    - intros r Hr. apply (Permutation_in _ HP) in Hr. apply in_seq in Hr. lia.
  Qed.

  (** every rank has the value of its rows: the allreduce is the value of all rows *)
  Lemma reduce_rows P N M d (f : nat -> F) (vals : list F) : row_domain P N M d -> length vals = P ->
    (forall r v, nth_error vals r = Some v -> v = lsum (map f (my_rows d r))) ->
    forall order, Permutation order (seq 0 P) -> allreduce_sum order vals = Ok (bigsum N f).
  Proof.
    intros HD HL Hv order HP. rewrite (allreduce_sum_ok order vals P) by auto. f_equal.
    rewrite <- (lsum_rows f N _ (rows_perm P N M d HD)), lsum_flat. f_equal.
    apply (list_ext_nth _ _ 0).
    - rewrite map_length, seq_length. auto.
    - intros i Hi. rewrite (nth_map_seq (fun r => lsum (map f (my_rows d r)))) by lia.
      apply Hv. apply some_nth. auto.
  Qed.

  (** ** gather *)
  Lemma map_some {S T} (f : S -> T) l r y : nth_error (map f l) r = Some y ->
    exists x, nth_error l r = Some x /\ y = f x.
  Proof.
    rewrite nth_error_map. destruct (nth_error l r); simpl; [|discriminate]. intros H. injection H as <-. eauto.
  Qed.

  Lemma erow_eq (A B : ell) i : eM A = eM B -> nnz A i = nnz B i -> (nnz A i <= eM A)%nat ->
    (forall j, (j < eM A)%nat -> nth (i * eM A + j) (eidx A) 0%nat = nth (i * eM A + j) (eidx B) 0%nat) ->
    (forall j, (j < eM A)%nat -> nth (i * eM A + j) (eval A) 0 = nth (i * eM A + j) (eval B) 0) ->
    erow A i = erow B i.
  Proof.
    intros HM Hn Hle H1 H2. unfold erow, slots. rewrite <- Hn, <- HM. apply map_ext_in.
    intros j Hj. apply in_seq in Hj. rewrite H1, H2 by lia. auto.
  Qed.

  Theorem row_gather_rows P N M d (As : list ell) : row_domain P N M d -> length As = P ->
    (forall r A, nth_error As r = Some A -> wf A /\ eN A = N /\ eM A = M) ->
    exists Bs, row_gather d As = Ok Bs /\ length Bs = P /\
      forall r B, nth_error Bs r = Some B -> wf B /\ eN B = N /\ eM B = M /\
        forall s A i, nth_error As s = Some A -> owns d s i -> erow B i = erow A i.
  Proof.
    intros HD HL HA. pose proof HD as ((S1 & S2 & S3 & S4 & S5) & HC & HPa & HDi).
    unfold row_gather.
    (* nnz *)
    destruct (allgatherv_ok 0%nat (localRowExtent d) (localRowMin d) (map ennz As) N) as (nn & En & Ln & Hn);
      try (rewrite map_length; lia).
    { intros r b H. apply map_some in H as (A & E & ->). destruct (HA r A E) as (((_ & _ & H3) & _) & <- & _). auto. }
    { rewrite map_length. intros s Hs. rewrite HL in Hs. destruct (rows_bound P N M d s HD Hs); auto. }
    { rewrite map_length. intros s t k Hs Ht H1 H2. apply (owner_unique P N M d k); try lia; auto.
      - apply (dom_rows_seg P N M); auto; lia.
      - apply (dom_rows_seg P N M); auto; lia. }
    rewrite En. cbn [bind]. rewrite map_length in Ln, Hn.
    assert (Hbound : forall s, (s < P)%nat -> nth s (localElements d) 0%nat = 0%nat \/
        (nth s (localDispl d) 0 + nth s (localElements d) 0 <= N * M)%nat).
    { intros s Hs. destruct (HC s Hs) as [C1 C2]. rewrite C2, HDi by auto.
      destruct (rows_bound P N M d s HD Hs) as [H|H]; [right; nia|left; rewrite H; auto]. }
    assert (Hdisj : forall s t k, (s < P)%nat -> (t < P)%nat ->
        in_seg (localElements d) (localDispl d) s k -> in_seg (localElements d) (localDispl d) t k -> s = t).
    { intros s t k Hs Ht H1 H2. apply (dom_elems_seg P N M) in H1; auto. apply (dom_elems_seg P N M) in H2; auto.
      apply (owner_unique P N M d (k / M)%nat); auto; tauto. }
    destruct (allgatherv_ok 0%nat (localElements d) (localDispl d) (map eidx As) (N * M)) as (xx & Ex & Lx & Hx);
      try (rewrite map_length; rewrite ?HL; auto; fail).
    { intros r b H. apply map_some in H as (A & E & ->). destruct (HA r A E) as (((_ & H2 & _) & _) & <- & <-). auto. }
    rewrite Ex. cbn [bind]. rewrite map_length in Lx, Hx.
    destruct (allgatherv_ok (0 : F) (localElements d) (localDispl d) (map eval As) (N * M)) as (vv & Ev & Lv & Hv);
      try (rewrite map_length; rewrite ?HL; auto; fail).
    { intros r b H. apply map_some in H as (A & E & ->). destruct (HA r A E) as (((H1 & _) & _) & <- & <-). auto. }
    rewrite Ev. cbn [bind]. rewrite map_length in Lv, Hv.
    destruct (ranks_ok (length As) (fun r =>
      A <- rd As r ;; n <- rd nn r ;; x <- rd xx r ;; v <- rd vv r ;; Ok (mkEll (eN A) (eM A) v x n))
      (fun r B => wf B /\ eN B = N /\ eM B = M /\
        forall s A i, nth_error As s = Some A -> owns d s i -> erow B i = erow A i)) as (Bs & EB & LB & HB).
    { intros r Hr. destruct (some_lt As r Hr) as (A & EA). rewrite (rd_some _ _ _ EA). cbn [bind].
      destruct (some_lt nn r) as (n & Er); [lia|]. rewrite (rd_some _ _ _ Er). cbn [bind].
      destruct (some_lt xx r) as (x & Exr); [lia|]. rewrite (rd_some _ _ _ Exr). cbn [bind].
      destruct (some_lt vv r) as (v & Evr); [lia|]. rewrite (rd_some _ _ _ Evr). cbn [bind wp wpq].
      destruct (HA r A EA) as (WA & NA & MA).
      destruct (Hn r n Er) as [Ln' Hn']. destruct (Hx r x Exr) as [Lx' Hx']. destruct (Hv r v Evr) as [Lv' Hv'].
      assert (HE : forall s A' i, nth_error As s = Some A' -> owns d s i ->
         erow (mkEll (eN A) (eM A) v x n) i = erow A' i).
      { intros s A' i Es Ho. assert (Hs : (s < P)%nat) by (rewrite <- HL; apply nth_error_Some; congruence).
        assert (Hi := owns_lt _ _ _ _ _ _ HD Hs Ho).
        destruct (HA s A' Es) as (WA' & NA' & MA').
        assert (Enth : forall T (f : ell -> list T), nth s (map f As) [] = f A').
        { intros T f. apply nth_error_nth. rewrite nth_error_map, Es. auto. }
        assert (Hnz : nnz (mkEll (eN A) (eM A) v x n) i = nnz A' i).
        { unfold nnz. simpl. rewrite (Hn' s i); [rewrite Enth; auto|lia|]. apply (dom_rows_seg P N M); auto. }
        apply erow_eq; simpl; auto; try congruence.
        - rewrite Hnz, MA, <- MA'. apply wf_nnz; auto. lia.
        - intros j Hj. rewrite MA in *. rewrite (Hx' s (i * M + j)%nat); [rewrite Enth; auto|lia|].
          apply (row_cell_seg P N M); auto.
        - intros j Hj. rewrite MA in *. rewrite (Hv' s (i * M + j)%nat); [rewrite Enth; auto|lia|].
          apply (row_cell_seg P N M); auto. }
      split; [|simpl; auto]. split; [unfold shape; simpl; repeat split; congruence|].
      simpl. rewrite NA. intros i Hi.
      destruct (owner_exists P N M d i HD Hi) as (s & Hs & Ho).
      destruct (some_lt As s) as (A' & Es); [lia|]. rewrite NA in HE. rewrite (HE s A' i Es Ho).
      destruct (HA s A' Es) as ((_ & HrA) & NA' & MA'). rewrite MA, <- NA', <- MA'. apply HrA. lia. }
    exists Bs. rewrite EB. split; [auto|]. split; [lia|]. auto.
  Qed.

  Theorem row_gather_ok P N M d (As : list ell) X : row_domain P N M d -> held P d N M As X ->
    exists Bs, row_gather d As = Ok Bs /\ replicated P N M Bs X.
  Proof.
    intros HD [HL HA].
    destruct (row_gather_rows P N M d As HD HL) as (Bs & E & LB & HB).
    { intros r A HrA. destruct (HA r A HrA) as (H1 & H2 & H3 & _). auto. }
    exists Bs. split; [auto|]. split; [auto|]. intros r B Er. destruct (HB r B Er) as (WB & NB & MB & Hrow).
    split; [auto|]. split; [auto|]. split; [auto|]. intros i j Hi Hj.
    destruct (owner_exists P N M d i HD Hi) as (s & Hs & Ho).
    destruct (some_lt As s) as (A & Es); [lia|]. unfold emat. rewrite (Hrow s A i Es Ho).
    destruct (HA s A Es) as (_ & _ & _ & H). apply (H i j); auto.
  Qed.

  (** what is replicated is also held *)
  Lemma replicated_held P N M d (As : list ell) X : row_domain P N M d -> replicated P N M As X -> held P d N M As X.
  Proof.
    intros HD [HL HA]. split; [auto|]. intros r A Er. destruct (HA r A Er) as (H1 & H2 & H3 & H4).
    split; [auto|]. split; [auto|]. split; [auto|]. intros i j Ho Hj. apply H4; auto.
    apply (owns_lt P N M d r); auto. rewrite <- HL. apply nth_error_Some. congruence.
  Qed.

  Lemma held_rd P d N M (As : list ell) X r : held P d N M As X -> (r < P)%nat ->
    exists A, rd As r = Ok A /\ nth_error As r = Some A /\ wf A /\ eN A = N /\ eM A = M /\
      forall i j, owns d r i -> (j < N)%nat -> emat A i j = X i j.
  Proof.
    intros [HL HA] Hr. destruct (some_lt As r) as (A & E); [lia|]. exists A.
    split; [apply rd_some; auto|]. split; [auto|]. apply (HA r A E).
  Qed.
  Lemma repl_rd P N M (As : list ell) X r : replicated P N M As X -> (r < P)%nat ->
    exists A, rd As r = Ok A /\ nth_error As r = Some A /\ wf A /\ eN A = N /\ eM A = M /\ meq N (emat A) X.
  Proof.
    intros [HL HA] Hr. destruct (some_lt As r) as (A & E); [lia|]. exists A.
    split; [apply rd_some; auto|]. split; [auto|]. apply (HA r A E).
  Qed.

  (** ranks run independently *)
  Lemma held_intro P d N M (f : nat -> res ell) X :
    (forall r, (r < P)%nat -> exists A, f r = Ok A /\ wf A /\ eN A = N /\ eM A = M /\
       forall i j, owns d r i -> (j < N)%nat -> emat A i j = X i j) ->
    exists As, ranks P f = Ok As /\ held P d N M As X.
  Proof.
    intros H. destruct (ranks_ok P f (fun r A => wf A /\ eN A = N /\ eM A = M /\
       forall i j, owns d r i -> (j < N)%nat -> emat A i j = X i j)) as (As & E & L & HA).
    { intros r Hr. destruct (H r Hr) as (A & E & HA). apply wp_ok. eauto. }
    exists As. split; [auto|]. split; auto.
  Qed.

  Lemma repl_intro P N M (f : nat -> res ell) X :
    (forall r, (r < P)%nat -> exists A, f r = Ok A /\ wf A /\ eN A = N /\ eM A = M /\ meq N (emat A) X) ->
    exists As, ranks P f = Ok As /\ replicated P N M As X.
  Proof.
    intros H. destruct (ranks_ok P f (fun r A => wf A /\ eN A = N /\ eM A = M /\ meq N (emat A) X)) as (As & E & L & HA).
    { intros r Hr. destruct (H r Hr) as (A & E & HA). apply wp_ok. eauto. }
    exists As. split; [auto|]. split; auto.
  Qed.

  Lemma done_mat (A A' : ell) rws target (Y : mat F) : rows_done A A' rws target ->
    (forall i j, In i rws -> (j < eN A)%nat -> elook (target i) j = Y i j) ->
    wf A' /\ eN A' = eN A /\ eM A' = eM A /\ forall i j, In i rws -> (j < eN A)%nat -> emat A' i j = Y i j.
  Proof.
    intros ((D1 & D2) & W & H1 & _) H. split; [auto|]. split; [auto|]. split; [auto|].
    intros i j Hi Hj. unfold emat. rewrite H1 by auto. auto.
  Qed.

  Lemma wf_nodup (A : ell) i : wf A -> (i < eN A)%nat -> NoDup (cols (erow A i)).
  Proof. intros [_ H] Hi. apply H; auto. Qed.

  Section Ops.
    Variables (P N M : nat) (d : domain).
    Hypothesis HD : row_domain P N M d.

    Lemma count_own (keep : F -> bool) (X Y : mat F) r (i : nat) : owns d r i ->
      (forall i j, owns d r i -> (j < N)%nat -> X i j = Y i j) ->
      count N (fun j => keep (X i j)) = count N (fun j => keep (Y i j)).
    Proof.
      intros Ho H. unfold count. f_equal. apply filter_ext_in. intros j Hj. apply in_seq in Hj.
      rewrite H; auto. lia.
    Qed.

    (** C = alpha A + beta B on the own rows *)
    Theorem row_add_ok (keep : F -> bool) alpha beta (As Bs : list ell) X Y nth scheds :
      held P d N M As X -> held P d N M Bs Y -> (forall r, (r < P)%nat -> rank_sched d r nth (scheds r)) ->
      fits N M keep (madd (mscale alpha X) (mscale beta Y)) ->
      exists Cs, row_add keep alpha beta As Bs scheds = Ok Cs /\
        held P d N M Cs (mcut keep (madd (mscale alpha X) (mscale beta Y))).
    Proof.
      intros HA HB HS Hf. unfold row_add. rewrite (proj1 HA). apply held_intro. intros r Hr.
      destruct (held_rd _ _ _ _ _ _ r HA Hr) as (A & EA & _ & WA & NA & MA & XA).
      destruct (held_rd _ _ _ _ _ _ r HB Hr) as (B & EB & _ & WB & NB & MB & XB).
      rewrite EA, EB. cbn [bind].
      assert (Hon := rank_sched_on P N M d r nth _ HD Hr (HS r Hr)). pose proof Hon as (_ & _ & Hlt).
      destruct (ell_add_on keep alpha beta A B (scheds r) (my_rows d r)) as (C & EC & HC); auto; try congruence.
      { intros i Hi. apply my_rows_owns in Hi as Ho. rewrite NA, MA.
        rewrite (count_own keep _ (madd (mscale alpha X) (mscale beta Y)) r i Ho).
        - apply Hf. auto.
        - intros i' j' Ho' Hj'. unfold madd, mscale. rewrite XA, XB; auto. }
      exists C. split; [auto|].
      destruct (done_mat A C _ _ (mcut keep (madd (mscale alpha X) (mscale beta Y))) HC) as (W & H1 & H2 & H3).
      { intros i j Hi Hj. assert (Hi' := Hlt i Hi). apply my_rows_owns in Hi.
        rewrite elook_addrow by (apply wf_nodup; auto; congruence).
        unfold mcut, madd, mscale. fold (emat A i j) (emat B i j). rewrite XA, XB by (auto; congruence). auto. }
      split; [auto|]. split; [congruence|]. split; [congruence|].
      intros i j Ho Hj. apply H3; [apply my_rows_owns; auto|congruence].
    Qed.

    (** threshold in place *)
    Theorem row_threshold_ok (keep : F -> bool) (As : list ell) X nth scheds :
      held P d N M As X -> (forall r, (r < P)%nat -> rank_sched d r nth (scheds r)) ->
      exists Cs, row_threshold keep As scheds = Ok Cs /\ held P d N M Cs (mcut keep X).
    Proof.
      intros HA HS. unfold row_threshold. rewrite (proj1 HA). apply held_intro. intros r Hr.
      destruct (held_rd _ _ _ _ _ _ r HA Hr) as (A & EA & _ & WA & NA & MA & XA).
      rewrite EA. cbn [bind].
      assert (Hon := rank_sched_on P N M d r nth _ HD Hr (HS r Hr)). pose proof Hon as (_ & _ & Hlt).
      destruct (ell_threshold_on keep A (scheds r) (my_rows d r)) as (C & EC & HC); auto; try congruence.
      exists C. split; [auto|].
      destruct (done_mat A C _ _ (mcut keep X) HC) as (W & H1 & H2 & H3).
      { intros i j Hi Hj. assert (Hi' := Hlt i Hi). apply my_rows_owns in Hi.
        rewrite elook_cutrow by (apply wf_nodup; auto; congruence).
        unfold mcut. fold (emat A i j). rewrite XA by (auto; congruence). auto. }
      split; [auto|]. split; [congruence|]. split; [congruence|].
      intros i j Ho Hj. apply H3; [apply my_rows_owns; auto|congruence].
    Qed.

    Theorem row_threshold_new_ok (keep : F -> bool) (As : list ell) X nth scheds :
      (0 < M)%nat -> held P d N M As X -> (forall r, (r < P)%nat -> rank_sched d r nth (scheds r)) ->
      exists Cs, row_threshold_new keep As scheds = Ok Cs /\ held P d N M Cs (mcut keep X).
    Proof.
      intros HM HA HS. unfold row_threshold_new. rewrite (proj1 HA). apply held_intro. intros r Hr.
      destruct (held_rd _ _ _ _ _ _ r HA Hr) as (A & EA & _ & WA & NA & MA & XA).
      rewrite EA. cbn [bind].
      assert (Hon := rank_sched_on P N M d r nth _ HD Hr (HS r Hr)). pose proof Hon as (_ & _ & Hlt).
      destruct (ell_threshold_new_on keep A (scheds r) (my_rows d r)) as (C & EC & (D1 & D2) & WC & HC & _);
        auto; try congruence; try lia.
      exists C. split; [auto|]. split; [auto|]. split; [congruence|]. split; [congruence|].
      intros i j Ho Hj. assert (Hi : In i (my_rows d r)) by (apply my_rows_owns; auto).
      assert (Hi' := Hlt i Hi). unfold emat. rewrite HC by auto.
      rewrite elook_cutrow by (apply wf_nodup; auto; congruence).
      unfold mcut. fold (emat A i j). rewrite XA by auto. auto.
    Qed.

    (** elementwise product *)
    Theorem row_element_multiply_ok (keep : F -> bool) (As Bs Cs : list ell) X Y Z nth scheds :
      held P d N M As X -> held P d N M Bs Y -> held P d N M Cs Z ->
      (forall r, (r < P)%nat -> rank_sched d r nth (scheds r)) ->
      exists Ds, row_element_multiply keep As Bs Cs scheds = Ok Ds /\ held P d N M Ds (mcut_offdiag keep (mhad X Y)).
    Proof.
      intros HA HB HC HS. unfold row_element_multiply. rewrite (proj1 HA). apply held_intro. intros r Hr.
      destruct (held_rd _ _ _ _ _ _ r HA Hr) as (A & EA & _ & WA & NA & MA & XA).
      destruct (held_rd _ _ _ _ _ _ r HB Hr) as (B & EB & _ & WB & NB & MB & XB).
      destruct (held_rd _ _ _ _ _ _ r HC Hr) as (C & EC & _ & WC & NC & MC & _).
      rewrite EA, EB, EC. cbn [bind].
      assert (Hon := rank_sched_on P N M d r nth _ HD Hr (HS r Hr)). pose proof Hon as (_ & _ & Hlt).
      destruct (ell_element_multiply_on keep A B C (scheds r) (my_rows d r)) as (D & ED & HDn); auto; try congruence; try lia.
      exists D. split; [auto|].
      destruct (done_mat C D _ _ (mcut_offdiag keep (mhad X Y)) HDn) as (W & H1 & H2 & H3).
      { intros i j Hi Hj. assert (Hi' := Hlt i Hi). apply my_rows_owns in Hi.
        rewrite elook_emulrow by (apply wf_nodup; auto; congruence).
        unfold mcut_offdiag, mhad. fold (emat A i j) (emat B i j). rewrite XA, XB by (auto; congruence). auto. }
      split; [auto|]. split; [congruence|]. split; [congruence|].
      intros i j Ho Hj. apply H3; [apply my_rows_owns; auto|congruence].
    Qed.

    (** product: the second factor must be on every rank *)
    Theorem row_multiply_AB_ok (keep : F -> bool) (As Bs Cs : list ell) X Y Z nth scheds :
      held P d N M As X -> replicated P N M Bs Y -> held P d N M Cs Z ->
      (forall r, (r < P)%nat -> rank_sched d r nth (scheds r)) ->
      (forall r A B i, nth_error As r = Some A -> nth_error Bs r = Some B -> owns d r i -> (prod_cols A B i <= M)%nat) ->
      exists Ds, row_multiply_AB keep As Bs Cs scheds = Ok Ds /\ held P d N M Ds (mcut_offdiag keep (mmul N X Y)).
    Proof.
      intros HA HB HC HS Hroom. unfold row_multiply_AB. rewrite (proj1 HA). apply held_intro. intros r Hr.
      destruct (held_rd _ _ _ _ _ _ r HA Hr) as (A & EA & nA & WA & NA & MA & XA).
      destruct (repl_rd _ _ _ _ _ r HB Hr) as (B & EB & nB & WB & NB & MB & XB).
      destruct (held_rd _ _ _ _ _ _ r HC Hr) as (C & EC & _ & WC & NC & MC & _).
      rewrite EA, EB, EC. cbn [bind].
      assert (Hon := rank_sched_on P N M d r nth _ HD Hr (HS r Hr)). pose proof Hon as (_ & _ & Hlt).
      destruct (ell_multiply_AB_on keep A B C (scheds r) (my_rows d r)) as (D & ED & HDn); auto; try congruence.
      { intros i Hi. apply my_rows_owns in Hi. rewrite MC. eauto. }
      exists D. split; [auto|].
      destruct (done_mat C D _ _ (mcut_offdiag keep (mmul N X Y)) HDn) as (W & H1 & H2 & H3).
      { intros i j Hi Hj. assert (Hi' := Hlt i Hi). apply my_rows_owns in Hi.
        rewrite elook_mulrow by (auto; congruence). rewrite NA, NC in *.
        assert (E : mmul N (emat A) (emat B) i j = mmul N X Y i j).
        { apply bigsum_ext. intros k Hk. rewrite XA, XB; auto. }
        unfold mcut_offdiag. rewrite E. auto. }
      split; [auto|]. split; [congruence|]. split; [congruence|].
      intros i j Ho Hj. apply H3; [apply my_rows_owns; auto|congruence].
    Qed.
  End Ops.
End RowOps.
