(** Concrete executions: witnesses of refuted properties and instances of the
    hypotheses of the theorems in PropsEllpack2.v. *)
From Verif Require Import Base BaseFacts Spec SpecFacts EllpackModel EllpackSpec EllpackFacts EllpackMul EllpackNorm EllpackAdjust EllpackHistModel EllpackHist EllpackCheck.

(** permutation matrix 0->1->2->0, one slot per row: the result of the
    transposition fits, the in-place algorithm overflows in between *)
Definition exCycle : ell Zscalar := @mkEll Zscalar 3 1 [5; 6; 7]%Z [1; 2; 0] [1; 1; 1].

Lemma transpose_refuted : exists (A : ell Zscalar), wf A /\
  (forall r, r < eN A -> colcount A r <= eM A) /\
  ((exists B i j, ell_transpose A = Ok B /\ i < eN A /\ j < eN A /\ emat B i j <> emat A j i) \/ ell_transpose A = UB).
Proof.
  exists exCycle. split; [apply wfb_ok; reflexivity|]. split.
  - apply (below_ok 3 (fun r => colcount exCycle r <=? eM exCycle)); [|reflexivity]. intros i H. apply Nat.leb_le in H. exact H.
  - first [right; reflexivity | left; eexists _, 0, 1; split; [vm_compute; reflexivity|]; do 2 (split; [vm_compute; lia|]); vm_compute; discriminate
          | left; eexists _, 0, 2; split; [vm_compute; reflexivity|]; do 2 (split; [vm_compute; lia|]); vm_compute; discriminate
          | left; eexists _, 1, 0; split; [vm_compute; reflexivity|]; do 2 (split; [vm_compute; lia|]); vm_compute; discriminate ].
Qed.

Lemma trace_mult_refuted : exists (A B : ell Zscalar) nth sched, wf A /\ wf B /\ same_dims A B /\ full_sched (eN A) nth sched /\
  exists t, ell_trace_mult A B nth sched = Ok t /\ t <> mtrace (eN A) (mmul (eN A) (emat A) (emat B)).
Proof.
  exists exA, exB, 2, exS. split; [apply exA_wf|]. split; [apply exB_wf|]. split; [split; reflexivity|]. split; [apply exS_full|].
  eexists. split; [vm_compute; reflexivity|]. vm_compute. discriminate.
Qed.

Lemma trace_mult_uninit : exists (A B : ell Zscalar) nth sched, wf A /\ wf B /\ same_dims A B /\ full_sched (eN A) nth sched /\
  ell_trace_mult A B nth sched = UB.
Proof.
  exists exA, (@mkEll Zscalar 3 3 [1; 0; 0; 0; 0; 0; 6; 0; 0]%Z [0; 0; 0; 0; 2; 0; 1; 0; 0] [1; 0; 1]), 2, exS.
  split; [apply exA_wf|]. split; [apply wfb_ok; reflexivity|]. split; [split; reflexivity|]. split; [apply exS_full|]. reflexivity.
Qed.

Definition dist2 (N : nat) (A B : mat Zscalar) : Zscalar := msum N (fun i j => ((A i j - B i j) * (A i j - B i j))%K).

(** a row stored in A only: uninitialised value *)
Lemma fnorm2_uninit : exists (A B : ell Zscalar) nth sched, wf A /\ wf B /\ same_dims A B /\ full_sched (eN A) nth sched /\
  ell_fnorm2_sq A B nth sched = UB.
Proof.
  exists (@mkEll Zscalar 1 1 [3]%Z [0] [1]), (@mkEll Zscalar 1 1 [0]%Z [0] [0]), 1, [(0, 0)].
  split; [apply wfb_ok; reflexivity|]. split; [apply wfb_ok; reflexivity|]. split; [split; reflexivity|].
  split; [apply full_schedb; reflexivity|]. reflexivity.
Qed.

(** an explicitly stored zero in A is counted twice *)
Lemma fnorm2_zero : exists (A B : ell Zscalar) nth sched, wf A /\ wf B /\ same_dims A B /\ full_sched (eN A) nth sched /\
  (forall i, i < eN A -> (nnz A i = 0 <-> nnz B i = 0)) /\
  exists t, ell_fnorm2_sq A B nth sched = Ok t /\ t <> dist2 (eN A) (emat A) (emat B).
Proof.
  exists (@mkEll Zscalar 1 1 [0]%Z [0] [1]), (@mkEll Zscalar 1 1 [3]%Z [0] [1]), 1, [(0, 0)].
  split; [apply wfb_ok; reflexivity|]. split; [apply wfb_ok; reflexivity|]. split; [split; reflexivity|].
  split; [apply full_schedb; reflexivity|]. split.
  - intros [|i] Hi; simpl in *; [|lia]. vm_compute. split; discriminate.
  - eexists. split; [vm_compute; reflexivity|]. vm_compute. discriminate.
Qed.

(** B with a different M is read at A's row offsets *)
Lemma fnorm2_dims : exists (A B : ell Zscalar) nth sched, wf A /\ wf B /\ eN A = eN B /\ full_sched (eN A) nth sched /\
  (forall i, i < eN A -> (nnz A i = 0 <-> nnz B i = 0)) /\
  (forall i, i < eN A -> forall kv, In kv (erow A i) -> snd kv <> k0) /\
  exists t, ell_fnorm2_sq A B nth sched = Ok t /\ t <> dist2 (eN A) (emat A) (emat B).
Proof.
  exists (@mkEll Zscalar 2 1 [3; 4]%Z [0; 1] [1; 1]), (@mkEll Zscalar 2 2 [3; 0; 4; 0]%Z [0; 0; 1; 0] [1; 1]), 1, [(0, 0); (0, 1)].
  split; [apply wfb_ok; reflexivity|]. split; [apply wfb_ok; reflexivity|]. split; [reflexivity|].
  split; [apply full_schedb; reflexivity|]. split; [|split].
  - intros [|[|i]] Hi; simpl in *; try lia; vm_compute; split; discriminate.
  - intros [|[|i]] Hi kv; simpl in Hi; try lia; intros [<-|[]]; vm_compute; discriminate.
  - eexists. split; [vm_compute; reflexivity|]. vm_compute. discriminate.
Qed.

(** a program of API calls that each respect their argument sizes and stay
    within M, after which the matrix holds a column twice *)
Lemma history_refuted : exists (cs : list (cmd Zscalar)) st,
  run cs [] = Ok st /\ ~ Forall wf st.
Proof.
  eexists [CZero 3 3; CSetElement 0 0 1 (7%Z : Zscalar); CSetElement 0 0 1 (8%Z : Zscalar)], _.
  split; [vm_compute; reflexivity|]. intros H. inversion H; subst. destruct H2 as [_ H2].
  specialize (H2 0 ltac:(simpl; lia)) as (_ & H2 & _). vm_compute in H2. inversion H2; subst. apply H4. simpl. auto.
Qed.

(** more than M elements set in a row: the counter exceeds M and the extra
    element lands in the next row *)
Lemma overflow_refuted : exists (cs : list (cmd Zscalar)) st A,
  run cs [] = Ok st /\ nth_error st 0 = Some A /\ (eM A < nnz A 0) /\ ~ wf A.
Proof.
  eexists [CZero 3 1; CSetElement 0 0 0 (7%Z : Zscalar); CSetElement 0 0 1 (8%Z : Zscalar)], _, _.
  split; [vm_compute; reflexivity|]. split; [reflexivity|]. split; [vm_compute; lia|].
  intros [_ H2]. specialize (H2 0 ltac:(simpl; lia)) as (H2 & _). vm_compute in H2. lia.
Qed.

Definition exProg : list (cmd Zscalar) :=
  [CZero 3 3; CSetElement 0 0 1 (7%Z : Zscalar); CSetRow 0 1 (gtZ 1) [4; 0; 5]%Z; CIdentity 3 3; CMultiplyAB 0 1 1 (gtZ 0) exS].

Lemma exProg_guarded : guarded (firstn 4 exProg) [].
Proof.
  unfold exProg. cbn [firstn guarded]. split; [exact I|]. cbn [exec getm]. simpl.
  split; [vm_compute; split; [lia|split; [lia|split; [right; intros []|right; lia]]]|].
  split; [vm_compute; lia|]. auto.
Qed.

(** adjust_AB: A = [1 1; 0 0], B = identity, thresholds that keep nothing:
    the exact row has 2 columns, M = 1 holds the kept (diagonal) entry, and
    the loop never ends *)
Definition exAdjA : ell Zscalar := @mkEll Zscalar 2 2 [1; 1; 0; 0]%Z [0; 1; 0; 0] [2; 0].
Definition exAdjB : ell Zscalar := @mkEll Zscalar 2 2 [1; 0; 1; 0]%Z [0; 0; 1; 0] [1; 1].
Definition exAdjC : ell Zscalar := @mkEll Zscalar 2 1 [0; 0]%Z [0; 0] [0; 0].
Definition exAdjS : list (nat * nat) := [(0, 0); (0, 1)].

Lemma adjust_refuted : exists (keeps : nat -> Zscalar -> bool) (A B C : ell Zscalar) nth scheds,
  wf A /\ wf B /\ eN A = eN B /\ wf C /\ eN C = eN A /\ (forall n, full_sched (eN A) nth (scheds n)) /\
  forall fuel, ell_adjust fuel 0 keeps A B C nth scheds = Loop.
Proof.
  exists (fun _ => gtZ 2), exAdjA, exAdjB, exAdjC, 1, (fun _ => exAdjS).
  assert (W1 : wf exAdjA) by (apply wfb_ok; reflexivity). assert (W2 : wf exAdjB) by (apply wfb_ok; reflexivity).
  assert (W3 : wf exAdjC) by (apply wfb_ok; reflexivity).
  assert (S1 : nat -> full_sched (eN exAdjA) 1 exAdjS) by (intros _; apply full_schedb; reflexivity).
  repeat (split; [assumption || reflexivity|]). intros fuel.
  apply (adjust_diverges fuel 0 _ exAdjA exAdjB exAdjC 1 _ 0); auto.
  - intros n [|[|i]] Hi; simpl in Hi; try lia; vm_compute; lia.
  - vm_compute. lia.
Qed.

Lemma trace_mult_symmetric {F : scalar} (A B : ell F) nth sched :
  wf A -> wf B -> same_dims A B -> full_sched (eN A) nth sched ->
  (forall i, i < eN A -> nnz A i = 0 \/ nnz B i <> 0) ->
  meq (eN A) (emat B) (mtrans (emat B)) ->
  ell_trace_mult A B nth sched = Ok (mtrace (eN A) (mmul (eN A) (emat A) (emat B))).
Proof. intros. rewrite ell_trace_mult_ok by auto. rewrite trace_mult_sym; auto. Qed.

(** [ 1 3 0 ; 3 0 2 ; 0 2 0 ] *)
Definition exSym : ell Zscalar :=
  @mkEll Zscalar 3 3 [1; 3; 0; 3; 2; 0; 2; 0; 0]%Z [0; 1; 0; 0; 2; 0; 1; 0; 0] [2; 2; 1].
Lemma exSym_ok : wf exA /\ wf exSym /\ same_dims exA exSym /\ full_sched (eN exA) 2 exS /\
  (forall i, i < eN exA -> nnz exA i = 0 \/ nnz exSym i <> 0) /\
  meq (eN exA) (emat exSym) (mtrans (emat exSym)).
Proof.
  split; [apply exA_wf|]. split; [apply wfb_ok; reflexivity|]. split; [split; reflexivity|]. split; [apply exS_full|]. split.
  - intros [|[|[|i]]] Hi; simpl in Hi; try lia; right; vm_compute; discriminate.
  - intros [|[|[|i]]] [|[|[|j]]] Hi Hj; simpl in Hi, Hj; try lia; reflexivity.
Qed.

Lemma bandwidth_max {F : scalar} (A : ell F) : wf A ->
  exists n, ell_bandwidth A = Ok n /\
    (forall i, i < eN A -> ell_row_bandwidth A i = Ok n \/ exists m, ell_row_bandwidth A i = Ok m /\ m < n) /\
    (0 < eN A -> exists i, i < eN A /\ ell_row_bandwidth A i = Ok n).
Proof.
  intros HA. destruct (bandwidth_ok A HA) as (n & E & H1 & H2). pose proof HA as [Hs _]. exists n. split; auto.
  unfold ell_row_bandwidth. split.
  - intros i Hi. rewrite e_nnz_ok by auto. specialize (H1 i Hi). destruct (Nat.eq_dec (nnz A i) n) as [->|]; auto. right. eexists; split; eauto. lia.
  - intros H0. destruct (H2 H0) as (i & Hi & <-). exists i. rewrite e_nnz_ok by auto. auto.
Qed.
