(** The csr structural invariant over all histories of API calls, and
    schedule independence. *)
From Verif Require Import Base BaseFacts Spec SpecFacts EllpackModel EllpackSpec EllpackFacts EllpackHist CsrModel CsrSpec CsrFacts CsrOps CsrMul CsrHash CsrMore
  CsrTrans CsrTop CsrHistModel.

Section CsrHist.
  Context {F : scalar}.
  Local Notation csr := (csr F).

  Lemma cgetm_bind (st : cstore F) h (k : csr -> res (cstore F)) Q : Forall cwf st ->
    (forall A, nth_error st h = Some A -> cwf A -> wpe (k A) Q) -> wpe (bind (cgetm st h) k) Q.
  Proof.
    intros Hst H. unfold cgetm. destruct (nth_error st h) as [A|] eqn:E; simpl; auto.
    apply H; auto. rewrite Forall_forall in Hst. apply Hst. eapply nth_error_In; eauto.
  Qed.

  Ltac one A E HA Hg := apply cgetm_bind; auto; intros A E HA; rewrite E in Hg.
  Ltac upd := simpl; apply Forall_set_nth; auto.
  Ltac new := simpl; apply Forall_app1; auto.

  Lemma cexec_ok (c : ccmd F) (st : cstore F) : Forall cwf st -> cguard c st -> wpe (cexec c st) (Forall cwf).
  Proof.
    intros Hst Hg. destruct c; simpl in Hg; simpl cexec; unfold chas, call_rows, small_rows in Hg.
    - new. apply csr_zero_ok.
    - destruct (csr_identity_ok (F:=F) N M s Hg) as (A & -> & _ & _ & Hw & _). new.
    - destruct (csr_banded_ok N M rnd s Hg) as (A & -> & _ & _ & Hw & _). new.
    - destruct (csr_random_ok N M rv rc Hg) as (A & -> & _ & _ & Hw & _). new.
    - destruct Hg as [H1 H2]. destruct (csr_import_ok o N M keep D s H1 H2) as (A & -> & _ & _ & Hw & _). new.
    - one A E HA Hg. destruct (csr_clear_ok A s HA Hg) as (B & -> & Hw & _). upd.
    - one A E HA Hg. destruct Hg as [H1 H2]. destruct (cset_row_spec keep A i row HA H1 H2) as (B & -> & Hw & _). upd.
    - one A E HA Hg. destruct Hg as [H1 H2]. destruct (cset_element_spec A i j v HA H1 H2) as (B & -> & Hw & _). upd.
    - one A E HA Hg. destruct (cset_diagonal_spec keep A diag HA Hg) as (B & -> & Hw & _). upd.
    - one A E HA Hg. destruct (cscale_inplace_spec a A s HA Hg) as (B & -> & Hw & _). upd.
    - one A E HA Hg. destruct (ccopy_new_spec A s HA Hg) as (B & -> & Hw & _). new.
    - one A E HA Hg. one B E2 HB Hg. destruct Hg as [H1 H2].
      destruct (ccopy_spec A B s HA HB H1 H2) as [[-> _]|(B' & -> & Hw & _)]; [simpl; auto|upd].
    - one A E HA Hg. one B E2 HB Hg. destruct Hg as (H1 & H2 & H3 & H4 & H5).
      destruct (Nat.eqb_spec h h2) as [->|Hne].
      + destruct (cadd_self_spec keep alpha beta A s1 s2 HA H2 H3 H4) as (C & -> & Hw & _). upd.
      + destruct (cadd_spec keep alpha beta A B s1 s2 HA HB H1 H2 H3 H4 (H5 Hne)) as (C & -> & Hw & _). upd.
    - one A E HA Hg. destruct Hg as (H1 & H2).
      destruct (cadd_identity_spec keep beta A s1 s2 HA H1 H2) as (B & -> & Hw & _). upd.
    - one A E HA Hg. destruct Hg as (H0 & H1 & H2).
      destruct (cscale_add_identity_spec keep alpha beta A s0 s1 s2 HA H0 H1 H2) as (B & -> & Hw & _). upd.
    - one A E HA Hg. destruct (cthreshold_spec keep A s HA Hg) as (B & -> & Hw & _). upd.
    - one A E HA Hg. destruct Hg as [H1 H2]. destruct (cthreshold_new_spec keep A s HA H1 H2) as (B & -> & Hw & _). new.
    - one A E HA Hg. one B E2 HB Hg. one C E3 HC Hg. destruct Hg as (_ & _ & H1 & H2 & H3).
      destruct (cmultiply_AB_spec keep A B C s HA HB H1 HC H2 H3) as (D & -> & Hw & _). upd.
    - one A E HA Hg. one B E2 HB Hg. one C E3 HC Hg. destruct Hg as (_ & _ & H1 & H2 & H3 & H4 & H5 & H6 & H7).
      destruct (Nat.eqb_spec h h2) as [->|E12].
      + assert (A = B) as <- by congruence.
        destruct (cmultiply_sq_spec keep alpha beta A C nth s1 s2 s3 HA HC H2 H3 H4 H5 H6 H7) as (D & -> & Hw & _). upd.
      + destruct (cmultiply_spec keep alpha beta A B C s1 s2 s3 HA HB H1 HC H2 (proj1 H3) H4 H5 H6 H7) as (D & -> & Hw & _). upd.
    - one A E HA Hg. one B E2 HB Hg. destruct Hg as (_ & H1 & H2).
      destruct (cmultiply_x2_spec keep A B nth s HA HB H1 H2) as (C & -> & Hw & _). upd.
    - one A E HA Hg. one B E2 HB Hg. one C E3 HC Hg. destruct Hg as (_ & _ & H1 & H2 & H3).
      destruct (celement_multiply_spec keep A B C s HA HB H1 HC H2 H3) as (D & -> & Hw & _). upd.
    - one A E HA Hg. destruct (ctranspose_new_spec A ev HA Hg) as (B & -> & Hw & _). new.
    - apply cgetm_bind; auto; intros A E HA. destruct (csr_transpose_ok A HA) as (B & -> & Hw & _). upd.
    - one A E HA Hg. destruct (csr_extract_ok keep A irow icol BN BM HA Hg) as (B & -> & Hw & _). new.
    - one A E HA Hg. one B E2 HB Hg. destruct Hg as (H1 & H2 & H3).
      destruct (csr_assign_ok A B irow icol HA HB H1 H2 H3) as (C & -> & Hw & _). upd.
  Qed.

  Lemma crun_ok (cs : list (ccmd F)) : forall st, Forall cwf st -> cguarded cs st ->
    crun cs st = Err \/ exists st', crun cs st = Ok st' /\ Forall cwf st'.
  Proof.
    induction cs as [|c cs IH]; intros st Hst Hg; unfold crun in *; cbn [forM cguarded] in *; [right; eauto|].
    destruct Hg as [Hc Hg]. assert (H := cexec_ok c st Hst Hc).
    destruct (cexec c st) as [st'| | |]; cbn [bind] in *; simpl in H; try contradiction; auto.
  Qed.

  (** ** schedule independence: the stored rows, in order, do not depend on the schedule *)
  Lemma cmultiply_AB_sched keep (A B C : csr) s1 s2 :
    cwf A -> cwf B -> cN A = cN B -> cwf C -> cN C = cN A ->
    Permutation (map snd s1) (seq 0 (cN A)) -> Permutation (map snd s2) (seq 0 (cN A)) ->
    exists C1 C2, csr_multiply_AB keep A B C s1 = Ok C1 /\ csr_multiply_AB keep A B C s2 = Ok C2 /\
      cdims C1 C2 /\ forall i, i < cN A -> crow C1 i = crow C2 i.
  Proof.
    intros HA HB HN HC HNC P1 P2.
    destruct (csr_multiply_AB_ok keep A B C s1 HA HB HN HC HNC P1) as (C1 & E1 & _ & [D1 D2] & R1).
    destruct (csr_multiply_AB_ok keep A B C s2 HA HB HN HC HNC P2) as (C2 & E2 & _ & [D3 D4] & R2).
    exists C1, C2. split; auto. split; auto. split; [split; congruence|]. intros i Hi. rewrite R1, R2; auto.
  Qed.

  Lemma celement_multiply_sched keep (A B C : csr) s1 s2 :
    cwf A -> cwf B -> cN A = cN B -> cwf C -> cN C = cN A ->
    Permutation (map snd s1) (seq 0 (cN A)) -> Permutation (map snd s2) (seq 0 (cN A)) ->
    exists C1 C2, csr_element_multiply keep A B C s1 = Ok C1 /\ csr_element_multiply keep A B C s2 = Ok C2 /\
      cdims C1 C2 /\ forall i, i < cN A -> crow C1 i = crow C2 i.
  Proof.
    intros HA HB HN HC HNC P1 P2.
    destruct (csr_element_multiply_ok keep A B C s1 HA HB HN HC HNC P1) as (C1 & E1 & _ & [D1 D2] & R1).
    destruct (csr_element_multiply_ok keep A B C s2 HA HB HN HC HNC P2) as (C2 & E2 & _ & [D3 D4] & R2).
    exists C1, C2. split; auto. split; auto. split; [split; congruence|]. intros i Hi. rewrite R1, R2; auto.
  Qed.

  Lemma cmultiply_x2_sched keep (X X2 : csr) n1 n2 s1 s2 :
    cwf X -> cwf X2 -> cN X2 = cN X -> full_sched (cN X) n1 s1 -> full_sched (cN X) n2 s2 ->
    exists C1 C2 t t2, csr_multiply_x2 keep X X2 n1 s1 = Ok (C1, t, t2) /\ csr_multiply_x2 keep X X2 n2 s2 = Ok (C2, t, t2) /\
      cdims C1 C2 /\ forall i, i < cN X -> crow C1 i = crow C2 i.
  Proof.
    intros HX HX2 HN P1 P2.
    destruct (csr_multiply_x2_ok keep X X2 n1 s1 HX HX2 HN P1) as (C1 & E1 & _ & [D1 D2] & R1).
    destruct (csr_multiply_x2_ok keep X X2 n2 s2 HX HX2 HN P2) as (C2 & E2 & _ & [D3 D4] & R2).
    exists C1, C2. do 2 eexists. split; [exact E1|]. split; [exact E2|]. split; [split; congruence|]. intros i Hi. rewrite R1, R2; auto.
  Qed.

  Lemma cthreshold_sched (keep : F -> bool) (A : csr) s1 s2 : cwf A ->
    Permutation (map snd s1) (seq 0 (cN A)) -> Permutation (map snd s2) (seq 0 (cN A)) ->
    exists B1 B2, csr_threshold keep A s1 = Ok B1 /\ csr_threshold keep A s2 = Ok B2 /\
      cdims B1 B2 /\ forall i, i < cN A -> crow B1 i = crow B2 i.
  Proof.
    intros HA P1 P2.
    destruct (csr_threshold_ok keep A s1 HA P1) as (C1 & E1 & _ & [D1 D2] & R1 & _).
    destruct (csr_threshold_ok keep A s2 HA P2) as (C2 & E2 & _ & [D3 D4] & R2 & _).
    exists C1, C2. split; auto. split; auto. split; [split; congruence|]. intros i Hi. rewrite R1, R2; auto.
  Qed.
End CsrHist.
