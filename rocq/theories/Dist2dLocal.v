(** The calls a task makes on its block, for blocks with room for full rows. *)
From Verif Require Import Base BaseFacts Spec SpecFacts EllpackModel EllpackSpec EllpackFacts EllpackOps EllpackArith EllpackMul EllpackMore
  EllpackMul2 EllpackExact EllpackRest EllpackNorm EllpackTrans CsrModel CsrSpec CsrRoom CsrFacts CsrOps CsrMul CsrHash CsrMore CsrTrans CsrTop
  GemmModel DenseModel DenseSpec GemmFacts DenseFacts DenseOps FormatModel FormatSpec FormatFacts FormatConv FormatHistModel FormatHistSpec FormatHist
  MpiModel Dist2dModel Dist2dSpec.
From Coq Require Import Ring.

Section Dist2dLocal.
  Context {F : scalar}.
  Local Open Scope K_scope.
  Add Ring Kringdloc : (k_ring F).
  Local Notation bmat := (bmat F).
  Local Notation env := (env F).

  Definition shaped (t : fmt) (n m : nat) (A : bmat) : Prop := bwf A /\ roomy n m A /\ bml_get_type A = t.
  Definition holds (t : fmt) (n m : nat) (X : mat F) (A : bmat) : Prop := shaped t n m A /\ meq n (bmx A) X.

  Lemma shaped_uniform t n m (l : list bmat) : uniform n m t l <-> Forall (shaped t n m) l.
  Proof. reflexivity. Qed.

  Lemma shaped_result t n m c (e : env) st st' o' A A' : uniform n m t st -> good_schedules n e ->
    bexec c e (st, []) = Ok (st', o') -> In A' st' -> shaped t n m A -> like A A' -> bwf A' -> shaped t n m A'.
  Proof.
    intros U E X HI (WA & RA & TA) HL W. split; auto.
    assert (S : Forall (bspace n) st').
    { refine (bexec_space n m c e st [] _ E (st', o') X). eapply Forall_impl; [|exact U]. simpl. tauto. }
    rewrite Forall_forall in S. split; [apply (roomy_like n m A); auto|]. destruct HL as [[HT _] _]. congruence.
  Qed.

  Ltac sh H := let W := fresh "W" in let R := fresh "R" in let T := fresh "T" in let NN := fresh "NN" in
    pose proof H as (W & R & T); assert (NN := proj1 R).

  Lemma sh_multiply t n m keep alpha beta (A B C : bmat) e : (0 < n)%nat -> good_schedules n e ->
    shaped t n m A -> shaped t n m B -> shaped t n m C ->
    exists C', bml_multiply keep alpha beta A B C e = Ok C' /\ shaped t n m C' /\
      meq n (bmx C') (tcut keep C (madd (mscale beta (bmx C)) (mscale alpha (toff keep C (mmul n (bmx A) (bmx B)))))).
  Proof.
    intros Hn E HA HB HC. sh HA. sh HB. sh HC.
    assert (U : uniform n m t [A; B; C]) by (repeat (constructor; [assumption|]); constructor).
    destruct (guard_roomy n m t (IMultiply 0 1 2 alpha beta keep) e [A; B; C]) as (_ & _ & _ & A0 & B0 & C0 & EA & EB & EC & G1 & G2 & G3 & G4); auto.
    { simpl. intros h [<-|[<-|[<-|[]]]]; lia. }
    { simpl. auto. }
    { simpl. auto. }
    injection EA as <-. injection EB as <-. injection EC as <-.
    destruct (bml_multiply_ok keep alpha beta A B C e) as (C' & X & WC & LC & MC); auto.
    exists C'. split; auto. split.
    - apply (shaped_result t n m (IMultiply 0 1 2 alpha beta keep) e [A; B; C] [A; B; C'] [] C); auto.
      + cbn [bexec bgetm nth_error bind]. rewrite X. reflexivity.
      + simpl. auto.
    - rewrite NN in MC. unfold tcut, toff in *. replace (sparse C) with (sparse A); [exact MC|].
      destruct A, C; simpl in *; congruence.
  Qed.

  Lemma sh_copy_new t n m (A : bmat) X e : good_schedules n e -> holds t n m X A ->
    exists B, bml_copy_new A e = Ok B /\ holds t n m X B.
  Proof.
    intros E [HA HX]. sh HA.
    destruct (bml_copy_new_ok A e) as (B & EB & WB & LB & MB); auto; [apply (good_env_of n m); auto|].
    exists B. split; auto. split.
    - apply (shaped_result t n m (ICopyNew 0) e [A] [A; B] [] A); auto; [constructor; auto|..|simpl; auto].
      cbn [bexec bgetm nth_error bind]. rewrite EB. reflexivity.
    - rewrite NN in MB. eapply meq_trans; eauto.
  Qed.

  (** in-place calls *)
  Lemma sh_inplace t n m c e (f : bmat -> res bmat) (A A' : bmat) : shaped t n m A -> good_schedules n e ->
    (forall B, bexec c e ([B], []) = (C <- f B ;; Ok ([C], []))) -> f A = Ok A' -> bwf A' -> like A A' -> shaped t n m A'.
  Proof.
    intros HA E HB Hf W L. apply (shaped_result t n m c e [A] [A'] [] A); auto; [constructor; auto|..|simpl; auto].
    rewrite HB, Hf. reflexivity.
  Qed.

  Lemma sh_transpose t n m (A : bmat) X e : (0 < n)%nat -> good_schedules n e -> holds t n m X A ->
    exists B, bml_transpose A e = Ok B /\ holds t n m (mtrans X) B.
  Proof.
    intros Hn E [HA HX]. sh HA.
    destruct (guard_roomy n m t (ITranspose 0) e [A]) as (A0 & EA & G1 & G2); auto.
    { constructor; auto. }
    { simpl. intros h [<-|[]]; lia. }
    { simpl. auto. }
    { simpl. auto. }
    injection EA as <-.
    destruct (bml_transpose_ok A e) as (B & EB & WB & LB & MB); auto. exists B. split; auto. split.
    - apply (sh_inplace t n m (ITranspose 0) e (fun A => bml_transpose A e) A); auto.
    - rewrite NN in MB. eapply meq_trans; [exact MB|]. apply meq_mtrans, HX.
  Qed.

  Lemma sh_add t n m keep alpha beta (A B : bmat) e : (0 < n)%nat -> good_schedules n e -> shaped t n m A -> shaped t n m B ->
    exists C, bml_add keep alpha beta A B e = Ok C /\ shaped t n m C /\
      meq n (bmx C) (tcut keep A (madd (mscale alpha (bmx A)) (mscale beta (bmx B)))).
  Proof.
    intros Hn E HA HB. sh HA. sh HB.
    destruct (guard_roomy n m t (IAdd 0 1 alpha beta keep) e [A; B]) as (_ & A0 & B0 & EA & EB & G1 & G2 & G3); auto.
    { repeat (constructor; [assumption|]); constructor. }
    { simpl. intros h [<-|[<-|[]]]; lia. }
    { simpl. auto. }
    { simpl. auto. }
    injection EA as <-. injection EB as <-.
    destruct (bml_add_ok keep alpha beta A B e) as (C & EC & WC & LC & MC); auto. exists C. split; auto. split; [|rewrite <- NN; exact MC].
    apply (shaped_result t n m (IAdd 0 1 alpha beta keep) e [A; B] [C; B] [] A); auto.
    - repeat (constructor; [assumption|]); constructor.
    - cbn [bexec bgetm nth_error bind]. rewrite EC. reflexivity.
    - simpl. auto.
  Qed.

  Lemma sh_add_identity t n m keep beta (A : bmat) e : (0 < n)%nat -> good_schedules n e -> shaped t n m A ->
    exists C, bml_add_identity keep beta A e = Ok C /\ shaped t n m C /\
      meq n (bmx C) (tcut keep A (madd (bmx A) (mscale beta mid))).
  Proof.
    intros Hn E HA. sh HA.
    destruct (guard_roomy n m t (IAddIdentity 0 beta keep) e [A]) as (A0 & EA & G1 & G2); auto.
    { constructor; auto. }
    { simpl. intros h [<-|[]]; lia. }
    { simpl. auto. }
    { simpl. auto. }
    injection EA as <-.
    destruct (bml_add_identity_ok keep beta A e) as (C & EC & WC & LC & MC); auto. exists C. split; auto. split; [|rewrite <- NN; exact MC].
    apply (sh_inplace t n m (IAddIdentity 0 beta keep) e (fun A => bml_add_identity keep beta A e) A); auto.
  Qed.

  Lemma sh_scale_add_identity t n m keep alpha beta (A : bmat) e : (0 < n)%nat -> good_schedules n e -> shaped t n m A ->
    exists C, bml_scale_add_identity keep alpha beta A e = Ok C /\ shaped t n m C /\
      meq n (bmx C) (tcut keep A (madd (mscale alpha (bmx A)) (mscale beta mid))).
  Proof.
    intros Hn E HA. sh HA.
    destruct (guard_roomy n m t (IScaleAddIdentity 0 alpha beta keep) e [A]) as (A0 & EA & G1 & G2); auto.
    { constructor; auto. }
    { simpl. intros h [<-|[]]; lia. }
    { simpl. auto. }
    { simpl. auto. }
    injection EA as <-.
    destruct (bml_scale_add_identity_ok keep alpha beta A e) as (C & EC & WC & LC & MC); auto. exists C. split; auto. split; [|rewrite <- NN; exact MC].
    apply (sh_inplace t n m (IScaleAddIdentity 0 alpha beta keep) e (fun A => bml_scale_add_identity keep alpha beta A e) A); auto.
  Qed.

  Lemma sh_scale_inplace t n m a (A : bmat) e : good_schedules n e -> shaped t n m A ->
    exists C, bml_scale_inplace a A e = Ok C /\ shaped t n m C /\ meq n (bmx C) (mscale a (bmx A)).
  Proof.
    intros E HA. sh HA.
    destruct (bml_scale_inplace_ok a A e) as (C & EC & WC & LC & MC); auto; [apply (good_env_of n m); auto|].
    exists C. split; auto. split; [|rewrite <- NN; exact MC].
    apply (sh_inplace t n m (IScale 0 a) e (fun A => bml_scale_inplace a A e) A); auto.
  Qed.

  Lemma sh_threshold t n m keep (A : bmat) e : good_schedules n e -> shaped t n m A ->
    exists C, bml_threshold keep A e = Ok C /\ shaped t n m C /\ meq n (bmx C) (mcut keep (bmx A)).
  Proof.
    intros E HA. sh HA.
    destruct (bml_threshold_ok keep A e) as (C & EC & WC & LC & MC); auto; [apply (good_env_of n m); auto|].
    exists C. split; auto. split; [|rewrite <- NN; exact MC].
    apply (sh_inplace t n m (IThreshold 0 keep) e (fun A => bml_threshold keep A e) A); auto.
  Qed.

  (** sequential loops *)
  Definition seq_env (n : nat) : env :=
    mkEnv 1 (fun _ => map (pair 0%nat) (seq 0 n)) (fun _ => map (pair 0%nat) (seq 0 (n * n))) (map (pair 0%nat) (seq 0 (n - 1)))
      (fun l => l) (fun _ => 0) (fun _ => 0%nat).
  Lemma seq_env_good n : good_schedules n (seq_env n).
  Proof.
    assert (H : forall k, full_sched k 1 (map (pair 0%nat) (seq 0 k))).
    { intros k. split.
      - rewrite map_map, map_id. reflexivity.
      - intros t i H. apply in_map_iff in H as (x & Hx & _). injection Hx as <- _. lia. }
    split; [intros; apply H|]. split; [intros; apply H|]. split; [apply H|]. intros l. apply Permutation_refl.
  Qed.

  Lemma sh_set_diagonal t n m keep (A : bmat) (diag : list F) : (0 < n)%nat -> length diag = n -> shaped t n m A ->
    exists C, bml_set_diagonal keep A diag = Ok C /\ shaped t n m C /\
      meq n (bmx C) (fun i j => if (i =? j)%nat then tcut keep A (fun i _ => nth i diag 0) i i else bmx A i j).
  Proof.
    intros Hn HD HA. assert (E := seq_env_good n). generalize dependent (seq_env n). intros e E. sh HA.
    destruct (guard_roomy n m t (ISetDiagonal 0 keep diag) e [A]) as (A0 & EA & G1 & G2); auto.
    { constructor; auto. }
    { simpl. intros h [<-|[]]; lia. }
    { simpl. auto. }
    injection EA as <-.
    destruct (bml_set_diagonal_ok keep A diag) as (C & EC & WC & LC & MC); auto. exists C. split; auto. split; [|rewrite <- NN; exact MC].
    apply (sh_inplace t n m (ISetDiagonal 0 keep diag) e (fun A => bml_set_diagonal keep A diag) A); auto.
  Qed.

  (** ** Messages *)
  Lemma csr_nnz_le (A : csr F) : cwf A -> (csr_nnz A <= cN A * cN A)%nat.
  Proof.
    intros W. assert (L := cwf_len A W). unfold csr_nnz.
    assert (H : forall r, In r (cdata A) -> (rnnz r <= cN A)%nat).
    { intros r Hr. apply (In_nth _ _ row0) in Hr as (i & Hi & <-). assert (Hi' : (i < cN A)%nat) by lia.
      rewrite (row_is_nnz _ _ (cwf_is A i W Hi')). apply crow_len; auto. }
    rewrite <- L at 1. clear L. induction (cdata A) as [|r l IH]; simpl; [lia|].
    assert (H1 := H r (or_introl eq_refl)). assert (H2 := IH (fun x Hx => H x (or_intror Hx))). lia.
  Qed.

  Lemma row_lists (r : row F) E : row_is r E ->
    for_n (rnnz r) (fun k '(cs, vs) => '(j, v) <- r_get r k ;; Ok (cs ++ [j], vs ++ [v])) ([], []) = Ok (map fst E, map snd E).
  Proof.
    intros H. apply wp_eq. eapply wp_mono.
    - apply (for_n_inv (fun k '(cs, vs) => cs = map fst (firstn k E) /\ vs = map snd (firstn k E))).
      + auto.
      + intros k [cs vs] Hk [-> ->]. rewrite (row_is_nnz _ _ H) in Hk. rewrite (r_get_ok r E k H Hk). cbn [bind].
        destruct (nth k E (0%nat, 0)) as [j v] eqn:En. apply wp_ok. eexists. split; [reflexivity|]. cbn beta iota.
        rewrite (firstn_S_nth E k (0%nat, 0)) by auto. rewrite !map_app, En. auto.
    - intros [cs vs] [-> ->]. rewrite (row_is_nnz _ _ H), firstn_all. reflexivity.
  Qed.

  Lemma csr_receive_ok nz (own msg : csr F) : cwf own -> cwf msg -> cN own = cN msg -> (cN own <= cM own)%nat ->
    exists A, csr_receive nz own msg = Ok A /\ cwf A /\ cdims own A /\
      forall i, (i < cN own)%nat -> crow A i = filter (fun kv => nz (snd kv)) (crow msg i).
  Proof.
    intros WO WM HN HM. unfold csr_receive. assert (L := csr_nnz_le msg WM).
    destruct (Nat.ltb_spec (cM own * cN own * 2) (csr_nnz msg)) as [Hc|_]; [nia|].
    apply wp_ok. eapply wp_mono.
    - apply (for_n_inv (fun k A => cwf A /\ cdims own A /\
        forall i, (i < k)%nat -> crow A i = filter (fun kv => nz (snd kv)) (crow msg i))).
      + split; auto. split; [repeat split|]. intros i Hi. lia.
      + intros k A Hk (WA & DA & HA). assert (HkM : (k < cN msg)%nat) by lia.
        rewrite (c_row_ok msg k) by (rewrite (cwf_len msg WM); auto). cbn [bind].
        rewrite (row_lists _ _ (cwf_is msg k WM HkM)). cbn [bind].
        assert (HkA : (k < cN A)%nat) by (destruct DA; congruence || lia).
        destruct (csr_set_sparse_row_ok nz A k (map fst (crow msg k)) (map snd (crow msg k))) as (A' & EA & UA).
        { apply WA. } { exact HkA. } { rewrite !map_length. reflexivity. }
        rewrite EA. apply wp_ok. exists A'. split; [reflexivity|].
        assert (EC : combine (map fst (crow msg k)) (map snd (crow msg k)) = crow msg k).
        { clear. induction (crow msg k) as [|[a b] l IH]; simpl; [|rewrite IH]; reflexivity. }
        rewrite EC in UA.
        destruct (cupd_wf A A' k _ WA HkA UA) as (WA' & DA' & R1 & R2).
        { destruct WM as [_ CM]. assert (EN : cN A = cN msg) by (destruct DA; congruence). rewrite EN. specialize (CM k HkM).
          destruct CM as [ND IN]. split; [apply NoDup_cols_filter, ND|].
          - intros q Hq. apply IN. unfold cols in *. apply in_map_iff in Hq as (x & <- & Hx). apply filter_In in Hx as [Hx _]. apply in_map. exact Hx. }
        split; auto. split; [destruct DA, DA'; split; congruence|].
        intros i Hi. destruct (Nat.eq_dec i k) as [->|Ne]; [exact R1|]. rewrite R2 by auto. apply HA. lia.
    - intros A HA. exact HA.
  Qed.

  Ltac pcb := apply pc_bind; eapply pc_mono; [apply pc_any|]; intros ? _.
  Lemma ample_copy N (A B : csr F) sched : ample N B -> pc (csr_copy A B sched) (ample N).
  Proof.
    intros H. unfold csr_copy. destruct (negb _); [apply pc_err|]. apply pc_bind. eapply pc_mono; [apply (pc_par_for _ _ (ample N)); [exact H|]|].
    - intros i C w HC. pcb. apply pc_bind. eapply pc_mono; [apply space_row, HC|]. intros b Hb.
      apply pc_bind. eapply pc_mono with (P := space N).
      + unfold copy_row. destruct (_ <? _)%nat; [apply pc_err|]. unfold memcpy_row. apply pc_bind.
        eapply pc_mono; [apply (pc_for_n _ _ (fun c => (N <= length c)%nat)); [exact Hb|]|].
        * intros p c Hc. pcb. eapply pc_mono; [apply pc_wr|]. simpl. intros c' ->. exact Hc.
        * intros c Hc. apply pc_ok. exact Hc.
      + intros b' Hb'. apply pc_bind. eapply pc_mono; [apply ample_put; [exact HC|exact Hb']|]. intros C' HC'. apply pc_ok. exact HC'.
    - intros [C w] HC. apply pc_ok. exact HC.
  Qed.
  Lemma ample_identity N K M sched : (N <= M)%nat -> pc (csr_identity K M sched : res (csr F)) (ample N).
  Proof.
    intros HM. unfold csr_identity. apply pc_bind. eapply pc_mono; [apply (pc_par_for _ _ (ample N)); [apply ample_zero, HM|]|].
    - intros i C w HC. apply pc_bind. eapply pc_mono; [apply space_row, HC|]. intros b Hb.
      apply pc_bind. eapply pc_mono; [apply space_put, Hb|]. intros b' Hb'.
      apply pc_bind. eapply pc_mono; [apply ample_put; [exact HC|exact Hb']|]. intros C' HC'. apply pc_ok. exact HC'.
    - intros [C w] HC. apply pc_ok. exact HC.
  Qed.
  Lemma ample_import N o K M (keep : F -> bool) D sched : (N <= M)%nat -> pc (csr_import o K M keep D sched) (ample N).
  Proof.
    intros HM. unfold csr_import. apply pc_bind. eapply pc_mono; [apply (pc_par_for _ _ (ample N)); [apply ample_zero, HM|]|].
    - intros i C w HC. apply pc_bind. eapply pc_mono; [apply space_row, HC|]. intros b Hb.
      apply pc_bind. eapply pc_mono; [apply (pc_for_n _ _ (space N)); [exact Hb|]|].
      + intros j r Hr. pcb. destruct (keep a); [|apply pc_ok, Hr]. apply space_push, Hr.
      + intros b' Hb'. apply pc_bind. eapply pc_mono; [apply ample_put; [exact HC|exact Hb']|]. intros C' HC'. apply pc_ok. exact HC'.
    - intros [C w] HC. apply pc_ok. exact HC.
  Qed.

  Lemma ample_receive N nz (own msg : csr F) : ample N own -> pc (csr_receive nz own msg) (ample N).
  Proof.
    intros H. unfold csr_receive. destruct (_ <? _); [apply pc_err|]. apply pc_for_n; auto.
    intros i A HA. apply pc_bind. eapply pc_mono; [apply pc_any|]. intros r _.
    apply pc_bind. eapply pc_mono; [apply pc_any|]. intros [cs vs] _. apply ample_set_sparse_row, HA.
  Qed.

  Lemma sh_receive t n m nz (own msg : bmat) X : keeps_nonzero nz -> shaped t n m own -> holds t n m X msg ->
    exists A, bml_receive nz own msg = Ok A /\ holds t n m X A.
  Proof.
    intros K HO [HM HX]. sh HO. sh HM. destruct own as [own|own|own], msg as [msg|msg|msg]; simpl in T, T0, NN, NN0; try congruence.
    - exists (BDense msg). cbn [bml_receive]. rewrite NN, NN0, Nat.eqb_refl. split; [reflexivity|split; assumption].
    - exists (BEll msg). cbn [bml_receive]. destruct R as (_ & _ & R), R0 as (_ & _ & R0). rewrite NN, NN0, R, R0, !Nat.eqb_refl.
      split; [reflexivity|split; assumption].
    - destruct (csr_receive_ok nz own msg) as (A & EA & WA & DA & RA); auto; [congruence|destruct R as (_ & R1 & R2 & _); congruence|].
      exists (BCsr A). cbn [bml_receive]. rewrite NN, NN0, Nat.eqb_refl. split; [rewrite EA; reflexivity|].
      assert (SP : ample n A) by (refine (ample_receive n nz own msg _ A EA); apply (roomy_space n m (BCsr own)); auto).
      split.
      + split; [exact WA|]. split; [|exact T]. apply (roomy_like n m (BCsr own)); auto. destruct DA. repeat split; simpl; congruence.
      + intros i j Hi Hj. rewrite <- (HX i j Hi Hj). cbn [bmx]. unfold cmat. rewrite RA by congruence.
        rewrite elook_filter by (apply W0; congruence). apply cut_exact, K.
  Qed.

  (** ** A copy into new memory *)
  Lemma noinit_shaped t n m e : (n <= m)%nat -> (n <= table_max)%nat -> shaped t n m (bml_noinit_matrix t n m e).
  Proof.
    intros Hm Ht. destruct t; cbn [bml_noinit_matrix].
    - split; [apply dense_noinit_wf|]. split; [|reflexivity]. repeat split; auto.
    - split; [apply wf_noinit|]. split; [|reflexivity]. repeat split; auto.
    - assert (W := proj1 (@csr_noinit_ok F n m)). split; [exact W|]. split; [|reflexivity].
      split; [reflexivity|]. split; [exact Hm|]. split; [reflexivity|]. split; [exact Ht|].
      apply (ample_calloc n (csr_noinit n m)); auto. apply ample_noinit, Hm.
  Qed.

  Lemma sh_copy t n m (A B : bmat) X e : (0 < n)%nat -> good_schedules n e -> holds t n m X A -> shaped t n m B ->
    exists C, bml_copy A B e = Ok C /\ holds t n m X C.
  Proof.
    intros Hn E [HA HX] HB. sh HA. sh HB. destruct A as [A|A|A], B as [B|B|B]; simpl in T, T0, NN, NN0; try congruence; cbn [bml_copy].
    - rewrite dense_copy_ok by (auto; congruence). exists (BDense A). split; [reflexivity|split; assumption].
    - destruct R as (_ & R1 & R), R0 as (_ & _ & R0). rewrite ell_copy_ok.
      + exists (BEll A). split; [reflexivity|split; assumption].
      + apply W.
      + apply W0.
      + split; congruence.
      + lia.
    - destruct (csr_copy_ok A B (e_rows e 0)) as (C & EC & WC & DC & RC); auto.
      + congruence.
      + rewrite NN. apply (proj1 E 0%nat).
      + intros i Hi. eapply Nat.le_trans; [apply crow_len; auto|]. destruct R0 as (_ & _ & _ & _ & R0). rewrite NN in *. apply R0, Hi.
      + exists (BCsr C). rewrite EC. split; [reflexivity|]. split.
        * split; [exact WC|]. split; [|exact T0]. apply (roomy_like n m (BCsr B)); auto; [destruct DC; repeat split; simpl; congruence|].
          refine (ample_copy n A B (e_rows e 0) _ C EC). apply (roomy_space n m (BCsr B)); auto.
        * intros i j Hi Hj. rewrite <- (HX i j Hi Hj). cbn [bmx]. unfold cmat. rewrite RC by congruence. reflexivity.
  Qed.

  Lemma sh_dist_copy t p n m N M (A : bmat) X e0 e1 : (0 < n)%nat -> (0 < p)%nat -> N = (p * n)%nat -> m = (M / p)%nat -> good_schedules n e1 ->
    holds t n m X A -> exists B, dist_copy_block p N M A e0 e1 = Ok B /\ holds t n m X B.
  Proof.
    intros Hn Hp HN Hm E HX. destruct HX as [HA HX]. pose proof HA as (WA & RA & TA).
    assert (NN := proj1 RA). assert (LE := proj1 (proj2 RA)).
    assert (M <> 0)%nat by (intros ->; rewrite Nat.div_0_l in Hm by lia; lia).
    unfold dist_copy_block, dist_noinit_block, dist_setup.
    destruct (Nat.eqb_spec M 0) as [|_]; [lia|]. destruct (Nat.eqb_spec N 0) as [|_]; [nia|]. cbn [orb].
    assert (DN : (N / p = n)%nat) by (subst N; rewrite Nat.mul_comm; apply Nat.div_mul; lia). rewrite DN.
    destruct (Nat.eqb_spec (n * p) N) as [_|]; [|nia]. cbn [bind]. rewrite TA, <- Hm.
    destruct t.
    - apply (sh_copy FDense n m); auto; [split; auto|]. split; [apply dense_noinit_wf|]. split; [|reflexivity]. repeat split; auto.
    - apply (sh_copy FEll n m); auto; [split; auto|]. split; [apply wf_noinit|]. split; [|reflexivity]. repeat split; auto.
    - apply (sh_copy FCsr n m); auto; [split; auto|]. apply noinit_shaped; auto. destruct A; try discriminate TA. exact (proj1 (proj2 (proj2 (proj2 RA)))).
  Qed.
End Dist2dLocal.
