(** Two runs of one program on different formats. *)
From Verif Require Import Base BaseFacts Spec SpecFacts EllpackModel EllpackSpec EllpackFacts EllpackOps EllpackArith EllpackMul EllpackMore
  EllpackMul2 EllpackExact EllpackRest EllpackNorm EllpackTrans CsrModel CsrSpec CsrRoom CsrFacts CsrOps CsrMul CsrHash CsrMore CsrTrans CsrTop
  GemmModel DenseModel DenseSpec GemmFacts DenseFacts DenseOps FormatModel FormatSpec FormatFacts FormatConv FormatHistModel FormatHistSpec.
From Coq Require Import Ring.

Section FormatHist.
  Context {F : scalar}.
  Local Open Scope K_scope.
  Add Ring Kringfmt3 : (k_ring F).
  Local Notation bmat := (bmat F).
  Local Notation env := (env F).
  Local Notation instr := (@instr F).

  (** ** Congruences *)
  Lemma meq_madd N (A B A' B' : mat F) : meq N A A' -> meq N B B' -> meq N (madd A B) (madd A' B').
  Proof. intros H1 H2 i j Hi Hj. unfold madd. rewrite H1, H2; auto. Qed.
  Lemma meq_mscale N a (A A' : mat F) : meq N A A' -> meq N (mscale a A) (mscale a A').
  Proof. intros H1 i j Hi Hj. unfold mscale. rewrite H1; auto. Qed.
  Lemma meq_mhad N (A B A' B' : mat F) : meq N A A' -> meq N B B' -> meq N (mhad A B) (mhad A' B').
  Proof. intros H1 H2 i j Hi Hj. unfold mhad. rewrite H1, H2; auto. Qed.
  Lemma meq_mmul N (A B A' B' : mat F) : meq N A A' -> meq N B B' -> meq N (mmul N A B) (mmul N A' B').
  Proof. intros H1 H2 i j Hi Hj. unfold mmul. apply bigsum_ext. intros k Hk. rewrite H1, H2; auto. Qed.
  Lemma meq_mtrans N (A A' : mat F) : meq N A A' -> meq N (mtrans A) (mtrans A').
  Proof. intros H1 i j Hi Hj. unfold mtrans. apply H1; auto. Qed.
  Lemma meq_mcut N keep (A A' : mat F) : meq N A A' -> meq N (mcut keep A) (mcut keep A').
  Proof. intros H1 i j Hi Hj. unfold mcut. rewrite H1; auto. Qed.
  Lemma mtrace_meq N (A A' : mat F) : meq N A A' -> mtrace N A = mtrace N A'.
  Proof. intros H. apply bigsum_ext. intros i Hi. apply H; auto. Qed.
  Lemma msum_meq N (A A' : mat F) : meq N A A' -> msum N A = msum N A'.
  Proof. intros H. apply bigsum_ext. intros i Hi. apply bigsum_ext. intros j Hj. apply H; auto. Qed.
  Lemma meq_tcut N keep (A B : bmat) (X Y : mat F) : comparable keep A B -> meq N X Y -> meq N (tcut keep A X) (tcut keep B Y).
  Proof.
    intros [H|H] HM i j Hi Hj; unfold tcut.
    - destruct (sparse A), (sparse B); unfold mcut; rewrite ?cut_exact by auto; auto.
    - rewrite H. destruct (sparse B); [unfold mcut; f_equal; auto|auto].
  Qed.
  Lemma meq_toff N keep (A B : bmat) (X Y : mat F) : comparable keep A B -> meq N X Y -> meq N (toff keep A X) (toff keep B Y).
  Proof.
    intros [H|H] HM i j Hi Hj; unfold toff.
    - destruct (sparse A), (sparse B); unfold mcut_offdiag; rewrite ?cut_exact by auto; destruct (i =? j)%nat; auto.
    - rewrite H. destruct (sparse B); [unfold mcut_offdiag; rewrite HM; auto|auto].
  Qed.

  Lemma like_N (A B : bmat) : like A B -> bml_get_N A = bml_get_N B.
  Proof. intros [[_ H] _]. auto. Qed.
  Lemma like_sparse (A B : bmat) : alike A B -> sparse A = sparse B.
  Proof. intros [H _]. destruct A, B; simpl in *; congruence. Qed.

  Lemma agree_intro (D1 D2 C1 C2 : bmat) X1 X2 : bwf C1 -> like D1 C1 -> bwf C2 -> like D2 C2 -> bml_get_N D1 = bml_get_N D2 ->
    meq (bml_get_N D1) (bmx C1) X1 -> meq (bml_get_N D2) (bmx C2) X2 -> meq (bml_get_N D1) X1 X2 -> agree D1 D2 C1 C2.
  Proof.
    intros W1 L1 W2 L2 HN E1 E2 E. do 4 (split; [assumption|]). apply like_N in L1, L2. split; [congruence|].
    intros i j Hi Hj. rewrite <- L1 in *. rewrite E1, E2 by (auto; congruence). apply E; auto.
  Qed.

  Ltac both L1 L2 :=
    destruct L1 as (C1 & E1 & W1 & K1 & V1); auto; destruct L2 as (C2 & E2 & W2 & K2 & V2); auto;
    exists C1, C2; split; [exact E1|]; split; [exact E2|].

  Section TwoRuns.
    Variables (A1 A2 B1 B2 D1 D2 : bmat) (e1 e2 : env).
    Hypotheses (WA1 : bwf A1) (WA2 : bwf A2) (SA : same_matrix A1 A2) (G1 : good_env A1 e1) (G2 : good_env A2 e2).

    Lemma add_formats keep alpha beta : bwf B1 -> bwf B2 -> alike A1 B1 -> alike A2 B2 -> same_matrix B1 B2 ->
      comparable keep A1 A2 -> add_room keep alpha beta A1 B1 -> add_room keep alpha beta A2 B2 ->
      exists C1 C2, bml_add keep alpha beta A1 B1 e1 = Ok C1 /\ bml_add keep alpha beta A2 B2 e2 = Ok C2 /\ agree A1 A2 C1 C2.
    Proof.
      intros WB1 WB2 LB1 LB2 SB HC R1 R2.
      both (bml_add_ok keep alpha beta A1 B1 e1) (bml_add_ok keep alpha beta A2 B2 e2).
      destruct SA as [HN SV], SB as [HNB SVB], LB1 as [_ LN]. eapply agree_intro; eauto.
      apply meq_tcut; auto. apply meq_madd; apply meq_mscale; auto. rewrite LN. auto.
    Qed.

    Lemma add_identity_formats keep beta : comparable keep A1 A2 -> identity_room beta A1 -> identity_room beta A2 ->
      exists C1 C2, bml_add_identity keep beta A1 e1 = Ok C1 /\ bml_add_identity keep beta A2 e2 = Ok C2 /\ agree A1 A2 C1 C2.
    Proof.
      intros HC R1 R2. both (bml_add_identity_ok keep beta A1 e1) (bml_add_identity_ok keep beta A2 e2).
      destruct SA as [HN SV]. eapply agree_intro; eauto. apply meq_tcut; auto. apply meq_madd; auto. apply meq_refl.
    Qed.

    Lemma scale_add_identity_formats keep alpha beta : comparable keep A1 A2 -> identity_room beta A1 -> identity_room beta A2 ->
      exists C1 C2, bml_scale_add_identity keep alpha beta A1 e1 = Ok C1 /\ bml_scale_add_identity keep alpha beta A2 e2 = Ok C2 /\ agree A1 A2 C1 C2.
    Proof.
      intros HC R1 R2. both (bml_scale_add_identity_ok keep alpha beta A1 e1) (bml_scale_add_identity_ok keep alpha beta A2 e2).
      destruct SA as [HN SV]. eapply agree_intro; eauto. apply meq_tcut; auto. apply meq_madd; [apply meq_mscale; auto|apply meq_refl].
    Qed.

    Lemma multiply_AB_formats keep : bwf B1 -> bwf B2 -> bwf D1 -> bwf D2 -> alike A1 B1 -> alike A2 B2 -> alike A1 D1 -> alike A2 D2 ->
      same_matrix B1 B2 -> comparable keep A1 A2 -> product_room A1 B1 D1 -> product_room A2 B2 D2 ->
      exists C1 C2, bml_multiply_AB keep A1 B1 D1 e1 = Ok C1 /\ bml_multiply_AB keep A2 B2 D2 e2 = Ok C2 /\ agree D1 D2 C1 C2.
    Proof.
      intros WB1 WB2 WD1 WD2 LB1 LB2 LD1 LD2 SB HC R1 R2.
      both (bml_multiply_AB_ok keep A1 B1 D1 e1) (bml_multiply_AB_ok keep A2 B2 D2 e2).
      destruct SA as [HN SV], SB as [HNB SVB], LB1 as [_ LN], LD1 as [_ LD1], LD2 as [_ LD2].
      eapply agree_intro; eauto; [congruence|rewrite <- LD1; exact V1|rewrite <- LD2; exact V2|].
      rewrite <- LD1, <- HN. apply meq_toff; auto. apply meq_mmul; auto. rewrite LN. auto.
    Qed.

    Lemma multiply_formats keep alpha beta : bwf B1 -> bwf B2 -> bwf D1 -> bwf D2 -> alike A1 B1 -> alike A2 B2 -> alike A1 D1 -> alike A2 D2 ->
      same_matrix B1 B2 -> same_matrix D1 D2 -> comparable keep A1 A2 ->
      multiply_room keep alpha beta A1 B1 D1 -> multiply_room keep alpha beta A2 B2 D2 ->
      exists C1 C2, bml_multiply keep alpha beta A1 B1 D1 e1 = Ok C1 /\ bml_multiply keep alpha beta A2 B2 D2 e2 = Ok C2 /\ agree D1 D2 C1 C2.
    Proof.
      intros WB1 WB2 WD1 WD2 LB1 LB2 LD1 LD2 SB SD HC R1 R2.
      both (bml_multiply_ok keep alpha beta A1 B1 D1 e1) (bml_multiply_ok keep alpha beta A2 B2 D2 e2).
      destruct SA as [HN SV], SB as [HNB SVB], SD as [HND SVD], LB1 as [_ LN], LD1 as [_ LD1], LD2 as [_ LD2].
      eapply agree_intro; [exact W1|exact K1|exact W2|exact K2|exact HND|rewrite <- LD1; exact V1|rewrite <- LD2; exact V2|].
      rewrite <- HN. apply meq_tcut; auto. apply meq_madd; [apply meq_mscale; auto|]. apply meq_mscale. rewrite <- LD1. apply meq_toff; auto.
      apply meq_mmul; auto. rewrite LN. auto.
    Qed.

    Lemma multiply_x2_formats keep : bwf D1 -> bwf D2 -> alike A1 D1 -> alike A2 D2 -> comparable keep A1 A2 ->
      square_room keep A1 D1 -> square_room keep A2 D2 ->
      exists C1 C2 t t2, bml_multiply_x2 keep A1 D1 e1 = Ok (C1, t, t2) /\ bml_multiply_x2 keep A2 D2 e2 = Ok (C2, t, t2) /\ agree D1 D2 C1 C2.
    Proof.
      intros WD1 WD2 LD1 LD2 HC R1 R2.
      destruct (bml_multiply_x2_ok keep A1 D1 e1) as (C1 & E1 & W1 & K1 & V1); auto.
      destruct (bml_multiply_x2_ok keep A2 D2 e2) as (C2 & E2 & W2 & K2 & V2); auto.
      destruct SA as [HN SV], LD1 as [_ LD1], LD2 as [_ LD2].
      assert (HP : meq (bml_get_N A1) (mmul (bml_get_N A1) (bmx A1) (bmx A1)) (mmul (bml_get_N A2) (bmx A2) (bmx A2))).
      { rewrite <- HN. apply meq_mmul; auto. }
      exists C1, C2, (mtrace (bml_get_N A1) (bmx A1)), (mtrace (bml_get_N A1) (mmul (bml_get_N A1) (bmx A1) (bmx A1))).
      split; [exact E1|]. split.
      - rewrite E2. rewrite <- HN at 1 2. rewrite (mtrace_meq _ _ _ SV), (mtrace_meq _ _ _ HP). auto.
      - eapply agree_intro; eauto; [congruence|rewrite <- LD1; exact V1|rewrite <- LD2; exact V2|].
        rewrite <- LD1. apply meq_toff; auto.
    Qed.

    Lemma element_multiply_formats keep : bwf B1 -> bwf B2 -> bwf D1 -> bwf D2 -> alike A1 B1 -> alike A2 B2 -> alike A1 D1 -> alike A2 D2 ->
      same_matrix B1 B2 -> comparable keep A1 A2 -> had_room A1 D1 -> had_room A2 D2 ->
      exists C1 C2, bml_element_multiply_AB keep A1 B1 D1 e1 = Ok C1 /\ bml_element_multiply_AB keep A2 B2 D2 e2 = Ok C2 /\ agree D1 D2 C1 C2.
    Proof.
      intros WB1 WB2 WD1 WD2 LB1 LB2 LD1 LD2 SB HC R1 R2.
      both (bml_element_multiply_ok keep A1 B1 D1 e1) (bml_element_multiply_ok keep A2 B2 D2 e2).
      destruct SA as [HN SV], SB as [HNB SVB], LB1 as [_ LN], LD1 as [_ LD1], LD2 as [_ LD2].
      eapply agree_intro; eauto; [congruence|rewrite <- LD1; exact V1|rewrite <- LD2; exact V2|].
      rewrite <- LD1. apply meq_toff; auto. apply meq_mhad; auto. rewrite LN. auto.
    Qed.

    Lemma transpose_new_formats : transpose_room A1 -> transpose_room A2 ->
      exists C1 C2, bml_transpose_new A1 e1 = Ok C1 /\ bml_transpose_new A2 e2 = Ok C2 /\ agree A1 A2 C1 C2.
    Proof.
      intros R1 R2. both (bml_transpose_new_ok A1 e1) (bml_transpose_new_ok A2 e2).
      destruct SA as [HN SV]. eapply agree_intro; eauto. apply meq_mtrans; auto.
    Qed.
    Lemma transpose_formats : transpose_inplace_room A1 -> transpose_inplace_room A2 ->
      exists C1 C2, bml_transpose A1 e1 = Ok C1 /\ bml_transpose A2 e2 = Ok C2 /\ agree A1 A2 C1 C2.
    Proof.
      intros R1 R2. both (bml_transpose_ok A1 e1) (bml_transpose_ok A2 e2).
      destruct SA as [HN SV]. eapply agree_intro; eauto. apply meq_mtrans; auto.
    Qed.
    Lemma scale_inplace_formats a :
      exists C1 C2, bml_scale_inplace a A1 e1 = Ok C1 /\ bml_scale_inplace a A2 e2 = Ok C2 /\ agree A1 A2 C1 C2.
    Proof.
      both (bml_scale_inplace_ok a A1 e1) (bml_scale_inplace_ok a A2 e2).
      destruct SA as [HN SV]. eapply agree_intro; eauto. apply meq_mscale; auto.
    Qed.
    Lemma copy_new_formats :
      exists C1 C2, bml_copy_new A1 e1 = Ok C1 /\ bml_copy_new A2 e2 = Ok C2 /\ agree A1 A2 C1 C2.
    Proof.
      both (bml_copy_new_ok A1 e1) (bml_copy_new_ok A2 e2).
      destruct SA as [HN SV]. eapply agree_intro; eauto.
    Qed.
    (** thresholding has the same effect in every format *)
    Lemma threshold_formats keep :
      exists C1 C2, bml_threshold keep A1 e1 = Ok C1 /\ bml_threshold keep A2 e2 = Ok C2 /\ agree A1 A2 C1 C2.
    Proof.
      both (bml_threshold_ok keep A1 e1) (bml_threshold_ok keep A2 e2).
      destruct SA as [HN SV]. eapply agree_intro; eauto. apply meq_mcut; auto.
    Qed.
    Lemma set_diagonal_formats keep (diag : list F) : length diag = bml_get_N A1 -> comparable keep A1 A2 ->
      diag_room keep A1 diag -> diag_room keep A2 diag ->
      exists C1 C2, bml_set_diagonal keep A1 diag = Ok C1 /\ bml_set_diagonal keep A2 diag = Ok C2 /\ agree A1 A2 C1 C2.
    Proof.
      intros HL HC R1 R2. destruct SA as [HN SV].
      destruct (bml_set_diagonal_ok keep A1 diag) as (C1 & E1 & W1 & K1 & V1); auto.
      destruct (bml_set_diagonal_ok keep A2 diag) as (C2 & E2 & W2 & K2 & V2); [auto|congruence|auto|].
      exists C1, C2; split; [exact E1|]; split; [exact E2|]. eapply agree_intro; eauto.
      intros i j Hi Hj. simpl. destruct (i =? j)%nat; auto. apply (meq_tcut (bml_get_N A1)); auto. apply meq_refl.
    Qed.

    Lemma get_element_formats i j : (i < bml_get_N A1)%nat -> (j < bml_get_N A1)%nat ->
      exists v, bml_get_element A1 i j = Ok v /\ bml_get_element A2 i j = Ok v.
    Proof.
      intros Hi Hj. destruct SA as [HN SV]. exists (bmx A1 i j). rewrite !bml_get_element_ok by (auto; congruence). rewrite SV; auto.
    Qed.
    Lemma get_row_formats i : (i < bml_get_N A1)%nat ->
      exists r, bml_get_row A1 i = Ok r /\ bml_get_row A2 i = Ok r.
    Proof.
      intros Hi. destruct SA as [HN SV]. exists (map (bmx A1 i) (seq 0 (bml_get_N A1))). rewrite !bml_get_row_ok by (auto; congruence).
      split; auto. rewrite <- HN. f_equal. apply map_ext_in. intros j Hj. apply in_seq in Hj. symmetry. apply SV; auto. lia.
    Qed.
    Lemma trace_formats : exists t, bml_trace A1 e1 = Ok t /\ bml_trace A2 e2 = Ok t.
    Proof.
      destruct SA as [HN SV]. exists (mtrace (bml_get_N A1) (bmx A1)). rewrite !bml_trace_ok by auto. split; auto.
      rewrite <- HN. f_equal. symmetry. apply mtrace_meq; auto.
    Qed.
    Lemma sum_squares_formats : exists t, bml_sum_squares A1 e1 = Ok t /\ bml_sum_squares A2 e2 = Ok t.
    Proof.
      destruct SA as [HN SV]. exists (msum (bml_get_N A1) (mhad (bmx A1) (bmx A1))). rewrite !bml_sum_squares_ok by auto. split; auto.
      rewrite <- HN. f_equal. symmetry. apply msum_meq; auto. apply meq_mhad; auto.
    Qed.
    Lemma sum_AB_formats keep alpha : bwf B1 -> bwf B2 -> alike A1 B1 -> alike A2 B2 -> same_matrix B1 B2 -> norm_room A1 -> norm_room A2 ->
      exists t, bml_sum_AB keep alpha A1 B1 e1 = Ok t /\ bml_sum_AB keep alpha A2 B2 e2 = Ok t.
    Proof.
      intros WB1 WB2 LB1 LB2 SB R1 R2. destruct SA as [HN SV], SB as [HNB SVB]. eexists. rewrite !bml_sum_AB_ok by auto. split; [reflexivity|].
      rewrite <- HN. f_equal. symmetry. apply msum_meq; auto. apply meq_mcut, meq_mscale, meq_mhad; auto. destruct LB1 as [_ ->]. auto.
    Qed.
    Lemma sum_squares2_formats keep alpha beta : bwf B1 -> bwf B2 -> alike A1 B1 -> alike A2 B2 -> same_matrix B1 B2 -> norm_room A1 -> norm_room A2 ->
      exists t, bml_sum_squares2 keep alpha beta A1 B1 e1 = Ok t /\ bml_sum_squares2 keep alpha beta A2 B2 e2 = Ok t.
    Proof.
      intros WB1 WB2 LB1 LB2 SB R1 R2. destruct SA as [HN SV], SB as [HNB SVB]. eexists. rewrite !bml_sum_squares2_ok by auto. split; [reflexivity|].
      cbv zeta. rewrite <- HN. f_equal. symmetry. apply msum_meq; auto.
      apply meq_mhad; apply meq_mcut, meq_madd; apply meq_mscale; auto; destruct LB1 as [_ ->]; auto.
    Qed.
  End TwoRuns.

  (** ** Programs *)

  Lemma Forall2_nth_error {X Y} (R : X -> Y -> Prop) l l' h x : Forall2 R l l' -> nth_error l h = Some x ->
    exists y, nth_error l' h = Some y /\ R x y.
  Proof.
    intros H. revert h. induction H as [|a b l l' Hab H IH]; intros [|h] E; simpl in *; try discriminate.
    - inversion E; subst. eauto.
    - auto.
  Qed.
  Lemma Forall2_set_nth {X Y} (R : X -> Y -> Prop) l l' h x y : Forall2 R l l' -> R x y -> Forall2 R (set_nth l h x) (set_nth l' h y).
  Proof.
    intros H Hxy. revert h. induction H as [|a b l l' Hab H IH]; intros [|h]; simpl; auto.
  Qed.
  Lemma Forall_set_nth {X} (P : X -> Prop) l h x : Forall P l -> P x -> Forall P (set_nth l h x).
  Proof. intros H Hx. revert h. induction H as [|a l Ha H IH]; intros [|h]; simpl; auto. Qed.
  Lemma Forall_nth_error {X} (P : X -> Prop) l h x : Forall P l -> nth_error l h = Some x -> P x.
  Proof. intros H E. apply nth_error_In in E. rewrite Forall_forall in H. auto. Qed.

  Definition related (s1 s2 : @bstore F) : Prop :=
    Forall2 same_matrix (fst s1) (fst s2) /\ snd s1 = snd s2.
  Definition stores_ok (s1 s2 : @bstore F) : Prop :=
    Forall bwf (fst s1) /\ Forall bwf (fst s2) /\ related s1 s2.
  Definition same_effect (c : instr) (s1 s2 : @bstore F) : Prop :=
    exact_instr c \/ same_kind (fst s1) (fst s2).

  Lemma get_at (st : list bmat) h A : at_handle st h A -> bgetm st h = Ok A.
  Proof. unfold at_handle, bgetm. intros ->. auto. Qed.

  (** relations that do not depend on the contents of the matrices *)
  Definition shape_rel (R : bmat -> bmat -> Prop) : Prop := forall A B A' B', R A B -> like A A' -> like B B' -> R A' B'.
  Definition shape_kept (st1 st2 st1' st2' : list bmat) : Prop :=
    forall R, shape_rel R -> Forall2 R st1 st2 -> Forall2 R st1' st2'.

  Lemma rel_at (R : bmat -> bmat -> Prop) st1 st2 h D1 D2 : Forall2 R st1 st2 -> at_handle st1 h D1 -> at_handle st2 h D2 -> R D1 D2.
  Proof.
    intros HR H1 H2. destruct (Forall2_nth_error _ _ _ _ _ HR H1) as (A & HA & S). unfold at_handle in H2. rewrite H2 in HA. inversion HA; subst; auto.
  Qed.

  Lemma upd_stores (st1 st2 : list bmat) o h D1 D2 C1 C2 : stores_ok (st1, o) (st2, o) -> at_handle st1 h D1 -> at_handle st2 h D2 -> agree D1 D2 C1 C2 ->
    stores_ok (set_nth st1 h C1, o) (set_nth st2 h C2, o) /\
    shape_kept st1 st2 (set_nth st1 h C1) (set_nth st2 h C2) /\ length (set_nth st1 h C1) = (length st1 + 0)%nat.
  Proof.
    intros (W1 & W2 & R & _) H1 H2 (A1 & A2 & A3 & A4 & A5). simpl in *. split; [|split].
    - split; [|split; [|split]]; simpl; auto using Forall_set_nth, Forall2_set_nth.
    - intros Q HQ HS. apply Forall2_set_nth; auto. eapply HQ; eauto. eapply rel_at; eauto.
    - rewrite length_set_nth. auto.
  Qed.
  Lemma new_stores (st1 st2 : list bmat) o h D1 D2 C1 C2 : stores_ok (st1, o) (st2, o) -> at_handle st1 h D1 -> at_handle st2 h D2 -> agree D1 D2 C1 C2 ->
    stores_ok (st1 ++ [C1], o) (st2 ++ [C2], o) /\
    shape_kept st1 st2 (st1 ++ [C1]) (st2 ++ [C2]) /\ length (st1 ++ [C1]) = (length st1 + 1)%nat.
  Proof.
    intros (W1 & W2 & R & _) H1 H2 (A1 & A2 & A3 & A4 & A5). simpl in *. split; [|split].
    - split; [|split; [|split]]; simpl; auto; [apply Forall_app; auto|apply Forall_app; auto|apply Forall2_app; auto].
    - intros Q HQ HS. apply Forall2_app; auto. constructor; auto. eapply HQ; eauto. eapply rel_at; eauto.
    - rewrite app_length. auto.
  Qed.
  Lemma same_stores (st1 st2 : list bmat) o o' : stores_ok (st1, o) (st2, o) ->
    stores_ok (st1, o') (st2, o') /\ shape_kept st1 st2 st1 st2 /\ length st1 = (length st1 + 0)%nat.
  Proof. intros (W1 & W2 & R & _). split; [repeat split; auto|]. split; [intros Q _ H; auto|auto]. Qed.

  Lemma stores_at (s1 s2 : @bstore F) h A1 A2 : stores_ok s1 s2 -> at_handle (fst s1) h A1 -> at_handle (fst s2) h A2 ->
    bwf A1 /\ bwf A2 /\ same_matrix A1 A2.
  Proof.
    intros (W1 & W2 & R & _) H1 H2. split; [apply (Forall_nth_error _ _ _ _ W1 H1)|]. split; [apply (Forall_nth_error _ _ _ _ W2 H2)|].
    destruct (Forall2_nth_error _ _ _ _ _ R H1) as (A & HA & S). unfold at_handle in H2. rewrite H2 in HA. inversion HA; subst; auto.
  Qed.

  Lemma comparable_of c keep (s1 s2 : @bstore F) h A1 A2 : same_effect c s1 s2 -> at_handle (fst s1) h A1 -> at_handle (fst s2) h A2 ->
    (exact_instr c -> keeps_nonzero keep) -> comparable keep A1 A2.
  Proof.
    intros [H|H] E1 E2 Hk; [left; auto|right]. apply (rel_at _ _ _ _ _ _ H E1 E2).
  Qed.

  Ltac at2 H1 H2 Hs := destruct (stores_at _ _ _ _ _ Hs H1 H2) as (? & ? & ?); pose proof (get_at _ _ _ H1); pose proof (get_at _ _ _ H2).
  Ltac go E1 E2 := rewrite E1, E2; cbn [bind]; eexists; eexists; split; [reflexivity|]; split; [reflexivity|].

  Lemma kind_rel : shape_rel (fun A B => sparse A = sparse B).
  Proof. intros A B A' B' H [H1 _] [H2 _]. rewrite <- (like_sparse _ _ H1), <- (like_sparse _ _ H2). auto. Qed.

  Lemma step_related c e1 e2 (s1 s2 : @bstore F) : stores_ok s1 s2 -> same_effect c s1 s2 ->
    bguard c e1 (fst s1) -> bguard c e2 (fst s2) ->
    exists s1' s2', bexec c e1 s1 = Ok s1' /\ bexec c e2 s2 = Ok s2' /\ stores_ok s1' s2' /\
      shape_kept (fst s1) (fst s2) (fst s1') (fst s2') /\ length (fst s1') = (length (fst s1) + creates c)%nat.
  Proof.
    intros Hs He. pose proof (comparable_of c) as Cp. destruct s1 as [st1 o1], s2 as [st2 o2].
    assert (o1 = o2) as <- by apply Hs. rename o1 into o.
    destruct c; cbn [bguard fst bexec]; intros G1 G2.
    - destruct G1 as (Hne & A1 & B1 & HA1 & HB1 & L1 & E1 & R1), G2 as (_ & A2 & B2 & HA2 & HB2 & L2 & E2 & R2). at2 HA1 HA2 Hs. at2 HB1 HB2 Hs.
      specialize (Cp keep _ _ _ _ _ He HA1 HA2 (fun x => x)).
      destruct (add_formats A1 A2 B1 B2 e1 e2) with (keep := keep) (alpha := alpha) (beta := beta) as (C1 & C2 & X1 & X2 & AG); auto.
      rewrite !(get_at _ _ _ HA1), !(get_at _ _ _ HA2), !(get_at _ _ _ HB1), !(get_at _ _ _ HB2). cbn [bind]. go X1 X2. eapply upd_stores; eauto.
    - destruct G1 as (A1 & HA1 & E1 & R1), G2 as (A2 & HA2 & E2 & R2). at2 HA1 HA2 Hs.
      specialize (Cp keep _ _ _ _ _ He HA1 HA2 (fun x => x)).
      destruct (add_identity_formats A1 A2 e1 e2) with (keep := keep) (beta := beta) as (C1 & C2 & X1 & X2 & AG); auto.
      rewrite (get_at _ _ _ HA1), (get_at _ _ _ HA2). cbn [bind]. go X1 X2. eapply upd_stores; eauto.
    - destruct G1 as (A1 & HA1 & E1 & R1), G2 as (A2 & HA2 & E2 & R2). at2 HA1 HA2 Hs.
      specialize (Cp keep _ _ _ _ _ He HA1 HA2 (fun x => x)).
      destruct (scale_add_identity_formats A1 A2 e1 e2) with (keep := keep) (alpha := alpha) (beta := beta) as (C1 & C2 & X1 & X2 & AG); auto.
      rewrite (get_at _ _ _ HA1), (get_at _ _ _ HA2). cbn [bind]. go X1 X2. eapply upd_stores; eauto.
    - destruct G1 as (_ & _ & A1 & B1 & D1 & HA1 & HB1 & HD1 & L1 & M1 & E1 & R1), G2 as (_ & _ & A2 & B2 & D2 & HA2 & HB2 & HD2 & L2 & M2 & E2 & R2).
      at2 HA1 HA2 Hs. at2 HB1 HB2 Hs. at2 HD1 HD2 Hs. specialize (Cp keep _ _ _ _ _ He HA1 HA2 (fun x => x)).
      destruct (multiply_AB_formats A1 A2 B1 B2 D1 D2 e1 e2) with (keep := keep) as (C1 & C2 & X1 & X2 & AG); auto.
      rewrite (get_at _ _ _ HA1), (get_at _ _ _ HA2), (get_at _ _ _ HB1), (get_at _ _ _ HB2), (get_at _ _ _ HD1), (get_at _ _ _ HD2). cbn [bind].
      go X1 X2. eapply upd_stores; eauto.
    - destruct G1 as (_ & _ & _ & A1 & B1 & D1 & HA1 & HB1 & HD1 & L1 & M1 & E1 & R1), G2 as (_ & _ & _ & A2 & B2 & D2 & HA2 & HB2 & HD2 & L2 & M2 & E2 & R2).
      at2 HA1 HA2 Hs. at2 HB1 HB2 Hs. at2 HD1 HD2 Hs. specialize (Cp keep _ _ _ _ _ He HA1 HA2 (fun x => x)).
      destruct (multiply_formats A1 A2 B1 B2 D1 D2 e1 e2) with (keep := keep) (alpha := alpha) (beta := beta) as (C1 & C2 & X1 & X2 & AG); auto.
      rewrite (get_at _ _ _ HA1), (get_at _ _ _ HA2), (get_at _ _ _ HB1), (get_at _ _ _ HB2), (get_at _ _ _ HD1), (get_at _ _ _ HD2). cbn [bind].
      go X1 X2. eapply upd_stores; eauto.
    - destruct G1 as (_ & A1 & D1 & HA1 & HD1 & M1 & E1 & R1), G2 as (_ & A2 & D2 & HA2 & HD2 & M2 & E2 & R2).
      at2 HA1 HA2 Hs. at2 HD1 HD2 Hs. specialize (Cp keep _ _ _ _ _ He HA1 HA2 (fun x => x)).
      destruct (multiply_x2_formats A1 A2 D1 D2 e1 e2) with (keep := keep) as (C1 & C2 & t & t2 & X1 & X2 & AG); auto.
      rewrite (get_at _ _ _ HA1), (get_at _ _ _ HA2), (get_at _ _ _ HD1), (get_at _ _ _ HD2). cbn [bind]. go X1 X2.
      destruct (upd_stores _ _ _ _ _ _ _ _ Hs HD1 HD2 AG) as ((Y1 & Y2 & Y3 & _) & Y4). split; [|exact Y4]. split; [|split; [|split]]; auto.
    - destruct G1 as (_ & _ & A1 & B1 & D1 & HA1 & HB1 & HD1 & L1 & M1 & E1 & R1), G2 as (_ & _ & A2 & B2 & D2 & HA2 & HB2 & HD2 & L2 & M2 & E2 & R2).
      at2 HA1 HA2 Hs. at2 HB1 HB2 Hs. at2 HD1 HD2 Hs. specialize (Cp keep _ _ _ _ _ He HA1 HA2 (fun x => x)).
      destruct (element_multiply_formats A1 A2 B1 B2 D1 D2 e1 e2) with (keep := keep) as (C1 & C2 & X1 & X2 & AG); auto.
      rewrite (get_at _ _ _ HA1), (get_at _ _ _ HA2), (get_at _ _ _ HB1), (get_at _ _ _ HB2), (get_at _ _ _ HD1), (get_at _ _ _ HD2). cbn [bind].
      go X1 X2. eapply upd_stores; eauto.
    - destruct G1 as (A1 & HA1 & E1 & R1), G2 as (A2 & HA2 & E2 & R2). at2 HA1 HA2 Hs.
      destruct (transpose_new_formats A1 A2 e1 e2) as (C1 & C2 & X1 & X2 & AG); auto.
      rewrite (get_at _ _ _ HA1), (get_at _ _ _ HA2). cbn [bind]. go X1 X2. eapply new_stores; eauto.
    - destruct G1 as (A1 & HA1 & E1 & R1), G2 as (A2 & HA2 & E2 & R2). at2 HA1 HA2 Hs.
      destruct (transpose_formats A1 A2 e1 e2) as (C1 & C2 & X1 & X2 & AG); auto.
      rewrite (get_at _ _ _ HA1), (get_at _ _ _ HA2). cbn [bind]. go X1 X2. eapply upd_stores; eauto.
    - destruct G1 as (A1 & HA1 & E1), G2 as (A2 & HA2 & E2). at2 HA1 HA2 Hs.
      destruct (scale_inplace_formats A1 A2 e1 e2) with (a := a) as (C1 & C2 & X1 & X2 & AG); auto.
      rewrite (get_at _ _ _ HA1), (get_at _ _ _ HA2). cbn [bind]. go X1 X2. eapply upd_stores; eauto.
    - destruct G1 as (A1 & HA1 & E1), G2 as (A2 & HA2 & E2). at2 HA1 HA2 Hs.
      destruct (copy_new_formats A1 A2 e1 e2) as (C1 & C2 & X1 & X2 & AG); auto.
      rewrite (get_at _ _ _ HA1), (get_at _ _ _ HA2). cbn [bind]. go X1 X2. eapply new_stores; eauto.
    - destruct G1 as (A1 & HA1 & E1), G2 as (A2 & HA2 & E2). at2 HA1 HA2 Hs.
      destruct (threshold_formats A1 A2 e1 e2) with (keep := keep) as (C1 & C2 & X1 & X2 & AG); auto.
      rewrite (get_at _ _ _ HA1), (get_at _ _ _ HA2). cbn [bind]. go X1 X2. eapply upd_stores; eauto.
    - destruct G1 as (A1 & HA1 & E1 & R1), G2 as (A2 & HA2 & E2 & R2). at2 HA1 HA2 Hs.
      specialize (Cp keep _ _ _ _ _ He HA1 HA2 (fun x => x)).
      destruct (set_diagonal_formats A1 A2) with (keep := keep) (diag := diag) as (C1 & C2 & X1 & X2 & AG); auto.
      rewrite (get_at _ _ _ HA1), (get_at _ _ _ HA2). cbn [bind]. go X1 X2. eapply upd_stores; eauto.
    - destruct G1 as (A1 & HA1 & E1 & R1), G2 as (A2 & HA2 & E2 & R2). at2 HA1 HA2 Hs.
      destruct (get_element_formats A1 A2) with (i := i) (j := j) as (v & X1 & X2); auto.
      rewrite (get_at _ _ _ HA1), (get_at _ _ _ HA2). cbn [bind]. go X1 X2. eapply same_stores; eauto.
    - destruct G1 as (A1 & HA1 & E1), G2 as (A2 & HA2 & E2). at2 HA1 HA2 Hs.
      destruct (get_row_formats A1 A2) with (i := i) as (v & X1 & X2); auto.
      rewrite (get_at _ _ _ HA1), (get_at _ _ _ HA2). cbn [bind]. go X1 X2. eapply same_stores; eauto.
    - destruct G1 as (A1 & HA1 & E1), G2 as (A2 & HA2 & E2). at2 HA1 HA2 Hs.
      destruct (trace_formats A1 A2 e1 e2) as (v & X1 & X2); auto.
      rewrite (get_at _ _ _ HA1), (get_at _ _ _ HA2). cbn [bind]. go X1 X2. eapply same_stores; eauto.
    - destruct G1 as (A1 & HA1 & E1), G2 as (A2 & HA2 & E2). at2 HA1 HA2 Hs.
      destruct (sum_squares_formats A1 A2 e1 e2) as (v & X1 & X2); auto.
      rewrite (get_at _ _ _ HA1), (get_at _ _ _ HA2). cbn [bind]. go X1 X2. eapply same_stores; eauto.
  Qed.

  Lemma runs_related (p1 p2 : list (instr * env)) (s1 s2 : @bstore F) :
    map fst p1 = map fst p2 -> stores_ok s1 s2 ->
    Forall exact_instr (map fst p1) \/ same_kind (fst s1) (fst s2) ->
    legal p1 s1 -> legal p2 s2 ->
    exists s1' s2', brun p1 s1 = Ok s1' /\ brun p2 s2 = Ok s2' /\ stores_ok s1' s2'.
  Proof.
    revert p2 s1 s2. induction p1 as [|[c e1] p1 IH]; intros [|[c' e2] p2] s1 s2 HP Hs HX L1 L2; try discriminate.
    - exists s1, s2. cbn [brun]. auto.
    - cbn [map fst] in HP. inversion HP as [[Hc HP']]. subst c'. simpl in HX, L1, L2.
      assert (HX' : same_effect c s1 s2). { destruct HX as [HX|HX]; [left; inversion HX; auto|right; auto]. }
      destruct (step_related c e1 e2 s1 s2 Hs HX') as (s1' & s2' & X1 & X2 & Hs' & S1 & S2); [apply L1|apply L2|].
      cbn [brun]. rewrite X1, X2. cbn [bind]. destruct L1 as [_ L1], L2 as [_ L2].
      apply IH; auto. destruct HX as [HX|HX]; [left; inversion HX; auto|right; apply S1; auto; exact kind_rel].
  Qed.

  Theorem programs_agree (p1 p2 : list (instr * env)) (st1 st2 : list bmat) :
    map fst p1 = map fst p2 -> Forall bwf st1 -> Forall bwf st2 -> Forall2 same_matrix st1 st2 ->
    Forall exact_instr (map fst p1) \/ same_kind st1 st2 ->
    legal p1 (st1, []) -> legal p2 (st2, []) ->
    exists st1' st2' out, brun p1 (st1, []) = Ok (st1', out) /\ brun p2 (st2, []) = Ok (st2', out) /\
      Forall bwf st1' /\ Forall bwf st2' /\ Forall2 same_matrix st1' st2'.
  Proof.
    intros HP W1 W2 R HX L1 L2.
    destruct (runs_related p1 p2 (st1, []) (st2, []) HP) as ([s1 o1] & [s2 o2] & X1 & X2 & Y1 & Y2 & Y3 & Y4); auto.
    { repeat split; auto. }
    simpl in *. subst o2. exists s1, s2, o1. auto.
  Qed.

  (** ** Enough room for everything: dense, or ellpack with M >= N *)

  Lemma count_all N (p : nat -> bool) : (count N p <= N)%nat.
  Proof. unfold count. rewrite filter_length_le, seq_length. auto. Qed.

  Lemma full_row_has (A : ell F) i : wf A -> (i < eN A)%nat -> (eN A <= nnz A i)%nat -> In i (cols (erow A i)).
  Proof.
    intros HW Hi Hn. destruct (proj2 HW i Hi) as (R1 & R2 & R3).
    assert (incl (seq 0 (eN A)) (cols (erow A i))).
    { apply NoDup_length_incl; auto; [unfold cols; rewrite map_length, erow_length, seq_length; auto|].
      intros k Hk. apply in_seq. specialize (R3 k Hk). lia. }
    apply H. apply in_seq. lia.
  Qed.

  Lemma diag_or_room (A : ell F) i : wf A -> (eN A <= eM A)%nat -> (i < eN A)%nat -> In i (cols (erow A i)) \/ (nnz A i < eM A)%nat.
  Proof. intros HW HM Hi. destruct (Nat.lt_ge_cases (nnz A i) (eN A)); [right; lia|left; apply full_row_has; auto]. Qed.

  (** the part of [roomy] that [like] does not determine *)
  Definition bspace (N : nat) (A : bmat) : Prop := match A with BCsr A => ample N A | _ => True end.
  Lemma ample_calloc N (A : csr F) : cwf A -> cN A = N -> (ample N A <-> forall i, (i < N)%nat -> (N <= calloc A i)%nat).
  Proof.
    intros [[L _] _] E. unfold ample. rewrite Forall_forall. split.
    - intros H i Hi. apply H. apply nth_In. lia.
    - intros H r Hr. apply (In_nth _ _ row0) in Hr as (i & Hi & <-). apply H. lia.
  Qed.
  Lemma roomy_space N M (A : bmat) : bwf A -> roomy N M A -> bspace N A.
  Proof. intros W (H1 & H0 & H2). destruct A; simpl in *; auto. apply ample_calloc; tauto. Qed.
  Lemma roomy_like N M (A B : bmat) : roomy N M A -> like A B -> bwf B -> bspace N B -> roomy N M B.
  Proof.
    intros (H1 & H0 & H2) [[T HN] HM] W S. split; [congruence|]. split; auto. destruct A, B; simpl in *; try discriminate; auto; [congruence|].
    destruct H2 as (H2 & H3 & _). split; [congruence|]. split; [auto|]. apply ample_calloc; auto. congruence.
  Qed.

  Lemma space_at N M (st : list bmat) h A : Forall (fun A => bwf A /\ roomy N M A) st -> bgetm st h = Ok A -> bspace N A.
  Proof.
    intros H E. unfold bgetm in E. destruct (nth_error st h) as [x|] eqn:Ex; [|discriminate]. injection E as <-.
    rewrite Forall_forall in H. destruct (H x) as [W R]; [eapply nth_error_In; eauto|]. apply (roomy_space N M); auto.
  Qed.
  Lemma space_store N (st : list bmat) h A : Forall (bspace N) st -> bspace N A -> Forall (bspace N) (set_nth st h A).
  Proof. intros H HA. revert h. induction H as [|x l Hx Hl IH]; intros [|h]; simpl; constructor; auto. Qed.

  Ltac pcb := apply pc_bind; eapply pc_mono; [apply pc_any|]; intros ? _.

  (** whatever a call returns, the rows of all csr matrices keep their space *)
  Lemma bexec_space N M c (e : env) st o : Forall (fun A => bwf A /\ roomy N M A) st -> good_schedules N e ->
    pc (bexec c e (st, o)) (fun s => Forall (bspace N) (fst s)).
  Proof.
    intros HU (He & _).
    assert (HS : Forall (bspace N) st).
    { rewrite Forall_forall in *. intros A HA. destruct (HU A HA) as [W R]. apply (roomy_space N M); auto. }
    assert (G : forall h, pc (bgetm st h) (fun A => bwf A /\ roomy N M A /\ bspace N A)).
    { intros h A E. assert (X := space_at N M st h A HU E). unfold bgetm in E. destruct (nth_error st h) as [x|] eqn:Ex; [|discriminate]. injection E as <-.
      rewrite Forall_forall in HU. destruct (HU x) as [W R]; [eapply nth_error_In; eauto|]. auto. }
    assert (K : forall (r : res bmat) h, pc r (bspace N) -> pc (A <- r ;; Ok (set_nth st h A, o)) (fun s => Forall (bspace N) (fst s))).
    { intros r h H. apply pc_bind. eapply pc_mono; [exact H|]. intros A HA. apply pc_ok. apply space_store; auto. }
    assert (K2 : forall (r : res bmat), pc r (bspace N) -> pc (A <- r ;; Ok (st ++ [A], o)) (fun s => Forall (bspace N) (fst s))).
    { intros r H. apply pc_bind. eapply pc_mono; [exact H|]. intros A HA. apply pc_ok. cbn [fst]. apply Forall_app. auto. }
    assert (Lf : forall (X : Type) (r : res X) (f : X -> bmat), (forall x, bspace N (f x)) -> pc (x <- r ;; Ok (f x)) (bspace N)).
    { intros X r f H. pcb. apply pc_ok. apply H. }
    assert (Lc : forall (r : res (csr F)), pc r (ample N) -> pc (x <- r ;; Ok (BCsr x)) (bspace N)).
    { intros r H. apply pc_bind. eapply pc_mono; [exact H|]. intros A HA. apply pc_ok. exact HA. }
    destruct c; cbn [bexec]; try (pcb; pcb; apply pc_ok; exact HS).
    - apply pc_bind. eapply pc_mono; [apply (G h)|]. intros A (WA & RA & SA).
      apply pc_bind. eapply pc_mono; [apply (G h2)|]. intros B (WB & RB & SB). apply K.
      destruct A, B; simpl; try discriminate; try (apply Lf; intros; exact I). apply Lc, ample_add, SA.
    - apply pc_bind. eapply pc_mono; [apply (G h)|]. intros A (WA & RA & SA). apply K.
      destruct A; simpl; try discriminate; try (apply Lf; intros; exact I). apply Lc, ample_add_identity, SA.
    - apply pc_bind. eapply pc_mono; [apply (G h)|]. intros A (WA & RA & SA). apply K.
      destruct A; simpl; try discriminate; try (apply Lf; intros; exact I). apply Lc, ample_scale_add_identity, SA.
    - apply pc_bind. eapply pc_mono; [apply (G h)|]. intros A (WA & RA & SA). apply pc_bind. eapply pc_mono; [apply (G h2)|]. intros B (WB & RB & SB).
      apply pc_bind. eapply pc_mono; [apply (G h3)|]. intros C (WC & RC & SC). apply K.
      destruct A, B, C; simpl; try discriminate; try (apply Lf; intros; exact I). apply Lc, ample_multiply_AB, SC.
    - apply pc_bind. eapply pc_mono; [apply (G h)|]. intros A (WA & RA & SA). apply pc_bind. eapply pc_mono; [apply (G h2)|]. intros B (WB & RB & SB).
      apply pc_bind. eapply pc_mono; [apply (G h3)|]. intros C (WC & RC & SC). apply K.
      destruct A, B, C; simpl; try discriminate; try (apply Lf; intros; exact I). apply Lc, ample_multiply, SC.
    - apply pc_bind. eapply pc_mono; [apply (G h)|]. intros A (WA & RA & SA). apply pc_bind. eapply pc_mono; [apply (G h2)|]. intros C (WC & RC & SC).
      apply pc_bind. eapply pc_mono with (P := fun s => bspace N (fst (fst s))).
      + destruct A, C; simpl; try discriminate.
        * pcb. destruct a as [[? ?] ?]. apply pc_ok. exact I.
        * pcb. destruct a as [[? ?] ?]. apply pc_ok. exact I.
        * apply pc_bind. eapply pc_mono; [apply ample_multiply_x2, SC|]. intros [[D t] t2] HD. apply pc_ok. exact HD.
      + intros [[D t] t2] HD. apply pc_ok. apply space_store; auto.
    - apply pc_bind. eapply pc_mono; [apply (G h)|]. intros A (WA & RA & SA). apply pc_bind. eapply pc_mono; [apply (G h2)|]. intros B (WB & RB & SB).
      apply pc_bind. eapply pc_mono; [apply (G h3)|]. intros C (WC & RC & SC). apply K.
      destruct A, B, C; simpl; try discriminate; try (apply Lf; intros; exact I). apply Lc, ample_element_multiply, SC.
    - apply pc_bind. eapply pc_mono; [apply (G h)|]. intros A (WA & RA & SA). apply K2.
      destruct A; simpl; try discriminate; try (apply Lf; intros; exact I). apply Lc, ample_transpose_new.
      destruct RA as (_ & R1 & R2 & _). rewrite R2. exact R1.
    - apply pc_bind. eapply pc_mono; [apply (G h)|]. intros A (WA & RA & SA). apply K.
      destruct A; simpl; try discriminate; try (apply Lf; intros; exact I). apply Lc, ample_transpose, SA.
    - apply pc_bind. eapply pc_mono; [apply (G h)|]. intros A (WA & RA & SA). apply K.
      destruct A; simpl; try discriminate; try (apply Lf; intros; exact I). apply Lc, ample_scale, SA.
    - apply pc_bind. eapply pc_mono; [apply (G h)|]. intros A (WA & RA & SA). apply K2.
      destruct A as [A|A|A]; simpl; try discriminate; try (apply Lf; intros; exact I). apply Lc, ample_copy_new; [exact SA|].
      destruct RA as (R1 & _). simpl in R1. rewrite R1. apply (He 0%nat).
    - apply pc_bind. eapply pc_mono; [apply (G h)|]. intros A (WA & RA & SA). apply K.
      destruct A; simpl; try discriminate; try (apply Lf; intros; exact I). apply Lc, ample_threshold, SA.
    - apply pc_bind. eapply pc_mono; [apply (G h)|]. intros A (WA & RA & SA). apply K.
      destruct A; simpl; try discriminate; try (apply Lf; intros; exact I). apply Lc, ample_set_diagonal, SA.
  Qed.

  Lemma same_format_alike N M (A B : bmat) : roomy N M A -> roomy N M B -> bml_get_type A = bml_get_type B -> alike A B.
  Proof. intros [H1 _] [H2 _] T. split; congruence. Qed.

  Lemma uniform_at N M t (st : list bmat) h : uniform N M t st -> (h < length st)%nat ->
    exists A, at_handle st h A /\ bwf A /\ roomy N M A /\ bml_get_type A = t.
  Proof.
    intros H Hh. destruct (nth_error st h) as [A|] eqn:E; [|apply nth_error_None in E; lia].
    exists A. split; auto. apply (Forall_nth_error _ _ _ _ H E).
  Qed.

  Lemma good_env_of N M (A : bmat) e : good_schedules N e -> roomy N M A -> good_env A e.
  Proof. intros H [<- _]. exact H. Qed.

  Ltac hd Hh := apply Hh; simpl; auto.

  Lemma crow_len (A : csr F) i : cwf A -> (i < cN A)%nat -> (length (crow A i) <= cN A)%nat.
  Proof.
    intros [_ H] Hi. destruct (H i Hi) as [H1 H2]. rewrite <- (map_length fst). fold (cols (crow A i)).
    rewrite <- (seq_length (cN A) 0). apply NoDup_incl_length; [exact H1|]. intros k Hk. apply in_seq. specialize (H2 k Hk). lia.
  Qed.

  Lemma guard_roomy N M t c (e : env) st : (0 < N)%nat -> uniform N M t st -> good_schedules N e ->
    (forall h, In h (handles c) -> (h < length st)%nat) -> distinct_handles c -> in_bounds N c -> bguard c e st.
  Proof.
    intros HN HU He Hh Hd Hb.
    assert (R : forall h, In h (handles c) -> exists A, at_handle st h A /\ bwf A /\ roomy N M A /\ bml_get_type A = t)
      by (intros h Hx; apply (uniform_at N M t); auto).
    destruct c; cbn [bguard handles distinct_handles in_bounds] in *.
    - split; auto. destruct (R h) as (A & HA & WA & RA & TA); [simpl; auto|]. destruct (R h2) as (B & HB & WB & RB & TB); [simpl; auto|].
      exists A, B. do 2 (split; [assumption|]). split; [apply (same_format_alike N M); congruence|]. split; [apply (good_env_of N M); auto|].
      destruct RA as (NA & LA & RA), RB as (NB & LB & RB). destruct A as [A|A|A], B as [B|B|B]; simpl in *; try contradiction; try congruence; auto.
      + intros i Hi. eapply Nat.le_trans; [apply count_all|lia].
      + destruct RA as (RA1 & RA2 & RA3). split; intros i Hi.
        * eapply Nat.le_trans; [apply crow_len; assumption|lia].
        * eapply Nat.le_trans; [apply count_all|]. rewrite NA in *. apply RA3, Hi.
    - destruct (R h) as (A & HA & WA & RA & TA); [simpl; auto|]. exists A. split; auto. split; [apply (good_env_of N M); auto|].
      destruct RA as (NA & LA & RA). destruct A; simpl in *; auto. intros i Hi. right. apply diag_or_room; auto. lia.
    - destruct (R h) as (A & HA & WA & RA & TA); [simpl; auto|]. exists A. split; auto. split; [apply (good_env_of N M); auto|].
      destruct RA as (NA & LA & RA). destruct A; simpl in *; auto. intros i Hi. right. apply diag_or_room; auto. lia.
    - destruct Hd as [D1 D2]. split; auto. split; auto.
      destruct (R h) as (A & HA & WA & RA & TA); [simpl; auto|]. destruct (R h2) as (B & HB & WB & RB & TB); [simpl; auto|].
      destruct (R h3) as (C & HC & WC & RC & TC); [simpl; auto|].
      exists A, B, C. do 3 (split; [assumption|]). do 2 (split; [apply (same_format_alike N M); congruence|]). split; [apply (good_env_of N M); auto|].
      destruct RA as (NA & LA & RA), RB as (NB & LB & RB), RC as (NC & LC & RC). destruct A, B, C; simpl in *; try contradiction; try congruence; auto.
      intros i Hi. eapply Nat.le_trans; [apply count_all|lia].
    - destruct Hd as (D1 & D2 & D3). do 3 (split; auto).
      destruct (R h) as (A & HA & WA & RA & TA); [simpl; auto|]. destruct (R h2) as (B & HB & WB & RB & TB); [simpl; auto|].
      destruct (R h3) as (C & HC & WC & RC & TC); [simpl; auto|].
      exists A, B, C. do 3 (split; [assumption|]). do 2 (split; [apply (same_format_alike N M); congruence|]). split; [apply (good_env_of N M); auto|].
      destruct RA as (NA & LA & RA), RB as (NB & LB & RB), RC as (NC & LC & RC). destruct A as [A|A|A], B as [B|B|B], C as [C|C|C]; simpl in *; try contradiction; try congruence; auto.
      + split; intros i Hi; (eapply Nat.le_trans; [apply count_all|lia]).
      + destruct RC as (RC1 & RC2 & RC3). split; intros i Hi.
        * eapply Nat.le_trans; [apply crow_len; assumption|lia].
        * eapply Nat.le_trans; [apply count_all|]. rewrite NC in *. apply RC3, Hi.
    - split; auto. destruct (R h) as (A & HA & WA & RA & TA); [simpl; auto|]. destruct (R h2) as (C & HC & WC & RC & TC); [simpl; auto|].
      exists A, C. do 2 (split; [assumption|]). split; [apply (same_format_alike N M); congruence|]. split; [apply (good_env_of N M); auto|].
      destruct RA as (NA & LA & RA), RC as (NC & LC & RC). destruct A, C; simpl in *; try contradiction; try congruence; auto.
      intros i Hi. eapply Nat.le_trans; [apply count_all|lia].
    - destruct Hd as [D1 D2]. split; auto. split; auto.
      destruct (R h) as (A & HA & WA & RA & TA); [simpl; auto|]. destruct (R h2) as (B & HB & WB & RB & TB); [simpl; auto|].
      destruct (R h3) as (C & HC & WC & RC & TC); [simpl; auto|].
      exists A, B, C. do 3 (split; [assumption|]). do 2 (split; [apply (same_format_alike N M); congruence|]). split; [apply (good_env_of N M); auto|].
      destruct RA as (NA & LA & RA), RB as (NB & LB & RB), RC as (NC & LC & RC). destruct A, B, C; simpl in *; try contradiction; try congruence; auto; lia.
    - destruct (R h) as (A & HA & WA & RA & TA); [simpl; auto|]. exists A. split; auto. split; [apply (good_env_of N M); auto|].
      destruct RA as (NA & LA & RA). destruct A; simpl in *; auto. intros i Hi. eapply Nat.le_trans; [apply count_all|lia].
    - destruct (R h) as (A & HA & WA & RA & TA); [simpl; auto|]. exists A. split; auto. split; [apply (good_env_of N M); auto|].
      destruct RA as (NA & LA & RA). destruct A; simpl in *; auto. intros i Hi. eapply Nat.le_trans; [apply count_all|lia].
    - destruct (R h) as (A & HA & WA & RA & TA); [simpl; auto|]. exists A. split; auto. apply (good_env_of N M); auto.
    - destruct (R h) as (A & HA & WA & RA & TA); [simpl; auto|]. exists A. split; auto. apply (good_env_of N M); auto.
    - destruct (R h) as (A & HA & WA & RA & TA); [simpl; auto|]. exists A. split; auto. apply (good_env_of N M); auto.
    - destruct (R h) as (A & HA & WA & RA & TA); [simpl; auto|]. exists A. split; auto. destruct RA as (NA & LA & RA). split; [congruence|].
      destruct A; simpl in *; auto. intros i Hi. destruct (diag_or_room A i); auto. lia.
    - destruct (R h) as (A & HA & WA & [<- RA] & TA); [simpl; auto|]. exists A. auto.
    - destruct (R h) as (A & HA & WA & [<- RA] & TA); [simpl; auto|]. exists A. auto.
    - destruct (R h) as (A & HA & WA & RA & TA); [simpl; auto|]. exists A. split; auto. apply (good_env_of N M); auto.
    - destruct (R h) as (A & HA & WA & RA & TA); [simpl; auto|]. exists A. split; auto. apply (good_env_of N M); auto.
  Qed.

  Lemma Forall2_diag {X} (R : X -> X -> Prop) l : Forall (fun x => R x x) l -> Forall2 R l l.
  Proof. induction 1; auto. Qed.
  Lemma Forall2_left {X Y} (P : X -> Prop) (l : list X) (l' : list Y) : Forall2 (fun x _ => P x) l l' -> Forall P l.
  Proof. induction 1; auto. Qed.

  Lemma same_refl (A : bmat) : same_matrix A A.
  Proof. split; [auto|apply meq_refl]. Qed.

  Lemma legal_roomy N M t (prog : list (instr * env)) st o : (0 < N)%nat -> uniform N M t st -> Forall (fun p => good_schedules N (snd p)) prog ->
    program N (length st) (map fst prog) -> legal prog (st, o).
  Proof.
    intros HN. revert st o. induction prog as [|[c e] prog IH]; intros st o HU HE HP; cbn [legal]; auto.
    destruct HP as (P1 & P2 & P3 & P4). apply Forall_cons_iff in HE as [E1 E2].
    assert (G : bguard c e st) by (apply (guard_roomy N M t); auto). split; auto.
    intros [st' o'] Ex.
    destruct (step_related c e e (st, o) (st, o)) as (s1' & s2' & X1 & X2 & Hs' & K & L); auto.
    - assert (W : Forall bwf st) by (eapply Forall_impl; [|exact HU]; simpl; tauto).
      repeat split; auto. apply Forall2_diag. apply Forall_forall. intros A _. apply same_refl.
    - right. apply Forall2_diag. apply Forall_forall. auto.
    - rewrite Ex in X1. inversion X1; subst s1'. clear X1. cbn [fst] in *. apply IH; auto; [|rewrite L; auto].
      destruct Hs' as (W & _ & _). cbn [fst] in W.
      assert (SP : Forall (bspace N) st').
      { assert (X := bexec_space N M c e st o). refine (X _ E1 _ Ex). eapply Forall_impl; [|exact HU]. simpl. tauto. }
      assert (U : Forall (fun A => exists A0, roomy N M A0 /\ like A0 A /\ bml_get_type A = t) st').
      { eapply Forall2_left. apply (K (fun A _ => exists A0, roomy N M A0 /\ like A0 A /\ bml_get_type A = t)).
        - intros A B A' B' (A0 & H1 & H2 & H4) H3 _. exists A0. split; auto.
          destruct H2 as [[T0 N0] M0], H3 as [[T N1] M1]. split; [split; [split|]|]; congruence.
        - apply Forall2_diag. eapply Forall_impl; [|exact HU]. simpl. intros A (H1 & H2 & H3). exists A. split; auto. split; auto. repeat split. }
      unfold uniform. rewrite Forall_forall in *. intros A HA. split; auto. destruct (U A HA) as (A0 & R0 & L0 & T0).
      split; auto. apply (roomy_like N M A0); auto.
  Qed.

  (** any program, on dense matrices, ellpack matrices with M >= N or csr
      matrices with space for N entries per row *)
  Theorem programs_agree_roomy N M1 M2 t1 t2 (p1 p2 : list (instr * env)) (st1 st2 : list bmat) :
    (0 < N)%nat -> uniform N M1 t1 st1 -> uniform N M2 t2 st2 -> Forall2 same_matrix st1 st2 ->
    map fst p1 = map fst p2 -> program N (length st1) (map fst p1) ->
    Forall exact_instr (map fst p1) \/ t1 = t2 ->
    Forall (fun p => good_schedules N (snd p)) p1 -> Forall (fun p => good_schedules N (snd p)) p2 ->
    exists st1' st2' out, brun p1 (st1, []) = Ok (st1', out) /\ brun p2 (st2, []) = Ok (st2', out) /\
      Forall bwf st1' /\ Forall bwf st2' /\ Forall2 same_matrix st1' st2'.
  Proof.
    intros HN U1 U2 R HP Pr HX E1 E2.
    assert (HL : length st1 = length st2) by (clear -R; induction R; simpl; auto).
    apply programs_agree; auto.
    - eapply Forall_impl; [|exact U1]. simpl. tauto.
    - eapply Forall_impl; [|exact U2]. simpl. tauto.
    - destruct HX as [HX|HX]; [left; auto|right]. subst t2. clear -U1 U2 R. unfold same_kind. revert U1 U2. induction R as [|A B l l' HAB R IH]; intros U1 U2; auto.
      apply Forall_cons_iff in U1 as [(_ & _ & T1) U1]. apply Forall_cons_iff in U2 as [(_ & _ & T2) U2]. constructor; auto.
      destruct A, B; simpl in *; congruence.
    - apply (legal_roomy N M1 t1); auto.
    - apply (legal_roomy N M2 t2); auto. rewrite <- HL, <- HP. auto.
  Qed.
End FormatHist.
