(** Programs on dense, ellpack and csr matrices compute what they mean. *)
From Verif Require Import Base BaseFacts Spec SpecFacts EllpackModel EllpackSpec EllpackExact CsrModel CsrSpec
  GemmModel DenseModel DenseSpec FormatModel FormatSpec FormatFacts FormatHistModel FormatHistSpec FormatHist FortranVars ProgSpec.
From Coq Require Import Ring.

Section ProgFacts.
  Context {F : scalar}.
  Local Open Scope K_scope.
  Local Notation bmat := (bmat F).
  Local Notation env := (env F).
  Local Notation instr := (@instr F).

  Lemma meq_tcut_exact N (keep : F -> bool) (A : bmat) (X Y : mat F) : keeps_nonzero keep -> meq N X Y -> meq N (tcut keep A X) Y.
  Proof. intros Hk H i j Hi Hj. rewrite tcut_exact by auto. auto. Qed.
  Lemma meq_toff_exact N (keep : F -> bool) (A : bmat) (X Y : mat F) : keeps_nonzero keep -> meq N X Y -> meq N (toff keep A X) Y.
  Proof. intros Hk H i j Hi Hj. rewrite toff_exact by auto. auto. Qed.
  Lemma meq_tr N (X Y Z : mat F) : meq N X Y -> meq N Y Z -> meq N X Z.
  Proof. intros H1 H2 i j Hi Hj. rewrite H1 by auto. auto. Qed.

  Definition stands (N : nat) (A : bmat) (X : mat F) : Prop := bml_get_N A = N /\ meq N (bmx A) X.
  Definition holds_ms (N : nat) (s : @bstore F) (ms : list (mat F) * list F) : Prop :=
    Forall bwf (fst s) /\ Forall2 (stands N) (fst s) (fst ms) /\ snd s = snd ms.

  Lemma Forall2_nth_of {X Y} (R : X -> Y -> Prop) l l' h x d : Forall2 R l l' -> nth_error l h = Some x -> R x (nth h l' d).
  Proof.
    intros H E. destruct (Forall2_nth_error _ _ _ _ _ H E) as (y & Ey & Hy). rewrite (nth_error_nth _ _ d Ey). auto.
  Qed.

  Lemma at_ms N st o Ms mo h A : holds_ms N (st, o) (Ms, mo) -> at_handle st h A ->
    bgetm st h = Ok A /\ bwf A /\ bml_get_N A = N /\ meq N (bmx A) (nth h Ms mzero).
  Proof.
    intros (W & R & _) H. split; [apply get_at; auto|]. split; [apply (Forall_nth_error _ _ _ _ W H)|].
    destruct (Forall2_nth_of _ _ _ _ _ mzero R H); auto.
  Qed.
  Lemma upd_ms N st o Ms h C X o' : holds_ms N (st, o) (Ms, o) -> bwf C -> bml_get_N C = N -> meq N (bmx C) X ->
    holds_ms N (set_nth st h C, o') (set_nth Ms h X, o').
  Proof.
    intros (W & R & _) H1 H2 H3. split; [|split; [|reflexivity]]; cbn [fst] in *.
    - apply Forall_set_nth; auto.
    - apply Forall2_set_nth; auto. split; auto.
  Qed.
  Lemma new_ms N st o Ms C X : holds_ms N (st, o) (Ms, o) -> bwf C -> bml_get_N C = N -> meq N (bmx C) X ->
    holds_ms N (st ++ [C], o) (Ms ++ [X], o).
  Proof.
    intros (W & R & _) H1 H2 H3. split; [|split; [|reflexivity]]; cbn [fst] in *.
    - apply Forall_app; auto.
    - apply Forall2_app; auto. constructor; auto. split; auto.
  Qed.
  Lemma out_ms N st o Ms o' : holds_ms N (st, o) (Ms, o) -> holds_ms N (st, o') (Ms, o').
  Proof. intros (W & R & _). split; auto. Qed.

  Ltac at1 Hs H := destruct (at_ms _ _ _ _ _ _ _ Hs H) as (? & ? & ? & ?).
  Ltac fin E := rewrite E; cbn [bind]; eexists; split; [reflexivity|].

  Lemma step_means N c (e : env) st o Ms : holds_ms N (st, o) (Ms, o) -> bguard c e st -> exact_instr c ->
    exists s', bexec c e (st, o) = Ok s' /\ holds_ms N s' (mexec N c (Ms, o)).
  Proof.
    intros Hs G Hx. destruct c; cbn [bguard exact_instr bexec mexec] in *.
    - destruct G as (_ & A & B & HA & HB & L & GE & R). at1 Hs HA. at1 Hs HB.
      destruct (bml_add_ok keep alpha beta A B e) as (C & E & W & K & V); auto.
      rewrite (get_at _ _ _ HA), (get_at _ _ _ HB). cbn [bind]. fin E. apply (upd_ms N _ o); auto; [rewrite <- (like_N _ _ K); auto|].
      subst N. eapply meq_tr; [exact V|]. apply meq_tcut_exact; auto. apply meq_madd; apply meq_mscale; auto.
    - destruct G as (A & HA & GE & R). at1 Hs HA.
      destruct (bml_add_identity_ok keep beta A e) as (C & E & W & K & V); auto.
      rewrite (get_at _ _ _ HA). cbn [bind]. fin E. apply (upd_ms N _ o); auto; [rewrite <- (like_N _ _ K); auto|].
      subst N. eapply meq_tr; [exact V|]. apply meq_tcut_exact; auto. apply meq_madd; auto. apply meq_refl.
    - destruct G as (A & HA & GE & R). at1 Hs HA.
      destruct (bml_scale_add_identity_ok keep alpha beta A e) as (C & E & W & K & V); auto.
      rewrite (get_at _ _ _ HA). cbn [bind]. fin E. apply (upd_ms N _ o); auto; [rewrite <- (like_N _ _ K); auto|].
      subst N. eapply meq_tr; [exact V|]. apply meq_tcut_exact; auto. apply meq_madd; [apply meq_mscale; auto|]. apply meq_refl.
    - destruct G as (_ & _ & A & B & D & HA & HB & HD & L & L2 & GE & R). at1 Hs HA. at1 Hs HB. at1 Hs HD.
      destruct (bml_multiply_AB_ok keep A B D e) as (C & E & W & K & V); auto.
      rewrite (get_at _ _ _ HA), (get_at _ _ _ HB), (get_at _ _ _ HD). cbn [bind]. fin E.
      apply (upd_ms N _ o); auto; [rewrite <- (like_N _ _ K); auto|].
      subst N. eapply meq_tr; [exact V|]. apply meq_toff_exact; auto. apply meq_mmul; auto.
    - destruct G as (_ & _ & _ & A & B & D & HA & HB & HD & L & L2 & GE & R). at1 Hs HA. at1 Hs HB. at1 Hs HD.
      destruct (bml_multiply_ok keep alpha beta A B D e) as (C & E & W & K & V); auto.
      rewrite (get_at _ _ _ HA), (get_at _ _ _ HB), (get_at _ _ _ HD). cbn [bind]. fin E.
      apply (upd_ms N _ o); auto; [rewrite <- (like_N _ _ K); auto|].
      subst N. eapply meq_tr; [exact V|]. apply meq_tcut_exact; auto. apply meq_madd; apply meq_mscale; auto.
      apply meq_toff_exact; auto. apply meq_mmul; auto.
    - destruct G as (_ & A & D & HA & HD & L & GE & R). at1 Hs HA. at1 Hs HD.
      destruct (bml_multiply_x2_ok keep A D e) as (C & E & W & K & V); auto.
      assert (HP : meq N (mmul N (bmx A) (bmx A)) (mmul N (nth h Ms mzero) (nth h Ms mzero))) by (apply meq_mmul; auto).
      rewrite (get_at _ _ _ HA), (get_at _ _ _ HD). cbn [bind]. fin E.
      match goal with H : bml_get_N A = N |- _ => rewrite !H in * end.
      rewrite (mtrace_meq N _ (nth h Ms mzero)), (mtrace_meq N _ _ HP) by auto.
      apply (upd_ms N _ o); auto; [rewrite <- (like_N _ _ K); auto|].
      eapply meq_tr; [exact V|]. apply meq_toff_exact; auto.
    - destruct G as (_ & _ & A & B & D & HA & HB & HD & L & L2 & GE & R). at1 Hs HA. at1 Hs HB. at1 Hs HD.
      destruct (bml_element_multiply_ok keep A B D e) as (C & E & W & K & V); auto.
      rewrite (get_at _ _ _ HA), (get_at _ _ _ HB), (get_at _ _ _ HD). cbn [bind]. fin E.
      apply (upd_ms N _ o); auto; [rewrite <- (like_N _ _ K); auto|].
      subst N. eapply meq_tr; [exact V|]. apply meq_toff_exact; auto. apply meq_mhad; auto.
    - destruct G as (A & HA & GE & R). at1 Hs HA. destruct (bml_transpose_new_ok A e) as (C & E & W & K & V); auto.
      rewrite (get_at _ _ _ HA). cbn [bind]. fin E. apply (new_ms N _ o); auto; [rewrite <- (like_N _ _ K); auto|].
      subst N. eapply meq_tr; [exact V|]. apply meq_mtrans; auto.
    - destruct G as (A & HA & GE & R). at1 Hs HA. destruct (bml_transpose_ok A e) as (C & E & W & K & V); auto.
      rewrite (get_at _ _ _ HA). cbn [bind]. fin E. apply (upd_ms N _ o); auto; [rewrite <- (like_N _ _ K); auto|].
      subst N. eapply meq_tr; [exact V|]. apply meq_mtrans; auto.
    - destruct G as (A & HA & GE). at1 Hs HA. destruct (bml_scale_inplace_ok a A e) as (C & E & W & K & V); auto.
      rewrite (get_at _ _ _ HA). cbn [bind]. fin E. apply (upd_ms N _ o); auto; [rewrite <- (like_N _ _ K); auto|].
      subst N. eapply meq_tr; [exact V|]. apply meq_mscale; auto.
    - destruct G as (A & HA & GE). at1 Hs HA. destruct (bml_copy_new_ok A e) as (C & E & W & K & V); auto.
      rewrite (get_at _ _ _ HA). cbn [bind]. fin E. apply (new_ms N _ o); auto; [rewrite <- (like_N _ _ K); auto|].
      subst N. eapply meq_tr; [exact V|]. auto.
    - destruct G as (A & HA & GE). at1 Hs HA. destruct (bml_threshold_ok keep A e) as (C & E & W & K & V); auto.
      rewrite (get_at _ _ _ HA). cbn [bind]. fin E. apply (upd_ms N _ o); auto; [rewrite <- (like_N _ _ K); auto|].
      subst N. eapply meq_tr; [exact V|]. apply meq_mcut; auto.
    - destruct G as (A & HA & GE & R). at1 Hs HA. destruct (bml_set_diagonal_ok keep A diag) as (C & E & W & K & V); auto.
      rewrite (get_at _ _ _ HA). cbn [bind]. fin E. apply (upd_ms N _ o); auto; [rewrite <- (like_N _ _ K); auto|].
      subst N. eapply meq_tr; [exact V|]. intros i j Hi Hj. cbn beta. destruct (i =? j)%nat; [rewrite tcut_exact by auto; reflexivity|auto].
    - destruct G as (A & HA & Hi & Hj). at1 Hs HA. rewrite (get_at _ _ _ HA). cbn [bind]. fin (bml_get_element_ok A i j ltac:(auto) Hi Hj).
      subst N. match goal with H : meq _ _ (nth h Ms mzero) |- _ => rewrite H by auto end. apply (out_ms _ _ o); auto.
    - destruct G as (A & HA & Hi). at1 Hs HA. rewrite (get_at _ _ _ HA). cbn [bind]. fin (bml_get_row_ok A i ltac:(auto) Hi).
      subst N. replace (map (bmx A i) (seq 0 (bml_get_N A))) with (map (nth h Ms mzero i) (seq 0 (bml_get_N A))).
      + apply (out_ms _ _ o); auto.
      + apply map_ext_in. intros j Hj. apply in_seq in Hj. symmetry.
        match goal with H : meq _ _ (nth h Ms mzero) |- _ => apply H; auto end. lia.
    - destruct G as (A & HA & GE). at1 Hs HA. rewrite (get_at _ _ _ HA). cbn [bind]. fin (bml_trace_ok A e ltac:(auto) GE).
      subst N. rewrite (mtrace_meq _ _ (nth h Ms mzero)) by auto. apply (out_ms _ _ o); auto.
    - destruct G as (A & HA & GE). at1 Hs HA. rewrite (get_at _ _ _ HA). cbn [bind]. fin (bml_sum_squares_ok A e ltac:(auto) GE).
      subst N. rewrite (msum_meq _ _ (mhad (nth h Ms mzero) (nth h Ms mzero))) by (apply meq_mhad; auto). apply (out_ms _ _ o); auto.
  Qed.

  Lemma run_means N (p : list (instr * env)) s ms : holds_ms N s ms -> legal p s -> Forall exact_instr (map fst p) ->
    exists s', brun p s = Ok s' /\ holds_ms N s' (mrun N (map fst p) ms).
  Proof.
    revert s ms. induction p as [|[c e] p IH]; intros [st o] [Ms mo] Hs HL HX.
    - exists (st, o). auto.
    - cbn [legal] in HL. destruct HL as [HG HL]. cbn [map fst] in HX. apply Forall_cons_iff in HX as [HX1 HX2].
      pose proof Hs as (_ & _ & Ho). cbn [snd] in Ho. subst mo.
      destruct (step_means N c e st o Ms Hs HG HX1) as (s' & E & Hs'). cbn [brun]. rewrite E. cbn [bind]. cbn [map fst]. unfold mrun. cbn [fold_left].
      apply IH; auto.
  Qed.

  (** what a legal program computes, in any of the three formats *)
  Theorem program_means N (p : list (instr * env)) (st : list bmat) (Ms : list (mat F)) :
    Forall bwf st -> Forall2 (fun A X => bml_get_N A = N /\ meq N (bmx A) X) st Ms ->
    legal p (st, []) -> Forall exact_instr (map fst p) ->
    exists st', brun p (st, []) = Ok (st', snd (mrun N (map fst p) (Ms, []))) /\ Forall bwf st' /\
      Forall2 (fun A X => bml_get_N A = N /\ meq N (bmx A) X) st' (fst (mrun N (map fst p) (Ms, []))).
  Proof.
    intros W R HL HX. destruct (run_means N p (st, []) (Ms, [])) as ([st' o'] & E & W' & R' & Ho); auto.
    { split; auto. }
    cbn [fst snd] in *. subst o'. exists st'. auto.
  Qed.
  Theorem program_means_roomy N M t (p : list (instr * env)) (st : list bmat) (Ms : list (mat F)) :
    (0 < N)%nat -> uniform N M t st -> Forall2 (fun A X => meq N (bmx A) X) st Ms ->
    program N (length st) (map fst p) -> Forall exact_instr (map fst p) -> Forall (fun q => good_schedules N (snd q)) p ->
    exists st', brun p (st, []) = Ok (st', snd (mrun N (map fst p) (Ms, []))) /\ Forall bwf st' /\
      Forall2 (fun A X => bml_get_N A = N /\ meq N (bmx A) X) st' (fst (mrun N (map fst p) (Ms, []))).
  Proof.
    intros HN U R HP HX HE. apply program_means; auto.
    - eapply Forall_impl; [|exact U]. simpl. tauto.
    - clear -U R. revert U. induction R as [|A X l l' H R IH]; intros U; auto.
      apply Forall_cons_iff in U as [(_ & (NA & _) & _) U]. auto.
    - apply (legal_roomy N M t); auto.
  Qed.
End ProgFacts.
