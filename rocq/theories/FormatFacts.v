(** Every operation of the format-independent interface computes the same
    matrix in every format. *)
From Verif Require Import Base BaseFacts Spec SpecFacts EllpackModel EllpackSpec EllpackFacts EllpackOps EllpackArith EllpackMul EllpackMore
  EllpackMul2 EllpackExact EllpackRest EllpackNorm EllpackTrans CsrModel CsrSpec CsrFacts CsrOps CsrMul CsrHash CsrMore CsrTrans CsrTop
  GemmModel DenseModel DenseSpec GemmFacts DenseFacts DenseOps FormatModel FormatSpec.
From Coq Require Import Ring.

Section FormatFacts.
  Context {F : scalar}.
  Local Open Scope K_scope.
  Add Ring Kringfmt : (k_ring F).
  Local Notation bmat := (bmat F).
  Local Notation env := (env F).

  Lemma meq_sym N (X Y : mat F) : meq N X Y -> meq N Y X.
  Proof. intros H i j Hi Hj. symmetry. auto. Qed.
  Lemma meq_trans N (X Y Z : mat F) : meq N X Y -> meq N Y Z -> meq N X Z.
  Proof. intros H1 H2 i j Hi Hj. rewrite H1; auto. Qed.
  Lemma meq_refl N (X : mat F) : meq N X X.
  Proof. intros i j _ _. auto. Qed.

  Lemma rows_perm (A : bmat) (e : env) k : good_env A e -> Permutation (map snd (e_rows e k)) (seq 0 (bml_get_N A)).
  Proof. intros H. apply H. Qed.
  Lemma rows_full (A : bmat) (e : env) k : good_env A e -> full_sched (bml_get_N A) (e_nth e) (e_rows e k).
  Proof. intros H. apply H. Qed.
  Lemma cells_perm (A : bmat) (e : env) k : good_env A e -> Permutation (map snd (e_cells e k)) (seq 0 (bml_get_N A * bml_get_N A)).
  Proof. intros (_ & H & _). apply H. Qed.
  Lemma cells_full (A : bmat) (e : env) k : good_env A e -> full_sched (bml_get_N A * bml_get_N A) (e_nth e) (e_cells e k).
  Proof. intros (_ & H & _). apply H. Qed.
  Lemma tri_perm (A : bmat) (e : env) : good_env A e -> Permutation (map snd (e_tri e)) (seq 0 (bml_get_N A - 1)).
  Proof. intros (_ & _ & H & _). apply H. Qed.
  Lemma slots_perm (A : bmat) (e : env) l : good_env A e -> Permutation (e_slots e l) l.
  Proof. intros (_ & _ & _ & H). apply H. Qed.

  Ltac sched He :=
    first [ exact (rows_perm _ _ _ He) | exact (rows_full _ _ _ He) | exact (cells_perm _ _ _ He)
          | exact (cells_full _ _ _ He) | exact (tri_perm _ _ He) | exact (slots_perm _ _ _ He) ].
  Ltac done L := rewrite L; cbn [bind]; eexists; split; [reflexivity|].
  Ltac close := cbn [bmx bwf bml_get_N]; split; [assumption|]; split; [split; [split|]; cbn [bml_get_type bml_get_N bml_get_M]; congruence|]; try assumption.

  Ltac conf H := destruct H as [?T ?HN]; cbn [bml_get_type bml_get_N] in *; try discriminate.

  Lemma bml_get_element_ok (A : bmat) i j : bwf A -> (i < bml_get_N A)%nat -> (j < bml_get_N A)%nat ->
    bml_get_element A i j = Ok (bmx A i j).
  Proof.
    destruct A as [A|A|A]; cbn [bwf bml_get_N bmx bml_get_element]; intros H Hi Hj.
    - apply dense_get_element_ok; auto.
    - apply ell_get_element_ok; auto; [apply H|apply wf_nnz; auto].
    - apply csr_get_element_ok; auto. apply H.
  Qed.
  Lemma bml_get_row_ok (A : bmat) i : bwf A -> (i < bml_get_N A)%nat ->
    bml_get_row A i = Ok (map (bmx A i) (seq 0 (bml_get_N A))).
  Proof.
    destruct A as [A|A|A]; cbn [bwf bml_get_N bmx bml_get_row]; intros H Hi.
    - apply dense_get_row_ok; auto.
    - apply ell_get_row_ok; auto.
    - apply csr_get_row_ok; auto.
  Qed.
  Lemma bml_get_diagonal_ok (A : bmat) : bwf A ->
    bml_get_diagonal A = Ok (map (fun i => bmx A i i) (seq 0 (bml_get_N A))).
  Proof.
    destruct A as [A|A|A]; cbn [bwf bml_get_N bmx bml_get_diagonal]; intros H.
    - apply dense_get_diagonal_ok; auto.
    - apply ell_get_diagonal_ok; auto.
    - apply csr_get_diagonal_ok; auto.
  Qed.

  Lemma bml_add_ok keep alpha beta (A B : bmat) e : bwf A -> bwf B -> alike A B -> good_env A e -> add_room keep alpha beta A B ->
    exists A', bml_add keep alpha beta A B e = Ok A' /\ bwf A' /\ like A A' /\
      meq (bml_get_N A) (bmx A') (tcut keep A (madd (mscale alpha (bmx A)) (mscale beta (bmx B)))).
  Proof.
    intros HA HB HL He HR. destruct A as [A|A|A], B as [B|B|B]; conf HL; cbn [bwf add_room bml_add] in *.
    - destruct (dense_add_ok alpha beta A B) as (A' & E & W & D & V); auto. done E. close.
    - destruct (add_spec keep alpha beta A B (e_rows e 0)) as (A' & E & W & [D1 D2] & V); auto; [sched He|]. done E. close.
    - destruct HR as [R1 R2].
      destruct (cadd_spec keep alpha beta A B (e_rows e 0) (e_rows e 1)) as (A' & E & W & [D1 D2] & V); auto; try sched He. done E. close.
  Qed.

  Lemma bml_add_identity_ok keep beta (A : bmat) e : bwf A -> good_env A e -> identity_room beta A ->
    exists A', bml_add_identity keep beta A e = Ok A' /\ bwf A' /\ like A A' /\
      meq (bml_get_N A) (bmx A') (tcut keep A (madd (bmx A) (mscale beta mid))).
  Proof.
    intros HA He HR. destruct A as [A|A|A]; cbn [bwf bml_add_identity identity_room] in *.
    - destruct (dense_add_identity_ok beta A (e_rows e 0)) as (A' & E & W & D & V); auto; [sched He|]. done E. close.
    - destruct (add_identity_spec keep beta A (e_rows e 0)) as (A' & E & W & [D1 D2] & V); auto; [sched He|]. done E. close.
    - destruct (cadd_identity_spec keep beta A (e_rows e 0) (e_rows e 1)) as (A' & E & W & [D1 D2] & V); auto; try sched He. done E. close.
  Qed.

  Lemma bml_scale_add_identity_ok keep alpha beta (A : bmat) e : bwf A -> good_env A e -> identity_room beta A ->
    exists A', bml_scale_add_identity keep alpha beta A e = Ok A' /\ bwf A' /\ like A A' /\
      meq (bml_get_N A) (bmx A') (tcut keep A (madd (mscale alpha (bmx A)) (mscale beta mid))).
  Proof.
    intros HA He HR. destruct A as [A|A|A]; cbn [bwf bml_scale_add_identity identity_room] in *.
    - destruct (dense_scale_add_identity_ok alpha beta A (e_rows e 0)) as (A' & E & W & D & V); auto; [sched He|]. done E. close.
    - destruct (scale_add_identity_spec keep alpha beta A (e_rows e 0)) as (A' & E & W & [D1 D2] & V); auto; [sched He|]. done E. close.
    - destruct (cscale_add_identity_spec keep alpha beta A (e_rows e 0) (e_rows e 1) (e_rows e 2)) as (A' & E & W & [D1 D2] & V); auto; try sched He. done E. close.
  Qed.

  Lemma bml_multiply_AB_ok keep (A B C : bmat) e : bwf A -> bwf B -> bwf C -> alike A B -> alike A C -> good_env A e -> product_room A B C ->
    exists C', bml_multiply_AB keep A B C e = Ok C' /\ bwf C' /\ like C C' /\
      meq (bml_get_N A) (bmx C') (toff keep A (mmul (bml_get_N A) (bmx A) (bmx B))).
  Proof.
    intros HA HB HC HL HL' He HR. destruct A as [A|A|A], B as [B|B|B]; conf HL; destruct C as [C|C|C]; conf HL';
      cbn [bwf product_room bml_multiply_AB] in *.
    - destruct (dense_multiply_AB_ok A B C) as (C' & E & W & D & V); auto. done E. close.
    - destruct (multiply_AB_spec keep A B C (e_rows e 0)) as [(_ & i & Hi & Hlt)|(C' & E & _ & W & [D1 D2] & V)]; auto; try sched He.
      + specialize (HR i Hi). lia.
      + done E. close.
    - destruct (cmultiply_AB_spec keep A B C (e_rows e 0)) as (C' & E & W & [D1 D2] & V); auto; try sched He. done E. close.
  Qed.

  Lemma bml_multiply_ok keep alpha beta (A B C : bmat) e : bwf A -> bwf B -> bwf C -> alike A B -> alike A C -> good_env A e ->
    multiply_room keep alpha beta A B C ->
    exists C', bml_multiply keep alpha beta A B C e = Ok C' /\ bwf C' /\ like C C' /\
      meq (bml_get_N A) (bmx C') (tcut keep A (madd (mscale beta (bmx C)) (mscale alpha (toff keep A (mmul (bml_get_N A) (bmx A) (bmx B)))))).
  Proof.
    intros HA HB HC HL HL' He HR. destruct A as [A|A|A], B as [B|B|B]; conf HL; destruct C as [C|C|C]; conf HL';
      cbn [bwf multiply_room bml_multiply] in *.
    - destruct (dense_multiply_ok alpha beta A B C) as (C' & E & W & D & V); auto. done E. close.
      intros i j Hi Hj. cbn [bmx]. rewrite V by auto. unfold tcut, toff, sparse, madd, mscale. ring.
    - destruct HR as [R1 R2].
      destruct (multiply_spec keep alpha beta A B C (e_rows e 0) (e_rows e 1) (e_gv e) (e_gi e)) as (C' & E & W & [D1 D2] & V); auto; try sched He.
      done E. close.
    - destruct HR as [R1 R2].
      assert (P : forall k, Permutation (map snd (e_rows e k)) (seq 0 (cN C))) by (intros k; rewrite <- HN0; sched He).
      destruct (cmultiply_spec keep alpha beta A B C (e_rows e 0) (e_rows e 1) (e_rows e 2)) as (C' & E & W & [D1 D2] & V); auto.
      done E. close. intros i j Hi Hj. apply V; lia.
  Qed.

  Lemma bml_multiply_x2_ok keep (X X2 : bmat) e : bwf X -> bwf X2 -> alike X X2 -> good_env X e -> square_room keep X X2 ->
    exists C, bml_multiply_x2 keep X X2 e =
        Ok (C, mtrace (bml_get_N X) (bmx X), mtrace (bml_get_N X) (mmul (bml_get_N X) (bmx X) (bmx X))) /\
      bwf C /\ like X2 C /\ meq (bml_get_N X) (bmx C) (toff keep X (mmul (bml_get_N X) (bmx X) (bmx X))).
  Proof.
    intros HA HB HL He HR. destruct X as [A|A|A], X2 as [B|B|B]; conf HL; cbn [bwf square_room bml_multiply_x2] in *.
    - destruct (dense_multiply_x2_ok A B (e_nth e) (e_rows e 0) (e_rows e 1)) as (C & E & W & D & V); auto; try sched He. done E. close.
    - destruct (multiply_x2_spec keep A B (e_nth e) (e_rows e 0)) as (C & E & W & [D1 D2] & V); auto; try sched He. done E. close.
    - destruct (cmultiply_x2_spec keep A B (e_nth e) (e_rows e 0)) as (C & E & W & [D1 D2] & V); auto; try sched He. done E. close.
  Qed.

  Lemma bml_element_multiply_ok keep (A B C : bmat) e : bwf A -> bwf B -> bwf C -> alike A B -> alike A C -> good_env A e -> had_room A C ->
    exists C', bml_element_multiply_AB keep A B C e = Ok C' /\ bwf C' /\ like C C' /\
      meq (bml_get_N A) (bmx C') (toff keep A (mhad (bmx A) (bmx B))).
  Proof.
    intros HA HB HC HL HL' He HR. destruct A as [A|A|A], B as [B|B|B]; conf HL; destruct C as [C|C|C]; conf HL';
      cbn [bwf had_room bml_element_multiply_AB] in *.
    - destruct (dense_element_multiply_AB_ok A B C (e_cells e 0)) as (C' & E & W & D & V); auto; try sched He. done E. close.
    - destruct (element_multiply_spec keep A B C (e_rows e 0)) as (C' & E & W & [D1 D2] & V); auto; try sched He. done E. close.
    - destruct (celement_multiply_spec keep A B C (e_rows e 0)) as (C' & E & W & [D1 D2] & V); auto; try sched He. done E. close.
  Qed.

  Lemma bml_transpose_new_ok (A : bmat) e : bwf A -> good_env A e -> transpose_room A ->
    exists B, bml_transpose_new A e = Ok B /\ bwf B /\ like A B /\ meq (bml_get_N A) (bmx B) (mtrans (bmx A)).
  Proof.
    intros HA He HR. destruct A as [A|A|A]; cbn [bwf bml_transpose_new transpose_room] in *.
    - destruct (dense_transpose_new_ok A (e_gv e) (e_rows e 0)) as (A' & E & W & D & V); auto; [sched He|]. done E. close.
    - destruct (transpose_new_spec A (e_slots e (all_slots A)) (e_gv e) (e_gi e)) as (A' & E & W & [D1 D2] & V); auto; [sched He|]. done E. close.
    - destruct (ctranspose_new_spec A (e_slots e (c_slots A))) as (A' & E & W & [D1 D2] & V); auto; [sched He|]. done E. close.
  Qed.

  Lemma bml_transpose_ok (A : bmat) e : bwf A -> good_env A e -> transpose_inplace_room A ->
    exists B, bml_transpose A e = Ok B /\ bwf B /\ like A B /\ meq (bml_get_N A) (bmx B) (mtrans (bmx A)).
  Proof.
    intros HA He HR. destruct A as [A|A|A]; cbn [bwf bml_transpose transpose_inplace_room] in *.
    - destruct (dense_transpose_ok A (e_tri e)) as (A' & E & W & D & V); auto; [sched He|]. done E. close.
    - destruct (ell_transpose_ok A HA) as (A' & E & W & [D1 D2] & V); auto. done E. close.
    - destruct (csr_transpose_ok A HA) as (A' & E & W & [D1 D2] & V); auto. done E. close.
  Qed.

  Lemma bml_scale_inplace_ok a (A : bmat) e : bwf A -> good_env A e ->
    exists B, bml_scale_inplace a A e = Ok B /\ bwf B /\ like A B /\ meq (bml_get_N A) (bmx B) (mscale a (bmx A)).
  Proof.
    intros HA He. destruct A as [A|A|A]; cbn [bwf bml_scale_inplace] in *.
    - destruct (dense_scale_inplace_ok a A) as (A' & E & W & D & V); auto. done E. close.
    - destruct (scale_inplace_spec a A) as (A' & E & W & [D1 D2] & V & _); auto. done E. close.
    - destruct (cscale_inplace_spec a A (e_rows e 0)) as (A' & E & W & [D1 D2] & V); auto; [sched He|]. done E. close.
  Qed.

  Lemma bml_copy_new_ok (A : bmat) e : bwf A -> good_env A e ->
    exists B, bml_copy_new A e = Ok B /\ bwf B /\ like A B /\ meq (bml_get_N A) (bmx B) (bmx A).
  Proof.
    intros HA He. destruct A as [A|A|A]; cbn [bwf bml_copy_new] in *.
    - done (dense_copy_new_ok A (e_gv e) HA). close. apply meq_refl.
    - done (ell_copy_new_ok A (e_gv e) (e_gi e) (proj1 HA)). close. apply meq_refl.
    - destruct (ccopy_new_spec A (e_rows e 0)) as (A' & E & W & [D1 D2] & V); auto; [sched He|]. done E. close.
      intros i j Hi _. apply V; auto.
  Qed.

  Lemma bml_threshold_ok keep (A : bmat) e : bwf A -> good_env A e ->
    exists B, bml_threshold keep A e = Ok B /\ bwf B /\ like A B /\ meq (bml_get_N A) (bmx B) (mcut keep (bmx A)).
  Proof.
    intros HA He. destruct A as [A|A|A]; cbn [bwf bml_threshold] in *.
    - destruct (dense_threshold_ok keep A (e_cells e 0)) as (A' & E & W & D & V); auto; [sched He|]. done E. close.
    - destruct (threshold_spec keep A (e_rows e 0)) as (A' & E & W & [D1 D2] & V); auto; [sched He|]. done E. close.
    - destruct (cthreshold_spec keep A (e_rows e 0)) as (A' & E & W & [D1 D2] & V); auto; [sched He|]. done E. close.
  Qed.

  Lemma diag_nth (f : nat -> F) (g : F -> F) N (d : list F) i : length d = N -> (i < N)%nat ->
    map f (seq 0 N) = map g d -> f i = g (nth i d 0).
  Proof.
    intros HL Hi H. rewrite <- (map_nth g). rewrite <- H.
    rewrite (nth_indep _ (g 0) (f 0%nat)) by (rewrite map_length, seq_length; auto).
    rewrite map_nth, seq_nth by auto. auto.
  Qed.

  Lemma bml_set_diagonal_ok keep (A : bmat) (diag : list F) : bwf A -> length diag = bml_get_N A -> diag_room keep A diag ->
    exists B, bml_set_diagonal keep A diag = Ok B /\ bwf B /\ like A B /\
      meq (bml_get_N A) (bmx B) (fun i j => if (i =? j)%nat then tcut keep A (fun i _ => nth i diag 0) i i else bmx A i j).
  Proof.
    intros HA HL HR. destruct A as [A|A|A]; cbn [bwf bml_set_diagonal diag_room bml_get_N] in *.
    - destruct (dense_set_diagonal_ok A diag) as (A' & E & W & D & V); [auto|lia|]. done E. close.
    - destruct (set_diagonal_spec keep A diag) as (A' & E & W & [D1 D2] & V1 & V2); auto. done E. close.
      rewrite ell_get_diagonal_ok in V1 by auto. inversion V1 as [V]. intros i j Hi Hj. cbn [bmx tcut sparse]. unfold mcut.
      destruct (Nat.eqb_spec i j) as [<-|Hne]; [|apply V2; auto]. rewrite <- D1 in V. apply (diag_nth _ _ _ _ i HL Hi V).
    - destruct (cset_diagonal_spec keep A diag) as (A' & E & W & [D1 D2] & V1 & V2); auto. done E. close.
      rewrite csr_get_diagonal_ok in V1 by auto. inversion V1 as [V]. intros i j Hi Hj. cbn [bmx tcut sparse]. unfold mcut.
      destruct (Nat.eqb_spec i j) as [<-|Hne]; [|apply V2; auto]. rewrite <- D1 in V. apply (diag_nth _ _ _ _ i HL Hi V).
  Qed.

  Lemma bml_trace_ok (A : bmat) e : bwf A -> good_env A e -> bml_trace A e = Ok (mtrace (bml_get_N A) (bmx A)).
  Proof.
    intros HA He. destruct A as [A|A|A]; cbn [bwf bml_trace bml_get_N bmx] in *.
    - apply dense_trace_ok; auto. sched He.
    - apply ell_trace_ok; auto. sched He.
    - apply csr_trace_ok; auto. sched He.
  Qed.
  Lemma bml_sum_squares_ok (A : bmat) e : bwf A -> good_env A e ->
    bml_sum_squares A e = Ok (msum (bml_get_N A) (mhad (bmx A) (bmx A))).
  Proof.
    intros HA He. destruct A as [A|A|A]; cbn [bwf bml_sum_squares bml_get_N bmx] in *.
    - apply dense_sum_squares_ok; auto. sched He.
    - apply ell_sum_squares_ok; auto. sched He.
    - apply csr_sum_squares_ok; auto. sched He.
  Qed.
  Lemma bml_sum_AB_ok keep alpha (A B : bmat) e : bwf A -> bwf B -> alike A B -> good_env A e -> norm_room A ->
    bml_sum_AB keep alpha A B e = Ok (msum (bml_get_N A) (mcut keep (mscale alpha (mhad (bmx A) (bmx B))))).
  Proof.
    intros HA HB HL He HR. destruct A as [A|A|A], B as [B|B|B]; conf HL; cbn [bwf bml_sum_AB bmx norm_room] in *.
    - apply dense_sum_AB_ok; auto. sched He.
    - apply ell_sum_AB_ok; auto. sched He.
    - apply csr_sum_AB_ok; auto.
  Qed.
  Lemma bml_sum_squares2_ok keep alpha beta (A B : bmat) e : bwf A -> bwf B -> alike A B -> good_env A e -> norm_room A ->
    bml_sum_squares2 keep alpha beta A B e =
      Ok (let Z := mcut keep (madd (mscale alpha (bmx A)) (mscale beta (bmx B))) in msum (bml_get_N A) (mhad Z Z)).
  Proof.
    intros HA HB HL He HR. destruct A as [A|A|A], B as [B|B|B]; conf HL; cbn [bwf bml_sum_squares2 bmx norm_room] in *.
    - apply dense_sum_squares2_ok; auto. sched He.
    - apply ell_sum_squares2_ok; auto. sched He.
    - apply csr_sum_squares2_ok; auto.
  Qed.
End FormatFacts.
