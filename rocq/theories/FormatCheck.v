(** Instances and counterexamples for the format-independent interface. *)
From Verif Require Import Base BaseFacts Spec SpecFacts EllpackModel EllpackSpec EllpackExact EllpackCheck CsrModel CsrSpec CsrHash CsrCheck
  GemmModel DenseModel DenseSpec DenseCheck FormatModel FormatSpec FormatFacts FormatConv FormatHistModel FormatHistSpec FormatHist.

(** the matrices [4 1 0; 0 2 5; 7 0 0] and [1 0 0; 3 0 2; 0 6 0] in each format *)
Definition fA (t : fmt) : bmat Zscalar := match t with FDense => BDense exD | FEll => BEll exA | FCsr => BCsr exCA end.
Definition fB (t : fmt) : bmat Zscalar := match t with FDense => BDense exE | FEll => BEll exB | FCsr => BCsr exCB end.

Definition exS2 : list (nat * nat) := [(1, 1); (0, 0)].
Definition exEnv : env Zscalar :=
  @mkEnv Zscalar 2 (fun _ => exS) (fun _ => exS9) exS2 (@rev (nat * nat)) (fun k => Z.of_nat k) (fun k => k).

Lemma fA_wf t : bwf (fA t).
Proof. destruct t; [apply exD_wf|apply exA_wf|apply exCA_wf]. Qed.
Lemma fB_wf t : bwf (fB t).
Proof. destruct t; [apply exE_wf|apply exB_wf|apply exCB_wf]. Qed.
Lemma fAB_alike t : alike (fA t) (fB t).
Proof. destruct t; split; reflexivity. Qed.
Lemma meqb_ok N (X Y : mat Zscalar) : forallb (fun i => forallb (fun j => Z.eqb (X i j) (Y i j)) (seq 0 N)) (seq 0 N) = true -> meq N X Y.
Proof.
  intros H i j Hi Hj. rewrite forallb_forall in H. specialize (H i ltac:(apply in_seq; lia)).
  rewrite forallb_forall in H. apply Z.eqb_eq. apply H. apply in_seq; lia.
Qed.
Lemma fA_same t1 t2 : same_matrix (fA t1) (fA t2).
Proof. destruct t1, t2; split; try reflexivity; apply meqb_ok; vm_compute; reflexivity. Qed.
Lemma fB_same t1 t2 : same_matrix (fB t1) (fB t2).
Proof. destruct t1, t2; split; try reflexivity; apply meqb_ok; vm_compute; reflexivity. Qed.
Lemma exEnv_good3 : good_schedules 3 exEnv.
Proof.
  split; [intros k; apply exS_full|]. split; [intros k; apply exS9_full|]. split; [apply permb_ok; reflexivity|].
  intros l. simpl. symmetry. apply Permutation_rev.
Qed.
Lemma exEnv_good t : good_env (fA t) exEnv.
Proof. destruct t; exact exEnv_good3. Qed.
Lemma gtZ0_exact : keeps_nonzero (gtZ 0 : Zscalar -> bool).
Proof. intros x H. unfold gtZ in H. apply Z.ltb_ge in H. simpl. lia. Qed.

Lemma fAB_add_room t keep alpha beta : add_room keep alpha beta (fA t) (fB t).
Proof.
  destruct t; cbn [fA fB add_room]; auto.
  - intros i Hi. eapply Nat.le_trans; [apply count_all|]. simpl. lia.
  - split; [apply exCA_small|]. intros i Hi; simpl in Hi; destruct i as [|[|[|]]]; try lia; vm_compute; lia.
Qed.
Lemma fAB_product_room t : product_room (fA t) (fB t) (fB t).
Proof. destruct t; cbn [fA fB product_room]; auto; [simpl; lia|]. intros i Hi. eapply Nat.le_trans; [apply count_all|]. simpl. lia. Qed.

(** a conversion to ellpack with M = 2 < N = 3 of a matrix with at most 2
    nonzero elements per row *)
Lemma convert_ell_refuted : exists (A : bmat Zscalar) M, bwf A /\ (0 < M)%nat /\
  (forall i, i < bml_get_N A -> count (bml_get_N A) (fun j => gtZ 0 (bmx A i j)) <= M)%nat /\
  bml_convert (gtZ 0) A FEll M = UB.
Proof.
  exists (fA FDense), 2%nat. split; [apply fA_wf|]. split; [lia|]. split; [|vm_compute; reflexivity].
  intros i Hi. simpl in Hi. destruct i as [|[|[|]]]; try lia; vm_compute; lia.
Qed.

(** dense and ellpack return sum A_ij B_ij, csr returns tr(AB) *)
Lemma trace_mult_formats_refuted : exists (A1 B1 A2 B2 : bmat Zscalar) e t1 t2,
  bwf A1 /\ bwf B1 /\ bwf A2 /\ bwf B2 /\ alike A1 B1 /\ alike A2 B2 /\ same_matrix A1 A2 /\ same_matrix B1 B2 /\
  good_env A1 e /\ good_env A2 e /\
  bml_trace_mult A1 B1 e = Ok t1 /\ bml_trace_mult A2 B2 e = Ok t2 /\ t1 <> t2.
Proof.
  eexists (fA FDense), (fB FDense), (fA FCsr), (fB FCsr), exEnv, _, _.
  do 4 (split; [first [apply fA_wf|apply fB_wf]|]). do 2 (split; [apply fAB_alike|]).
  split; [apply fA_same|]. split; [apply fB_same|]. do 2 (split; [apply exEnv_good|]).
  split; [vm_compute; reflexivity|]. split; [vm_compute; reflexivity|]. discriminate.
Qed.

(** dense returns |B|^2, ellpack |A - B|^2 *)
Lemma add_norm_formats_refuted : exists (A1 B1 A2 B2 : bmat Zscalar) e C1 C2 t1 t2,
  bwf A1 /\ bwf B1 /\ bwf A2 /\ bwf B2 /\ alike A1 B1 /\ alike A2 B2 /\ same_matrix A1 A2 /\ same_matrix B1 B2 /\
  good_env A1 e /\ good_env A2 e /\
  bml_add_norm (gtZ 0) k1 k1 A1 B1 e = Ok (C1, t1) /\ bml_add_norm (gtZ 0) k1 k1 A2 B2 e = Ok (C2, t2) /\ t1 <> t2.
Proof.
  eexists (fA FDense), (fB FDense), (fA FEll), (fB FEll), exEnv, _, _, _, _.
  do 4 (split; [first [apply fA_wf|apply fB_wf]|]). do 2 (split; [apply fAB_alike|]).
  split; [apply fA_same|]. split; [apply fB_same|]. do 2 (split; [apply exEnv_good|]).
  split; [vm_compute; reflexivity|]. split; [vm_compute; reflexivity|]. discriminate.
Qed.

(** with a threshold that drops nonzero numbers dense and the sparse formats
    differ: dense ignores the threshold *)
Lemma threshold_arg_formats_refuted : exists (A1 B1 A2 B2 : bmat Zscalar) e C1 C2 i j,
  bwf A1 /\ bwf B1 /\ bwf A2 /\ bwf B2 /\ alike A1 B1 /\ alike A2 B2 /\ same_matrix A1 A2 /\ same_matrix B1 B2 /\
  good_env A1 e /\ good_env A2 e /\
  bml_add (gtZ 2) k1 k1 A1 B1 e = Ok C1 /\ bml_add (gtZ 2) k1 k1 A2 B2 e = Ok C2 /\
  (i < bml_get_N A1)%nat /\ (j < bml_get_N A1)%nat /\ bml_get_element C1 i j <> bml_get_element C2 i j.
Proof.
  eexists (fA FDense), (fB FDense), (fA FEll), (fB FEll), exEnv, _, _, 0, 1.
  do 4 (split; [first [apply fA_wf|apply fB_wf]|]). do 2 (split; [apply fAB_alike|]).
  split; [apply fA_same|]. split; [apply fB_same|]. do 2 (split; [apply exEnv_good|]).
  split; [vm_compute; reflexivity|]. split; [vm_compute; reflexivity|]. do 2 (split; [simpl; lia|]). vm_compute. discriminate.
Qed.

(** a program that squares, adds, transposes, shifts, multiplies and measures *)
Definition exProg : list (@instr Zscalar) :=
  [@ICopyNew Zscalar 1; IMultiplyX2 0 2 (gtZ 0); @IAdd Zscalar 2 1 2%Z (-3)%Z (gtZ 0); ITransposeNew 0; @IMultiply Zscalar 0 3 2 1%Z 5%Z (gtZ 0);
   @IScaleAddIdentity Zscalar 2 (-1)%Z 7%Z (gtZ 0); @ISetDiagonal Zscalar 1 (gtZ 0) [1; 0; 2]%Z; IElementMultiply 0 2 3 (gtZ 0); ITranspose 3;
   IThreshold 2 (gtZ 9); @IScale Zscalar 2 3%Z; @IAddIdentity Zscalar 0 (-4)%Z (gtZ 0); IMultiplyAB 0 1 2 (gtZ 0);
   ITrace 2; ISumSquares 3; IGetRow 2 1; IGetElement 3 0 0].

Lemma exProg_ok : program 3 2 exProg.
Proof. cbn. repeat split; try lia; intros h Hh; simpl in Hh; lia. Qed.
Lemma exProg_exact : Forall exact_instr exProg.
Proof. repeat constructor; apply gtZ0_exact. Qed.
Definition exStore (t : fmt) : list (bmat Zscalar) := [fA t; fB t].
Lemma exStore_uniform t : uniform 3 3 t (exStore t).
Proof.
  assert (R : roomy 3 3 (fA t) /\ roomy 3 3 (fB t)).
  { assert (T : (3 <= table_max)%nat) by (apply table_max_big; lia).
    destruct t; (split; (split; [reflexivity|]; split; [lia|]); try exact I; try reflexivity);
      (split; [reflexivity|]; split; [exact T|]); intros [|[|[|i]]] Hi; try lia; vm_compute; lia. }
  constructor; [split; [apply fA_wf|]; split; [apply R|destruct t; auto]|].
  constructor; [split; [apply fB_wf|]; split; [apply R|destruct t; auto]|constructor].
Qed.
Definition exOut : list Zscalar := match brun (map (fun c => (c, exEnv)) exProg) (exStore FDense, []) with Ok (_, o) => o | _ => [] end.
Lemma exProg_runs : length exOut = 8%nat /\
  forall t, exists st, brun (map (fun c => (c, exEnv)) exProg) (exStore t, []) = Ok (st, exOut).
Proof. split; [vm_compute; reflexivity|]. intros t. destruct t; eexists; vm_compute; reflexivity. Qed.
