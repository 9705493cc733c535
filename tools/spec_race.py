OUT='PropsRace.v'
HEADER='''(** C74: data races, at the level of single array accesses. *)
From Verif Require Import Base Spec EllpackModel EllpackSpec EllpackCheck ThreadModel RaceModel RaceSpec RaceMain RaceCheck RaceModel2 RaceX2 RaceCheck2
  DenseModel DenseSpec DenseCheck RaceDense RaceCheck3
  CsrModel CsrSpec CsrCheck RaceModel3 RaceSpec3 RaceCsr RaceCsr2 RaceCheck4
  RealSpec CsrRealCheck RaceModel4 RaceGersh RaceCheck5.
'''
ITEMS=[
("c74_multiply","interleaved_multiply","ellpack multiply_AB: C (object 0) different from A (object 1) and B (object 2); A and B may be equal"),
r'''Example c74_multiply_instance : wf exA /\ wf exB /\ eN exA = eN exB /\ Permutation (map snd exS) (seq 0 (eN exA)) /\
  (forall i, i < eN exA -> prod_cols exA exB i <= eM exA) /\
  holds (exM_mul exA) 0 exA /\ holds (exM_mul exA) 1 exA /\ holds (exM_mul exA) 2 exB /\
  (forall t, In t (map fst exS) -> holds_ws (exM_mul exA) t (ws_new k0 (eN exA))).
Proof.
  split; [apply exA_wf|]. split; [apply exB_wf|]. split; [reflexivity|]. split; [apply exS_perm|].
  split; [apply (below_ok 3 (fun i => prod_cols exA exB i <=? 3)); [|reflexivity]; intros i; apply Nat.leb_le|].
  split; [holds_now|]. split; [holds_now|]. split; [holds_now|]. intros t [<-|[<-|[<-|[]]]]; holds_now.
Qed.''',
("c74_add","interleaved_add","ellpack add: A (object 0) := alpha A + beta B (object 1)"),
r'''Example c74_add_instance : wf exA /\ wf exB /\ eN exA = eN exB /\ Permutation (map snd exS) (seq 0 (eN exA)) /\
  fits (eN exA) (eM exA) (gtZ 1) (madd (mscale (2 : Zscalar)%Z (emat exA)) (mscale (-3 : Zscalar)%Z (emat exB))) /\
  holds exM_add 0 exA /\ holds exM_add 1 exB /\
  (forall t, In t (map fst exS) -> holds_ws exM_add t (ws_new k0 (eN exA))).
Proof.
  split; [apply exA_wf|]. split; [apply exB_wf|]. split; [reflexivity|]. split; [apply exS_perm|].
  split; [apply fitsb_ok; reflexivity|].
  split; [holds_now|]. split; [holds_now|]. intros t [<-|[<-|[<-|[]]]]; holds_now.
Qed.''',
("c74_threshold","interleaved_threshold","ellpack threshold in place"),
("c74_import","interleaved_import","import from a dense array (dense array 1 into object 0)"),
r'''Example c74_import_instance : let D := [1; 0; 3; 4; 5; 0; 0; 8; 2]%Z : list Zscalar in exists Z,
  (0 < 2)%nat /\ length D = (3 * 3)%nat /\ Permutation (map snd exS) (seq 0 3) /\ fits 3 2 (gtZ 0) (dmat col_major 3 D) /\
  ell_zero 3 2 = Ok Z /\ holds (exM_imp Z D) 0 Z /\ holdsK (exM_imp Z D) (aDense 1) D.
Proof.
  intros D. eexists. split; [auto|]. split; [reflexivity|]. split; [apply exS_perm|]. split; [apply fitsb_ok; reflexivity|].
  split; [reflexivity|]. split; [holds_now|intros k; reflexivity].
Qed.''',
("c74_export","interleaved_export","export to a dense array (object 1 into dense array 0)"),
r'''Example c74_export_instance : wf exA /\ Permutation (map snd exS) (seq 0 (eN exA)) /\
  holdsK exM_exp (aDense 0) (repeat k0 (eN exA * eN exA)) /\ holds exM_exp 1 exA.
Proof. split; [apply exA_wf|]. split; [apply exS_perm|]. split; [intros k; reflexivity|holds_now]. Qed.''',
("c74_trace","interleaved_trace","trace with one reduction variable per thread"),
r'''Example c74_trace_instance : wf exA /\ full_sched (eN exA) 2 exS /\ holds exM_tr 1 exA /\
  (forall t, t < 2 -> exM_tr (aAcc t, 0) = Some (VK (k0 : Zscalar))).
Proof.
  split; [apply exA_wf|]. split; [apply exS_full|]. split; [holds_now|].
  intros [|[|t]] H; [reflexivity..|lia].
Qed.''',
("c74_transpose_new","interleaved_transpose","transpose_new: rows of the result are filled by all threads under row locks"),
r'''Example c74_transpose_instance : wf exA /\ Permutation (map snd exS) (seq 0 (eN exA)) /\
  (forall r, r < eN exA -> colcount exA r <= eM exA) /\
  holds exM_transp 0 (ell_noinit (eN exA) (eM exA) (fun k => Z.of_nat k : Zscalar) (fun k => k)) /\ holds exM_transp 1 exA.
Proof.
  split; [apply exA_wf|]. split; [apply exS_perm|].
  split; [apply (below_ok 3 (fun r => colcount exA r <=? 3)); [|reflexivity]; intros r; apply Nat.leb_le|].
  split; holds_now.
Qed.''',
("c74_multiply_x2","interleaved_x2","multiply_x2 (X object 1, X2 object 0) with the two reduction variables of each thread"),
r'''Example c74_multiply_x2_instance : wf exA /\ wf exB /\ eN exB = eN exA /\ full_sched (eN exA) 2 exS /\
  (forall i, i < eN exA -> count (eN exA) (fun j => (Nat.eqb i j || gtZ 4 (mmul (eN exA) (emat exA) (emat exA) i j))%bool) <= eM exB) /\
  holds exM_x2 0 exB /\ holds exM_x2 1 exA /\
  (forall t, t < 2 -> holds_ws exM_x2 t (ws_new k0 (eN exA)) /\
     exM_x2 (aAcc t, 0) = Some (VK (k0 : Zscalar)) /\ exM_x2 (aAcc t, 1) = Some (VK (k0 : Zscalar))).
Proof.
  split; [apply exA_wf|]. split; [apply exB_wf|]. split; [reflexivity|]. split; [apply exS_full|].
  split; [apply (below_ok 3 (fun i => count (eN exA) (fun j => (Nat.eqb i j || gtZ 4 (mmul (eN exA) (emat exA) (emat exA) i j))%bool) <=? eM exB));
    [|reflexivity]; intros i; apply Nat.leb_le|].
  split; [holds_now|]. split; [holds_now|].
  intros [|[|t]] H; [split; [holds_now|split; reflexivity]..|lia].
Qed.''',
("c74_sum_squares","interleaved_sum_squares","ellpack sum of squares (object 1)"),
("c74_dense_transpose","interleaved_dense_transpose","dense transpose in place: iteration i exchanges (i,j) and (j,i) for j > i"),
("c74_dense_triangle","interleaved_dense_tri","dense transpose / adjungate of a triangle"),
("c74_dense_transpose_new","interleaved_dense_transpose_new","dense transpose_new (A object 1, B object 0)"),
("c74_dense_threshold","interleaved_dense_threshold","dense threshold in place"),
("c74_dense_threshold_new","interleaved_dense_threshold_new","dense threshold_new (A object 1, B object 0)"),
("c74_dense_element_multiply","interleaved_dense_element_multiply","dense element_multiply (A, B, C are objects 1, 2, 0)"),
("c74_dense_trace","interleaved_dense_trace","dense trace"),
("c74_dense_trace_mult","interleaved_dense_trace_mult","dense trace_mult"),
("c74_dense_sum_squares","interleaved_dense_sum_squares","dense sum of squares"),
"""Example c74_dense_instance : let m := exM_d exD exE exD in let m' := exM_d (dense_noinit 3 (fun k => Z.of_nat k : Zscalar)) exE exD in
  let mz := exM_d (mkDense 3 (repeat (k0 : Zscalar) 9)) exE exD in
  dwf exD /\\ dwf exE /\\ dN exE = dN exD /\\ Permutation (map snd [(0, 1); (1, 0)]) (seq 0 (dN exD - 1)) /\\
  Permutation (map snd exS) (seq 0 (dN exD)) /\\ full_sched (dN exE) 2 exS /\\ full_sched (dN exE * dN exE) 2 exS9 /\\
  holdsK m (aDense 0) (dmx exD) /\\ holdsK m (aDense 1) (dmx exE) /\\ holdsK m (aDense 2) (dmx exD) /\\
  holdsK m' (aDense 0) (dmx (dense_noinit (dN exE) (fun k => Z.of_nat k : Zscalar))) /\\ holdsK m' (aDense 1) (dmx exE) /\\
  holdsK mz (aDense 0) (repeat k0 (dN exE * dN exE)) /\\ holdsK mz (aDense 1) (dmx exE) /\\
  (forall t, t < 2 -> m (aAcc t, 0) = Some (VK (k0 : Zscalar))) /\\ m (aDense 3, 0) = Some (VK (k0 : Zscalar)) /\\
  (exists i i', In (0, i) exS9 /\\ In (1, i') exS9).
Proof.
  split; [apply exD_wf|]. split; [apply exE_wf|]. split; [reflexivity|]. split; [apply permb_ok; reflexivity|].
  split; [apply exS_perm|]. split; [apply exS_full|]. split; [apply exS9_full|].
  do 7 (split; [intros k; reflexivity|]). split; [intros [|[|t]] H; [reflexivity..|lia]|]. split; [reflexivity|].
  eexists. eexists. split; simpl; eauto 15.
Qed.""",
("c74_csr_scale","interleaved_csr_scale","csr scale_inplace (object 0)"),
("c74_csr_threshold","interleaved_csr_threshold","csr threshold in place (object 0)"),
("c74_csr_sum_squares","interleaved_csr_sum_squares","csr sum of squares (object 1)"),
("c74_csr_trace_mult","interleaved_csr_trace_mult","csr trace_mult (A, B are objects 1, 2)"),
("c74_csr_sum_squares_sub","interleaved_csr_sum_squares_sub","csr sum of squares of a submatrix (object 1)"),
("c74_csr_trace","interleaved_csr_trace","csr trace (object 1)"),
("c74_csr_export","interleaved_csr_export","csr export_to_dense (object 1 into dense array 0), both orders"),
"""Example c74_csr_instance : cwf exCA /\\ cwf exCB /\\ cN exCA = cN exCB /\\ Permutation (map snd exS) (seq 0 (cN exCA)) /\\
  full_sched (cN exCA) 2 exS /\\ holds_csr exM_c 0 exCA /\\ holds_csr exM_c 1 exCA /\\ holds_csr exM_c 2 exCB /\\
  (forall t, t < 2 -> exM_c (aAcc t, 0) = Some (VK (k0 : Zscalar))) /\\
  full_sched 2 2 [(0, 1); (1, 0)] /\\ 2 <= cN exCA /\\ holdsK exM_c (aDense 0) (repeat (k0 : Zscalar) (cN exCA * cN exCA)) /\\
  exM_c (aRand, 0) = Some (VN 5) /\\ (forall i, i < cN exCA -> exM_c (aIdx (ro 0 i), 0) <> None) /\\
  In (0, 0) [(0, 1); (1, 2); (0, 0)] /\\ In (1, 2) [(0, 1); (1, 2); (0, 0)].
Proof.
  split; [apply exCA_wf|]. split; [apply exCB_wf|]. split; [reflexivity|]. split; [apply exS_perm|]. split; [apply exS_full|].
  destruct exM_c_holds as (H0 & H1 & H2). do 3 (split; [assumption|]). split; [intros [|[|t]] H; [reflexivity..|lia]|].
  split; [split; [apply permb_ok; reflexivity|intros t i [[= <- <-]|[[= <- <-]|[]]]; lia]|]. split; [simpl; lia|].
  split; [intros k; reflexivity|]. split; [reflexivity|]. split; [intros [|[|[|i]]] H; [discriminate..|simpl in H; lia]|]. simpl; auto.
Qed.""",
("c74_csr_gershgorin","interleaved_csr_gersh","row loop of csr gershgorin (n = N) and gershgorin_partial (n = nrows)"),
"""Example c74_csr_gershgorin_instance : cwf exCR /\\ 2 <= cN exCR /\\ Permutation (map snd [(0, 1); (1, 0)]) (seq 0 2) /\\ holds_csr (mem_csr exCR 2) 1 exCR /\\
  (forall i, i < 2 -> mem_csr exCR 2 (aDense 0, i) <> None /\\ mem_csr exCR 2 (aDense 4, i) <> None).
Proof.
  split; [apply exCR_wf|]. split; [simpl; lia|]. split; [apply permb_ok; reflexivity|]. split; [apply mem_csr_holds|].
  intros i H. now apply mem_csr_dense.
Qed.""",
("c74_csr_banded_refuted","csr_banded_race","csr banded constructor: rand() races whenever two threads have at least one row each"),
("c74_dense_fnorm2_refuted","dense_fnorm2_race","dense fnorm2: shared(temp) races whenever two threads have at least one cell each"),
("c74_multiply_x2_overflow_refuted","x2_overflow_race","multiply_x2 when a row of the product has more than M elements: the surplus is written into the next row before the test"),
("c74_adjungate_refuted","adjungate_race","adjungate 'u': row ll is appended to under lock[ll], but A_nnz[ll] is read without it"),
("c74_banded_refuted","banded_race","banded constructor: rand() in the parallel loop"),
("c74_multiply_same_BC_refuted","multiply_same_BC_race","multiply_AB with C == B"),
("c74_multiply_same_BC_wrong_refuted","multiply_same_BC_wrong","and then the result can be wrong"),
("c74_multiply_x2_same_refuted","multiply_x2_same_race","multiply_x2 with X2 == X"),
]
