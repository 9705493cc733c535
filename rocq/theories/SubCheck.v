(** Concrete matrices for the submatrix and graph functions, and refutations. *)
From Verif Require Import Base BaseFacts Spec SpecFacts EllpackModel EllpackSpec EllpackFacts EllpackCheck
  DenseModel DenseSpec SubModel SubSpec SubIndex SubBlock SubSame SubAdj SubGroup.

(** 4x4, every row stores its diagonal: [ 4 0 0 1 ; 0 2 3 0 ; 0 5 6 0 ; 7 0 0 8 ], row 3 out of order *)
Definition exG : ell Zscalar := @mkEll Zscalar 4 4 [4; 1; 0; 0; 2; 3; 0; 0; 5; 6; 0; 0; 8; 7; 0; 0]%Z [0; 3; 0; 0; 1; 2; 0; 0; 1; 2; 0; 0; 3; 0; 0; 0] [2; 2; 2; 2].
Lemma exG_wf : wf exG. Proof. apply wfb_ok. reflexivity. Qed.
(** three rows, all elements stored *)
Definition exFull : ell Zscalar := @mkEll Zscalar 3 3 [1; 2; 3; 4; 5; 6; 7; 8; 9]%Z [0; 1; 2; 0; 1; 2; 0; 1; 2] [3; 3; 3].
Lemma exFull_wf : wf exFull. Proof. apply wfb_ok. reflexivity. Qed.
Definition exS4 : list (nat * nat) := [(1, 3); (0, 0); (1, 1); (0, 2)].
Lemma exS4_full : full_sched 4 2 exS4. Proof. apply full_schedb; reflexivity. Qed.
Definition exS3one : list (nat * nat) := [(0, 0); (0, 1); (0, 2)].
Definition exS3each : list (nat * nat) := [(2, 1); (0, 2); (1, 0)].
(** upper triangle only: [ 1 2 0 ; 0 3 4 ; 0 0 5 ] *)
Definition exUp : ell Zscalar := @mkEll Zscalar 3 3 [1; 2; 0; 3; 4; 0; 5; 0; 0]%Z [0; 1; 0; 1; 2; 0; 2; 0; 0] [2; 2; 1].
Lemma exUp_wf : wf exUp. Proof. apply wfb_ok. reflexivity. Qed.

(** diagonal, at most 3 elements per row *)
Definition exDg : ell Zscalar := @mkEll Zscalar 4 3 [1; 0; 0; 2; 0; 0; 3; 0; 0; 4; 0; 0]%Z [0; 0; 0; 1; 0; 0; 2; 0; 0; 3; 0; 0] [1; 1; 1; 1].

(** ** bml_group_matrix: a thread that runs several rows misses connections *)
Lemma group_matrix_refuted : exists (A B B' : ell Zscalar) hindex s s' i k,
  wf A /\ groups_ok (eN A) hindex /\ full_sched (length hindex) 1 s /\ full_sched (length hindex) 3 s' /\ i < length hindex /\
  connected (gtZ 0) A hindex i k /\
  ell_group_matrix (gtZ 0) A hindex (fun _ => k0) (fun _ => 0) s = Ok B /\ stored B i k = false /\
  ell_group_matrix (gtZ 0) A hindex (fun _ => k0) (fun _ => 0) s' = Ok B' /\ stored B' i k = true.
Proof.
  eexists exFull, _, _, [1; 2; 3], exS3one, exS3each, 1, 0. split; [apply exFull_wf|].
  split; [split; [simpl; lia|]; split; [reflexivity|]; split; [|simpl; lia]; intros i Hi; simpl in Hi; do 2 (destruct i as [|i]; [simpl; lia|]); lia|].
  split; [apply full_schedb; reflexivity|]. split; [apply full_schedb; reflexivity|]. split; [simpl; lia|].
  split; [exists 1, 0; repeat split; simpl; try lia; left; reflexivity|].
  split; [vm_compute; reflexivity|]. split; [reflexivity|]. split; [vm_compute; reflexivity|]. reflexivity.
Qed.

(** ** bml_adjacency: only row 0 is inspected for a stored diagonal *)
Lemma adjacency_refuted : exists (A : ell Zscalar) xadj adj xadj' adj' s,
  wf A /\ full_sched (eN A) 1 s /\ length xadj = eN A + 1 /\ length adj = nsum (eN A) (deg A) /\
  ell_adjacency A xadj adj false s s s = Ok (xadj', adj') /\ nth (eN A) xadj' 0 <> nsum (eN A) (deg A).
Proof.
  eexists (@mkEll Zscalar 2 2 [1; 2; 3; 0]%Z [0; 1; 0; 0] [2; 1]), [9; 9; 9], [9; 9], _, _, [(0, 0); (0, 1)].
  split; [apply wfb_ok; reflexivity|]. split; [apply full_schedb; reflexivity|]. split; [reflexivity|]. split; [reflexivity|].
  split; [vm_compute; reflexivity|]. vm_compute. discriminate.
Qed.
Lemma adjacency_overrun_refuted : exists (A : ell Zscalar) xadj adj s,
  wf A /\ full_sched (eN A) 1 s /\ length xadj = eN A + 1 /\ length adj = nsum (eN A) (deg A) /\
  ell_adjacency A xadj adj false s s s = UB.
Proof.
  eexists (@mkEll Zscalar 2 2 [1; 0; 2; 3]%Z [1; 0; 0; 1] [1; 2]), [9; 9; 9], [9; 9], [(0, 0); (0, 1)].
  split; [apply wfb_ok; reflexivity|]. split; [apply full_schedb; reflexivity|]. split; [reflexivity|]. split; [reflexivity|]. reflexivity.
Qed.
(** an empty matrix with a stored diagonal only in row 0 gives a negative offset *)
Lemma adjacency_negative_refuted : exists (A : ell Zscalar) xadj s,
  wf A /\ full_sched (eN A) 1 s /\ length xadj = eN A + 1 /\ nsum (eN A) (deg A) = 0 /\ ell_adjacency A xadj [] false s s s = UB.
Proof.
  eexists (@mkEll Zscalar 2 2 [1; 0; 0; 0]%Z [0; 0; 0; 0] [1; 0]), [9; 9; 9], [(0, 0); (0, 1)].
  split; [apply wfb_ok; reflexivity|]. split; [apply full_schedb; reflexivity|]. split; [reflexivity|]. split; reflexivity.
Qed.
(** ** bml_adjacency_group, 1-based: writes one element past the neighbours *)
Lemma adjacency_group_refuted : exists (A : ell Zscalar) hindex xadj adj s,
  wf A /\ (forall h, In h hindex -> 1 <= h <= eN A) /\ length xadj = length hindex + 1 /\
  length adj = nsum (length hindex) (fun i => length (nbr_nodes A hindex i)) /\ full_sched (length hindex) 1 s /\
  ell_adjacency_group A hindex xadj adj true s = UB /\ exists r, ell_adjacency_group A hindex xadj adj false s = Ok r.
Proof.
  eexists exG, [2; 3], [9; 9; 9], [9; 9; 9; 9], [(0, 0); (0, 1)]. split; [apply exG_wf|]. split; [intros h [<-|[<-|[]]]; simpl; lia|].
  split; [reflexivity|]. split; [reflexivity|]. split; [apply full_schedb; reflexivity|]. split; [reflexivity|]. eexists. vm_compute. reflexivity.
Qed.

(** ** submatrix extraction reads an uninitialised vector for an empty row *)
Lemma sub_extract_refuted : exists (A : ell Zscalar) (B : dense Zscalar) ch s,
  wf A /\ dwf B /\ length ch = dN B /\ NoDup ch /\ (forall k, In k ch -> k < eN A) /\ full_sched (length ch) 1 s /\
  ell_sub_extract A B ch s = UB.
Proof.
  exists (@mkEll Zscalar 2 2 [1; 2; 0; 0]%Z [0; 1; 0; 0] [2; 0]), (@mkDense Zscalar 2 [0; 0; 0; 0]%Z), [0; 1], [(0, 0); (0, 1)].
  split; [apply wfb_ok; reflexivity|]. split; [reflexivity|]. split; [reflexivity|]. split; [apply nodupb_ok; reflexivity|].
  split; [intros k [<-|[<-|[]]]; simpl; lia|]. split; [apply full_schedb; reflexivity|]. reflexivity.
Qed.
(** ** assembly writes a row that is too long before it checks the length *)
Lemma sub_assemble_refuted : exists (A : dense Zscalar) (B : ell Zscalar) ch s,
  wf B /\ dwf A /\ length ch = dN A /\ NoDup ch /\ (forall k, In k ch -> k < eN B) /\ full_sched (length ch) 1 s /\
  ell_sub_assemble (gtZ 0) A B ch s = UB.
Proof.
  exists (@mkDense Zscalar 2 [1; 2; 3; 4]%Z), (@mkEll Zscalar 2 1 [0; 0]%Z [0; 0] [0; 0]), [0; 1], [(0, 1); (0, 0)].
  split; [apply wfb_ok; reflexivity|]. split; [reflexivity|]. split; [reflexivity|]. split; [apply nodupb_ok; reflexivity|].
  split; [intros k [<-|[<-|[]]]; simpl; lia|]. split; [apply full_schedb; reflexivity|]. reflexivity.
Qed.
(** ** bml_assign_submatrix does not replace stored elements *)
Lemma ell_assign_refuted : exists (A B A' : ell Zscalar) irow icol i j,
  wf A /\ wf B /\ irow + eN B <= eN A /\ icol + eN B <= eN A /\ i < eN A /\ j < eN A /\
  ell_assign A B irow icol = Ok A' /\ emat A' i j <> paste (emat A) (emat B) irow icol (eN B) i j /\ ~ wf A'.
Proof.
  eexists exG, (@mkEll Zscalar 2 2 [9; 0; 0; 0]%Z [0; 0; 0; 0] [1; 0]), _, 0, 0, 0, 0.
  split; [apply exG_wf|]. split; [apply wfb_ok; reflexivity|]. do 4 (split; [simpl; lia|]). split; [vm_compute; reflexivity|].
  split; [vm_compute; discriminate|]. intros [_ H]. specialize (H 0 ltac:(simpl; lia)) as (_ & H & _). vm_compute in H. inversion H; subst. apply H2. simpl. auto.
Qed.
(** ** bml_adjungate_triangle stores a second element when the target is stored *)
Lemma ell_adjungate_refuted : exists (A A' : ell Zscalar) s i j,
  wf A /\ eN A <= eM A /\ full_sched (eN A) 1 s /\ i < eN A /\ j < i /\
  ell_adjungate (fun x => x) A TriU s = Ok A' /\ emat A' i j <> emat A j i /\ ~ wf A'.
Proof.
  eexists (@mkEll Zscalar 2 2 [1; 2; 3; 0]%Z [0; 1; 0; 0] [2; 1]), _, [(0, 0); (0, 1)], 1, 0. split; [apply wfb_ok; reflexivity|]. split; [simpl; lia|]. split; [apply full_schedb; reflexivity|].
  do 2 (split; [simpl; lia|]). split; [vm_compute; reflexivity|]. split; [vm_compute; discriminate|].
  intros [_ H]. specialize (H 1 ltac:(simpl; lia)) as (_ & H & _). vm_compute in H. inversion H; subst. apply H2. simpl. auto.
Qed.
(** the lock array has M elements but is indexed by a row *)
Lemma ell_adjungate_lock_refuted : exists (A : ell Zscalar) s,
  wf A /\ (forall i j, i < j < eN A -> stored A j i = false) /\ full_sched (eN A) 1 s /\ (forall i, i < eN A -> nnz A i < eM A) /\
  ell_adjungate (fun x => x) A TriU s = UB.
Proof.
  exists (@mkEll Zscalar 3 2 [7; 0; 0; 0; 0; 0]%Z [2; 0; 0; 0; 0; 0] [1; 0; 0]), [(0, 0); (0, 1); (0, 2)]. split; [apply wfb_ok; reflexivity|].
  split. { intros i j Hij. simpl in Hij. destruct j as [|[|[|j]]]; try lia; reflexivity. }
  split; [apply full_schedb; reflexivity|]. split; [|reflexivity].
  intros i Hi. simpl in Hi. do 3 (destruct i as [|i]; [vm_compute; lia|]). lia.
Qed.
