(** Boolean check of the csr invariant, concrete csr matrices and witnesses. *)
From Verif Require Import Base BaseFacts Spec SpecFacts EllpackModel EllpackSpec EllpackFacts EllpackCheck
  CsrModel CsrSpec CsrFacts CsrHash CsrMore CsrTop CsrHistModel.

(** a row with the given entries and an allocation of at least a slots *)
Definition crow_of {F : scalar} (a : nat) (E : list (nat * F)) : row F := mkRow (map Some E ++ repeat None (a - length E)) (length E).
Definition csr_of {F : scalar} (N M a : nat) (rows : list (list (nat * F))) : csr F := mkCsr N M (map (crow_of a) rows).

Definition row_initb {F : scalar} (r : row F) : bool :=
  (INIT_ROW_SPACE <=? ralloc r) && (rnnz r <=? ralloc r) &&
  forallb (fun p => match nth p (rcells r) None with Some _ => true | None => false end) (seq 0 (rnnz r)).
Definition cwfb {F : scalar} (A : csr F) : bool :=
  (length (cdata A) =? cN A) && forallb (fun i => row_initb (nth i (cdata A) row0)) (seq 0 (cN A)) &&
  forallb (fun i => nodupb (cols (crow A i)) && forallb (fun k => k <? cN A) (cols (crow A i))) (seq 0 (cN A)).

Lemma row_initb_ok {F : scalar} (r : row F) : row_initb r = true -> row_init r.
Proof.
  unfold row_initb. intros H. repeat (apply andb_prop in H as [H ?]).
  apply Nat.leb_le in H, H1. split; auto. split; auto. intros p Hp. rewrite forallb_forall in H0.
  specialize (H0 p ltac:(apply in_seq; lia)). intros E. rewrite E in H0. discriminate.
Qed.

Lemma cwfb_ok {F : scalar} (A : csr F) : cwfb A = true -> cwf A.
Proof.
  unfold cwfb. intros H. repeat (apply andb_prop in H as [H ?]). apply Nat.eqb_eq in H.
  rewrite forallb_forall in H0, H1. split; [split; auto|].
  - intros i Hi. apply row_initb_ok, H1, in_seq. lia.
  - intros i Hi. specialize (H0 i ltac:(apply in_seq; lia)). apply andb_prop in H0 as [H2 H3].
    split; [apply nodupb_ok; auto|]. rewrite forallb_forall in H3. intros k Hk. apply Nat.ltb_lt. auto.
Qed.

(** [ 4 1 0 ; 0 2 5 ; 7 0 0 ] and [ 1 0 0 ; 3 0 2 ; 0 6 0 ] *)
Definition exCA : csr Zscalar := @csr_of Zscalar 3 3 10 [[(0, 4%Z); (1, 1%Z)]; [(2, 5%Z); (1, 2%Z)]; [(0, 7%Z)]].
Definition exCB : csr Zscalar := @csr_of Zscalar 3 3 10 [[(0, 1%Z)]; [(0, 3%Z); (2, 2%Z)]; [(1, 6%Z)]].
Lemma exCA_wf : cwf exCA. Proof. apply cwfb_ok. reflexivity. Qed.
Lemma exCB_wf : cwf exCB. Proof. apply cwfb_ok. reflexivity. Qed.

Lemma exCA_small : forall i, (i < cN exCA)%nat -> (length (crow exCA i) <= table_max)%nat.
Proof.
  apply (below_ok 3 (fun i => length (crow exCA i) <=? 1000)); [|reflexivity].
  intros i H. apply table_max_big. apply Nat.leb_le; auto.
Qed.
Lemma exCAB_room : forall i, (i < cN exCA)%nat -> (union_cols exCA exCB i <= calloc exCA i)%nat.
Proof. apply (below_ok 3 (fun i => union_cols exCA exCB i <=? calloc exCA i)); [|reflexivity]. intros i. apply Nat.leb_le. Qed.
Lemma exCAB_mulroom : forall i, (i < cN exCA)%nat -> (mul_room (gtZ 0) exCB exCB exCA i <= calloc exCA i)%nat.
Proof. apply (below_ok 3 (fun i => mul_room (gtZ 0) exCB exCB exCA i <=? calloc exCA i)); [|reflexivity]. intros i. apply Nat.leb_le. Qed.
Lemma exCAB_mulroom2 : forall i, (i < cN exCA)%nat -> (mul_room (gtZ 0) exCB exCA exCA i <= calloc exCA i)%nat.
Proof. apply (below_ok 3 (fun i => mul_room (gtZ 0) exCB exCA exCA i <=? calloc exCA i)); [|reflexivity]. intros i. apply Nat.leb_le. Qed.

(** an entry above 4 at most once in each row *)
Lemma exCA_thr1 : forall i, (i < cN exCA)%nat -> (count (cN exCA) (fun j => cstored exCA i j && gtZ 4 (cmat exCA i j)) <= 1)%nat.
Proof.
  apply (below_ok 3 (fun i => count (cN exCA) (fun j => cstored exCA i j && gtZ 4 (cmat exCA i j)) <=? 1)); [|reflexivity].
  intros i. apply Nat.leb_le.
Qed.

(** ** C25: row 0 of A is full (10 of 10 slots); B adds column 10, which
    reallocates the row, and then column 0, which is updated through the
    pointer obtained before the reallocation. *)
Definition exUA : csr Zscalar := @csr_of Zscalar 11 10 10 (map (fun k => (k, 1%Z)) (seq 0 10) :: repeat [] 10).
Definition exUB : csr Zscalar := @csr_of Zscalar 11 10 10 ([(10, 1%Z); (0, 1%Z)] :: repeat [] 10).
Definition exUS : list (nat * nat) := map (fun i => (0, i)) (seq 0 11).

Lemma csr_add_refuted : exists (A B : csr Zscalar) s, cwf A /\ cwf B /\ cN A = cN B /\
  Permutation (map snd s) (seq 0 (cN A)) /\ csr_add (gtZ 0) (1%Z : Zscalar) (1%Z : Zscalar) A B s s = UB.
Proof.
  exists exUA, exUB, exUS. split; [apply cwfb_ok; vm_compute; reflexivity|]. split; [apply cwfb_ok; vm_compute; reflexivity|].
  split; [reflexivity|]. split; [apply permb_ok; reflexivity|]. vm_compute. reflexivity.
Qed.

(** bml_add(A, A, 1, 2): 1*(1+2) = 3 times A happens to be right; alpha = 2, beta = 1 gives 4 instead of 3 *)
Lemma csr_add_self_refuted : exists (A A' : csr Zscalar) (alpha beta : Zscalar) s i j, cwf A /\
  Permutation (map snd s) (seq 0 (cN A)) /\ (i < cN A)%nat /\ (j < cN A)%nat /\
  csr_add_self (gtZ 0) alpha beta A s s = Ok A' /\ cmat A' i j <> (alpha * cmat A i j + beta * cmat A i j)%K.
Proof.
  eexists exCA, _, 2%Z, 1%Z, exS, 0, 0. split; [apply exCA_wf|]. split; [apply exS_perm|]. do 2 (split; [simpl; lia|]).
  split; [vm_compute; reflexivity|]. vm_compute. discriminate.
Qed.

(** ** C27: row 0 keeps 4 and 1 *)
Lemma csr_threshold_new_refuted : exists (A B : csr Zscalar) s i j, cwf A /\
  Permutation (map snd s) (seq 0 (cN A)) /\ (i < cN A)%nat /\ (j < cN A)%nat /\
  csr_threshold_new (gtZ 0) A s = Ok B /\ cmat B i j <> mcut (gtZ 0) (cmat A) i j.
Proof.
  eexists exCA, _, exS, 0, 0. split; [apply exCA_wf|]. split; [apply exS_perm|]. do 2 (split; [simpl; lia|]).
  split; [vm_compute; reflexivity|]. vm_compute. discriminate.
Qed.

(** ... and the result is not well formed: B has column 0 twice *)
Lemma csr_threshold_new_dup_refuted : exists (A B : csr Zscalar) s, cwf A /\
  Permutation (map snd s) (seq 0 (cN A)) /\ csr_threshold_new (gtZ 0) A s = Ok B /\ ~ cwf B.
Proof.
  eexists (@csr_of Zscalar 3 3 10 [[(0, 4%Z); (1, 1%Z); (2, 1%Z)]; []; []]), _, exS.
  split; [apply cwfb_ok; reflexivity|]. split; [apply exS_perm|].
  split; [vm_compute; reflexivity|]. intros [_ H]. specialize (H 0 ltac:(simpl; lia)) as [H _]. vm_compute in H.
  apply NoDup_cons_iff in H as [_ H]. apply NoDup_cons_iff in H as [H _]. apply H. simpl. auto.
Qed.

(** ** C28: the table of sizes is overrun *)
Lemma table_new_refuted ts : (table_max < ts)%nat -> table_new ts = UB.
Proof.
  intros H. unfold table_new. rewrite table_size_oob; auto; lia.
Qed.

(** ** C34: assigning over a stored element leaves the old value in front *)
Lemma csr_assign_refuted : exists (A B A' : csr Zscalar) irow icol i j, cwf A /\ cwf B /\
  (irow + cN B <= cN A)%nat /\ (icol + cN B <= cN A)%nat /\ csr_assign A B irow icol = Ok A' /\
  (i < cN B)%nat /\ (j < cN B)%nat /\ csr_get_element A' (irow + i) (icol + j) <> csr_get_element B i j /\ ~ cwf A'.
Proof.
  eexists exCA, (@csr_of Zscalar 1 1 10 [[(0, 9%Z)]]), _, 0, 0, 0, 0. split; [apply exCA_wf|].
  split; [apply cwfb_ok; reflexivity|]. do 2 (split; [simpl; lia|]). split; [vm_compute; reflexivity|].
  do 2 (split; [simpl; lia|]). split; [vm_compute; discriminate|].
  intros [_ H]. specialize (H 0 ltac:(simpl; lia)) as [H _]. vm_compute in H.
  apply NoDup_cons_iff in H as [H _]. apply H. simpl. auto.
Qed.

(** a sub-matrix with free room: columns 2.. of rows 0.. are not stored in exCA *)
Lemma exCA_assign : forall i j, (i < cN (@csr_of Zscalar 1 1 10 [[(0, 9%Z)]]))%nat -> (j < cN (@csr_of Zscalar 1 1 10 [[(0, 9%Z)]]))%nat ->
  cstored exCA (0 + i) (2 + j) = false.
Proof. simpl. intros [|i] [|j] Hi Hj; try lia. reflexivity. Qed.

(** ** C52: a column index outside the matrix is answered silently *)
Lemma csr_get_element_refuted : exists (A : csr Zscalar) i j v, cwf A /\ (cN A <= j)%nat /\ csr_get_element A i j = Ok v.
Proof. exists exCA, 0, 7, 0%Z. split; [apply exCA_wf|]. split; [simpl; lia|reflexivity]. Qed.

(** ** C14: copying into a matrix with too little room stops with an error *)
Lemma csr_copy_refuted : exists (A B : csr Zscalar) s, cwf A /\ cwf B /\ cN A = cN B /\
  Permutation (map snd s) (seq 0 (cN A)) /\ csr_copy A B s = Err.
Proof.
  exists (@csr_of Zscalar 11 11 11 (map (fun k => (k, 1%Z)) (seq 0 11) :: repeat [] 10)), (csr_zero 11 1), exUS.
  split; [apply cwfb_ok; vm_compute; reflexivity|]. split; [apply cwfb_ok; vm_compute; reflexivity|].
  split; [reflexivity|]. split; [apply permb_ok; reflexivity|]. vm_compute. reflexivity.
Qed.

(** ** a program for the history theorem *)
Definition exCProg : list (ccmd Zscalar) :=
  [KZero 3 2; KSetElement 0 0 1 (5%Z : Zscalar); KSetElement 0 0 1 (6%Z : Zscalar); KSetRow 0 2 (gtZ 0) [1%Z; 2%Z; 0%Z];
   KTranspose 0; KCopyNew 0 exS; KMultiplyAB 0 1 1 (gtZ 0) exS].
Lemma exCProg_run : exists st, crun (firstn 6 exCProg) [] = Ok st /\ length st = 2%nat.
Proof. eexists. split; [vm_compute; reflexivity|reflexivity]. Qed.
Lemma exCProg_guarded : cguarded (firstn 6 exCProg) [].
Proof.
  unfold exCProg. cbn [firstn cguarded]. split; [exact I|]. cbn -[csr_set_element csr_set_row csr_transpose csr_copy_new csr_zero].
  repeat split; try (vm_compute; repeat constructor; fail); try (apply permb_ok; reflexivity).
Qed.
