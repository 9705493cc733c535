(** Block ellpack: concrete matrices, and sequences of calls whose results are
    not those of the properties. *)
From Verif Require Import Base BaseFacts Spec SpecFacts EllpackModel EllpackSpec EllpackExact EllpackCheck
  EllblockModel EllblockSpec EllblockFacts EllblockHeap EllblockRead EllblockBuild EllblockMake EllblockSet EllblockCopy EllblockWork
  EllblockAdd EllblockMul EllblockProd EllblockPtr EllblockConv EllblockTrans EllblockNorm EllblockHist.

Section Check.
  Context {F : scalar}.
  Local Notation eb := (eb F).

  Definition eqo (a b : option nat) : bool := match a, b with Some x, Some y => x =? y | _, _ => false end.
  Definition shapeb (A : eb) : bool :=
    (0 <? bNB A) && (0 <? bMB A) && (bM A <=? bN A) && (length (bbs A) =? bNB A) && (bN A =? nsum (bNB A) (bsz (bbs A))) &&
    (length (bptr A) =? bNB A * bMB A) && (length (bidx A) =? bNB A * bMB A) && (length (bnnz A) =? bNB A).
  Definition ownb (cap : nat -> nat) (A : eb) : bool :=
    forallb (fun ib => (cap ib <=? bMB A) && forallb (fun jp =>
      match saddr A ib jp with
      | None => true
      | Some a => match nth a (bheap A) None with Some _ => true | None => false end &&
          forallb (fun ib' => forallb (fun jp' => negb (eqo (Some a) (saddr A ib' jp')) || ((ib =? ib') && (jp =? jp'))) (seq 0 (cap ib'))) (seq 0 (bNB A))
      end) (seq 0 (cap ib))) (seq 0 (bNB A)).
  Definition rowb (A : eb) (ib : nat) : bool :=
    nodupb (bcols A ib) && forallb (fun jp => (scol A ib jp <? bNB A) &&
      match bobj A ib jp with Some x => bsz (bbs A) ib * bsz (bbs A) (scol A ib jp) <=? length x | None => false end) (seq 0 (bnz A ib)).
  Definition ebwfb (A : eb) : bool := shapeb A && ownb (bnz A) A && forallb (rowb A) (seq 0 (bNB A)).
  Definition cleanb (A : eb) : bool :=
    forallb (fun ib => forallb (fun jp => match saddr A ib jp with None => true | Some _ => false end) (seq (bnz A ib) (bMB A - bnz A ib))) (seq 0 (bNB A)).

  Lemma ownb_ok cap A : ownb cap A = true -> own cap A.
  Proof.
    unfold ownb. intros H. rewrite forallb_forall in H.
    assert (H1 : forall ib, ib < bNB A -> cap ib <= bMB A).
    { intros ib Hi. specialize (H ib ltac:(apply in_seq; lia)). apply andb_prop in H as [H _]. apply Nat.leb_le; auto. }
    assert (H2 : forall ib jp a, ib < bNB A -> jp < cap ib -> saddr A ib jp = Some a -> (exists x, nth a (bheap A) None = Some x) /\
       forall ib' jp', ib' < bNB A -> jp' < cap ib' -> saddr A ib' jp' = Some a -> ib = ib' /\ jp = jp').
    { intros ib jp a Hi Hj E. specialize (H ib ltac:(apply in_seq; lia)). apply andb_prop in H as [_ H]. rewrite forallb_forall in H.
      specialize (H jp ltac:(apply in_seq; lia)). rewrite E in H. apply andb_prop in H as [H3 H4]. split.
      - destruct (nth a (bheap A) None) as [x|]; [exists x; auto|discriminate].
      - intros ib' jp' Hi' Hj' E'. rewrite forallb_forall in H4. specialize (H4 ib' ltac:(apply in_seq; lia)). rewrite forallb_forall in H4.
        specialize (H4 jp' ltac:(apply in_seq; lia)). rewrite E' in H4. cbn [eqo] in H4. rewrite Nat.eqb_refl in H4. cbn [negb orb] in H4.
        apply andb_prop in H4 as [H4 H5]. split; apply Nat.eqb_eq; auto. }
    split; [exact H1|]. split.
    - intros ib jp a Hi Hj E. destruct (H2 ib jp a Hi Hj E) as [H3 _]. exact H3.
    - intros ib jp ib' jp' a Hi Hj Hi' Hj' E E'. destruct (H2 ib jp a Hi Hj E) as [_ H3]. auto.
  Qed.
  Lemma ebwfb_ok A : ebwfb A = true -> ebwf A.
  Proof.
    unfold ebwfb. intros H. apply andb_prop in H as [H H3]. apply andb_prop in H as [H1 H2]. split; [|split].
    - unfold shapeb in H1. repeat (apply andb_prop in H1 as [H1 ?]). apply Nat.ltb_lt in H1, H8. apply Nat.leb_le in H7.
      apply Nat.eqb_eq in H, H0, H4, H5, H6. constructor; auto.
    - apply ownb_ok; auto.
    - intros ib Hi. rewrite forallb_forall in H3. specialize (H3 ib ltac:(apply in_seq; lia)). unfold rowb in H3. apply andb_prop in H3 as [H3 H4].
      rewrite forallb_forall in H4. constructor.
      + apply nodupb_ok; auto.
      + intros jp Hj. specialize (H4 jp ltac:(apply in_seq; lia)). apply andb_prop in H4 as [H4 _]. apply Nat.ltb_lt; auto.
      + intros jp Hj. specialize (H4 jp ltac:(apply in_seq; lia)). apply andb_prop in H4 as [_ H4]. destruct (bobj A ib jp) as [x|]; [|discriminate].
        exists x. split; auto. apply Nat.leb_le; auto.
  Qed.
  Lemma cleanb_ok A : cleanb A = true -> clean A.
  Proof.
    unfold cleanb. intros H ib jp Hi Hj. rewrite forallb_forall in H. specialize (H ib ltac:(apply in_seq; lia)). rewrite forallb_forall in H.
    specialize (H jp ltac:(apply in_seq; lia)). destruct (saddr A ib jp); [discriminate|auto].
  Qed.
End Check.

Definition Zg (_ : nat) : Zscalar := 77%Z.
Definition eb_none : eb Zscalar := mkEb 0 0 0 0 [] [] [] [] [].
Definition got (r : res (cache * eb Zscalar)) : eb Zscalar := match r with Ok (_, A) => A | _ => eb_none end.
Fixpoint tab (l : list (nat * nat * Z)) (i j : nat) : Z :=
  match l with [] => 0%Z | (a, b, v) :: l => if (a =? i) && (b =? j) then v else tab l i j end.
(** bml_import_from_dense with the given defaults *)
Definition imported (c : cache) (N M : nat) (f : nat -> nat -> Z) : res (cache * eb Zscalar) :=
  eb_import c row_major N (map (fun k => f (k / N) (k mod N)) (seq 0 (N * N)) : list Zscalar) (gtZ 0) M Zg.
Definition seq_sched (n : nat) : list (nat * nat) := map (fun i => (0, i)) (seq 0 n).

(** 6 x 6 in blocks of 2, at most 3 blocks per row:
    blocks (0,0), (0,2), (1,1), (2,0) *)
Definition d222 : defaults := mkDef [2; 2; 2] 3 3.
Definition exEA : eb Zscalar := Eval vm_compute in got (imported (Some d222) 6 6 (tab [(0, 0, 1%Z); (0, 1, 2%Z); (1, 5, 3%Z); (2, 3, 4%Z); (3, 2, (-1)%Z); (4, 1, 5%Z); (5, 0, 6%Z)])).
(** blocks (0,0), (0,1), (2,2) *)
Definition exEB : eb Zscalar := Eval vm_compute in got (imported (Some d222) 6 6 (tab [(0, 0, (-1)%Z); (0, 1, (-2)%Z); (1, 2, 7%Z); (5, 4, 2%Z); (4, 4, 1%Z)])).
(** 5 x 5 in blocks of 2, 1, 2: blocks (0,0), (0,1), (1,2), (2,0) *)
Definition d212 : defaults := mkDef [2; 1; 2] 3 3.
Definition exEN : eb Zscalar := Eval vm_compute in got (imported (Some d212) 5 5 (tab [(0, 0, 1%Z); (1, 2, 2%Z); (2, 4, 3%Z); (3, 1, 4%Z); (4, 0, (-5)%Z)])).

Ltac ebwf_now := apply ebwfb_ok; vm_compute; reflexivity.
Ltac clean_now := apply cleanb_ok; vm_compute; reflexivity.

Lemma exEA_wf : ebwf exEA /\ clean exEA. Proof. split; [ebwf_now|clean_now]. Qed.
Lemma exEB_wf : ebwf exEB /\ clean exEB. Proof. split; [ebwf_now|clean_now]. Qed.
Lemma exEN_wf : ebwf exEN /\ clean exEN. Proof. split; [ebwf_now|clean_now]. Qed.
Lemma exE_cols : bcols exEA 0 = [0; 2] /\ bcols exEA 1 = [1] /\ bcols exEA 2 = [0] /\ bcols exEB 0 = [0; 1] /\ bcols exEB 1 = [] /\ bcols exEB 2 = [2].
Proof. vm_compute. repeat split. Qed.
Lemma exEA_roomy : roomy 4 exEA.
Proof. apply clean_roomy; [apply exEA_wf..|]. intros ib jb Hi Hj. do 3 (destruct ib as [|ib]; [do 3 (destruct jb as [|jb]; [vm_compute; lia|]); cbn in Hj; lia|]). cbn in Hi; lia. Qed.
Lemma exEB_roomy : roomy 4 exEB.
Proof. apply clean_roomy; [apply exEB_wf..|]. intros ib jb Hi Hj. do 3 (destruct ib as [|ib]; [do 3 (destruct jb as [|jb]; [vm_compute; lia|]); cbn in Hj; lia|]). cbn in Hi; lia. Qed.
Lemma exE_sched : full_sched 3 2 [(1, 2); (0, 0); (1, 1)].
Proof. apply full_schedb; vm_compute; reflexivity. Qed.
Ltac rows3 H := match type of H with ?i < _ => do 3 (destruct i as [|i]; [vm_compute; auto; lia|]); cbn in H; lia end.

(** ** Calls whose results are not those one expects *)

(** C42: after a matrix of N rows, one asks for n rows and gets N *)
Lemma zero_size_refuted N M n m : 0 < M <= N -> 0 < m <= n -> m <= N -> n <> N ->
  exists c (A B : eb Zscalar), eb_zero None N M = Ok (c, A) /\ bN A = N /\ eb_zero c n m = Ok (c, B) /\ bN B = N /\ bN B <> n.
Proof.
  intros H1 H2 H3 H4. destruct (eb_zero_first (F:=Zscalar) N M) as (d & A & EA & HS & HA & _); [lia..|].
  destruct (eb_zero_again (F:=Zscalar) d N n m) as [_ HB]; [lia|auto|]. destruct (HB H3) as (B & EB & ZB).
  exists (Some d), A, B. unfold zero_matrix in *. intuition congruence.
Qed.
(** C42: a first call of bml_noinit_matrix aborts *)
Lemma noinit_refuted N M : eb_noinit (F:=Zscalar) None N M = Err.
Proof. apply eb_noinit_first. Qed.

(** C44: elements below the threshold keep their old value *)
Lemma set_row_refuted : exists (A A' : eb Zscalar) (row : list Zscalar), ebwf A /\ clean A /\ length row = bN A /\
  eb_set_row (gtZ 0) A 0 row Zg = Ok A' /\ nth 1 row 0%Z = 0%Z /\ ebmx A' 0 1 = 2%Z.
Proof.
  destruct (eb_set_row (gtZ 0) exEA 0 ([5; 0; 0; 0; 0; 0]%Z : list Zscalar) Zg) as [A'| | |] eqn:E; [|vm_compute in E; discriminate E..].
  exists exEA, A', ([5; 0; 0; 0; 0; 0]%Z : list Zscalar). split; [apply exEA_wf|]. split; [apply exEA_wf|]. split; [reflexivity|]. split; [exact E|]. split; [reflexivity|].
  vm_compute in E. injection E as <-. vm_compute. reflexivity.
Qed.
(** C44: a matrix of 20 rows with M = 4 has 5 block columns and 4 slots per
    row: a full row is written into the slots of the next row, or past the end *)
Definition row20 : list Zscalar := repeat 1%Z 20.
Lemma set_row_overflow_refuted : exists c (A A1 A2 : eb Zscalar), eb_zero None 20 4 = Ok (c, A) /\
  eb_set_element A 4 4 6%Z Zg = Ok A1 /\ ebwf A1 /\ ebmx A1 4 4 = 6%Z /\
  eb_set_row (gtZ 0) A1 0 row20 Zg = Ok A2 /\ ebmx A2 4 4 = 0%Z /\ ebmx A2 4 16 = 1%Z /\
  eb_set_row (gtZ 0) A 19 row20 Zg = UB.
Proof.
  destruct (eb_zero (F:=Zscalar) None 20 4) as [[c A]| | |] eqn:E; [|vm_compute in E; discriminate E..].
  assert (EA : A = got (eb_zero None 20 4)) by (rewrite E; reflexivity).
  destruct (eb_set_element A 4 4 6%Z Zg) as [A1| | |] eqn:E1; [|exfalso; rewrite EA in E1; vm_compute in E1; discriminate E1..].
  destruct (eb_set_row (gtZ 0) A1 0 row20 Zg) as [A2| | |] eqn:E2; [|exfalso; rewrite EA in E1; vm_compute in E1; injection E1 as <-; vm_compute in E2; discriminate E2..].
  exists c, A, A1, A2. split; [reflexivity|]. split; [exact E1|]. rewrite EA in E1 |- *. vm_compute in E1. injection E1 as <-.
  split; [ebwf_now|]. split; [vm_compute; reflexivity|]. split; [exact E2|]. vm_compute in E2. injection E2 as <-. vm_compute. repeat split.
Qed.

(** C45: 5 rows are 2 blocks of 4 and 1; the trace of the square reads the
    diagonal with the wrong stride *)
Lemma trace_x2_refuted : exists c (A X Y : eb Zscalar) t, eb_zero None 5 5 = Ok (c, A) /\
  set_all [(4, 4, 1%Z : Zscalar); (4, 0, 1%Z : Zscalar); (0, 4, 1%Z : Zscalar); (4, 1, 3%Z : Zscalar); (1, 4, 2%Z : Zscalar)] Zg A = Ok X /\ ebwf X /\
  eb_multiply_x2 (gtZ 0) X A 1 Zg (seq_sched 2) = Ok (Y, mtrace 5 (ebmx X), t) /\ t <> mtrace 5 (mmul 5 (ebmx X) (ebmx X)).
Proof.
  destruct (eb_zero (F:=Zscalar) None 5 5) as [[c A]| | |] eqn:E; [|vm_compute in E; discriminate E..].
  assert (EA : A = got (eb_zero None 5 5)) by (rewrite E; reflexivity).
  match goal with |- context[set_all ?ops] => destruct (set_all ops Zg A) as [X| | |] eqn:E1; [|exfalso; rewrite EA in E1; vm_compute in E1; discriminate E1..] end.
  destruct (eb_multiply_x2 (gtZ 0) X A 1 Zg (seq_sched 2)) as [[[Y s] t]| | |] eqn:E2; [|exfalso; rewrite EA in E1, E2; vm_compute in E1; injection E1 as <-; vm_compute in E2; discriminate E2..].
  exists c, A, X, Y, t. split; [reflexivity|]. split; [exact E1|]. rewrite EA in E1, E2 |- *. vm_compute in E1. injection E1 as <-. split; [ebwf_now|]. vm_compute in E2. injection E2 as <- <- <-.
  split; [vm_compute; reflexivity|]. vm_compute. discriminate.
Qed.

(** C46: 8 rows, only the block (0, 1) stored, transposed in place.  Then
    set_element on block (0, 0) aborts and bml_add overwrites the block (1, 0). *)
Definition ex8 : eb Zscalar := Eval vm_compute in got (imported None 8 8 (tab [(0, 4, 3%Z); (1, 6, 5%Z)])).
Definition ex8i : eb Zscalar := Eval vm_compute in got (imported None 8 8 (tab [(0, 0, 1%Z)])).
Lemma ex8_made : (exists c, imported None 8 8 (tab [(0, 4, 3%Z); (1, 6, 5%Z)]) = Ok (c, ex8)) /\ exists c, imported None 8 8 (tab [(0, 0, 1%Z)]) = Ok (c, ex8i).
Proof. split; eexists; vm_compute; reflexivity. Qed.
Lemma after_transpose_refuted : exists A A' : eb Zscalar, ebwf A /\ clean A /\ eb_transpose A Zg = Ok A' /\ ebwf A' /\ bnz A' 0 = 0 /\
  eb_set_element A' 0 0 9%Z Zg = Err.
Proof.
  destruct (eb_transpose ex8 Zg) as [A'| | |] eqn:E; [|vm_compute in E; discriminate E..]. exists ex8, A'. split; [ebwf_now|]. split; [clean_now|]. split; [exact E|].
  vm_compute in E. injection E as <-. split; [ebwf_now|]. split; vm_compute; reflexivity.
Qed.
Lemma add_after_transpose_refuted : exists A B A' A2 : eb Zscalar, ebwf A /\ clean A /\ ebwf B /\ clean B /\ eb_dims A B /\ bMB A = bMB B /\
  eb_transpose A Zg = Ok A' /\ ebwf A' /\ ebmx A' 4 0 = 3%Z /\ ebmx B 4 0 = 0%Z /\
  eb_add (gtZ 0) 1%Z 1%Z A' B Zg (seq_sched 2) = Ok A2 /\ ebmx A2 4 0 = 1%Z.
Proof.
  destruct (eb_transpose ex8 Zg) as [A'| | |] eqn:E; [|vm_compute in E; discriminate E..].
  destruct (eb_add (gtZ 0) (1%Z : Zscalar) (1%Z : Zscalar) A' ex8i Zg (seq_sched 2)) as [A2| | |] eqn:E2; [|exfalso; vm_compute in E; injection E as <-; vm_compute in E2; discriminate E2..].
  exists ex8, ex8i, A', A2. split; [ebwf_now|]. split; [clean_now|]. split; [ebwf_now|]. split; [clean_now|]. split; [repeat split|]. split; [reflexivity|]. split; [exact E|].
  vm_compute in E. injection E as <-. split; [ebwf_now|]. split; [vm_compute; reflexivity|]. split; [vm_compute; reflexivity|]. split; [exact E2|]. vm_compute in E2. injection E2 as <-. vm_compute. reflexivity.
Qed.

(** addition on 5 rows: A - B where the block (0, 1) cancels puts the block
    (0, 0) of 16 elements into the memory of the block (0, 1) of 4 *)
Lemma add_overflow_refuted : exists ca cb (A B : eb Zscalar),
  imported None 5 5 (tab [(0, 4, 3%Z)]) = Ok (ca, A) /\ imported None 5 5 (tab [(0, 4, 3%Z); (1, 1, 1%Z)]) = Ok (cb, B) /\
  ebwf A /\ clean A /\ ebwf B /\ clean B /\ eb_dims A B /\ bMB A = bMB B /\ eb_add (gtZ 0) 1%Z (-1)%Z A B Zg (seq_sched 2) = UB.
Proof.
  do 4 eexists. split; [vm_compute; reflexivity|]. split; [vm_compute; reflexivity|].
  split; [ebwf_now|]. split; [clean_now|]. split; [ebwf_now|]. split; [clean_now|]. split; [repeat split|]. split; [reflexivity|]. vm_compute. reflexivity.
Qed.
(** bml_clear frees the blocks and keeps the pointers: adding to a cleared
    matrix uses freed memory, storing an element aborts *)
Lemma after_clear_refuted : exists A A' : eb Zscalar, ebwf A /\ clean A /\ eb_clear A = Ok A' /\ ebwf A' /\ meq (bN A') (ebmx A') mzero /\
  eb_add (gtZ 0) 1%Z 1%Z A' A Zg (seq_sched 2) = UB /\ eb_set_element A' 0 0 1%Z Zg = Err.
Proof.
  destruct (eb_clear_zero ex8i) as (A' & E & W & D & _ & Z); [ebwf_now|]. exists ex8i, A'. split; [ebwf_now|]. split; [clean_now|]. split; [exact E|]. split; [exact W|].
  pose proof D as (DN & _). split; [rewrite DN; exact Z|]. vm_compute in E. injection E as <-. split; vm_compute; reflexivity.
Qed.
(** ... and so does adding to the result of bml_multiply_x2 *)
Definition ex8a : eb Zscalar := Eval vm_compute in got (imported None 8 8 (tab [(0, 0, 1%Z); (4, 4, 2%Z)])).
Definition ex8b : eb Zscalar := Eval vm_compute in got (imported None 8 8 (tab [(0, 0, 1%Z); (0, 4, 1%Z); (4, 4, 2%Z)])).
Lemma after_x2_refuted : exists (A C C' : eb Zscalar) a b, ebwf A /\ clean A /\ ebwf C /\ clean C /\ eb_multiply_x2 (gtZ 0) A C 1 Zg (seq_sched 2) = Ok (C', a, b) /\ ebwf C' /\
  eb_add (gtZ 0) 1%Z 1%Z C' C Zg (seq_sched 2) = UB.
Proof.
  destruct (eb_multiply_x2 (gtZ 0) ex8a ex8b 1 Zg (seq_sched 2)) as [[[C' a] b]| | |] eqn:E; [|vm_compute in E; discriminate E..].
  exists ex8a, ex8b, C', a, b. split; [ebwf_now|]. split; [clean_now|]. split; [ebwf_now|]. split; [clean_now|]. split; [exact E|].
  vm_compute in E. injection E as <- <- <-. split; [ebwf_now|]. vm_compute. reflexivity.
Qed.
(** a converted matrix has NB slots per row, the identity of bml_add_identity
    the default number: 20 rows after a matrix with M = 4 *)
Lemma add_identity_refuted : exists c c' (Z A : eb Zscalar), eb_zero None 20 4 = Ok (c, Z) /\
  eb_convert c 20 (fun i j => Ok (tab [(0, 0, 1%Z); (5, 5, 2%Z)] i j : Zscalar)) 4 Zg = Ok (c', A) /\ ebwf A /\ clean A /\
  eb_add_identity c' (gtZ 0) 1%Z A Zg (seq_sched 5) = UB.
Proof. do 4 eexists. split; [vm_compute; reflexivity|]. split; [vm_compute; reflexivity|]. split; [ebwf_now|]. split; [clean_now|]. vm_compute. reflexivity. Qed.
(** bml_fnorm2 of a matrix and the zero matrix reads an uninitialised pointer *)
Lemma eb_fnorm2_refuted : exists c c' (A Z : eb Zscalar), imported None 8 8 (tab [(0, 0, 1%Z)]) = Ok (c, A) /\ eb_zero c 8 8 = Ok (c', Z) /\ ebwf A /\ ebwf Z /\
  eb_fnorm2_sq A Z = UB /\ eb_fnorm2_sq Z A = UB.
Proof. do 4 eexists. split; [vm_compute; reflexivity|]. split; [vm_compute; reflexivity|]. split; [ebwf_now|]. split; [ebwf_now|]. split; vm_compute; reflexivity. Qed.
(** bml_sum_AB adds absolute values *)
Lemma eb_sum_AB_refuted : exists A B : eb Zscalar, ebwf A /\ ebwf B /\ eb_dims A B /\ bMB A = bMB B /\ bNB A <= bMB A /\
  eb_sum_AB (Z.abs : Zscalar -> Zscalar) (gtZ 0) 1%Z A B <> Ok (msum (bN A) (mhad (ebmx A) (ebmx B))).
Proof. exists exEA, exEB. split; [apply exEA_wf|]. split; [apply exEB_wf|]. split; [repeat split|]. split; [reflexivity|]. split; [cbn; lia|]. vm_compute. discriminate. Qed.
