(** Instances and witnesses for PropsRow.v. *)
From Verif Require Import Base BaseFacts Spec SpecFacts EllpackModel EllpackSpec EllpackFacts EllpackCheck DenseModel DenseSpec DenseCheck
  DomainModel DomainSpec DomainFacts RowModel RowSpec RowFacts RowOps RowMore RowDense.

(** the default domain is a row domain *)
Lemma default_row_domain P N M d1 d2 d3 d4 d5 :
  0 < P -> length d1 = P -> length d2 = P -> length d3 = P -> length d4 = P -> length d5 = P ->
  exists d, default_domain P N M Distributed d1 d2 d3 d4 d5 = Ok d /\ row_domain P N M d.
Proof.
  intros H H1 H2 H3 H4 H5. destruct (default_distributed_partition P N M d1 d2 d3 d4 d5 H H1 H2 H3 H4 H5) as (d & E & S & C & Q & D & _).
  exists d. split; [exact E|]. repeat split; try apply S; try apply C; auto; apply Q.
Qed.

(** so is the domain bml_update_domain makes of it for given partitions of nodes *)
Lemma update_row_domain P d0 pmin pmax nodes :
  0 < P -> dom_shape P d0 -> length pmin = P -> length pmax = P ->
  nth 0 pmin 0 = 1 -> nth (P - 1) pmax 0 = length nodes ->
  (forall i, i < P -> 1 <= nth i pmin 0 <= S (nth i pmax 0) /\ nth i pmax 0 <= length nodes) ->
  (forall i, S i < P -> nth (S i) pmin 0 = S (nth i pmax 0)) ->
  exists d, update_domain P d0 pmin pmax nodes = Ok d /\ row_domain P (list_sum nodes) (totalCols d0) d.
Proof.
  intros H H1 H2 H3 H4 H5 H6 H7. destruct (update_domain_partition P d0 pmin pmax nodes H H1 H2 H3 H4 H5 H6 H7) as (d & E & S & C & Q & D & _).
  exists d. split; [exact E|]. repeat split; try apply S; try apply C; auto; apply Q.
Qed.

(** two ranks, three rows of three elements: rows 0 and 1 on rank 0, row 2 on rank 1 *)
Definition exDom : domain := Eval vm_compute in
  match default_domain 2 3 3 Distributed [0; 0] [0; 0] [0; 0] [0; 0] [0; 0] with Ok d => d | _ => mkDomain 0 0 [] [] [] [] [] end.
Lemma exDom_rows : row_domain 2 3 3 exDom.
Proof.
  destruct (default_row_domain 2 3 3 [0; 0] [0; 0] [0; 0] [0; 0] [0; 0] ltac:(lia) eq_refl eq_refl eq_refl eq_refl eq_refl) as (d & E & H).
  vm_compute in E. injection E as <-. exact H.
Qed.
Lemma exDom_mine : my_rows exDom 0 = [0; 1] /\ my_rows exDom 1 = [2].
Proof. split; reflexivity. Qed.

Definition heldb {F : scalar} (P : nat) (d : domain) (N M : nat) (As : list (ell F)) (X : mat F) : bool :=
  (length As =? P) && forallb (fun r => match nth_error As r with
    | Some A => wfb A && (eN A =? N) && (eM A =? M) &&
        forallb (fun i => forallb (fun j => keqb (emat A i j) (X i j)) (seq 0 N)) (my_rows d r)
    | None => false end) (seq 0 P).
Lemma heldb_ok {F : scalar} P d N M (As : list (ell F)) X : heldb P d N M As X = true -> held P d N M As X.
Proof.
  unfold heldb. intros H. apply andb_prop in H as [H1 H2]. apply Nat.eqb_eq in H1. split; [exact H1|].
  intros r A E. rewrite forallb_forall in H2. specialize (H2 r). rewrite E in H2.
  assert (Hr : r < P) by (rewrite <- H1; apply nth_error_Some; congruence).
  specialize (H2 ltac:(apply in_seq; lia)). apply andb_prop in H2 as [H2 H3]. apply andb_prop in H2 as [H2 HM]. apply andb_prop in H2 as [H2 HN].
  apply Nat.eqb_eq in HM, HN. split; [apply wfb_ok; auto|]. split; [auto|]. split; [auto|].
  intros i j Hi Hj. rewrite forallb_forall in H3. apply my_rows_owns in Hi. specialize (H3 i Hi).
  rewrite forallb_forall in H3. apply keqb_spec. apply H3. apply in_seq. lia.
Qed.

(** exA and exB with stale rows on the ranks that do not own them *)
Definition exA0 : ell Zscalar := @mkEll Zscalar 3 3 [4; 1; 0; 5; 2; 0; 0; 0; 0]%Z [0; 1; 0; 2; 1; 0; 0; 0; 0] [2; 2; 0].
Definition exA1 : ell Zscalar := @mkEll Zscalar 3 3 [9; 0; 0; 8; 0; 0; 7; 0; 0]%Z [2; 0; 0; 0; 0; 0; 0; 0; 0] [1; 1; 1].
Definition exAs := [exA0; exA1].
Definition exBs := [exB; exB].
Lemma exAs_held : held 2 exDom 3 3 exAs (emat exA).
Proof. apply heldb_ok. reflexivity. Qed.
Lemma exBs_held : held 2 exDom 3 3 exBs (emat exB).
Proof. apply heldb_ok. reflexivity. Qed.
Lemma exBs_repl : replicated 2 3 3 exBs (emat exB).
Proof.
  split; [reflexivity|]. intros [|[|r]] A E; simpl in E; try (injection E as <-); try (destruct r; discriminate);
    (split; [apply exB_wf|]); repeat split; intros i j _ _; reflexivity.
Qed.
(** rank 0 runs row 1 before row 0, on two threads *)
Definition exRanks (r : nat) : list (nat * nat) := match r with 0 => [(1, 1); (0, 0)] | _ => [(0, 2)] end.
Lemma exRanks_ok r : r < 2 -> rank_sched exDom r 2 (exRanks r).
Proof.
  intros Hr. destruct r as [|[|r]]; [| |lia]; (split; [|simpl; intros t i H; destruct H as [H|H]; [injection H as <- <-; lia|]]).
  - apply perm_swap.
  - destruct H as [H|[]]. injection H as <- <-. lia.
  - apply Permutation_refl.
  - destruct H.
Qed.

(** the stale copies differ before the gather and agree after it *)
Lemma exGather : exists Bs, row_gather exDom exAs = Ok Bs /\ replicated 2 3 3 Bs (emat exA) /\ ~ meq 3 (emat exA0) (emat exA1).
Proof.
  destruct (row_gather_ok 2 3 3 exDom exAs (emat exA) exDom_rows exAs_held) as (Bs & E & H).
  exists Bs. split; [exact E|]. split; [exact H|]. intros Heq. specialize (Heq 0 0 ltac:(lia) ltac:(lia)). vm_compute in Heq. discriminate.
Qed.

(** ** dense addition starts at a byte offset *)
Definition exDom4 : domain := Eval vm_compute in
  match default_domain 2 4 4 Distributed [0; 0] [0; 0] [0; 0] [0; 0] [0; 0] with Ok d => d | _ => mkDomain 0 0 [] [] [] [] [] end.
Lemma exDom4_rows : row_domain 2 4 4 exDom4.
Proof.
  destruct (default_row_domain 2 4 4 [0; 0] [0; 0] [0; 0] [0; 0] [0; 0] ltac:(lia) eq_refl eq_refl eq_refl eq_refl eq_refl) as (d & E & H).
  vm_compute in E. injection E as <-. exact H.
Qed.
Definition exZeros : dense Zscalar := @mkDense Zscalar 4 (repeat 0%Z 16).
Definition exOnes : dense Zscalar := @mkDense Zscalar 4 (repeat 1%Z 16).

Lemma held_dense_same {F : scalar} P d N (A : dense F) : dwf A -> dN A = N -> held_dense P d N (repeat A P) (denm A).
Proof.
  intros W HN. split; [apply repeat_length|]. intros r A' E. assert (A' = A) by (apply nth_error_In in E; apply repeat_spec in E; auto).
  subst A'. auto.
Qed.

Lemma row_add_dense_refuted : exists P N (d : domain) (As Bs Cs : list (dense Zscalar)) X Y,
  row_domain P N N d /\ held_dense P d N As X /\ held_dense P d N Bs Y /\
  row_add_dense (F:=Zscalar) d 8 1%Z 1%Z As Bs = Ok Cs /\ ~ held_dense P d N Cs (madd X Y).
Proof.
  exists 2, 4, exDom4, (repeat exZeros 2), (repeat exOnes 2). eexists. exists (denm exZeros), (denm exOnes).
  split; [apply exDom4_rows|]. split; [apply held_dense_same; reflexivity|]. split; [apply held_dense_same; reflexivity|].
  split; [vm_compute; reflexivity|].
  intros [_ H]. specialize (H 1). simpl in H. specialize (H _ eq_refl). destruct H as (_ & _ & H).
  specialize (H 3 3 ltac:(unfold owns; simpl; lia) ltac:(lia)). vm_compute in H. discriminate.
Qed.

(** and is undefined when the offset is not a multiple of the size of an element *)
Lemma row_add_dense_alignment_refuted : exists P N (d : domain) (As Bs : list (dense Zscalar)) X Y,
  row_domain P N N d /\ held_dense P d N As X /\ held_dense P d N Bs Y /\
  row_add_dense (F:=Zscalar) d 8 1%Z 1%Z As Bs = UB.
Proof.
  destruct (default_row_domain 2 3 3 [0; 0] [0; 0] [0; 0] [0; 0] [0; 0] ltac:(lia) eq_refl eq_refl eq_refl eq_refl eq_refl) as (d & E & H).
  exists 2, 3, exDom, [exD; exD], [exE; exE], (denm exD), (denm exE). split; [apply exDom_rows|].
  split; [apply (held_dense_same 2 exDom 3 exD); reflexivity|]. split; [apply (held_dense_same 2 exDom 3 exE); reflexivity|].
  vm_compute. reflexivity.
Qed.

(** ** a rank reads the rows of B it does not own: a product of two distributed
    matrices without a gather of B in between is wrong *)
Definition exHalf : ell Zscalar := @mkEll Zscalar 3 3 [1; 0; 0; 3; 2; 0; 0; 0; 0]%Z [0; 0; 0; 0; 2; 0; 0; 0; 0] [1; 2; 0].
Definition exZero : ell Zscalar := @mkEll Zscalar 3 3 (repeat 0%Z 9) (repeat 0 9) [0; 0; 0].
Lemma row_multiply_needs_gather : exists (As Bs Cs Ds : list (ell Zscalar)) X Y scheds,
  held 2 exDom 3 3 As X /\ held 2 exDom 3 3 Bs Y /\ held 2 exDom 3 3 Cs mzero /\
  (forall r, r < 2 -> rank_sched exDom r 2 (scheds r)) /\
  row_multiply_AB (gtZ 0) As Bs Cs scheds = Ok Ds /\ ~ held 2 exDom 3 3 Ds (mmul 3 X Y).
Proof.
  exists exAs, [exHalf; exB], (repeat exZero 2). eexists. exists (emat exA), (emat exB), exRanks.
  split; [apply exAs_held|]. split; [apply heldb_ok; reflexivity|]. split; [apply heldb_ok; reflexivity|].
  split; [apply exRanks_ok|]. split; [vm_compute; reflexivity|].
  intros [_ H]. specialize (H 0). simpl in H. specialize (H _ eq_refl). destruct H as (_ & _ & _ & H).
  specialize (H 1 1 ltac:(unfold owns; simpl; lia) ltac:(lia)). vm_compute in H. discriminate.
Qed.

(** ** instances *)
Lemma exAdd : exists Ds, row_add (F:=Zscalar) (gtZ 0) 2%Z 3%Z exAs exBs exRanks = Ok Ds /\
  held 2 exDom 3 3 Ds (madd (mscale (F:=Zscalar) 2%Z (emat exA)) (mscale (F:=Zscalar) 3%Z (emat exB))) /\
  madd (mscale (F:=Zscalar) 2%Z (emat exA)) (mscale (F:=Zscalar) 3%Z (emat exB)) 1 2 = 16%Z.
Proof.
  destruct (row_add_ok 2 3 3 exDom exDom_rows (gtZ 0) (2%Z : Zscalar) (3%Z : Zscalar) exAs exBs (emat exA) (emat exB) 2 exRanks
     exAs_held exBs_held exRanks_ok ltac:(apply fitsb_ok; reflexivity)) as (Ds & E & H).
  exists Ds. split; [exact E|]. split; [|reflexivity]. vm_compute in E. injection E as <-. apply heldb_ok. reflexivity.
Qed.

Lemma exProd : forall r (A B : ell Zscalar) i, nth_error exAs r = Some A -> nth_error exBs r = Some B -> owns exDom r i -> prod_cols A B i <= 3.
Proof.
  intros r A B i EA EB Ho. destruct r as [|[|r]]; simpl in EA, EB; [| |destruct r; discriminate];
    injection EA as <-; injection EB as <-; unfold owns in Ho; simpl in Ho.
  - destruct i as [|[|i]]; [vm_compute; lia|vm_compute; lia|lia].
  - destruct i as [|[|[|i]]]; [lia|lia|vm_compute; lia|lia].
Qed.

Lemma exMult : exists Ds, row_multiply (F:=Zscalar) exDom (gtZ 0) 1%Z 2%Z exAs exBs exBs exRanks exRanks (fun _ => 5%Z) (fun _ => 7) = Ok Ds /\
  held 2 exDom 3 3 Ds (madd (mscale (F:=Zscalar) 2%Z (emat exB)) (mmul 3 (emat exA) (emat exB))) /\
  madd (mscale (F:=Zscalar) 2%Z (emat exB)) (mmul 3 (emat exA) (emat exB)) 1 1 = 30%Z.
Proof.
  destruct (row_multiply_ok 2 3 3 exDom exDom_rows (gtZ 0) (1%Z : Zscalar) (2%Z : Zscalar) exAs exBs exBs (emat exA) (emat exB) (emat exB) 2 exRanks exRanks
     (fun _ => 5%Z) (fun _ => 7) exAs_held exBs_repl exBs_held exRanks_ok exRanks_ok exProd ltac:(apply fitsb_ok; reflexivity)) as (Ds & E & H).
  exists Ds. split; [exact E|]. split; [|reflexivity]. vm_compute in E. injection E as <-. apply heldb_ok. reflexivity.
Qed.

Lemma exTrace : exists vs, row_trace exAs 2 exRanks = Ok vs /\ vs = [6; 0]%Z /\ allreduce_sum (F:=Zscalar) [1; 0] vs = Ok 6%Z.
Proof. eexists. split; [vm_compute; reflexivity|]. split; reflexivity. Qed.
