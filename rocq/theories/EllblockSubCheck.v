(** Submatrices of block ellpack matrices: concrete cases, and calls whose
    results are not those of the property. *)
From Verif Require Import Base BaseFacts Spec SpecFacts EllpackModel EllpackSpec EllpackCheck SubSpec
  EllblockModel EllblockSpec EllblockFacts EllblockHeap EllblockRead EllblockBuild EllblockMake EllblockCheck EllblockSubModel EllblockSubSpec EllblockSub.

Definition d22 : defaults := mkDef [2; 2] 2 2.
Lemma d22_sizes : sizes_for d22 4. Proof. repeat split; vm_compute; lia. Qed.
Lemma exEA_positive : positive (bbs exEA).
Proof. intros ib Hi. do 3 (destruct ib as [|ib]; [vm_compute; lia|]). cbn in Hi; lia. Qed.
Lemma exEA_sub b : b <= 1 -> sub_sizes (bbs exEA) (s_bsize d22) b 2.
Proof. intros Hb k Hk. destruct b as [|[|b]]; [| |lia]; (do 2 (destruct k as [|k]; [reflexivity|])); lia. Qed.

(** rows 2-5, columns 0-3 of exEA *)
Lemma exExtract : exists B, eb_extract (Some d22) exEA 2 0 4 4 Zg = Ok (Some d22, B) /\ ebwf B /\ bN B = 4 /\
  meq 4 (ebmx B) (sub_at (ebmx exEA) 2 0) /\ ebmx B 3 0 = 6%Z.
Proof.
  destruct (eb_extract_ok d22 exEA 1 0 2 4 4 Zg (proj1 exEA_wf) exEA_positive d22_sizes ltac:(cbn; lia) ltac:(cbn; lia) ltac:(cbn; lia) ltac:(cbn; lia)
    (exEA_sub 0 ltac:(lia)) (exEA_sub 1 ltac:(lia)) (exEA_sub 0 ltac:(lia)) ltac:(cbn; lia)) as (B & E & W & _ & EN & H & _).
  exists B. split; [exact E|]. split; [exact W|]. split; [exact EN|]. split; [exact H|]. rewrite (H 3 0) by (cbn; lia). reflexivity.
Qed.

(** the result has the size of the defaults, not the size asked for *)
Lemma eb_extract_size_refuted : exists c (A : eb Zscalar) BN B, ebwf A /\ own_sizes c A /\ uniform 2 A /\ BN <= bN A /\
  eb_extract c A 0 0 BN BN Zg = Ok (c, B) /\ bN B <> BN.
Proof.
  exists (Some d222), exEA, 4. eexists. split; [apply exEA_wf|]. split; [reflexivity|].
  split; [intros ib Hi; do 3 (destruct ib as [|ib]; [reflexivity|]); cbn in Hi; lia|]. split; [cbn; lia|].
  split; [vm_compute; reflexivity|]. vm_compute. discriminate.
Qed.

(** blocks of different sizes: the blocks of the result are too small *)
Lemma eb_extract_sizes_refuted : exists c (A : eb Zscalar) irow icol BN B, ebwf A /\ own_sizes c A /\ irow + BN <= bN A /\ icol + BN <= bN A /\
  eb_extract c A irow icol BN BN Zg = Ok (c, B) /\ exists i j, i < BN /\ j < BN /\ eb_get_element B i j = UB.
Proof.
  exists (Some d212), exEN, 2, 3, 2. eexists. split; [apply exEN_wf|]. split; [reflexivity|]. split; [cbn; lia|]. split; [cbn; lia|].
  split; [vm_compute; reflexivity|]. exists 1, 0. split; [lia|]. split; [lia|]. vm_compute. reflexivity.
Qed.

(** a 4 x 4 matrix in blocks of 2: blocks (0,1) and (1,0) *)
Definition exE4 : eb Zscalar := Eval vm_compute in got (imported (Some d22) 4 4 (tab [(0, 2, 8%Z); (1, 3, 9%Z); (3, 1, (-4)%Z)])).
(** 6 x 6: block (2,0) *)
Definition exE6 : eb Zscalar := Eval vm_compute in got (imported (Some d222) 6 6 (tab [(4, 0, 7%Z); (1, 1, 5%Z)])).
Lemma exE4_wf : ebwf exE4 /\ clean exE4. Proof. split; [ebwf_now|clean_now]. Qed.
Lemma exE6_wf : ebwf exE6 /\ clean exE6. Proof. split; [ebwf_now|clean_now]. Qed.
Lemma exE6_sub b : b <= 1 -> sub_sizes (bbs exE6) (bbs exE4) b (bNB exE4).
Proof. intros Hb k Hk. cbn in Hk. destruct b as [|[|b]]; [| |lia]; (do 2 (destruct k as [|k]; [reflexivity|])); lia. Qed.
Lemma exE6_positive : positive (bbs exE6).
Proof. intros ib Hi. do 3 (destruct ib as [|ib]; [vm_compute; lia|]). cbn in Hi; lia. Qed.
Lemma exE6_free ib jb : ib < bNB exE4 -> jb < bNB exE4 -> ~ In (1 + jb) (bcols exE6 (1 + ib)).
Proof. intros Hi Hj. cbn in Hi, Hj. do 2 (destruct ib as [|ib]; [do 2 (destruct jb as [|jb]; [vm_compute; lia|]); lia|]). lia. Qed.
Lemma exE6_room ib : ib < bNB exE4 -> bnz exE6 (1 + ib) + bnz exE4 ib <= bMB exE6.
Proof. intros Hi. cbn in Hi. do 2 (destruct ib as [|ib]; [vm_compute; lia|]). lia. Qed.
Lemma exAssign : exists A', eb_assign exE6 exE4 2 2 Zg = Ok A' /\ ebwf A' /\
  meq 6 (ebmx A') (paste (ebmx exE6) (ebmx exE4) 2 2 4) /\ ebmx A' 3 5 = 9%Z /\ ebmx A' 4 0 = 7%Z.
Proof.
  destruct (eb_assign_ok exE6 exE4 1 1 Zg (proj1 exE6_wf) (proj1 exE4_wf) exE6_positive) as (A' & E & W & _ & _ & H).
  - cbn; lia.
  - cbn; lia.
  - apply exE6_sub; lia.
  - apply exE6_sub; lia.
  - apply exE6_sub; lia.
  - exact exE6_free.
  - exact exE6_room.
  - exists A'. split; [exact E|]. split; [exact W|]. split; [exact H|]. rewrite (H 3 5), (H 4 0) by (cbn; lia). split; reflexivity.
Qed.

Definition exOver : eb Zscalar := Eval vm_compute in match eb_assign exEA exEB 0 0 Zg with Ok A => A | _ => eb_none end.
(** a block that A has already gets a second slot, behind the first *)
Lemma eb_assign_refuted : exists (A B A' : eb Zscalar) irow icol, ebwf A /\ clean A /\ ebwf B /\ bN A = bN B + irow /\ bN A = bN B + icol /\ uniform 2 A /\ uniform 2 B /\
  eb_assign A B irow icol Zg = Ok A' /\ ~ ebwf A' /\ exists i j, i < bN A /\ j < bN A /\
  eb_get_element A' i j = Ok (ebmx A i j) /\ ebmx A i j <> paste (ebmx A) (ebmx B) irow icol (bN B) i j.
Proof.
  exists exEA, exEB, exOver, 0, 0. split; [apply exEA_wf|]. split; [apply exEA_wf|]. split; [apply exEB_wf|]. split; [reflexivity|]. split; [reflexivity|].
  split; [intros ib Hi; do 3 (destruct ib as [|ib]; [reflexivity|]); cbn in Hi; lia|].
  split; [intros ib Hi; do 3 (destruct ib as [|ib]; [reflexivity|]); cbn in Hi; lia|].
  split; [vm_compute; reflexivity|]. split.
  - intros (_ & _ & H). specialize (H 0 ltac:(cbn; lia)). pose proof (bro_nodup _ _ H) as ND. vm_compute in ND. inversion ND as [|? ? N1 N2]. apply N1. simpl. auto.
  - exists 0, 0. split; [cbn; lia|]. split; [cbn; lia|]. split; [vm_compute; reflexivity|]. vm_compute. discriminate.
Qed.
