(** bml_add_norm_ellblock: a concrete case, and calls whose results are not those of
    the property. *)
From Verif Require Import Base BaseFacts Spec SpecFacts EllpackModel EllpackSpec EllpackCheck
  EllblockModel EllblockSpec EllblockFacts EllblockHeap EllblockRead EllblockBuild EllblockMake EllblockCopy EllblockWork EllblockAdd EllblockCheck EllblockAddNormModel EllblockAddNorm EllblockAddNormSpec.

(** a matrix with blocks where exEA has some *)
Definition exEC : eb Zscalar := Eval vm_compute in got (imported (Some d222) 6 6 (tab [(0, 0, (-1)%Z); (1, 5, 2%Z); (5, 0, 1%Z)])).
Lemma exEC_wf : ebwf exEC /\ clean exEC. Proof. split; [ebwf_now|clean_now]. Qed.
Lemma exEAC_dims : eb_dims exEA exEC. Proof. repeat split. Qed.
Lemma exEA_uniform : uniform 2 exEA. Proof. intros ib Hi; do 3 (destruct ib as [|ib]; [reflexivity|]); cbn in Hi; lia. Qed.
Lemma exEAC_fits : add_fits (gtZ 0) 2%Z 3%Z exEA exEC.
Proof.
  apply (uniform_fits 2 (gtZ 0) (2%Z : Zscalar) (3%Z : Zscalar) exEA exEC (proj1 exEA_wf) (proj1 exEC_wf) exEAC_dims exEA_uniform exEA_roomy).
  intros ib Hi. do 3 (destruct ib as [|ib]; [vm_compute; lia|]). cbn in Hi; lia.
Qed.
Definition exAN : eb Zscalar := Eval vm_compute in match eb_add_norm (F:=Zscalar) (gtZ 0) 2%Z 3%Z exEA exEC with Ok (A, _) => A | _ => exEA end.
Lemma exAN_ok : eb_add_norm (F:=Zscalar) (gtZ 0) 2%Z 3%Z exEA exEC = Ok (exAN, 2854%Z) /\ ebmx exAN 1 5 = 12%Z /\ ebmx exAN 5 0 = 15%Z.
Proof. split; [vm_compute; reflexivity|split; vm_compute; reflexivity]. Qed.
Lemma exAN_size ib jb : ib < bNB exEA -> jb < bNB exEA -> bsz (bbs exEA) ib * bsz (bbs exEA) jb <= BMAXSIZE.
Proof. intros Hi Hj. rewrite !exEA_uniform by auto. unfold BMAXSIZE. lia. Qed.

(** the number returned is not the square of the Frobenius norm of A - B: the squares
    of the block sums are added *)
Lemma eb_add_norm_value_refuted : exists (A B A' : eb Zscalar) t, ebwf A /\ clean A /\ ebwf B /\ clean B /\ eb_dims A B /\ bMB A = bMB B /\
  eb_add_norm (F:=Zscalar) (gtZ 0) 1%Z 1%Z A B = Ok (A', t) /\
  t <> bigsum (bN A) (fun i => bigsum (bN A) (fun j => let d := (ebmx A i j - ebmx B i j)%Z in (d * d)%Z : Zscalar)).
Proof.
  exists exEA, exEC. eexists. eexists. split; [apply exEA_wf|]. split; [apply exEA_wf|]. split; [apply exEC_wf|]. split; [apply exEC_wf|]. split; [exact exEAC_dims|]. split; [reflexivity|].
  split; [vm_compute; reflexivity|]. vm_compute. discriminate.
Qed.
(** a block of B where A has none is written through a null pointer *)
Lemma eb_add_norm_null_refuted : exists A B : eb Zscalar, ebwf A /\ clean A /\ ebwf B /\ clean B /\ eb_dims A B /\ bMB A = bMB B /\ bMB A = bNB A /\
  eb_add_norm (F:=Zscalar) (gtZ 0) 1%Z 1%Z A B = UB.
Proof. exists exEA, exEB. split; [apply exEA_wf|]. split; [apply exEA_wf|]. split; [apply exEB_wf|]. split; [apply exEB_wf|]. split; [repeat split|]. split; [reflexivity|]. split; [reflexivity|]. vm_compute. reflexivity. Qed.
(** blocks of more than 25 elements do not fit the work arrays *)
Definition d6 : defaults := mkDef [6] 1 1.
Definition exE6x : eb Zscalar := Eval vm_compute in got (imported (Some d6) 6 6 (tab [(5, 5, 7%Z)])).
Lemma eb_add_norm_size_refuted : exists A : eb Zscalar, ebwf A /\ clean A /\ eb_add_norm (F:=Zscalar) (gtZ 0) 1%Z 1%Z A A = UB.
Proof. exists exE6x. split; [ebwf_now|]. split; [clean_now|]. vm_compute. reflexivity. Qed.
(** the slots that exEA has suffice, also for factors that are 0 *)
Lemma exAN_slots : an_slots (F:=Zscalar) (gtZ 0) 2%Z 3%Z exEA exEC /\ an_slots (F:=Zscalar) (gtZ 0) 0%Z 3%Z exEA exEC.
Proof.
  split; intros ib Hi; (do 3 (destruct ib as [|ib]; [split; [vm_compute; lia|intros q Hq; do 3 (destruct q as [|q]; [solve [vm_compute in Hq; lia | eexists; split; [vm_compute; reflexivity|vm_compute; lia]]|]); vm_compute in Hq; lia]|])); cbn in Hi; lia.
Qed.
Lemma exAN_value : blk_norm4 (F:=Zscalar) (bbs exEA) (bNB exEA) (fun i j => (ebmx exEA i j - ebmx exEC i j)%Z) = 2854%Z.
Proof. vm_compute. reflexivity. Qed.
