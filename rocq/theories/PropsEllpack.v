(** Theorems about the ellpack format (properties C01-C09, C12-C14, C16, C21, C51, C52). *)
From Verif Require Import Base BaseFacts Spec SpecFacts EllpackModel EllpackSpec EllpackFacts EllpackOps EllpackArith EllpackMul EllpackMore EllpackMul2 EllpackExact EllpackRest EllpackCheck.
Local Open Scope K_scope.

(** C01 *)
Theorem c01_ellpack_set_row_get_row : forall (F : scalar) (keep : F -> bool) (A : ell F) i (row : list F),
  wf A -> (i < eN A)%nat -> length row = eN A ->
  (count (eN A) (fun j => keep (nth j row k0)) <= eM A)%nat ->
  exists A', ell_set_row keep A i row = Ok A' /\ wf A' /\ same_dims A A' /\
    ell_get_row A' i = Ok (map (cut keep) row) /\
    (forall i', (i' < eN A)%nat -> i' <> i -> ell_get_row A' i' = ell_get_row A i').
Proof. exact @set_row_spec. Qed.
Print Assumptions c01_ellpack_set_row_get_row.
Example c01_instance : wf exA /\ (1 < eN exA)%nat /\ length ([9; 0; 4]%Z : list Zscalar) = eN exA /\
  (count (eN exA) (fun j => gtZ 3 (nth j [9; 0; 4] 0)%Z) <= eM exA)%nat.
Proof. repeat split; try apply exA_wf; simpl; auto. Qed.

(** C02: true when the row already has more than 2 entries or column j is not yet stored. *)
Theorem c02_ellpack_set_element_partial : forall (F : scalar) (A : ell F) i j (v : F),
  wf A -> (i < eN A)%nat -> (j < eN A)%nat ->
  (2 < nnz A i \/ ~ In j (cols (erow A i)))%nat ->
  (In j (cols (erow A i)) \/ nnz A i < eM A)%nat ->
  exists A', ell_set_element A i j v = Ok A' /\ wf A' /\
    ell_get_element A' i j = Ok v /\
    (forall i' j', (i' < eN A)%nat -> (j' < eN A)%nat -> (i' <> i \/ j' <> j) ->
       ell_get_element A' i' j' = ell_get_element A i' j').
Proof. exact @set_element_spec. Qed.
Print Assumptions c02_ellpack_set_element_partial.
Example c02_instance : wf exA /\ (1 < eN exA)%nat /\ (0 < eN exA)%nat /\
  (2 < nnz exA 1 \/ ~ In 0 (cols (erow exA 1)))%nat /\ (In 0 (cols (erow exA 1)) \/ nnz exA 1 < eM exA)%nat.
Proof.
  split; [apply exA_wf|]. do 2 (split; [vm_compute; lia|]). split; [|right; vm_compute; lia].
  right. intros H. apply existsb_eqb in H. discriminate.
Qed.

(** C02 is false in general: a row with at most 2 entries gets a second entry
    for the same column, the getter finds the old one, and the matrix is no
    longer well formed. *)
Theorem c02_ellpack_set_element_refuted : exists (A A' : ell Zscalar) i j (v : Zscalar),
  wf A /\ (i < eN A)%nat /\ (j < eN A)%nat /\ (nnz A i < eM A)%nat /\
  ell_set_element A i j v = Ok A' /\ ell_get_element A' i j <> Ok v /\ ~ wf A'.
Proof. exact set_element_refuted. Qed.
Print Assumptions c02_ellpack_set_element_refuted.

(** C03 *)
Theorem c03_ellpack_import_export : forall (F : scalar) (keep : F -> bool) o o' N M (D : list F) s1 s2,
  (0 < M)%nat -> length D = (N * N)%nat ->
  Permutation (map snd s1) (seq 0 N) -> Permutation (map snd s2) (seq 0 N) ->
  fits N M keep (dmat o N D) ->
  exists A D', ell_import o N M keep D s1 = Ok A /\ wf A /\ eN A = N /\ eM A = M /\
    meq N (emat A) (mcut keep (dmat o N D)) /\
    ell_export o' A s2 = Ok D' /\ length D' = (N * N)%nat /\
    meq N (dmat o' N D') (mcut keep (dmat o N D)).
Proof. exact @import_export_spec. Qed.
Print Assumptions c03_ellpack_import_export.
Example c03_instance : let D := [1; 0; 3; 4; 5; 0; 0; 8; 2]%Z : list Zscalar in
  (0 < 2)%nat /\ length D = (3 * 3)%nat /\ Permutation (map snd exS) (seq 0 3) /\ fits 3 2 (gtZ 0) (dmat col_major 3 D).
Proof. repeat split; auto; [apply exS_perm|]. apply fitsb_ok. reflexivity. Qed.

(** C04: A and B different objects, and A == B. *)
Theorem c04_ellpack_add : forall (F : scalar) (keep : F -> bool) alpha beta (A B : ell F) sched,
  wf A -> wf B -> eN A = eN B -> Permutation (map snd sched) (seq 0 (eN A)) ->
  fits (eN A) (eM A) keep (madd (mscale alpha (emat A)) (mscale beta (emat B))) ->
  exists A', ell_add keep alpha beta A B sched = Ok A' /\ wf A' /\ same_dims A A' /\
    meq (eN A) (emat A') (mcut keep (madd (mscale alpha (emat A)) (mscale beta (emat B)))).
Proof. exact @add_spec. Qed.
Print Assumptions c04_ellpack_add.
Example c04_instance : wf exA /\ wf exB /\ eN exA = eN exB /\ Permutation (map snd exS) (seq 0 (eN exA)) /\
  fits (eN exA) (eM exA) (gtZ 1) (madd (mscale (2 : Zscalar)%Z (emat exA)) (mscale (-3 : Zscalar)%Z (emat exB))).
Proof. split; [apply exA_wf|]. split; [apply exB_wf|]. split; [reflexivity|]. split; [apply exS_perm|]. apply fitsb_ok. reflexivity. Qed.

Theorem c04_ellpack_add_same_object : forall (F : scalar) (keep : F -> bool) alpha beta (A : ell F) sched,
  wf A -> Permutation (map snd sched) (seq 0 (eN A)) ->
  fits (eN A) (eM A) keep (madd (mscale alpha (emat A)) (mscale beta (emat A))) ->
  exists A', ell_add_self keep alpha beta A sched = Ok A' /\ wf A' /\ same_dims A A' /\
    meq (eN A) (emat A') (mcut keep (madd (mscale alpha (emat A)) (mscale beta (emat A)))).
Proof. exact @add_self_spec. Qed.
Print Assumptions c04_ellpack_add_same_object.
Example c04_same_instance : wf exA /\ Permutation (map snd exS) (seq 0 (eN exA)) /\
  fits (eN exA) (eM exA) (gtZ 1) (madd (mscale (2 : Zscalar)%Z (emat exA)) (mscale (-1 : Zscalar)%Z (emat exA))).
Proof. split; [apply exA_wf|]. split; [apply exS_perm|]. apply fitsb_ok. reflexivity. Qed.

(** C04, bml_add_norm: additionally returns the sum of squares of A - B. *)
Theorem c04_ellpack_add_norm : forall (F : scalar) (keep : F -> bool) alpha beta (A B : ell F) nth sched,
  wf A -> wf B -> eN A = eN B -> full_sched (eN A) nth sched ->
  fits (eN A) (eM A) keep (madd (mscale alpha (emat A)) (mscale beta (emat B))) ->
  exists A', ell_add_norm keep alpha beta A B nth sched =
      Ok (A', msum (eN A) (fun i j => (emat A i j - emat B i j) * (emat A i j - emat B i j))) /\
    wf A' /\ same_dims A A' /\
    meq (eN A) (emat A') (mcut keep (madd (mscale alpha (emat A)) (mscale beta (emat B)))).
Proof. exact @add_norm_spec. Qed.
Print Assumptions c04_ellpack_add_norm.
Example c04_norm_instance : wf exA /\ wf exB /\ eN exA = eN exB /\ full_sched (eN exA) 2 exS /\
  fits (eN exA) (eM exA) (gtZ 1) (madd (mscale (2 : Zscalar)%Z (emat exA)) (mscale (-3 : Zscalar)%Z (emat exB))).
Proof. split; [apply exA_wf|]. split; [apply exB_wf|]. split; [reflexivity|]. split; [apply exS_full|]. apply fitsb_ok. reflexivity. Qed.

(** C05 *)
Theorem c05_ellpack_multiply_AB : forall (F : scalar) (keep : F -> bool) (A B C : ell F) sched,
  wf A -> wf B -> eN A = eN B -> wf C -> eN C = eN A ->
  Permutation (map snd sched) (seq 0 (eN A)) ->
  (ell_multiply_AB keep A B C sched = Err /\ exists i, i < eN A /\ eM C < prod_cols A B i)%nat \/
  (exists C', ell_multiply_AB keep A B C sched = Ok C' /\
     (forall i, i < eN A -> prod_cols A B i <= eM C)%nat /\ wf C' /\ same_dims C C' /\
     meq (eN A) (emat C') (mcut_offdiag keep (mmul (eN A) (emat A) (emat B)))).
Proof. exact @multiply_AB_spec. Qed.
Print Assumptions c05_ellpack_multiply_AB.
Example c05_instance : wf exA /\ wf exB /\ eN exA = eN exB /\ wf exB /\ eN exB = eN exA /\ Permutation (map snd exS) (seq 0 (eN exA)).
Proof. repeat split; try apply exA_wf; try apply exB_wf; auto. apply exS_perm. Qed.

(** C06: A and B different objects *)
Theorem c06_ellpack_multiply : forall (F : scalar) (keep : F -> bool) alpha beta (A B C : ell F) s1 s2 gv gi,
  wf A -> wf B -> wf C -> eN A = eN B -> eN C = eN A ->
  Permutation (map snd s1) (seq 0 (eN A)) -> Permutation (map snd s2) (seq 0 (eN A)) ->
  (forall i, i < eN A -> prod_cols A B i <= eM C)%nat ->
  let P := mcut_offdiag keep (mmul (eN A) (emat A) (emat B)) in
  fits (eN A) (eM C) keep (madd (mscale beta (emat C)) (mscale alpha P)) ->
  exists C', ell_multiply keep alpha beta A B C s1 s2 gv gi = Ok C' /\ wf C' /\ same_dims C C' /\
    meq (eN A) (emat C') (mcut keep (madd (mscale beta (emat C)) (mscale alpha P))).
Proof. exact @multiply_spec. Qed.
Print Assumptions c06_ellpack_multiply.
Example c06_instance : wf exA /\ wf exB /\ eN exA = eN exB /\ Permutation (map snd exS) (seq 0 (eN exA)) /\
  (forall i, i < eN exA -> prod_cols exA exB i <= eM exA)%nat /\
  fits (eN exA) (eM exA) (gtZ 4) (madd (mscale (3 : Zscalar)%Z (emat exA))
     (mscale (-2 : Zscalar)%Z (mcut_offdiag (gtZ 4) (mmul (eN exA) (emat exA) (emat exB))))).
Proof.
  split; [apply exA_wf|]. split; [apply exB_wf|]. split; [reflexivity|]. split; [apply exS_perm|].
  split; [|apply fitsb_ok; reflexivity]. apply (below_ok 3 (fun i => prod_cols exA exB i <=? 3)); [|reflexivity].
  intros i. apply Nat.leb_le.
Qed.

(** C06: A and B the same object *)
Theorem c06_ellpack_multiply_same_object : forall (F : scalar) (keep : F -> bool) alpha beta (A C : ell F) nth s1 s2 gv gi,
  wf A -> wf C -> eN C = eN A ->
  full_sched (eN A) nth s1 -> Permutation (map snd s2) (seq 0 (eN A)) ->
  (forall i, i < eN A -> count (eN A) (fun j => (Nat.eqb i j || keep (mmul (eN A) (emat A) (emat A) i j))%bool) <= eM C)%nat ->
  let P := mcut_offdiag keep (mmul (eN A) (emat A) (emat A)) in
  fits (eN A) (eM C) keep (madd (mscale beta (emat C)) (mscale alpha P)) ->
  exists C', ell_multiply_sq keep alpha beta A C nth s1 s2 gv gi = Ok C' /\ wf C' /\ same_dims C C' /\
    meq (eN A) (emat C') (if keqb alpha 1 && keqb beta 0 then P
                          else mcut keep (madd (mscale beta (emat C)) (mscale alpha P))).
Proof. exact @multiply_sq_spec. Qed.
Print Assumptions c06_ellpack_multiply_same_object.
Example c06_same_instance : wf exA /\ wf exB /\ eN exB = eN exA /\ full_sched (eN exA) 2 exS /\
  (forall i, i < eN exA -> count (eN exA) (fun j => (Nat.eqb i j || gtZ 4 (mmul (eN exA) (emat exA) (emat exA) i j))%bool) <= eM exB)%nat /\
  fits (eN exA) (eM exB) (gtZ 4) (madd (mscale (3 : Zscalar)%Z (emat exB))
     (mscale (-2 : Zscalar)%Z (mcut_offdiag (gtZ 4) (mmul (eN exA) (emat exA) (emat exA))))).
Proof.
  split; [apply exA_wf|]. split; [apply exB_wf|]. split; [reflexivity|]. split; [apply exS_full|].
  split; [|apply fitsb_ok; reflexivity].
  apply (below_ok 3 (fun i => count 3 (fun j => (Nat.eqb i j || gtZ 4 (mmul 3 (emat exA) (emat exA) i j))%bool) <=? 3)); [|reflexivity].
  intros i. apply Nat.leb_le.
Qed.

(** C06: exactly alpha*A*B + beta*C when the threshold keeps every nonzero number (t = 0) *)
Theorem c06_ellpack_multiply_exact : forall (F : scalar) (keep : F -> bool) alpha beta (A B C : ell F) s1 s2 gv gi,
  keeps_nonzero keep ->
  wf A -> wf B -> wf C -> eN A = eN B -> eN C = eN A ->
  Permutation (map snd s1) (seq 0 (eN A)) -> Permutation (map snd s2) (seq 0 (eN A)) ->
  (forall i, i < eN A -> prod_cols A B i <= eM C)%nat ->
  fits (eN A) (eM C) keep (madd (mscale beta (emat C)) (mscale alpha (mmul (eN A) (emat A) (emat B)))) ->
  exists C', ell_multiply keep alpha beta A B C s1 s2 gv gi = Ok C' /\ wf C' /\ same_dims C C' /\
    meq (eN A) (emat C') (madd (mscale alpha (mmul (eN A) (emat A) (emat B))) (mscale beta (emat C))).
Proof. exact @multiply_exact. Qed.
Print Assumptions c06_ellpack_multiply_exact.
Theorem c06_ellpack_multiply_same_object_exact : forall (F : scalar) (keep : F -> bool) alpha beta (A C : ell F) nth s1 s2 gv gi,
  keeps_nonzero keep ->
  wf A -> wf C -> eN C = eN A ->
  full_sched (eN A) nth s1 -> Permutation (map snd s2) (seq 0 (eN A)) ->
  (forall i, i < eN A -> count (eN A) (fun j => (Nat.eqb i j || keep (mmul (eN A) (emat A) (emat A) i j))%bool) <= eM C)%nat ->
  fits (eN A) (eM C) keep (madd (mscale beta (emat C)) (mscale alpha (mmul (eN A) (emat A) (emat A)))) ->
  exists C', ell_multiply_sq keep alpha beta A C nth s1 s2 gv gi = Ok C' /\ wf C' /\ same_dims C C' /\
    meq (eN A) (emat C') (madd (mscale alpha (mmul (eN A) (emat A) (emat A))) (mscale beta (emat C))).
Proof. exact @multiply_sq_exact. Qed.
Print Assumptions c06_ellpack_multiply_same_object_exact.
Example c06_exact_instance : keeps_nonzero (gtZ 0) /\
  fits (eN exA) (eM exA) (gtZ 0) (madd (mscale (3 : Zscalar)%Z (emat exA))
     (mscale (-2 : Zscalar)%Z (mmul (eN exA) (emat exA) (emat exB)))) /\
  fits (eN exA) (eM exA) (gtZ 0) (madd (mscale (3 : Zscalar)%Z (emat exA))
     (mscale (-2 : Zscalar)%Z (mmul (eN exA) (emat exA) (emat exA)))).
Proof.
  split; [|split; apply fitsb_ok; reflexivity]. intros x. unfold gtZ. simpl. intros H. apply Z.ltb_ge in H. lia.
Qed.

(** C06 is false when C is also A and B: the square is computed in place from rows already overwritten. *)
Theorem c06_ellpack_multiply_all_same_refuted : exists (A A' : ell Zscalar) sched i j,
  wf A /\ full_sched (eN A) 1 sched /\ (i < eN A)%nat /\ (j < eN A)%nat /\
  ell_multiply_sq_inplace (gtZ 0) k1 k0 A 1 sched sched (fun _ => k0) (fun _ => 0%nat) = Ok A' /\
  emat A' i j <> mmul (eN A) (emat A) (emat A) i j.
Proof. exact multiply_all_same_refuted. Qed.
Print Assumptions c06_ellpack_multiply_all_same_refuted.

(** C07 *)
Theorem c07_ellpack_multiply_x2 : forall (F : scalar) (keep : F -> bool) (X X2 : ell F) nth sched,
  wf X -> wf X2 -> eN X2 = eN X -> full_sched (eN X) nth sched ->
  (forall i, i < eN X -> count (eN X) (fun j => (Nat.eqb i j || keep (mmul (eN X) (emat X) (emat X) i j))%bool) <= eM X2)%nat ->
  exists C, ell_multiply_x2 keep X X2 nth sched =
      Ok (C, mtrace (eN X) (emat X), mtrace (eN X) (mmul (eN X) (emat X) (emat X))) /\
    wf C /\ same_dims X2 C /\
    meq (eN X) (emat C) (mcut_offdiag keep (mmul (eN X) (emat X) (emat X))).
Proof. exact @multiply_x2_spec. Qed.
Print Assumptions c07_ellpack_multiply_x2.
Example c07_instance : wf exA /\ wf exB /\ eN exB = eN exA /\ full_sched (eN exA) 2 exS /\
  (forall i, i < eN exA -> count (eN exA) (fun j => (Nat.eqb i j || gtZ 4 (mmul (eN exA) (emat exA) (emat exA) i j))%bool) <= eM exB)%nat.
Proof. destruct c06_same_instance as (H1 & H2 & H3 & H4 & H5 & _). repeat (split; [assumption|]). exact H5. Qed.

(** C08, C27-like: element-wise meaning of threshold *)
Theorem c08_ellpack_threshold : forall (F : scalar) (keep : F -> bool) (A : ell F) sched,
  wf A -> Permutation (map snd sched) (seq 0 (eN A)) ->
  exists B, ell_threshold keep A sched = Ok B /\ wf B /\ same_dims A B /\ meq (eN A) (emat B) (mcut keep (emat A)).
Proof. exact @threshold_spec. Qed.
Print Assumptions c08_ellpack_threshold.
Theorem c08_ellpack_threshold_new : forall (F : scalar) (keep : F -> bool) (A : ell F) sched,
  wf A -> (0 < eM A)%nat -> Permutation (map snd sched) (seq 0 (eN A)) ->
  exists B, ell_threshold_new keep A sched = Ok B /\ wf B /\ same_dims A B /\ meq (eN A) (emat B) (mcut keep (emat A)).
Proof. exact @threshold_new_spec. Qed.
Print Assumptions c08_ellpack_threshold_new.
Example c08_instance : wf exA /\ (0 < eM exA)%nat /\ Permutation (map snd exS) (seq 0 (eN exA)).
Proof. split; [apply exA_wf|]. split; [simpl; auto|apply exS_perm]. Qed.

(** C09: [ev] is any order of the lock-protected insertions *)
Theorem c09_ellpack_transpose_new : forall (F : scalar) (A : ell F) ev gv gi,
  wf A -> Permutation ev (all_slots A) -> (forall r, r < eN A -> colcount A r <= eM A)%nat ->
  exists B, ell_transpose_new A ev gv gi = Ok B /\ wf B /\ same_dims A B /\ meq (eN A) (emat B) (mtrans (emat A)).
Proof. exact @transpose_new_spec. Qed.
Print Assumptions c09_ellpack_transpose_new.
Example c09_instance : wf exA /\ Permutation (rev (all_slots exA)) (all_slots exA) /\ (forall r, r < eN exA -> colcount exA r <= eM exA)%nat.
Proof.
  split; [apply exA_wf|]. split; [apply Permutation_sym, Permutation_rev|].
  apply (below_ok 3 (fun r => colcount exA r <=? 3)); [|reflexivity]. intros r. apply Nat.leb_le.
Qed.

(** C12 *)
Theorem c12_ellpack_trace : forall (F : scalar) (A : ell F) nth sched,
  wf A -> full_sched (eN A) nth sched -> ell_trace A nth sched = Ok (mtrace (eN A) (emat A)).
Proof. exact @ell_trace_ok. Qed.
Print Assumptions c12_ellpack_trace.
Example c12_instance : wf exA /\ full_sched (eN exA) 2 exS /\ ell_trace exA 2 exS = Ok (6%Z : Zscalar).
Proof. split; [apply exA_wf|]. split; [apply exS_full|reflexivity]. Qed.

(** C13 *)
Theorem c13_ellpack_add_identity : forall (F : scalar) (keep : F -> bool) beta (A : ell F) sched,
  wf A -> Permutation (map snd sched) (seq 0 (eN A)) ->
  (forall i, i < eN A -> beta = k0 \/ In i (cols (erow A i)) \/ nnz A i < eM A)%nat ->
  exists B, ell_add_identity keep beta A sched = Ok B /\ wf B /\ same_dims A B /\
    meq (eN A) (emat B) (mcut keep (madd (emat A) (mscale beta mid))).
Proof. exact @add_identity_spec. Qed.
Print Assumptions c13_ellpack_add_identity.
Theorem c13_ellpack_scale_add_identity : forall (F : scalar) (keep : F -> bool) alpha beta (A : ell F) sched,
  wf A -> Permutation (map snd sched) (seq 0 (eN A)) ->
  (forall i, i < eN A -> beta = k0 \/ In i (cols (erow A i)) \/ nnz A i < eM A)%nat ->
  exists B, ell_scale_add_identity keep alpha beta A sched = Ok B /\ wf B /\ same_dims A B /\
    meq (eN A) (emat B) (mcut keep (madd (mscale alpha (emat A)) (mscale beta mid))).
Proof. exact @scale_add_identity_spec. Qed.
Print Assumptions c13_ellpack_scale_add_identity.
Example c13_instance : wf exA /\ Permutation (map snd exS) (seq 0 (eN exA)) /\
  (forall i, i < eN exA -> (5 : Zscalar)%Z = k0 \/ In i (cols (erow exA i)) \/ nnz exA i < eM exA)%nat.
Proof.
  split; [apply exA_wf|]. split; [apply exS_perm|].
  apply (below_ok 3 (fun i => nnz exA i <? eM exA)); [|reflexivity]. intros i H. right. right. apply Nat.ltb_lt; auto.
Qed.
(** without that room: a full row that has no diagonal entry is written past its work array *)
Theorem c13_ellpack_add_identity_refuted : exists (A : ell Zscalar) sched,
  wf A /\ Permutation (map snd sched) (seq 0 (eN A)) /\
  ell_add_identity (gtZ 0) (1%Z : Zscalar) A sched = UB.
Proof. exact add_identity_refuted. Qed.
Print Assumptions c13_ellpack_add_identity_refuted.

(** C14 *)
Theorem c14_ellpack_scale_inplace : forall (F : scalar) (a : F) (A : ell F), wf A ->
  exists B, ell_scale_inplace a A = Ok B /\ wf B /\ same_dims A B /\ meq (eN A) (emat B) (mscale a (emat A)) /\
    forall i, (i < eN A)%nat -> cols (erow B i) = cols (erow A i).
Proof. exact @scale_inplace_spec. Qed.
Print Assumptions c14_ellpack_scale_inplace.
Theorem c14_ellpack_scale : forall (F : scalar) (a : F) (A B : ell F), wf A -> shape B -> same_dims A B -> (0 < eM A)%nat ->
  exists B', ell_scale a A B = Ok B' /\ wf B' /\ same_dims A B' /\ meq (eN A) (emat B') (mscale a (emat A)).
Proof. exact @scale_spec. Qed.
Print Assumptions c14_ellpack_scale.
Theorem c14_ellpack_scale_new : forall (F : scalar) (a : F) (A : ell F) gv gi, wf A -> (0 < eM A)%nat ->
  exists B', ell_scale_new a A gv gi = Ok B' /\ wf B' /\ same_dims A B' /\ meq (eN A) (emat B') (mscale a (emat A)).
Proof. exact @scale_new_spec. Qed.
Print Assumptions c14_ellpack_scale_new.
Theorem c14_ellpack_copy : forall (F : scalar) (A B : ell F), shape A -> shape B -> same_dims A B -> (0 < eM A)%nat ->
  ell_copy A B = Ok A.
Proof. exact @ell_copy_ok. Qed.
Print Assumptions c14_ellpack_copy.
Theorem c14_ellpack_copy_new : forall (F : scalar) (A : ell F) gv gi, shape A -> ell_copy_new A gv gi = Ok A.
Proof. exact @ell_copy_new_ok. Qed.
Print Assumptions c14_ellpack_copy_new.
Example c14_instance : wf exA /\ shape exA /\ shape exB /\ same_dims exA exB /\ (0 < eM exA)%nat.
Proof. split; [apply exA_wf|]. split; [apply exA_wf|]. split; [apply exB_wf|]. split; [split; reflexivity|]. simpl. auto. Qed.

(** C16 *)
Theorem c16_ellpack_sum_squares : forall (F : scalar) (A : ell F) nth sched,
  wf A -> full_sched (eN A) nth sched ->
  ell_sum_squares A nth sched = Ok (msum (eN A) (mhad (emat A) (emat A))).
Proof. exact @ell_sum_squares_ok. Qed.
Print Assumptions c16_ellpack_sum_squares.
Theorem c16_ellpack_sum_squares_submatrix : forall (F : scalar) (A : ell F) core nth sched,
  wf A -> (core <= eN A)%nat -> full_sched core nth sched ->
  ell_sum_squares_submatrix A core nth sched = Ok (msum core (mhad (emat A) (emat A))).
Proof. exact @ell_sum_squares_submatrix_ok. Qed.
Print Assumptions c16_ellpack_sum_squares_submatrix.
Example c16_instance : wf exA /\ full_sched (eN exA) 2 exS /\ (2 <= eN exA)%nat /\ full_sched 2 2 [(1, 1); (0, 0)]%nat.
Proof. split; [apply exA_wf|]. split; [apply exS_full|]. split; [simpl; auto|]. apply full_schedb; reflexivity. Qed.

(** C21 *)
Theorem c21_ellpack_element_multiply : forall (F : scalar) (keep : F -> bool) (A B C : ell F) sched,
  wf A -> wf B -> eN A = eN B -> wf C -> eN C = eN A -> (eM A <= eM C)%nat ->
  Permutation (map snd sched) (seq 0 (eN A)) ->
  exists C', ell_element_multiply keep A B C sched = Ok C' /\ wf C' /\ same_dims C C' /\
    meq (eN A) (emat C') (mcut_offdiag keep (mhad (emat A) (emat B))).
Proof. exact @element_multiply_spec. Qed.
Print Assumptions c21_ellpack_element_multiply.
Example c21_instance : wf exA /\ wf exB /\ eN exA = eN exB /\ (eM exA <= eM exB)%nat /\ Permutation (map snd exS) (seq 0 (eN exA)).
Proof. split; [apply exA_wf|]. split; [apply exB_wf|]. split; [reflexivity|]. split; [simpl; auto|apply exS_perm]. Qed.

(** C51 *)
Theorem c51_ellpack_set_get_diagonal : forall (F : scalar) (keep : F -> bool) (A : ell F) (diag : list F),
  wf A -> length diag = eN A ->
  (forall i, i < eN A -> In i (cols (erow A i)) \/ nnz A i < eM A \/ keep (nth i diag k0) = false)%nat ->
  exists B, ell_set_diagonal keep A diag = Ok B /\ wf B /\ same_dims A B /\
    ell_get_diagonal B = Ok (map (cut keep) diag) /\
    (forall i j, (i < eN A)%nat -> (j < eN A)%nat -> i <> j -> emat B i j = emat A i j).
Proof. exact @set_diagonal_spec. Qed.
Print Assumptions c51_ellpack_set_get_diagonal.
Example c51_instance : wf exA /\ length ([1; 9; 2]%Z : list Zscalar) = eN exA /\
  (forall i, i < eN exA -> In i (cols (erow exA i)) \/ nnz exA i < eM exA \/ gtZ 1 (nth i [1; 9; 2] 0)%Z = false)%nat.
Proof.
  split; [apply exA_wf|]. split; [reflexivity|].
  apply (below_ok 3 (fun i => nnz exA i <? eM exA)); [|reflexivity]. intros i H. right. left. apply Nat.ltb_lt; auto.
Qed.

(** C52 *)
Theorem c52_ellpack_zero : forall (F : scalar) N M, (0 < M)%nat ->
  exists A : ell F, ell_zero N M = Ok A /\ eN A = N /\ eM A = M /\ wf A /\ meq N (emat A) mzero.
Proof. exact @zero_spec. Qed.
Print Assumptions c52_ellpack_zero.
Theorem c52_ellpack_identity : forall (F : scalar) N M, (0 < M)%nat ->
  exists A : ell F, ell_identity N M = Ok A /\ eN A = N /\ eM A = M /\ wf A /\ meq N (emat A) mid.
Proof. exact @identity_spec. Qed.
Print Assumptions c52_ellpack_identity.
(** element (i,j) is the number drawn for it if i - M/2 <= j < i - M/2 + M, else 0 *)
Theorem c52_ellpack_banded : forall (F : scalar) N M (rnd : nat -> nat -> F), (0 < M)%nat ->
  exists A : ell F, ell_banded N M rnd = Ok A /\ eN A = N /\ eM A = M /\ wf A /\
    meq N (emat A) (fun i j => if ((i <=? j + M / 2) && (j + M / 2 <? i + M))%nat then rnd i j else k0).
Proof. exact @banded_spec. Qed.
Print Assumptions c52_ellpack_banded.
Theorem c52_ellpack_get_element : forall (F : scalar) (A : ell F) i j, wf A ->
  ell_get_element A i j = if ((i <? eN A) && (j <? eN A))%nat then Ok (emat A i j) else Err.
Proof. exact @get_element_spec. Qed.
Print Assumptions c52_ellpack_get_element.
Theorem c52_ellpack_get_row : forall (F : scalar) (A : ell F) i, wf A -> (i < eN A)%nat ->
  ell_get_row A i = Ok (map (emat A i) (seq 0 (eN A))).
Proof. exact @ell_get_row_ok. Qed.
Print Assumptions c52_ellpack_get_row.
Example c52_instance : (0 < 3)%nat /\ wf exA /\ (2 < eN exA)%nat /\ ell_get_element exA 1 2 = Ok (5%Z : Zscalar).
Proof. split; [auto|]. split; [apply exA_wf|]. split; [simpl; auto|reflexivity]. Qed.
