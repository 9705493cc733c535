(** Programs on block ellpack matrices: concrete programs, and a call that the
    format lacks. *)
From Verif Require Import Base BaseFacts Spec SpecFacts EllpackModel EllpackSpec EllpackExact EllpackCheck CsrModel CsrSpec
  GemmModel DenseModel DenseSpec FormatModel FormatSpec FormatFacts FormatConv FormatHistModel FormatHistSpec FormatHist FormatCheck
  EllblockModel EllblockSpec EllblockFacts EllblockAdd EllblockCheck ProgSpec ProgFacts EbProgModel EbProgSpec EbProgFacts EbConv.

Definition ebEnv (s : list (nat * nat)) : env Zscalar :=
  @mkEnv Zscalar 2 (fun _ => s) (fun _ => []) [] (fun l => l) (fun k => Z.of_nat k) (fun k => k).
(** copies, multiplies, adds, transposes, shifts, squares and measures *)
Definition ebProg (diag : list Z) : list (@instr Zscalar) :=
  [@ICopyNew Zscalar 1; IMultiplyAB 0 1 2 (gtZ 0); @IAdd Zscalar 2 1 2%Z (-3)%Z (gtZ 0); ITransposeNew 0; @IMultiply Zscalar 0 3 2 1%Z 5%Z (gtZ 0);
   @IScaleAddIdentity Zscalar 2 (-1)%Z 7%Z (gtZ 0); @ISetDiagonal Zscalar 1 (gtZ 0) diag; ITranspose 3; IMultiplyX2 0 3 (gtZ 0);
   IThreshold 2 (gtZ 9); @IScale Zscalar 2 3%Z; @IAddIdentity Zscalar 0 (-4)%Z (gtZ 0); @IMultiply Zscalar 1 0 2 2%Z 1%Z (gtZ 0);
   ITrace 2; ISumSquares 3; IGetRow 2 1; IGetElement 3 0 0].

Lemma d222_sizes : block_sizes 2 d222 6.
Proof.
  split; [lia|]. split; [|split; [cbn; lia|intros ib H; do 3 (destruct ib as [|ib]; [reflexivity|]); cbn in H; lia]].
  split; [cbn; lia|]. split; [cbn; lia|]. split; reflexivity.
Qed.
Lemma exE_stands : Forall2 (eb_stands d222 6) [exEA; exEB] [ebmx exEA; ebmx exEB].
Proof.
  constructor; [|constructor; [|constructor]]; (split; [first [apply exEA_wf|apply exEB_wf]|]); do 4 (split; [reflexivity|]); intros i j _ _; reflexivity.
Qed.
Lemma exE_flagged : flagged 2 [true; true] [exEA; exEB].
Proof. constructor; [intros _; apply exEA_roomy|]. constructor; [intros _; apply exEB_roomy|constructor]. Qed.
Lemma ebProg_ok N diag : 2 <= N -> length diag = N -> ebprogram N [true; true] (ebProg diag).
Proof.
  intros HN HD. unfold ebProg.
  repeat (split; [intros h Hh; cbn in Hh |- *; lia|]; split; [cbn; repeat split; try lia; auto|]; split; [cbn; repeat split; try lia; auto|];
    split; [exact I|]; split; [intros h Hh; cbn in Hh; (discriminate || (injection Hh as <-; reflexivity))|]; cbn [flags_after app set_nth]).
  exact I.
Qed.
Lemma ebProg_exact diag : Forall exact_instr (ebProg diag).
Proof. repeat constructor; apply gtZ0_exact. Qed.
Definition exE_env : env Zscalar := ebEnv [(1, 2); (0, 0); (1, 1)].
Definition exE_diag : list Z := [1; 0; 2; 0; -3; 4]%Z.
Lemma exE_env_ok : eb_schedules d222 exE_env.
Proof. intros k. apply exE_sched. Qed.
Definition exE_out : list Z := Eval vm_compute in
  match ebrun (map (fun c => (c, exE_env)) (ebProg exE_diag)) (Some d222, [exEA; exEB], []) with Ok (_, _, o) => o | _ => [] end.
Lemma exE_runs : length exE_out = 11 /\ exE_out <> repeat 0%Z 11 /\
  exists st, ebrun (map (fun c => (c, exE_env)) (ebProg exE_diag)) (Some d222, [exEA; exEB], []) = Ok (Some d222, st, exE_out).
Proof. split; [reflexivity|]. split; [discriminate|]. eexists. vm_compute. reflexivity. Qed.

(** 8 x 8 dense matrices, whose conversions have four blocks of side 4 *)
Definition exN8 (l : list (nat * nat * Z)) : bmat Zscalar := BDense (dense_of (F := Zscalar) 8 (tab l)).
Definition exS8 : list (bmat Zscalar) :=
  [exN8 [(0, 0, 1%Z); (0, 7, 2%Z); (3, 4, 3%Z); (4, 1, (-4)%Z); (7, 7, 5%Z)]; exN8 [(1, 1, 2%Z); (1, 3, (-1)%Z); (6, 2, 3%Z)]].
Lemma exS8_uniform : FormatHistSpec.uniform 8 8 FDense exS8.
Proof. repeat constructor; apply dense_of_wf. Qed.
Definition exS8_env : env Zscalar := ebEnv [(1, 1); (0, 0)].
Lemma exS8_sched k : full_sched 2 (e_nth exS8_env) (e_rows exS8_env k).
Proof. apply full_schedb; vm_compute; reflexivity. Qed.
Definition exS8_diag : list Z := [1; 0; 2; 0; -3; 4; 0; 9]%Z.

(** elementwise multiplication exists in the other formats only *)
Lemma eb_element_multiply_refuted : exists (d : defaults) (st1 : list (eb Zscalar)) (st2 : list (bmat Zscalar)) (p : list (@instr Zscalar)) e1 e2 st2' out,
  block_sizes 2 d 6 /\ Forall2 (fun A B => eb_stands d 6 A (bmx B)) st1 st2 /\ flagged 2 [true; true] st1 /\ FormatHistSpec.uniform 6 6 FDense st2 /\
  program 6 2 p /\ Forall exact_instr p /\ eb_schedules d e1 /\ good_schedules 6 e2 /\
  brun (map (fun c => (c, e2)) p) (st2, []) = Ok (st2', out) /\ ebrun (map (fun c => (c, e1)) p) (Some d, st1, []) = Err.
Proof.
  set (e2 := @mkEnv Zscalar 1 (fun _ => map (fun i => (0, i)) (seq 0 6)) (fun _ => map (fun i => (0, i)) (seq 0 36)) (map (fun i => (0, i)) (seq 0 5)) (fun l => l) (fun _ => 0%Z) (fun k => k)).
  set (S2 := [BDense (dense_of 6 (ebmx exEA)); BDense (dense_of 6 (ebmx exEB))]).
  set (P := [@ICopyNew Zscalar 0; IElementMultiply 0 1 2 (gtZ 0); ITrace 2]).
  assert (U : FormatHistSpec.uniform 6 6 FDense S2) by (repeat constructor; apply dense_of_wf).
  assert (G : good_schedules 6 e2).
  { split; [intros k; apply full_schedb; reflexivity|]. split; [intros k; apply full_schedb; reflexivity|]. split; [apply permb_ok; reflexivity|]. intros l. reflexivity. }
  assert (PP : program 6 2 P) by (cbn; repeat split; try lia; intros h Hh; simpl in Hh; lia).
  assert (PX : Forall exact_instr P) by (repeat constructor; apply gtZ0_exact).
  assert (R : exists s o, brun (map (fun c => (c, e2)) P) (S2, []) = Ok (s, o)) by (eexists _, _; vm_compute; reflexivity).
  destruct R as (s & o & R).
  exists d222, [exEA; exEB], S2, P, exE_env, e2, s, o.
  split; [apply d222_sizes|]. split.
  { assert (D : forall A : eb Zscalar, eb_stands d222 6 A (ebmx A) -> eb_stands d222 6 A (bmx (BDense (dense_of 6 (ebmx A))))).
    { intros A (a & b & c & e & f & _). do 5 (split; [assumption|]). intros i j Hi Hj. symmetry. apply dense_of_at; auto. }
    pose proof exE_stands as E. inversion E as [|? ? ? ? H1 H2]; subst. inversion H2; subst. constructor; [apply D; auto|]. constructor; [apply D; auto|constructor]. }
  split; [apply exE_flagged|]. split; [exact U|]. split; [exact PP|]. split; [exact PX|]. split; [apply exE_env_ok|]. split; [exact G|]. split; [exact R|]. vm_compute. reflexivity.
Qed.
