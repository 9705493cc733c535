(** Instances and counterexamples for distributed matrices. *)
From Verif Require Import Base BaseFacts Spec SpecFacts EllpackModel EllpackSpec EllpackExact EllpackCheck CsrModel CsrSpec CsrHash CsrCheck
  GemmModel DenseModel DenseSpec DenseCheck FormatModel FormatSpec FormatFacts FormatHistModel FormatHistSpec FormatHist FormatCheck
  MpiModel MpiSpec MpiFacts MpiRun Dist2dModel Dist2dSpec Dist2dLocal Dist2dFacts Dist2dCannon Dist2dOps Dist2dMore Dist2dIO.

(** a 4 x 4 matrix on a 2 x 2 grid in any format *)
Definition exArr : list Zscalar := [1; 0; 2; 0;  0; 3; 0; 4;  5; 6; 0; 0;  0; 0; 7; 8]%Z.
Definition exArr2 : list Zscalar := [0; 1; 0; 0;  2; 0; 0; 3;  0; 0; 4; 0;  5; 0; 0; 6]%Z.
Definition exSeq (r k : nat) : env Zscalar := seq_env 2.

Lemma exDist t (D : list Zscalar) : length D = 16 ->
  exists A : dist Zscalar, dist_ok t A /\ dist_roomy A /\ tprec A = true /\ tp A = 2 /\ tN A = 4 /\ tM A = 4 /\ meq 4 (gmx A) (dmat row_major 4 D).
Proof.
  intros HD. destruct (dist_import_ok t row_major 2 4 4 (gtZ 0) D (fun _ => seq_env 2)) as (A0 & _ & P0 & N0 & M0 & _ & O0 & R0 & X0); try lia; try reflexivity.
  { change (4 / 2) with 2. apply table_max_big. lia. } { intros; apply seq_env_good. }
  assert (T0 : tn A0 = 2) by (unfold tn; rewrite P0, N0; reflexivity).
  destruct (dist_copy_new_ok t A0 O0 R0 (fun _ _ => seq_env 2)) as (A & _ & (OA & RA & (G1 & G2 & G3) & MA) & PA).
  { intros. rewrite T0. apply seq_env_good. }
  exists A. split; [exact OA|]. split; [exact RA|]. split; [exact PA|]. split; [congruence|]. split; [congruence|]. split; [congruence|].
  intros i j Hi Hj. rewrite MA by (rewrite N0; auto). rewrite X0 by auto. cbn [placed]. destruct t; cbn [fcut]; auto; unfold mcut; apply cut_exact, gtZ0_exact.
Qed.

Lemma exSeq_good (A : dist Zscalar) : tp A = 2 -> tN A = 4 -> forall r k, r < tasks A -> good_schedules (tn A) (exSeq r k).
Proof. intros P N r k _. unfold tn. rewrite P, N. apply seq_env_good. Qed.

(** With a threshold the distributed product loses elements: here A is zero but
    for its first row (1 1), B is zero but for its first column (1 1), and the
    threshold is 1.  The product has the element 2; both its contributions are
    dropped. *)
Definition exRow : list Zscalar := [1; 1; 0; 0]%Z.
Definition exCol : list Zscalar := [1; 0; 1; 0]%Z.
Definition exNul : list Zscalar := [0; 0; 0; 0]%Z.
Lemma exDist1 t (D : list Zscalar) : length D = 4 ->
  exists A : dist Zscalar, dist_ok t A /\ dist_roomy A /\ tprec A = true /\ tp A = 2 /\ tN A = 2 /\ tM A = 2 /\ meq 2 (gmx A) (dmat row_major 2 D).
Proof.
  intros HD. destruct (dist_import_ok t row_major 2 2 2 (gtZ 0) D (fun _ => seq_env 1)) as (A0 & _ & P0 & N0 & M0 & _ & O0 & R0 & X0); try lia; try reflexivity.
  { change (2 / 2) with 1. apply table_max_big. lia. } { intros; apply seq_env_good. }
  assert (T0 : tn A0 = 1) by (unfold tn; rewrite P0, N0; reflexivity).
  destruct (dist_copy_new_ok t A0 O0 R0 (fun _ _ => seq_env 1)) as (A & _ & (OA & RA & (G1 & G2 & G3) & MA) & PA).
  { intros. rewrite T0. apply seq_env_good. }
  exists A. split; [exact OA|]. split; [exact RA|]. split; [exact PA|]. split; [congruence|]. split; [congruence|]. split; [congruence|].
  intros i j Hi Hj. rewrite MA by (rewrite N0; auto). rewrite X0 by auto. cbn [placed]. destruct t; cbn [fcut]; auto; unfold mcut; apply cut_exact, gtZ0_exact.
Qed.

Lemma cannon_threshold_refuted : exists (A B C : dist Zscalar) keep nz prog s,
  dist_ok FEll A /\ dist_ok FEll B /\ dist_ok FEll C /\ dist_roomy A /\ dist_roomy B /\ dist_roomy C /\ same_grid A B /\ same_grid A C /\
  keeps_nonzero nz /\ tprec A = true /\
  dist_multiply keep nz (1%Z : Zscalar) (0%Z : Zscalar) A (fun _ _ => seq_env (tn A)) = Ok prog /\
  always_ends (tasks A) prog (cannon_start A B C) s /\
  mcut keep (mmul (tN A) (gmx A) (gmx B)) 0 0 = 2%Z /\ gmx (gather C qC s) 0 0 = 0%Z.
Proof.
  destruct (exDist1 FEll exRow eq_refl) as (A & OA & RA & PA & PA1 & NA & TA & MA).
  destruct (exDist1 FEll exCol eq_refl) as (B & OB & RB & PB & PB1 & NB & TB & MB).
  destruct (exDist1 FEll exNul eq_refl) as (C & OC & RC & PC & PC1 & NC & TC & MC).
  assert (N1 : tn A = 1) by (unfold tn; rewrite PA1, NA; reflexivity).
  destruct (cannon_blocks FEll (gtZ 1) (gtZ 0) (1%Z : Zscalar) (0%Z : Zscalar) A B C (fun _ _ => seq_env (tn A))) as (prog & s & E1 & E2 & _ & _ & _ & E5); auto.
  { repeat split; congruence. } { repeat split; congruence. } { apply gtZ0_exact. } { intros. apply seq_env_good. }
  exists A, B, C, (gtZ 1), (gtZ 0), prog, s. do 6 (split; [assumption|]). split; [repeat split; congruence|]. split; [repeat split; congruence|].
  split; [apply gtZ0_exact|]. split; [exact PA|]. split; [exact E1|]. split; [exact E2|]. split.
  - unfold mcut, mmul. rewrite NA. cbn [bigsum]. rewrite !MA, !MB by lia. vm_compute. reflexivity.
  - specialize (E5 0 0). rewrite PA1, N1 in E5. specialize (E5 ltac:(lia) ltac:(lia) 0 0 ltac:(lia) ltac:(lia)).
    change (sub 1 0 0 (gmx (gather C qC s)) 0 0) with (gmx (gather C qC s) 0 0) in E5. rewrite E5.
    change (2 - 1) with 1. cbn [cannon_block fcut foff]. unfold mcut, mcut_offdiag, madd, mscale, mmul, sub. cbn [bigsum Nat.add Nat.mul Nat.modulo Nat.divmod snd Nat.sub Nat.eqb].
    rewrite !MA, !MB, !MC by lia. vm_compute. reflexivity.
Qed.

(** A row read from the identity matrix on a grid of 3 x 3 or more tasks is wrong. *)
Lemma get_row_refuted (t : fmt) p : (3 <= p)%nat -> 
  exists (A : dist Zscalar) row, dist_identity t p p p (fun _ => seq_env 1) = Ok A /\ dist_ok t A /\ dist_roomy A /\
    gmx A (p - 1) (p - 1) = 1%Z /\ dist_get_row A (p - 1) (seq 0 (p * p)) = Ok row /\ nth (p - 1) row 0%Z = 0%Z.
Proof.
  intros Hp. assert (Ht : 1 <= table_max) by (apply table_max_big; lia). assert (D1 : (p / p = 1)%nat) by (apply Nat.div_same; lia).
  destruct (@dist_identity_ok Zscalar t p p p (fun _ => seq_env 1)) as (A & EA & P & N & M & PR & OA & RA & MA); try (rewrite ?D1; lia).
  { intros. rewrite D1. apply seq_env_good. }
  assert (T1 : tn A = 1) by (unfold tn; rewrite P, N; exact D1).
  destruct (dist_get_row_actual t A (p - 1) (seq 0 (p * p)) OA RA PR) as (row & ER & LR & _ & RZ & _).
  { rewrite N. lia. } { unfold tasks. rewrite P. reflexivity. }
  exists A, row. split; [exact EA|]. split; [exact OA|]. split; [exact RA|]. split.
  { rewrite MA by lia. unfold mid. rewrite Nat.eqb_refl. reflexivity. }
  split; [exact ER|]. apply RZ. rewrite T1, N. lia.
Qed.

(** On more than one task bml_add_identity changes elements off the diagonal. *)
Lemma add_identity_refuted (t : fmt) p : (2 <= p)%nat -> 
  exists (A C : dist Zscalar), dist_zero t p p p = Ok A /\ dist_ok t A /\ dist_roomy A /\
    dist_add_identity (gtZ 0) (1%Z : Zscalar) A (fun _ => seq_env 1) = Ok C /\ gmx A 0 1 = 0%Z /\ gmx C 0 1 = 1%Z.
Proof.
  intros Hp. assert (Ht : 1 <= table_max) by (apply table_max_big; lia). assert (D1 : (p / p = 1)%nat) by (apply Nat.div_same; lia).
  destruct (@dist_zero_ok Zscalar t p p p) as (A & EA & P & N & M & PR & OA & RA & MA); try (rewrite ?D1; lia).
  assert (T1 : tn A = 1) by (unfold tn; rewrite P, N; exact D1).
  destruct (dist_add_identity_ok t A OA RA (gtZ 0) (1%Z : Zscalar) (fun _ => seq_env 1)) as (C & EC & (OC & RC & _ & MC) & _).
  { intros. rewrite T1. apply seq_env_good. }
  exists A, C. split; [exact EA|]. split; [exact OA|]. split; [exact RA|]. split; [exact EC|]. split.
  { rewrite MA by lia. reflexivity. }
  rewrite MC by (rewrite N; lia). rewrite fcut_none by (right; apply gtZ0_exact). unfold madd, mscale, tiled_identity. rewrite T1.
  rewrite MA by lia. reflexivity.
Qed.
Lemma scale_add_identity_refuted (t : fmt) p : (2 <= p)%nat -> 
  exists (A C : dist Zscalar), dist_zero t p p p = Ok A /\ dist_ok t A /\ dist_roomy A /\
    dist_scale_add_identity (gtZ 0) (1%Z : Zscalar) (1%Z : Zscalar) A (fun _ => seq_env 1) = Ok C /\ gmx A 0 1 = 0%Z /\ gmx C 0 1 = 1%Z.
Proof.
  intros Hp. assert (Ht : 1 <= table_max) by (apply table_max_big; lia). assert (D1 : (p / p = 1)%nat) by (apply Nat.div_same; lia).
  destruct (@dist_zero_ok Zscalar t p p p) as (A & EA & P & N & M & PR & OA & RA & MA); try (rewrite ?D1; lia).
  assert (T1 : tn A = 1) by (unfold tn; rewrite P, N; exact D1).
  destruct (dist_scale_add_identity_ok t A OA RA (gtZ 0) (1%Z : Zscalar) (1%Z : Zscalar) (fun _ => seq_env 1)) as (C & EC & (OC & RC & _ & MC) & _).
  { intros. rewrite T1. apply seq_env_good. }
  exists A, C. split; [exact EA|]. split; [exact OA|]. split; [exact RA|]. split; [exact EC|]. split.
  { rewrite MA by lia. reflexivity. }
  rewrite MC by (rewrite N; lia). rewrite fcut_none by (right; apply gtZ0_exact). unfold madd, mscale, tiled_identity. rewrite T1.
  rewrite MA by lia. reflexivity.
Qed.

(** A column-major array on a 2 x 2 grid: the element (0, 1) becomes (1, 0). *)
Lemma import_col_major_refuted (t : fmt) : exists (D : list Zscalar) (A : dist Zscalar), length D = 4 /\
  dist_import t col_major 2 2 2 (gtZ 0) D (fun _ => seq_env 1) = Ok A /\ dmat col_major 2 D 0 1 = 5%Z /\ gmx A 0 1 = 0%Z.
Proof.
  destruct (dist_import_ok t col_major 2 2 2 (gtZ 0) ([0; 0; 5; 0]%Z : list Zscalar) (fun _ => seq_env 1)) as (A & EA & P & N & M & _ & OA & RA & MA); try lia; try reflexivity.
  { change (2 / 2) with 1. apply table_max_big. lia. } { intros; apply seq_env_good. }
  exists ([0; 0; 5; 0]%Z : list Zscalar), A. split; [reflexivity|]. split; [exact EA|]. split; [reflexivity|]. rewrite MA by lia. destruct t; vm_compute; reflexivity.
Qed.

(** csr: bml_trace_mult of a distributed matrix is neither the trace of the
    product nor the sum of A_ij B_ij *)
Lemma trace_mult_csr_refuted : exists (A B : dist Zscalar) v, dist_ok FCsr A /\ dist_ok FCsr B /\ dist_roomy A /\ dist_roomy B /\ same_grid A B /\
  dist_trace_mult A B (fun _ => seq_env (tn A)) (seq 0 (tasks A)) = Ok v /\ v <> mtrace (tN A) (mmul (tN A) (gmx A) (gmx B)) /\
  v <> msum (tN A) (mhad (gmx A) (gmx B)).
Proof.
  destruct (exDist FCsr exArr eq_refl) as (A & OA & RA & PA & PA1 & NA & TA & MA).
  destruct (exDist FCsr exArr2 eq_refl) as (B & OB & RB & PB & PB1 & NB & TB & MB).
  assert (N1 : tn A = 2) by (unfold tn; rewrite PA1, NA; reflexivity).
  exists A, B. eexists. split; [exact OA|]. split; [exact OB|]. split; [exact RA|]. split; [exact RB|]. split; [repeat split; congruence|].
  split; [apply (dist_trace_mult_csr FCsr); auto; [intros; apply seq_env_good|repeat split; congruence]|].
  rewrite PA1, N1, NA. unfold mtrace, mmul, msum, mhad, sub. cbn [bigsum Nat.add Nat.mul]. rewrite !MA, !MB by lia. split; vm_compute; discriminate.
Qed.

Lemma exGrids : forall t, exists A B C : dist Zscalar, dist_ok t A /\ dist_ok t B /\ dist_ok t C /\ dist_roomy A /\ dist_roomy B /\ dist_roomy C /\
  same_grid A B /\ same_grid A C /\ tprec A = true /\ keeps_nonzero (gtZ 0 : Zscalar -> bool) /\ no_cut t (gtZ 0 : Zscalar -> bool) /\
  (forall r k, (r < tasks A)%nat -> good_schedules (tn A) (exSeq r k)) /\
  mmul 4 (gmx A) (gmx B) 2 0 = 12%Z /\ tp A = 2%nat.
Proof.
  intros t. destruct (exDist t exArr eq_refl) as (A & OA & RA & PA & PA1 & NA & TA & MA).
  destruct (exDist t exArr2 eq_refl) as (B & OB & RB & PB & PB1 & NB & TB & MB).
  exists A, B, A. do 3 (split; [assumption|]). do 3 (split; [assumption|]). split; [repeat split; congruence|]. split; [repeat split; congruence|].
  split; [exact PA|]. split; [apply gtZ0_exact|]. split; [right; apply gtZ0_exact|]. split; [apply exSeq_good; assumption|].
  split; [|exact PA1]. unfold mmul. cbn [bigsum]. rewrite !MA, !MB by lia. vm_compute. reflexivity.
Qed.
Lemma exOne : forall t, exists A : dist Zscalar, dist_ok t A /\ dist_roomy A /\ tprec A = true /\ (tp A <= 2)%nat /\ (2 < tN A)%nat /\ gmx A 2 1 = 6%Z.
Proof.
  intros t. destruct (exDist t exArr eq_refl) as (A & OA & RA & PA & PA1 & NA & TA & MA).
  exists A. split; [exact OA|]. split; [exact RA|]. split; [exact PA|]. split; [lia|]. split; [lia|]. rewrite MA by lia. reflexivity.
Qed.
Lemma exCannon : forall t, exists (A B C : dist Zscalar) prog s,
  dist_ok t A /\ dist_multiply (gtZ 0) (gtZ 0) (2%Z : Zscalar) (3%Z : Zscalar) A exSeq = Ok prog /\ tasks A = 4%nat /\ Forall (valid 4) prog /\
  always_ends 4 prog (cannon_start A B C) s /\ length prog = 8%nat.
Proof.
  intros t. destruct (exGrids t) as (A & B & C & OA & OB & OC & RA & RB & RC & G1 & G2 & PA & K1 & K2 & GE & _ & P2).
  destruct (cannon_product t (gtZ 0) (gtZ 0) (2%Z : Zscalar) (3%Z : Zscalar) A B C exSeq) as (prog & s & E1 & E2 & _); auto.
  exists A, B, C, prog, s. split; [exact OA|]. split; [exact E1|]. unfold dist_multiply in E1. rewrite PA in E1. injection E1 as <-.
  rewrite P2. unfold tasks in *. rewrite P2 in *. split; [reflexivity|]. split; [exact (cannon_valid 2 _ _ _ _ _)|]. split; [exact E2|reflexivity].
Qed.
