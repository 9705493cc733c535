(** What the parallel loops compute in every interleaving of their single
    accesses. *)
From Verif Require Import Base BaseFacts Spec SpecFacts EllpackModel EllpackSpec EllpackFacts
  EllpackArith EllpackMul EllpackMul2 EllpackMore EllpackOps ThreadModel ThreadFacts RaceModel RaceSpec RaceSim RaceLoops RacePar RaceEll RaceEll2 RaceEll3 RaceTranspose.

Section Main.
  Context {F : scalar}.
  Local Notation mem := (mem loc (val F)).

  Lemma interleaved_multiply (keep : F -> bool) (A B C : ell F) sched (m : mem) :
    wf A -> wf B -> eN A = eN B -> wf C -> eN C = eN A ->
    Permutation (map snd sched) (seq 0 (eN A)) ->
    (forall i, i < eN A -> prod_cols A B i <= eM C) ->
    holds m 0 C -> holds m 1 A -> holds m 2 B ->
    (forall t, In t (map fst sched) -> holds_ws m t (ws_new k0 (eN C))) ->
    exists C', ell_multiply_AB keep A B C sched = Ok C' /\ wf C' /\ same_dims C C' /\
      meq (eN A) (emat C') (mcut_offdiag keep (mmul (eN A) (emat A) (emat B))) /\
      all_interleavings (p_mul_row keep 1 2 (eN C) (eM A) (eM B) (eM C)) sched m
        (fun m' => holds m' 0 C' /\ holds m' 1 A /\ holds m' 2 B).
  Proof.
    intros HA HB HN HC HNC HP Hroom H0 H1 H2 Hw.
    destruct (multiply_AB_spec keep A B C sched HA HB HN HC HNC HP) as [(_ & i & Hi & Hx)|(C' & E & _ & W & D & Q)].
    - specialize (Hroom i Hi). lia.
    - exists C'. split; [auto|]. split; [auto|]. split; [auto|]. split; [auto|]. eapply multiply_all; eauto.
  Qed.

  Lemma interleaved_add (keep : F -> bool) alpha beta (A B : ell F) sched (m : mem) :
    wf A -> wf B -> eN A = eN B -> Permutation (map snd sched) (seq 0 (eN A)) ->
    fits (eN A) (eM A) keep (madd (mscale alpha (emat A)) (mscale beta (emat B))) ->
    holds m 0 A -> holds m 1 B ->
    (forall t, In t (map fst sched) -> holds_ws m t (ws_new k0 (eN A))) ->
    exists A', ell_add keep alpha beta A B sched = Ok A' /\ wf A' /\ same_dims A A' /\
      meq (eN A) (emat A') (mcut keep (madd (mscale alpha (emat A)) (mscale beta (emat B)))) /\
      all_interleavings (p_add_row keep alpha beta (eN A) (eM A) (eM B)) sched m
        (fun m' => holds m' 0 A' /\ holds m' 1 B).
  Proof.
    intros HA HB HN HP Hf H0 H1 Hw.
    destruct (add_spec keep alpha beta A B sched HA HB HN HP Hf) as (A' & E & W & D & Q).
    exists A'. split; [auto|]. split; [auto|]. split; [auto|]. split; [auto|]. eapply add_all; eauto.
  Qed.

  Lemma interleaved_threshold (keep : F -> bool) (A : ell F) sched (m : mem) :
    wf A -> Permutation (map snd sched) (seq 0 (eN A)) -> holds m 0 A ->
    exists A', ell_threshold keep A sched = Ok A' /\ wf A' /\ same_dims A A' /\
      meq (eN A) (emat A') (mcut keep (emat A)) /\
      all_interleavings (p_threshold_row keep (eN A) (eM A)) sched m (fun m' => holds m' 0 A').
  Proof.
    intros HA HP H0. destruct (threshold_spec keep A sched HA HP) as (A' & E & W & D & Q).
    exists A'. split; [auto|]. split; [auto|]. split; [auto|]. split; [auto|]. eapply threshold_all; eauto.
  Qed.

  Lemma interleaved_import o (keep : F -> bool) N M (D : list F) (Z : ell F) sched (m : mem) :
    0 < M -> length D = N * N -> Permutation (map snd sched) (seq 0 N) -> fits N M keep (dmat o N D) ->
    ell_zero N M = Ok Z -> holds m 0 Z -> holdsK m (aDense 1) D ->
    exists A, ell_import o N M keep D sched = Ok A /\ wf A /\ eN A = N /\ eM A = M /\
      meq N (emat A) (mcut keep (dmat o N D)) /\
      all_interleavings (p_import_row o keep N M) sched m (fun m' => holds m' 0 A /\ holdsK m' (aDense 1) D).
  Proof.
    intros HM HL HP Hf HZ H0 H1.
    destruct (import_export_spec keep o o N M D sched sched HM HL HP HP Hf) as (A & D' & E & W & N1 & M1 & Q & _).
    exists A. split; [auto|]. split; [auto|]. split; [auto|]. split; [auto|]. split; [auto|].
    eapply import_all; eauto. intros A0 E0. congruence.
  Qed.

  Lemma interleaved_export o (A : ell F) sched (m : mem) :
    wf A -> Permutation (map snd sched) (seq 0 (eN A)) ->
    holdsK m (aDense 0) (repeat k0 (eN A * eN A)) -> holds m 1 A ->
    exists D, ell_export o A sched = Ok D /\ length D = eN A * eN A /\ meq (eN A) (dmat o (eN A) D) (emat A) /\
      all_interleavings (p_export_row o (eN A) (eM A)) sched m (fun m' => holdsK m' (aDense 0) D /\ holds m' 1 A).
  Proof.
    intros HA HP H0 H1. destruct (ell_export_ok o A sched HA HP) as (D & E & L & Q).
    exists D. split; [auto|]. split; [auto|]. split; [intros i j Hi Hj; unfold dmat; apply Q; auto|]. eapply export_all; eauto.
  Qed.

  Lemma interleaved_trace (A : ell F) nth sched (m : mem) :
    wf A -> full_sched (eN A) nth sched ->
    holds m 1 A -> (forall t, t < nth -> m (aAcc t, 0) = Some (VK k0)) ->
    all_interleavings (p_trace_row (eN A) (eM A)) sched m (fun m' =>
      holds m' 1 A /\
      exists acc : nat -> F, (forall t, t < nth -> m' (aAcc t, 0) = Some (VK (acc t))) /\
        bigsum nth acc = mtrace (eN A) (emat A)).
  Proof. intros HA HP H1 Hac. eapply trace_all; eauto. now apply ell_trace_ok. Qed.

  Lemma interleaved_transpose (A : ell F) gv gi sched (m : mem) :
    wf A -> Permutation (map snd sched) (seq 0 (eN A)) ->
    (forall r, r < eN A -> colcount A r <= eM A) ->
    holds m 0 (ell_noinit (eN A) (eM A) gv gi) -> holds m 1 A ->
    all_interleavings (p_transpose_row (eN A) (eM A)) sched m (fun m' =>
      exists ev B, Permutation ev (all_slots A) /\ ell_transpose_new A ev gv gi = Ok B /\
        wf B /\ same_dims A B /\ meq (eN A) (emat B) (mtrans (emat A)) /\
        holds m' 0 B /\ holds m' 1 A).
  Proof.
    intros HA HP Hc H0 H1 s Hr. destruct (transpose_all A gv gi sched m HA HP Hc H0 H1 s Hr) as (R1 & R2 & R3 & R4 & R5).
    split; [auto|]. split; [auto|]. split; [auto|]. split; [auto|]. intros Hf.
    destruct (R5 Hf) as (ev & B & P1 & E & K0 & K1).
    destruct (transpose_new_spec A ev gv gi HA P1 Hc) as (B2 & E2 & W & D & Q).
    rewrite E in E2. injection E2 as <-. exists ev, B. auto 10.
  Qed.
End Main.
