(** Matrices and numbers that meet the hypotheses of C75. *)
From Coq Require Import Reals ZArith Lia Lra.
From Flocq Require Import Core.
From Verif Require Import Base Spec EllpackModel EllpackSpec RealSpec MmFpModel MmFpFacts MmFpMat.
Local Open Scope R_scope.

Lemma single_int n e : (Z.abs n < 2 ^ 24)%Z -> (-149 <= e)%Z -> is_single (IZR n * bpow radix2 e).
Proof. intros Hn He. apply generic_format_FLT. exists (Float radix2 n e); [reflexivity|exact Hn|exact He]. Qed.
Lemma single_38 : is_single (3 / 8).
Proof. replace (3 / 8) with (IZR 3 * bpow radix2 (-3)) by (simpl; lra). apply single_int; simpl; lia. Qed.
Lemma single_m7 : is_single (-7).
Proof. replace (-7) with (IZR (-7) * bpow radix2 0) by (simpl; lra). apply single_int; simpl; lia. Qed.
Lemma normal_big x : / 16 <= Rabs x -> normal_or_0 x.
Proof.
  intros H. right. apply Rle_trans with (bpow radix2 (-4)); [apply bpow_le; lia|]. simpl. lra.
Qed.

Lemma values_instance : is_single (3 / 8) /\ normal_or_0 (1 / 3) /\ (Z.abs (-271828182845904) < 10 ^ 15)%Z.
Proof.
  split; [apply single_38|].
  split; [|reflexivity]. apply normal_big. rewrite Rabs_pos_eq; lra.
Qed.

Definition exF : ell Rscalar := @mkEll Rscalar 2 2 [3 / 8; 0; -7; 3 / 8] [1%nat; 0%nat; 1%nat; 0%nat] [1%nat; 2%nat].
Definition exZ : ell Rscalar := @mkEll Rscalar 2 3 [0; 0; 0; 0; 0; 0] [0%nat; 0%nat; 0%nat; 0%nat; 0%nat; 0%nat] [0%nat; 0%nat].

Lemma exF_at : emat exF 0%nat 0%nat = 0 /\ emat exF 0%nat 1%nat = 3 / 8 /\ emat exF 1%nat 0%nat = 3 / 8 /\ emat exF 1%nat 1%nat = -7.
Proof. repeat split; cbn; lra. Qed.

Lemma matrix_instance : wf exF /\ entries_in is_single (eN exF) (emat exF) /\ entries_in normal_or_0 (eN exF) (emat exF) /\
  wf exZ /\ eN exZ = eN exF /\ (eM exF <= eM exZ)%nat /\ (forall i, (i < eN exZ)%nat -> erow exZ i = []) /\ emat exF 0%nat 1%nat = 3 / 8.
Proof.
  destruct exF_at as (E1 & E2 & E3 & E4).
  assert (E : forall P : R -> Prop, P 0 -> P (3 / 8) -> P (-7) -> entries_in P (eN exF) (emat exF)).
  { intros P P0 P1 P2 i j Hi Hj. cbn in Hi, Hj.
    assert (i = 0 \/ i = 1)%nat as [->| ->] by lia; assert (j = 0 \/ j = 1)%nat as [->| ->] by lia;
      rewrite ?E1, ?E2, ?E3, ?E4; auto. }
  split.
  { split; [repeat split; reflexivity|]. intros i Hi. cbn in Hi. assert (i = 0 \/ i = 1)%nat as [->| ->] by lia.
    - split; [cbn; lia|]. split; [repeat constructor; cbn; tauto|]. cbn. intros k [<-|[]]. lia.
    - split; [cbn; lia|]. split; [repeat constructor; cbn; intuition lia|]. cbn. intros k [<-|[<-|[]]]; lia. }
  split; [apply E; [apply generic_format_0|apply single_38|apply single_m7]|].
  split; [apply E; [now left|apply normal_big; rewrite Rabs_pos_eq; lra|apply normal_big; rewrite Rabs_left; lra]|].
  split.
  { split; [repeat split; reflexivity|]. intros i Hi. cbn in Hi. assert (i = 0 \/ i = 1)%nat as [->| ->] by lia;
      (split; [cbn; lia|]; split; [constructor|intros k []]). }
  split; [reflexivity|]. split; [cbn; lia|]. split; [|exact E2].
  intros i Hi. cbn in Hi. assert (i = 0 \/ i = 1)%nat as [->| ->] by lia; reflexivity.
Qed.
