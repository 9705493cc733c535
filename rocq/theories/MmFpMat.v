(** Matrices of floats and doubles written to a file and read again. *)
From Coq Require Import Reals ZArith Lia Lra.
From Flocq Require Import Core.
From Verif Require Import Base BaseFacts Spec SpecFacts EllpackModel EllpackSpec EllpackFacts CsrModel CsrSpec DenseModel DenseSpec
  EllblockModel EllblockSpec MmModel MmSpec MmFacts RealSpec MmFpModel MmFpFacts.
Local Open Scope R_scope.

(** all elements in a set of numbers *)
Definition entries_in (P : R -> Prop) (N : nat) (X : mat Rscalar) : Prop :=
  forall i j, (i < N)%nat -> (j < N)%nat -> P (X i j).
Definition normal_or_0 (x : R) : Prop := x = 0 \/ bpow radix2 (-1021) <= Rabs x.

Lemma single_15_0 : file_single 15 0 = 0. Proof. apply single_exact; [lia|apply generic_format_0]. Qed.
Lemma single_16_0 : file_single 16 0 = 0. Proof. apply single_exact; [lia|apply generic_format_0]. Qed.
Lemma single_via_15_0 : file_single_via_double 15 0 = 0.
Proof. apply single_via_double_exact; [lia|apply generic_format_0]. Qed.
Lemma double_15_0 : file_double 15 0 = 0.
Proof. unfold file_double. rewrite print_0 by lia. apply to_double_0. Qed.

Lemma ell_single_file (A Z : ell Rscalar) :
  wf A -> entries_in is_single (eN A) (emat A) ->
  wf Z -> eN Z = eN A -> (eM A <= eM Z)%nat -> (forall i, (i < eN Z)%nat -> erow Z i = []) ->
  exists f C, ell_write (F:=Rscalar) (file_single 15) A = Ok f /\ ell_read Z f = Ok C /\ wf C /\ meq (eN A) (emat C) (emat A).
Proof.
  intros HA Hs HZ HN HM He.
  destruct (ell_write_ok (F:=Rscalar) (file_single 15) A HA single_15_0) as (f & Ef & Hf & Hc).
  rewrite <- HN in Hf.
  destruct (ell_read_written Z _ _ f HZ Hf He) as (C & EC & HC & Q).
  { intros i Hi. rewrite Hc by lia. rewrite HN in Hi. destruct HA as [HS HR]. pose proof (HR i Hi) as (K & _).
    lia. }
  exists f, C. split; [exact Ef|]. split; [exact EC|]. split; [exact HC|].
  intros i j Hi Hj. rewrite Q by lia. apply single_exact; [lia|]. apply Hs; auto.
Qed.

Lemma csr_single_file (A Z : csr Rscalar) :
  cwf A -> entries_in is_single (cN A) (cmat A) ->
  cwf Z -> cN Z = cN A -> (forall i, (i < cN Z)%nat -> crow Z i = []) ->
  exists f C, csr_write (F:=Rscalar) (file_single 15) A = Ok f /\ csr_read Z f = Ok C /\ cwf C /\ meq (cN A) (cmat C) (cmat A).
Proof.
  intros HA Hs HZ HN He.
  destruct (csr_write_ok (F:=Rscalar) (file_single 15) A HA single_15_0) as (f & Ef & Hf & Hc).
  rewrite <- HN in Hf. destruct (csr_read_written Z _ _ f HZ Hf He) as (C & EC & HC & Q).
  exists f, C. split; [exact Ef|]. split; [exact EC|]. split; [exact HC|].
  intros i j Hi Hj. rewrite Q by lia. apply single_exact; [lia|]. apply Hs; auto.
Qed.

Lemma dense_single_file (A Z : dense Rscalar) :
  dwf A -> entries_in is_single (dN A) (denm A) ->
  dwf Z -> dN Z = dN A -> meq (dN Z) (denm Z) mzero ->
  exists f C, dense_write (F:=Rscalar) (file_single_via_double 15) A = Ok f /\ dense_read Z f = Ok C /\ dwf C /\ meq (dN A) (denm C) (denm A).
Proof.
  intros HA Hs HZ HN He.
  destruct (dense_write_ok (F:=Rscalar) (file_single_via_double 15) A HA single_via_15_0) as (f & Ef & Hf & Hc).
  rewrite <- HN in Hf. destruct (dense_read_written Z _ _ f HZ Hf He) as (C & EC & HC & Q).
  exists f, C. split; [exact Ef|]. split; [exact EC|]. split; [exact HC|].
  intros i j Hi Hj. rewrite Q by lia. apply single_via_double_exact; [lia|]. apply Hs; auto.
Qed.

Lemma eb_single_file (A Z : eb Rscalar) g :
  ebwf A -> entries_in is_single (bN A) (ebmx A) ->
  ebwf Z -> bN Z = bN A -> meq (bN Z) (ebmx Z) mzero -> (bNB Z <= bMB Z)%nat ->
  exists f C, eb_write (F:=Rscalar) (file_single 16) A = Ok f /\ eb_read Z f g = Ok C /\ ebwf C /\ meq (bN A) (ebmx C) (ebmx A).
Proof.
  intros HA Hs HZ HN He HM.
  destruct (eb_write_ok (F:=Rscalar) (file_single 16) A HA single_16_0) as (f & Ef & Hf).
  rewrite <- HN in Hf. destruct (eb_read_written Z _ _ f g HZ Hf He HM) as (C & EC & HC & Q).
  exists f, C. split; [exact Ef|]. split; [exact EC|]. split; [exact HC|].
  intros i j Hi Hj. rewrite Q by lia. apply single_exact; [lia|]. apply Hs; auto.
Qed.

(** ellpack in double precision: close, and stable from then on *)
Lemma ell_double_file (A Z : ell Rscalar) :
  wf A -> entries_in normal_or_0 (eN A) (emat A) ->
  wf Z -> eN Z = eN A -> (eM A <= eM Z)%nat -> (forall i, (i < eN Z)%nat -> erow Z i = []) ->
  exists f C, ell_write (F:=Rscalar) (file_double 15) A = Ok f /\ ell_read Z f = Ok C /\ wf C /\
    (forall i j, (i < eN A)%nat -> (j < eN A)%nat -> Rabs (emat C i j - emat A i j) <= 6 / 1000000000000000 * Rabs (emat A i j)) /\
    (forall i j, (i < eN A)%nat -> (j < eN A)%nat -> print_digits 15 (emat C i j) = print_digits 15 (emat A i j)) /\
    exists f2, ell_write (F:=Rscalar) (file_double 15) C = Ok f2 /\ meq (eN A) (mm_mat f2) (mm_mat f).
Proof.
  intros HA Hs HZ HN HM He.
  destruct (ell_write_ok (F:=Rscalar) (file_double 15) A HA double_15_0) as (f & Ef & Hf & Hc).
  pose proof Hf as Hf0. rewrite <- HN in Hf.
  destruct (ell_read_written Z _ _ f HZ Hf He) as (C & EC & HC & Q).
  { intros i Hi. rewrite Hc by lia. rewrite HN in Hi. destruct HA as [HS HR]. pose proof (HR i Hi) as (K & _).
    lia. }
  exists f, C. split; [exact Ef|]. split; [exact EC|]. split; [exact HC|].
  assert (S : forall i j, (i < eN A)%nat -> (j < eN A)%nat -> print_digits 15 (emat C i j) = print_digits 15 (emat A i j)).
  { intros i j Hi Hj. rewrite Q by lia. apply double_stable. apply Hs; auto. }
  split; [|split; [exact S|]].
  - intros i j Hi Hj. rewrite Q by lia. apply double_file_error. apply Hs; auto.
  - destruct (ell_write_ok (F:=Rscalar) (file_double 15) C HC double_15_0) as (f2 & Ef2 & Hf2 & Hc2).
    exists f2. split; [exact Ef2|]. destruct Hf2 as (_ & _ & M2). destruct Hf0 as (_ & _ & M0).
    assert (NC : eN C = eN A).
    { destruct Hf as (_ & HG & _). destruct (ell_read_ok Z f) as (C' & E' & _ & N' & _); auto.
      - intros i j v H. destruct (cells_range _ _ _ _ _ HG H) as [Hi Hj]. unfold stored. rewrite He by auto. reflexivity.
      - intros i Hi. rewrite He by auto. cbn [length plus]. rewrite Hc by lia.
        rewrite HN in Hi. destruct HA as [HS HR]. pose proof (HR i Hi) as (K & _). lia.
      - rewrite EC in E'. injection E' as <-. lia. }
    intros i j Hi Hj. rewrite M2 by lia. rewrite M0 by lia. unfold file_double. rewrite S by auto. reflexivity.
Qed.

(** a double that does not survive *)
Definition epsE (x : R) : ell Rscalar := @mkEll Rscalar 1 1 [x] [0%nat] [1%nat].
Lemma ell_double_lost : exists (A Z C : ell Rscalar) f, wf A /\ entries_in is_double (eN A) (emat A) /\ wf Z /\
  ell_write (F:=Rscalar) (file_double 15) A = Ok f /\ ell_read Z f = Ok C /\ (forall i, (i < eN Z)%nat -> erow Z i = []) /\
  emat C 0%nat 0%nat = 1 /\ emat A 0%nat 0%nat = 1 + / 4503599627370496.
Proof.
  exists (epsE eps1), (@mkEll Rscalar 1 1 [0] [0%nat] [0%nat]), (epsE (file_double 15 eps1)),
    (mkMm (F:=Rscalar) false 1 1 [(1%nat, 1%nat, file_double 15 eps1)]).
  assert (W : forall x n, (n <= 1)%nat -> wf (@mkEll Rscalar 1 1 [x] [0%nat] [n])).
  { intros x n Hn. split; [repeat split; simpl; lia|]. intros i Hi. simpl in Hi. assert (i = 0%nat) by lia. subst i.
    destruct n as [|[|n]]; [| |lia]; (split; [simpl; lia|split; [repeat constructor; simpl; tauto|]]); simpl; intros; lia || tauto. }
  split; [apply W; lia|]. split.
  { intros i j Hi Hj. simpl in Hi, Hj. assert (i = 0%nat) by lia. assert (j = 0%nat) by lia. subst.
    replace (emat (epsE eps1) 0%nat 0%nat) with eps1; [apply eps1_double|]. cbn. ring. }
  split; [apply W; lia|]. split; [reflexivity|]. split; [reflexivity|]. split; [intros [|i] Hi; [reflexivity|simpl in Hi; lia]|].
  split.
  - transitivity (file_double 15 eps1); [cbn; ring|apply eps1_lost].
  - transitivity eps1; [cbn; ring|unfold eps1; lra].
Qed.
