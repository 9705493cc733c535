(** Matrix Market files: concrete files and matrices, refutations. *)
From Verif Require Import Base BaseFacts Spec SpecFacts EllpackModel EllpackSpec EllpackFacts EllpackCheck CsrModel CsrSpec CsrCheck
  DenseModel DenseSpec DenseCheck EllblockModel EllblockSpec EllblockCheck MmModel MmSpec MmFacts.

(** z >= 0 rounded to d decimal digits; for the integers used below the result
    is again a double, so this is what fprintf and fscanf do to the value *)
Fixpoint unit_of (fuel : nat) (d : nat) (p z : Z) : Z :=
  match fuel with O => p | S fuel => if (z <? p * 10 ^ Z.of_nat d)%Z then p else unit_of fuel d (p * 10)%Z z end.
Definition digits (d : nat) (z : Z) : Z := let p := unit_of 40 d 1%Z z in ((z + p / 2) / p * p)%Z.

Definition emptyE (N M : nat) : ell Zscalar := mkEll N M (repeat (k0 : Zscalar) (N * M)) (repeat 0 (N * M)) (repeat 0 N).
Definition zeroD (N : nat) : dense Zscalar := mkDense N (repeat (k0 : Zscalar) (N * N)).
Definition emptyC (N : nat) : csr Zscalar := @csr_of Zscalar N N 10 (repeat [] N).
Definition emptyB : eb Zscalar := Eval vm_compute in got (eb_zero (Some d222) 6 6).

(** values of 16 and 17 digits do not survive *)
Lemma digits_refuted :
  (exists (A B : ell Zscalar) f, wf A /\ ell_write (F:=Zscalar) (digits 15) A = Ok f /\ ell_read (emptyE 1 1) f = Ok B /\ emat A 0 0 <> emat B 0 0 /\ emat A 0 0 = 9007199254740991%Z) /\
  (exists (A B : csr Zscalar) f, cwf A /\ csr_write (F:=Zscalar) (digits 15) A = Ok f /\ csr_read (emptyC 1) f = Ok B /\ cmat A 0 0 <> cmat B 0 0 /\ cmat A 0 0 = 9007199254740991%Z) /\
  (exists (A B : dense Zscalar) f, dwf A /\ dense_write (F:=Zscalar) (digits 15) A = Ok f /\ dense_read (zeroD 1) f = Ok B /\ denm A 0 0 <> denm B 0 0 /\ denm A 0 0 = 9007199254740991%Z) /\
  (exists (A B : eb Zscalar) f, ebwf A /\ eb_write (F:=Zscalar) (digits 16) A = Ok f /\ eb_read emptyB f (fun _ => 0%Z) = Ok B /\ ebmx A 0 0 <> ebmx B 0 0 /\ ebmx A 0 0 = (2 ^ 54)%Z).
Proof.
  split; [|split; [|split]].
  - eexists (@mkEll Zscalar 1 1 [9007199254740991%Z] [0] [1]), _, _. split; [apply wfb_ok; reflexivity|]. split; [vm_compute; reflexivity|]. split; [vm_compute; reflexivity|]. split; [vm_compute; congruence|reflexivity].
  - eexists (@csr_of Zscalar 1 1 10 [[(0, 9007199254740991%Z)]]), _, _. split; [apply cwfb_ok; reflexivity|]. split; [vm_compute; reflexivity|]. split; [vm_compute; reflexivity|]. split; [vm_compute; congruence|reflexivity].
  - eexists (@mkDense Zscalar 1 [9007199254740991%Z]), _, _. split; [reflexivity|]. split; [vm_compute; reflexivity|]. split; [vm_compute; reflexivity|]. split; [vm_compute; congruence|reflexivity].
  - eexists (got (imported (Some d222) 6 6 (tab [(0, 0, (2 ^ 54)%Z)]))), _, _. split; [apply ebwfb_ok; vm_compute; reflexivity|]. split; [vm_compute; reflexivity|]. split; [vm_compute; reflexivity|]. split; [vm_compute; congruence|vm_compute; reflexivity].
Qed.

(** the symmetric matrix [ 1 5 ; 5 2 ] *)
Definition symf : mmfile Zscalar := @mkMm Zscalar true 2 3 [(1, 1, 1%Z); (2, 1, 5%Z); (2, 2, 2%Z)].
Lemma symf_good : mm_good 2 symf.
Proof.
  split; [reflexivity|]. split; [reflexivity|]. split.
  - intros r c v H. cbn in H. repeat (destruct H as [H|H]; [injection H as <- <- <-; lia|]). destruct H.
  - cbn. repeat constructor; cbn; intuition congruence.
Qed.
(** the dense reader does not look at the word "symmetric" *)
Lemma dense_symmetric_refuted : exists (A : dense Zscalar) f, mm_good 2 f /\ mm_sym f = true /\ dense_read (zeroD 2) f = Ok A /\ denm A 0 1 <> mm_mat f 0 1 /\ denm A 0 1 = 0%Z.
Proof. eexists _, symf. split; [apply symf_good|]. split; [reflexivity|]. split; [vm_compute; reflexivity|]. split; [vm_compute; congruence|reflexivity]. Qed.

(** 6x6 in 2x2 blocks, element (6,1) of a symmetric file *)
Definition symf6 : mmfile Zscalar := @mkMm Zscalar true 6 1 [(6, 1, 5%Z)].
(** the block of the mirrored element is not allocated *)
Lemma eb_symmetric_refuted : exists f, mm_good 6 f /\ mm_sym f = true /\ ebwf emptyB /\ meq 6 (ebmx emptyB) mzero /\ eb_read emptyB f (fun _ => 0%Z) = UB.
Proof.
  exists symf6. split.
  { split; [reflexivity|]. split; [reflexivity|]. split; [|cbn; repeat constructor; cbn; intuition congruence].
    intros r c v H. cbn in H. repeat (destruct H as [H|H]; [injection H as <- <- <-; lia|]). destruct H. }
  split; [reflexivity|]. split; [apply ebwfb_ok; reflexivity|]. split; [|vm_compute; reflexivity].
  intros i j Hi Hj. do 6 (destruct i as [|i]; [do 6 (destruct j as [|j]; [reflexivity|]); lia|]). lia.
Qed.
(** element (5,1) is at the same position in its block as (1,1): not mirrored at all *)
Definition symf5 : mmfile Zscalar := @mkMm Zscalar true 6 1 [(5, 1, 5%Z)].
Lemma eb_symmetric_lost_refuted : exists f A, mm_good 6 f /\ mm_sym f = true /\ eb_read emptyB f (fun _ => 0%Z) = Ok A /\ ebmx A 0 4 <> mm_mat f 0 4 /\ ebmx A 0 4 = 0%Z.
Proof.
  eexists symf5, _. split.
  { split; [reflexivity|]. split; [reflexivity|]. split; [|cbn; repeat constructor; cbn; intuition congruence].
    intros r c v H. cbn in H. repeat (destruct H as [H|H]; [injection H as <- <- <-; lia|]). destruct H. }
  split; [reflexivity|]. split; [vm_compute; reflexivity|]. split; [vm_compute; congruence|vm_compute; reflexivity].
Qed.

(** reading over stored elements: ellpack and csr keep the old value in front *)
Lemma read_over_refuted :
  (exists A A' : ell Zscalar, wf A /\ mm_good 2 symf /\ ell_read A symf = Ok A' /\ ~ wf A' /\ emat A' 0 0 <> mm_mat symf 0 0) /\
  (exists A A' : csr Zscalar, cwf A /\ csr_read A symf = Ok A' /\ ~ cwf A' /\ cmat A' 0 0 <> mm_mat symf 0 0).
Proof.
  split.
  - eexists (@mkEll Zscalar 2 4 [9; 0; 0; 0; 0; 0; 0; 0]%Z [0; 0; 0; 0; 0; 0; 0; 0] [1; 0]), _. split; [apply wfb_ok; reflexivity|]. split; [apply symf_good|].
    split; [vm_compute; reflexivity|]. split; [|vm_compute; congruence]. intros [_ H]. destruct (H 0) as [_ H']; [cbn; lia|]. destruct H' as [H' _]. cbn in H'. inversion H'. cbn in *. tauto.
  - eexists (@csr_of Zscalar 2 2 10 [[(0, 9%Z)]; []]), _. split; [apply cwfb_ok; reflexivity|].
    split; [vm_compute; reflexivity|]. split; [|vm_compute; congruence]. intros [_ H]. destruct (H 0) as [H' _]; [cbn; lia|]. cbn in H'. inversion H'. cbn in *. tauto.
Qed.

(** more entries in a row than fit: the write is outside the arrays *)
Lemma ell_read_overflow_refuted : exists (A : ell Zscalar) f, wf A /\ mm_good (eN A) f /\ (forall i, i < eN A -> erow A i = []) /\ ell_read A f = UB.
Proof.
  exists (emptyE 2 1), symf. split; [apply wfb_ok; reflexivity|]. split; [apply symf_good|]. split; [intros i Hi; cbn in Hi; do 2 (destruct i as [|i]; [reflexivity|]); lia|].
  vm_compute. reflexivity.
Qed.
