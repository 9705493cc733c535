(** Boolean check of the structural invariant and concrete matrices used as
    instances of the theorems' hypotheses. *)
From Verif Require Import Base BaseFacts Spec SpecFacts EllpackModel EllpackSpec EllpackFacts.

Fixpoint nodupb (l : list nat) : bool :=
  match l with [] => true | x :: l' => negb (existsb (Nat.eqb x) l') && nodupb l' end.

Lemma nodupb_ok l : nodupb l = true -> NoDup l.
Proof.
  induction l as [|x l IH]; simpl; intros H; [constructor|].
  apply andb_prop in H as [H1 H2]. apply negb_true_iff in H1. apply existsb_eqb_false in H1.
  constructor; auto.
Qed.

Definition row_okb {F : scalar} (N M : nat) (E : list (nat * F)) : bool :=
  (length E <=? M) && nodupb (cols E) && forallb (fun k => k <? N) (cols E).

Definition wfb {F : scalar} (A : ell F) : bool :=
  (length (eval A) =? eN A * eM A) && (length (eidx A) =? eN A * eM A) && (length (ennz A) =? eN A) &&
  forallb (fun i => row_okb (eN A) (eM A) (erow A i)) (seq 0 (eN A)).

Lemma wfb_ok {F : scalar} (A : ell F) : wfb A = true -> wf A.
Proof.
  unfold wfb. intros H. repeat (apply andb_prop in H as [H ?]).
  apply Nat.eqb_eq in H, H1, H2. split; [repeat split; auto|].
  intros i Hi. rewrite forallb_forall in H0. specialize (H0 i ltac:(apply in_seq; lia)).
  unfold row_okb in H0. repeat (apply andb_prop in H0 as [H0 ?]).
  apply Nat.leb_le in H0. repeat split; auto.
  - apply nodupb_ok; auto.
  - rewrite forallb_forall in H3. intros k Hk. apply Nat.ltb_lt. auto.
Qed.

Definition permb (l : list nat) (N : nat) : bool :=
  nodupb l && (length l =? N) && forallb (fun k => k <? N) l.

Lemma permb_ok l N : permb l N = true -> Permutation l (seq 0 N).
Proof.
  unfold permb. intros H. repeat (apply andb_prop in H as [H ?]). apply nodupb_ok in H.
  apply Nat.eqb_eq in H1. rewrite forallb_forall in H0.
  apply NoDup_Permutation_bis; auto.
  - rewrite seq_length; lia.
  - intros k Hk. apply in_seq. specialize (H0 k Hk). apply Nat.ltb_lt in H0. lia.
Qed.

Lemma full_schedb N nth sched : permb (map snd sched) N = true -> forallb (fun ti => fst ti <? nth) sched = true ->
  full_sched N nth sched.
Proof.
  intros H1 H2. split; [apply permb_ok; auto|]. rewrite forallb_forall in H2.
  intros t i Hi. apply Nat.ltb_lt. apply (H2 (t, i) Hi).
Qed.

(** |x| > t over the integers *)
Definition gtZ (t : Z) : Zscalar -> bool := fun x => Z.ltb t (Z.abs x).

(** 3x3, at most 2 entries per row (third slot of each row is unused):
    [ 4 1 0 ; 0 2 5 ; 7 0 0 ], entries stored out of order in row 1. *)
Definition exA : ell Zscalar :=
  @mkEll Zscalar 3 3 [4; 1; 0; 5; 2; 0; 7; 0; 0]%Z [0; 1; 0; 2; 1; 0; 0; 0; 0] [2; 2; 1].
(** [ 1 0 0 ; 3 0 2 ; 0 6 0 ] *)
Definition exB : ell Zscalar :=
  @mkEll Zscalar 3 3 [1; 0; 0; 3; 2; 0; 6; 0; 0]%Z [0; 0; 0; 0; 2; 0; 1; 0; 0] [1; 2; 1].
(** rows 2, 0, 1 executed by threads 0, 1, 0 *)
Definition exS : list (nat * nat) := [(0, 2); (1, 0); (0, 1)].

Lemma exA_wf : wf exA. Proof. apply wfb_ok. reflexivity. Qed.
Lemma exB_wf : wf exB. Proof. apply wfb_ok. reflexivity. Qed.
Lemma exS_full : full_sched 3 2 exS. Proof. apply full_schedb; reflexivity. Qed.
Lemma exS_perm : Permutation (map snd exS) (seq 0 3). Proof. apply permb_ok. reflexivity. Qed.

Definition fitsb {F : scalar} (N M : nat) (keep : F -> bool) (X : mat F) : bool :=
  forallb (fun i => count N (fun j => keep (X i j)) <=? M) (seq 0 N).

Lemma fitsb_ok {F : scalar} N M (keep : F -> bool) X : fitsb N M keep X = true -> fits N M keep X.
Proof.
  unfold fitsb. rewrite forallb_forall. intros H i Hi. apply Nat.leb_le. apply H. apply in_seq. lia.
Qed.

(** checking a property of all numbers below N *)
Lemma below_ok N (p : nat -> bool) (P : nat -> Prop) :
  (forall i, p i = true -> P i) -> forallb p (seq 0 N) = true -> forall i, i < N -> P i.
Proof. intros Hp H i Hi. rewrite forallb_forall in H. apply Hp, H. apply in_seq. lia. Qed.

Definition memb (k : nat) (l : list nat) : bool := existsb (Nat.eqb k) l.
Lemma memb_ok k l : memb k l = true -> In k l.
Proof. apply existsb_eqb. Qed.

(** ** witnesses *)
Lemma set_element_refuted : exists (A A' : ell Zscalar) i j (v : Zscalar),
  wf A /\ (i < eN A)%nat /\ (j < eN A)%nat /\ (nnz A i < eM A)%nat /\
  ell_set_element A i j v = Ok A' /\ ell_get_element A' i j <> Ok v /\ ~ wf A'.
Proof.
  eexists exA, _, 0, 0, 9%Z. split; [apply exA_wf|]. do 3 (split; [vm_compute; lia|]).
  split; [reflexivity|]. split; [discriminate|].
  intros [_ H]. specialize (H 0 ltac:(simpl; lia)) as (_ & H & _). vm_compute in H.
  inversion H; subst. apply H2. simpl. auto.
Qed.

Lemma multiply_all_same_refuted : exists (A A' : ell Zscalar) sched i j,
  wf A /\ full_sched (eN A) 1 sched /\ (i < eN A)%nat /\ (j < eN A)%nat /\
  ell_multiply_sq_inplace (gtZ 0) k1 k0 A 1 sched sched (fun _ => k0) (fun _ => 0%nat) = Ok A' /\
  emat A' i j <> mmul (eN A) (emat A) (emat A) i j.
Proof.
  eexists exA, _, [(0, 0); (0, 1); (0, 2)], 2, 2. split; [apply exA_wf|].
  split; [apply full_schedb; reflexivity|]. do 2 (split; [simpl; lia|]). split; [vm_compute; reflexivity|].
  vm_compute. discriminate.
Qed.

Lemma add_identity_refuted : exists (A : ell Zscalar) sched,
  wf A /\ Permutation (map snd sched) (seq 0 (eN A)) /\
  ell_add_identity (gtZ 0) (1%Z : Zscalar) A sched = UB.
Proof.
  exists (@mkEll Zscalar 2 1 [5; 7]%Z [1; 1] [1; 1]), [(0, 0); (0, 1)].
  split; [apply wfb_ok; reflexivity|]. split; [apply permb_ok; reflexivity|]. reflexivity.
Qed.
