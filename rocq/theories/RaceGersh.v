(** The row loop of the csr Gershgorin bounds under all interleavings. *)
From Coq Require Import Reals.
From Verif Require Import Base BaseFacts Spec SpecFacts RealSpec EllpackModel EllpackSpec DenseModel CsrModel CsrSpec CsrFacts CsrGershModel CsrGersh
  ThreadModel ThreadFacts RaceModel RaceModel2 RaceModel3 RaceModel4 RaceSpec RaceSpec3 RaceSim RacePar RaceEll RaceDense RaceCsr.

Local Notation mem := (mem loc (val Rscalar)).
Local Notation mset := (mset loc_eq_dec).

Lemma sim_keep {A B} own t (p : prog loc (val Rscalar) A) m (r : res B) Q :
  sim own t p m r Q -> sim own t p m r (fun a m' b => Q a m' b /\ r = Ok b).
Proof. intros H b E. destruct (H b E) as (a & m' & Er & Hq). exists a, m'. auto. Qed.

Lemma par_do_cons sched (s : list nat) : exists s', par_do sched (fun i done => Ok (i :: done)) s = Ok s' /\
  forall i, In i (map snd sched) \/ In i s -> In i s'.
Proof.
  unfold par_do. generalize (fun _ : nat => tt). revert s. induction sched as [|[t i] sched IH]; intros s w.
  - exists s. split; [reflexivity|simpl; tauto].
  - destruct (IH (i :: s) (upd_fun w t (w t))) as (s' & E & H). exists s'. split; [exact E|]. intros j Hj. apply H. simpl in *. tauto.
Qed.

Lemma interleaved_csr_gersh (A : csr Rscalar) n sched (m : mem) :
  cwf A -> n <= cN A -> Permutation (map snd sched) (seq 0 n) -> holds_csr m 1 A ->
  (forall i, i < n -> m (aDense 0, i) <> None /\ m (aDense 4, i) <> None) ->
  all_interleavings p_csr_gersh_row sched m (fun m' => holds_csr m' 1 A /\
    forall i, i < n -> m' (aDense 0, i) = Some (VK (cmat A i i)) /\ m' (aDense 4, i) = Some (VK (radius (cN A) (cmat A) i : Rscalar))).
Proof.
  intros HA Hn HP H1 Hx. destruct (sched_facts _ _ HP) as [Hnd Hin].
  destruct (par_do_cons sched []) as (s' & E & Hs').
  apply (par_do_all (own_csr (thr_of sched) (fun k => k)) (fun i done => Ok (i :: done)) p_csr_gersh_row
    (fun m done => holds_csr m 1 A /\ (forall i, i < n -> m (aDense 0, i) <> None /\ m (aDense 4, i) <> None) /\
       forall i, In i done -> m (aDense 0, i) = Some (VK (cmat A i i)) /\ m (aDense 4, i) = Some (VK (radius (cN A) (cmat A) i : Rscalar)))
    sched m [] s'); [|exact E| |].
  - intros t i m1 done Hi (G1 & G2 & G3).
    assert (Li : i < n). { apply (in_map snd) in Hi. eapply Permutation_in in Hi; [|exact HP]. apply in_seq in Hi. simpl in Hi. lia. }
    pose proof (thr_of_in _ _ _ Hnd Hi) as Ht.
    pose proof (csr_gersh_row_ok A i HA ltac:(lia)) as Eg.
    replace (@Ok (list nat) (i :: done)) with (bind (csr_gersh_row A i) (fun _ => Ok (i :: done))) by (rewrite Eg; reflexivity).
    unfold p_csr_gersh_row. eapply sim_bind with (Q1 := fun x m2 b => (x = b /\ m2 = m1) /\ csr_gersh_row A i = Ok b).
    + apply sim_keep. unfold csr_gersh_row. apply sim_pure. intros r Er. unfold c_row, rd in Er.
      destruct (nth_error (cdata A) i) as [r1|] eqn:En; [|discriminate]. injection Er as ->.
      apply sim_r_for with (I := fun x m2 b => x = b /\ m2 = m1); [lia|..|auto].
      * intros x m2 b [_ ->]. now apply G1.
      * intros k v [d0 r0] m2 b _ [<- ->]. destruct (Nat.eqb i k); apply sim_ret; auto.
    + intros [d0 r0] m2 b ((<- & ->) & Eb). rewrite Eg in Eb. injection Eb as <- <-. cbn [fst snd].
      destruct (G2 i Li) as [X0 X4].
      assert (W : forall o, o = 0 \/ o = 4 -> can_write (own_csr (thr_of sched) (fun k => k)) t None (aDense o, i) = true).
      { intros o [->| ->]; unfold can_write, own_csr; cbn [fst snd]; now apply Nat.eqb_eq. }
      eapply sim_wr1k; [exact X0|apply W; auto|]. apply sim_unit_r.
      eapply sim_wr1k; [rewrite mset_other by congruence; exact X4|apply W; auto|]. apply sim_ret.
      split; [|split].
      * intros i' r' E'. destruct (G1 _ _ E') as [Y1 Y2]. split; [rewrite !mset_other by congruence; exact Y1|].
        apply cells_other; try discriminate. apply cells_other; auto; discriminate.
      * intros j Hj. destruct (G2 j Hj). destruct (Nat.eq_dec j i) as [->|].
        -- rewrite mset_same, mset_other by congruence. rewrite mset_same. split; discriminate.
        -- rewrite !mset_other by congruence. auto.
      * intros j Hj. destruct (Nat.eq_dec j i) as [->|].
        -- rewrite mset_same, mset_other by congruence. rewrite mset_same. auto.
        -- rewrite !mset_other by congruence. apply G3. destruct Hj; [congruence|auto].
  - split; [exact H1|]. split; [exact Hx|]. intros i [].
  - intros m1 m2 (G1 & _ & G3) Em. split; [eapply csr_ext; eauto|]. intros i Hi. rewrite !Em. apply G3, Hs'. left.
    eapply Permutation_in; [apply Permutation_sym; exact HP|]. apply in_seq. lia.
Qed.
