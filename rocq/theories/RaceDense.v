(** Dense loops, and the ellpack sum of squares, under all interleavings. *)
From Verif Require Import Base BaseFacts Spec SpecFacts EllpackModel EllpackSpec EllpackFacts
  EllpackMore DenseModel DenseSpec DenseFacts DenseOps ThreadModel ThreadFacts RaceModel RaceModel2
  RaceSpec RaceSim RaceLoops RacePar RaceEll RaceEll3 RaceX2.

Section DenseLoops.
  Context {F : scalar}.
  Local Notation mem := (mem loc (val F)).
  Local Notation pr := (prog loc (val F)).
  Local Notation mset := (mset loc_eq_dec).

  (** ** Loops without private state *)
  Lemma par_do_all {S} own (body : nat -> S -> res S) (pbody : nat -> nat -> pr unit) (J : mem -> S -> Prop)
        sched m s s' (Q : mem -> Prop) :
    (forall t i m s, In (t, i) sched -> J m s -> sim own t (pbody t i) m (body i s) (fun _ m' s' => J m' s')) ->
    par_do sched body s = Ok s' -> J m s ->
    (forall m1 m2, J m1 s' -> (forall l, m2 l = m1 l) -> Q m2) ->
    all_interleavings pbody sched m Q.
  Proof.
    intros Hb E HJ HQ. unfold par_do in E.
    match type of E with context [bind ?X _] => destruct X as [[s1 w1]| | |] eqn:Ep; try discriminate end.
    cbn [bind] in E. injection E as ->.
    destruct (par_atomic own (fun i '(s, w) => s <- body i s ;; Ok (s, w)) pbody
       (fun rest m s (_ : nat -> unit) => J m s /\ (forall x, In x rest -> In x sched)))
       with (sched := sched) (m := m) (s := s) (w := fun _ : nat => tt) (s' := s') (w' := w1)
      as (m' & Ha & HJ' & _); auto.
    - intros t i rest m1 s1 w s2 wt (G1 & G2) Eb.
      destruct (body i s1) as [s3| | |] eqn:E3; try discriminate. cbn [bind] in Eb. injection Eb as -> <-.
      destruct (Hb t i m1 s1 (G2 _ (or_introl eq_refl)) G1 _ E3) as ([] & m2 & Er & K).
      exists m2. split; [exact Er|]. split; [exact K|]. intros. apply G2. simpl; auto.
    - eapply interleave; [exact Ha|]. intros m1 Em. eapply HQ; eauto.
  Qed.

  (** A[i][j] of the dense object 0 *)
  Lemma sim_at {B C} own t o (A : dense F) i j m (f : F -> pr B) (g : F -> res C) Q :
    holdsK m (aDense o) (dmx A) -> can_read own t None (aDense o, ROWMAJOR i j (dN A) (dN A)) = true ->
    (forall x, sim own t (f x) m (g x) Q) ->
    sim own t (pbind (p_at o (dN A) i j) f) m (bind (d_at A i j) g) Q.
  Proof. intros Hh Hc H. unfold p_at, d_at. eapply sim_rdk; eauto. Qed.

  Lemma sim_put {B C} own t (A : dense F) i j v m (f : unit -> pr B) (g : dense F -> res C) Q :
    holdsK m (aDense 0) (dmx A) -> can_write own t None (aDense 0, ROWMAJOR i j (dN A) (dN A)) = true ->
    (forall A', dN A' = dN A ->
       holdsK (mset m (aDense 0, ROWMAJOR i j (dN A) (dN A)) (VK v)) (aDense 0) (dmx A') ->
       sim own t (f tt) (mset m (aDense 0, ROWMAJOR i j (dN A) (dN A)) (VK v)) (g A') Q) ->
    sim own t (pbind (p_put 0 (dN A) i j v) f) m (bind (d_put A i j v) g) Q.
  Proof.
    intros Hh Hc H b E. unfold d_put in E.
    assert (E2 : bind (wr (dmx A) (ROWMAJOR i j (dN A) (dN A)) v) (fun a => g (mkDense (dN A) a)) = Ok b)
      by (destruct (wr (dmx A) (ROWMAJOR i j (dN A) (dN A)) v); exact E).
    revert b E2 E. intros b E2 _. revert b E2. unfold p_put.
    apply sim_wrk; [exact Hh|exact Hc|]. intros L. apply H; [reflexivity|]. cbn [dmx]. now apply holdsK_set.
  Qed.

  Lemma sim_put_last own t (A : dense F) i j v m (Q : mem -> dense F -> Prop) :
    holdsK m (aDense 0) (dmx A) -> can_write own t None (aDense 0, ROWMAJOR i j (dN A) (dN A)) = true ->
    (forall A', dN A' = dN A -> holdsK (mset m (aDense 0, ROWMAJOR i j (dN A) (dN A)) (VK v)) (aDense 0) (dmx A') ->
       Q (mset m (aDense 0, ROWMAJOR i j (dN A) (dN A)) (VK v)) A') ->
    sim own t (p_put 0 (dN A) i j v) m (d_put A i j v) (fun _ => Q).
  Proof.
    intros Hh Hc H. apply sim_unit_r.
    match goal with |- sim _ _ _ _ ?r _ => rewrite <- (bind_ret_r r) end.
    apply sim_put; auto. intros A' E K. apply sim_ret. auto.
  Qed.

  (** the pair (i,j), (j,i) belongs to the row min(i,j) *)
  Definition pair_of (N k : nat) : nat := Nat.min (k / N) (k mod N).
  Lemma pair_of_up N i j : i < j -> j < N -> pair_of N (ROWMAJOR i j N N) = i.
  Proof.
    intros Hi Hj. unfold pair_of, ROWMAJOR. rewrite Nat.div_add_l by lia. rewrite Nat.div_small by lia.
    rewrite (Nat.add_comm (i * N) j), Nat.mod_add by lia. rewrite Nat.mod_small by lia. lia.
  Qed.
  Lemma pair_of_low N i j : i < j -> j < N -> pair_of N (ROWMAJOR j i N N) = i.
  Proof.
    intros Hi Hj. unfold pair_of, ROWMAJOR. rewrite Nat.div_add_l by lia. rewrite Nat.div_small by lia.
    rewrite (Nat.add_comm (j * N)), Nat.mod_add by lia. rewrite Nat.mod_small by lia. lia.
  Qed.

  Lemma cells_ok sched N n t i j : Permutation (map snd sched) (seq 0 n) -> In (t, i) sched -> i < j -> j < N ->
    can_write (own_of (thr_of sched) 1 (pair_of N)) t None (aDense 0, ROWMAJOR i j N N) = true /\
    can_write (own_of (thr_of sched) 1 (pair_of N)) t None (aDense 0, ROWMAJOR j i N N) = true.
  Proof.
    intros HP Hin Hi Hj. destruct (sched_facts _ _ HP) as [Hnd Hx]. destruct (Hx _ _ Hin) as (_ & Ht & _).
    split; apply cw_dense0; [rewrite pair_of_up by auto|rewrite pair_of_low by auto]; exact Ht.
  Qed.

  Definition dJ (N : nat) (m : mem) (A : dense F) : Prop := dN A = N /\ holdsK m (aDense 0) (dmx A).

  Lemma in_tail i j N : In j (seq (i + 1) (N - (i + 1))) -> i < j /\ j < N.
  Proof. rewrite in_seq. lia. Qed.

  Lemma dQ N (A' : dense F) : forall m1 m2 : mem, dJ N m1 A' -> (forall l, m2 l = m1 l) -> holdsK m2 (aDense 0) (dmx A').
  Proof. intros m1 m2 (_ & H) E. eapply holdsK_ext; eauto. Qed.

  Lemma interleaved_dense_transpose (A : dense F) sched (m : mem) :
    dwf A -> Permutation (map snd sched) (seq 0 (dN A - 1)) -> holdsK m (aDense 0) (dmx A) ->
    exists A', dwf A' /\ dN A' = dN A /\ meq (dN A) (denm A') (mtrans (denm A)) /\
      all_interleavings (p_dense_transpose_row (dN A)) sched m (fun m' => holdsK m' (aDense 0) (dmx A')).
  Proof.
    intros HA HP H0. destruct (dense_transpose_ok A sched HA HP) as (A' & E & W & N1 & Q).
    exists A'. split; [exact W|]. split; [exact N1|]. split; [exact Q|].
    eapply (par_do_all (own_of (thr_of sched) 1 (pair_of (dN A)))) with (J := dJ (dN A)); [|exact E|split; auto|apply dQ].
    intros t i m1 s Hin HJ. unfold p_dense_transpose_row.
    apply sim_forM with (I := fun (_ : unit) => dJ (dN A)); [|exact HJ].
    intros j [] m2 B Hj (K1 & K2). apply in_tail in Hj as [Hj1 Hj2].
    destruct (cells_ok sched (dN A) _ t i j HP Hin Hj1 Hj2) as [C1 C2].
    rewrite <- K1 in *.
    apply sim_at; [exact K2|now apply can_write_read|intros tmp].
    apply sim_at; [exact K2|now apply can_write_read|intros w].
    apply sim_put; [exact K2|exact C1|intros B1 E1 K3].
    rewrite <- E1 in *. apply sim_put_last; [exact K3|exact C2|]. intros B2 E2 K4. split; [congruence|exact K4].
  Qed.

  Lemma interleaved_dense_tri (conj : F -> F) (A : dense F) tri sched (m : mem) :
    dwf A -> Permutation (map snd sched) (seq 0 (dN A)) -> holdsK m (aDense 0) (dmx A) -> tri <> TriOther ->
    exists A', dwf A' /\ dN A' = dN A /\ meq (dN A) (denm A') (mirrored tri conj (denm A)) /\
      all_interleavings (fun t i => match tri with TriU => p_dense_tri_u_row conj (dN A) t i | _ => p_dense_tri_l_row conj (dN A) t i end)
        sched m (fun m' => holdsK m' (aDense 0) (dmx A')).
  Proof.
    intros HA HP H0 Ht. pose proof (dense_adjungate_triangle_ok conj A tri sched HA HP) as X.
    destruct tri; [| |contradiction]; destruct X as (A' & E & W & N1 & Q);
      (exists A'; split; [exact W|]; split; [exact N1|]; split; [exact Q|]);
      (eapply (par_do_all (own_of (thr_of sched) 1 (pair_of (dN A)))) with (J := dJ (dN A)); [|exact E|split; auto|apply dQ]);
      intros t i m1 s Hin HJ; cbv beta iota.
    - unfold p_dense_tri_u_row. apply sim_forM with (I := fun (_ : unit) => dJ (dN A)); [|exact HJ].
      intros j [] m2 B Hj (K1 & K2). apply in_tail in Hj as [Hj1 Hj2].
      destruct (cells_ok sched (dN A) _ t i j HP Hin Hj1 Hj2) as [C1 C2]. rewrite <- K1 in *.
      apply sim_at; [exact K2|now apply can_write_read|intros v].
      apply sim_put_last; [exact K2|exact C2|]. intros B2 E2 K4. split; [congruence|exact K4].
    - unfold p_dense_tri_l_row. apply sim_forM with (I := fun (_ : unit) => dJ (dN A)); [|exact HJ].
      intros j [] m2 B Hj (K1 & K2). apply in_tail in Hj as [Hj1 Hj2].
      destruct (cells_ok sched (dN A) _ t i j HP Hin Hj1 Hj2) as [C1 C2]. rewrite <- K1 in *.
      apply sim_at; [exact K2|now apply can_write_read|intros v].
      apply sim_put_last; [exact K2|exact C1|]. intros B2 E2 K4. split; [congruence|exact K4].
  Qed.

  Lemma interleaved_dense_transpose_new (A : dense F) gv sched (m : mem) :
    dwf A -> Permutation (map snd sched) (seq 0 (dN A)) ->
    holdsK m (aDense 0) (dmx (dense_noinit (dN A) gv)) -> holdsK m (aDense 1) (dmx A) ->
    exists B, dwf B /\ dN B = dN A /\ meq (dN A) (denm B) (mtrans (denm A)) /\
      all_interleavings (p_dense_transpose_new_row (dN A)) sched m
        (fun m' => holdsK m' (aDense 0) (dmx B) /\ holdsK m' (aDense 1) (dmx A)).
  Proof.
    intros HA HP H0 H1. destruct (dense_transpose_new_ok A gv sched HA HP) as (B & E & W & N1 & Q).
    exists B. split; [exact W|]. split; [exact N1|]. split; [exact Q|].
    destruct (sched_facts _ _ HP) as [Hnd Hx].
    eapply (par_do_all (own_of (thr_of sched) 1 (fun k => k / dN A)))
      with (J := fun m B => dJ (dN A) m B /\ holdsK m (aDense 1) (dmx A)); [|exact E|split; [split; auto|auto]|].
    - intros t i m1 s Hin HJ. destruct (Hx _ _ Hin) as (Hi & Ht & _). unfold p_dense_transpose_new_row.
      apply sim_for_n with (I := fun (_ : unit) m B => dJ (dN A) m B /\ holdsK m (aDense 1) (dmx A)); [|exact HJ].
      intros j [] m2 B2 Hj ((K1 & K2) & K3).
      apply sim_at; [exact K3|apply cr_shared; reflexivity|intros v]. rewrite <- K1 at 1.
      apply sim_put_last; [exact K2| |].
      + rewrite K1. apply cw_dense0. unfold ROWMAJOR. rewrite Nat.div_add_l by lia.
        rewrite Nat.div_small by lia. rewrite Nat.add_0_r. exact Ht.
      + intros B3 E3 K4. split; [split; [congruence|exact K4]|]. apply holdsK_other; [auto|discriminate].
    - intros m1 m2 ((_ & G1) & G2) Em. split; eapply holdsK_ext; eauto.
  Qed.

  (** ** One cell per iteration *)
  Lemma interleaved_dense_threshold (keep : F -> bool) (A : dense F) sched (m : mem) :
    dwf A -> Permutation (map snd sched) (seq 0 (dN A * dN A)) -> holdsK m (aDense 0) (dmx A) ->
    exists B, dwf B /\ dN B = dN A /\ meq (dN A) (denm B) (mcut keep (denm A)) /\
      all_interleavings (p_dense_threshold keep) sched m (fun m' => holdsK m' (aDense 0) (dmx B)).
  Proof.
    intros HA HP H0. destruct (dense_threshold_ok keep A sched HA HP) as (B & E & W & N1 & Q).
    exists B. split; [exact W|]. split; [exact N1|]. split; [exact Q|].
    destruct (sched_facts _ _ HP) as [Hnd Hx]. unfold dense_threshold in E.
    match type of E with context [bind ?X _] => destruct X as [b| | |] eqn:Ep; try discriminate end.
    cbn [bind] in E. injection E as <-. cbn [dmx].
    eapply (par_do_all (own_of (thr_of sched) 1 (fun k => k))) with (J := fun m a => holdsK m (aDense 0) a); [|exact Ep|auto|].
    - intros t i m1 a Hin HJ. destruct (Hx _ _ Hin) as (Hi & Ht & _). unfold p_dense_threshold.
      assert (Hc : can_write (own_of (thr_of sched) 1 (fun k => k)) t None (aDense 0, i) = true) by (apply cw_dense0; exact Ht).
      eapply sim_rdk; [exact HJ|now apply can_write_read|intros x Ex].
      destruct (keep x); [now apply sim_ret|]. apply sim_unit_r.
      match goal with |- sim _ _ _ _ ?r _ => rewrite <- (bind_ret_r r) end.
      eapply sim_wrk; [exact HJ|exact Hc|intros L]. apply sim_ret. now apply holdsK_set.
    - intros m1 m2 G Em. eapply holdsK_ext; eauto.
  Qed.

  Lemma interleaved_dense_threshold_new (keep : F -> bool) (A : dense F) sched (m : mem) :
    dwf A -> Permutation (map snd sched) (seq 0 (dN A * dN A)) ->
    holdsK m (aDense 0) (repeat k0 (dN A * dN A)) -> holdsK m (aDense 1) (dmx A) ->
    exists B, dwf B /\ dN B = dN A /\ meq (dN A) (denm B) (mcut keep (denm A)) /\
      all_interleavings (p_dense_threshold_new keep) sched m
        (fun m' => holdsK m' (aDense 0) (dmx B) /\ holdsK m' (aDense 1) (dmx A)).
  Proof.
    intros HA HP H0 H1. destruct (dense_threshold_new_ok keep A sched HA HP) as (B & E & W & N1 & Q).
    exists B. split; [exact W|]. split; [exact N1|]. split; [exact Q|].
    destruct (sched_facts _ _ HP) as [Hnd Hx]. unfold dense_threshold_new in E.
    match type of E with context [bind ?X _] => destruct X as [b| | |] eqn:Ep; try discriminate end.
    cbn [bind] in E. injection E as <-. cbn [dmx].
    eapply (par_do_all (own_of (thr_of sched) 1 (fun k => k)))
      with (J := fun m a => holdsK m (aDense 0) a /\ holdsK m (aDense 1) (dmx A)); [|exact Ep|auto|].
    - intros t i m1 a Hin (HJ & HJ1). destruct (Hx _ _ Hin) as (Hi & Ht & _). unfold p_dense_threshold_new.
      eapply sim_rdk; [exact HJ1|apply cr_shared; reflexivity|intros x Ex].
      destruct (keep x); [|now apply sim_ret].
      eapply sim_extra_k; [exact HJ1|apply cr_shared; reflexivity|exact Ex|]. apply sim_unit_r.
      match goal with |- sim _ _ _ _ ?r _ => rewrite <- (bind_ret_r r) end.
      eapply sim_wrk; [exact HJ|apply cw_dense0; exact Ht|intros L]. apply sim_ret.
      split; [now apply holdsK_set|apply holdsK_other; [auto|discriminate]].
    - intros m1 m2 (G1 & G2) Em. split; eapply holdsK_ext; eauto.
  Qed.

  Lemma interleaved_dense_element_multiply (A B C : dense F) sched (m : mem) :
    dwf A -> dwf B -> dwf C -> dN A = dN B -> dN A = dN C ->
    Permutation (map snd sched) (seq 0 (dN A * dN A)) ->
    holdsK m (aDense 0) (dmx C) -> holdsK m (aDense 1) (dmx A) -> holdsK m (aDense 2) (dmx B) ->
    exists C', dwf C' /\ dN C' = dN A /\ meq (dN A) (denm C') (mhad (denm A) (denm B)) /\
      all_interleavings p_dense_element_multiply sched m
        (fun m' => holdsK m' (aDense 0) (dmx C') /\ holdsK m' (aDense 1) (dmx A) /\ holdsK m' (aDense 2) (dmx B)).
  Proof.
    intros HA HB HC HN HN2 HP H0 H1 H2.
    destruct (dense_element_multiply_AB_ok A B C sched HA HB HC HN HN2 HP) as (C' & E & W & N1 & Q).
    exists C'. split; [exact W|]. split; [exact N1|]. split; [exact Q|].
    destruct (sched_facts _ _ HP) as [Hnd Hx]. unfold dense_element_multiply_AB in E.
    match type of E with context [bind ?X _] => destruct X as [b| | |] eqn:Ep; try discriminate end.
    cbn [bind] in E. injection E as <-. cbn [dmx].
    eapply (par_do_all (own_of (thr_of sched) 1 (fun k => k)))
      with (J := fun m c => holdsK m (aDense 0) c /\ holdsK m (aDense 1) (dmx A) /\ holdsK m (aDense 2) (dmx B));
      [|exact Ep|auto|].
    - intros t i m1 c Hin (G0 & G1 & G2). destruct (Hx _ _ Hin) as (Hi & Ht & _). unfold p_dense_element_multiply.
      eapply sim_rdk; [exact G1|apply cr_shared; reflexivity|intros a Ea].
      eapply sim_rdk; [exact G2|apply cr_shared; reflexivity|intros x Ex]. apply sim_unit_r.
      match goal with |- sim _ _ _ _ ?r _ => rewrite <- (bind_ret_r r) end.
      eapply sim_wrk; [exact G0|apply cw_dense0; exact Ht|intros L]. apply sim_ret.
      split; [now apply holdsK_set|]. split; (apply holdsK_other; [auto|discriminate]).
    - intros m1 m2 (G0 & G1 & G2) Em. repeat split; eapply holdsK_ext; eauto.
  Qed.

  (** ** Reductions *)
  Lemma par_sum_all (f : nat -> res F) (pf : nat -> pr F) (R : mem -> Prop) nth sched m x :
    (forall t i, In (t, i) sched -> t < nth) ->
    (forall m t v, R m -> R (mset m (aAcc t, 0) v)) ->
    (forall m m', R m -> (forall l, m' l = m l) -> R m') ->
    (forall t i m, R m -> sim (own_of (thr_of sched) 1 (fun k => k)) t (pf i) m (f i) (fun v m' v' => v = v' /\ m' = m)) ->
    par_sum nth sched f = Ok x -> R m -> (forall t, t < nth -> m (aAcc t, 0) = Some (VK k0)) ->
    all_interleavings (fun t i => pbind (pf i) (fun v => p_reduce t 0 v)) sched m (fun m' =>
      R m' /\ exists acc : nat -> F, (forall t, t < nth -> m' (aAcc t, 0) = Some (VK (acc t))) /\ bigsum nth acc = x).
  Proof.
    intros Hth HR He Hf E Hm Hac. unfold par_sum in E.
    match type of E with context [bind ?X _] => destruct X as [[D1 w1]| | |] eqn:Ep; try discriminate end.
    cbn [bind] in E. injection E as <-.
    destruct (par_atomic (F := F) (own_of (thr_of sched) 1 (fun k => k))
       (fun i '(s, sum) => v <- f i ;; Ok (s, kadd sum v)) (fun t i => pbind (pf i) (fun v => p_reduce t 0 v))
       (fun rest m (_ : unit) (w : nat -> F) => R m /\ (forall t, t < nth -> m (aAcc t, 0) = Some (VK (w t))) /\
          (forall t i, In (t, i) rest -> t < nth)))
       with (sched := sched) (m := m) (s := tt) (w := fun _ : nat => @k0 F) (s' := D1) (w' := w1)
      as (m' & Ha & Ha' & Hd' & _); auto.
    - intros t i rest m1 D w D2 wt (G1 & G2 & G3) Eb.
      destruct (f i) as [v| | |] eqn:Ef; try discriminate. cbn [bind] in Eb. injection Eb as <- <-.
      pose proof (G3 t i (or_introl eq_refl)) as Ht.
      destruct (Hf t i m1 G1 _ Ef) as (v' & m2 & Er & -> & ->).
      exists (mset m1 (aAcc t, 0) (VK (kadd (w t) v))). split; [|split; [auto|split]].
      + rewrite (run_bind loc_eq_dec _ _ _ _ _ _ _ _ Er). unfold p_reduce, rdk, wrk. cbn [pbind run].
        rewrite (can_write_read _ _ _ _ (cw_acc (thr_of sched) 1 (fun k => k) t 0)).
        rewrite (G2 t Ht). cbn [pbind run]. rewrite cw_acc, (G2 t Ht). reflexivity.
      + intros t' Ht'. destruct (Nat.eq_dec t' t) as [->|Hne]; [rewrite upd_fun_same; apply mset_same|].
        rewrite upd_fun_other by auto. rewrite mset_other by congruence. auto.
      + intros. eapply G3. simpl; eauto.
    - eapply interleave; [exact Ha|]. intros m2 Em. split; [eapply He; eauto|].
      exists w1. split; [|reflexivity]. intros t Ht. rewrite Em. auto.
  Qed.

  Lemma interleaved_dense_trace (A : dense F) nth sched (m : mem) :
    dwf A -> full_sched (dN A) nth sched -> holdsK m (aDense 1) (dmx A) ->
    (forall t, t < nth -> m (aAcc t, 0) = Some (VK k0)) ->
    all_interleavings (p_dense_trace (dN A)) sched m (fun m' => holdsK m' (aDense 1) (dmx A) /\
      exists acc : nat -> F, (forall t, t < nth -> m' (aAcc t, 0) = Some (VK (acc t))) /\
        bigsum nth acc = mtrace (dN A) (denm A)).
  Proof.
    intros HA HS H1 Hac. pose proof (dense_trace_ok A nth sched HA HS) as E.
    apply (par_sum_all (fun i => d_at A i i) (fun i => p_at 1 (dN A) i i));
      [apply HS| | | |exact E|auto|exact Hac].
    - intros. apply holdsK_other; [auto|discriminate].
    - intros. eapply holdsK_ext; eauto.
    - intros t i m1 G b Hb. unfold d_at, rd in Hb.
      destruct (nth_error (dmx A) (ROWMAJOR i i (dN A) (dN A))) as [y|] eqn:Ey; [|discriminate]. injection Hb as <-.
      exists y, m1. split; [|auto]. unfold p_at, rdk. cbn [run]. rewrite cr_shared by reflexivity. rewrite (G _), Ey. reflexivity.
  Qed.

  Lemma interleaved_dense_trace_mult (A B : dense F) nth sched (m : mem) :
    dwf A -> dwf B -> dN A = dN B -> full_sched (dN A * dN A) nth sched ->
    holdsK m (aDense 1) (dmx A) -> holdsK m (aDense 2) (dmx B) ->
    (forall t, t < nth -> m (aAcc t, 0) = Some (VK k0)) ->
    all_interleavings p_dense_trace_mult sched m (fun m' =>
      (holdsK m' (aDense 1) (dmx A) /\ holdsK m' (aDense 2) (dmx B)) /\
      exists acc : nat -> F, (forall t, t < nth -> m' (aAcc t, 0) = Some (VK (acc t))) /\
        bigsum nth acc = msum (dN A) (mhad (denm A) (denm B))).
  Proof.
    intros HA HB HN HS H1 H2 Hac. pose proof (dense_trace_mult_ok A B nth sched HA HB HN HS) as E.
    unfold dense_trace_mult in E. rewrite (proj2 (Nat.eqb_eq _ _) HN) in E. cbn [negb] in E.
    apply (par_sum_all (fun i => a <- rd (dmx A) i ;; b <- rd (dmx B) i ;; Ok (kmul a b))
             (fun i => pbind (rdk (aDense 1, i)) (fun a => pbind (rdk (aDense 2, i)) (fun b => Ret (kmul a b)))));
      [apply HS| | | |exact E|auto|exact Hac].
    - intros m1 t v (G1 & G2). split; (apply holdsK_other; [auto|discriminate]).
    - intros m1 m2 (G1 & G2) Em. split; eapply holdsK_ext; eauto.
    - intros t i m1 (G1 & G2).
      eapply sim_rdk; [exact G1|apply cr_shared; reflexivity|intros a Ea].
      eapply sim_rdk; [exact G2|apply cr_shared; reflexivity|intros b Eb]. apply sim_ret. auto.
  Qed.

  Lemma interleaved_dense_sum_squares (A : dense F) nth sched (m : mem) :
    dwf A -> full_sched (dN A * dN A) nth sched -> holdsK m (aDense 1) (dmx A) ->
    (forall t, t < nth -> m (aAcc t, 0) = Some (VK k0)) ->
    all_interleavings p_dense_sum_squares sched m (fun m' => holdsK m' (aDense 1) (dmx A) /\
      exists acc : nat -> F, (forall t, t < nth -> m' (aAcc t, 0) = Some (VK (acc t))) /\
        bigsum nth acc = msum (dN A) (mhad (denm A) (denm A))).
  Proof.
    intros HA HS H1 Hac. pose proof (dense_sum_squares_ok A nth sched HA HS) as E.
    apply (par_sum_all (fun i => a <- rd (dmx A) i ;; Ok (kmul a a))
             (fun i => pbind (rdk (aDense 1, i)) (fun a => pbind (rdk (aDense 1, i)) (fun b => Ret (kmul a b)))));
      [apply HS| | | |exact E|auto|exact Hac].
    - intros. apply holdsK_other; [auto|discriminate].
    - intros. eapply holdsK_ext; eauto.
    - intros t i m1 G1.
      eapply sim_rdk; [exact G1|apply cr_shared; reflexivity|intros a Ea].
      eapply sim_extra_k; [exact G1|apply cr_shared; reflexivity|exact Ea|]. apply sim_ret. auto.
  Qed.

  (** ** sum_squares of ellpack *)
  Lemma interleaved_sum_squares (A : ell F) nth sched (m : mem) :
    wf A -> full_sched (eN A) nth sched -> holds m 1 A ->
    (forall t, t < nth -> m (aAcc t, 0) = Some (VK k0)) ->
    all_interleavings (p_sum_squares_row (eN A) (eM A)) sched m (fun m' => holds m' 1 A /\
      exists acc : nat -> F, (forall t, t < nth -> m' (aAcc t, 0) = Some (VK (acc t))) /\
        bigsum nth acc = msum (eN A) (mhad (emat A) (emat A))).
  Proof.
    intros HA HS H1 Hac. pose proof (ell_sum_squares_ok A nth sched HA HS) as E.
    destruct HS as [HP Hth]. destruct (sched_facts _ _ HP) as [Hnd Hin].
    unfold ell_sum_squares in E.
    match type of E with context [bind ?X _] => destruct X as [[D1 w1]| | |] eqn:Ep; try discriminate end.
    cbn [bind] in E. injection E as <-.
    destruct (par_atomic (F := F) (own_of (thr_of sched) 1 (fun k => k))
       (fun i '(s, sum) => sum <- e_for_row A i (fun _ v sum => Ok (kadd sum (kmul v v))) sum ;; Ok (s, sum))
       (fun t i => p_sum_squares_row (eN A) (eM A) t i)
       (fun rest m (_ : unit) (w : nat -> F) => holds m 1 A /\ (forall t, t < nth -> m (aAcc t, 0) = Some (VK (w t))) /\
          (forall t i, In (t, i) rest -> t < nth)))
       with (sched := sched) (m := m) (s := tt) (w := fun _ : nat => @k0 F) (s' := D1) (w' := w1)
      as (m' & Ha & Ha' & Hd' & _); auto.
    - intros t i rest m1 D w D2 wt (G1 & G2 & G3) Eb.
      match type of Eb with context [bind ?X _] => destruct X as [sum2| | |] eqn:El; try discriminate end.
      cbn [bind] in Eb. injection Eb as <- <-. pose proof (G3 t i (or_introl eq_refl)) as Ht.
      edestruct (sim_for_row_cols (thr_of sched) 1 (fun k => k) t 1 A i
        (fun _ v (_ : unit) => p_reduce t 0 (kmul v v)) (fun _ v sum => Ok (kadd sum (kmul v v)))
        (fun _ m s => holds m 1 A /\ m (aAcc t, 0) = Some (VK s) /\
             (forall t', t' <> t -> m (aAcc t', 0) = m1 (aAcc t', 0))))
        as ([] & m2 & Er & K1 & K2 & K3); [..|exact El|].
      + intros a m2 s (Hx & _). exact Hx.
      + intros a. destruct (arr_eq_dec a (aNnz 1)) as [->|]; [left; reflexivity|].
        destruct (arr_eq_dec a (aVal 1)) as [->|]; [left; reflexivity|].
        destruct (arr_eq_dec a (aIdx 1)) as [->|]; [left; reflexivity|]. auto.
      + intros k v [] m2 s0 _ (Hx1 & Hx2 & Hx3).
        intros b Hb. injection Hb as <-. exists tt. eexists. split.
        * unfold p_reduce, rdk, wrk. cbn [pbind run]. rewrite (can_write_read _ _ _ _ (cw_acc (thr_of sched) 1 (fun k => k) t 0)).
          rewrite Hx2. cbn [pbind run]. rewrite cw_acc, Hx2. reflexivity.
        * split; [apply holds_other; auto; discriminate|].
          split; [apply mset_same|]. intros t' Hne. rewrite mset_other; [auto|]. congruence.
      + split; [exact G1|]. split; [now apply G2|reflexivity].
      + exists m2. split; [exact Er|split; [auto|split]].
        * intros t' Ht'. destruct (Nat.eq_dec t' t) as [->|Hne]; [rewrite upd_fun_same; exact K2|].
          rewrite upd_fun_other by auto. rewrite K3 by auto. auto.
        * intros. eapply G3. simpl; eauto.
    - eapply interleave; [exact Ha|]. intros m2 Em. split; [eapply holds_ext; eauto|].
      exists w1. split; [|reflexivity]. intros t Ht. rewrite Em. auto.
  Qed.

  (** ** fnorm2: temp is shared *)
  Lemma first_iteration (body : nat -> nat -> pr unit) sched t i : In (t, i) sched ->
    exists i' q, In (t, i') sched /\ thread_prog body sched t = pbind (body t i') q.
  Proof.
    induction sched as [|[t0 i0] rest IH]; intros H; [destruct H|]. cbn [thread_prog].
    destruct (Nat.eqb_spec t0 t) as [->|Hne].
    - exists i0. eexists. split; [now left|reflexivity].
    - destruct H as [H|H]; [injection H as -> ->; contradiction|].
      destruct (IH H) as (i' & q & K1 & K2). exists i', q. split; [now right|exact K2].
  Qed.
End DenseLoops.
