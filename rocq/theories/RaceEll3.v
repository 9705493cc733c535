(** Export and trace under all interleavings. *)
From Verif Require Import Base BaseFacts Spec SpecFacts EllpackModel EllpackSpec EllpackFacts
  EllpackArith EllpackMul EllpackMul2 EllpackMore EllpackOps ThreadModel ThreadFacts RaceModel RaceSpec RaceSim RaceLoops RacePar RaceEll.

Section EllLoops.
  Context {F : scalar}.
  Local Notation mem := (mem loc (val F)).
  Local Notation pr := (prog loc (val F)).
  Local Notation mset := (mset loc_eq_dec).

  (** as [sim_for_row], with the columns that occur in the row *)
  Lemma sim_for_row_cols {S T} thr M dr t o (A : ell F) i (pb : nat -> F -> S -> pr S) (b : nat -> F -> T -> res T)
        (I : S -> mem -> T -> Prop) :
    (forall a m s, I a m s -> holds m o A) ->
    (forall a, (forall k, own_of thr M dr (a, k) = Shared) \/ (a <> aNnz o /\ a <> aVal o /\ a <> aIdx o)) ->
    (forall k v a m s, In k (cols (erow A i)) -> I a m s -> sim (own_of thr M dr) t (pb k v a) m (b k v s) I) ->
    forall a m s, I a m s -> sim (own_of thr M dr) t (p_for_row o (eN A) (eM A) i pb a) m (e_for_row A i b s) I.
  Proof.
    intros HA Ho Hb a m s HI. unfold p_for_row, e_for_row, p_nnz, e_nnz.
    assert (Hc : forall a k, a = aNnz o \/ a = aVal o \/ a = aIdx o -> can_read (own_of thr M dr) t None (a, k) = true).
    { intros a0 k Hx. apply cr_shared. destruct (Ho a0) as [H|(? & ? & ?)]; [apply H|]. tauto. }
    eapply sim_rdn; [apply (HA _ _ _ HI)|apply Hc; auto|]. intros n En.
    assert (Hnn : n = nnz A i) by (symmetry; apply nth_error_nth; exact En).
    apply sim_for_n; [|exact HI]. intros jp a' m' s' Hjp HI'.
    eapply sim_extra_n; [apply (HA _ _ _ HI')|apply Hc; auto|exact En|].
    destruct (Nat.ltb_spec jp n); [|lia].
    unfold p_idx, p_val, e_idx, e_val.
    eapply sim_rdn; [apply (HA _ _ _ HI')|apply Hc; auto|]. intros k Ek.
    eapply sim_rdk; [apply (HA _ _ _ HI')|apply Hc; auto|]. intros v Ev.
    apply Hb; [|exact HI']. unfold erow, slots, cols. rewrite map_map. apply in_map_iff.
    exists jp. split; [|apply in_seq; lia]. simpl. apply nth_error_nth. exact Ek.
  Qed.

  Definition drow_of (o : dorder) (N k : nat) : nat := match o with row_major => k / N | col_major => k mod N end.

  Theorem export_all o (A : ell F) (D' : list F) sched m :
    wf A -> Permutation (map snd sched) (seq 0 (eN A)) ->
    ell_export o A sched = Ok D' ->
    holdsK m (aDense 0) (repeat k0 (eN A * eN A)) -> holds m 1 A ->
    all_interleavings (p_export_row o (eN A) (eM A)) sched m (fun m' => holdsK m' (aDense 0) D' /\ holds m' 1 A).
  Proof.
    intros HA HP E H0 H1. destruct (sched_facts _ _ HP) as [Hnd Hin].
    unfold ell_export in E.
    match type of E with context [bind ?X _] => destruct X as [[D1 w1]| | |] eqn:Ep; try discriminate end.
    cbn [bind] in E. injection E as ->.
    destruct (par_atomic (F := F) (own_of (thr_of sched) 1 (drow_of o (eN A)))
       (fun i '(D, w) =>
        D <- e_for_row A i (fun k v D =>
          wr D (match o with row_major => ROWMAJOR i k (eN A) (eN A)
                           | col_major => COLMAJOR i k (eN A) (eN A) end) v) D ;;
        Ok (D, w)) (fun t i => p_export_row o (eN A) (eM A) t i)
       (fun rest m D (_ : nat -> unit) => holdsK m (aDense 0) D /\ holds m 1 A /\
          (forall t i, In (t, i) rest -> i < eN A /\ thr_of sched i = t)))
       with (sched := sched) (m := m) (s := repeat (@k0 F) (eN A * eN A)) (w := fun _ : nat => tt) (s' := D') (w' := w1)
      as (m' & Ha & Hd' & Ha' & _); auto.
    - intros t i rest m1 D w D2 wt (G1 & G2 & G3) Eb.
      match type of Eb with context [bind ?X _] => destruct X as [D3| | |] eqn:El; try discriminate end.
      cbn [bind] in Eb. injection Eb as -> <-. destruct (G3 t i (or_introl eq_refl)) as [Hi Ht].
      edestruct (sim_for_row_cols (thr_of sched) 1 (drow_of o (eN A)) t 1 A i
        (fun k v (_ : unit) => wrk (aDense 0, match o with row_major => ROWMAJOR i k (eN A) (eN A) | col_major => COLMAJOR i k (eN A) (eN A) end) v)
        (fun k v D => wr D (match o with row_major => ROWMAJOR i k (eN A) (eN A) | col_major => COLMAJOR i k (eN A) (eN A) end) v)
        (fun _ m D => holdsK m (aDense 0) D /\ holds m 1 A)) as ([] & m2 & Er & K1 & K2); [..|exact El|].
      + intros a m2 s (_ & Hx). exact Hx.
      + intros a. destruct (arr_eq_dec a (aNnz 1)) as [->|]; [left; reflexivity|].
        destruct (arr_eq_dec a (aVal 1)) as [->|]; [left; reflexivity|].
        destruct (arr_eq_dec a (aIdx 1)) as [->|]; [left; reflexivity|]. auto.
      + intros k v [] m2 s Hk (Hx1 & Hx2).
        assert (HkN : k < eN A) by (apply HA in Hi as (_ & _ & Hc); auto).
        apply sim_unit_r. match goal with |- sim _ _ _ _ ?r _ => rewrite <- (bind_ret_r r) end. eapply sim_wrk; [exact Hx1| |].
        * apply cw_dense0. unfold drow_of. destruct o; unfold ROWMAJOR, COLMAJOR.
          -- rewrite Nat.div_add_l by lia. rewrite Nat.div_small by lia. rewrite Nat.add_0_r. exact Ht.
          -- rewrite Nat.mod_add by lia. rewrite Nat.mod_small by lia. exact Ht.
        * intros Hlen. apply sim_ret. split; [now apply holdsK_set|]. apply holds_other; auto; discriminate.
      + split; [exact G1|exact G2].
      + exists m2. split; [exact Er|]. split; [auto|]. split; [auto|]. intros. apply G3. simpl; auto.
    - split; [auto|]. split; [auto|]. intros t i Hx. destruct (Hin t i Hx) as (? & ? & _). auto.
    - eapply interleave; [exact Ha|]. intros m2 Em. split; [eapply holdsK_ext|eapply holds_ext]; eauto.
  Qed.

  (** ** trace *)
  Theorem trace_all (A : ell F) nth sched m tr :
    full_sched (eN A) nth sched ->
    ell_trace A nth sched = Ok tr ->
    holds m 1 A -> (forall t, t < nth -> m (aAcc t, 0) = Some (VK k0)) ->
    all_interleavings (p_trace_row (eN A) (eM A)) sched m (fun m' =>
      holds m' 1 A /\
      exists acc : nat -> F, (forall t, t < nth -> m' (aAcc t, 0) = Some (VK (acc t))) /\ bigsum nth acc = tr).
  Proof.
    intros [HP Hth] E H1 Hac. destruct (sched_facts _ _ HP) as [Hnd Hin].
    unfold ell_trace in E.
    match type of E with context [bind ?X _] => destruct X as [[D1 w1]| | |] eqn:Ep; try discriminate end.
    cbn [bind] in E. injection E as <-.
    destruct (par_atomic (F := F) (own_of (thr_of sched) 1 (fun k => k))
       (fun i '(s, tr) =>
        '(tr, _) <- e_for_row A i (fun k v '(tr, stop) =>
           if (stop : bool) then Ok (tr, stop)
           else if i =? k then Ok (kadd tr v, true) else Ok (tr, false)) (tr, false) ;;
        Ok (s, tr)) (fun t i => p_trace_row (eN A) (eM A) t i)
       (fun rest m (_ : unit) (w : nat -> F) => holds m 1 A /\ (forall t, t < nth -> m (aAcc t, 0) = Some (VK (w t))) /\
          (forall t i, In (t, i) rest -> t < nth)))
       with (sched := sched) (m := m) (s := tt) (w := fun _ : nat => @k0 F) (s' := D1) (w' := w1)
      as (m' & Ha & Ha' & Hd' & _); auto.
    - intros t i rest m1 D w D2 wt (G1 & G2 & G3) Eb.
      match type of Eb with context [bind ?X _] => destruct X as [[tr2 stop2]| | |] eqn:El; try discriminate end.
      cbn [bind] in Eb. injection Eb as <- <-. pose proof (G3 t i (or_introl eq_refl)) as Ht.
      edestruct (sim_for_row_cols (thr_of sched) 1 (fun k => k) t 1 A i
        (fun k v (stop : bool) => if stop then Ret stop
           else if i =? k then pbind (rdk (aAcc t, 0)) (fun tr => pbind (wrk (aAcc t, 0) (kadd tr v)) (fun _ => Ret true))
           else Ret false)
        (fun k v '(tr, stop) => if (stop : bool) then Ok (tr, stop) else if i =? k then Ok (kadd tr v, true) else Ok (tr, false))
        (fun stop m s => stop = snd s /\ holds m 1 A /\ m (aAcc t, 0) = Some (VK (fst s)) /\
             (forall t', t' <> t -> m (aAcc t', 0) = m1 (aAcc t', 0))))
        as (stop' & m2 & Er & K0 & K1 & K2 & K3); [..|exact El|].
      + intros a m2 s (_ & Hx & _). exact Hx.
      + intros a. destruct (arr_eq_dec a (aNnz 1)) as [->|]; [left; reflexivity|].
        destruct (arr_eq_dec a (aVal 1)) as [->|]; [left; reflexivity|].
        destruct (arr_eq_dec a (aIdx 1)) as [->|]; [left; reflexivity|]. auto.
      + intros k v stop m2 [tr0 stop0] _ (E0 & Hx1 & Hx2 & Hx3). cbn [fst snd] in *. subst stop0.
        destruct stop; [apply sim_ret; auto|]. destruct (i =? k); [|apply sim_ret; auto].
        intros b Hb. injection Hb as <-. eexists. eexists. split.
        * unfold rdk, wrk. cbn [pbind run]. rewrite (can_write_read _ _ _ _ (cw_acc (thr_of sched) 1 (fun k => k) t 0)).
          rewrite Hx2. cbn [pbind run]. rewrite cw_acc, Hx2. reflexivity.
        * cbn [fst snd]. split; [reflexivity|]. split; [apply holds_other; auto; discriminate|].
          split; [apply mset_same|]. intros t' Hne. rewrite mset_other; [auto|]. congruence.
      + simpl. split; [reflexivity|]. split; [exact G1|]. split; [now apply G2|reflexivity].
      + exists m2. split; [|split; [auto|split]].
        * unfold p_trace_row. rewrite (run_bind loc_eq_dec _ _ _ _ _ _ _ _ Er). reflexivity.
        * intros t' Ht'. destruct (Nat.eq_dec t' t) as [->|Hne]; [rewrite upd_fun_same; exact K2|].
          rewrite upd_fun_other by auto. rewrite K3 by auto. auto.
        * intros. eapply G3. simpl; eauto.
    - eapply interleave; [exact Ha|]. intros m2 Em. split; [eapply holds_ext; eauto|].
      exists w1. split; [|reflexivity]. intros t Ht. rewrite Em. auto.
  Qed.
End EllLoops.
