(** More loops of the csr format under all interleavings. *)
From Verif Require Import Base BaseFacts Spec SpecFacts EllpackModel EllpackSpec EllpackFacts CsrModel CsrSpec CsrFacts CsrOps CsrMore
  ThreadModel ThreadFacts RaceModel RaceModel2 RaceModel3 RaceSpec RaceSpec3 RaceSim RacePar RaceEll RaceEll3 RaceDense RaceCsr.

Section CsrLoops2.
  Context {F : scalar}.
  Local Notation mem := (mem loc (val F)).
  Local Notation pr := (prog loc (val F)).
  Local Notation mset := (mset loc_eq_dec).

  Lemma col_bound (A : csr F) i r pos k v : cwf A -> nth_error (cdata A) i = Some r -> pos < rnnz r -> r_get r pos = Ok (k, v) ->
    i < cN A /\ k < cN A.
  Proof.
    intros HA En Hp Eg. assert (Hi : i < cN A).
    { rewrite <- (proj1 (proj1 HA)). apply nth_error_Some. congruence. }
    split; [exact Hi|]. pose proof (cwf_is A i HA Hi) as Hr. rewrite (nth_error_nth _ _ _ En) in Hr.
    rewrite (row_is_nnz _ _ Hr) in Hp. rewrite (r_get_ok _ _ _ Hr Hp) in Eg. injection Eg as Eg.
    apply (proj2 HA i Hi). unfold cols. change k with (fst (k, v)). apply in_map. rewrite <- Eg. now apply nth_In.
  Qed.

  Lemma interleaved_csr_sum_squares_sub (A : csr F) core nth sched (m : mem) :
    cwf A -> core <= cN A -> full_sched core nth sched -> holds_csr m 1 A ->
    (forall t, t < nth -> m (aAcc t, 0) = Some (VK k0)) ->
    all_interleavings (p_csr_sum_squares_sub_row core) sched m (fun m' => holds_csr m' 1 A /\
      exists acc : nat -> F, (forall t, t < nth -> m' (aAcc t, 0) = Some (VK (acc t))) /\
        bigsum nth acc = msum core (mhad (cmat A) (cmat A))).
  Proof.
    intros HA Hcore HS H1 Hac. pose proof (csr_sum_squares_submatrix_ok A core nth sched HA Hcore HS) as E.
    unfold csr_sum_squares_submatrix in E.
    match type of E with context [bind ?X _] => destruct X as [[[] w1]| | |] eqn:Ep; try discriminate end.
    cbn [bind] in E. injection E as <-.
    eapply (csr_sum_all (fun i sum => r <- c_row A i ;; r_for r (fun k v sum => Ok (if (k <? core) then kadd sum (kmul v v) else sum)) sum)); auto.
    - intros t i Hi. eapply (proj2 HS); eauto.
    - intros m1 m2 Hx Em. eapply csr_ext; eauto.
    - intros t i m0 m1 s Hi. apply sim_pure. intros r Er. unfold c_row, rd in Er.
      destruct (nth_error (cdata A) i) as [r1|] eqn:En; [|discriminate]. injection Er as ->.
      apply sim_r_for with (I := fun _ m2 s2 => acc_inv (fun m => holds_csr m 1 A) m0 t m2 s2); [lia|..|exact Hi].
      + intros [] m2 s2 (Hh & _). now apply Hh.
      + intros k v [] m2 s2 _ Hk. destruct (k <? core); [|apply sim_ret; exact Hk].
        apply (sim_acc _ _ (fun m => holds_csr m 1 A)); [|exact Hk]. intros. now apply csr_acc_free.
    - rewrite <- Ep. apply par_for_ext. intros i [[] w]. destruct (c_row A i); reflexivity.
  Qed.

  Lemma sim_r_elem thr dr t o i j (r : row F) m : 0 < o < 3 -> holds_row m (ro o i) r ->
    sim (own_csr thr dr) t (p_r_elem (ro o i) j) m (r_elem r j) (fun v m' v' => v = v' /\ m' = m).
  Proof.
    intros Ho [H1 H2]. unfold p_r_elem, r_elem.
    eapply sim_rd1n; [exact H1|eapply cr_obj; eauto|].
    eapply sim_bind with (Q1 := fun f m' f' => f = f' /\ m' = m).
    - apply sim_for_n with (I := fun f m' f' => f = f' /\ m' = m); [|auto].
      intros pos f m' f' _ [-> ->]. destruct f' as [v|]; [apply sim_ret; auto|].
      apply sim_pure. intros [k v] Eg. destruct (cells_get _ _ _ _ _ _ H2 (get_cell _ _ _ _ Eg)) as [C1 C2].
      eapply sim_rd1n; [exact C1|eapply cr_obj; eauto|]. destruct (k =? j); [|apply sim_ret; auto].
      eapply sim_rd1k; [exact C2|eapply cr_obj; eauto|]. apply sim_ret; auto.
    - intros f m' f' [-> ->]. apply sim_ret. auto.
  Qed.

  Lemma interleaved_csr_trace (A : csr F) nth sched (m : mem) :
    cwf A -> full_sched (cN A) nth sched -> holds_csr m 1 A ->
    (forall t, t < nth -> m (aAcc t, 0) = Some (VK k0)) ->
    all_interleavings p_csr_trace_row sched m (fun m' => holds_csr m' 1 A /\
      exists acc : nat -> F, (forall t, t < nth -> m' (aAcc t, 0) = Some (VK (acc t))) /\
        bigsum nth acc = mtrace (cN A) (cmat A)).
  Proof.
    intros HA HS H1 Hac. pose proof (csr_trace_ok A nth sched HA HS) as E.
    unfold csr_trace in E.
    match type of E with context [bind ?X _] => destruct X as [[[] w1]| | |] eqn:Ep; try discriminate end.
    cbn [bind] in E. injection E as <-.
    eapply (csr_sum_all (fun i tr => r <- c_row A i ;; v <- r_elem r i ;; Ok (kadd tr v))); auto.
    - intros t i Hi. eapply (proj2 HS); eauto.
    - intros m1 m2 Hx Em. eapply csr_ext; eauto.
    - intros t i m0 m1 s Hi. apply sim_pure. intros r Er. unfold c_row, rd in Er.
      destruct (nth_error (cdata A) i) as [r1|] eqn:En; [|discriminate]. injection Er as ->.
      unfold p_csr_trace_row. eapply sim_bind; [apply sim_r_elem; [lia|apply (proj1 Hi); exact En]|].
      intros v m2 v' [-> ->]. apply (sim_acc _ _ (fun m => holds_csr m 1 A)); [|exact Hi]. intros. now apply csr_acc_free.
    - rewrite <- Ep. apply par_for_ext. intros i [[] w]. destruct (c_row A i); cbn [bind]; try reflexivity.
      destruct (r_elem _ i); reflexivity.
  Qed.

  Lemma interleaved_csr_export o (A : csr F) sched (m : mem) :
    cwf A -> Permutation (map snd sched) (seq 0 (cN A)) ->
    holdsK m (aDense 0) (repeat k0 (cN A * cN A)) -> holds_csr m 1 A ->
    exists D, length D = cN A * cN A /\ meq (cN A) (dmat o (cN A) D) (cmat A) /\
      all_interleavings (p_csr_export_row o (cN A)) sched m (fun m' => holdsK m' (aDense 0) D /\ holds_csr m' 1 A).
  Proof.
    intros HA HP H0 H1. destruct (csr_export_ok o A sched HA HP) as (D' & E & L & Q).
    exists D'. split; [exact L|split; [exact Q|]]. destruct (sched_facts _ _ HP) as [Hnd Hin].
    unfold csr_export in E.
    match type of E with context [bind ?X _] => destruct X as [[D1 w1]| | |] eqn:Ep; try discriminate end.
    cbn [bind] in E. injection E as ->.
    destruct (par_atomic (F := F) (own_csr (thr_of sched) (drow_of o (cN A)))
       (fun i '(D, w) =>
        r <- c_row A i ;;
        D <- r_for r (fun j v D =>
          wr D (match o with row_major => ROWMAJOR i j (cN A) (cN A)
                           | col_major => COLMAJOR i j (cN A) (cN A) end) v) D ;;
        Ok (D, w)) (p_csr_export_row o (cN A))
       (fun rest m D (_ : nat -> unit) => holdsK m (aDense 0) D /\ holds_csr m 1 A /\ (forall x, In x rest -> In x sched)))
       with (sched := sched) (m := m) (s := repeat (@k0 F) (cN A * cN A)) (w := fun _ : nat => tt) (s' := D') (w' := w1)
      as (m' & Ha & Hd' & Ha' & _); auto.
    - intros t i rest m1 D w D2 wt (G1 & G2 & G3) Eb.
      unfold c_row, rd in Eb. destruct (nth_error (cdata A) i) as [r|] eqn:En; [|discriminate]. cbn [bind] in Eb.
      match type of Eb with context [bind ?X _] => destruct X as [D3| | |] eqn:El; try discriminate end.
      cbn [bind] in Eb. injection Eb as -> <-.
      pose proof (thr_of_in _ _ _ Hnd (G3 _ (or_introl eq_refl))) as Ht.
      edestruct (sim_r_for (thr_of sched) (drow_of o (cN A)) t 1 i r
        (fun k v (_ : unit) => wrk (aDense 0, match o with row_major => ROWMAJOR i k (cN A) (cN A) | col_major => COLMAJOR i k (cN A) (cN A) end) v)
        (fun k v D => wr D (match o with row_major => ROWMAJOR i k (cN A) (cN A) | col_major => COLMAJOR i k (cN A) (cN A) end) v)
        (fun _ m D => holdsK m (aDense 0) D /\ holds_csr m 1 A)) as ([] & m2 & Er & K1 & K2); [..|exact El|].
      + lia.
      + intros a m2 s (_ & Hx). now apply Hx.
      + intros k v [] m2 s (pos & Hp & Eg) (Hx1 & Hx2).
        destruct (col_bound _ _ _ _ _ _ HA En Hp Eg) as [Hi HkN].
        apply sim_unit_r. match goal with |- sim _ _ _ _ ?r _ => rewrite <- (bind_ret_r r) end. eapply sim_wrk; [exact Hx1| |].
        * unfold can_write, own_csr. cbn [fst snd]. apply Nat.eqb_eq. unfold drow_of. destruct o; unfold ROWMAJOR, COLMAJOR.
          -- rewrite Nat.div_add_l by lia. rewrite Nat.div_small by lia. rewrite Nat.add_0_r. exact Ht.
          -- rewrite Nat.mod_add by lia. rewrite Nat.mod_small by lia. exact Ht.
        * intros Hlen. apply sim_ret. split; [now apply holdsK_set|].
          intros i' r' E'. destruct (Hx2 _ _ E') as [X1 X2]. split; [rewrite mset_other by congruence; exact X1|].
          apply cells_other; auto; discriminate.
      + split; [exact G1|exact G2].
      + exists m2. split; [exact Er|]. split; [auto|]. split; [auto|]. intros. apply G3. simpl; auto.
    - eapply interleave; [exact Ha|]. intros m2 Em. split; [eapply holdsK_ext; eauto|eapply csr_ext; eauto].
  Qed.
End CsrLoops2.
