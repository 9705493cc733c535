(** Loops of the csr format under all interleavings. *)
From Verif Require Import Base BaseFacts Spec SpecFacts EllpackModel EllpackSpec CsrModel CsrSpec CsrFacts CsrOps CsrMore CsrTop ThreadModel ThreadFacts
  RaceModel RaceModel2 RaceModel3 RaceSpec RaceSpec3 RaceSim RacePar RaceX2 RaceDense RaceEll.

Definition own_csr (thr dr : nat -> nat) (l : loc) : owner :=
  match fst l with
  | aVal c | aIdx c | aNnz c => if c mod 3 =? 0 then OfThread (thr (c / 3)) else Shared
  | aDense 0 | aDense 4 => OfThread (thr (dr (snd l)))
  | aAcc t => OfThread t
  | _ => Shared
  end.

Lemma ro_mod o i : o < 3 -> ro o i mod 3 = o.
Proof. intros H. unfold ro. rewrite Nat.mul_comm, Nat.add_comm, Nat.mod_add by lia. now apply Nat.mod_small. Qed.
Lemma ro_div o i : o < 3 -> ro o i / 3 = i.
Proof. intros H. unfold ro. rewrite Nat.mul_comm, Nat.div_add_l by lia. rewrite Nat.div_small by lia. lia. Qed.

Section CsrLoops.
  Context {F : scalar}.
  Local Notation mem := (mem loc (val F)).
  Local Notation pr := (prog loc (val F)).
  Local Notation mset := (mset loc_eq_dec).

  (** ** Single accesses *)
  Lemma sim_rd1k {B C} own t l v m (f : F -> pr B) (g : res C) Q :
    m l = Some (VK v) -> can_read own t None l = true -> sim own t (f v) m g Q -> sim own t (pbind (rdk l) f) m g Q.
  Proof.
    intros Hm Hc H b E. destruct (H b E) as (a & m' & Er & Hq). exists a, m'. split; [|exact Hq].
    unfold rdk. cbn [pbind run]. rewrite Hc, Hm. exact Er.
  Qed.
  Lemma sim_rd1n {B C} own t l n m (f : nat -> pr B) (g : res C) Q :
    m l = Some (VN n) -> can_read own t None l = true -> sim own t (f n) m g Q -> sim own t (pbind (rdn l) f) m g Q.
  Proof.
    intros Hm Hc H b E. destruct (H b E) as (a & m' & Er & Hq). exists a, m'. split; [|exact Hq].
    unfold rdn. cbn [pbind run]. rewrite Hc, Hm. exact Er.
  Qed.
  Lemma sim_wr1k {B C} own t l v m (f : unit -> pr B) (g : res C) Q :
    m l <> None -> can_write own t None l = true -> sim own t (f tt) (mset m l (VK v)) g Q -> sim own t (pbind (wrk l v) f) m g Q.
  Proof.
    intros Hm Hc H b E. destruct (H b E) as (a & m' & Er & Hq). exists a, m'. split; [|exact Hq].
    unfold wrk. cbn [pbind run]. rewrite Hc. destruct (m l); [exact Er|contradiction].
  Qed.
  Lemma sim_wr1n {B C} own t l n m (f : unit -> pr B) (g : res C) Q :
    m l <> None -> can_write own t None l = true -> sim own t (f tt) (mset m l (VN n)) g Q -> sim own t (pbind (wrn l n) f) m g Q.
  Proof.
    intros Hm Hc H b E. destruct (H b E) as (a & m' & Er & Hq). exists a, m'. split; [|exact Hq].
    unfold wrn. cbn [pbind run]. rewrite Hc. destruct (m l); [exact Er|contradiction].
  Qed.
  Lemma sim_pure {A B C} own t (p : pr A) m (r : res B) (g : B -> res C) Q :
    (forall x, r = Ok x -> sim own t p m (g x) Q) -> sim own t p m (bind r g) Q.
  Proof. intros H b E. destruct r as [x| | |]; try discriminate. exact (H x eq_refl b E). Qed.

  (** ** The cells of a row *)
  Lemma cells_get m c cs pos k v : holds_cells (F:=F) m c cs -> nth_error cs pos = Some (Some (k, v)) ->
    m (aIdx c, pos) = Some (VN k) /\ m (aVal c, pos) = Some (VK v).
  Proof. intros H E. specialize (H pos). rewrite E in H. exact H. Qed.
  Lemma cells_exist m c cs pos : holds_cells (F:=F) m c cs -> pos < length cs -> m (aIdx c, pos) <> None /\ m (aVal c, pos) <> None.
  Proof.
    intros H L. specialize (H pos). destruct (nth_error cs pos) as [[[k v]|]|] eqn:E.
    - destruct H as [-> ->]. split; discriminate.
    - exact H.
    - apply nth_error_None in E. lia.
  Qed.
  Lemma cells_other m c cs l v : holds_cells (F:=F) m c cs -> fst l <> aIdx c -> fst l <> aVal c -> holds_cells (mset m l v) c cs.
  Proof.
    intros H H1 H2 pos. specialize (H pos). destruct l as [a o]. cbn [fst] in *. rewrite !mset_other by congruence. exact H.
  Qed.
  Lemma cells_set m c cs pos k v : holds_cells (F:=F) m c cs -> pos < length cs ->
    holds_cells (mset (mset m (aIdx c, pos) (VN k)) (aVal c, pos) (VK v)) c (set_nth cs pos (Some (k, v))).
  Proof.
    intros H L q. destruct (Nat.eq_dec q pos) as [->|Hne].
    - rewrite nth_error_set_nth_eq by auto. rewrite mset_same. rewrite mset_other by congruence. rewrite mset_same. auto.
    - rewrite nth_error_set_nth_neq by auto. specialize (H q). rewrite !mset_other by congruence. exact H.
  Qed.
  Lemma get_cell (r : row F) pos k v : r_get r pos = Ok (k, v) -> nth_error (rcells r) pos = Some (Some (k, v)).
  Proof.
    unfold r_get, rd, use. destruct (nth_error (rcells r) pos) as [[x|]|]; cbn [bind]; intros E; try discriminate. congruence.
  Qed.

  Definition same_else (c : nat) (m m' : mem) : Prop :=
    forall l, fst l <> aVal c -> fst l <> aIdx c -> fst l <> aNnz c -> m' l = m l.
  Lemma same_set c m m' l v : same_else c m m' -> fst l = aVal c \/ fst l = aIdx c \/ fst l = aNnz c -> same_else c m (mset m' l v).
  Proof.
    intros H Hl l' H1 H2 H3. rewrite mset_other; [now apply H|]. intros E. subst l'. destruct Hl as [Hl|[Hl|Hl]]; contradiction.
  Qed.

  Lemma cells_same m m' c c' cs : holds_cells (F:=F) m c cs -> same_else c' m m' -> c <> c' -> holds_cells m' c cs.
  Proof.
    intros H S Hne pos. specialize (H pos). rewrite !S; auto; cbn [fst]; congruence.
  Qed.
  Lemma row_same m m' c c' r : holds_row (F:=F) m c r -> same_else c' m m' -> c <> c' -> holds_row m' c r.
  Proof.
    intros [H1 H2] S Hne. split; [|eapply cells_same; eauto]. rewrite S; auto; cbn [fst]; congruence.
  Qed.

  (** ** Loops that change only their own row *)
  Lemma csr_rows_all (rowf : row F -> res (row F)) (prow : nat -> nat -> pr unit) (A A' : csr F) w' sched (m : mem) :
    (forall t i m1 r, In (t, i) sched -> thr_of sched i = t -> holds_row m1 (ro 0 i) r ->
       sim (own_csr (thr_of sched) (fun k => k)) t (prow t i) m1 (rowf r) (fun _ m2 r' => holds_row m2 (ro 0 i) r' /\ same_else (ro 0 i) m1 m2)) ->
    NoDup (map snd sched) ->
    par_for sched (fun i '(A, w) => r <- c_row A i ;; r <- rowf r ;; A <- c_put A i r ;; Ok (A, w)) A (fun _ => tt) = Ok (A', w') ->
    holds_csr m 0 A ->
    all_interleavings prow sched m (fun m' => holds_csr m' 0 A').
  Proof.
    intros Hb Hnd Ep HA.
    destruct (par_atomic (own_csr (thr_of sched) (fun k => k)) (fun i '(A, w) => r <- c_row A i ;; r <- rowf r ;; A <- c_put A i r ;; Ok (A, w)) prow
       (fun rest m A (_ : nat -> unit) => holds_csr m 0 A /\ (forall x, In x rest -> In x sched)))
       with (sched := sched) (m := m) (s := A) (w := fun _ : nat => tt) (s' := A') (w' := w')
      as (m' & Ha & HJ' & _); auto.
    - intros t i rest m1 s1 w s2 wt (G1 & G2) Eb.
      unfold c_row, rd in Eb. destruct (nth_error (cdata s1) i) as [r|] eqn:Er; [|discriminate]. cbn [bind] in Eb.
      destruct (rowf r) as [r'| | |] eqn:Ef; try discriminate. cbn [bind] in Eb.
      unfold c_put, wr in Eb. destruct (Nat.ltb_spec i (length (cdata s1))) as [Li|]; [|discriminate]. cbn [bind] in Eb.
      injection Eb as <- <-.
      pose proof (G2 _ (or_introl eq_refl)) as Hin.
      destruct (Hb t i m1 r Hin (thr_of_in _ _ _ Hnd Hin) (G1 _ _ Er) _ Ef) as ([] & m2 & Rn & K1 & K2).
      exists m2. split; [exact Rn|]. split; [|intros; apply G2; simpl; auto].
      intros j rj Ej. cbn [cdata] in Ej. destruct (Nat.eq_dec j i) as [->|Hne].
      + rewrite nth_error_set_nth_eq in Ej by auto. injection Ej as <-. exact K1.
      + rewrite nth_error_set_nth_neq in Ej by auto. eapply row_same; [apply G1; exact Ej|exact K2|unfold ro; lia].
    - eapply interleave; [exact Ha|]. intros m1 Em i r Er. specialize (HJ' i r Er) as [H1 H2].
      split; [rewrite Em; exact H1|]. intros pos. specialize (H2 pos). rewrite !Em. exact H2.
  Qed.

  Lemma cw_row sched t i a k : thr_of sched i = t -> a = aVal (ro 0 i) \/ a = aIdx (ro 0 i) \/ a = aNnz (ro 0 i) ->
    can_write (own_csr (thr_of sched) (fun k => k)) t None (a, k) = true.
  Proof.
    intros Ht Ha. unfold can_write, own_csr. cbn [fst].
    destruct Ha as [Ha|[Ha|Ha]]; rewrite Ha, ro_mod, ro_div by lia; simpl; rewrite Ht; apply Nat.eqb_refl.
  Qed.

  Lemma interleaved_csr_scale_rows (a : F) (A A' : csr F) sched (m : mem) :
    Permutation (map snd sched) (seq 0 (cN A)) -> csr_scale_inplace a A sched = Ok A' -> holds_csr m 0 A ->
    all_interleavings (p_csr_scale_row a) sched m (fun m' => holds_csr m' 0 A').
  Proof.
    intros HP E HA. destruct (sched_facts _ _ HP) as [Hnd _]. unfold csr_scale_inplace in E.
    match type of E with context [bind ?X _] => destruct X as [[A1 w1]| | |] eqn:Ep; try discriminate end.
    cbn [bind] in E. injection E as <-.
    eapply (csr_rows_all (scale_row a)); eauto.
    intros t i m1 r Hin Ht [H1 H2]. unfold p_csr_scale_row, scale_row.
    eapply sim_rd1n; [exact H1|apply can_write_read; eapply cw_row; [eassumption|auto]|].
    eapply sim_mono; [apply sim_for_n with (I := fun (_ : unit) m2 r2 => rnnz r2 = rnnz r /\ holds_row m2 (ro 0 i) r2 /\ same_else (ro 0 i) m1 m2)|].
    - intros pos [] m2 r2 Hp (K0 & [K1 K2] & K3). apply sim_pure. intros [k v] Eg.
      pose proof (get_cell _ _ _ _ Eg) as En. destruct (cells_get _ _ _ _ _ _ K2 En) as [C1 C2].
      eapply sim_rd1k; [exact C2|apply can_write_read; eapply cw_row; [eassumption|auto]|].
      intros r3 E3. unfold r_put, wr in E3. destruct (Nat.ltb_spec pos (length (rcells r2))) as [Lp|]; [|discriminate].
      cbn [bind] in E3. injection E3 as <-.
      assert (Hw : sim (own_csr (thr_of sched) (fun k => k)) t (wrk (aVal (ro 0 i), pos) (kmul a v)) m2 (Ok tt)
                (fun _ m3 _ => m3 = mset m2 (aVal (ro 0 i), pos) (VK (kmul a v)))).
      { apply sim_unit_r. eapply sim_wr1k; [congruence|eapply cw_row; [eassumption|auto]|apply sim_ret; reflexivity]. }
      destruct (Hw tt eq_refl) as ([] & m3 & Er & ->). exists tt. eexists. split; [exact Er|].
      split; [exact K0|]. split; [|apply same_set; auto]. split; cbn [rnnz rcells].
      + rewrite mset_other by congruence. exact K1.
      + pose proof (cells_set _ _ _ pos k (kmul a v) K2 Lp) as Hc. intros q. specialize (Hc q).
        destruct (Nat.eq_dec q pos) as [->|Hne].
        * rewrite nth_error_set_nth_eq in * by auto. rewrite mset_same. rewrite mset_other by congruence. auto.
        * rewrite !mset_other in * by congruence. exact Hc.
    - split; [reflexivity|]. split; [split; auto|]. intros l _ _ _. reflexivity.
    - intros [] m2 r2 (_ & G1 & G2). auto.
  Qed.

  Lemma interleaved_csr_threshold_rows (keep : F -> bool) (A A' : csr F) sched (m : mem) :
    Permutation (map snd sched) (seq 0 (cN A)) -> csr_threshold keep A sched = Ok A' -> holds_csr m 0 A ->
    all_interleavings (p_csr_threshold_row keep) sched m (fun m' => holds_csr m' 0 A').
  Proof.
    intros HP E HA. destruct (sched_facts _ _ HP) as [Hnd _]. unfold csr_threshold in E.
    match type of E with context [bind ?X _] => destruct X as [[A1 w1]| | |] eqn:Ep; try discriminate end.
    cbn [bind] in E. injection E as <-.
    eapply (csr_rows_all (thr_row keep)); eauto.
    intros t i m1 r Hin Ht [H1 H2]. unfold p_csr_threshold_row, thr_row.
    eapply sim_rd1n; [exact H1|apply can_write_read; eapply cw_row; [eassumption|auto]|].
    eapply sim_bind with (Q1 := fun rl m2 '(r2, rlen) => rl = rlen /\ holds_row m2 (ro 0 i) (mkRow (rcells r2) (rnnz r)) /\ same_else (ro 0 i) m1 m2).
    - apply sim_for_n with (I := fun (rl : nat) m2 '(r2, rlen) => rl = rlen /\ holds_row m2 (ro 0 i) (mkRow (rcells r2) (rnnz r)) /\ same_else (ro 0 i) m1 m2).
      + intros pos rl m2 [r2 rlen] Hp (-> & [K1 K2] & K3). cbn [rnnz rcells] in K1, K2. apply sim_pure. intros [k v] Eg.
        pose proof (get_cell _ _ _ _ Eg) as En. destruct (cells_get _ _ _ _ _ _ K2 En) as [C1 C2].
        eapply sim_rd1k; [exact C2|apply can_write_read; eapply cw_row; [eassumption|auto]|].
        destruct (keep v); [|apply sim_ret; split; [reflexivity|split; [split|]; assumption]].
        eapply sim_bind with (Q1 := fun _ m3 r3 => holds_row m3 (ro 0 i) (mkRow (rcells r3) (rnnz r)) /\ same_else (ro 0 i) m1 m3).
        * destruct (Nat.ltb_spec rlen pos) as [Hl|Hl]; [|apply sim_ret; split; [split|]; assumption].
          intros r3 E3. unfold r_put, wr in E3. destruct (Nat.ltb_spec rlen (length (rcells r2))) as [Lp|]; [|discriminate].
          cbn [bind] in E3. injection E3 as <-. destruct (cells_exist _ _ _ rlen K2 Lp) as [X1 X2].
          match goal with |- exists a m', run _ _ _ _ ?p _ = _ /\ _ =>
            assert (Hw : sim (own_csr (thr_of sched) (fun k => k)) t p m2 (Ok tt)
                (fun _ m3 _ => m3 = mset (mset m2 (aIdx (ro 0 i), rlen) (VN k)) (aVal (ro 0 i), rlen) (VK v))) end.
          { eapply sim_rd1n; [exact C1|apply can_write_read; eapply cw_row; [eassumption|auto]|].
            eapply sim_wr1n; [exact X1|eapply cw_row; [eassumption|auto]|].
            eapply sim_rd1k; [rewrite mset_other by congruence; exact C2|apply can_write_read; eapply cw_row; [eassumption|auto]|].
            apply sim_unit_r. eapply sim_wr1k; [rewrite mset_other by congruence; exact X2|eapply cw_row; [eassumption|auto]|apply sim_ret; reflexivity]. }
          destruct (Hw tt eq_refl) as ([] & m3 & Er & ->). exists tt. eexists. split; [exact Er|].
          split; [|apply same_set; auto; apply same_set; auto]. split; cbn [rnnz rcells].
          -- rewrite !mset_other by congruence. exact K1.
          -- apply cells_set; auto.
        * intros [] m3 r3 (G1 & G2). apply sim_ret. auto.
      + split; [reflexivity|]. split; [split; auto|]. intros l _ _ _. reflexivity.
    - intros rl m2 [r2 rlen] (-> & [K1 K2] & K3). cbn [rnnz rcells] in K1, K2.
      apply sim_unit_r. eapply sim_wr1n; [congruence|eapply cw_row; [eassumption|auto]|]. apply sim_ret.
      split; [|apply same_set; auto]. split; cbn [rnnz rcells]; [apply mset_same|]. apply cells_other; auto; discriminate.
  Qed.

  (** ** Reductions *)
  Lemma csr_acc_free m o (A : csr F) t k v : holds_csr m o A -> holds_csr (mset m (aAcc t, k) v) o A.
  Proof.
    intros H i r Er. destruct (H i r Er) as [H1 H2]. split; [rewrite mset_other by congruence; exact H1|].
    apply cells_other; auto; discriminate.
  Qed.
  Lemma csr_ext m m' o (A : csr F) : holds_csr m o A -> (forall l, m' l = m l) -> holds_csr m' o A.
  Proof.
    intros H Em i r Er. destruct (H i r Er) as [H1 H2]. split; [rewrite Em; exact H1|].
    intros pos. specialize (H2 pos). rewrite !Em. exact H2.
  Qed.
  Lemma cr_obj thr dr t o i a k : 0 < o < 3 -> a = aVal (ro o i) \/ a = aIdx (ro o i) \/ a = aNnz (ro o i) ->
    can_read (own_csr thr dr) t None (a, k) = true.
  Proof.
    intros Ho Ha. unfold can_read, own_csr. cbn [fst].
    destruct Ha as [Ha|[Ha|Ha]]; rewrite Ha, ro_mod by lia; destruct (Nat.eqb_spec o 0); auto; lia.
  Qed.

  (** thread [t] has accumulated [s]; the other accumulators are as in [m0] *)
  Definition acc_inv (R : mem -> Prop) (m0 : mem) (t : nat) (m : mem) (s : F) : Prop :=
    R m /\ m (aAcc t, 0) = Some (VK s) /\ forall t', t' <> t -> m (aAcc t', 0) = m0 (aAcc t', 0).

  Lemma sim_acc thr dr (R : mem -> Prop) m0 t m s v :
    (forall m t k v, R m -> R (mset m (aAcc t, k) v)) -> acc_inv R m0 t m s ->
    sim (own_csr thr dr) t (p_reduce t 0 v) m (Ok (kadd s v)) (fun _ m' s' => acc_inv R m0 t m' s').
  Proof.
    intros HR (H1 & H2 & H3). assert (Hc : can_write (own_csr thr dr) t None (aAcc t, 0) = true) by (unfold can_write, own_csr; simpl; apply Nat.eqb_refl).
    unfold p_reduce. eapply sim_rd1k; [exact H2|now apply can_write_read|].
    apply sim_unit_r. eapply sim_wr1k; [congruence|exact Hc|]. apply sim_ret.
    split; [now apply HR|]. split; [apply mset_same|]. intros t' Hne. rewrite mset_other by congruence. auto.
  Qed.

  Lemma sim_r_for {S B} thr dr t o i (r : row F) (pb : nat -> F -> S -> pr S) (b : nat -> F -> B -> res B)
      (I : S -> mem -> B -> Prop) :
    0 < o < 3 -> (forall a m s, I a m s -> holds_row m (ro o i) r) ->
    (forall k v a m s, (exists pos, pos < rnnz r /\ r_get r pos = Ok (k, v)) -> I a m s -> sim (own_csr thr dr) t (pb k v a) m (b k v s) I) ->
    forall a m s, I a m s -> sim (own_csr thr dr) t (p_r_for (ro o i) pb a) m (r_for r b s) I.
  Proof.
    intros Ho HI Hb a m s H0. unfold p_r_for, r_for. destruct (HI _ _ _ H0) as [H1 _].
    eapply sim_rd1n; [exact H1|eapply cr_obj; eauto|]. apply sim_for_n; auto.
    intros pos a1 m1 s1 Hp H2. apply sim_pure. intros [k v] Eg. destruct (HI _ _ _ H2) as [_ K2].
    destruct (cells_get _ _ _ _ _ _ K2 (get_cell _ _ _ _ Eg)) as [C1 C2].
    eapply sim_rd1n; [exact C1|eapply cr_obj; eauto|]. eapply sim_rd1k; [exact C2|eapply cr_obj; eauto|]. apply Hb; eauto.
  Qed.

  Lemma csr_sum_all (f : nat -> F -> res F) (prow : nat -> nat -> pr unit) (R : mem -> Prop) nth sched w' (m : mem) :
    (forall t i, In (t, i) sched -> t < nth) ->
    (forall m m', R m -> (forall l, m' l = m l) -> R m') ->
    (forall t i m0 m1 s, acc_inv R m0 t m1 s ->
       sim (own_csr (thr_of sched) (fun k => k)) t (prow t i) m1 (f i s) (fun _ m2 s' => acc_inv R m0 t m2 s')) ->
    par_for sched (fun i '(s, w) => x <- f i w ;; Ok (s, x)) tt (fun _ => k0) = Ok (tt, w') ->
    R m -> (forall t, t < nth -> m (aAcc t, 0) = Some (VK k0)) ->
    all_interleavings prow sched m (fun m' => R m' /\
      exists acc : nat -> F, (forall t, t < nth -> m' (aAcc t, 0) = Some (VK (acc t))) /\ bigsum nth acc = reduce_sum nth w').
  Proof.
    intros Hth HE Hb Ep H1 Hac.
    destruct (par_atomic (F := F) (own_csr (thr_of sched) (fun k => k)) (fun i '(s, w) => x <- f i w ;; Ok (s, x)) prow
       (fun rest m (_ : unit) (w : nat -> F) => R m /\ (forall t, t < nth -> m (aAcc t, 0) = Some (VK (w t))) /\
          (forall t i, In (t, i) rest -> t < nth)))
       with (sched := sched) (m := m) (s := tt) (w := fun _ : nat => @k0 F) (s' := tt) (w' := w')
      as (m' & Ha & Ha' & Hd' & _); auto.
    - intros t i rest m1 D w D2 wt (G1 & G2 & G3) Eb.
      destruct (f i (w t)) as [x| | |] eqn:El; try discriminate. cbn [bind] in Eb. injection Eb as <- <-.
      pose proof (G3 t i (or_introl eq_refl)) as Ht.
      destruct (Hb t i m1 m1 (w t)) with (b := x) as ([] & m2 & Er & K1 & K2 & K3); auto.
      { split; [exact G1|]. split; [now apply G2|reflexivity]. }
      exists m2. split; [exact Er|split; [auto|split]].
      + intros t' Ht'. destruct (Nat.eq_dec t' t) as [->|Hne]; [rewrite upd_fun_same; exact K2|].
        rewrite upd_fun_other by auto. rewrite K3 by auto. auto.
      + intros. eapply G3. simpl; eauto.
    - eapply interleave; [exact Ha|]. intros m2 Em. split; [eapply HE; eauto|].
      exists w'. split; [|reflexivity]. intros t Ht. rewrite Em. auto.
  Qed.

  Lemma par_for_ext {S W} sched (b1 b2 : nat -> S * W -> res (S * W)) :
    (forall i x, b1 i x = b2 i x) -> forall s w, par_for sched b1 s w = par_for sched b2 s w.
  Proof.
    intros H. induction sched as [|[t i] sched IH]; intros s w; [reflexivity|]. simpl. rewrite H.
    destruct (b2 i (s, w t)) as [[s' wt]| | |]; simpl; auto.
  Qed.

  Lemma interleaved_csr_sum_squares (A : csr F) nth sched (m : mem) :
    cwf A -> full_sched (cN A) nth sched -> holds_csr m 1 A ->
    (forall t, t < nth -> m (aAcc t, 0) = Some (VK k0)) ->
    all_interleavings p_csr_sum_squares_row sched m (fun m' => holds_csr m' 1 A /\
      exists acc : nat -> F, (forall t, t < nth -> m' (aAcc t, 0) = Some (VK (acc t))) /\
        bigsum nth acc = msum (cN A) (mhad (cmat A) (cmat A))).
  Proof.
    intros HA HS H1 Hac. pose proof (csr_sum_squares_ok A nth sched HA HS) as E.
    unfold csr_sum_squares in E.
    match type of E with context [bind ?X _] => destruct X as [[[] w1]| | |] eqn:Ep; try discriminate end.
    cbn [bind] in E. injection E as <-.
    eapply (csr_sum_all (fun i sum => r <- c_row A i ;; r_for r (fun _ v sum => Ok (kadd sum (kmul v v))) sum)); auto.
    - intros t i Hi. eapply (proj2 HS); eauto.
    - intros m1 m2 Hx Em. eapply csr_ext; eauto.
    - intros t i m0 m1 s Hi. apply sim_pure. intros r Er. unfold c_row, rd in Er.
      destruct (nth_error (cdata A) i) as [r1|] eqn:En; [|discriminate]. injection Er as ->.
      apply sim_r_for with (I := fun _ m2 s2 => acc_inv (fun m => holds_csr m 1 A) m0 t m2 s2); [lia|..|exact Hi].
      + intros [] m2 s2 (Hh & _). now apply Hh.
      + intros k v [] m2 s2 _ Hk. apply (sim_acc _ _ (fun m => holds_csr m 1 A)); [|exact Hk]. intros. now apply csr_acc_free.
    - rewrite <- Ep. apply par_for_ext. intros i [[] w]. destruct (c_row A i); reflexivity.
  Qed.

  Lemma interleaved_csr_trace_mult (A B : csr F) nth sched (m : mem) :
    cwf A -> cwf B -> cN A = cN B -> full_sched (cN A) nth sched -> holds_csr m 1 A -> holds_csr m 2 B ->
    (forall t, t < nth -> m (aAcc t, 0) = Some (VK k0)) ->
    all_interleavings p_csr_trace_mult_row sched m (fun m' => (holds_csr m' 1 A /\ holds_csr m' 2 B) /\
      exists acc : nat -> F, (forall t, t < nth -> m' (aAcc t, 0) = Some (VK (acc t))) /\
        bigsum nth acc = mtrace (cN A) (mmul (cN A) (cmat A) (cmat B))).
  Proof.
    intros HA HB HN HS H1 H2 Hac. pose proof (csr_trace_mult_ok A B nth sched HA HB HN HS) as E.
    unfold csr_trace_mult in E. rewrite HN, Nat.eqb_refl in E. cbn [negb] in E. rewrite <- HN in E.
    match type of E with context [bind ?X _] => destruct X as [[[] w1]| | |] eqn:Ep; try discriminate end.
    cbn [bind] in E. injection E as <-.
    eapply (csr_sum_all (fun i tr => ra <- c_row A i ;; r_for ra (fun j a tr =>
            rb <- c_row B j ;;
            '(tr, _) <- r_for rb (fun k b '(tr, stop) =>
                if (stop : bool) then Ok (tr, stop)
                else if (i =? k)%nat then Ok (kadd tr (kmul a b), true) else Ok (tr, false)) (tr, false) ;;
            Ok tr) tr)) with (R := fun m => holds_csr m 1 A /\ holds_csr m 2 B); auto.
    - intros t i Hi. eapply (proj2 HS); eauto.
    - intros m1 m2 [Hx Hy] Em. split; eapply csr_ext; eauto.
    - intros t i m0 m1 s Hi. apply sim_pure. intros r Er. unfold c_row, rd in Er.
      destruct (nth_error (cdata A) i) as [r1|] eqn:En; [|discriminate]. injection Er as ->.
      apply sim_r_for with (I := fun _ m2 s2 => acc_inv (fun m => holds_csr m 1 A /\ holds_csr m 2 B) m0 t m2 s2); [lia|..|exact Hi].
      + intros [] m2 s2 ((Hh & _) & _). now apply Hh.
      + intros j a [] m2 s2 _ Hk. apply sim_pure. intros rb Eb. unfold c_row, rd in Eb.
        destruct (nth_error (cdata B) j) as [r2|] eqn:Enb; [|discriminate]. injection Eb as ->.
        eapply sim_bind with (Q1 := fun sp m3 '(s3, st) => sp = st /\ acc_inv (fun m => holds_csr m 1 A /\ holds_csr m 2 B) m0 t m3 s3).
        * apply sim_r_for with (I := fun sp m3 '(s3, st) => sp = st /\ acc_inv (fun m => holds_csr m 1 A /\ holds_csr m 2 B) m0 t m3 s3); [lia|..|split; [reflexivity|exact Hk]].
          -- intros sp m3 [s3 st] (_ & (_ & Hh) & _). now apply Hh.
          -- intros k b sp m3 [s3 st] _ (-> & Hh). destruct st; [apply sim_ret; auto|].
             destruct (i =? k); [|apply sim_ret; auto].
             change (@Ok (F * bool) (kadd s3 (kmul a b), true)) with (x <- Ok (kadd s3 (kmul a b)) ;; Ok (x, true)).
             eapply sim_bind; [apply sim_acc; [|exact Hh]|].
             ++ intros m4 t' k' v [X Y]. split; now apply csr_acc_free.
             ++ intros [] m4 x Hx. apply sim_ret. auto.
        * intros sp m3 [s3 st] (_ & Hh). apply sim_ret. exact Hh.
    - rewrite <- Ep. apply par_for_ext. intros i [[] w]. destruct (c_row A i); reflexivity.
  Qed.

  (** ** Together with what the loops compute *)
  Lemma interleaved_csr_scale (a : F) (A : csr F) sched (m : mem) :
    cwf A -> Permutation (map snd sched) (seq 0 (cN A)) -> holds_csr m 0 A ->
    exists A', cwf A' /\ cdims A A' /\ meq (cN A) (cmat A') (mscale a (cmat A)) /\
      all_interleavings (p_csr_scale_row a) sched m (fun m' => holds_csr m' 0 A').
  Proof.
    intros HA HP Hm. destruct (cscale_inplace_spec a A sched HA HP) as (A' & E & W & D & M).
    exists A'. split; [exact W|split; [exact D|split; [exact M|]]]. eapply interleaved_csr_scale_rows; eauto.
  Qed.
  Lemma interleaved_csr_threshold (keep : F -> bool) (A : csr F) sched (m : mem) :
    cwf A -> Permutation (map snd sched) (seq 0 (cN A)) -> holds_csr m 0 A ->
    exists A', cwf A' /\ cdims A A' /\ meq (cN A) (cmat A') (mcut keep (cmat A)) /\
      all_interleavings (p_csr_threshold_row keep) sched m (fun m' => holds_csr m' 0 A').
  Proof.
    intros HA HP Hm. destruct (cthreshold_spec keep A sched HA HP) as (A' & E & W & D & M).
    exists A'. split; [exact W|split; [exact D|split; [exact M|]]]. eapply interleaved_csr_threshold_rows; eauto.
  Qed.
End CsrLoops.
