(** ellpack multiply_x2 under all interleavings. *)
From Verif Require Import Base BaseFacts Spec SpecFacts EllpackModel EllpackSpec EllpackFacts
  EllpackArith EllpackMul EllpackMul2 EllpackMore EllpackOps ThreadModel ThreadFacts RaceModel RaceModel2
  RaceSpec RaceSim RaceLoops RacePar RaceEll.

Section X2.
  Context {F : scalar}.
  Local Notation mem := (mem loc (val F)).
  Local Notation pr := (prog loc (val F)).
  Local Notation mset := (mset loc_eq_dec).
  Variables (thr : nat -> nat) (M : nat) (dr : nat -> nat).
  Local Notation own := (own_of thr M dr).
  Local Notation sim := (sim own).

  Definition acc_is (m : mem) (t r : nat) (x : F) : Prop := m (aAcc t, r) = Some (VK x).

  Lemma acc_other m t r x a k v : acc_is m t r x -> a <> aAcc t -> acc_is (mset m (a, k) v) t r x.
  Proof. intros H Ha. unfold acc_is. rewrite mset_other by congruence. exact H. Qed.

  (** r = r + v *)
  Lemma sim_reduce {B C} t r x v m (f : unit -> pr B) (g : res C) Q :
    acc_is m t r x ->
    sim t (f tt) (mset m (aAcc t, r) (VK (kadd x v))) g Q ->
    sim t (pbind (p_reduce t r v) f) m g Q.
  Proof.
    intros Hx H b E. destruct (H b E) as (a & m' & Er & Hq). exists a, m'. split; [|exact Hq].
    unfold p_reduce, rdk, wrk. cbn [pbind run].
    rewrite (can_write_read _ _ _ _ (cw_acc thr M dr t r)). rewrite Hx. cbn [pbind run].
    rewrite (cw_acc thr M dr t r), Hx. exact Er.
  Qed.

  (** the gather loop with the second trace *)
  Definition gx0 (kc : nat -> F -> bool) (side : nat -> F -> F -> F) (i : nat) (jp : nat) (s : ell F * wsp F * F * nat) :
    res (ell F * wsp F * F * nat) :=
    let '(A, w, t, ll) := s in
    jind <- rd (wjx w) jp ;;
    xtmp <- rd (wx w) jind ;;
    let t := side jind xtmp t in
    '(A, ll) <- (if kc jind xtmp
                 then A1 <- e_put A i ll jind xtmp ;; Ok (A1, S ll)
                 else Ok (A, ll)) ;;
    x' <- wr (wx w) jind k0 ;;
    ix' <- wr (wix w) jind 0 ;;
    Ok (A, mkWs ix' (wjx w) x', t, ll).
  Definition gx1 (kc : nat -> F -> bool) (side : nat -> F -> F -> F) (i : nat) (jp : nat) (s : ell F * wsp F * F * nat) :
    res (ell F * wsp F * F * nat) :=
    let '(A, w, t, ll) := s in
    jind <- rd (wjx w) jp ;;
    xtmp <- rd (wx w) jind ;;
    let t := side jind xtmp t in
    '(A, ll) <- (if kc jind xtmp
                 then if ll <? M then A1 <- e_put A i ll jind xtmp ;; Ok (A1, S ll) else UB
                 else Ok (A, ll)) ;;
    x' <- wr (wx w) jind k0 ;;
    ix' <- wr (wix w) jind 0 ;;
    Ok (A, mkWs ix' (wjx w) x', t, ll).

  Lemma gx0_step kc side i jp A w t ll A' w' t' ll' :
    gx0 kc side i jp (A, w, t, ll) = Ok (A', w', t', ll') ->
    ll <= ll' /\ (ll' <= M -> gx1 kc side i jp (A, w, t, ll) = Ok (A', w', t', ll')).
  Proof.
    unfold gx0, gx1. intros E.
    destruct (rd (wjx w) jp) as [jind| | |]; try discriminate. simpl in *.
    destruct (rd (wx w) jind) as [xtmp| | |]; try discriminate. simpl in *.
    destruct (kc jind xtmp); simpl in *.
    - destruct (e_put A i ll jind xtmp) as [A1| | |] eqn:Ep; try discriminate. simpl in *.
      destruct (wr (wx w) jind k0); try discriminate. simpl in *.
      destruct (wr (wix w) jind 0); try discriminate. simpl in *.
      injection E as <- <- <- <-. split; [lia|]. intros Hl.
      destruct (Nat.ltb_spec ll M); [|lia]. reflexivity.
    - destruct (wr (wx w) jind k0); try discriminate. simpl in *.
      destruct (wr (wix w) jind 0); try discriminate. simpl in *.
      injection E as <- <- <- <-. split; [lia|auto].
  Qed.

  Lemma gx0_forM kc side i jps : forall A w t ll A' w' t' ll',
    forM jps (gx0 kc side i) (A, w, t, ll) = Ok (A', w', t', ll') ->
    ll <= ll' /\ (ll' <= M -> forM jps (gx1 kc side i) (A, w, t, ll) = Ok (A', w', t', ll')).
  Proof.
    induction jps as [|jp jps IH]; intros A w t ll A' w' t' ll' E; cbn [forM] in *.
    - injection E as <- <- <- <-. auto.
    - destruct (gx0 kc side i jp (A, w, t, ll)) as [[[[A1 w1] t1] ll1]| | |] eqn:E1; try discriminate.
      cbn [bind] in E. destruct (gx0_step _ _ _ _ _ _ _ _ _ _ _ _ E1) as [L1 H1].
      destruct (IH _ _ _ _ _ _ _ _ E) as [L2 H2]. split; [lia|]. intros Hl.
      rewrite H1 by lia. cbn [bind]. auto.
  Qed.

  Lemma gx_dims kc side i jps : forall A w t ll (A' : ell F) w' t' ll',
    forM jps (gx0 kc side i) (A, w, t, ll) = Ok (A', w', t', ll') -> eM A' = eM A.
  Proof.
    induction jps as [|jp jps IH]; intros C w tr n A' w' t' ll' E; cbn [forM] in E.
    - injection E as <- <- <- <-. reflexivity.
    - destruct (gx0 kc side i jp (C, w, tr, n)) as [[[[A1 w1] t1] ll1]| | |] eqn:E1; try discriminate.
      cbn [bind] in E. apply IH in E. rewrite E. clear E IH. unfold gx0 in E1.
      destruct (rd (wjx w) jp) as [jind| | |]; try discriminate. cbn [bind] in E1.
      destruct (rd (wx w) jind) as [xtmp| | |]; try discriminate. cbn [bind] in E1.
      destruct (kc jind xtmp); cbn [bind] in E1.
      + destruct (e_put C i n jind xtmp) as [A2| | |] eqn:Ep; try discriminate. cbn [bind] in E1.
        destruct (wr (wx w) jind k0); try discriminate. cbn [bind] in E1.
        destruct (wr (wix w) jind 0); try discriminate. cbn [bind] in E1.
        injection E1 as <- <- <- <-. unfold e_put, e_wval, e_widx in Ep.
        destruct (wr (eval C) (ROWMAJOR i n (eN C) (eM C)) xtmp) as [va| | |]; try discriminate. cbn [bind eidx eN eM] in Ep.
        destruct (wr (eidx C) (ROWMAJOR i n (eN C) (eM C)) jind) as [ia| | |]; try discriminate. cbn [bind] in Ep.
        injection Ep as <-. reflexivity.
      + destruct (wr (wx w) jind k0); try discriminate. cbn [bind] in E1.
        destruct (wr (wix w) jind 0); try discriminate. cbn [bind] in E1.
        injection E1 as <- <- <- <-. reflexivity.
  Qed.

  Lemma gx_eq kc side i l (A : ell F) w tr A' w' u ll' :
    ws_gather k0 (fun x => x) kc side i l A w tr = Ok (A', w', u, ll') -> ll' <= M ->
    for_n l (gx1 kc side i) (A, w, tr, 0) = Ok (A', w', u, ll').
  Proof.
    intros E Hl. unfold ws_gather, for_n in *.
    destruct (gx0_forM kc side i (seq 0 l) A w tr 0 A' w' u ll') as [_ H]; auto.
  Qed.

  Definition gxI (t N : nat) (R : mem -> Prop) (ll : nat) (m : mem) (s : ell F * wsp F * F * nat) : Prop :=
    let '(A, w, tr, ll') := s in
    ll = ll' /\ eM A = M /\ eN A = N /\ holds m 0 A /\ holds_ws m t w /\ acc_is m t 1 tr /\ R m.

  Definition acc1_stable (t : nat) (R : mem -> Prop) : Prop :=
    forall m v, R m -> R (mset m (aAcc t, 1) v).

  Lemma sim_gather_x2 kc t i l R : thr i = t -> ws_stable t R -> out_stable R -> acc1_stable t R ->
    forall m A w tr, eM A = M -> holds m 0 A -> holds_ws m t w -> acc_is m t 1 tr -> R m ->
    sim t (p_gather_x2 kc (eN A) M t i l) m
      (for_n l (gx1 kc (fun jp x t => if jp =? i then kadd t x else t) i) (A, w, tr, 0))
      (gxI t (eN A) R).
  Proof.
    intros Ht HR HO HC m A w tr HM HA Hw Hac Hm.
    unfold p_gather_x2. apply sim_for_n with (I := gxI t (eN A) R);
      [|repeat split; auto; apply HA || apply Hw].
    intros jp ll m1 [[[A1 w1] tr1] ll1] Hjp (El & HM1 & HN1 & HA1 & (H1 & H2 & H3) & Hac1 & Hm1).
    subst ll1. unfold gx1.
    eapply sim_rdn; [exact H2|apply can_write_read, cw_jx|intros jind Ej].
    eapply sim_rdk; [exact H3|apply can_write_read, cw_x|intros xtmp Ex].
    cbv zeta.
    (* the rest, from any memory that agrees *)
    assert (REST : forall m1 tr1, holds m1 0 A1 -> holds_ws m1 t w1 -> acc_is m1 t 1 tr1 -> R m1 ->
      sim t (pbind (if kc jind xtmp
              then pbind (p_wval 0 (eN A) M i ll xtmp) (fun _ => pbind (p_widx 0 (eN A) M i ll jind) (fun _ => Ret (S ll)))
              else Ret ll) (fun ll => pbind (wrk (aX t, jind) k0) (fun _ => pbind (wrn (aIx t, jind) 0) (fun _ => Ret ll)))) m1
        (bind (if kc jind xtmp
                 then if ll <? M then A1 <- e_put A1 i ll jind xtmp ;; Ok (A1, S ll) else UB
                 else Ok (A1, ll)) (fun '(A, ll) =>
           x' <- wr (wx w1) jind k0 ;; ix' <- wr (wix w1) jind 0 ;; Ok (A, mkWs ix' (wjx w1) x', tr1, ll)))
        (gxI t (eN A) R)).
    { clear m1 tr1 HA1 H1 H2 H3 Hac1 Hm1. intros m1 tr1 HA1 (H1 & H2 & H3) Hac1 Hm1.
      eapply sim_bind with (Q1 := fun ll m' (s : ell F * nat) =>
        ll = snd s /\ eM (fst s) = M /\ eN (fst s) = eN A /\ holds m' 0 (fst s) /\ holds_ws m' t w1 /\ acc_is m' t 1 tr1 /\ R m').
      - destruct (kc jind xtmp).
        + destruct (Nat.ltb_spec ll M) as [Hll|]; [|intros ? ?; discriminate].
          unfold e_put, e_wval, e_widx. rewrite HM1, HN1.
          pose proof HA1 as (G1 & G2 & G3).
          intros b Hb.
          destruct (wr (eval A1) (ROWMAJOR i ll (eN A) M) xtmp) as [va| | |] eqn:Ev; try discriminate.
          simpl in Hb. rewrite ?HM1, ?HN1 in Hb.
          destruct (wr (eidx A1) (ROWMAJOR i ll (eN A) M) jind) as [ia| | |] eqn:Ei; try discriminate.
          simpl in Hb. injection Hb as <-.
          unfold wr in Ev, Ei.
          destruct (Nat.ltb_spec (ROWMAJOR i ll (eN A) M) (length (eval A1))) as [Lv|]; [|discriminate].
          destruct (Nat.ltb_spec (ROWMAJOR i ll (eN A) M) (length (eidx A1))) as [Li|]; [|discriminate].
          injection Ev as <-. injection Ei as <-.
          destruct (nth_error_lt _ _ Lv) as (ov & Eov). destruct (nth_error_lt _ _ Li) as (oi & Eoi).
          eexists. eexists. split.
          * unfold p_wval, p_widx, wrk, wrn. cbn [pbind run].
            rewrite (cw_val0 thr M dr t i ll (eN A) Ht Hll), (G1 _), Eov. cbn [option_map].
            rewrite (cw_idx0 thr M dr t i ll (eN A) Ht Hll).
            rewrite mset_other by discriminate. rewrite (G2 _), Eoi. cbn [option_map]. reflexivity.
          * cbn [fst snd eM eN]. split; [reflexivity|]. split; [auto|]. split; [auto|].
            split; [|split; [|split]].
            -- rewrite <- HM1, <- HN1 in *. apply holds_put; auto.
            -- split; [|split]; [apply holdsN_other; [apply holdsN_other; [assumption|discriminate]|discriminate]..|
                                 apply holdsK_other; [apply holdsK_other; [assumption|discriminate]|discriminate]].
            -- apply acc_other; [|discriminate]. apply acc_other; [auto|discriminate].
            -- apply HO; [auto|]. apply HO; auto.
        + apply sim_ret. simpl. repeat split; auto; apply HA1.
      - intros ll2 m2 [A2 ll2'] (E2 & HM2 & HN2 & HA2 & (K1 & K2 & K3) & Hac2 & Hm2). simpl in E2, HM2, HN2, HA2. subst ll2'.
        eapply sim_wrk; [exact K3|apply cw_x|intros L3].
        eapply sim_wrn; [apply holdsN_other; [exact K1|discriminate]|apply cw_ix|intros L1].
        apply sim_ret. split; [reflexivity|]. split; [auto|]. split; [auto|]. split; [|split; [split; [|split]|split]].
        + apply holds_other; try discriminate. apply holds_other; auto; discriminate.
        + simpl. apply holdsN_set; [|auto]. apply holdsN_other; [auto|discriminate].
        + simpl. apply holdsN_other; [|discriminate]. apply holdsN_other; [auto|discriminate].
        + simpl. apply holdsK_other; [|discriminate]. apply holdsK_set; auto.
        + apply acc_other; [|discriminate]. apply acc_other; [auto|discriminate].
        + apply HR; [auto|]. apply HR; auto. }
    destruct (jind =? i).
    - eapply sim_reduce; [exact Hac1|]. apply REST.
      + apply holds_other; auto; discriminate.
      + apply holds_ws_other; [split; auto|discriminate..].
      + unfold acc_is. apply mset_same.
      + apply HC. exact Hm1.
    - apply REST; auto. split; auto.
  Qed.

  (** one row *)
  Definition x2R (X C : ell F) (t : nat) (tx tx2 : F) (m : mem) : Prop :=
    holds m 0 C /\ holds m 1 X /\ acc_is m t 0 tx /\ acc_is m t 1 tx2.
  Definition x2in (X : ell F) (t : nat) (tx : F) (m : mem) : Prop := holds m 1 X /\ acc_is m t 0 tx.

  Lemma x2R_ws X C t tx tx2 : ws_stable t (x2R X C t tx tx2).
  Proof.
    intros m a k v Ha (H1 & H2 & H3 & H4).
    split; [|split; [|split]]; [(apply holds_other; [assumption|..])..|apply acc_other; [assumption|]|apply acc_other; [assumption|]];
      destruct Ha as [Ha|[Ha|Ha]]; rewrite Ha; discriminate.
  Qed.
  Lemma x2in_ws X t tx : ws_stable t (x2in X t tx).
  Proof.
    intros m a k v Ha (H1 & H2).
    split; [apply holds_other; [assumption|..]|apply acc_other; [assumption|]];
      destruct Ha as [Ha|[Ha|Ha]]; rewrite Ha; discriminate.
  Qed.
  Lemma x2in_out X t tx : out_stable (x2in X t tx).
  Proof.
    intros m a k v Ha (H1 & H2).
    split; [apply holds_other; [assumption|..]|apply acc_other; [assumption|]];
      destruct Ha as [Ha|[Ha|Ha]]; rewrite Ha; discriminate.
  Qed.
  Lemma x2in_acc X t tx : acc1_stable t (x2in X t tx).
  Proof.
    intros m v (H1 & H2). split; [apply holds_other; [assumption|discriminate..]|].
    unfold acc_is. rewrite mset_other by congruence. exact H2.
  Qed.

  (** the private state of a thread *)
  Definition holds_x2 (m : mem) (t : nat) (w : wsp F * F * F) : Prop :=
    holds_ws m t (fst (fst w)) /\ acc_is m t 0 (snd (fst w)) /\ acc_is m t 1 (snd w).

  Lemma x2_row_sim keep (X C : ell F) t i w m C' w' :
    eM C = M -> eN X = eN C -> thr i = t ->
    holds m 0 C -> holds_x2 m t w -> holds m 1 X ->
    x2_row keep (fun _ => X) i (C, w) = Ok (C', w') ->
    exists m', run loc_eq_dec own t None (p_x2_row keep (eN C) (eM X) M t i) m = Some (tt, m') /\
      holds m' 0 C' /\ holds_x2 m' t w' /\ holds m' 1 X.
  Proof.
    destruct w as [[w tx] tx2]. intros HM HN Ht HC (Hw & Hx & Hx2) HX E. cbn [fst snd] in *. unfold x2_row in E.
    match type of E with context [bind ?X _] => destruct X as [[[w1 l] tx1]| | |] eqn:El; try discriminate end.
    cbn [bind] in E.
    match type of E with context [bind ?X _] => destruct X as [[[[C1 w2] tx21] ll]| | |] eqn:Eg; try discriminate end.
    cbn [bind] in E. destruct (Nat.ltb_spec (eM C1) ll) as [|Hll]; [discriminate|].
    (* the product loop *)
    assert (S1 : sim t
      (p_for_row 1 (eN X) (eM X) i (fun j a l =>
            pbind (if j =? i then p_reduce t 0 a else Ret tt) (fun _ =>
            p_for_row 1 (eN X) (eM X) j (fun k b l => p_acc t i k (kmul a b) l) l)) 0) m
      (e_for_row X i (fun j a '(w, l, tx) =>
        let tx := if j =? i then kadd tx a else tx in
        '(w, l) <- e_for_row X j (fun k b s => ws_acc k0 kadd i k (kmul a b) s) (w, l) ;;
        Ok (w, l, tx)) (w, 0, tx))
      (fun l m s => accI t (x2R X C t (snd s) tx2) l m (fst s))).
    { apply sim_for_row with (I := fun l m (s : wsp F * nat * F) => accI t (x2R X C t (snd s) tx2) l m (fst s)).
      - intros a m1 s (_ & _ & _ & Hy & _). exact Hy.
      - apply cr_shared. reflexivity.
      - intros j _. split; apply cr_shared; reflexivity.
      - intros j a l0 m1 [[w0 l0'] tx0] HI. cbn [fst snd] in HI.
        assert (IN : forall m1 tx1, accI t (x2R X C t tx1 tx2) l0 m1 (w0, l0') ->
           sim t (p_for_row 1 (eN X) (eM X) j (fun k b l => p_acc t i k (kmul a b) l) l0) m1
             ('(w, l) <- e_for_row X j (fun k b s => ws_acc k0 kadd i k (kmul a b) s) (w0, l0') ;; Ok (w, l, tx1))
             (fun l m (s : wsp F * nat * F) => accI t (x2R X C t (snd s) tx2) l m (fst s))).
        { clear m1 HI. intros m1 tx9 HI b Hb.
          destruct (e_for_row X j (fun k b s => ws_acc k0 kadd i k (kmul a b) s) (w0, l0')) as [[w9 l9]| | |] eqn:E9; try discriminate.
          cbn [bind] in Hb. injection Hb as <-. cbn [fst snd].
          assert (SI : sim t (p_for_row 1 (eN X) (eM X) j (fun k b l => p_acc t i k (kmul a b) l) l0) m1
             (e_for_row X j (fun k b s => ws_acc k0 kadd i k (kmul a b) s) (w0, l0')) (accI t (x2R X C t tx9 tx2))).
          { apply sim_for_row with (I := accI t (x2R X C t tx9 tx2)); auto.
            - intros a' m2 s2 (_ & _ & _ & Hy & _). exact Hy.
            - intros k b l1 m2 s2 HI2. apply sim_acc; [apply x2R_ws|exact HI2]. }
          exact (SI _ E9). }
        cbv zeta. destruct (j =? i); [|apply IN; exact HI].
        destruct HI as (E0 & G1 & G2 & G3 & G4 & G5). cbn [fst snd] in *.
        eapply sim_reduce; [exact G4|]. apply IN. split; [exact E0|]. cbn [fst]. split; [|split; [|split; [|split]]].
        + apply holds_ws_other; [auto|discriminate..].
        + apply holds_other; [auto|discriminate..].
        + apply holds_other; [auto|discriminate..].
        + unfold acc_is. apply mset_same.
        + unfold acc_is. rewrite mset_other by congruence. exact G5.
      - split; [reflexivity|]. split; [exact Hw|]. split; [exact HC|]. split; [exact HX|]. split; assumption. }
    destruct (S1 _ El) as (l' & m1 & Er1 & (El' & Hw1 & HC1 & HX1 & Hx1 & Hx21)). cbn [fst snd] in *. subst l'.
    assert (HM1 : eM C1 = M /\ ll <= M).
    { assert (G : eM C1 = eM C); [|lia].
      exact (gx_dims _ _ _ _ _ _ _ _ _ _ _ _ Eg). }
    destruct HM1 as [HM1 Hll2].
    apply gx_eq in Eg; [|exact Hll2].
    destruct (sim_gather_x2 (kc_offdiag keep i) t i l (x2in X t tx1) Ht (x2in_ws X t tx1) (x2in_out X t tx1) (x2in_acc X t tx1)
                m1 C w1 tx2 HM HC1 Hw1 Hx21 (conj HX1 Hx1) _ Eg) as (ll' & m2 & Er2 & (El' & _ & HN1 & HC2 & Hw2 & Hx22 & HX2 & Hx12)).
    subst ll'.
    assert (S3 : sim t (p_wnnz 0 i ll) m2 (bind (e_wnnz C1 i ll) (fun C => Ok (C, (w2, tx1, tx21))))
      (fun _ m' r => holds m' 0 (fst r) /\ holds_x2 m' t (snd r) /\ holds m' 1 X)).
    { apply sim_unit_r. apply sim_wnnz; [exact Ht|exact HC2|]. intros Hi A1 HA1. apply sim_ret. cbn [fst snd].
      split; [exact HA1|]. split; [|apply holds_other; auto; discriminate].
      split; [|split]; cbn [fst snd]; [apply holds_ws_other; auto; discriminate|apply acc_other; [auto|discriminate]..]. }
    destruct (S3 _ E) as ([] & m3 & Er3 & H1 & H2 & H3). cbn [fst snd] in *.
    exists m3. split; [|auto]. unfold p_x2_row. rewrite <- HN.
    rewrite (run_bind loc_eq_dec _ _ _ _ _ _ _ _ Er1). rewrite HN.
    rewrite (run_bind loc_eq_dec _ _ _ _ _ _ _ _ Er2).
    destruct (Nat.ltb_spec M ll); [lia|]. exact Er3.
  Qed.

  Lemma run_x2_other t (p : pr unit) m m' : run loc_eq_dec own t None p m = Some (tt, m') ->
    forall t' w, t' <> t -> holds_x2 m t' w -> holds_x2 m' t' w.
  Proof.
    intros Er t' w Hne (H1 & H2 & H3). split; [eapply run_ws_other; eauto|].
    split; unfold acc_is in *; (erewrite run_frame; [eassumption|exact Er|]);
      unfold can_write, own_of; simpl; now apply Nat.eqb_neq.
  Qed.
End X2.

Section X2all.
  Context {F : scalar}.
  Local Notation mem := (mem loc (val F)).

  Lemma interleaved_x2 keep (X X2 : ell F) nth sched (m : mem) :
    wf X -> wf X2 -> eN X2 = eN X -> full_sched (eN X) nth sched ->
    (forall i, i < eN X -> count (eN X) (fun j => (Nat.eqb i j || keep (mmul (eN X) (emat X) (emat X) i j))%bool) <= eM X2) ->
    holds m 0 X2 -> holds m 1 X ->
    (forall t, t < nth -> holds_ws m t (ws_new k0 (eN X)) /\
       m (aAcc t, 0) = Some (VK k0) /\ m (aAcc t, 1) = Some (VK k0)) ->
    exists C, wf C /\ same_dims X2 C /\
      meq (eN X) (emat C) (mcut_offdiag keep (mmul (eN X) (emat X) (emat X))) /\
      all_interleavings (p_x2_row keep (eN X) (eM X) (eM X2)) sched m (fun m' =>
        holds m' 0 C /\ holds m' 1 X /\
        exists trX trX2 : nat -> F,
          (forall t, t < nth -> m' (aAcc t, 0) = Some (VK (trX t)) /\ m' (aAcc t, 1) = Some (VK (trX2 t))) /\
          bigsum nth trX = mtrace (eN X) (emat X) /\
          bigsum nth trX2 = mtrace (eN X) (mmul (eN X) (emat X) (emat X))).
  Proof.
    intros HX HX2 HN HS Hf H0 H1 Hw.
    destruct (multiply_x2_spec keep X X2 nth sched HX HX2 HN HS Hf) as (C & E & W & D & Q).
    exists C. split; [exact W|]. split; [exact D|]. split; [exact Q|].
    destruct HS as [HP Hth]. destruct (sched_facts _ _ HP) as [Hnd Hin].
    unfold ell_multiply_x2 in E.
    match type of E with context [bind ?X _] => destruct X as [[C1 w1]| | |] eqn:Ep; try discriminate end.
    cbn [bind] in E. injection E as -> T1 T2.
    destruct (rows_atomic (fun w : wsp F * F * F => clean (eN X) (fst (fst w))) (@holds_x2 F) (thr_of sched) (eM X2) (fun k => k) X2
       (x2_row keep (fun _ => X)) (fun t i => p_x2_row keep (eN X) (eM X) (eM X2) t i)
       (mulrow keep X X) False (fun m => holds m 1 X) (seq 0 nth))
       with (sched := sched) (m := m) (w := fun _ : nat => (ws_new (@k0 F) (eN X), @k0 F, @k0 F)) (A' := C) (w' := w1)
      as (m' & Ha & Hc' & Hr' & Hw'); auto.
    - intros. eapply run_x2_other; eauto.
    - intros. apply wf_nnz; auto.
    - apply HX2.
    - intros i C1 [[w tx] tx2] Hi (D1 & D2) Hs _ Hc. cbn [fst] in Hc.
      assert (Hcap : length (mulrow keep X X i) <= eM X2).
      { rewrite HN in Hi. apply mulrow_fits_count; auto. eapply Nat.le_trans; [|apply (Hf i Hi)].
        apply Nat.eq_le_incl. unfold count. f_equal. apply filter_ext. intros j. unfold kc_offdiag.
        rewrite (Nat.eqb_sym j i). destruct (i =? j); auto. }
      eapply wp_mono; [apply (x2_row_ok keep X C1 (fun _ => X)); auto; try congruence; rewrite ?D2 in *; lia|].
      intros r (G1 & G2 & G3). auto.
    - intros t i C1 w m1 C2 w2 Hi Ht (D1 & D2) _ Hh Hws Hin1 Em _.
      rewrite <- HN, D1. apply (x2_row_sim (thr_of sched) (eM X2) (fun k => k) keep X C1 t i w m1 C2 w2); auto; congruence.
    - intros t i Hx. destruct (Hin t i Hx) as (G1 & G2 & _). rewrite HN. split; [auto|]. split; [auto|].
      apply in_seq. assert (t < nth) by (eapply Hth; eauto). lia.
    - intros t Ht. apply in_seq in Ht. destruct (Hw t ltac:(lia)) as (G1 & G2 & G3). split; [auto|split; auto].
    - intros t. apply clean_new.
    - eapply interleave; [exact Ha|]. intros m2 Em. split; [eapply holds_ext; eauto|]. split; [eapply holds_ext; eauto|].
      exists (fun t => snd (fst (w1 t))), (fun t => snd (w1 t)). split; [|split; assumption].
      intros t Ht. rewrite !Em. destruct (Hw' t) as (_ & G2 & G3); [apply in_seq; lia|]. split; assumption.
  Qed.
End X2all.
