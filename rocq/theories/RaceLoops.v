(** Simulation of the single loops. *)
From Verif Require Import Base BaseFacts Spec SpecFacts EllpackModel EllpackSpec EllpackFacts
  ThreadModel ThreadFacts RaceModel RaceSpec RaceSim.

Section Loops.
  Context {F : scalar}.
  Local Notation mem := (mem loc (val F)).
  Local Notation pr := (prog loc (val F)).
  Local Notation mset := (mset loc_eq_dec).
  Variables (thr : nat -> nat) (M : nat) (dr : nat -> nat).
  Local Notation own := (own_of thr M dr).
  Local Notation sim := (sim own).
  Local Notation cr t l := (can_read own t None l = true).
  Local Notation cw t l := (can_write own t None l = true).

  Lemma row_div i j : j < M -> ROWMAJOR i j 0 M / M = i.
  Proof. intros H. unfold ROWMAJOR. rewrite Nat.div_add_l by lia. rewrite Nat.div_small; lia. Qed.

  Lemma cw_val0 t i j N : thr i = t -> j < M -> cw t (aVal 0, ROWMAJOR i j N M).
  Proof. intros H Hj. unfold can_write, own_of; simpl. change (ROWMAJOR i j N M) with (ROWMAJOR i j 0 M).
         rewrite row_div by auto. rewrite H. apply Nat.eqb_refl. Qed.
  Lemma cw_idx0 t i j N : thr i = t -> j < M -> cw t (aIdx 0, ROWMAJOR i j N M).
  Proof. intros H Hj. unfold can_write, own_of; simpl. change (ROWMAJOR i j N M) with (ROWMAJOR i j 0 M).
         rewrite row_div by auto. rewrite H. apply Nat.eqb_refl. Qed.
  Lemma cw_nnz0 t i : thr i = t -> cw t (aNnz 0, i).
  Proof. intros H. unfold can_write, own_of; simpl. rewrite H. apply Nat.eqb_refl. Qed.
  Lemma cw_dense0 t k : thr (dr k) = t -> cw t (aDense 0, k).
  Proof. intros H. unfold can_write, own_of; simpl. rewrite H. apply Nat.eqb_refl. Qed.
  Lemma cr_val0 t i j N : thr i = t -> j < M -> cr t (aVal 0, ROWMAJOR i j N M).
  Proof. intros. apply can_write_read. now apply cw_val0. Qed.
  Lemma cr_idx0 t i j N : thr i = t -> j < M -> cr t (aIdx 0, ROWMAJOR i j N M).
  Proof. intros. apply can_write_read. now apply cw_idx0. Qed.
  Lemma cr_nnz0 t i : thr i = t -> cr t (aNnz 0, i).
  Proof. intros. apply can_write_read. now apply cw_nnz0. Qed.
  Lemma cw_ix t k : cw t (aIx t, k).
  Proof. unfold can_write, own_of; simpl. apply Nat.eqb_refl. Qed.
  Lemma cw_jx t k : cw t (aJx t, k).
  Proof. unfold can_write, own_of; simpl. apply Nat.eqb_refl. Qed.
  Lemma cw_x t k : cw t (aX t, k).
  Proof. unfold can_write, own_of; simpl. apply Nat.eqb_refl. Qed.
  Lemma cw_acc t k : cw t (aAcc t, k).
  Proof. unfold can_write, own_of; simpl. apply Nat.eqb_refl. Qed.

  Lemma holds_other m o (A : ell F) b k v : holds m o A ->
    b <> aVal o -> b <> aIdx o -> b <> aNnz o -> holds (mset m (b, k) v) o A.
  Proof.
    intros (H1 & H2 & H3) ? ? ?. repeat split; [now apply holdsK_other|now apply holdsN_other..].
  Qed.
  Lemma holds_ws_other m t (w : wsp F) b k v : holds_ws m t w ->
    b <> aIx t -> b <> aJx t -> b <> aX t -> holds_ws (mset m (b, k) v) t w.
  Proof.
    intros (H1 & H2 & H3) ? ? ?. split; [|split]; [now apply holdsN_other..|now apply holdsK_other].
  Qed.

  (** for (jp = 0; jp < A_nnz[i]; jp++): the matrix does not change in the loop *)
  Lemma sim_for_row {S T} t o (A : ell F) i (pb : nat -> F -> S -> pr S) (b : nat -> F -> T -> res T)
        (I : S -> mem -> T -> Prop) :
    (forall a m s, I a m s -> holds m o A) ->
    cr t (aNnz o, i) ->
    (forall j, j < nnz A i -> cr t (aVal o, ROWMAJOR i j (eN A) (eM A)) /\ cr t (aIdx o, ROWMAJOR i j (eN A) (eM A))) ->
    (forall k v a m s, I a m s -> sim t (pb k v a) m (b k v s) I) ->
    forall a m s, I a m s -> sim t (p_for_row o (eN A) (eM A) i pb a) m (e_for_row A i b s) I.
  Proof.
    intros HA Hn Hc Hb a m s HI. unfold p_for_row, e_for_row, p_nnz, e_nnz.
    eapply sim_rdn; [apply (HA _ _ _ HI)|exact Hn|]. intros n En.
    assert (Hnn : n = nnz A i) by (symmetry; apply nth_error_nth; exact En).
    apply sim_for_n; [|exact HI]. intros jp a' m' s' Hjp HI'.
    eapply sim_extra_n; [apply (HA _ _ _ HI')|exact Hn|exact En|].
    destruct (Nat.ltb_spec jp n); [|lia].
    destruct (Hc jp) as [Hv Hi]; [lia|]. unfold p_idx, p_val, e_idx, e_val.
    eapply sim_rdn; [apply (HA _ _ _ HI')|exact Hi|]. intros k Ek.
    eapply sim_rdk; [apply (HA _ _ _ HI')|exact Hv|]. intros v Ev.
    apply Hb. exact HI'.
  Qed.

  (** ** The work arrays *)
  Definition ws_stable (t : nat) (R : mem -> Prop) : Prop :=
    forall m a k v, a = aIx t \/ a = aJx t \/ a = aX t -> R m -> R (mset m (a, k) v).

  Definition accI (t : nat) (R : mem -> Prop) (l : nat) (m : mem) (s : wsp F * nat) : Prop :=
    l = snd s /\ holds_ws m t (fst s) /\ R m.

  Lemma sim_acc t R i k v : ws_stable t R -> forall l m s, accI t R l m s ->
    sim t (p_acc t i k v l) m (ws_acc k0 kadd i k v s) (accI t R).
  Proof.
    intros HR l m [w l'] (El & (H1 & H2 & H3) & Hm). simpl in El. subst l'.
    unfold p_acc, ws_acc, ws_mark, ws_plus. simpl fst in *.
    cbn [snd].
    intros b Hb.
    destruct (rd (wix w) k) as [mk| | |] eqn:Em; try discriminate. simpl in Hb.
    revert b Hb. unfold rd in Em. destruct (nth_error (wix w) k) as [mk'|] eqn:Em'; [|discriminate].
    injection Em as ->.
    change (sim t (pbind (rdn (aIx t, k)) (fun mm => pbind
       (if mm =? 0 then pbind (wrk (aX t, k) k0) (fun _ => pbind (wrn (aIx t, k) (i + 1)) (fun _ => pbind (wrn (aJx t, l) k) (fun _ => Ret (S l)))) else Ret l)
       (fun l => pbind (rdk (aX t, k)) (fun xk => pbind (wrk (aX t, k) (kadd xk v)) (fun _ => Ret l))))) m
       (bind (if mk =? 0 then x' <- wr (wx w) k k0 ;; ix' <- wr (wix w) k (i + 1) ;; jx' <- wr (wjx w) l k ;; Ok (mkWs ix' jx' x', S l) else Ok (w, l))
         (fun s => let '(w, l) := s in xk <- rd (wx w) k ;; x' <- wr (wx w) k (kadd xk v) ;; Ok (mkWs (wix w) (wjx w) x', l))) (accI t R)).
    eapply sim_extra_n; [exact H1|apply can_write_read, cw_ix|exact Em'|].
    eapply sim_bind with (Q1 := accI t R).
    - destruct (mk =? 0); [|apply sim_ret; repeat split; auto].
      eapply sim_wrk; [exact H3|apply cw_x|intros L3].
      eapply sim_wrn; [apply holdsN_other; [exact H1|discriminate]|apply cw_ix|intros L1].
      eapply sim_wrn; [apply holdsN_other; [apply holdsN_other; [exact H2|discriminate]|discriminate]|apply cw_jx|intros L2].
      apply sim_ret. split; [reflexivity|]. split; [split; [|split]|]; simpl.
      + apply holdsN_other; [|discriminate]. apply holdsN_set; [|auto]. apply holdsN_other; [auto|discriminate].
      + apply holdsN_set; [|auto]. apply holdsN_other; [|discriminate]. apply holdsN_other; [auto|discriminate].
      + apply holdsK_other; [|discriminate]. apply holdsK_other; [|discriminate]. apply holdsK_set; auto.
      + apply HR; [auto|]. apply HR; [auto|]. apply HR; auto.
    - intros l1 m1 [w1 l1'] (E1 & (K1 & K2 & K3) & Hm1). simpl in E1, K1, K2, K3. subst l1'.
      eapply sim_rdk; [exact K3|apply can_write_read, cw_x|intros xk Exk].
      eapply sim_wrk; [exact K3|apply cw_x|intros L].
      apply sim_ret. split; [reflexivity|]. split; [split; [|split]|]; simpl.
      + apply holdsN_other; [auto|discriminate].
      + apply holdsN_other; [auto|discriminate].
      + apply holdsK_set; auto.
      + apply HR; auto.
  Qed.

  (** ** The gather loop *)

  (** the same loop with a test that the row has room *)
  Definition gather1 (kc : nat -> F -> bool) (i : nat) (jp : nat) (s : ell F * wsp F * unit * nat) :
    res (ell F * wsp F * unit * nat) :=
    let '(A, w, t, ll) := s in
    jind <- rd (wjx w) jp ;;
    xtmp <- rd (wx w) jind ;;
    '(A, ll) <- (if kc jind xtmp
                 then if ll <? M then A1 <- e_put A i ll jind xtmp ;; Ok (A1, S ll) else UB
                 else Ok (A, ll)) ;;
    x' <- wr (wx w) jind k0 ;;
    ix' <- wr (wix w) jind 0 ;;
    Ok (A, mkWs ix' (wjx w) x', t, ll).

  Definition gather0 (kc : nat -> F -> bool) (i : nat) (jp : nat) (s : ell F * wsp F * unit * nat) :
    res (ell F * wsp F * unit * nat) :=
    let '(A, w, t, ll) := s in
    jind <- rd (wjx w) jp ;;
    xtmp <- rd (wx w) jind ;;
    '(A, ll) <- (if kc jind xtmp
                 then A1 <- e_put A i ll jind xtmp ;; Ok (A1, S ll)
                 else Ok (A, ll)) ;;
    x' <- wr (wx w) jind k0 ;;
    ix' <- wr (wix w) jind 0 ;;
    Ok (A, mkWs ix' (wjx w) x', t, ll).

  Lemma gather0_step kc i jp A w t ll A' w' t' ll' :
    gather0 kc i jp (A, w, t, ll) = Ok (A', w', t', ll') ->
    ll <= ll' /\ (ll' <= M -> gather1 kc i jp (A, w, t, ll) = Ok (A', w', t', ll')).
  Proof.
    unfold gather0, gather1. intros E.
    destruct (rd (wjx w) jp) as [jind| | |]; try discriminate. simpl in *.
    destruct (rd (wx w) jind) as [xtmp| | |]; try discriminate. simpl in *.
    destruct (kc jind xtmp); simpl in *.
    - destruct (e_put A i ll jind xtmp) as [A1| | |] eqn:Ep; try discriminate. simpl in *.
      destruct (wr (wx w) jind k0); try discriminate. simpl in *.
      destruct (wr (wix w) jind 0); try discriminate. simpl in *.
      injection E as <- <- <- <-. split; [lia|]. intros Hl.
      destruct (Nat.ltb_spec ll M); [|lia]. reflexivity.
    - destruct (wr (wx w) jind k0); try discriminate. simpl in *.
      destruct (wr (wix w) jind 0); try discriminate. simpl in *.
      injection E as <- <- <- <-. split; [lia|auto].
  Qed.

  Lemma gather0_forM kc i jps : forall A w t ll A' w' t' ll',
    forM jps (gather0 kc i) (A, w, t, ll) = Ok (A', w', t', ll') ->
    ll <= ll' /\ (ll' <= M -> forM jps (gather1 kc i) (A, w, t, ll) = Ok (A', w', t', ll')).
  Proof.
    induction jps as [|jp jps IH]; intros A w t ll A' w' t' ll' E; cbn [forM] in *.
    - injection E as <- <- <- <-. auto.
    - destruct (gather0 kc i jp (A, w, t, ll)) as [[[[A1 w1] t1] ll1]| | |] eqn:E1; try discriminate.
      cbn [bind] in E. destruct (gather0_step _ _ _ _ _ _ _ _ _ _ _ E1) as [L1 H1].
      destruct (IH _ _ _ _ _ _ _ _ E) as [L2 H2]. split; [lia|]. intros Hl.
      rewrite H1 by lia. cbn [bind]. auto.
  Qed.

  Lemma gather_eq kc i l (A : ell F) w A' w' u ll' :
    ws_gather k0 (fun x => x) kc (fun _ _ t => t) i l A w tt = Ok (A', w', u, ll') -> ll' <= M ->
    for_n l (gather1 kc i) (A, w, tt, 0) = Ok (A', w', u, ll').
  Proof.
    intros E Hl. unfold ws_gather, for_n in *.
    destruct (gather0_forM kc i (seq 0 l) A w tt 0 A' w' u ll') as [_ H]; auto.
  Qed.

  Definition gatI (t : nat) (R : mem -> Prop) (ll : nat) (m : mem) (s : ell F * wsp F * unit * nat) : Prop :=
    let '(A, w, _, ll') := s in
    ll = ll' /\ eM A = M /\ holds m 0 A /\ holds_ws m t w /\ R m.

  (** stable under the writes of row i and of the work arrays *)
  Definition out_stable (R : mem -> Prop) : Prop :=
    forall m a k v, a = aVal 0 \/ a = aIdx 0 \/ a = aNnz 0 -> R m -> R (mset m (a, k) v).

  Lemma holds_put m (A : ell F) kv v ki c : holds m 0 A ->
    kv < length (eval A) -> ki < length (eidx A) ->
    holds (mset (mset m (aVal 0, kv) (VK v)) (aIdx 0, ki) (VN c)) 0
          (mkEll (eN A) (eM A) (set_nth (eval A) kv v) (set_nth (eidx A) ki c) (ennz A)).
  Proof.
    intros (H1 & H2 & H3) Hv Hi. split; [|split]; simpl.
    - apply holdsK_other; [|discriminate]. now apply holdsK_set.
    - apply holdsN_set; [|auto]. apply holdsN_other; [auto|discriminate].
    - apply holdsN_other; [|discriminate]. apply holdsN_other; [auto|discriminate].
  Qed.

  Lemma sim_gather kc t i l R : thr i = t -> ws_stable t R -> out_stable R ->
    forall m A w, eM A = M -> holds m 0 A -> holds_ws m t w -> R m ->
    sim t (p_gather kc 0 (eN A) M t i l) m (for_n l (gather1 kc i) (A, w, tt, 0))
      (fun ll m' s => gatI t R ll m' s /\ eN (fst (fst (fst s))) = eN A).
  Proof.
    intros Ht HR HO m A w HM HA Hw Hm.
    unfold p_gather. apply sim_for_n with (I := fun ll m' s => gatI t R ll m' s /\ eN (fst (fst (fst s))) = eN A);
      [|repeat split; auto; apply HA || apply Hw].
    intros jp ll m1 [[[A1 w1] []] ll1] Hjp ((El & HM1 & HA1 & (H1 & H2 & H3) & Hm1) & HN1).
    simpl in HN1. subst ll1. unfold gather1.
    eapply sim_rdn; [exact H2|apply can_write_read, cw_jx|intros jind Ej].
    eapply sim_rdk; [exact H3|apply can_write_read, cw_x|intros xtmp Ex].
    eapply sim_bind with (Q1 := fun ll m' (s : ell F * nat) =>
      ll = snd s /\ eM (fst s) = M /\ eN (fst s) = eN A /\ holds m' 0 (fst s) /\ holds_ws m' t w1 /\ R m').
    - destruct (kc jind xtmp).
      + destruct (Nat.ltb_spec ll M) as [Hll|]; [|intros ? ?; discriminate].
        unfold e_put, e_wval, e_widx. rewrite HM1, HN1.
        pose proof HA1 as (G1 & G2 & G3).
        intros b Hb.
        destruct (wr (eval A1) (ROWMAJOR i ll (eN A) M) xtmp) as [va| | |] eqn:Ev; try discriminate.
        simpl in Hb. rewrite ?HM1, ?HN1 in Hb.
        destruct (wr (eidx A1) (ROWMAJOR i ll (eN A) M) jind) as [ia| | |] eqn:Ei; try discriminate.
        simpl in Hb. injection Hb as <-.
        unfold wr in Ev, Ei.
        destruct (Nat.ltb_spec (ROWMAJOR i ll (eN A) M) (length (eval A1))) as [Lv|]; [|discriminate].
        destruct (Nat.ltb_spec (ROWMAJOR i ll (eN A) M) (length (eidx A1))) as [Li|]; [|discriminate].
        injection Ev as <-. injection Ei as <-.
        destruct (nth_error_lt _ _ Lv) as (ov & Eov). destruct (nth_error_lt _ _ Li) as (oi & Eoi).
        eexists. eexists. split.
        * unfold p_wval, p_widx, wrk, wrn. cbn [pbind run].
          rewrite (cw_val0 t i ll (eN A) Ht Hll), (G1 _), Eov. cbn [option_map].
          rewrite (cw_idx0 t i ll (eN A) Ht Hll).
          rewrite mset_other by discriminate. rewrite (G2 _), Eoi. cbn [option_map]. reflexivity.
        * cbn [fst snd eM eN]. split; [reflexivity|]. split; [auto|]. split; [auto|].
          split; [|split].
          -- rewrite <- HM1, <- HN1 in *. apply holds_put; auto.
          -- split; [|split]; [apply holdsN_other; [apply holdsN_other; [assumption|discriminate]|discriminate]..|
                               apply holdsK_other; [apply holdsK_other; [assumption|discriminate]|discriminate]].
          -- apply HO; [auto|]. apply HO; auto.
      + apply sim_ret. simpl. repeat split; auto; apply HA1.
    - intros ll2 m2 [A2 ll2'] (E2 & HM2 & HN2 & HA2 & (K1 & K2 & K3) & Hm2). simpl in E2, HM2, HN2, HA2. subst ll2'.
      eapply sim_wrk; [exact K3|apply cw_x|intros L3].
      eapply sim_wrn; [apply holdsN_other; [exact K1|discriminate]|apply cw_ix|intros L1].
      apply sim_ret. simpl. split; [|auto]. split; [reflexivity|]. split; [auto|]. split; [|split; [split; [|split]|]].
      + apply holds_other; try discriminate. apply holds_other; auto; discriminate.
      + simpl. apply holdsN_set; [|auto]. apply holdsN_other; [auto|discriminate].
      + simpl. apply holdsN_other; [|discriminate]. apply holdsN_other; [auto|discriminate].
      + simpl. apply holdsK_other; [|discriminate]. apply holdsK_set; auto.
      + apply HR; [auto|]. apply HR; auto.
  Qed.

  Lemma sim_wnnz {B C} t i n m (A : ell F) (f : unit -> pr B) (g : ell F -> res C) Q : thr i = t -> holds m 0 A ->
    (i < length (ennz A) -> let A' := mkEll (eN A) (eM A) (eval A) (eidx A) (set_nth (ennz A) i n) in
      holds (mset m (aNnz 0, i) (VN n)) 0 A' -> sim t (f tt) (mset m (aNnz 0, i) (VN n)) (g A') Q) ->
    sim t (pbind (p_wnnz 0 i n) f) m (bind (e_wnnz A i n) g) Q.
  Proof.
    intros Ht (H1 & H2 & H3) Hk. unfold p_wnnz, e_wnnz.
    intros b Hb. destruct (wr (ennz A) i n) as [ia| | |] eqn:Ei; try discriminate. simpl in Hb.
    unfold wr in Ei. destruct (Nat.ltb_spec i (length (ennz A))) as [Li|]; [|discriminate]. injection Ei as <-.
    destruct (nth_error_lt _ _ Li) as (oi & Eoi).
    edestruct (Hk Li) as (a & m' & Er & Hq); [|exact Hb|].
    { split; [|split]; simpl; [apply holdsK_other; [auto|discriminate]|apply holdsN_other; [auto|discriminate]|apply holdsN_set; auto]. }
    exists a, m'. split; [|auto]. simpl. rewrite (cw_nnz0 t i Ht), (H3 i), Eoi. simpl. exact Er.
  Qed.
End Loops.
