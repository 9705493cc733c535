(** Threshold, import, export and trace under all interleavings. *)
From Verif Require Import Base BaseFacts Spec SpecFacts EllpackModel EllpackSpec EllpackFacts
  EllpackArith EllpackMul EllpackMul2 EllpackMore EllpackOps ThreadModel ThreadFacts RaceModel RaceSpec RaceSim RaceLoops RacePar RaceEll.

Section EllLoops.
  Context {F : scalar}.
  Local Notation mem := (mem loc (val F)).
  Local Notation pr := (prog loc (val F)).
  Local Notation mset := (mset loc_eq_dec).

  (** ** threshold *)
  Lemma holds_val m (A : ell F) k v : holds m 0 A -> k < length (eval A) ->
    holds (mset m (aVal 0, k) (VK v)) 0 (mkEll (eN A) (eM A) (set_nth (eval A) k v) (eidx A) (ennz A)).
  Proof.
    intros (H1 & H2 & H3) Hk. split; [|split]; simpl;
      [now apply holdsK_set|apply holdsN_other; [auto|discriminate]..].
  Qed.
  Lemma holds_idx m (A : ell F) k v : holds m 0 A -> k < length (eidx A) ->
    holds (mset m (aIdx 0, k) (VN v)) 0 (mkEll (eN A) (eM A) (eval A) (set_nth (eidx A) k v) (ennz A)).
  Proof.
    intros (H1 & H2 & H3) Hk. split; [|split]; simpl;
      [apply holdsK_other; [auto|discriminate]|now apply holdsN_set|apply holdsN_other; [auto|discriminate]].
  Qed.
  Lemma holds_nnz m (A : ell F) k v : holds m 0 A -> k < length (ennz A) ->
    holds (mset m (aNnz 0, k) (VN v)) 0 (mkEll (eN A) (eM A) (eval A) (eidx A) (set_nth (ennz A) k v)).
  Proof.
    intros (H1 & H2 & H3) Hk. split; [|split]; simpl;
      [apply holdsK_other; [auto|discriminate]|apply holdsN_other; [auto|discriminate]|now apply holdsN_set].
  Qed.

  Definition thr_body (keep : F -> bool) (i : nat) (s : ell F * unit) : res (ell F * unit) :=
    let '(A, w) := s in
    n <- e_nnz A i ;;
    '(A, rlen) <- for_n n (fun j '(A, rlen) =>
            v <- e_val A i j ;;
            if keep v then
              A <- (if rlen <? j then
                      A <- e_wval A i rlen v ;; k <- e_idx A i j ;; e_widx A i rlen k
                    else Ok A) ;;
              Ok (A, S rlen)
            else Ok (A, rlen)) (A, 0%nat) ;;
        A <- e_wnnz A i rlen ;;
        Ok (A, w).

  Lemma thr_row_sim thr dr keep (A : ell F) t i m A' u :
    let M := eM A in
    thr i = t -> nnz A i <= M -> holds m 0 A ->
    thr_body keep i (A, tt) = Ok (A', u) ->
    exists m', run loc_eq_dec (own_of thr M dr) t None (p_threshold_row keep (eN A) M t i) m = Some (tt, m') /\
      holds m' 0 A'.
  Proof.
    intros M Ht Hn HA E.
    enough (S : sim (own_of thr M dr) t (p_threshold_row keep (eN A) M t i) m (thr_body keep i (A, tt))
                  (fun _ m' r => holds m' 0 (fst r))).
    { destruct (S _ E) as ([] & m' & Er & H). exists m'. auto. }
    clear E. unfold thr_body, p_threshold_row, p_nnz, e_nnz.
    eapply sim_rdn; [apply HA|now apply cr_nnz0|]. intros n En.
    assert (Hnn : n = nnz A i) by (symmetry; apply nth_error_nth; exact En).
    eapply sim_bind with (Q1 := fun rlen m' (s : ell F * nat) => rlen = snd s /\ holds m' 0 (fst s) /\
        eN (fst s) = eN A /\ eM (fst s) = M /\ ennz (fst s) = ennz A).
    - apply sim_for_n; [|simpl; auto 10].
      intros j rlen m1 [A1 rlen'] Hj (Er & HA1 & HN1 & HM1 & Hz1). cbn [fst snd] in *. subst rlen'.
      eapply sim_extra_n with (xs := ennz A); [rewrite <- Hz1; apply HA1|now apply cr_nnz0|exact En|].
      destruct (Nat.ltb_spec j n); [|lia].
      unfold e_val. rewrite HN1, HM1.
      eapply sim_rdk; [apply HA1|apply cr_val0; [auto|lia]|]. intros v Ev.
      destruct (keep v).
      + eapply sim_bind with (Q1 := fun _ m' (A2 : ell F) => holds m' 0 A2 /\
          eN A2 = eN A /\ eM A2 = M /\ ennz A2 = ennz A).
        * destruct (Nat.ltb_spec rlen j); [|apply sim_ret; auto].
          eapply sim_extra_k; [apply HA1|apply cr_val0; [auto|lia]|exact Ev|].
          apply sim_unit_r.
          unfold e_wval, e_idx, e_widx. rewrite HN1, HM1.
          intros b Hb.
          destruct (wr (eval A1) (ROWMAJOR i rlen (eN A) M) v) as [va| | |] eqn:Ewv; try discriminate.
          cbn [bind eidx eval ennz eN eM] in Hb.
          destruct (rd (eidx A1) (ROWMAJOR i j (eN A) M)) as [k| | |] eqn:Ek; try discriminate. cbn [bind] in Hb.
          destruct (wr (eidx A1) (ROWMAJOR i rlen (eN A) M) k) as [ia| | |] eqn:Ewi; try discriminate. cbn [bind] in Hb.
          injection Hb as <-.
          unfold wr in Ewv, Ewi. unfold rd in Ek.
          destruct (Nat.ltb_spec (ROWMAJOR i rlen (eN A) M) (length (eval A1))) as [Lv|]; [|discriminate].
          destruct (Nat.ltb_spec (ROWMAJOR i rlen (eN A) M) (length (eidx A1))) as [Li|]; [|discriminate].
          injection Ewv as <-. injection Ewi as <-.
          destruct (nth_error (eidx A1) (ROWMAJOR i j (eN A) M)) as [k'|] eqn:Ek'; [|discriminate].
          injection Ek as ->.
          destruct (nth_error_lt _ _ Lv) as (ov & Eov). destruct (nth_error_lt _ _ Li) as (oi & Eoi).
          pose proof HA1 as (G1 & G2 & G3).
          eexists. eexists. split.
          -- unfold p_wval, p_widx, p_idx, wrk, wrn, rdn. cbn [pbind run].
             rewrite (cw_val0 thr M dr t i rlen (eN A) Ht) by lia. rewrite (G1 _), Eov. cbn [option_map].
             rewrite (cr_idx0 thr M dr t i j (eN A) Ht) by lia.
             rewrite mset_other by discriminate. rewrite (G2 _), Ek'. cbn [option_map pbind run].
             rewrite (cw_idx0 thr M dr t i rlen (eN A) Ht) by lia.
             rewrite mset_other by discriminate. rewrite (G2 _), Eoi. cbn [option_map]. reflexivity.
          -- cbn [eN eM ennz]. split; [|auto]. rewrite <- HN1, <- HM1 in *. now apply holds_put.
        * intros _ m2 A2 (HA2 & HN2 & HM2 & Hz2). apply sim_ret. simpl. auto 10.
      + apply sim_ret. simpl. auto 10.
    - intros rlen m1 [A1 rlen'] (Er & HA1 & HN1 & HM1 & Hz1). cbn [fst snd] in *. subst rlen'.
      apply sim_unit_r. apply sim_wnnz; auto. intros Hi A2 HA2. apply sim_ret. exact HA2.
  Qed.

  Theorem threshold_all keep (A A' : ell F) sched m :
    wf A -> Permutation (map snd sched) (seq 0 (eN A)) ->
    ell_threshold keep A sched = Ok A' -> holds m 0 A ->
    all_interleavings (p_threshold_row keep (eN A) (eM A)) sched m (fun m' => holds m' 0 A').
  Proof.
    intros HA HP E H0. destruct (sched_facts _ _ HP) as [Hnd Hin]. pose proof HA as [HsA HrA].
    unfold ell_threshold in E.
    match type of E with context [bind ?X _] => destruct X as [[A1 w1]| | |] eqn:Ep; try discriminate end.
    cbn [bind] in E. injection E as ->.
    destruct (rows_atomic (fun _ : unit => True) (fun _ _ _ => True) (thr_of sched) (eM A) (fun k => k) A
       (thr_body keep) (fun t i => p_threshold_row keep (eN A) (eM A) t i)
       (fun i => cutrow keep (erow A i)) False (fun _ => True) (map fst sched))
       with (sched := sched) (m := m) (w := fun _ : nat => tt) (A' := A') (w' := w1)
      as (m' & Ha & Hc' & _ & _); auto.
    - intros; apply wf_nnz; auto.
    - intros i B w Hi [D1 D2] Hs HE _. unfold thr_body.
      destruct (HrA i Hi) as (R1 & R2 & R3).
      assert (HnB : (nnz B i <= eM B)%nat) by (rewrite <- erow_length, HE; congruence).
      rewrite e_nnz_ok by (auto; lia). cbn [bind]. apply wp_bind.
      eapply wp_mono; [apply EllpackMore.thr_row_ok; auto; lia|].
      intros [B' rl] [HM Hl]. simpl in *. rewrite HE in HM, Hl.
      destruct (rowpre_finish _ _ _ _ HM) as [E1 E2]; [lia|]. rewrite Hl, E1. simpl. split; [|auto].
      apply (cutrow_ok keep (eN A) (eM A)). auto.
    - intros t i A1 w m1 A2 w2 Hi Ht (D1 & D2) Hn1 Hh _ _ Em Hn2. destruct w.
      destruct (thr_row_sim (thr_of sched) (fun k => k) keep A1 t i m1 A2 w2) as (m2 & Er & H2); auto;
        [rewrite <- D2; auto|]. rewrite <- D2, <- D1 in Er. eauto.
    - eapply interleave; [exact Ha|]. intros m2 Em. eapply holds_ext; eauto.
  Qed.

  (** ** import *)
  Definition push1 (M : nat) (A : ell F) (i c : nat) (v : F) : res (ell F) :=
    n <- e_nnz A i ;; if n <? M then A1 <- e_put A i n c v ;; e_wnnz A1 i (S n) else UB.

  Lemma push_nnz (A A' : ell F) i c v : e_push A i c v = Ok A' -> nnz A' i = S (nnz A i).
  Proof.
    unfold e_push, e_nnz, e_put, e_wval, e_widx, e_wnnz. intros E.
    destruct (rd (ennz A) i) as [n| | |] eqn:En; try discriminate. cbn [bind] in E.
    destruct (wr (eval A) (ROWMAJOR i n (eN A) (eM A)) v); try discriminate. cbn [bind eidx eN eM ennz eval] in E.
    destruct (wr (eidx A) (ROWMAJOR i n (eN A) (eM A)) c); try discriminate. cbn [bind eidx eN eM ennz eval] in E.
    destruct (wr (ennz A) i (S n)) as [z| | |] eqn:Ez; try discriminate. cbn [bind] in E. injection E as <-.
    unfold nnz. cbn [ennz]. unfold wr in Ez. destruct (Nat.ltb_spec i (length (ennz A))); [|discriminate].
    injection Ez as <-. rewrite nth_set_nth_eq by auto. f_equal. unfold rd in En.
    destruct (nth_error (ennz A) i) as [n'|] eqn:E'; [|discriminate]. injection En as ->.
    symmetry. now apply nth_error_nth.
  Qed.

  Lemma import_eq M o (keep : F -> bool) N (D : list F) i js : forall A A' : ell F,
    forM js (fun j (A : ell F) => a <- dense_at o N D i j ;; if keep a then e_push A i j a else Ok A) A = Ok A' ->
    nnz A i <= nnz A' i /\
    (nnz A' i <= M ->
     forM js (fun j (A : ell F) => a <- dense_at o N D i j ;; if keep a then push1 M A i j a else Ok A) A = Ok A').
  Proof.
    induction js as [|j js IH]; intros A A' E; cbn [forM] in *; [injection E as <-; auto|].
    destruct (dense_at o N D i j) as [a| | |]; try discriminate. cbn [bind] in *.
    destruct (keep a).
    - destruct (e_push A i j a) as [A1| | |] eqn:Ep; try discriminate. cbn [bind] in E.
      pose proof (push_nnz _ _ _ _ _ Ep) as Hn. destruct (IH _ _ E) as [L H]. split; [lia|].
      intros HM. unfold push1. unfold e_push in Ep.
      destruct (e_nnz A i) as [n| | |] eqn:En; try discriminate. cbn [bind] in *.
      assert (n = nnz A i).
      { unfold e_nnz, rd in En. destruct (nth_error (ennz A) i) eqn:E'; [|discriminate]. injection En as <-.
        symmetry. now apply nth_error_nth. }
      destruct (Nat.ltb_spec n M); [|lia]. rewrite Ep. cbn [bind]. auto.
    - cbn [bind] in *. auto.
  Qed.

  Lemma sim_push thr M dr t (A : ell F) i c v m : eM A = M -> thr i = t -> holds m 0 A ->
    sim (own_of thr M dr) t (p_push 0 (eN A) M i c v) m (push1 M A i c v)
      (fun _ m' A' => holds m' 0 A' /\ eN A' = eN A /\ eM A' = M /\ (forall d k, d <> aVal 0 -> d <> aIdx 0 -> d <> aNnz 0 -> m' (d, k) = m (d, k))).
  Proof.
    intros HM Ht HA b E. unfold push1, e_nnz, e_put, e_wval, e_widx, e_wnnz in E.
    destruct (rd (ennz A) i) as [n| | |] eqn:En; try discriminate. cbn [bind] in E.
    destruct (Nat.ltb_spec n M) as [Hn|]; [|discriminate].
    destruct (wr (eval A) (ROWMAJOR i n (eN A) (eM A)) v) as [va| | |] eqn:Ev; try discriminate. cbn [bind eidx eN eM ennz eval] in E.
    destruct (wr (eidx A) (ROWMAJOR i n (eN A) (eM A)) c) as [ia| | |] eqn:Ei; try discriminate. cbn [bind eidx eN eM ennz eval] in E.
    destruct (wr (ennz A) i (S n)) as [z| | |] eqn:Ez; try discriminate. cbn [bind] in E. injection E as <-.
    unfold wr in *. unfold rd in En. destruct (nth_error (ennz A) i) as [n'|] eqn:En'; [|discriminate]. injection En as ->.
    destruct (Nat.ltb_spec (ROWMAJOR i n (eN A) (eM A)) (length (eval A))) as [Lv|]; [|discriminate].
    destruct (Nat.ltb_spec (ROWMAJOR i n (eN A) (eM A)) (length (eidx A))) as [Li|]; [|discriminate].
    destruct (Nat.ltb_spec i (length (ennz A))) as [Lz|]; [|discriminate].
    injection Ev as <-. injection Ei as <-. injection Ez as <-.
    destruct (nth_error_lt _ _ Lv) as (ov & Eov). destruct (nth_error_lt _ _ Li) as (oi & Eoi).
    pose proof HA as (G1 & G2 & G3). rewrite HM in *.
    eexists. eexists. split.
    - unfold p_push, p_wval, p_widx, p_wnnz, p_nnz, wrk, wrn, rdn. cbn [pbind run].
      rewrite (cr_nnz0 thr M dr t i Ht), (G3 i), En'. cbn [option_map pbind run].
      rewrite (cw_val0 thr M dr t i n (eN A) Ht) by lia. rewrite (G1 _), Eov. cbn [option_map pbind run].
      rewrite (cr_nnz0 thr M dr t i Ht). rewrite mset_other by discriminate. rewrite (G3 i), En'. cbn [option_map pbind run].
      rewrite (cw_idx0 thr M dr t i n (eN A) Ht) by lia. rewrite mset_other by discriminate. rewrite (G2 _), Eoi. cbn [option_map pbind run].
      rewrite (cr_nnz0 thr M dr t i Ht). rewrite !mset_other by discriminate. rewrite (G3 i), En'. cbn [option_map pbind run].
      rewrite (cw_nnz0 thr M dr t i Ht). rewrite !mset_other by discriminate. rewrite (G3 i), En'. cbn [option_map]. reflexivity.
    - cbn [eN eM]. split; [|split; [auto|split; [auto|]]].
      + rewrite <- HM in *.
        exact (holds_nnz _ (mkEll (eN A) (eM A) (set_nth (eval A) _ v) (set_nth (eidx A) _ c) (ennz A)) i (S n)
                 (holds_put m A _ v _ c HA Lv Li) Lz).
      + intros d k D1 D2 D3. rewrite !mset_other by congruence. reflexivity.
  Qed.

  Theorem import_all o keep N M (D : list F) (A' : ell F) sched m :
    0 < M -> length D = N * N -> Permutation (map snd sched) (seq 0 N) -> fits N M keep (dmat o N D) ->
    ell_import o N M keep D sched = Ok A' ->
    (forall A0, ell_zero N M = Ok A0 -> holds m 0 A0) -> holdsK m (aDense 1) D ->
    all_interleavings (p_import_row o keep N M) sched m (fun m' => holds m' 0 A' /\ holdsK m' (aDense 1) D).
  Proof.
    intros HM0 HL HP Hf E H0 HD. destruct (sched_facts _ _ HP) as [Hnd Hin].
    unfold ell_import in E.
    destruct (ell_zero_ok (F := F) N M HM0) as (A0 & E0 & HN & HM & Hs0 & Hr0). rewrite E0 in E. cbn [bind] in E.
    specialize (H0 A0 E0).
    match type of E with context [bind ?X _] => destruct X as [[A1 w1]| | |] eqn:Ep; try discriminate end.
    cbn [bind] in E. injection E as ->.
    destruct (rows_atomic (fun _ : unit => True) (fun _ _ _ => True) (thr_of sched) M (fun k => k) A0
       (fun i '(A, w) =>
        A <- e_wnnz A i 0 ;;
        A <- for_n N (fun j A =>
            a <- dense_at o N D i j ;;
            if keep a then e_push A i j a else Ok A) A ;;
        Ok (A, w)) (fun t i => p_import_row o keep N M t i)
       (fun i => drow keep N (dmat o N D i)) False (fun m => holdsK m (aDense 1) D) (map fst sched))
       with (sched := sched) (m := m) (w := fun _ : nat => tt) (A' := A') (w' := w1)
      as (m' & Ha & Hc' & Hd' & _); auto.
    - intros i _. rewrite <- erow_length, Hr0. simpl. lia.
    - intros i A w Hi [D1 D2] Hs HE _.
      rewrite e_wnnz_ok by (auto; lia). cbn [bind].
      assert (HU := wnnz_upd A i 0 Hs ltac:(lia)).
      pose proof HU as ((DU1 & DU2) & HUs & HUe & _).
      assert (EQ : for_n N (fun j A => a <- dense_at o N D i j ;; if keep a then e_push A i j a else Ok A) (wnnzp A i 0)
        = forM (map (fun j => (j, dmat o N D i j)) (seq 0 N))
            (fun kv A => if keep (snd kv) then e_push A i (fst kv) (snd kv) else Ok A) (wnnzp A i 0)).
      { rewrite forM_map. apply forM_ext. intros j A'' Hj. apply in_seq in Hj.
        rewrite dense_at_ok by (auto; lia). reflexivity. }
      rewrite EQ. apply wp_bind.
      assert (Hlen : length (drow keep N (dmat o N D i)) <= M) by (rewrite drow_length; apply Hf; lia).
      eapply wp_mono; [apply (push_loop (fun _ x => keep x)); simpl; auto; try lia|].
      + rewrite nnz_wnnzp, Nat.eqb_refl by (auto; lia).
        fold (drow keep N (dmat o N D i)). simpl. lia.
      + intros A'' HU'. simpl. split; [exact Hlen|]. split; auto. rewrite HUe in HU'. eapply upd_row_start; eauto.
    - intros t i A1 w m1 A2 w2 Hi Ht (D1 & D2) Hn1 Hh _ HD1 Em Hn2.
      destruct (e_wnnz A1 i 0) as [A1'| | |] eqn:Ew; try discriminate. cbn [bind] in Em.
      match type of Em with context [bind ?X _] => destruct X as [A2'| | |] eqn:El; try discriminate end.
      cbn [bind] in Em. injection Em as -> <-.
      destruct (import_eq M o keep N D i (seq 0 N) A1' A2 El) as [_ Eq]. specialize (Eq Hn2).
      assert (Sm : sim (own_of (thr_of sched) M (fun k => k)) t (p_import_row o keep N M t i) m1
        (A <- e_wnnz A1 i 0 ;; forM (seq 0 N) (fun j A => a <- dense_at o N D i j ;; if keep a then push1 M A i j a else Ok A) A)
        (fun _ m' A => holds m' 0 A /\ eN A = N /\ eM A = M /\ holdsK m' (aDense 1) D)).
      { apply sim_wnnz; auto. intros Hi1 A3 HA3.
        apply sim_forM with (I := fun (_ : unit) m' A => holds m' 0 A /\ eN A = N /\ eM A = M /\ holdsK m' (aDense 1) D).
        - intros j _ m3 A4 Hj (HA4 & HN4 & HM4 & HD4). unfold dense_at.
          eapply sim_rdk; [exact HD4|apply cr_shared; reflexivity|]. intros a Ea.
          destruct (keep a); [|apply sim_ret; auto].
          rewrite <- HN4 at 1.
          eapply sim_mono; [apply sim_push; auto|]. cbv beta. intros [] m5 A5 (HA5 & HN5 & HM5 & Hfr).
          split; [auto|]. split; [congruence|]. split; [auto|].
          eapply holdsK_ext; [exact HD4|]. intros k. apply Hfr; discriminate.
        - split; [exact HA3|]. split; [simpl; congruence|]. split; [simpl; congruence|].
          apply holdsK_other; [auto|discriminate]. }
      destruct (Sm A2) as ([] & m2 & Er & G1 & _ & _ & G2); [rewrite Ew; exact Eq|].
      exists m2. auto.
    - intros t i Hx. rewrite HN. auto.
    - eapply interleave; [exact Ha|]. intros m2 Em. split; [eapply holds_ext|eapply holdsK_ext]; eauto.
  Qed.
End EllLoops.
