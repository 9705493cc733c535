(** The ellpack loops under all interleavings. *)
From Verif Require Import Base BaseFacts Spec SpecFacts EllpackModel EllpackSpec EllpackFacts
  EllpackArith EllpackMul EllpackMul2 EllpackMore EllpackOps ThreadModel ThreadFacts RaceModel RaceSpec RaceSim RaceLoops RacePar.

Section EllLoops.
  Context {F : scalar}.
  Local Notation mem := (mem loc (val F)).
  Local Notation pr := (prog loc (val F)).
  Local Notation mset := (mset loc_eq_dec).

  (** ** multiply_AB *)
  Definition mulR (A B C : ell F) (m : mem) : Prop := holds m 0 C /\ holds m 1 A /\ holds m 2 B.
  Definition inR (A B : ell F) (m : mem) : Prop := holds m 1 A /\ holds m 2 B.

  Lemma mulR_ws A B C t : ws_stable t (mulR A B C).
  Proof.
    intros m a k v Ha (H1 & H2 & H3). split; [|split]; (apply holds_other; [assumption|..]);
      destruct Ha as [Ha|[Ha|Ha]]; rewrite Ha; discriminate.
  Qed.
  Lemma inR_ws A B t : ws_stable t (inR A B).
  Proof.
    intros m a k v Ha (H1 & H2). split; (apply holds_other; [assumption|..]);
      destruct Ha as [Ha|[Ha|Ha]]; rewrite Ha; discriminate.
  Qed.
  Lemma inR_out A B : out_stable (inR A B).
  Proof.
    intros m a k v Ha (H1 & H2). split; (apply holds_other; [assumption|..]);
      destruct Ha as [Ha|[Ha|Ha]]; rewrite Ha; discriminate.
  Qed.

  Lemma gather_len (kc : nat -> F -> bool) i jps : forall A w t ll A' w' t' ll',
    forM jps (gather0 kc i) (A, w, t, ll) = Ok (A', w', t', ll') -> ll' <= ll + length jps.
  Proof.
    induction jps as [|jp jps IH]; intros A w t ll A' w' t' ll' E; cbn [forM] in E.
    - injection E as <- <- <- <-. simpl. lia.
    - destruct (gather0 kc i jp (A, w, t, ll)) as [[[[A1 w1] t1] ll1]| | |] eqn:E1; try discriminate.
      cbn [bind] in E. apply IH in E. simpl. enough (ll1 <= S ll) by lia. clear E.
      unfold gather0 in E1.
      destruct (rd (wjx w) jp) as [jind| | |]; try discriminate. cbn [bind] in E1.
      destruct (rd (wx w) jind) as [xtmp| | |]; try discriminate. cbn [bind] in E1.
      destruct (kc jind xtmp); cbn [bind] in E1.
      + destruct (e_put A i ll jind xtmp); try discriminate. cbn [bind] in E1.
        destruct (wr (wx w) jind k0); try discriminate. cbn [bind] in E1.
        destruct (wr (wix w) jind 0); try discriminate. cbn [bind] in E1.
        injection E1 as <- <- <- <-. lia.
      + destruct (wr (wx w) jind k0); try discriminate. cbn [bind] in E1.
        destruct (wr (wix w) jind 0); try discriminate. cbn [bind] in E1.
        injection E1 as <- <- <- <-. lia.
  Qed.

  Lemma cr_shared thr M dr t a k : own_of thr M dr (a, k) = Shared -> can_read (own_of thr M dr) t None (a, k) = true.
  Proof. intros H. unfold can_read. now rewrite H. Qed.

  Lemma mul_row_sim thr dr keep (A B C : ell F) t i w m C' w' :
    let M := eM C in
    eN A = eN C -> eN B = eN C -> thr i = t ->
    holds m 0 C -> holds_ws m t w -> inR A B m ->
    mul_row keep A B i (C, w) = Ok (C', w') ->
    exists m', run loc_eq_dec (own_of thr M dr) t None (p_mul_row keep 1 2 (eN C) (eM A) (eM B) M t i) m = Some (tt, m') /\
      holds m' 0 C' /\ holds_ws m' t w' /\ inR A B m'.
  Proof.
    intros M HNA HNB Ht HC Hw HR E. unfold mul_row in E.
    match type of E with context [bind ?X _] => destruct X as [[w1 l]| | |] eqn:El; try discriminate end.
    cbn [bind] in E. destruct (Nat.ltb_spec (eM C) l) as [|Hl]; [discriminate|].
    match type of E with context [bind ?X _] => destruct X as [[[[C1 w2] u] ll]| | |] eqn:Eg; try discriminate end.
    cbn [bind] in E.
    (* first loop *)
    assert (S1 : sim (own_of thr M dr) t
      (p_for_row 1 (eN C) (eM A) i (fun j a l => p_for_row 2 (eN C) (eM B) j (fun k b l => p_acc t i k (kmul a b) l) l) 0) m
      (e_for_row A i (fun j a s => e_for_row B j (fun k b s => ws_acc k0 kadd i k (kmul a b) s) s) (w, 0))
      (accI t (mulR A B C))).
    { rewrite <- HNA at 1. apply sim_for_row with (I := accI t (mulR A B C)).
      - intros a m1 s (_ & _ & _ & Hx & _). exact Hx.
      - apply cr_shared. reflexivity.
      - intros j _. split; apply cr_shared; reflexivity.
      - intros j a l0 m1 s HI. rewrite <- HNB. apply sim_for_row with (I := accI t (mulR A B C)).
        + intros a' m2 s2 (_ & _ & _ & _ & Hx). exact Hx.
        + apply cr_shared. reflexivity.
        + intros j' _. split; apply cr_shared; reflexivity.
        + intros k b l1 m2 s2 HI2. apply sim_acc; [apply mulR_ws|exact HI2].
        + exact HI.
      - split; [reflexivity|]. split; [exact Hw|]. split; [exact HC|]. exact HR. }
    destruct (S1 _ El) as (l' & m1 & Er1 & (El' & Hw1 & HC1 & HR1)). cbn [fst snd] in *. subst l'.
    (* gather *)
    pose proof (gather_len (kc_offdiag keep i) i (seq 0 l) C w1 tt 0 C1 w2 u ll) as Hlen.
    rewrite seq_length in Hlen. specialize (Hlen Eg).
    apply (gather_eq M) in Eg; [|subst M; lia].
    destruct (sim_gather thr M dr (kc_offdiag keep i) t i l (inR A B) Ht (inR_ws A B t) (inR_out A B)
                m1 C w1 eq_refl HC1 Hw1 HR1 _ Eg) as (ll' & m2 & Er2 & ((El' & HM1 & HC2 & Hw2 & HR2) & HN1)).
    cbn [fst] in HN1. subst ll'.
    (* nnz *)
    assert (S3 : sim (own_of thr M dr) t (p_wnnz 0 i ll) m2 (bind (e_wnnz C1 i ll) (fun C => Ok (C, w2)))
      (fun _ m' r => holds m' 0 (fst r) /\ holds_ws m' t (snd r) /\ inR A B m')).
    { apply sim_unit_r. apply sim_wnnz; [exact Ht|exact HC2|]. intros Hi A1 HA1. apply sim_ret. cbn [fst snd].
      split; [exact HA1|]. split; [|apply inR_out; auto].
      eapply holds_ws_other; eauto; discriminate. }
    destruct (S3 _ E) as ([] & m3 & Er3 & H1 & H2 & H3). cbn [fst snd] in *.
    exists m3. split; [|auto]. unfold p_mul_row.
    rewrite (run_bind loc_eq_dec _ _ _ _ _ _ _ _ Er1).
    destruct (Nat.ltb_spec M l); [subst M; lia|].
    rewrite (run_bind loc_eq_dec _ _ _ _ _ _ _ _ Er2). exact Er3.
  Qed.

  Theorem multiply_all keep (A B C C' : ell F) sched m :
    wf A -> wf B -> eN A = eN B -> wf C -> eN C = eN A ->
    Permutation (map snd sched) (seq 0 (eN A)) ->
    ell_multiply_AB keep A B C sched = Ok C' ->
    holds m 0 C -> holds m 1 A -> holds m 2 B ->
    (forall t, In t (map fst sched) -> holds_ws m t (ws_new k0 (eN C))) ->
    all_interleavings (p_mul_row keep 1 2 (eN C) (eM A) (eM B) (eM C)) sched m
      (fun m' => holds m' 0 C' /\ holds m' 1 A /\ holds m' 2 B).
  Proof.
    intros HA HB HN HC HNC HP E H0 H1 H2 Hw.
    unfold ell_multiply_AB in E.
    match type of E with context [bind ?X _] => destruct X as [[C1 w1]| | |] eqn:Ep; try discriminate end.
    cbn [bind] in E. injection E as ->.
    assert (Hnd : NoDup (map snd sched)) by (eapply Permutation_NoDup; [apply Permutation_sym, HP|apply seq_NoDup]).
    destruct (rows_atomic (clean (eN A)) (@holds_ws F) (thr_of sched) (eM C) (fun k => k) C
       (fun i s => mul_row keep A B i s) (fun t i => p_mul_row keep 1 2 (eN C) (eM A) (eM B) (eM C) t i)
       (mulrow keep A B) True (inR A B) (map fst sched)) with (sched := sched) (m := m) (w := fun _ : nat => ws_new (@k0 F) (eN C)) (A' := C') (w' := w1)
      as (m' & Ha & Hc' & Hr' & _).
    - intros. eapply run_ws_other; eauto.
    - reflexivity.
    - intros. apply wf_nnz; auto.
    - apply HC.
    - intros i C1 w Hi (D1 & D2) Hs _ Hc.
      pose proof (mul_row_ok keep A B C1 i w HA HB HN) as Hok.
      specialize (Hok ltac:(congruence) ltac:(lia) Hs Hc).
      destruct (mul_row keep A B i (C1, w)) as [r| | |]; simpl in *; auto.
      destruct Hok as (G1 & G2 & G3). split; [|auto].
      eapply Nat.le_trans; [apply mulrow_len; auto; lia|]. rewrite D2. exact G1.
    - intros t i C1 w m1 C2 w2 Hi Ht (D1 & D2) _ Hh Hws Hin Em _.
      rewrite D2, D1. apply (mul_row_sim (thr_of sched) (fun k => k) keep A B C1 t i w m1 C2 w2); auto; congruence.
    - exact Ep.
    - exact Hnd.
    - intros t i Hin. split; [|split; [now apply thr_of_in|]].
      + assert (Hx : In i (map snd sched)) by (apply in_map_iff; exists (t, i); auto).
        apply (Permutation_in _ HP) in Hx. apply in_seq in Hx. lia.
      + apply in_map_iff. exists (t, i). auto.
    - exact H0.
    - split; auto.
    - exact Hw.
    - intros t. rewrite HNC. apply clean_new.
    - eapply interleave; [exact Ha|]. intros m2 Em. destruct Hr' as [Hr1 Hr2].
      split; [|split]; eapply holds_ext; eauto.
  Qed.

  (** ** add *)
  Definition addR (A B : ell F) (m : mem) : Prop := holds m 0 A /\ holds m 1 B.
  Lemma addR_ws A B t : ws_stable t (addR A B).
  Proof.
    intros m a k v Ha (H1 & H2). split; (apply holds_other; [assumption|..]);
      destruct Ha as [Ha|[Ha|Ha]]; rewrite Ha; discriminate.
  Qed.
  Lemma one_ws (B : ell F) t : ws_stable t (fun m => holds m 1 B).
  Proof.
    intros m a k v Ha H1. (apply holds_other; [assumption|..]);
      destruct Ha as [Ha|[Ha|Ha]]; rewrite Ha; discriminate.
  Qed.
  Lemma one_out (B : ell F) : out_stable (fun m => holds m 1 B).
  Proof.
    intros m a k v Ha H1. (apply holds_other; [assumption|..]);
      destruct Ha as [Ha|[Ha|Ha]]; rewrite Ha; discriminate.
  Qed.

  Lemma nnz_nth (A : ell F) i n : i < length (ennz A) -> nnz (mkEll (eN A) (eM A) (eval A) (eidx A) (set_nth (ennz A) i n)) i = n.
  Proof. intros H. unfold nnz. simpl. apply nth_set_nth_eq. exact H. Qed.

  Lemma add_row_sim thr dr keep alpha beta (A B : ell F) t i w m A' w' :
    let M := eM A in
    eN B = eN A -> thr i = t -> nnz A i <= M ->
    holds m 0 A -> holds_ws m t w -> holds m 1 B ->
    add_row keep alpha beta B i (A, w) = Ok (A', w') -> nnz A' i <= M ->
    exists m', run loc_eq_dec (own_of thr M dr) t None (p_add_row keep alpha beta (eN A) M (eM B) t i) m = Some (tt, m') /\
      holds m' 0 A' /\ holds_ws m' t w' /\ holds m' 1 B.
  Proof.
    intros M HNB Ht Hn HA Hw HB E HnA'. unfold add_row in E.
    match type of E with context [bind ?X _] => destruct X as [[w1 l1]| | |] eqn:E1; try discriminate end.
    cbn [bind] in E.
    match type of E with context [bind ?X _] => destruct X as [[w2 l]| | |] eqn:E2; try discriminate end.
    cbn [bind] in E.
    destruct (e_wnnz A i l) as [A0| | |] eqn:E3; try discriminate. cbn [bind] in E.
    match type of E with context [bind ?X _] => destruct X as [[[[A1 w3] u] ll]| | |] eqn:E4; try discriminate end.
    cbn [bind] in E.
    assert (S1 : sim (own_of thr M dr) t
      (if keqb alpha k0 then Ret 0 else p_for_row 0 (eN A) M i (fun k v l => p_acc t i k (kmul alpha v) l) 0) m
      (if keqb alpha k0 then Ok (w, 0) else e_for_row A i (fun k v s => ws_acc k0 kadd i k (kmul alpha v) s) (w, 0))
      (accI t (addR A B))).
    { assert (HI : accI t (addR A B) 0 m (w, 0)) by (split; [reflexivity|]; split; [exact Hw|]; split; auto).
      destruct (keqb alpha k0); [now apply sim_ret|].
      apply sim_for_row with (I := accI t (addR A B)); auto.
      - intros a m1 s (_ & _ & Hx & _). exact Hx.
      - apply cr_nnz0. exact Ht.
      - intros j Hj. split; [apply cr_val0|apply cr_idx0]; auto; lia.
      - intros k b l0 m2 s2 HI2. apply sim_acc; [apply addR_ws|exact HI2]. }
    destruct (S1 _ E1) as (l' & m1 & Er1 & (El' & Hw1 & HA1 & HB1)). cbn [fst snd] in *. subst l'.
    assert (S2 : sim (own_of thr M dr) t
      (if keqb beta k0 then Ret l1 else p_for_row 1 (eN A) (eM B) i (fun k v l => p_acc t i k (kmul beta v) l) l1) m1
      (if keqb beta k0 then Ok (w1, l1) else e_for_row B i (fun k v s => ws_acc k0 kadd i k (kmul beta v) s) (w1, l1))
      (accI t (addR A B))).
    { assert (HI : accI t (addR A B) l1 m1 (w1, l1)) by (split; [reflexivity|]; split; [exact Hw1|]; split; auto).
      destruct (keqb beta k0); [now apply sim_ret|].
      rewrite <- HNB. apply sim_for_row with (I := accI t (addR A B)); auto.
      - intros a m2 s (_ & _ & _ & Hx). exact Hx.
      - intros k b l0 m2 s2 HI2. apply sim_acc; [apply addR_ws|exact HI2]. }
    destruct (S2 _ E2) as (l' & m2 & Er2 & (El' & Hw2 & HA2 & HB2)). cbn [fst snd] in *. subst l'.
    (* A_nnz[i] = l *)
    unfold e_wnnz in E3. destruct (wr (ennz A) i l) as [na| | |] eqn:Ewr; try discriminate. cbn [bind] in E3.
    injection E3 as <-.
    assert (Hi : i < length (ennz A)).
    { unfold wr in Ewr. destruct (Nat.ltb_spec i (length (ennz A))); [auto|discriminate]. }
    unfold wr in Ewr. destruct (Nat.ltb_spec i (length (ennz A))); [|discriminate]. injection Ewr as <-.
    set (A0 := mkEll (eN A) (eM A) (eval A) (eidx A) (set_nth (ennz A) i l)) in *.
    set (m3 := mset m2 (aNnz 0, i) (VN l)).
    assert (HA3 : holds m3 0 A0).
    { destruct HA2 as (G1 & G2 & G3). split; [|split]; simpl;
        [apply holdsK_other; [auto|discriminate]|apply holdsN_other; [auto|discriminate]|apply holdsN_set; auto]. }
    assert (Hw3 : holds_ws m3 t w2) by (apply holds_ws_other; auto; discriminate).
    assert (HB3 : holds m3 1 B) by (apply holds_other; auto; discriminate).
    (* the last statement *)
    unfold e_wnnz in E. destruct (wr (ennz A1) i ll) as [na| | |] eqn:Ewr; try discriminate. cbn [bind] in E.
    injection E as <- <-.
    assert (Hll : ll <= M).
    { unfold nnz in HnA'. simpl in HnA'. unfold wr in Ewr.
      destruct (Nat.ltb_spec i (length (ennz A1))) as [Hi1|]; [|discriminate]. injection Ewr as <-.
      rewrite nth_set_nth_eq in HnA' by auto. exact HnA'. }
    apply (gather_eq M) in E4; [|exact Hll].
    destruct (sim_gather thr M dr (fun _ x => keep x) t i l (fun m => holds m 1 B) Ht (one_ws B t) (one_out B)
                m3 A0 w2 eq_refl HA3 Hw3 HB3 _ E4) as (ll' & m4 & Er4 & ((El' & HM1 & HA4 & Hw4 & HB4) & HN1)).
    cbn [fst] in HN1. subst ll'.
    assert (S5 : sim (own_of thr M dr) t (p_wnnz 0 i ll) m4 (bind (e_wnnz A1 i ll) (fun A => Ok (A, w3)))
      (fun _ m' r => holds m' 0 (fst r) /\ holds_ws m' t (snd r) /\ holds m' 1 B)).
    { apply sim_unit_r. apply sim_wnnz; [exact Ht|exact HA4|]. intros Hi1 A2 HA5. apply sim_ret. cbn [fst snd].
      split; [exact HA5|]. split; [|apply one_out; auto].
      eapply holds_ws_other; eauto; discriminate. }
    edestruct S5 as ([] & m5 & Er5 & H1 & H2 & H3).
    { unfold e_wnnz. rewrite Ewr. reflexivity. }
    cbn [fst snd] in *. exists m5. split; [|auto]. unfold p_add_row.
    rewrite (run_bind loc_eq_dec _ _ _ _ _ _ _ _ Er1).
    rewrite (run_bind loc_eq_dec _ _ _ _ _ _ _ _ Er2).
    assert (Er3 : run loc_eq_dec (own_of thr M dr) t None (p_wnnz 0 i l) m2 = Some (tt, m3)).
    { unfold p_wnnz, wrn. cbn [run]. rewrite (cw_nnz0 thr M dr t i Ht).
      destruct HA2 as (_ & _ & G3). rewrite (G3 i).
      destruct (nth_error_lt _ _ Hi) as (x & Ex). rewrite Ex. reflexivity. }
    rewrite (run_bind loc_eq_dec _ _ _ _ _ _ _ _ Er3).
    rewrite (run_bind loc_eq_dec _ _ _ _ _ _ _ _ Er4). exact Er5.
  Qed.

  Lemma sched_facts (N : nat) sched : Permutation (map snd sched) (seq 0 N) ->
    NoDup (map snd sched) /\
    (forall t i, In (t, i) sched -> i < N /\ thr_of sched i = t /\ In t (map fst sched)).
  Proof.
    intros HP.
    assert (Hnd : NoDup (map snd sched)) by (eapply Permutation_NoDup; [apply Permutation_sym, HP|apply seq_NoDup]).
    split; [exact Hnd|]. intros t i Hin. split; [|split; [now apply thr_of_in|]].
    - assert (Hx : In i (map snd sched)) by (apply in_map_iff; exists (t, i); auto).
      apply (Permutation_in _ HP) in Hx. apply in_seq in Hx. lia.
    - apply in_map_iff. exists (t, i). auto.
  Qed.

  Theorem add_all keep alpha beta (A B A' : ell F) sched m :
    wf A -> wf B -> eN A = eN B -> Permutation (map snd sched) (seq 0 (eN A)) ->
    fits (eN A) (eM A) keep (madd (mscale alpha (emat A)) (mscale beta (emat B))) ->
    ell_add keep alpha beta A B sched = Ok A' ->
    holds m 0 A -> holds m 1 B ->
    (forall t, In t (map fst sched) -> holds_ws m t (ws_new k0 (eN A))) ->
    all_interleavings (p_add_row keep alpha beta (eN A) (eM A) (eM B)) sched m
      (fun m' => holds m' 0 A' /\ holds m' 1 B).
  Proof.
    intros HA HB HN HP Hf E H0 H1 Hw.
    destruct (sched_facts _ _ HP) as [Hnd Hin].
    unfold ell_add in E.
    match type of E with context [bind ?X _] => destruct X as [[A1 w1]| | |] eqn:Ep; try discriminate end.
    cbn [bind] in E. injection E as ->.
    pose proof HA as [HsA HrA]. pose proof HB as [HsB HrB].
    assert (Hok : forall i, i < eN A -> row_ok (eN A) (eM A) (addrow keep alpha beta (erow A i) (erow B i))).
    { intros i Hi. destruct (HrA i Hi) as (A1' & A2 & A3).
      destruct (HrB i) as (B1 & B2 & B3); [congruence|]. apply addrow_fits; auto.
      - rewrite HN; auto.
      - apply (Hf i Hi). }
    destruct (rows_atomic (clean (eN A)) (@holds_ws F) (thr_of sched) (eM A) (fun k => k) A
       (fun i s => add_row keep alpha beta B i s) (fun t i => p_add_row keep alpha beta (eN A) (eM A) (eM B) t i)
       (fun i => addrow keep alpha beta (erow A i) (erow B i)) False (fun m => holds m 1 B) (map fst sched))
       with (sched := sched) (m := m) (w := fun _ : nat => ws_new (@k0 F) (eN A)) (A' := A') (w' := w1)
      as (m' & Ha & Hc' & Hr' & _); auto.
    - intros. eapply run_ws_other; eauto.
    - intros. apply wf_nnz; auto.
    - intros i A1 w Hi [D1 D2] Hs1 HE Hc.
      destruct (HrA i Hi) as (R1 & R2 & R3).
      destruct (HrB i) as (B1 & B2 & B3); [congruence|].
      assert (Hn1 : (nnz A1 i <= eM A)%nat) by (rewrite <- erow_length, HE; auto).
      assert (HiB : (i < eN B)%nat) by congruence.
      assert (HnB := wf_nnz B i HB HiB).
      assert (Hk := proj1 (Hok i Hi)). rewrite <- HN in B3.
      eapply wp_mono; [apply add_row_ok; rewrite ?HE, <- ?D1, <- ?D2; auto|].
      + rewrite HE, <- D1. intros r Hr. split; [exact Hk|exact Hr].
    - intros t i A1 w m1 A2 w2 Hi Ht (D1 & D2) Hn1 Hh Hws Hin1 Em Hn2.
      rewrite D2, D1. apply (add_row_sim (thr_of sched) (fun k => k) keep alpha beta A1 B t i w m1 A2 w2); auto;
        try congruence; rewrite <- D2; auto.
    - intros t. apply clean_new.
    - eapply interleave; [exact Ha|]. intros m2 Em. split; eapply holds_ext; eauto.
  Qed.
End EllLoops.
