(** Proofs about ellpack constructors, set_diagonal, reorder, trace_mult and
    the remaining norms. *)
From Verif Require Import Base BaseFacts Spec SpecFacts EllpackModel EllpackSpec EllpackFacts EllpackOps EllpackArith EllpackMul EllpackMore EllpackMul2.
From Coq Require Import Ring.
#[local] Arguments firstn {A} !n !l : simpl nomatch.
#[local] Arguments skipn {A} !n !l : simpl nomatch.

Section EllpackRest.
  Context {F : scalar}.
  Local Open Scope K_scope.
  Add Ring Kring8 : (k_ring F).
  Local Notation ell := (ell F).

  (** sequential loop over rows in which iteration i replaces row i *)
  Lemma seq_rows {e} (A0 : ell) (body : nat -> ell -> res ell) (target : nat -> list (nat * F)) :
    shape A0 -> (forall i, (i < eN A0)%nat -> (nnz A0 i <= eM A0)%nat) ->
    (forall i, (i < eN A0)%nat -> (length (target i) <= eM A0)%nat) ->
    (forall i A, (i < eN A0)%nat -> same_dims A0 A -> shape A -> erow A i = erow A0 i ->
       wpq e (body i A) (fun A' => upd_row A A' i (target i))) ->
    wpq e (for_n (eN A0) body A0) (fun A => same_dims A0 A /\ shape A /\
       forall i, (i < eN A0)%nat -> erow A i = target i).
  Proof.
    intros Hs Hnz Hc Hb.
    eapply wp_mono.
    - apply (for_n_inv (fun p A => same_dims A0 A /\ shape A /\
        (forall i, (i < eN A0)%nat -> erow A i = if i <? p then target i else erow A0 i))).
      + split; [split; auto|]. split; auto.
      + intros p A Hp ([D1 D2] & HsA & Hr).
        assert (HE : erow A p = erow A0 p) by (rewrite Hr, Nat.ltb_irrefl by auto; auto).
        eapply wp_mono; [apply (Hb p A); auto; split; auto|].
        intros A' HU. pose proof HU as ((U1 & U2) & U3 & _).
        split; [split; congruence|]. split; [auto|].
        intros i Hi. destruct (Nat.eq_dec i p) as [->|Hne].
        * assert (X : (p <? S p) = true) by (apply Nat.ltb_lt; lia). rewrite X. apply (upd_row_self _ _ _ _ HU).
        * rewrite (upd_row_other _ _ _ _ _ HU); auto.
          -- rewrite Hr by auto. destruct (Nat.ltb_spec i p), (Nat.ltb_spec i (S p)); auto; lia.
          -- rewrite <- erow_length, Hr, <- D2 by auto. destruct (i <? p); auto. rewrite erow_length; auto.
    - simpl. intros A (D & HsA & Hr). split; [auto|]. split; [auto|].
      intros i Hi. rewrite Hr by auto. apply Nat.ltb_lt in Hi. rewrite Hi. auto.
  Qed.

  (** ** constructors *)
  Lemma ell_identity_ok N M : (0 < M)%nat ->
    exists A : ell, ell_identity N M = Ok A /\ eN A = N /\ eM A = M /\ wf A /\
      forall i, (i < N)%nat -> erow A i = [(i, 1)].
  Proof.
    intros HM. apply wp_ok. unfold ell_identity.
    destruct (ell_zero_ok (F:=F) N M HM) as (A0 & E0 & HN0 & HM0 & Hs0 & Hr0). rewrite E0. cbn [bind].
    eapply wp_mono.
    - rewrite <- HN0. apply (seq_rows A0 _ (fun i => [(i, 1)])); auto.
      + intros i _. rewrite <- erow_length, Hr0. simpl. lia.
      + intros i _. simpl. lia.
      + intros i A Hi [D1 D2] Hs HE.
        destruct (rowpre_put A A i [] i 1) as [E1 E2]; [apply rowpre_refl; auto|lia|simpl; lia|].
        simpl in E1. rewrite E1. cbn [bind].
        destruct (rowpre_finish _ _ _ _ E2) as [E3 E4]; [lia|]. simpl in E3, E4. rewrite E3. auto.
    - simpl. intros A ([D1 D2] & Hs & Hr). split; [congruence|]. split; [congruence|]. rewrite HN0 in Hr.
      split; auto. apply (wf_rows A0 A (fun i => [(i, 1)])); auto.
      + split; auto.
      + rewrite HN0; auto.
      + intros i Hi. repeat split; simpl; try lia.
        * constructor; [simpl; tauto|constructor].
  Qed.

  Definition band_lo (M i : nat) : nat := (i - M / 2)%nat.
  Definition band_hi (N M i : nat) : nat := Nat.min N (i + (M - M / 2)).

  Definition bandrow (N M : nat) (rnd : nat -> nat -> F) (i : nat) : list (nat * F) :=
    map (fun j => (j, rnd i j)) (seq (band_lo M i) (band_hi N M i - band_lo M i)).

  Lemma bandrow_ok N M rnd i : (i < N)%nat -> row_ok N M (bandrow N M rnd i).
  Proof.
    intros Hi. unfold bandrow, row_ok. rewrite cols_map_pair, map_length, seq_length.
    assert (HM : (M / 2 <= M)%nat) by (apply Nat.div_le_upper_bound; lia).
    unfold band_hi, band_lo. split; [lia|]. split; [apply seq_NoDup|].
    intros k Hk. apply in_seq in Hk. lia.
  Qed.

  Lemma ell_banded_ok N M rnd : (0 < M)%nat ->
    exists A : ell, ell_banded N M rnd = Ok A /\ eN A = N /\ eM A = M /\ wf A /\
      forall i, (i < N)%nat -> erow A i = bandrow N M rnd i.
  Proof.
    intros HM. apply wp_ok. unfold ell_banded.
    destruct (ell_zero_ok (F:=F) N M HM) as (A0 & E0 & HN0 & HM0 & Hs0 & Hr0). rewrite E0. cbn [bind].
    eapply wp_mono.
    - rewrite <- HN0 at 1. apply (seq_rows A0 _ (bandrow N M rnd)); auto.
      + intros i _. rewrite <- erow_length, Hr0. simpl. lia.
      + intros i Hi. rewrite HM0. apply (bandrow_ok N M rnd i). lia.
      + intros i A Hi [D1 D2] Hs HE.
        fold (band_lo M i). fold (band_hi N M i).
        assert (EQ : forM (seq (band_lo M i) (band_hi N M i - band_lo M i))
                (fun j '(A, jind) => A1 <- e_put A i jind j (rnd i j) ;; Ok (A1, S jind)) (A, 0%nat) =
          forM (bandrow N M rnd i) (fun kv '(A, ll) =>
            if (fun _ _ => true) (fst kv) (snd kv) then A1 <- e_put A i ll (fst kv) (snd kv) ;; Ok (A1, S ll) else Ok (A, ll)) (A, 0%nat)).
        { unfold bandrow. rewrite forM_map. apply forM_ext. intros j [A' ll] _. reflexivity. }
        rewrite EQ. apply wp_bind.
        assert (FL : forall l : list (nat * F), filter (fun _ => true) l = l)
          by (induction l; simpl; congruence).
        eapply wp_mono; [apply (collect_ok (fun _ _ => true)); auto; try lia|].
        * rewrite FL, <- D2, HM0. apply (bandrow_ok N M rnd i). lia.
        * intros [A' ll] [HP Hl]. simpl in *. rewrite FL in *.
          destruct (rowpre_finish _ _ _ _ HP) as [E3 E4]; [lia|]. rewrite Hl, E3. auto.
    - simpl. intros A ([D1 D2] & Hs & Hr). split; [congruence|]. split; [congruence|]. rewrite HN0 in Hr.
      split; auto. apply (wf_rows A0 A (bandrow N M rnd)); auto.
      + split; auto.
      + rewrite HN0; auto.
      + intros i Hi. rewrite HN0, HM0 in *. apply bandrow_ok. auto.
  Qed.

  (** ** set_diagonal *)
  Definition diagrow (keep : F -> bool) (d : F) (i : nat) (E : list (nat * F)) : list (nat * F) :=
    if existsb (Nat.eqb i) (cols E)
    then map (fun kv => if fst kv =? i then (fst kv, cut keep d) else kv) E
    else if keep d then E ++ [(i, d)] else E.

  Lemma cols_diag_map (d : F) i E : cols (map (fun kv : nat * F => if fst kv =? i then (fst kv, d) else kv) E) = cols E.
  Proof. unfold cols. rewrite map_map. apply map_ext. intros [k v]; simpl. destruct (k =? i); auto. Qed.

  Lemma elook_diag_map (d : F) i E j :
    elook (map (fun kv : nat * F => if fst kv =? i then (fst kv, d) else kv) E) j =
    if (j =? i) && existsb (Nat.eqb i) (cols E) then d else elook E j.
  Proof.
    induction E as [|[k v] E IH]; simpl.
    - rewrite andb_false_r. auto.
    - rewrite (Nat.eqb_sym i k). destruct (Nat.eqb_spec k i) as [->|Hne]; simpl.
      + destruct (Nat.eqb_spec i j) as [->|Hji]; simpl; rewrite ?Nat.eqb_refl; auto.
        rewrite IH. destruct (Nat.eqb_spec j i) as [E'|_]; simpl; auto. congruence.
      + destruct (Nat.eqb_spec k j) as [->|Hkj].
        * apply Nat.eqb_neq in Hne. rewrite Hne. auto.
        * auto.
  Qed.

  Lemma elook_diagrow keep d i E j : elook (diagrow keep d i E) j = if j =? i then cut keep d else elook E j.
  Proof.
    unfold diagrow. destruct (existsb (Nat.eqb i) (cols E)) eqn:Ex.
    - rewrite elook_diag_map, Ex, andb_true_r. auto.
    - apply existsb_eqb_false in Ex. unfold cut. destruct (keep d).
      + apply elook_app_new; auto.
      + destruct (Nat.eqb_spec j i) as [->|]; auto. apply elook_notin; auto.
  Qed.

  Lemma diagrow_ok N M keep d i E : row_ok N M E -> (i < N)%nat ->
    (In i (cols E) \/ length E < M \/ keep d = false)%nat -> row_ok N M (diagrow keep d i E).
  Proof.
    intros HE Hi Hc. unfold diagrow. destruct (existsb (Nat.eqb i) (cols E)) eqn:Ex.
    - unfold row_ok in *. rewrite map_length, cols_diag_map. auto.
    - apply existsb_eqb_false in Ex. destruct (keep d) eqn:Ek; auto.
      apply row_ok_snoc; auto. destruct Hc as [Hc|[Hc|Hc]]; auto; [contradiction|discriminate].
  Qed.

  Lemma set_nth_map_firstn {T} (g : T -> T) (L : list T) p d : (p < length L)%nat ->
    set_nth (map g (firstn p L) ++ skipn p L) p (g (nth p L d)) = map g (firstn (S p) L) ++ skipn (S p) L.
  Proof.
    intros Hp. rewrite (skipn_S_nth L p d) by auto.
    assert (HL : length (map g (firstn p L)) = p) by (rewrite map_length, firstn_length; lia).
    rewrite <- HL at 4. rewrite set_nth_split. rewrite (firstn_S_nth L p d) by auto.
    rewrite map_app, <- app_assoc. auto.
  Qed.

  Lemma ell_set_diagonal_ok keep (A : ell) (diag : list F) : wf A -> length diag = eN A ->
    (forall i, i < eN A -> In i (cols (erow A i)) \/ nnz A i < eM A \/ keep (nth i diag k0) = false)%nat ->
    exists B, ell_set_diagonal keep A diag = Ok B /\ same_dims A B /\ wf B /\
      forall i, (i < eN A)%nat -> erow B i = diagrow keep (nth i diag 0) i (erow A i).
  Proof.
    intros HA HL Hroom. pose proof HA as [HsA HrA].
    assert (Hok : forall i, (i < eN A)%nat -> row_ok (eN A) (eM A) (diagrow keep (nth i diag 0) i (erow A i))).
    { intros i Hi. apply diagrow_ok; auto. rewrite erow_length. auto. }
    apply wp_ok. unfold ell_set_diagonal. eapply wp_mono.
    - apply (seq_rows A _ (fun i => diagrow keep (nth i diag 0) i (erow A i))); auto.
      + intros; apply wf_nnz; auto.
      + intros i Hi. apply Hok. auto.
      + intros i B Hi [D1 D2] Hs HE.
        assert (HlE := erow_length B i).
        assert (HnB : (nnz B i <= eM B)%nat) by (rewrite <- HlE, HE, erow_length, <- D2; apply wf_nnz; auto).
        rewrite e_nnz_ok by (auto; lia). cbn [bind]. rewrite (rd_ok _ _ 0) by lia. cbn [bind].
        set (d := nth i diag 0) in *. set (E := erow A i) in *.
        set (g := fun kv : nat * F => if fst kv =? i then (fst kv, cut keep d) else kv).
        apply wp_bind. eapply wp_mono.
        * apply (for_n_inv (fun p '(B', ll) => upd_row B B' i (map g (firstn p E) ++ skipn p E) /\
             ll = existsb (Nat.eqb i) (cols (firstn p E)))).
          -- simpl. destruct E; (split; [|auto]); rewrite <- HE; split; try split; auto.
          -- intros p [B' ll] Hp [HU Hll].
             pose proof HU as ((U1 & U2) & U3 & U4 & U5 & U6).
             assert (HpE : (p < length E)%nat) by (rewrite <- HE; lia).
             assert (HnB' : nnz B' i = nnz B i).
             { rewrite <- erow_length, U4, app_length, map_length, <- app_length, firstn_skipn. rewrite <- HE; auto. }
             rewrite e_idx_ok by (auto; lia). cbn [bind].
             assert (HnthB : nth p (erow B' i) (0%nat, 0) = nth p E (0%nat, 0)).
             { rewrite U4. rewrite app_nth2; rewrite map_length, firstn_length; [|lia].
               replace (p - Nat.min p (length E))%nat with 0%nat by lia.
               rewrite (skipn_S_nth E p (0%nat, 0)) by auto. auto. }
             assert (Hidx : nth (i * eM B' + p) (eidx B') 0%nat = fst (nth p E (0%nat, 0))).
             { rewrite <- HnthB. unfold erow. rewrite slots_nth by lia. auto. }
             rewrite Hidx.
             assert (Hfs : firstn (S p) E = firstn p E ++ [nth p E (0%nat, 0)]) by (apply firstn_S_nth; auto).
             assert (Hex : existsb (Nat.eqb i) (cols (firstn (S p) E)) = ll || (i =? fst (nth p E (0%nat, 0)))).
             { rewrite Hfs, cols_app, existsb_app. simpl. rewrite Hll, orb_false_r. auto. }
             destruct (Nat.eqb_spec (fst (nth p E (0%nat, 0))) i) as [Hk|Hk].
             ++ rewrite e_wval_ok by (auto; lia). simpl. split.
                ** eapply upd_row_start; [exact HU|].
                   assert (HW := wvalp_upd B' i p (cut keep d) U3 ltac:(lia) ltac:(lia) ltac:(lia)).
                   rewrite HnthB in HW. rewrite U4 in HW.
                   rewrite <- (set_nth_map_firstn g E p (0%nat, 0)) by auto.
                   unfold g at 2. rewrite Hk, Nat.eqb_refl. rewrite Hk in HW. exact HW.
                ** rewrite Hex, Hk, Nat.eqb_refl, orb_true_r. auto.
             ++ simpl. split.
                ** rewrite Hfs, map_app, <- app_assoc. simpl.
                   assert (Hg : g (nth p E (0%nat, 0)) = nth p E (0%nat, 0)) by (unfold g; apply Nat.eqb_neq in Hk; rewrite Hk; auto).
                   rewrite Hg, <- (skipn_S_nth E p (0%nat, 0)) by auto. auto.
                ** rewrite Hex. rewrite Nat.eqb_sym. apply Nat.eqb_neq in Hk. rewrite Hk, orb_false_r. auto.
        * intros [B' ll] [HU Hll].
          assert (HlE2 : nnz B i = length E) by (rewrite <- HlE, HE; auto).
          rewrite HlE2, firstn_all, skipn_all, app_nil_r in HU. rewrite HlE2, firstn_all in Hll.
          unfold diagrow. fold g. rewrite <- Hll. destruct ll; [exact HU|].
          assert (HgE : map g E = E).
          { symmetry in Hll. apply existsb_eqb_false in Hll. clear -Hll. induction E as [|[k v] E IH]; simpl; auto.
            simpl in Hll. rewrite IH by tauto. unfold g. simpl. destruct (Nat.eqb_spec k i); [exfalso; auto|auto]. }
          rewrite HgE in HU. destruct (keep d) eqn:Ek; [|exact HU].
          pose proof HU as ((U1 & U2) & U3 & U4 & _).
          destruct (e_push_ok B' i i d) as (B'' & E1 & HU'); auto.
          -- lia.
          -- rewrite <- erow_length, U4. destruct (Hroom i Hi) as [H|[H|H]].
             ++ apply existsb_eqb in H. fold E in H. congruence.
             ++ unfold E. rewrite erow_length. lia.
             ++ fold d in H. congruence.
          -- rewrite E1. simpl. rewrite U4 in HU'. eapply upd_row_start; eauto.
    - simpl. intros B (D & Hs & Hr). split; [auto|]. split; [|auto].
      apply (wf_rows A B (fun i => diagrow keep (nth i diag 0) i (erow A i))); auto.
  Qed.

  (** ** matrix-level statements *)
  Lemma set_diagonal_spec keep (A : ell) (diag : list F) :
    wf A -> length diag = eN A ->
    (forall i, i < eN A -> In i (cols (erow A i)) \/ nnz A i < eM A \/ keep (nth i diag k0) = false)%nat ->
    exists B, ell_set_diagonal keep A diag = Ok B /\ wf B /\ same_dims A B /\
      ell_get_diagonal B = Ok (map (cut keep) diag) /\
      (forall i j, (i < eN A)%nat -> (j < eN A)%nat -> i <> j -> emat B i j = emat A i j).
  Proof.
    intros HA HL Hr. destruct (ell_set_diagonal_ok keep A diag HA HL Hr) as (B & E & [D1 D2] & Hw & HB).
    exists B. split; [auto|]. split; [auto|]. split; [split; auto|]. split.
    - rewrite ell_get_diagonal_ok by auto. f_equal. rewrite <- D1, <- HL.
      apply (list_ext_nth _ _ 0); [rewrite !map_length, seq_length; auto|].
      intros i Hi. rewrite map_length, seq_length in Hi. rewrite nth_map_seq by auto.
      unfold emat. rewrite HB, elook_diagrow, Nat.eqb_refl by lia.
      rewrite (nth_indep (map (cut keep) diag) 0 (cut keep 0)) by (rewrite map_length; auto).
      rewrite map_nth. auto.
    - intros i j Hi Hj Hne. unfold emat. rewrite HB, elook_diagrow by auto.
      destruct (Nat.eqb_spec j i); auto. congruence.
  Qed.

  Lemma set_element_spec (A : ell) i j (v : F) :
    wf A -> (i < eN A)%nat -> (j < eN A)%nat ->
    (2 < nnz A i \/ ~ In j (cols (erow A i)))%nat ->
    (In j (cols (erow A i)) \/ nnz A i < eM A)%nat ->
    exists A', ell_set_element A i j v = Ok A' /\ wf A' /\
      ell_get_element A' i j = Ok v /\
      (forall i' j', (i' < eN A)%nat -> (j' < eN A)%nat -> (i' <> i \/ j' <> j) ->
         ell_get_element A' i' j' = ell_get_element A i' j').
  Proof.
    intros HA Hi Hj H1 H2. destruct (ell_set_element_ok A i j v HA Hi Hj H1 H2) as (A' & E & Hw & [D1 D2] & Hm).
    exists A'. split; [auto|]. split; [auto|].
    assert (G : forall (B : ell) i' j', wf B -> (i' < eN B)%nat -> (j' < eN B)%nat -> ell_get_element B i' j' = Ok (emat B i' j')).
    { intros B i' j' HB Hi' Hj'. apply ell_get_element_ok; auto; [apply HB|apply wf_nnz; auto]. }
    split.
    - rewrite G by (auto; lia). rewrite Hm, !Nat.eqb_refl by auto. auto.
    - intros i' j' Hi' Hj' Hne. rewrite !G by (auto; lia). rewrite Hm by auto.
      destruct (Nat.eqb_spec i' i), (Nat.eqb_spec j' j); auto. subst. destruct Hne; congruence.
  Qed.

  Lemma get_element_spec (A : ell) i j : wf A ->
    ell_get_element A i j = if ((i <? eN A) && (j <? eN A))%nat then Ok (emat A i j) else Err.
  Proof.
    intros HA. destruct (Nat.ltb_spec i (eN A)), (Nat.ltb_spec j (eN A)); simpl.
    - apply ell_get_element_ok; auto; [apply HA|apply wf_nnz; auto].
    - apply ell_get_element_err; auto.
    - apply ell_get_element_err; auto.
    - apply ell_get_element_err; auto.
  Qed.

  Lemma zero_spec N M : (0 < M)%nat ->
    exists A : ell, ell_zero N M = Ok A /\ eN A = N /\ eM A = M /\ wf A /\ meq N (emat A) mzero.
  Proof.
    intros HM. destruct (ell_zero_wf (F:=F) N M HM) as (A & E & H1 & H2 & H3 & H4).
    exists A. repeat (split; [assumption|]). intros i j _ _. unfold emat. rewrite H4. auto.
  Qed.

  Lemma identity_spec N M : (0 < M)%nat ->
    exists A : ell, ell_identity N M = Ok A /\ eN A = N /\ eM A = M /\ wf A /\ meq N (emat A) mid.
  Proof.
    intros HM. destruct (ell_identity_ok N M HM) as (A & E & H1 & H2 & H3 & H4).
    exists A. repeat (split; [assumption|]). intros i j Hi _. unfold emat. rewrite H4 by auto. simpl.
    unfold mid. auto.
  Qed.

  Lemma elook_map_pair (f : nat -> F) l j : elook (map (fun j => (j, f j)) l) j = if existsb (Nat.eqb j) l then f j else 0.
  Proof.
    induction l as [|k l IH]; simpl; auto. rewrite (Nat.eqb_sym j k). destruct (Nat.eqb_spec k j); subst; simpl; auto.
  Qed.

  Lemma banded_spec N M (rnd : nat -> nat -> F) : (0 < M)%nat ->
    exists A : ell, ell_banded N M rnd = Ok A /\ eN A = N /\ eM A = M /\ wf A /\
      meq N (emat A) (fun i j => if ((i <=? j + M / 2) && (j + M / 2 <? i + M))%nat then rnd i j else k0).
  Proof.
    intros HM. destruct (ell_banded_ok N M rnd HM) as (A & E & H1 & H2 & H3 & H4).
    exists A. repeat (split; [assumption|]). intros i j Hi Hj. unfold emat. rewrite H4 by auto.
    unfold bandrow. rewrite elook_map_pair.
    assert (HM2 : (M / 2 <= M)%nat) by (apply Nat.div_le_upper_bound; lia).
    assert (X : existsb (Nat.eqb j) (seq (band_lo M i) (band_hi N M i - band_lo M i)) =
                ((i <=? j + M / 2) && (j + M / 2 <? i + M))%nat).
    { apply Bool.eq_iff_eq_true. rewrite existsb_eqb, in_seq, andb_true_iff, Nat.leb_le, Nat.ltb_lt.
      unfold band_lo, band_hi. lia. }
    rewrite X. auto.
  Qed.

  Lemma scale_spec (a : F) (A B : ell) : wf A -> shape B -> same_dims A B -> (0 < eM A)%nat ->
    exists B', ell_scale a A B = Ok B' /\ wf B' /\ same_dims A B' /\ meq (eN A) (emat B') (mscale a (emat A)).
  Proof.
    intros HA HB HD HM. unfold ell_scale. rewrite ell_copy_ok; auto; [|apply HA]. cbn [bind].
    destruct (scale_inplace_spec a A HA) as (B' & E & H1 & H2 & H3 & _). exists B'. auto.
  Qed.

  Lemma scale_new_spec (a : F) (A : ell) gv gi : wf A -> (0 < eM A)%nat ->
    exists B', ell_scale_new a A gv gi = Ok B' /\ wf B' /\ same_dims A B' /\ meq (eN A) (emat B') (mscale a (emat A)).
  Proof.
    intros HA HM. unfold ell_scale_new. rewrite ell_copy_new_ok by apply HA. cbn [bind].
    apply scale_spec; auto; [apply HA|split; auto].
  Qed.
End EllpackRest.
