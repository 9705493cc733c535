(** Matrix variables of a Fortran program: no dangling pointer, no leak. *)
From Coq Require Import Ring.
From Verif Require Import Base BaseFacts Spec SpecFacts EllpackModel EllpackSpec EllpackExact CsrModel CsrSpec
  GemmModel DenseModel DenseSpec FormatModel FormatSpec FormatFacts FortranModel FortranSpec FortranFacts.

Section FortranVars.
  Context {F : scalar}.
  Local Notation bmat := (bmat F).
  Local Notation fstate := (fstate F).

  (** ** Optional arguments: bml_multiply(a, b, c) leaves the product in c,
      bml_add(a, b, alpha, beta) the linear combination in a, nothing dropped *)
  Add Ring Kringfv : (k_ring F).
  Lemma tcut_exact (keep : F -> bool) (A : bmat) X i j : keeps_nonzero keep -> tcut keep A X i j = X i j.
  Proof. intros H. unfold tcut. destruct (sparse A); auto. unfold mcut. apply cut_exact; auto. Qed.
  Lemma toff_exact (keep : F -> bool) (A : bmat) X i j : keeps_nonzero keep -> toff keep A X i j = X i j.
  Proof. intros H. unfold toff. destruct (sparse A); auto. unfold mcut_offdiag. destruct (i =? j); auto. apply cut_exact; auto. Qed.
  Lemma f_multiply_default nz (A B C : bmat) e : keeps_nonzero nz -> bwf A -> bwf B -> bwf C -> alike A B -> alike A C ->
    good_env A e -> multiply_room nz k1 k0 A B C ->
    exists C', f_multiply nz A B C None None None e = Ok C' /\ bwf C' /\ like C C' /\
      meq (bml_get_N A) (bmx C') (mmul (bml_get_N A) (bmx A) (bmx B)).
  Proof.
    intros Hz WA WB WC HB HC He HR. destruct (bml_multiply_ok nz k1 k0 A B C e) as (C' & E & W & L & V); auto.
    exists C'. split; auto. split; auto. split; auto. intros i j Hi Hj. rewrite V, tcut_exact by auto. unfold madd, mscale.
    rewrite toff_exact by auto. ring.
  Qed.
  Lemma f_add_default nz (A B : bmat) alpha beta e : keeps_nonzero nz -> bwf A -> bwf B -> alike A B -> good_env A e ->
    add_room nz alpha beta A B ->
    exists A', f_add nz A B alpha beta None e = Ok A' /\ f_add_deprecated nz alpha A beta B None e = Ok A' /\ bwf A' /\ like A A' /\
      meq (bml_get_N A) (bmx A') (madd (mscale alpha (bmx A)) (mscale beta (bmx B))).
  Proof.
    intros Hz WA WB HB He HR. destruct (bml_add_ok nz alpha beta A B e) as (A' & E & W & L & V); auto.
    exists A'. split; auto. split; auto. split; auto. split; auto. intros i j Hi Hj. rewrite V, tcut_exact by auto. auto.
  Qed.

  Lemma rd_var (s : fstate) v : v < length (f_var s) -> rd (f_var s) v = Ok (nth v (f_var s) None).
  Proof. intros H. apply rd_ok; auto. Qed.
  Lemma var_lt (s : fstate) v h : nth v (f_var s) None = Some h -> v < length (f_var s).
  Proof. intros H. destruct (Nat.lt_ge_cases v (length (f_var s))); auto. rewrite nth_overflow in H by auto. discriminate. Qed.
  Lemma heap_lt (s : fstate) h A : nth h (f_heap s) None = Some A -> h < length (f_heap s).
  Proof. intros H. destruct (Nat.lt_ge_cases h (length (f_heap s))); auto. rewrite nth_overflow in H by auto. discriminate. Qed.

  (** reading a variable never meets a freed matrix *)
  Lemma f_deref_ok (s : fstate) v : f_ok s -> v < length (f_var s) ->
    f_deref s v = match holds s v with Some A => Ok A | None => Err end.
  Proof.
    intros (H1 & _) Hv. unfold f_deref, holds. rewrite rd_var by auto. cbn [bind].
    destruct (nth v (f_var s) None) as [h|] eqn:E; auto. destruct (H1 v h E) as (A & HA).
    rewrite (rd_ok _ _ None) by (eapply heap_lt; eauto). cbn [bind]. rewrite HA. auto.
  Qed.

  Lemma f_deallocate_ok (s : fstate) v : f_ok s -> v < length (f_var s) ->
    exists s', f_deallocate s v = Ok s' /\ f_ok s' /\ nth v (f_var s') None = None /\ same_but v s s'.
  Proof.
    intros HO Hv. pose proof HO as (H1 & H2 & H3). unfold f_deallocate. rewrite rd_var by auto. cbn [bind].
    destruct (nth v (f_var s) None) as [h|] eqn:E.
    2:{ exists s. split; auto. split; auto. split; auto. split; auto. }
    destruct (H1 v h E) as (A & HA). pose proof (heap_lt _ _ _ HA) as Hh.
    rewrite (rd_ok _ _ None) by auto. cbn [bind]. rewrite HA. rewrite wr_ok by auto. cbn [bind]. rewrite wr_ok by auto. cbn [bind].
    eexists. split; [reflexivity|].
    assert (NV : forall w, nth w (set_nth (f_var s) v None) None = if w =? v then None else nth w (f_var s) None).
    { intros w. rewrite nth_set_nth. destruct (Nat.eqb_spec w v); subst; cbn [andb]; auto. apply Nat.ltb_lt in Hv. rewrite Hv. auto. }
    assert (NH : forall k, nth k (set_nth (f_heap s) h None) None = if k =? h then None else nth k (f_heap s) None).
    { intros k. rewrite nth_set_nth. destruct (Nat.eqb_spec k h); subst; cbn [andb]; auto. apply Nat.ltb_lt in Hh. rewrite Hh. auto. }
    split; [|split; [cbn [f_var]; rewrite NV, Nat.eqb_refl; auto|split; [cbn; apply length_set_nth|]]].
    - split; [|split]; cbn [f_var f_heap].
      + intros w k. rewrite NV, NH. destruct (Nat.eqb_spec w v); [discriminate|]. intros Ew.
        destruct (Nat.eqb_spec k h) as [->|]; [|eauto]. exfalso. apply n. eapply H2; eauto.
      + intros w1 w2 k. rewrite !NV. destruct (Nat.eqb_spec w1 v); [discriminate|]. destruct (Nat.eqb_spec w2 v); [discriminate|]. eauto.
      + intros k B. rewrite NH. destruct (Nat.eqb_spec k h); [discriminate|]. intros HB. destruct (H3 k B HB) as (w & Ew).
        exists w. rewrite NV. destruct (Nat.eqb_spec w v) as [->|]; auto. congruence.
    - intros w Hw. unfold holds. cbn [f_var f_heap]. rewrite NV. destruct (Nat.eqb_spec w v); [congruence|].
      destruct (nth w (f_var s) None) as [k|] eqn:Ew; auto. rewrite NH. destruct (Nat.eqb_spec k h) as [->|]; auto.
      exfalso. apply Hw. eapply H2; eauto.
  Qed.

  Lemma f_assign_ok (s : fstate) v B : f_ok s -> v < length (f_var s) -> nth v (f_var s) None = None ->
    exists s', f_assign s v B = Ok s' /\ f_ok s' /\ holds s' v = Some B /\ same_but v s s'.
  Proof.
    intros (H1 & H2 & H3) Hv E. unfold f_assign. rewrite wr_ok by auto. cbn [bind]. eexists. split; [reflexivity|].
    assert (NV : forall w, nth w (set_nth (f_var s) v (Some (length (f_heap s)))) None = if w =? v then Some (length (f_heap s)) else nth w (f_var s) None).
    { intros w. rewrite nth_set_nth. destruct (Nat.eqb_spec w v); subst; cbn [andb]; auto. apply Nat.ltb_lt in Hv. rewrite Hv. auto. }
    assert (NH : forall k, nth k (f_heap s ++ [Some B]) None = if k =? length (f_heap s) then Some B else nth k (f_heap s) None).
    { intros k. destruct (Nat.eqb_spec k (length (f_heap s))) as [->|].
      - rewrite app_nth2, Nat.sub_diag by lia. auto.
      - destruct (Nat.lt_ge_cases k (length (f_heap s))); [apply app_nth1; auto|].
        rewrite !nth_overflow; auto. rewrite app_length. cbn. lia. }
    assert (HL : forall w k, nth w (f_var s) None = Some k -> k < length (f_heap s)).
    { intros w k Ew. destruct (H1 w k Ew) as (A & HA). eapply heap_lt; eauto. }
    split; [|split; [|split; [cbn; apply length_set_nth|]]].
    - split; [|split]; cbn [f_var f_heap].
      + intros w k. rewrite NV, NH. destruct (Nat.eqb_spec w v).
        * intros [= <-]. rewrite Nat.eqb_refl. eauto.
        * intros Ew. destruct (Nat.eqb_spec k (length (f_heap s))); eauto.
      + intros w1 w2 k. rewrite !NV. destruct (Nat.eqb_spec w1 v), (Nat.eqb_spec w2 v); subst; auto.
        * intros [= <-] Ew. apply HL in Ew. lia.
        * intros Ew [= <-]. apply HL in Ew. lia.
        * eauto.
      + intros k A. rewrite NH. destruct (Nat.eqb_spec k (length (f_heap s))) as [->|].
        * exists v. rewrite NV, Nat.eqb_refl. auto.
        * intros HA. destruct (H3 k A HA) as (w & Ew). exists w. rewrite NV. destruct (Nat.eqb_spec w v); auto. congruence.
    - unfold holds. cbn [f_var f_heap]. rewrite NV, Nat.eqb_refl, NH, Nat.eqb_refl. auto.
    - intros w Hw. unfold holds. cbn [f_var f_heap]. rewrite NV. destruct (Nat.eqb_spec w v); [congruence|].
      destruct (nth w (f_var s) None) as [k|] eqn:Ew; auto. rewrite NH. apply HL in Ew. destruct (Nat.eqb_spec k (length (f_heap s))); auto. lia.
  Qed.

  Lemma holds_null (s : fstate) v : nth v (f_var s) None = None -> holds s v = None.
  Proof. unfold holds. intros ->. auto. Qed.

  Lemma same_but_trans v (s1 s2 s3 : fstate) : same_but v s1 s2 -> same_but v s2 s3 -> same_but v s1 s3.
  Proof. intros [L1 H1] [L2 H2]. split; [congruence|]. intros w Hw. rewrite H2, H1; auto. Qed.

  Lemma f_fresh_ok (s : fstate) v make B : f_ok s -> v < length (f_var s) ->
    (forall s1, f_ok s1 -> holds s1 v = None -> same_but v s s1 -> make s1 = Ok B) ->
    exists s', f_fresh s v make = Ok s' /\ f_ok s' /\ holds s' v = Some B /\ same_but v s s'.
  Proof.
    intros HO Hv HB. destruct (f_deallocate_ok s v HO Hv) as (s1 & E1 & O1 & N1 & S1). unfold f_fresh. rewrite E1. cbn [bind].
    rewrite (HB s1) by (auto; apply holds_null; auto). cbn [bind].
    destruct (f_assign_ok s1 v B) as (s' & E' & O' & V' & S'); auto; [rewrite (proj1 S1); auto|].
    exists s'. split; auto. split; auto. split; auto. eapply same_but_trans; eauto.
  Qed.

  Lemma holds_lt (s : fstate) v A : holds s v = Some A -> v < length (f_var s).
  Proof. unfold holds. destruct (nth v (f_var s) None) eqn:E; [|discriminate]. intros _. eapply var_lt; eauto. Qed.

  Lemma f_update_ok (s : fstate) v f A B : f_ok s -> holds s v = Some A -> f A = Ok B ->
    exists s', f_update s v f = Ok s' /\ f_ok s' /\ holds s' v = Some B /\ same_but v s s'.
  Proof.
    intros HO HA HB. pose proof HO as (H1 & H2 & H3). pose proof (holds_lt _ _ _ HA) as Hv. unfold f_update.
    rewrite f_deref_ok by auto. rewrite HA. cbn [bind]. rewrite HB. cbn [bind]. rewrite rd_var by auto. cbn [bind].
    unfold holds in HA. destruct (nth v (f_var s) None) as [h|] eqn:E; [|discriminate].
    pose proof (heap_lt _ _ _ HA) as Hh. rewrite wr_ok by auto. cbn [bind]. eexists. split; [reflexivity|].
    assert (NH : forall k, nth k (set_nth (f_heap s) h (Some B)) None = if k =? h then Some B else nth k (f_heap s) None).
    { intros k. rewrite nth_set_nth. destruct (Nat.eqb_spec k h); subst; cbn [andb]; auto. apply Nat.ltb_lt in Hh. rewrite Hh. auto. }
    split; [|split; [|split; [auto|]]].
    - split; [|split]; cbn [f_var f_heap]; auto.
      + intros w k Ew. rewrite NH. destruct (Nat.eqb_spec k h); eauto.
      + intros k C. rewrite NH. destruct (Nat.eqb_spec k h) as [->|]; eauto.
    - unfold holds. cbn [f_var f_heap]. rewrite E, NH, Nat.eqb_refl. auto.
    - intros w Hw. unfold holds. cbn [f_var f_heap]. destruct (nth w (f_var s) None) as [k|] eqn:Ew; auto.
      rewrite NH. destruct (Nat.eqb_spec k h) as [->|]; auto. exfalso. apply Hw. eapply H2; eauto.
  Qed.

  Lemma fs_import_ok nz (s : fstate) t (a : farr F) n v threshold m sched : f_ok s -> v < length (f_var s) -> whole a n ->
    import_room t (or_zero nz threshold) a n m -> Permutation (map snd sched) (seq 0 n) ->
    exists s' A, fs_import nz s t a v threshold m sched = Ok s' /\ f_ok s' /\ same_but v s s' /\ holds s' v = Some A /\
      bwf A /\ bml_get_type A = t /\ bml_get_N A = n /\
      forall i j, 1 <= i <= n -> 1 <= j <= n -> bmx A (i - 1) (j - 1) = kept t (or_zero nz threshold) (fa_at a i j).
  Proof.
    intros HO Hv HW HR HP. destruct (f_import_ok nz t a n threshold m sched HW HR HP) as (A & E & H).
    destruct (f_fresh_ok s v (fun _ => f_import nz t a threshold m sched) A) as (s' & E' & O & V & S); auto.
    exists s', A. auto 10.
  Qed.

  Lemma fs_transpose_ok (s : fstate) a b A (e : env F) : f_ok s -> b < length (f_var s) -> a <> b -> holds s a = Some A ->
    bwf A -> good_env A e -> transpose_room A ->
    exists s' B, fs_transpose s a b e = Ok s' /\ f_ok s' /\ same_but b s s' /\ holds s' b = Some B /\
      bwf B /\ like A B /\ meq (bml_get_N A) (bmx B) (mtrans (bmx A)).
  Proof.
    intros HO Hb Hab HA W He HR. destruct (bml_transpose_new_ok A e W He HR) as (B & E & H).
    destruct (f_fresh_ok s b (fun s => bind (f_deref s a) (fun A => bml_transpose_new A e)) B) as (s' & E' & O & V & S); auto.
    { intros s1 O1 _ [L1 S1]. pose proof (holds_lt _ _ _ HA). rewrite f_deref_ok by (auto; congruence). rewrite S1, HA by auto. cbn [bind]. auto. }
    exists s', B. auto 10.
  Qed.

  Lemma fs_copy_new_ok (s : fstate) a b A (e : env F) : f_ok s -> b < length (f_var s) -> a <> b -> holds s a = Some A ->
    bwf A -> good_env A e ->
    exists s' B, fs_copy_new s a b e = Ok s' /\ f_ok s' /\ same_but b s s' /\ holds s' b = Some B /\
      bwf B /\ like A B /\ meq (bml_get_N A) (bmx B) (bmx A).
  Proof.
    intros HO Hb Hab HA W He. destruct (bml_copy_new_ok A e W He) as (B & E & H).
    destruct (f_fresh_ok s b (fun s => bind (f_deref s a) (fun A => bml_copy_new A e)) B) as (s' & E' & O & V & S); auto.
    { intros s1 O1 _ [L1 S1]. pose proof (holds_lt _ _ _ HA). rewrite f_deref_ok by (auto; congruence). rewrite S1, HA by auto. cbn [bind]. auto. }
    exists s', B. auto 10.
  Qed.

  (** the result variable must not be the operand *)
  Lemma fs_alias (s : fstate) v (e : env F) : f_ok s -> v < length (f_var s) ->
    fs_transpose s v v e = Err /\ fs_copy_new s v v e = Err.
  Proof.
    intros HO Hv. destruct (f_deallocate_ok s v HO Hv) as (s1 & E1 & O1 & N1 & [L1 S1]).
    unfold fs_transpose, fs_copy_new, f_fresh. rewrite E1. cbn [bind]. rewrite f_deref_ok by (auto; congruence).
    rewrite holds_null by auto. auto.
  Qed.

  (** every sequence of calls that succeeds leaves the variables in order *)
  Lemma fresh_inv (s s' : fstate) v make : f_ok s -> f_fresh s v make = Ok s' -> f_ok s' /\ length (f_var s') = length (f_var s).
  Proof.
    intros HO HE. destruct (Nat.lt_ge_cases v (length (f_var s))) as [Hv|Hv].
    2:{ exfalso. unfold f_fresh, f_deallocate, rd in HE. apply nth_error_None in Hv. rewrite Hv in HE. cbn in HE. discriminate. }
    destruct (f_deallocate_ok s v HO Hv) as (s1 & E1 & O1 & N1 & [L1 S1]).
    unfold f_fresh in HE. rewrite E1 in HE. cbn [bind] in HE. destruct (make s1) as [B| | |]; cbn [bind] in HE; try discriminate.
    destruct (f_assign_ok s1 v B) as (s2 & E2 & O2 & V2 & [L2 S2]); auto; [congruence|]. rewrite E2 in HE. inversion HE. subst. split; auto. congruence.
  Qed.
  Lemma update_inv (s s' : fstate) v f : f_ok s -> f_update s v f = Ok s' -> f_ok s' /\ length (f_var s') = length (f_var s).
  Proof.
    intros HO HE. destruct (Nat.lt_ge_cases v (length (f_var s))) as [Hv|Hv].
    2:{ exfalso. unfold f_update, f_deref, rd in HE. apply nth_error_None in Hv. rewrite Hv in HE. cbn in HE. discriminate. }
    pose proof HE as HE'. unfold f_update in HE'. rewrite f_deref_ok in HE' by auto.
    destruct (holds s v) as [A|] eqn:HA; cbn [bind] in HE'; [|discriminate].
    destruct (f A) as [B| | |] eqn:HB; cbn [bind] in HE'; try discriminate.
    destruct (f_update_ok s v f A B) as (s2 & E2 & O2 & V2 & [L2 S2]); auto. rewrite E2 in HE. inversion HE. subst. auto.
  Qed.

  Lemma fs_call_inv nz c (s s' : fstate) : f_ok s -> fs_call nz c s = Ok s' -> f_ok s' /\ length (f_var s') = length (f_var s).
  Proof.
    intros HO HE. destruct c; cbn [fs_call] in HE; try (eapply fresh_inv; eassumption); try (eapply update_inv; eassumption).
    destruct (Nat.lt_ge_cases v (length (f_var s))) as [Hv|Hv].
    - destruct (f_deallocate_ok s v HO Hv) as (s1 & E1 & O1 & N1 & [L1 S1]). rewrite E1 in HE. inversion HE. subst. auto.
    - exfalso. unfold f_deallocate, rd in HE. apply nth_error_None in Hv. rewrite Hv in HE. cbn in HE. discriminate.
  Qed.

  Lemma fs_run_inv nz p : forall s s' : fstate, f_ok s -> fs_run nz p s = Ok s' -> f_ok s' /\ length (f_var s') = length (f_var s).
  Proof.
    induction p as [|c p IH]; intros s s' HO HE; unfold fs_run in *; cbn [forM] in HE.
    - inversion HE. subst. auto.
    - destruct (fs_call nz c s) as [s1| | |] eqn:E1; cbn [bind] in HE; try discriminate.
      destruct (fs_call_inv nz c s s1 HO E1) as [O1 L1]. destruct (IH s1 s' O1 HE) as [O2 L2]. split; auto. congruence.
  Qed.

  (** the number of live matrices is the number of associated variables *)
  Lemma live_count (s : fstate) : f_ok s ->
    length (filter (fun o => match o with Some _ => true | None => false end) (f_heap s)) =
    length (filter (fun o => match o with Some _ => true | None => false end) (f_var s)).
  Proof.
    intros (H1 & H2 & H3).
    set (L := flat_map (fun o => match o with Some h => [h] | None => [] end) (f_var s)).
    assert (EL : length (filter (fun o => match o with Some _ => true | None => false end) (f_var s)) = length L).
    { subst L. generalize (f_var s). intros l. induction l as [|[h|] l IH]; cbn; auto. }
    set (H := filter (fun h => match nth h (f_heap s) None with Some _ => true | None => false end) (seq 0 (length (f_heap s)))).
    assert (EH : length (filter (fun o => match o with Some _ => true | None => false end) (f_heap s)) = length H).
    { subst H. generalize (f_heap s). intros hp.
      assert (G : forall (l pre : list (option bmat)), length (filter (fun o => match o with Some _ => true | None => false end) l) =
        length (filter (fun h => match nth h (pre ++ l) None with Some _ => true | None => false end) (seq (length pre) (length l)))).
      { induction l as [|o l IH]; intros pre; cbn [length seq filter]; auto.
        rewrite app_nth2, Nat.sub_diag by lia. cbn [nth]. specialize (IH (pre ++ [o])). rewrite <- app_assoc in IH. cbn [app] in IH.
        rewrite app_length in IH. cbn [length] in IH. rewrite Nat.add_1_r in IH. destruct o; cbn [length]; rewrite IH; auto. }
      apply (G hp []). }
    rewrite EL, EH. apply Nat.le_antisymm.
    - apply NoDup_incl_length.
      + apply NoDup_filter, seq_NoDup.
      + intros h Hh. apply filter_In in Hh as [_ Hh]. destruct (nth h (f_heap s) None) as [A|] eqn:E; [|discriminate].
        destruct (H3 h A E) as (v & Ev). subst L. apply in_flat_map. exists (Some h). split; [|cbn; auto].
        rewrite <- Ev. apply nth_In. eapply var_lt; eauto.
    - apply NoDup_incl_length.
      + subst L. clear EL EH. revert H1 H2. clear H3 H. destruct s as [vs hp]. cbn [f_var f_heap]. clear. induction vs as [|o l IH]; intros H1 H2; cbn; [constructor|].
        assert (IHl : NoDup (flat_map (fun o => match o with Some h => [h] | None => [] end) l)).
        { apply IH.
          - intros v h E. apply (H1 (S v) h). auto.
          - intros v w h E1 E2. specialize (H2 (S v) (S w) h). cbn in H2. assert (S v = S w) by auto. lia. }
        destruct o as [h|]; cbn; auto. constructor; auto. intros HI. apply in_flat_map in HI as (o & Ho & Hh). destruct o as [k|]; [|contradiction].
        destruct Hh as [->|[]]. destruct (In_nth _ _ None Ho) as (q & Hq & Eq). specialize (H2 0 (S q) h). cbn in H2. assert (0 = S q) by auto. lia.
      + intros h Hh. subst L. apply in_flat_map in Hh as (o & Ho & Hh). destruct o as [k|]; [|contradiction]. destruct Hh as [->|[]].
        destruct (In_nth _ _ None Ho) as (v & Hv & Ev). destruct (H1 v h Ev) as (A & HA). apply filter_In. split.
        * apply in_seq. apply heap_lt in HA. lia.
        * rewrite HA. auto.
  Qed.
End FortranVars.
