(** Proofs about csr rows and loops over rows. *)
From Verif Require Import Base BaseFacts Spec SpecFacts EllpackModel EllpackSpec EllpackFacts EllpackOps EllpackArith
  EllpackMul EllpackMore EllpackRest CsrModel CsrSpec.
From Coq Require Import Ring.

#[local] Arguments firstn {A} !n !l : simpl nomatch.
#[local] Arguments skipn {A} !n !l : simpl nomatch.

Lemma expand_grows n : 10 <= n -> n < expand n.
Proof. intros H. unfold expand. apply Nat.div_le_lower_bound; lia. Qed.

Lemma firstn_app_all {A} (a b : list A) : firstn (length a) (a ++ b) = a.
Proof. rewrite firstn_app, Nat.sub_diag, firstn_all. simpl. apply app_nil_r. Qed.

Section CsrFacts.
  Context {F : scalar}.
  Local Open Scope K_scope.
  Add Ring Kring10 : (k_ring F).
  Local Notation row := (row F).
  Local Notation csr := (csr F).
  Local Notation ent := (nat * K F)%type.

  Definition row_is (r : row) (E : list ent) : Prop :=
    exists pad, rcells r = map Some E ++ pad /\ rnnz r = length E /\ (INIT_ROW_SPACE <= ralloc r)%nat.

  Lemma flat_map_Some (E : list ent) :
    flat_map (fun o => match o with Some kv => [kv] | None => [] end) (map Some E) = E.
  Proof. induction E as [|x E IH]; simpl; auto. rewrite IH. auto. Qed.

  Lemma row_is_rE r E : row_is r E -> rE r = E.
  Proof.
    intros (pad & H1 & H2 & _). unfold rE. rewrite H1, H2, <- (map_length Some E), firstn_app_all.
    apply flat_map_Some.
  Qed.

  Lemma row_is_init r E : row_is r E -> row_init r.
  Proof.
    intros (pad & H1 & H2 & H3). unfold row_init, ralloc in *. split; auto. rewrite H1, H2, app_length, map_length. split; [lia|].
    intros p Hp. rewrite app_nth1 by (rewrite map_length; auto).
    destruct (nth_error E p) eqn:X.
    - rewrite (nth_indep _ None (Some p0)) by (rewrite map_length; auto). rewrite map_nth. congruence.
    - apply nth_error_None in X. lia.
  Qed.

  Lemma row_init_is r : row_init r -> row_is r (rE r).
  Proof.
    intros (H1 & H2 & H3). exists (skipn (rnnz r) (rcells r)).
    assert (G : forall l, (forall p, (p < length l)%nat -> nth p l None <> None) ->
       map Some (flat_map (fun o : option ent => match o with Some kv => [kv] | None => [] end) l) = l).
    { induction l as [|[x|] l IH]; intros H; simpl; auto.
      - f_equal. apply IH. intros p Hp. apply (H (S p)). simpl. lia.
      - exfalso. apply (H 0%nat); simpl; auto. lia. }
    unfold ralloc in *.
    assert (X : map Some (rE r) = firstn (rnnz r) (rcells r)).
    { apply G. intros p Hp. rewrite firstn_length in Hp. rewrite nth_firstn_lt by lia. apply H3. lia. }
    split; [rewrite X; symmetry; apply firstn_skipn|]. split; [|auto].
    rewrite <- (map_length Some), X, firstn_length. lia.
  Qed.

  Lemma row_is_nnz r E : row_is r E -> rnnz r = length E.
  Proof. intros (pad & _ & H & _); auto. Qed.

  Lemma row_is_alloc r E : row_is r E -> (length E <= ralloc r)%nat.
  Proof. intros (pad & H & _ & _). unfold ralloc. rewrite H, app_length, map_length. lia. Qed.

  Lemma map_set_nth {X Y} (f : X -> Y) l p x : map f (set_nth l p x) = set_nth (map f l) p (f x).
  Proof. revert p; induction l as [|y l IH]; intros [|p]; simpl; auto. rewrite IH. auto. Qed.

  Lemma r_get_ok r E pos : row_is r E -> (pos < length E)%nat -> r_get r pos = Ok (nth pos E (0%nat, 0)).
  Proof.
    intros (pad & H1 & H2 & _) Hp. unfold r_get.
    rewrite (rd_ok _ _ (Some (0%nat, 0))) by (rewrite H1, app_length, map_length; lia). simpl.
    rewrite H1, app_nth1 by (rewrite map_length; auto). rewrite map_nth. auto.
  Qed.

  Lemma r_put_ok r E pos k v : row_is r E -> (pos < length E)%nat ->
    exists r', r_put r pos k v = Ok r' /\ row_is r' (set_nth E pos (k, v)) /\ ralloc r' = ralloc r /\ rnnz r' = rnnz r.
  Proof.
    intros (pad & H1 & H2 & H3) Hp. unfold r_put, ralloc in *.
    rewrite wr_ok by (rewrite H1, app_length, map_length; lia). cbn [bind].
    eexists; split; [reflexivity|]. cbn [rcells rnnz]. rewrite length_set_nth. split; [|auto].
    exists pad. unfold ralloc. cbn [rcells rnnz]. rewrite !length_set_nth, H1, set_nth_app_l by (rewrite map_length; auto).
    rewrite map_set_nth. repeat split; auto. rewrite <- H1. auto.
  Qed.

  Lemma r_for_eq {S} r E (body : nat -> F -> S -> res S) s : row_is r E ->
    r_for r body s = forM E (fun kv => body (fst kv) (snd kv)) s.
  Proof.
    intros H. unfold r_for. rewrite (row_is_nnz _ _ H).
    rewrite <- (for_n_nth E (0%nat, 0)). apply for_n_ext. intros p s' Hp.
    rewrite (r_get_ok _ _ _ H Hp). cbn [bind]. destruct (nth p E (0%nat, 0)); auto.
  Qed.

  Lemma r_push_ok r E j v : row_is r E ->
    exists r', r_push r j v = Ok r' /\ row_is r' (E ++ [(j, v)]) /\
      (ralloc r <= ralloc r')%nat /\ (length E < ralloc r -> ralloc r' = ralloc r)%nat.
  Proof.
    intros H. pose proof H as (pad & H1 & H2 & H3). pose proof (row_is_alloc _ _ H) as Ha. unfold r_push.
    assert (G : forall (c : list (option ent)) pad', c = map Some E ++ pad' -> (length E < length c)%nat ->
       (ralloc r <= length c)%nat -> (length E < ralloc r -> length c = ralloc r)%nat ->
       exists r', (c0 <- wr c (rnnz r) (Some (j, v)) ;; Ok (mkRow c0 (S (rnnz r)))) = Ok r' /\ row_is r' (E ++ [(j, v)]) /\
      (ralloc r <= ralloc r')%nat /\ (length E < ralloc r -> ralloc r' = ralloc r)%nat).
    { intros c pad' E1 Hl Hle Heq. rewrite H2. rewrite wr_ok by lia. cbn [bind]. eexists; split; [reflexivity|].
      assert (Hra : ralloc (mkRow (set_nth c (length E) (Some (j, v))) (S (length E))) = length c) by (unfold ralloc; simpl; apply length_set_nth).
      rewrite Hra. split; [|auto].
      destruct pad' as [|x pad']; [rewrite E1, app_length, map_length in Hl; simpl in Hl; lia|].
      exists pad'. unfold ralloc. cbn [rcells rnnz]. rewrite length_set_nth. split.
      - rewrite E1. rewrite <- (map_length Some E) at 1. rewrite set_nth_split. rewrite map_app. simpl. rewrite <- app_assoc. auto.
      - rewrite app_length. simpl. unfold ralloc in *. split; lia. }
    destruct (Nat.ltb_spec (ralloc r) (S (rnnz r))) as [Hg|Hg].
    - assert (Hx := expand_grows (ralloc r) H3). unfold ralloc in *.
      assert (X : realloc (rcells r) (expand (length (rcells r))) =
        map Some E ++ (pad ++ repeat None (expand (length (rcells r)) - length (rcells r)))).
      { unfold realloc. rewrite firstn_app. rewrite firstn_all2 by lia.
        rewrite H1 at 1. rewrite <- app_assoc. f_equal. f_equal.
        remember (expand (length (rcells r))) as e. remember (length (rcells r)) as m. clear.
        assert (Y : forall a b, (a <= b)%nat -> firstn a (repeat (@None ent) b) = repeat None a).
        { induction a as [|a IH]; intros [|b] Hab; simpl; auto; try lia. f_equal. apply IH. lia. }
        apply Y. lia. }
      apply (G _ _ X).
      + rewrite X, app_length, map_length, app_length, repeat_length.
        assert (Hlen := f_equal (@length _) H1). rewrite app_length, map_length in Hlen. lia.
      + rewrite X, app_length, map_length, app_length, repeat_length.
        assert (Hlen := f_equal (@length _) H1). rewrite app_length, map_length in Hlen. lia.
      + intros. lia.
    - apply (G _ _ H1); unfold ralloc in *; lia.
  Qed.

  Lemma r_push_grows r E j v r' : row_is r E -> grows r = false -> r_push r j v = Ok r' -> ralloc r' = ralloc r.
  Proof.
    intros H Hg E1. destruct (r_push_ok r E j v H) as (r2 & E2 & _ & _ & H4).
    assert (r2 = r') by congruence. subst. apply H4. unfold grows in Hg. apply Nat.ltb_ge in Hg.
    rewrite (row_is_nnz _ _ H) in Hg. lia.
  Qed.

  Lemma row_is_nil c : (INIT_ROW_SPACE <= length c)%nat -> row_is (mkRow c 0) [].
  Proof. intros H. exists c. repeat split; auto. Qed.

  Lemma clear_row_ok r E : row_is r E -> exists r', clear_row r = Ok r' /\ row_is r' [] /\ ralloc r' = ralloc r.
  Proof.
    intros H. pose proof H as (pad & H1 & H2 & H3). pose proof (row_is_alloc _ _ H) as Ha.
    assert (X : wp (clear_row r) (fun r' => row_is r' [] /\ ralloc r' = ralloc r)).
    { unfold clear_row. apply wp_bind. eapply wp_mono.
      - apply (for_n_inv (fun _ c => length c = ralloc r)); [auto|].
        intros p c Hp Hc. rewrite wr_ok by (rewrite Hc; lia). simpl. rewrite length_set_nth. auto.
      - intros c Hc. cbn [wpq]. split; [apply row_is_nil; rewrite Hc; auto|auto]. }
    apply wp_ok in X. destruct X as (r' & E1 & X1 & X2). eauto.
  Qed.

  Lemma noinit_row_is M : row_is (noinit_row M) [].
  Proof. apply row_is_nil. rewrite repeat_length. lia. Qed.
  Lemma zero_row_is M : row_is (zero_row M) [].
  Proof. apply row_is_nil. rewrite repeat_length. lia. Qed.

  (** ** first position of a column *)
  Fixpoint epos (E : list ent) (j : nat) : option nat :=
    match E with
    | [] => None
    | (k, _) :: t => if k =? j then Some 0%nat else option_map S (epos t j)
    end.

  Lemma epos_snoc E j k v : epos (E ++ [(k, v)]) j =
    match epos E j with Some p => Some p | None => if k =? j then Some (length E) else None end.
  Proof.
    induction E as [|[q u] E IH]; simpl; auto. destruct (q =? j); auto.
    rewrite IH. destruct (epos E j); simpl; auto. destruct (k =? j); auto.
  Qed.

  Lemma epos_Some E j p : epos E j = Some p -> (p < length E)%nat /\ fst (nth p E (0%nat, 0)) = j /\ In j (cols E) /\ snd (nth p E (0%nat, 0)) = elook E j.
  Proof.
    revert p. induction E as [|[k v] E IH]; intros p; simpl; [discriminate|].
    destruct (Nat.eqb_spec k j) as [->|Hne].
    - intros X; inversion X; subst. simpl. split; [lia|]. auto.
    - destruct (epos E j) as [q|]; simpl; [|discriminate]. intros X; inversion X; subst.
      destruct (IH q eq_refl) as (H1 & H2 & H3 & H4). split; [lia|]. auto.
  Qed.

  Lemma epos_None E j : epos E j = None <-> ~ In j (cols E).
  Proof.
    induction E as [|[k v] E IH]; simpl; [tauto|].
    destruct (Nat.eqb_spec k j) as [->|Hne].
    - split; [discriminate|]. intros H; exfalso; auto.
    - destruct (epos E j); simpl; split; try discriminate.
      + intros H. exfalso. destruct IH as [_ IH]. assert (X := IH (fun h => H (or_intror h))). discriminate.
      + intros _ [H|H]; [auto|]. apply (proj1 IH); auto.
      + auto.
  Qed.

  Lemma epos_firstn (E : list ent) j p : (p < length E)%nat -> epos (firstn (S p) E) j =
    match epos (firstn p E) j with Some q => Some q | None => if fst (nth p E (0%nat, 0%K)) =? j then Some p else None end.
  Proof.
    intros H. rewrite (firstn_S_nth E p (0%nat, 0) H).
    destruct (nth p E (0%nat, 0)) as [k v]. rewrite epos_snoc, firstn_length, Nat.min_l by lia. auto.
  Qed.

  Lemma r_find_ok r E j : row_is r E ->
    for_n (rnnz r) (fun pos f =>
        match f with
        | Some _ => Ok f
        | None => '(k, _) <- r_get r pos ;; Ok (if (k =? j)%nat then Some pos else None)
        end) None = Ok (epos E j).
  Proof.
    intros H. apply wp_eq. rewrite (row_is_nnz _ _ H).
    eapply wp_mono.
    - apply (for_n_inv (fun p f => f = epos (firstn p E) j)); [auto|].
      intros p f Hp ->. rewrite epos_firstn by auto. destruct (epos (firstn p E) j); [simpl; auto|].
      rewrite (r_get_ok _ _ _ H Hp). cbn [bind]. destruct (nth p E (0%nat, 0)); simpl. auto.
    - intros f ->. rewrite firstn_all. auto.
  Qed.

  Lemma r_elem_ok r E j : row_is r E -> r_elem r j = Ok (elook E j).
  Proof.
    intros H. unfold r_elem. apply wp_eq. apply wp_bind. rewrite (row_is_nnz _ _ H).
    eapply wp_mono.
    - apply (for_n_inv (fun p f => f = if existsb (Nat.eqb j) (cols (firstn p E)) then Some (elook (firstn p E) j) else None)); [auto|].
      intros p f Hp ->. rewrite (firstn_S_nth E p (0%nat, 0) Hp).
      destruct (nth p E (0%nat, 0)) as [k v] eqn:Ek.
      rewrite cols_app, existsb_app. simpl. rewrite orb_false_r.
      destruct (existsb (Nat.eqb j) (cols (firstn p E))) eqn:X.
      + simpl. f_equal. apply existsb_eqb in X. clear -X. induction (firstn p E) as [|[a b] L IH]; simpl in *; [tauto|].
        destruct (Nat.eqb_spec a j); auto. apply IH. tauto.
      + rewrite (r_get_ok _ _ _ H Hp), Ek. cbn [bind wpq]. simpl. rewrite (Nat.eqb_sym j k).
        apply existsb_eqb_false in X. destruct (Nat.eqb_spec k j) as [->|]; auto. f_equal.
        clear -X. induction (firstn p E) as [|[a b] L IH]; simpl in *; [rewrite Nat.eqb_refl; auto|].
        destruct (Nat.eqb_spec a j); [exfalso; auto|]. apply IH. tauto.
    - intros f ->. rewrite firstn_all. cbn [wpq]. destruct (existsb (Nat.eqb j) (cols E)) eqn:X; auto.
      apply existsb_eqb_false in X. symmetry. apply elook_notin. auto.
  Qed.

  (** the entry list after csr_set_row_element *)
  Definition setE (E : list ent) (j : nat) (v : F) : list ent :=
    match epos E j with Some p => set_nth E p (j, v) | None => E ++ [(j, v)] end.

  Lemma elook_setE E j v q : elook (setE E j v) q = if q =? j then v else elook E q.
  Proof.
    unfold setE. destruct (epos E j) as [p|] eqn:X.
    - clear -X. revert p X. induction E as [|[k u] E IH]; intros p; simpl; [discriminate|].
      destruct (Nat.eqb_spec k j) as [->|Hne].
      + intros H; inversion H; subst. simpl. rewrite (Nat.eqb_sym q j). destruct (j =? q); auto.
      + destruct (epos E j) as [p'|]; simpl; [|discriminate]. intros H; inversion H; subst. simpl.
        rewrite IH by auto. destruct (Nat.eqb_spec k q) as [->|]; auto.
        destruct (Nat.eqb_spec q j); congruence.
    - apply epos_None in X. apply elook_app_new; auto.
  Qed.

  Lemma cols_ok_setE N E j v : cols_ok N E -> (j < N)%nat -> cols_ok N (setE E j v).
  Proof.
    intros [H1 H2] Hj. unfold setE. destruct (epos E j) as [p|] eqn:X.
    - apply epos_Some in X as (Hp & Hk & _ & _).
      assert (E1 : cols (set_nth E p (j, v)) = cols E) by (rewrite <- Hk; apply cols_set_nth).
      split; rewrite E1; auto.
    - apply epos_None in X. split; rewrite cols_app; simpl.
      + apply NoDup_app_intro; auto; [constructor; [simpl; tauto|constructor]|]. simpl. intros x Hx [<-|[]]. auto.
      + intros k Hk. apply in_app_iff in Hk as [Hk|[<-|[]]]; auto.
  Qed.

  Lemma r_set_ok r E j v : row_is r E ->
    exists r', r_set r j v = Ok r' /\ row_is r' (setE E j v) /\ (ralloc r <= ralloc r')%nat.
  Proof.
    intros H. unfold r_set. rewrite (r_find_ok _ _ j H). cbn [bind]. unfold setE.
    destruct (epos E j) as [p|] eqn:X.
    - apply epos_Some in X as (Hp & _ & _). destruct (r_put_ok r E p j v H Hp) as (r' & E1 & E2 & E3 & _).
      exists r'. split; [auto|]. split; [auto|]. lia.
    - destruct (r_push_ok r E j v H) as (r' & E1 & E2 & E3 & _). eauto.
  Qed.

  (** writing n slots of a row from the start *)
  Lemma fill_ok (c : list (option ent)) (L : list ent) :
    (length L <= length c)%nat -> (INIT_ROW_SPACE <= length c)%nat ->
    exists c', for_n (length L) (fun p c => wr c p (Some (nth p L (0%nat, 0)))) c = Ok c' /\
      length c' = length c /\ row_is (mkRow c' (length L)) L.
  Proof.
    intros Hl Hi.
    assert (X : wp (for_n (length L) (fun p c => wr c p (Some (nth p L (0%nat, 0)))) c)
       (fun c' => length c' = length c /\ exists pad, c' = map Some (firstn (length L) L) ++ pad)).
    { apply (for_n_inv (fun p c' => length c' = length c /\ exists pad, c' = map Some (firstn p L) ++ pad)).
      - split; auto. exists c. auto.
      - intros p c' Hp [Hc (pad & Hpad)]. rewrite wr_ok by lia. simpl. rewrite length_set_nth. split; auto.
        assert (Hlen : length (map (@Some ent) (firstn p L)) = p) by (rewrite map_length, firstn_length; lia).
        destruct pad as [|x pad]; [rewrite Hpad, app_nil_r in Hc; lia|].
        exists pad. rewrite Hpad. rewrite <- Hlen at 2. rewrite set_nth_split.
        rewrite (firstn_S_nth L p (0%nat, 0) Hp), map_app, <- app_assoc. simpl. auto. }
    apply wp_ok in X as (c' & E1 & H1 & pad & H2). exists c'. split; [auto|]. split; [auto|].
    exists pad. rewrite firstn_all in H2. unfold ralloc. simpl. rewrite H1. auto.
  Qed.

  Lemma length_realloc (c : list (option ent)) n : length (realloc c n) = n.
  Proof. unfold realloc. rewrite firstn_length, app_length, repeat_length. lia. Qed.

  Lemma r_set_row_ok r E (nzcols : list nat) (vals : list F) : row_is r E ->
    (forall k, In k nzcols -> (k < length vals)%nat) ->
    exists r', r_set_row r nzcols vals = Ok r' /\ row_is r' (map (fun k => (k, nth k vals 0)) nzcols) /\ (ralloc r <= ralloc r')%nat.
  Proof.
    intros (pad & H1 & H2 & H3) Hk. unfold r_set_row, ralloc in *.
    set (c0 := if (length (rcells r) <? length nzcols)%nat then realloc (rcells r) (length nzcols) else rcells r).
    assert (Hc0 : (length nzcols <= length c0 /\ length (rcells r) <= length c0)%nat).
    { unfold c0. destruct (Nat.ltb_spec (length (rcells r)) (length nzcols)); rewrite ?length_realloc; lia. }
    destruct (fill_ok c0 (map (fun k => (k, nth k vals 0)) nzcols)) as (c' & E1 & E2 & E3).
    { rewrite map_length. lia. } { lia. }
    rewrite map_length in *.
    rewrite (for_n_ext _ _ (fun p c => wr c p (Some (nth p (map (fun k => (k, nth k vals 0)) nzcols) (0%nat, 0))))).
    - rewrite E1. cbn [bind]. eexists; split; [reflexivity|]. split; [auto|]. simpl. lia.
    - intros p c Hp. rewrite (rd_ok nzcols p 0%nat) by auto. cbn [bind].
      rewrite (rd_ok vals _ 0) by (apply Hk; apply nth_In; auto). cbn [bind].
      rewrite (nth_indep _ (0%nat, 0) (0%nat, nth 0 vals 0)) by (rewrite map_length; auto).
      pose proof (map_nth (fun k => (k, nth k vals 0)) nzcols 0%nat p) as Y. cbv beta in Y. rewrite Y. auto.
  Qed.

  Lemma row_is_reset r E : row_is r E -> row_is (mkRow (rcells r) 0) [].
  Proof. intros (pad & H1 & H2 & H3). apply row_is_nil. auto. Qed.

  Lemma r_set_sparse_ok (keep : F -> bool) r E (cs : list nat) (vs : list F) : row_is r E -> length vs = length cs ->
    exists r', r_set_sparse keep r cs vs = Ok r' /\
      row_is r' (filter (fun kv => keep (snd kv)) (combine cs vs)) /\ (ralloc r <= ralloc r')%nat.
  Proof.
    intros (pad & H1 & H2 & H3) Hl. unfold r_set_sparse, ralloc in *.
    set (c0 := if (length (rcells r) <? length cs)%nat then realloc (rcells r) (length cs) else rcells r).
    assert (Hc0 : (length cs <= length c0 /\ length (rcells r) <= length c0)%nat).
    { unfold c0. destruct (Nat.ltb_spec (length (rcells r)) (length cs)); rewrite ?length_realloc; lia. }
    assert (X : wp (for_n (length cs) (fun j r =>
      col <- rd cs j ;; v <- rd vs j ;;
      if keep v then c <- wr (rcells r) (rnnz r) (Some (col, v)) ;; Ok (mkRow c (S (rnnz r))) else Ok r) (mkRow c0 0))
      (fun r' => length (rcells r') = length c0 /\ row_is r' (filter (fun kv => keep (snd kv)) (combine (firstn (length cs) cs) (firstn (length cs) vs))))).
    { apply (for_n_inv (fun p r' => length (rcells r') = length c0 /\ row_is r' (filter (fun kv => keep (snd kv)) (combine (firstn p cs) (firstn p vs))))).
      - simpl. split; auto. apply row_is_nil. lia.
      - intros p r' Hp [Hc HR]. rewrite (rd_ok cs p 0%nat), (rd_ok vs p 0) by lia. cbn [bind].
        rewrite (firstn_S_nth cs p 0%nat), (firstn_S_nth vs p 0) by lia.
        assert (CA : forall (a b : list nat) (c d : list F), length a = length c -> combine (a ++ b) (c ++ d) = combine a c ++ combine b d).
        { induction a as [|x a IH]; intros b [|y c] d HH; simpl in *; try lia; auto. f_equal. apply IH. lia. }
        rewrite CA by (rewrite !firstn_length; lia). rewrite filter_app. simpl.
        destruct (keep (nth p vs 0)).
        + destruct HR as (pad' & P1 & P2 & P3).
          set (L := filter (fun kv => keep (snd kv)) (combine (firstn p cs) (firstn p vs))) in *.
          assert (HL : (length L <= p)%nat).
          { unfold L. eapply Nat.le_trans; [apply filter_length_le|]. rewrite combine_length, !firstn_length. lia. }
          rewrite P2. rewrite wr_ok by lia. simpl. rewrite length_set_nth. split; [auto|].
          destruct pad' as [|x pad']; [rewrite P1, app_nil_r, map_length in Hc; lia|].
          exists pad'. unfold ralloc in *. simpl. rewrite length_set_nth, app_length. simpl. split; [|split; [lia|auto]].
          rewrite P1. rewrite <- (map_length Some L) at 1. rewrite set_nth_split, map_app, <- app_assoc. auto.
        + simpl. rewrite app_nil_r. auto. }
    apply wp_ok in X as (r' & E1 & H4 & H5). exists r'. split; [auto|]. rewrite !firstn_all2 in H5 by lia. split; [auto|]. lia.
  Qed.

  (** ** loops over the rows of a matrix *)
  Definition cputp (A : csr) i r : csr := mkCsr (cN A) (cM A) (set_nth (cdata A) i r).

  Lemma c_row_ok (A : csr) i : (i < length (cdata A))%nat -> c_row A i = Ok (nth i (cdata A) row0).
  Proof. intros. apply rd_ok. auto. Qed.
  Lemma c_put_ok (A : csr) i r : (i < length (cdata A))%nat -> c_put A i r = Ok (cputp A i r).
  Proof. intros. unfold c_put. rewrite wr_ok by auto. auto. Qed.

  Definition crows (R : nat -> row -> Prop) (A : csr) : Prop :=
    length (cdata A) = cN A /\ forall i, (i < cN A)%nat -> R i (nth i (cdata A) row0).

  Lemma cpar_red {e W Q} (A0 : csr) sched (body : nat -> csr * W -> res (csr * W)) w0
        (R : nat -> row -> Prop) (Winv : W -> Prop) (reds : Q -> W -> F) (c : Q -> nat -> F) nth :
    length (cdata A0) = cN A0 ->
    Permutation (map snd sched) (seq 0 (cN A0)) -> (forall (q : Q) t i, In (t, i) sched -> (t < nth)%nat) ->
    (forall t, Winv (w0 t)) ->
    (forall i A w, (i < cN A0)%nat -> cdims A0 A -> length (cdata A) = cN A0 ->
       List.nth i (cdata A) row0 = List.nth i (cdata A0) row0 -> Winv w ->
       wpq e (body i (A, w)) (fun r => exists r', fst r = cputp A i r' /\ R i r' /\ Winv (snd r) /\
          forall q, reds q (snd r) = reds q w + c q i)) ->
    wpq e (par_for sched body A0 w0)
       (fun r => cdims A0 (fst r) /\ crows R (fst r) /\
          forall q, bigsum nth (fun t => reds q (snd r t)) =
                    bigsum nth (fun t => reds q (w0 t)) + bigsum (cN A0) (c q)).
  Proof.
    intros Hs HP Hth Hw Hbody.
    assert (Hnd := perm_nodup _ _ HP).
    eapply wp_mono.
    - apply (par_for_inv (fun done A w =>
        cdims A0 A /\ length (cdata A) = cN A0 /\
        (forall i, (i < cN A0)%nat -> ~ In i done -> List.nth i (cdata A) row0 = List.nth i (cdata A0) row0) /\
        (forall i, In i done -> R i (List.nth i (cdata A) row0)) /\
        (forall t, Winv (w t)) /\
        (forall q, bigsum nth (fun t => reds q (w t)) =
                    bigsum nth (fun t => reds q (w0 t)) + lsum (map (c q) done)))).
      + split; [split; auto|]. split; auto. repeat split; auto; simpl; try tauto. intros; ring.
      + intros pre t i post A w E (D & HsA & Hun & Hdo & HwA & Hred).
        assert (Hin : In i (map snd sched)).
        { rewrite E, map_app. apply in_app_iff. right; left; auto. }
        assert (Hi : (i < cN A0)%nat) by (apply (perm_in _ _ _ HP); auto).
        assert (Htn : forall q : Q, (t < nth)%nat) by (intros q; apply (Hth q t i); rewrite E; apply in_app_iff; right; left; auto).
        assert (Hnot : ~ In i (map snd pre)).
        { rewrite E, map_app in Hnd. apply NoDup_app_inv in Hnd as (_ & _ & Hx).
          intros Hc. apply (Hx i Hc). left; auto. }
        eapply wp_mono; [apply (Hbody i A (w t)); auto|].
        intros [A' w'] (r' & HU & HRr & HW & HR). simpl in *. subst A'.
        split; [destruct D; split; auto|]. split; [simpl; rewrite length_set_nth; auto|]. split; [|split; [|split]].
        * intros i' Hi' Hni. rewrite in_app_iff in Hni. simpl in Hni.
          simpl. rewrite nth_set_nth_neq by (intros ->; apply Hni; auto). apply Hun; auto.
        * intros i' Hi'. apply in_app_iff in Hi'. simpl in Hi'. simpl.
          destruct (Nat.eq_dec i' i) as [->|Hne].
          -- rewrite nth_set_nth_eq by lia. auto.
          -- rewrite nth_set_nth_neq by auto. apply Hdo. destruct Hi' as [H|[H|[]]]; auto. congruence.
        * intros t'. unfold upd_fun. destruct (t' =? t); auto.
        * intros q. rewrite map_app, lsum_app. simpl.
          rewrite (bigsum_ext nth (fun t0 => reds q (upd_fun w t w' t0)) (upd_fun (fun t => reds q (w t)) t (reds q w'))).
          2:{ intros p Hp. unfold upd_fun. destruct (p =? t); auto. }
          rewrite HR. rewrite (reduce_step nth (fun t => reds q (w t)) t (c q i)) by auto. rewrite Hred. ring.
    - simpl. intros r (D & HsA & Hun & Hdo & HwA & Hred).
      split; [auto|]. split; [split|].
      + destruct D as [<- _]. auto.
      + intros i Hi. apply Hdo. apply (perm_in _ _ _ HP). destruct D as [-> _]. auto.
      + intros q. rewrite Hred. rewrite (lsum_rows (c q) (cN A0) _ HP). auto.
  Qed.

  Lemma cpar {e W} (A0 : csr) sched (body : nat -> csr * W -> res (csr * W)) w0
        (R : nat -> row -> Prop) (Winv : W -> Prop) :
    length (cdata A0) = cN A0 ->
    Permutation (map snd sched) (seq 0 (cN A0)) ->
    (forall t, Winv (w0 t)) ->
    (forall i A w, (i < cN A0)%nat -> cdims A0 A -> length (cdata A) = cN A0 ->
       nth i (cdata A) row0 = nth i (cdata A0) row0 -> Winv w ->
       wpq e (body i (A, w)) (fun r => exists r', fst r = cputp A i r' /\ R i r' /\ Winv (snd r))) ->
    wpq e (par_for sched body A0 w0)
       (fun r => cdims A0 (fst r) /\ crows R (fst r)).
  Proof.
    intros Hs HP Hw Hbody. eapply wp_mono.
    - apply (cpar_red (Q := Empty_set) A0 sched body w0 R Winv (fun _ _ => 0) (fun _ _ => 0) 0); auto.
      + intros [].
      + intros i A w H1 H2 H3 H4 H5. eapply wp_mono; [apply Hbody; auto|].
        intros r (r' & X1 & X2 & X3). exists r'. repeat split; auto. intros [].
    - simpl. tauto.
  Qed.

  (** the usual loop: read row i, transform it, write it back *)
  Lemma cpar_rows {e} (A0 : csr) sched (f : nat -> row -> res row) (R : nat -> row -> Prop) :
    length (cdata A0) = cN A0 ->
    Permutation (map snd sched) (seq 0 (cN A0)) ->
    (forall i, (i < cN A0)%nat -> wpq e (f i (nth i (cdata A0) row0)) (R i)) ->
    wpq e (par_for sched (fun i '(A, w) => r <- c_row A i ;; r <- f i r ;; A <- c_put A i r ;; Ok (A, w)) A0 (fun _ => tt))
       (fun r => cdims A0 (fst r) /\ crows R (fst r)).
  Proof.
    intros Hs HP Hf. apply (cpar A0 sched _ _ R (fun _ => True)); auto.
    intros i A w Hi [D1 D2] HL Hn _. rewrite c_row_ok by lia. cbn [bind]. rewrite Hn.
    apply wp_bind. eapply wp_mono; [apply Hf; auto|]. intros r HR.
    rewrite c_put_ok by lia. cbn [bind wpq fst snd]. eauto.
  Qed.

  (** ** well-formedness from the rows *)
  Definition good (N : nat) (E : nat -> list ent) (i : nat) (r : row) : Prop := row_is r (E i) /\ cols_ok N (E i).

  Lemma cwf_is (A : csr) i : cwf A -> (i < cN A)%nat -> row_is (nth i (cdata A) row0) (crow A i).
  Proof. intros [[H1 H2] _] Hi. apply row_init_is. auto. Qed.

  Lemma cshape_is (A : csr) i : cshape A -> (i < cN A)%nat -> row_is (nth i (cdata A) row0) (crow A i).
  Proof. intros [H1 H2] Hi. apply row_init_is. auto. Qed.

  Lemma cwf_len (A : csr) : cwf A -> length (cdata A) = cN A.
  Proof. intros [[H _] _]; auto. Qed.

  Lemma crows_is_shape (A : csr) (E : nat -> list ent) : crows (fun i r => row_is r (E i)) A ->
    cshape A /\ forall i, (i < cN A)%nat -> crow A i = E i.
  Proof.
    intros [H1 H2]. split.
    - split; auto. intros i Hi. eapply row_is_init; eauto.
    - intros i Hi. apply row_is_rE. auto.
  Qed.

  Lemma crows_wf (A : csr) (E : nat -> list ent) : crows (fun i r => row_is r (E i)) A ->
    (forall i, (i < cN A)%nat -> cols_ok (cN A) (E i)) ->
    cwf A /\ forall i, (i < cN A)%nat -> crow A i = E i.
  Proof.
    intros H Hc. destruct (crows_is_shape A E H) as [H1 H2]. split; auto. split; auto.
    intros i Hi. rewrite H2; auto.
  Qed.

  (** ** an update of one row *)
  Definition cupd (A A' : csr) (i : nat) (E : list ent) : Prop :=
    exists r', A' = cputp A i r' /\ row_is r' E.

  Lemma crow_cputp (A : csr) i r' i' : (i < length (cdata A))%nat ->
    crow (cputp A i r') i' = if i' =? i then rE r' else crow A i'.
  Proof.
    intros H. unfold crow, cputp. simpl. rewrite nth_set_nth. apply Nat.ltb_lt in H as ->. rewrite andb_true_r.
    destruct (i' =? i); auto.
  Qed.

  Lemma cupd_shape (A A' : csr) i E : cshape A -> (i < cN A)%nat -> cupd A A' i E ->
    cdims A A' /\ cshape A' /\ crow A' i = E /\ (forall i', i' <> i -> crow A' i' = crow A i').
  Proof.
    intros [H1 H2] Hi (r' & -> & HE). split; [split; auto|]. split.
    - split; simpl; [rewrite length_set_nth; auto|]. intros i' Hi'. destruct (Nat.eq_dec i' i) as [->|Hne].
      + rewrite nth_set_nth_eq by lia. eapply row_is_init; eauto.
      + rewrite nth_set_nth_neq by auto. auto.
    - split; [|intros i' Hne]; rewrite crow_cputp by lia.
      + rewrite Nat.eqb_refl. apply row_is_rE; auto.
      + apply Nat.eqb_neq in Hne as ->. auto.
  Qed.

  Lemma cupd_wf (A A' : csr) i E : cwf A -> (i < cN A)%nat -> cupd A A' i E -> cols_ok (cN A) E ->
    cwf A' /\ cdims A A' /\ crow A' i = E /\ (forall i', i' <> i -> crow A' i' = crow A i').
  Proof.
    intros [Hs Hw] Hi HU HE. destruct (cupd_shape _ _ _ _ Hs Hi HU) as ((D1 & D2) & H1 & H2 & H3).
    split; [|split; [split; auto|auto]]. split; auto. intros i' Hi'. rewrite <- D1.
    destruct (Nat.eq_dec i' i) as [->|Hne]; [rewrite H2; auto|]. rewrite H3 by auto. apply Hw. congruence.
  Qed.

  (** ** constructors, setters, getters *)
  Lemma csr_const_ok N M r : row_is r [] -> cwf (mkCsr N M (repeat r N)) /\ forall i, crow (mkCsr N M (repeat r N)) i = @nil ent.
  Proof.
    intros H.
    assert (X : forall i, crow (mkCsr N M (repeat r N)) i = []).
    { intros i. unfold crow. simpl. destruct (Nat.lt_ge_cases i N) as [Hi|Hi].
      - rewrite (nth_indep _ row0 r) by (rewrite repeat_length; auto). rewrite nth_repeat_any. apply row_is_rE; auto.
      - rewrite nth_overflow by (rewrite repeat_length; auto). reflexivity. }
    split; [|auto]. split; [split|].
    - simpl. apply repeat_length.
    - simpl. intros i Hi. rewrite (nth_indep _ row0 r) by (rewrite repeat_length; auto). rewrite nth_repeat_any. eapply row_is_init; eauto.
    - intros i Hi. rewrite X. split; [constructor|simpl; tauto].
  Qed.

  Lemma csr_zero_ok N M : cwf (csr_zero N M : csr) /\ forall i, crow (csr_zero N M) i = @nil ent.
  Proof. apply csr_const_ok. apply zero_row_is. Qed.
  Lemma csr_noinit_ok N M : cwf (csr_noinit N M : csr) /\ forall i, crow (csr_noinit N M) i = @nil ent.
  Proof. apply csr_const_ok. apply noinit_row_is. Qed.

  Lemma zero_rows N M i : (i < N)%nat -> nth i (cdata (csr_zero N M)) (@row0 F) = zero_row M.
  Proof. intros H. simpl. rewrite (nth_indep _ row0 (zero_row M)) by (rewrite repeat_length; auto). apply nth_repeat_any. Qed.

  Lemma csr_set_element_new_ok (A : csr) i j v : cshape A -> (i < cN A)%nat ->
    exists A', csr_set_element_new A i j v = Ok A' /\ cupd A A' i (crow A i ++ [(j, v)]).
  Proof.
    intros HA Hi. pose proof HA as [HL _]. unfold csr_set_element_new. rewrite c_row_ok by lia. cbn [bind].
    destruct (r_push_ok _ _ j v (cshape_is A i HA Hi)) as (r' & E1 & E2 & _). rewrite E1. cbn [bind].
    rewrite c_put_ok by lia. eexists; split; [reflexivity|]. exists r'. auto.
  Qed.

  Lemma csr_set_element_ok (A : csr) i j v : cshape A -> (i < cN A)%nat ->
    exists A', csr_set_element A i j v = Ok A' /\ cupd A A' i (setE (crow A i) j v).
  Proof.
    intros HA Hi. pose proof HA as [HL _]. unfold csr_set_element. rewrite c_row_ok by lia. cbn [bind].
    destruct (r_set_ok _ _ j v (cshape_is A i HA Hi)) as (r' & E1 & E2 & _). rewrite E1. cbn [bind].
    rewrite c_put_ok by lia. eexists; split; [reflexivity|]. exists r'. auto.
  Qed.

  Lemma csr_get_element_ok (A : csr) i j : cshape A -> (i < cN A)%nat -> csr_get_element A i j = Ok (cmat A i j).
  Proof.
    intros HA Hi. pose proof HA as [HL _]. unfold csr_get_element. apply Nat.leb_gt in Hi as Hb. rewrite Hb.
    rewrite c_row_ok by lia. cbn [bind]. apply r_elem_ok. apply cshape_is; auto.
  Qed.

  Lemma csr_set_row_ok (keep : F -> bool) (A : csr) i (vals : list F) : cwf A -> (i < cN A)%nat -> length vals = cN A ->
    exists A', csr_set_row keep A i vals = Ok A' /\ cupd A A' i (drow keep (cN A) (fun j => nth j vals 0)).
  Proof.
    intros HA Hi Hl. pose proof (cwf_len _ HA) as HL. unfold csr_set_row. rewrite c_row_ok by lia. cbn [bind].
    assert (X : for_n (cN A) (fun j cols => v <- rd vals j ;; Ok (if keep v then cols ++ [j] else cols)) [] =
       Ok (filter (fun j => keep (nth j vals 0)) (seq 0 (cN A)))).
    { apply wp_eq. eapply wp_mono.
      - apply (for_n_inv (fun p l => l = filter (fun j => keep (nth j vals 0)) (seq 0 p))); [auto|].
        intros p l Hp ->. rewrite (rd_ok _ _ 0) by lia. cbn [bind wpq]. rewrite seq_S, filter_app. simpl.
        destruct (keep (nth p vals 0)); rewrite ?app_nil_r; auto.
      - intros l ->. auto. }
    rewrite X. cbn [bind].
    destruct (r_set_row_ok _ [] (filter (fun j => keep (nth j vals 0)) (seq 0 (cN A))) vals
       (row_is_reset _ _ (cwf_is A i HA Hi))) as (r' & E1 & E2 & _).
    { intros k Hk. apply filter_In in Hk as [Hk _]. apply in_seq in Hk. lia. }
    rewrite E1. cbn [bind]. rewrite c_put_ok by lia. eexists; split; [reflexivity|]. exists r'. split; auto.
    assert (Y : forall L, map (fun k => (k, nth k vals 0)) (filter (fun j => keep (nth j vals 0)) L) =
       filter (fun kv : ent => keep (snd kv)) (map (fun j => (j, nth j vals 0)) L)).
    { induction L as [|x L IH]; simpl; auto. destruct (keep (nth x vals 0)); simpl; rewrite IH; auto. }
    rewrite Y in E2. exact E2.
  Qed.

  Lemma csr_get_row_ok (A : csr) i : cwf A -> (i < cN A)%nat ->
    csr_get_row A i = Ok (map (fun j => cmat A i j) (seq 0 (cN A))).
  Proof.
    intros HA Hi. pose proof HA as [Hs Hw]. unfold csr_get_row. rewrite c_row_ok by (rewrite (cwf_len _ HA); auto). cbn [bind].
    rewrite (r_for_eq _ _ _ _ (cwf_is A i HA Hi)).
    destruct (Hw i Hi) as [H1 H2].
    apply wp_eq. eapply wp_mono; [apply (scatter_row (crow A i) (cN A)); auto|].
    - apply repeat_length.
    - simpl. intros r [Hl Hr].
      apply (list_ext_nth _ _ 0).
      + rewrite Hl, map_length, seq_length. auto.
      + intros j Hj. rewrite Hl in Hj. rewrite (nth_map_seq (fun j => cmat A i j)) by auto.
        rewrite Hr by auto. unfold cmat. rewrite nth_repeat_any.
        destruct (existsb (Nat.eqb j) (cols (crow A i))) eqn:X; auto.
        apply existsb_eqb_false in X. rewrite elook_notin; auto.
  Qed.
End CsrFacts.
