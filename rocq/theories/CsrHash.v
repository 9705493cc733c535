(** Proofs about the csr hash table and the operations that use it. *)
From Verif Require Import Base BaseFacts Spec SpecFacts EllpackModel EllpackSpec EllpackFacts EllpackOps EllpackArith
  EllpackMul EllpackMore EllpackRest CsrModel CsrSpec CsrFacts CsrOps CsrMul.
From Coq Require Import Ring.

#[local] Arguments firstn {A} !n !l : simpl nomatch.
#[local] Arguments skipn {A} !n !l : simpl nomatch.

(** ** table size *)

(** the largest number of entries the table of powers of two allows *)
Definition table_max : nat := 2 ^ 18 * 2 / 3.

Lemma powersof2_nth i : i < 16 -> rd powersof2 i = Ok (2 ^ (3 + i)).
Proof.
  intros H. unfold powersof2. rewrite (rd_ok _ _ (2 ^ 0)) by (rewrite map_length, seq_length; auto).
  pose proof (map_nth (fun k => 2 ^ k) (seq 3 16) 0 i) as Y. cbv beta in Y. rewrite Y, seq_nth by auto. auto.
Qed.

Lemma powersof2_oob i : 16 <= i -> rd powersof2 i = UB.
Proof. intros H. apply rd_oob. unfold powersof2. rewrite map_length, seq_length. auto. Qed.

Lemma table_size_ok fuel i alloc : i < 16 -> 16 - i <= fuel -> alloc <= table_max ->
  exists k, table_size fuel i alloc = Ok (2 ^ k) /\ alloc <= 2 ^ k.
Proof.
  revert i. induction fuel as [|fuel IH]; intros i Hi Hf Ha; [lia|]. cbn [table_size].
  rewrite powersof2_nth by auto. cbn [bind].
  destruct (Nat.ltb_spec (2 ^ (3 + i) * 2 / 3) alloc) as [H|H].
  - apply IH; auto; try lia.
    destruct (Nat.eq_dec i 15) as [->|]; [|lia].
    exfalso. change (3 + 15) with 18 in H. unfold table_max in Ha. lia.
  - exists (3 + i). split; auto. eapply Nat.le_trans; [exact H|]. apply Nat.div_le_upper_bound; lia.
Qed.

Lemma table_size_oob fuel i alloc : i <= 16 -> 16 - i < fuel -> table_max < alloc -> table_size fuel i alloc = UB.
Proof.
  revert i. induction fuel as [|fuel IH]; intros i Hi Hf Ha; [lia|]. cbn [table_size].
  destruct (Nat.eq_dec i 16) as [->|].
  - rewrite powersof2_oob by auto. auto.
  - rewrite powersof2_nth by lia. cbn [bind].
    assert (X : 2 ^ (3 + i) * 2 / 3 < alloc).
    { eapply Nat.le_lt_trans; [|exact Ha]. unfold table_max. apply Nat.div_le_mono; [lia|].
      apply Nat.mul_le_mono_r. apply Nat.pow_le_mono_r; lia. }
    apply Nat.ltb_lt in X. rewrite X. apply IH; lia.
Qed.

Lemma table_max_big n : n <= 1000 -> n <= table_max.
Proof.
  intros H. eapply Nat.le_trans; [exact H|]. unfold table_max. apply Nat.div_le_lower_bound; [lia|].
  apply Nat.le_trans with (2 ^ 11 * 2); [vm_compute; lia|]. apply Nat.mul_le_mono_r. apply Nat.pow_le_mono_r; lia.
Qed.

(** ** the table as a map from keys to insertion positions *)
Definition hidx (sp key : nat) : nat := Nat.land key (sp - 1).

Lemma hidx_lt k key : hidx (2 ^ k) key < 2 ^ k.
Proof.
  unfold hidx. rewrite <- (Nat.ones_equiv k) || rewrite Nat.sub_1_r, <- Nat.ones_equiv.
  rewrite Nat.land_ones. apply Nat.mod_upper_bound. apply Nat.pow_nonzero. lia.
Qed.

(** last of the first n keys that falls in slot idx *)
Fixpoint lasth (sp : nat) (keys : list nat) (idx n : nat) : option nat :=
  match n with
  | O => None
  | S n => if hidx sp (nth n keys 0) =? idx then Some n else lasth sp keys idx n
  end.
Fixpoint lastk (keys : list nat) (key n : nat) : option nat :=
  match n with
  | O => None
  | S n => if nth n keys 0 =? key then Some n else lastk keys key n
  end.

Lemma lasth_snoc sp keys k idx n : n <= length keys -> lasth sp (keys ++ [k]) idx n = lasth sp keys idx n.
Proof. induction n as [|n IH]; intros H; simpl; auto. rewrite app_nth1 by lia. rewrite IH by lia. auto. Qed.

Definition tinv (sp : nat) (keys : list nat) (t : table) : Prop :=
  length (tslots t) = sp /\ length (tstore t) = sp /\ tsize t = length keys /\ length keys <= sp /\
  (forall idx, idx < sp -> nth idx (tslots t) None = lasth sp keys idx (length keys)) /\
  (forall p, p < length keys -> nth p (tstore t) None = Some (nth p keys 0, p, lasth sp keys (hidx sp (nth p keys 0)) p)).

Lemma tinv_new sp : tinv sp [] (mkTable (repeat None sp) (repeat None sp) 0).
Proof.
  unfold tinv. simpl. rewrite !repeat_length. split; [auto|]. split; [auto|]. split; [auto|]. split; [lia|]. split.
  - intros. apply nth_repeat_any.
  - intros; lia.
Qed.

Lemma tinv_reset sp keys t : tinv sp keys t -> tinv sp [] (table_reset t).
Proof.
  intros (H1 & H2 & _). unfold tinv, table_reset. simpl. rewrite repeat_length. split; [auto|]. split; [auto|].
  split; [auto|]. split; [lia|]. split; [intros; apply nth_repeat_any|]. intros; lia.
Qed.

Lemma table_insert_ok k keys t key : tinv (2 ^ k) keys t -> length keys < 2 ^ k ->
  exists t', table_insert t key = Ok t' /\ tinv (2 ^ k) (keys ++ [key]) t'.
Proof.
  intros (H1 & H2 & H3 & H4 & H5 & H6) Hl. unfold table_insert.
  pose proof (hidx_lt k key) as Hx. rewrite H1. fold (hidx (2 ^ k) key).
  rewrite (rd_ok _ _ None) by lia. cbn [bind]. rewrite wr_ok by lia. cbn [bind]. rewrite wr_ok by lia. cbn [bind].
  eexists; split; [reflexivity|]. unfold tinv. cbn [tslots tstore tsize].
  rewrite !length_set_nth, app_length. simpl. split; [auto|]. split; [auto|]. split; [lia|]. split; [lia|]. split.
  - intros idx Hi. rewrite Nat.add_1_r. cbn [lasth]. rewrite app_nth2, Nat.sub_diag by lia. cbn [nth].
    rewrite lasth_snoc by auto. destruct (Nat.eqb_spec (hidx (2 ^ k) key) idx) as [<-|Hne].
    + rewrite nth_set_nth_eq by lia. congruence.
    + rewrite nth_set_nth_neq by auto. apply H5; auto.
  - intros p Hp. destruct (Nat.eq_dec p (length keys)) as [->|].
    + rewrite H3. rewrite nth_set_nth_eq by lia. rewrite app_nth2, Nat.sub_diag by lia. cbn [nth].
      rewrite lasth_snoc by auto. rewrite H5 by auto. auto.
    + rewrite nth_set_nth_neq by lia. rewrite app_nth1 by lia. rewrite lasth_snoc by lia. apply H6. lia.
Qed.

Lemma table_chain_ok sp keys t key n fuel : tinv sp keys t -> n <= length keys -> n < fuel ->
  table_chain fuel t key (lasth sp keys (hidx sp key) n) = Ok (lastk keys key n).
Proof.
  intros HT. revert fuel. induction n as [|n IH]; intros fuel Hn Hf.
  - destruct fuel; [lia|]. reflexivity.
  - cbn [lasth lastk]. destruct (Nat.eqb_spec (hidx sp (nth n keys 0)) (hidx sp key)) as [E|E].
    + destruct fuel as [|fuel]; [lia|]. cbn [table_chain]. pose proof HT as (H1 & H2 & H3 & H4 & H5 & H6).
      rewrite (rd_ok _ _ None) by lia. cbn [bind]. rewrite H6 by lia. cbn [use bind].
      destruct (nth n keys 0 =? key); auto. rewrite E. apply IH; lia.
    + destruct (Nat.eqb_spec (nth n keys 0) key) as [Hk|]; [rewrite Hk in E; congruence|]. apply IH; lia.
Qed.

Lemma table_lookup_ok k keys t key : tinv (2 ^ k) keys t -> table_lookup t key = Ok (lastk keys key (length keys)).
Proof.
  intros HT. pose proof HT as (H1 & H2 & H3 & H4 & H5 & H6). unfold table_lookup.
  pose proof (hidx_lt k key) as Hx. rewrite H1. fold (hidx (2 ^ k) key).
  rewrite (rd_ok _ _ None) by lia. cbn [bind]. rewrite H5 by auto. apply (table_chain_ok (2 ^ k)); auto. lia.
Qed.

Lemma lastk_Some keys key n p : lastk keys key n = Some p -> p < n /\ nth p keys 0 = key.
Proof.
  induction n as [|n IH]; simpl; [discriminate|]. destruct (Nat.eqb_spec (nth n keys 0) key).
  - intros X; inversion X; subst. auto.
  - intros X. apply IH in X as [? ?]. auto.
Qed.

Lemma lastk_None keys key n : n <= length keys -> (lastk keys key n = None <-> ~ In key (firstn n keys)).
Proof.
  induction n as [|n IH]; simpl; intros Hn; [tauto|]. rewrite (firstn_S_nth keys n 0) by lia. rewrite in_app_iff.
  destruct (Nat.eqb_spec (nth n keys 0) key) as [E|E].
  - split; [discriminate|]. intros X. exfalso. apply X. right; left; auto.
  - rewrite IH by lia. simpl. tauto.
Qed.

Section CsrAdd.
  Context {F : scalar}.
  Local Open Scope K_scope.
  Add Ring Kring13 : (k_ring F).
  Local Notation row := (row F).
  Local Notation csr := (csr F).
  Local Notation ent := (nat * K F)%type.

  Lemma NoDup_cols_filter (p : ent -> bool) E : NoDup (cols E) -> NoDup (cols (filter p E)).
  Proof.
    induction E as [|x E IH]; simpl; auto. intros H. inversion H; subst. destruct (p x); simpl; auto.
    constructor; auto. intros Hin. apply H2. unfold cols in *. apply in_map_iff in Hin as (y & <- & Hy).
    apply filter_In in Hy as [Hy _]. apply in_map; auto.
  Qed.

  Lemma lastk_epos (E : list ent) j : NoDup (cols E) -> lastk (cols E) j (length (cols E)) = epos E j.
  Proof.
    intros Hd. destruct (lastk (cols E) j (length (cols E))) as [p|] eqn:X.
    - apply lastk_Some in X as [X1 X2]. destruct (epos E j) as [q|] eqn:Y.
      + apply epos_Some in Y as (Y1 & Y2 & _). f_equal.
        assert (Z : nth q (cols E) 0%nat = j).
        { unfold cols. pose proof (map_nth fst E (0%nat, 0) q) as M. cbn [fst] in M. rewrite M. auto. }
        apply (proj1 (NoDup_nth (cols E) 0%nat) Hd); auto; [|congruence]. unfold cols. rewrite map_length. auto.
      + apply epos_None in Y. exfalso. apply Y. rewrite <- X2. apply nth_In. auto.
    - apply lastk_None in X; [|auto]. rewrite firstn_all in X. symmetry. apply epos_None. auto.
  Qed.

  Lemma csr_bandwidth_ok (A : csr) : cwf A -> exists b, csr_bandwidth A = Ok b /\
    (forall i, (i < cN A)%nat -> (length (crow A i) <= b)%nat) /\
    (b = 0%nat \/ exists i, (i < cN A)%nat /\ b = length (crow A i)).
  Proof.
    intros HA. apply wp_ok. unfold csr_bandwidth. eapply wp_mono.
    - apply (for_n_inv (fun p m => (forall i, (i < p)%nat -> (length (crow A i) <= m)%nat) /\
        (m = 0%nat \/ exists i, (i < p)%nat /\ m = length (crow A i)))).
      + split; [intros; lia|auto].
      + intros i m Hi [H1 H2]. rewrite c_row_ok by (rewrite (cwf_len _ HA); auto). cbn [bind wpq].
        rewrite (row_is_nnz _ _ (cwf_is A i HA Hi)).
        destruct (Nat.ltb_spec m (length (crow A i))).
        * split; [|right; exists i; auto]. intros q Hq. destruct (Nat.eq_dec q i) as [->|]; auto.
          specialize (H1 q). lia.
        * split.
          -- intros q Hq. destruct (Nat.eq_dec q i) as [->|]; auto. apply H1. lia.
          -- destruct H2 as [?|(q & ? & ?)]; [left; auto|right; exists q; split; auto].
    - simpl. auto.
  Qed.

  Lemma table_new_ok b : (b <= table_max)%nat -> exists k, (b <= 2 ^ k)%nat /\
    table_new b = Ok (mkTable (repeat None (2 ^ k)) (repeat None (2 ^ k)) 0).
  Proof.
    intros H. unfold table_new.
    destruct (table_size_ok 20 1 (max INIT_SLOT_STORAGE_SIZE b)) as (k & E & Hk); try lia.
    { apply Nat.max_lub; auto. apply table_max_big. unfold INIT_SLOT_STORAGE_SIZE. lia. }
    exists k. split; [lia|]. rewrite E. reflexivity.
  Qed.

  (** first loop of a row *)
  Lemma add_row_a_ok k (alpha : F) (r : row) E t : row_is r E -> (length E <= 2 ^ k)%nat -> tinv (2 ^ k) [] t ->
    exists r' t', add_row_a alpha r t = Ok (r', t') /\ row_is r' (sc alpha E) /\ ralloc r' = ralloc r /\ tinv (2 ^ k) (cols E) t'.
  Proof.
    intros H Hl HT.
    assert (X : wp (add_row_a alpha r t) (fun s => row_is (fst s) (sc alpha E) /\ ralloc (fst s) = ralloc r /\ tinv (2 ^ k) (cols E) (snd s))).
    { unfold add_row_a. rewrite (row_is_nnz _ _ H). eapply wp_mono.
      - apply (for_n_inv (fun p '(r', t') => row_is r' (sc alpha (firstn p E) ++ skipn p E) /\ ralloc r' = ralloc r /\
          tinv (2 ^ k) (cols (firstn p E)) t')); [simpl; auto|].
        intros p [r' t'] Hp (HP & HA & HT').
        assert (Hlen : length (sc alpha (firstn p E)) = p) by (unfold sc; rewrite map_length, firstn_length; lia).
        rewrite (r_get_ok _ _ p HP) by (rewrite app_length, Hlen, skipn_length; lia). cbn [bind].
        rewrite app_nth2 by lia. rewrite Hlen, Nat.sub_diag.
        assert (Hsk := skipn_S_nth E p (0%nat, 0) Hp). rewrite Hsk at 1. cbn [nth].
        destruct (nth p E (0%nat, 0)) as [c v] eqn:Ek.
        destruct (r_put_ok _ _ p c (alpha * v) HP) as (r'' & E1 & E2 & E3 & _).
        { rewrite app_length, Hlen, skipn_length. lia. }
        rewrite E1. cbn [bind].
        destruct (table_insert_ok k (cols (firstn p E)) t' c HT') as (t'' & E4 & E5).
        { unfold cols. rewrite map_length, firstn_length. lia. }
        rewrite E4. cbn [bind wpq].
        rewrite (firstn_S_nth E p (0%nat, 0) Hp), Ek. split; [|split; [congruence|rewrite cols_app; exact E5]].
        rewrite Hsk in E2. rewrite set_nth_app_r, Hlen, Nat.sub_diag in E2 by lia. cbn [set_nth] in E2.
        unfold sc at 1. rewrite map_app, <- app_assoc. exact E2.
      - intros [r' t'] (H1 & H2 & H3). rewrite firstn_all, skipn_all, app_nil_r in *. auto. }
    apply wp_ok in X as ([r' t'] & X1 & X2). exists r', t'. auto.
  Qed.

  Definition newE (E EB : list ent) : list ent := filter (fun kv => negb (existsb (Nat.eqb (fst kv)) (cols E))) EB.

  (** second loop of a row, B another object, no reallocation *)
  Lemma add_row_b_ok k (beta : F) (r : row) Ea t EB : row_is r Ea -> NoDup (cols Ea) -> NoDup (cols EB) ->
    tinv (2 ^ k) (cols Ea) t -> (length Ea + length (newE Ea EB) <= ralloc r)%nat ->
    exists r' E', forM EB (fun kv => add_row_b beta t (fst kv) (snd kv)) (r, false) = Ok (r', false) /\ row_is r' E' /\
      cols E' = cols Ea ++ cols (newE Ea EB) /\ (forall j, elook E' j = elook Ea j + beta * elook EB j).
  Proof.
    intros H HdA HdB HT Hcap.
    assert (X : wp (forM EB (fun kv => add_row_b beta t (fst kv) (snd kv)) (r, false)) (fun s =>
       snd s = false /\ ralloc (fst s) = ralloc r /\ exists E', row_is (fst s) E' /\
      cols E' = cols Ea ++ cols (newE Ea EB) /\ (forall j, elook E' j = elook Ea j + beta * elook EB j))).
    { apply (forM_inv (fun pre s => snd s = false /\ ralloc (fst s) = ralloc r /\ exists E', row_is (fst s) E' /\
        cols E' = cols Ea ++ cols (newE Ea pre) /\ (forall j, elook E' j = elook Ea j + beta * elook pre j))).
      - cbn [fst snd]. split; [auto|]. split; [auto|]. exists Ea. split; [auto|]. simpl. rewrite app_nil_r. split; [auto|]. intros; ring.
      - intros pre [c v] post [r1 st] HE (Hst & Hal & E' & HR & Hc & Hl). cbn [fst snd] in *. subst st.
        assert (HND : NoDup (cols (pre ++ [(c, v)]))).
        { rewrite HE in HdB. rewrite cols_app in *. simpl in *. change (c :: cols post) with ([c] ++ cols post) in HdB.
          rewrite app_assoc in HdB. apply NoDup_app_inv in HdB. tauto. }
        assert (Hnc : ~ In c (cols pre)).
        { rewrite cols_app in HND. apply NoDup_app_inv in HND as (_ & _ & Hx). intros Y. apply (Hx c Y). left; auto. }
        assert (HNE : newE Ea (pre ++ [(c, v)]) = newE Ea pre ++ if existsb (Nat.eqb c) (cols Ea) then [] else [(c, v)]).
        { unfold newE. rewrite filter_app. simpl. destruct (existsb (Nat.eqb c) (cols Ea)); auto. }
        assert (HlE : forall j, elook (pre ++ [(c, v)]) j = elook pre j + (if j =? c then v else 0)).
        { intros j. rewrite <- !esum_elook; auto.
          - rewrite esum_app. simpl. rewrite (Nat.eqb_sym c j). destruct (j =? c); ring.
          - rewrite cols_app in HND. apply NoDup_app_inv in HND. tauto. }
        unfold add_row_b. rewrite (table_lookup_ok k _ _ _ HT), lastk_epos by auto. cbn [bind].
        destruct (epos Ea c) as [p|] eqn:Xp.
        + apply epos_Some in Xp as (P1 & P2 & P3 & P4).
          assert (Hx : existsb (Nat.eqb c) (cols Ea) = true) by (apply existsb_eqb; auto).
          rewrite Hx, app_nil_r in HNE.
          assert (Hlen : (p < length E')%nat).
          { rewrite <- (map_length fst E'). unfold cols in Hc. rewrite Hc, app_length, map_length. lia. }
          assert (Hfst : fst (nth p E' (0%nat, 0)) = c).
          { pose proof (map_nth fst E' (0%nat, 0) p) as M1. pose proof (map_nth fst Ea (0%nat, 0) p) as M2. cbn [fst] in *.
            rewrite <- M1. unfold cols in Hc. rewrite Hc, app_nth1 by (rewrite map_length; auto). rewrite M2. auto. }
          assert (HdE : NoDup (cols E')).
          { rewrite Hc. apply NoDup_app_intro; auto.
            - unfold newE. apply NoDup_cols_filter. rewrite cols_app in HND. apply NoDup_app_inv in HND. tauto.
            - intros x Hx1 Hx2. unfold cols, newE in Hx2. apply in_map_iff in Hx2 as ([x' u] & <- & Hx2). apply filter_In in Hx2 as [_ Hx2].
              simpl in Hx2, Hx1. apply negb_true_iff in Hx2. apply existsb_eqb_false in Hx2. auto. }
          rewrite (r_get_ok _ _ p HR Hlen). cbn [bind].
          destruct (nth p E' (0%nat, 0)) as [ka a] eqn:Ek. cbn [fst] in Hfst. subst ka.
          assert (Ha : a = elook E' c).
          { symmetry. apply elook_in; auto. rewrite <- Ek. apply nth_In; auto. }
          destruct (r_put_ok r1 E' p c (a + beta * v) HR Hlen) as (r2 & E1 & E2 & E3 & _). rewrite E1. cbn [bind wpq fst snd].
          split; [auto|]. split; [congruence|]. eexists. split; [exact E2|]. split.
          * rewrite HNE. rewrite <- Hc. unfold cols. rewrite map_set_nth. cbn [fst].
            apply (list_ext_nth _ _ 0%nat); [apply length_set_nth|]. intros j Hj. rewrite nth_set_nth.
            destruct (Nat.eqb_spec j p) as [->|]; auto. pose proof (map_nth fst E' (0%nat, 0) p) as M1. cbn [fst] in M1.
            destruct (p <? length (map fst E'))%nat; simpl; auto. rewrite M1, Ek. auto.
          * intros j. pose proof (elook_set_nth E' p (a + beta * v) j HdE Hlen) as Y. rewrite Ek in Y. cbn [fst] in Y. rewrite Y.
            rewrite HlE. destruct (Nat.eqb_spec j c) as [Hj|]; [rewrite Hj in *|]; rewrite ?Hl.
            -- rewrite Ha, Hl. ring.
            -- ring.
        + apply epos_None in Xp. pose proof Xp as Xp'. apply existsb_eqb_false in Xp'. rewrite Xp' in HNE.
          destruct (r_push_ok r1 E' c (beta * v) HR) as (r2 & E1 & E2 & E3 & E4). rewrite E1. cbn [bind].
          assert (HlenE : length E' = (length Ea + length (newE Ea pre))%nat).
          { rewrite <- (map_length fst E'). unfold cols in Hc. rewrite Hc, app_length, !map_length. auto. }
          assert (Hle : (length (newE Ea (pre ++ [(c, v)])) <= length (newE Ea EB))%nat).
          { rewrite HE. change (pre ++ (c, v) :: post) with (pre ++ [(c, v)] ++ post). rewrite app_assoc. unfold newE.
            rewrite (filter_app _ (pre ++ [(c, v)])), app_length. lia. }
          rewrite HNE, app_length in Hle. simpl in Hle.
          assert (Hg : grows r1 = false).
          { unfold grows. apply Nat.ltb_ge. rewrite (row_is_nnz _ _ HR). lia. }
          rewrite Hg. cbn [orb wpq fst snd]. split; [auto|]. split; [rewrite E4 by lia; auto|].
          eexists. split; [exact E2|]. split.
          * rewrite cols_app, Hc, HNE, cols_app. rewrite <- app_assoc. auto.
          * intros j. rewrite HlE. destruct (Nat.eqb_spec j c) as [->|Hne].
            -- rewrite elook_app_new.
               ++ rewrite Nat.eqb_refl. rewrite (elook_notin Ea), (elook_notin pre) by auto. ring.
               ++ rewrite Hc, in_app_iff. intros [Y|Y]; auto. unfold cols, newE in Y. apply in_map_iff in Y as ([x' u] & <- & Y).
                  apply filter_In in Y as [Y _]. apply Hnc. apply in_map_iff. exists (x', u). auto.
            -- rewrite elook_app_new.
               ++ apply Nat.eqb_neq in Hne. rewrite ?(Nat.eqb_sym c j), ?Hne. rewrite Hl. ring.
               ++ rewrite Hc, in_app_iff. intros [Y|Y]; auto. unfold cols, newE in Y. apply in_map_iff in Y as ([x' u] & <- & Y).
                  apply filter_In in Y as [Y _]. apply Hnc. apply in_map_iff. exists (x', u). auto. }
    apply wp_ok in X as ([r' st] & X1 & X2 & X3 & E' & X4 & X5 & X6). cbn [fst snd] in *. subst.
    exists r', E'. auto.
  Qed.

  (** number of columns of row i of A or B *)
  Definition union_cols (A B : csr) (i : nat) : nat :=
    count (cN A) (fun k => cstored A i k || cstored B i k).

  Lemma union_cols_len (A B : csr) i : cwf A -> cwf B -> cN A = cN B -> (i < cN A)%nat ->
    (length (crow A i) + length (newE (crow A i) (crow B i)) = union_cols A B i)%nat.
  Proof.
    intros [_ HA] [_ HB] HN Hi. destruct (HA i Hi) as [A1 A2]. destruct (HB i ltac:(lia)) as [B1 B2].
    set (L := cols (crow A i) ++ cols (newE (crow A i) (crow B i))).
    assert (HL : length L = (length (crow A i) + length (newE (crow A i) (crow B i)))%nat).
    { unfold L, cols. rewrite app_length, !map_length. auto. }
    assert (Hin : forall x, In x (cols (newE (crow A i) (crow B i))) <-> In x (cols (crow B i)) /\ ~ In x (cols (crow A i))).
    { intros x. unfold cols at 1, newE. rewrite in_map_iff. split.
      - intros ([x' u] & <- & H). apply filter_In in H as [H1 H2]. simpl in *. apply negb_true_iff in H2. apply existsb_eqb_false in H2.
        split; auto. apply in_map_iff. exists (x', u). auto.
      - intros [H1 H2]. apply in_map_iff in H1 as ([x' u] & <- & H1). exists (x', u). split; auto. apply filter_In. split; auto.
        simpl. apply negb_true_iff. apply existsb_eqb_false. auto. }
    assert (HND : NoDup L).
    { apply NoDup_app_intro; auto.
      - unfold newE. apply NoDup_cols_filter. auto.
      - intros x H1 H2. apply Hin in H2. tauto. }
    rewrite <- HL. unfold union_cols, cstored. apply Nat.le_antisymm.
    - apply NoDup_count; auto. intros x Hx. apply in_app_iff in Hx as [Hx|Hx].
      + split; auto. apply orb_true_iff. left. apply existsb_eqb. auto.
      + apply Hin in Hx as [Hx _]. split; [rewrite HN; auto|]. apply orb_true_iff. right. apply existsb_eqb. auto.
    - unfold count. apply NoDup_incl_length; [apply NoDup_filter, seq_NoDup|].
      intros x Hx. apply filter_In in Hx as [_ Hx]. apply orb_true_iff in Hx. unfold L. apply in_app_iff.
      destruct (in_dec Nat.eq_dec x (cols (crow A i))) as [|Hn]; auto. right. apply Hin. split; auto.
      destruct Hx as [Hx|Hx]; apply existsb_eqb in Hx; auto. contradiction.
  Qed.

  Lemma csr_add_ok (keep : F -> bool) alpha beta (A B : csr) s1 s2 : cwf A -> cwf B -> cN A = cN B ->
    Permutation (map snd s1) (seq 0 (cN A)) -> Permutation (map snd s2) (seq 0 (cN A)) ->
    (forall i, (i < cN A)%nat -> (length (crow A i) <= table_max)%nat) ->
    (forall i, (i < cN A)%nat -> (union_cols A B i <= calloc A i)%nat) ->
    exists A', csr_add keep alpha beta A B s1 s2 = Ok A' /\ cwf A' /\ cdims A A' /\
      (forall i, (i < cN A)%nat -> exists E, crow A' i = cutrow keep E /\
         cols E = cols (crow A i) ++ cols (newE (crow A i) (crow B i)) /\
         forall j, elook E j = alpha * cmat A i j + beta * cmat B i j).
  Proof.
    intros HA HB HN HP1 HP2 Hm Hcap. pose proof HA as [_ HrA]. pose proof HB as [_ HrB]. apply wp_ok. unfold csr_add.
    destruct (csr_bandwidth_ok A HA) as (b & Eb & Hb1 & Hb2). rewrite Eb. cbn [bind].
    destruct (table_new_ok b) as (k & Hk & Et).
    { destruct Hb2 as [->|(i & Hi & ->)]; [lia|]. auto. }
    rewrite Et. cbn [bind]. apply wp_bind. eapply wp_mono.
    - apply (cpar A s1 _ _ (fun i r => exists E, row_is r E /\ cols E = cols (crow A i) ++ cols (newE (crow A i) (crow B i)) /\
         forall j, elook E j = alpha * cmat A i j + beta * cmat B i j) (tinv (2 ^ k) [])).
      + apply cwf_len; auto.
      + auto.
      + intros. apply tinv_new.
      + intros i A1 t Hi [D1 D2] HL Hn HT. rewrite c_row_ok by lia. cbn [bind]. rewrite Hn.
        destruct (HrA i Hi) as [A2 A3]. destruct (HrB i ltac:(lia)) as [B2 B3].
        destruct (add_row_a_ok k alpha _ _ t (cwf_is A i HA Hi)) as (r1 & t1 & E1 & E2 & E3 & E4); auto.
        { eapply Nat.le_trans; [apply Hb1; auto|auto]. }
        rewrite E1. cbn [bind]. rewrite c_row_ok by (rewrite (cwf_len _ HB); lia). cbn [bind].
        rewrite (r_for_eq _ _ _ _ (cwf_is B i HB ltac:(lia))).
        assert (HnE : newE (sc alpha (crow A i)) (crow B i) = newE (crow A i) (crow B i)) by (unfold newE; rewrite cols_sc; auto).
        destruct (add_row_b_ok k beta r1 (sc alpha (crow A i)) t1 (crow B i) E2) as (r2 & E' & E5 & E6 & E7 & E8).
        { rewrite cols_sc; auto. } { auto. } { rewrite cols_sc; auto. }
        { rewrite HnE, E3. unfold sc. rewrite map_length, union_cols_len by auto. apply Hcap; auto. }
        rewrite E5. cbn [bind]. rewrite c_put_ok by lia. cbn [bind wpq fst snd].
        exists r2. split; [auto|]. split; [|apply (tinv_reset _ _ _ E4)].
        exists E'. split; [auto|]. split; [rewrite E7, cols_sc, HnE; auto|].
        intros j. rewrite E8, elook_sc. auto.
    - intros [A1 w] [[D1 D2] HR]. cbn [fst snd] in *.
      assert (HW : cwf A1 /\ forall i, (i < cN A)%nat -> cols (crow A1 i) = cols (crow A i) ++ cols (newE (crow A i) (crow B i)) /\
         forall j, elook (crow A1 i) j = alpha * cmat A i j + beta * cmat B i j).
      { destruct HR as [HR1 HR2].
        assert (HR' : crows (fun i r => row_is r (rE r)) A1).
        { split; auto. intros i Hi. destruct (HR2 i Hi) as (E & H1 & _). rewrite (row_is_rE _ _ H1). auto. }
        assert (HR3 : crows (fun i r => row_is r (crow A1 i)) A1).
        { split; auto. intros i Hi. apply HR'. auto. }
        assert (HC : forall i, (i < cN A)%nat -> cols (crow A1 i) = cols (crow A i) ++ cols (newE (crow A i) (crow B i)) /\
         forall j, elook (crow A1 i) j = alpha * cmat A i j + beta * cmat B i j).
        { intros i Hi. destruct (HR2 i ltac:(lia)) as (E & H1 & H2 & H3). assert (HcE : crow A1 i = E) by (unfold crow; apply row_is_rE; auto). rewrite HcE. auto. }
        split; [|auto]. apply (crows_wf A1 (crow A1) HR3). intros i Hi. rewrite <- D1 in *. destruct (HC i Hi) as [H1 _].
        destruct (HrA i Hi) as [A2 A3]. destruct (HrB i ltac:(lia)) as [B2 B3].
        unfold cols_ok. rewrite H1. split.
        - apply NoDup_app_intro; auto.
          + unfold newE. apply NoDup_cols_filter. auto.
          + intros x Hx1 Hx2. unfold cols, newE in Hx2. apply in_map_iff in Hx2 as ([x' u] & <- & Hx2). apply filter_In in Hx2 as [_ Hx2].
            simpl in Hx2, Hx1. apply negb_true_iff in Hx2. apply existsb_eqb_false in Hx2. auto.
        - intros x Hx. apply in_app_iff in Hx as [Hx|Hx]; auto. unfold cols, newE in Hx. apply in_map_iff in Hx as ([x' u] & <- & Hx).
          apply filter_In in Hx as [Hx _]. rewrite HN. apply B3. apply in_map_iff. exists (x', u). auto. }
      destruct HW as [HW1 HW2].
      destruct (csr_threshold_ok keep A1 s2 HW1) as (A' & E1 & E2 & [D3 D4] & E3 & _); [rewrite <- D1; auto|].
      rewrite E1. cbn [wpq]. split; [auto|]. split; [split; congruence|]. intros i Hi.
      exists (crow A1 i). split; [apply E3; lia|]. auto.
  Qed.

  (** B == A: the values become alpha*(1+beta) times the old ones *)
  Lemma csr_add_self_ok (keep : F -> bool) alpha beta (A : csr) s1 s2 : cwf A ->
    Permutation (map snd s1) (seq 0 (cN A)) -> Permutation (map snd s2) (seq 0 (cN A)) ->
    (forall i, (i < cN A)%nat -> (length (crow A i) <= table_max)%nat) ->
    exists A', csr_add_self keep alpha beta A s1 s2 = Ok A' /\ cwf A' /\ cdims A A' /\
      (forall i, (i < cN A)%nat -> crow A' i = cutrow keep (sc (alpha * (1 + beta)) (crow A i))).
  Proof.
    intros HA HP1 HP2 Hm. pose proof HA as [_ HrA]. apply wp_ok. unfold csr_add_self.
    destruct (csr_bandwidth_ok A HA) as (b & Eb & Hb1 & Hb2). rewrite Eb. cbn [bind].
    destruct (table_new_ok b) as (k & Hk & Et).
    { destruct Hb2 as [->|(i & Hi & ->)]; [lia|]. auto. }
    rewrite Et. cbn [bind]. apply wp_bind. eapply wp_mono.
    - apply (cpar A s1 _ _ (fun i r => row_is r (sc (alpha * (1 + beta)) (crow A i))) (tinv (2 ^ k) [])).
      + apply cwf_len; auto.
      + auto.
      + intros. apply tinv_new.
      + intros i A1 t Hi [D1 D2] HL Hn HT. rewrite c_row_ok by lia. cbn [bind]. rewrite Hn.
        destruct (HrA i Hi) as [A2 A3].
        destruct (add_row_a_ok k alpha _ _ t (cwf_is A i HA Hi)) as (r1 & t1 & E1 & E2 & E3 & E4); auto.
        { eapply Nat.le_trans; [apply Hb1; auto|auto]. }
        rewrite E1. cbn [bind]. set (E := crow A i) in *.
        assert (HlE : length (sc alpha E) = length E) by (unfold sc; apply map_length).
        rewrite (row_is_nnz _ _ E2), HlE. apply wp_bind. eapply wp_mono.
        * apply (for_n_inv (fun p '(r', st) => st = false /\ row_is r' (sc (alpha * (1 + beta)) (firstn p E) ++ skipn p (sc alpha E)))).
          -- split; auto.
          -- intros p [r' st] Hp [-> HP].
             assert (Hlen : length (sc (alpha * (1 + beta)) (firstn p E)) = p) by (unfold sc; rewrite map_length, firstn_length; lia).
             assert (Hp' : (p < length (sc (alpha * (1 + beta))%K (firstn p E) ++ skipn p (sc alpha E)))%nat)
               by (rewrite app_length, Hlen, skipn_length, HlE; lia).
             rewrite (r_get_ok _ _ p HP) by auto. cbn [bind].
             rewrite app_nth2 by lia. rewrite Hlen, Nat.sub_diag.
             assert (Hsk := skipn_S_nth (sc alpha E) p (0%nat, 0) ltac:(lia)). rewrite Hsk at 1. cbn [nth].
             assert (Hnth : nth p (sc alpha E) (0%nat, 0) = (fst (nth p E (0%nat, 0)), alpha * snd (nth p E (0%nat, 0)))).
             { rewrite (nth_indep _ _ (fst (0%nat, 0 : F), alpha * snd (0%nat, 0 : F))) by lia.
               pose proof (map_nth (fun kv : ent => (fst kv, alpha * snd kv)) E (0%nat, 0) p) as Y. cbv beta in Y. exact Y. }
             rewrite Hnth. destruct (nth p E (0%nat, 0)) as [c v] eqn:Ek. cbn [fst snd] in *.
             unfold add_row_b. rewrite (table_lookup_ok k _ _ _ E4), lastk_epos by auto. cbn [bind].
             assert (Hep : epos E c = Some p).
             { destruct (epos E c) as [q|] eqn:Y.
               - apply epos_Some in Y as (Y1 & Y2 & _). f_equal.
                 pose proof (map_nth fst E (0%nat, 0) q) as M1. pose proof (map_nth fst E (0%nat, 0) p) as M2. cbn [fst] in *.
                 apply (proj1 (NoDup_nth (cols E) 0%nat) A2); unfold cols; rewrite ?map_length; auto. rewrite M1, M2, Ek, Y2. auto.
               - apply epos_None in Y. exfalso. apply Y. apply in_map_iff. exists (c, v). split; auto. rewrite <- Ek. apply nth_In; auto. }
             rewrite Hep. rewrite (r_get_ok _ _ p HP) by auto. cbn [bind].
             rewrite app_nth2 by lia. rewrite Hlen, Nat.sub_diag. rewrite Hsk at 1. cbn [nth]. rewrite Hnth. cbn [bind].
             destruct (r_put_ok _ _ p c (alpha * v + beta * (alpha * v)) HP Hp') as (r'' & E5 & E6 & _).
             rewrite E5. cbn [bind wpq]. split; auto.
             rewrite (firstn_S_nth E p (0%nat, 0)), Ek by lia.
             rewrite Hsk in E6. rewrite set_nth_app_r, Hlen, Nat.sub_diag in E6 by lia. cbn [set_nth] in E6.
             unfold sc at 1. rewrite map_app, <- app_assoc. cbn [map fst snd app].
             replace (alpha * (1 + beta) * v) with (alpha * v + beta * (alpha * v)) by ring. exact E6.
        * intros [r' st] [_ HP]. rewrite <- HlE in HP at 2. rewrite skipn_all, firstn_all, app_nil_r in HP.
          rewrite c_put_ok by lia. cbn [bind wpq fst snd]. exists r'. split; [auto|]. split; [auto|]. apply (tinv_reset _ _ _ E4).
    - intros [A1 w] [[D1 D2] HR]. cbn [fst snd] in *. destruct (crows_wf A1 _ HR) as [H1 H2].
      + intros i Hi. rewrite <- D1 in *. apply cols_ok_sc. auto.
      + destruct (csr_threshold_ok keep A1 s2 H1) as (A' & E1 & E2 & [D3 D4] & E3 & _); [rewrite <- D1; auto|].
        rewrite E1. cbn [wpq]. split; [auto|]. split; [split; congruence|]. intros i Hi. rewrite E3, H2 by lia. auto.
  Qed.
End CsrAdd.
