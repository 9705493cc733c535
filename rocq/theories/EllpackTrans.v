(** Proof of the in-place transpose of the ellpack format
    (ellpack_transpose_left_looking).

    Every row is split in a transposed prefix [D r] (length nz_t[r]) and a
    suffix [U r] that has not been looked at.  An entry (c,v) of [D r] stands
    for element (c,r), an entry of [U r] for element (r,c); each step of the
    algorithm permutes the collection of these elements. *)
From Verif Require Import Base BaseFacts Spec SpecFacts EllpackModel EllpackSpec EllpackFacts EllpackOps EllpackArith EllpackMul EllpackMore EllpackMul2 EllpackRest.
#[local] Arguments firstn {A} !n !l : simpl nomatch.
#[local] Arguments skipn {A} !n !l : simpl nomatch.

(** ** lists *)
Definition lswap {T} (L : list T) (p q : nat) (d : T) : list T :=
  set_nth (set_nth L p (nth q L d)) q (nth p L d).

Lemma lswap_bring {T} (D U : list T) q d : q < length U ->
  exists U2, lswap (D ++ U) (length D + q) (length D) d = D ++ nth q U d :: U2 /\
    Permutation (nth q U d :: U2) U.
Proof.
  intros Hq. unfold lswap.
  rewrite !app_nth2 by lia. rewrite Nat.sub_diag. replace (length D + q - length D) with q by lia.
  destruct U as [|u U]; [simpl in Hq; lia|]. destruct q as [|q].
  - exists U. simpl. rewrite Nat.add_0_r. rewrite !set_nth_split. split; auto.
  - simpl in Hq. simpl nth.
    exists (firstn q U ++ u :: skipn (S q) U). split.
    + assert (E : U = firstn q U ++ nth q U d :: skipn (S q) U).
      { rewrite <- (skipn_S_nth U q d) by lia. symmetry. apply firstn_skipn. }
      assert (HL : length (firstn q U) = q) by (rewrite firstn_length; lia).
      assert (E1 : set_nth (D ++ u :: U) (length D + S q) u = D ++ u :: firstn q U ++ u :: skipn (S q) U).
      { rewrite E at 1. replace (D ++ u :: firstn q U ++ nth q U d :: skipn (S q) U) with
          ((D ++ u :: firstn q U) ++ nth q U d :: skipn (S q) U) by (rewrite <- app_assoc; auto).
        replace (length D + S q) with (length (D ++ u :: firstn q U)) by (rewrite app_length; simpl; lia).
        rewrite set_nth_split. rewrite <- app_assoc. auto. }
      rewrite E1, set_nth_split. auto.
    + assert (E : U = firstn q U ++ nth q U d :: skipn (S q) U).
      { rewrite <- (skipn_S_nth U q d) by lia. symmetry. apply firstn_skipn. }
      rewrite E at 4. set (x := nth q U d). set (P := firstn q U). set (Q := skipn (S q) U).
      transitivity (x :: u :: P ++ Q); [constructor; symmetry; apply Permutation_middle|].
      transitivity (u :: x :: P ++ Q); [constructor|]. constructor. apply Permutation_middle.
Qed.

Lemma set_nth_mid {T} (D U : list T) q (x d : T) : q < length U ->
  set_nth (D ++ U) (length D + q) x = D ++ firstn q U ++ x :: skipn (S q) U.
Proof.
  intros Hq. assert (HL : length (firstn q U) = q) by (rewrite firstn_length; lia).
  replace (D ++ U) with ((D ++ firstn q U) ++ nth q U d :: skipn (S q) U).
  2:{ rewrite <- app_assoc. rewrite <- (skipn_S_nth U q d) by lia. rewrite firstn_skipn. auto. }
  replace (length D + q) with (length (D ++ firstn q U)) by (rewrite app_length; lia).
  rewrite set_nth_split. rewrite <- app_assoc. auto.
Qed.

Lemma nodup_pick (N i : nat) : i < N -> exists rest, Permutation (seq 0 N) (i :: rest) /\ ~ In i rest.
Proof.
  intros Hi. assert (Hin : In i (seq 0 N)) by (apply in_seq; lia).
  apply in_split in Hin as (a & b & E). exists (a ++ b). split.
  - rewrite E. symmetry. apply Permutation_middle.
  - assert (Hd := seq_NoDup N 0). rewrite E in Hd. apply NoDup_remove_2 in Hd. auto.
Qed.

Lemma flat_map_upd1 {T} N i (f g : nat -> list T) : i < N ->
  (forall r, r < N -> r <> i -> f r = g r) -> Permutation (f i) (g i) ->
  Permutation (flat_map f (seq 0 N)) (flat_map g (seq 0 N)).
Proof.
  intros Hi Hfg HP. destruct (nodup_pick N i Hi) as (rest & HR & Hn).
  rewrite (Permutation_flat_map f HR), (Permutation_flat_map g HR). simpl. apply Permutation_app; auto.
  assert (E : flat_map f rest = flat_map g rest); [|rewrite E; auto].
  assert (Hr : forall r, In r rest -> r < N).
  { intros r Hr. assert (In r (seq 0 N)) by (rewrite HR; right; auto). apply in_seq in H. lia. }
  clear HR HP. induction rest as [|r rest IH]; simpl; auto. rewrite Hfg, IH; auto.
  - simpl in Hn. tauto.
  - intros q Hq. apply Hr. right; auto.
  - apply Hr. left; auto.
  - intros ->. apply Hn. left; auto.
Qed.

Lemma flat_map_upd2 {T} N i j (f g : nat -> list T) : i < N -> j < N -> i <> j ->
  (forall r, r < N -> r <> i -> r <> j -> f r = g r) -> Permutation (f i ++ f j) (g i ++ g j) ->
  Permutation (flat_map f (seq 0 N)) (flat_map g (seq 0 N)).
Proof.
  intros Hi Hj Hij Hfg HP. destruct (nodup_pick N i Hi) as (rest & HR & Hn).
  assert (Hjr : In j rest).
  { assert (H : In j (seq 0 N)) by (apply in_seq; lia). rewrite HR in H. destruct H; [congruence|auto]. }
  assert (Hd : NoDup (i :: rest)) by (eapply Permutation_NoDup; [exact HR|apply seq_NoDup]).
  assert (Hrr : forall r, In r rest -> r < N).
  { intros r Hr. assert (H : In r (seq 0 N)) by (rewrite HR; right; auto). apply in_seq in H. lia. }
  apply in_split in Hjr as (a & b & ->).
  assert (HR2 : Permutation (seq 0 N) (i :: j :: a ++ b)).
  { etransitivity; [exact HR|]. constructor. symmetry. apply Permutation_middle. }
  rewrite (Permutation_flat_map f HR2), (Permutation_flat_map g HR2). simpl. rewrite !app_assoc. apply Permutation_app; auto.
  assert (Hx : forall r, In r (a ++ b) -> r < N /\ r <> i /\ r <> j).
  { intros r Hr. inversion Hd; subst. split; [apply Hrr; rewrite in_app_iff in *; simpl; tauto|]. split.
    - intros ->. apply H1. rewrite in_app_iff in *. simpl. tauto.
    - intros ->. apply NoDup_remove_2 in H2. auto. }
  assert (E : flat_map f (a ++ b) = flat_map g (a ++ b)); [|rewrite E; auto].
  clear - Hx Hfg. induction (a ++ b) as [|r l IH]; simpl; auto.
  destruct (Hx r) as (H1 & H2 & H3); [left; auto|]. rewrite Hfg, IH; auto. intros q Hq. apply Hx. right; auto.
Qed.

Lemma NoDup_flat_map {T} (f : nat -> list T) l r : NoDup (flat_map f l) -> In r l -> NoDup (f r).
Proof.
  induction l as [|x l IH]; simpl; [tauto|]. intros Hd [->|Hr]; apply NoDup_app_inv in Hd as (H1 & H2 & _); auto.
Qed.

Lemma NoDup_flat_map_disj {T} (f : nat -> list T) l r s x : NoDup (flat_map f l) -> In r l -> In s l -> r <> s ->
  In x (f r) -> ~ In x (f s).
Proof.
  induction l as [|y l IH]; simpl; [tauto|]. intros Hd Hr Hs Hne Hx Hx2.
  apply NoDup_app_inv in Hd as (H1 & H2 & H3). destruct Hr as [->|Hr], Hs as [->|Hs].
  - congruence.
  - apply (H3 x Hx). apply in_flat_map. eauto.
  - apply (H3 x Hx2). apply in_flat_map. eauto.
  - apply (IH H2 Hr Hs Hne Hx Hx2).
Qed.

Section EllpackTrans.
  Context {F : scalar}.
  Local Notation ell := (ell F).
  Local Notation row := (list (nat * F)).

  (** ** the elements represented by a split state *)
  Definition ents (D U : nat -> row) (r : nat) : list (nat * nat * F) :=
    map (fun kv => (fst kv, r, snd kv)) (D r) ++ map (fun kv => (r, fst kv, snd kv)) (U r).
  Definition trips (N : nat) (D U : nat -> row) : list (nat * nat * F) := flat_map (ents D U) (seq 0 N).

  Definition tinv (A0 : ell) (D U : nat -> row) : Prop :=
    Permutation (trips (eN A0) D U) (trips (eN A0) (fun _ => []) (erow A0)) /\
    (forall r, r < eN A0 -> forall c, In c (cols (D r)) -> ~ In c (cols (U r))).

  Definition pos (D U : nat -> row) (r : nat) : list (nat * nat) :=
    map (fun k => (k, r)) (cols (D r)) ++ map (fun k => (r, k)) (cols (U r)).

  Lemma pos_ents D U r : map fst (ents D U r) = pos D U r.
  Proof. unfold ents, pos, cols. rewrite map_app, !map_map. auto. Qed.

  Lemma pos_trips N D U : map fst (trips N D U) = flat_map (pos D U) (seq 0 N).
  Proof.
    unfold trips. induction (seq 0 N) as [|r l IH]; simpl; auto. rewrite map_app, IH, pos_ents. auto.
  Qed.

  Lemma NoDup_map_inj {S T} (f : S -> T) l : (forall x y, f x = f y -> x = y) -> NoDup l -> NoDup (map f l).
  Proof.
    intros Hf. induction 1; simpl; constructor; auto. intros Hin. apply in_map_iff in Hin as (y & E & Hy).
    apply Hf in E. subst. auto.
  Qed.

  Lemma pos0_nodup (A0 : ell) : wf A0 -> NoDup (flat_map (pos (fun _ => []) (erow A0)) (seq 0 (eN A0))).
  Proof.
    intros [_ Hr].
    assert (G : forall l, NoDup l -> (forall r, In r l -> r < eN A0) -> NoDup (flat_map (pos (fun _ => []) (erow A0)) l)).
    { induction l as [|r l IH]; simpl; intros Hd Hl; [constructor|]. inversion Hd; subst.
      apply NoDup_app_intro.
      - unfold pos. simpl. apply NoDup_map_inj; [congruence|]. apply Hr. auto.
      - auto.
      - intros [a b] Hx Hy. unfold pos in Hx. simpl in Hx. apply in_map_iff in Hx as (k & E & _). inversion E; subst.
        apply in_flat_map in Hy as (s & Hs & Hy). unfold pos in Hy. simpl in Hy.
        apply in_map_iff in Hy as (k' & E' & _). inversion E'; subst. auto. }
    apply G; [apply seq_NoDup|]. intros r Hr'. apply in_seq in Hr'. lia.
  Qed.

  Lemma tinv_nodup (A0 : ell) D U : wf A0 -> tinv A0 D U -> NoDup (flat_map (pos D U) (seq 0 (eN A0))).
  Proof.
    intros Hw [HP _]. eapply Permutation_NoDup; [|apply (pos0_nodup A0 Hw)].
    rewrite <- !pos_trips. apply Permutation_map. symmetry. auto.
  Qed.

  Lemma tinv_in (A0 : ell) D U a b v : tinv A0 D U ->
    (In (a, b, v) (trips (eN A0) D U) <-> a < eN A0 /\ In (b, v) (erow A0 a)).
  Proof.
    intros [HP _]. split.
    - intros H. apply (Permutation_in _ HP) in H. unfold trips in H. apply in_flat_map in H as (r & Hr & H).
      unfold ents in H. simpl in H. apply in_map_iff in H as ([k w] & E & H). simpl in E. inversion E; subst.
      apply in_seq in Hr. split; [lia|auto].
    - intros [Ha Hb]. apply (Permutation_in _ (Permutation_sym HP)). unfold trips. apply in_flat_map. exists a.
      split; [apply in_seq; lia|]. unfold ents. simpl. apply in_map_iff. exists (b, v). auto.
  Qed.

  Lemma in_D (A0 : ell) D U r c v : tinv A0 D U -> r < eN A0 -> In (c, v) (D r) -> c < eN A0 /\ In (r, v) (erow A0 c).
  Proof.
    intros HI Hr H. apply (tinv_in A0 D U); auto. unfold trips. apply in_flat_map. exists r. split; [apply in_seq; lia|].
    unfold ents. apply in_app_iff. left. apply in_map_iff. exists (c, v). auto.
  Qed.

  Lemma in_U (A0 : ell) D U r c v : tinv A0 D U -> r < eN A0 -> In (c, v) (U r) -> In (c, v) (erow A0 r).
  Proof.
    intros HI Hr H. apply (tinv_in A0 D U); auto. unfold trips. apply in_flat_map. exists r. split; [apply in_seq; lia|].
    unfold ents. apply in_app_iff. right. apply in_map_iff. exists (c, v). auto.
  Qed.

  Lemma U_lt (A0 : ell) D U r c v : wf A0 -> tinv A0 D U -> r < eN A0 -> In (c, v) (U r) -> c < eN A0.
  Proof.
    intros [_ Hw] HI Hr H. apply (in_U A0 D U r c v HI Hr) in H. apply (Hw r Hr). apply (in_map fst) in H. auto.
  Qed.

  Lemma nodup_DU (A0 : ell) D U r : wf A0 -> tinv A0 D U -> r < eN A0 -> NoDup (cols (D r)) /\ NoDup (cols (U r)).
  Proof.
    intros Hw HI Hr. assert (H := tinv_nodup A0 D U Hw HI).
    apply (NoDup_flat_map _ _ r) in H; [|apply in_seq; lia]. unfold pos in H. apply NoDup_app_inv in H as (H1 & H2 & _).
    split; eapply NoDup_map_inv; eauto.
  Qed.

  (** an element still waiting in U i is not in the transposed part of its target row *)
  Lemma waiting (A0 : ell) D U i j : wf A0 -> tinv A0 D U -> i < eN A0 -> j < eN A0 -> In j (cols (U i)) ->
    ~ In i (cols (D j)).
  Proof.
    intros Hw HI Hi Hj HU HD. assert (H := tinv_nodup A0 D U Hw HI).
    destruct (Nat.eq_dec i j) as [->|Hne].
    - apply (NoDup_flat_map _ _ j) in H; [|apply in_seq; lia]. unfold pos in H. apply NoDup_app_inv in H as (_ & _ & H).
      apply (H (j, j)); apply in_map_iff; eauto.
    - apply (NoDup_flat_map_disj _ _ i j (i, j) H); try (apply in_seq; lia); auto; unfold pos; apply in_app_iff.
      + right. apply in_map_iff; eauto.
      + left. apply in_map_iff; eauto.
  Qed.

  (** room needed by row r: columns of the union of row r and column r *)
  Definition pattern (A0 : ell) (r c : nat) : bool := stored A0 r c || stored A0 c r.

  Lemma room (A0 : ell) D U j (E : row) : wf A0 -> tinv A0 D U -> j < eN A0 ->
    count (eN A0) (pattern A0 j) <= eM A0 ->
    NoDup (cols E) -> (forall c, In c (cols E) -> In c (cols (D j ++ U j)) \/ (c < eN A0 /\ stored A0 c j = true)) ->
    length E <= eM A0.
  Proof.
    intros Hw HI Hj Hc Hd HE. etransitivity; [|exact Hc]. unfold count.
    unfold cols in Hd. rewrite <- (map_length fst E). apply NoDup_incl_length; auto.
    intros c Hin. apply HE in Hin. apply filter_In. unfold pattern, stored.
    destruct Hin as [Hin|[H1 H2]].
    - unfold cols in Hin. rewrite map_app, in_app_iff in Hin.
      destruct Hin as [Hin|Hin]; apply in_map_iff in Hin as ([c' v] & E' & Hin); simpl in E'; subst c'.
      + apply (in_D A0 D U j c v HI Hj) in Hin as [Hlt Hin]. split; [apply in_seq; lia|].
        apply orb_true_iff. right. apply existsb_eqb. apply (in_map fst) in Hin. auto.
      + assert (Hlt := U_lt A0 D U j c v Hw HI Hj Hin). apply (in_U A0 D U j c v HI Hj) in Hin.
        split; [apply in_seq; lia|]. apply orb_true_iff. left. apply existsb_eqb. apply (in_map fst) in Hin. auto.
    - split; [apply in_seq; lia|]. apply orb_true_iff. right. exact H2.
  Qed.

  (** ** concrete state *)
  Definition rows (A : ell) (D U : nat -> row) : Prop :=
    shape A /\ forall r, r < eN A -> erow A r = D r ++ U r /\ length (D r ++ U r) <= eM A.
  Definition nzs (N : nat) (nzt : list nat) (D : nat -> row) : Prop :=
    length nzt = N /\ forall r, r < N -> nth r nzt 0 = length (D r).

  Lemma e_swap_ok (A : ell) r p q : shape A -> r < eN A -> nnz A r <= eM A -> p < nnz A r -> q < nnz A r ->
    exists A', e_swap A r p q = Ok A' /\ upd_row A A' r (lswap (erow A r) p q (0, k0)).
  Proof.
    intros Hs Hr Hn Hp Hq. unfold e_swap. destruct (Nat.eqb_spec p q) as [->|Hne].
    - exists A. split; auto. split; [split; auto|]. split; auto. split; auto.
      unfold lswap. apply (list_ext_nth _ _ (0, k0)).
      + rewrite !length_set_nth. auto.
      + intros i Hi. destruct (Nat.eq_dec i q) as [->|Hi'].
        * rewrite nth_set_nth_eq; auto. rewrite length_set_nth, erow_length. auto.
        * rewrite !nth_set_nth_neq by auto. auto.
    - rewrite !e_val_ok, !e_idx_ok by (auto; lia). cbn [bind].
      rewrite e_wval_ok by (auto; lia). cbn [bind].
      rewrite e_wval_ok by (try apply shape_wvalp; auto; simpl; lia). cbn [bind].
      rewrite e_idx_ok by (try apply shape_wvalp; try apply shape_wvalp; auto; simpl; lia). cbn [bind].
      rewrite e_widx_ok by (try apply shape_wvalp; try apply shape_wvalp; auto; simpl; lia). cbn [bind].
      rewrite e_widx_ok by (try apply shape_widxp; try apply shape_wvalp; try apply shape_wvalp; auto; simpl; lia).
      eexists. split; [reflexivity|]. split; [split; auto|].
      split; [repeat (apply shape_widxp || apply shape_wvalp); auto|]. split; [|split].
      + unfold erow at 1. match goal with |- slots ?X _ _ = _ => change (nnz X r) with (nnz A r) end.
        repeat (rewrite slots_widxp || rewrite slots_wvalp);
          repeat (apply shape_widxp || apply shape_wvalp); auto; simpl; try lia.
        fold (erow A r). unfold lswap. set (E := erow A r).
        assert (HE : length E = nnz A r) by (unfold E; apply erow_length).
        assert (Hv : forall x, x < nnz A r -> nth x E (0, k0) = (nth (r * eM A + x) (eidx A) 0, nth (r * eM A + x) (eval A) k0)).
        { intros x Hx. unfold E, erow. apply slots_nth; auto. }
        apply (list_ext_nth _ _ (0, k0)); [rewrite !length_set_nth; auto|].
        intros x Hx. rewrite !length_set_nth in Hx.
        rewrite !nth_set_nth, !length_set_nth, HE.
        apply Nat.ltb_lt in Hp as Hpb, Hq as Hqb. rewrite Hpb, Hqb.
        assert (E1 : (p =? q) = false) by (apply Nat.eqb_neq; auto).
        assert (E2 : (q =? p) = false) by (apply Nat.eqb_neq; auto).
        rewrite !Nat.eqb_refl, E1, E2. cbn [andb fst snd].
        rewrite !Hv by auto. cbn [fst snd].
        destruct (Nat.eqb_spec x q) as [->|Hxq]; cbn [andb]; auto.
        destruct (Nat.eqb_spec x p) as [->|Hxp]; cbn [andb]; auto.
      + auto.
      + intros i' n Hi' Hn'.
        repeat (rewrite slots_widxp_other || rewrite slots_wvalp_other);
          repeat (apply shape_widxp || apply shape_wvalp); auto; simpl; try lia.
  Qed.

  Lemma uf_eq {T} (f : nat -> T) i x : upd_fun f i x i = x.
  Proof. unfold upd_fun. rewrite Nat.eqb_refl. auto. Qed.
  Lemma uf_neq {T} (f : nat -> T) i x r : r <> i -> upd_fun f i x r = f r.
  Proof. intros H. unfold upd_fun. apply Nat.eqb_neq in H as ->. auto. Qed.

  Lemma rows_nnz (A : ell) D U r : rows A D U -> r < eN A -> nnz A r = length (D r) + length (U r) /\ nnz A r <= eM A.
  Proof.
    intros [Hs H] Hr. destruct (H r Hr) as [E L]. rewrite <- erow_length, E, app_length. rewrite app_length in L. lia.
  Qed.

  Lemma rows_upd (A A' : ell) D U r D2 U2 : rows A D U -> r < eN A -> upd_row A A' r (D2 ++ U2) ->
    length (D2 ++ U2) <= eM A -> same_dims A A' /\ rows A' (upd_fun D r D2) (upd_fun U r U2).
  Proof.
    intros HR Hr HU HL. pose proof HU as ((E1 & E2) & Hs & HE & _). split; [split; auto|]. split; auto.
    intros r' Hr'. destruct (Nat.eq_dec r' r) as [->|Hne].
    - rewrite !uf_eq. rewrite <- E2. auto.
    - rewrite !uf_neq by auto. rewrite <- E1 in Hr'. rewrite <- E2.
      rewrite (upd_row_other _ _ _ _ _ HU); auto; [apply HR; auto|]. apply (rows_nnz A D U); auto.
  Qed.

  Lemma nzs_upd N nzt D r D2 : nzs N nzt D -> r < N -> nzs N (set_nth nzt r (length D2)) (upd_fun D r D2).
  Proof.
    intros [L H] Hr. split; [rewrite length_set_nth; auto|]. intros q Hq. destruct (Nat.eq_dec q r) as [->|Hne].
    - rewrite uf_eq, nth_set_nth_eq by lia. auto.
    - rewrite uf_neq, nth_set_nth_neq by auto. auto.
  Qed.

  (** move the entry at position q of the undone part to the end of the done part *)
  Lemma bring (A : ell) D U r q : rows A D U -> r < eN A -> q < length (U r) ->
    exists A' U2, e_swap A r (length (D r) + q) (length (D r)) = Ok A' /\
      same_dims A A' /\ Permutation (nth q (U r) (0, k0) :: U2) (U r) /\
      rows A' (upd_fun D r (D r ++ [nth q (U r) (0, k0)])) (upd_fun U r U2).
  Proof.
    intros HR Hr Hq. assert (HRR := HR). destruct HRR as [Hs H]. destruct (H r Hr) as [E L].
    destruct (rows_nnz A D U r HR Hr) as [En Ln].
    destruct (e_swap_ok A r (length (D r) + q) (length (D r))) as (A' & E' & HU); auto; try lia.
    rewrite E in HU. destruct (lswap_bring (D r) (U r) q (0, k0) Hq) as (U2 & EL & HP). rewrite EL in HU.
    exists A', U2. split; auto.
    replace (D r ++ nth q (U r) (0, k0) :: U2) with ((D r ++ [nth q (U r) (0, k0)]) ++ U2) in HU by (rewrite <- app_assoc; auto).
    assert (HL : length ((D r ++ [nth q (U r) (0, k0)]) ++ U2) <= eM A).
    { apply Permutation_length in HP. simpl in HP. rewrite !app_length in *. simpl. lia. }
    destruct (rows_upd A A' D U r _ _ HR Hr HU HL) as [H1 H2]. auto.
  Qed.

  (** overwrite the value at position q of the undone part *)
  Lemma setU (A : ell) D U r P Q c v w : rows A D U -> r < eN A -> U r = P ++ (c, v) :: Q ->
    exists A', e_wval A r (length (D r) + length P) w = Ok A' /\ same_dims A A' /\
      rows A' D (upd_fun U r (P ++ (c, w) :: Q)).
  Proof.
    intros HR Hr EU. assert (HRR := HR). destruct HRR as [Hs H]. destruct (H r Hr) as [E L].
    destruct (rows_nnz A D U r HR Hr) as [En Ln]. rewrite EU in *. rewrite !app_length in *. simpl in *.
    rewrite e_wval_ok by (auto; lia). eexists. split; [reflexivity|].
    assert (HU := wvalp_upd A r (length (D r) + length P) w Hs Hr ltac:(lia) ltac:(lia)).
    rewrite E in HU.
    assert (E1 : nth (length (D r) + length P) (D r ++ P ++ (c, v) :: Q) (0, k0) = (c, v)).
    { rewrite app_nth2, app_nth2 by lia. replace (_ - _ - _) with 0 by lia. auto. }
    assert (E2 : set_nth (D r ++ P ++ (c, v) :: Q) (length (D r) + length P) (c, w) = D r ++ P ++ (c, w) :: Q).
    { replace (D r ++ P ++ (c, v) :: Q) with ((D r ++ P) ++ (c, v) :: Q) by (rewrite <- app_assoc; auto).
      rewrite <- app_length, set_nth_split, <- app_assoc. auto. }
    rewrite E1 in HU. simpl fst in HU. rewrite E2 in HU.
    destruct (rows_upd A _ D U r (D r) (P ++ (c, w) :: Q) HR Hr HU) as [H1 H2].
    { rewrite !app_length. simpl. lia. }
    split; auto. destruct H2 as [H2 H3]. split; auto. intros q Hq. destruct (H3 q Hq) as [H4 H5].
    destruct (Nat.eq_dec q r) as [->|Hne]; [rewrite uf_eq in H4, H5 by auto|rewrite (uf_neq D) in H4, H5 by auto]; auto.
  Qed.

  (** append to a row whose undone part is brought along *)
  Lemma pushU (A : ell) D U r c v : rows A D U -> r < eN A -> length (D r ++ U r) < eM A ->
    exists A', e_push A r c v = Ok A' /\ same_dims A A' /\ rows A' D (upd_fun U r (U r ++ [(c, v)])).
  Proof.
    intros HR Hr HL. assert (HRR := HR). destruct HRR as [Hs H]. destruct (H r Hr) as [E L].
    destruct (rows_nnz A D U r HR Hr) as [En Ln]. rewrite app_length in HL.
    destruct (e_push_ok A r c v Hs Hr ltac:(lia)) as (A' & E' & HU). exists A'. split; auto.
    rewrite E, <- app_assoc in HU.
    destruct (rows_upd A _ D U r (D r) (U r ++ [(c, v)]) HR Hr HU) as [H1 H2].
    { rewrite !app_length. simpl. lia. }
    split; auto. destruct H2 as [H2 H3]. split; auto. intros q Hq. destruct (H3 q Hq) as [H4 H5].
    destruct (Nat.eq_dec q r) as [->|Hne]; [rewrite uf_eq in H4, H5 by auto|rewrite (uf_neq D) in H4, H5 by auto]; auto.
  Qed.

  (** drop the last entry of a row *)
  Lemma dropU (A : ell) D U r P x : rows A D U -> r < eN A -> U r = P ++ [x] ->
    exists A', e_wnnz A r (nnz A r - 1) = Ok A' /\ same_dims A A' /\ rows A' D (upd_fun U r P).
  Proof.
    intros HR Hr EU. assert (HRR := HR). destruct HRR as [Hs H]. destruct (H r Hr) as [E L].
    destruct (rows_nnz A D U r HR Hr) as [En Ln]. rewrite EU in *. rewrite !app_length in *. simpl in *.
    rewrite e_wnnz_ok by auto. eexists. split; [reflexivity|].
    assert (HU := wnnz_upd A r (nnz A r - 1) Hs Hr).
    rewrite <- (slots_firstn A r (nnz A r - 1) (nnz A r)) in HU by lia. fold (erow A r) in HU. rewrite E in HU.
    assert (EF : firstn (nnz A r - 1) (D r ++ P ++ [x]) = D r ++ P).
    { rewrite app_assoc. rewrite firstn_app. rewrite app_length. rewrite (firstn_all2 (D r ++ P)) by (rewrite app_length; lia).
      replace (nnz A r - 1 - (length (D r) + length P)) with 0 by lia. simpl. rewrite app_nil_r. auto. }
    rewrite EF in HU.
    destruct (rows_upd A _ D U r (D r) P HR Hr HU) as [H1 H2].
    { rewrite !app_length. lia. }
    split; auto. destruct H2 as [H2 H3]. split; auto. intros q Hq. destruct (H3 q Hq) as [H4 H5].
    destruct (Nat.eq_dec q r) as [->|Hne]; [rewrite uf_eq in H4, H5 by auto|rewrite (uf_neq D) in H4, H5 by auto]; auto.
  Qed.

  (** search of the symmetric position *)
  Lemma search_ok (A : ell) D U j i : rows A D U -> j < eN A ->
    exists f, forM (seq (length (D j)) (nnz A j - length (D j))) (fun jpos found =>
             match found with
             | Some p => Ok (Some p)
             | None => k <- e_idx A j jpos ;; Ok (if k =? i then Some jpos else None)
             end) None = Ok f /\
      match f with
      | Some p => exists P w Q, U j = P ++ (i, w) :: Q /\ p = length (D j) + length P
      | None => ~ In i (cols (U j))
      end.
  Proof.
    intros HR Hj. destruct (rows_nnz A D U j HR Hj) as [En Ln]. destruct HR as [Hs HR]. destruct (HR j Hj) as [E L].
    replace (nnz A j - length (D j)) with (length (U j)) by lia.
    apply wp_ok.
    assert (G := forM_inv (e := False) (fun pre f => match f with
      | Some p => exists P w Q, U j = P ++ (i, w) :: Q /\ p = length (D j) + length P
      | None => ~ In i (cols (firstn (length pre) (U j))) end) (seq (length (D j)) (length (U j)))
      (fun jpos found => match found with
             | Some p => Ok (Some p)
             | None => k <- e_idx A j jpos ;; Ok (if k =? i then Some jpos else None)
             end) None).
    eapply wp_mono; [apply G; clear G|intros [p|]; auto; rewrite seq_length, firstn_all; auto].
    - simpl. auto.
    - intros pre p post f Ef Hf. destruct f as [p0|]; [simpl; auto|].
      assert (Hp : p = length (D j) + length pre /\ length pre < length (U j)).
      { assert (H := f_equal (@length _) Ef). rewrite seq_length, app_length in H. simpl in H.
        assert (H2 := f_equal (fun l => nth (length pre) l 0) Ef). cbv beta in H2.
        rewrite app_nth2, Nat.sub_diag in H2 by lia. simpl in H2. rewrite seq_nth in H2 by lia. lia. }
      destruct Hp as [-> Hlt]. rewrite e_idx_ok by (auto; lia). cbn [bind wpq].
      assert (Ek : nth (length pre) (U j) (0, k0) = nth (length (D j) + length pre) (erow A j) (0, k0)).
      { rewrite E, app_nth2 by lia. f_equal. lia. }
      unfold erow in Ek. rewrite slots_nth in Ek by lia.
      destruct (Nat.eqb_spec (nth (j * eM A + (length (D j) + length pre)) (eidx A) 0) i) as [Hk|Hk].
      + rewrite Hk in Ek. exists (firstn (length pre) (U j)). eexists. exists (skipn (S (length pre)) (U j)). split.
        * rewrite <- Ek. rewrite <- (skipn_S_nth (U j) (length pre) (0, k0)) by lia. symmetry. apply firstn_skipn.
        * rewrite firstn_length. lia.
      + rewrite app_length. simpl. rewrite Nat.add_1_r. rewrite (firstn_S_nth (U j) (length pre) (0, k0)) by lia.
        unfold cols. rewrite map_app, in_app_iff. rewrite Ek. simpl. intros [H|[H|[]]]; auto.
  Qed.

  Lemma perm_found {T} (a b c d1 d2 : list T) x y :
    Permutation (a ++ [x] ++ b ++ c ++ [y] ++ d1 ++ d2) (a ++ b ++ [y] ++ c ++ d1 ++ x :: d2).
  Proof.
    replace (a ++ [x] ++ b ++ c ++ [y] ++ d1 ++ d2) with (a ++ x :: ((b ++ c) ++ y :: (d1 ++ d2)))
      by (repeat (rewrite <- app_assoc; simpl); auto).
    replace (a ++ b ++ [y] ++ c ++ d1 ++ x :: d2) with (a ++ (b ++ y :: (c ++ d1 ++ x :: d2)))
      by (repeat (rewrite <- app_assoc; simpl); auto).
    rewrite <- (Permutation_middle a), <- (Permutation_middle (b ++ c)), <- (Permutation_middle b).
    replace (c ++ d1 ++ x :: d2) with ((c ++ d1) ++ x :: d2) by (rewrite <- app_assoc; auto).
    rewrite <- (Permutation_middle (c ++ d1)), <- (Permutation_middle a), <- (Permutation_middle a).
    replace (b ++ x :: (c ++ d1) ++ d2) with (b ++ x :: c ++ d1 ++ d2) by (rewrite <- app_assoc; auto).
    rewrite <- (Permutation_middle b), <- (Permutation_middle a). rewrite <- (app_assoc b c). apply perm_swap.
  Qed.

  Lemma perm_notfound {T} (a b c d : list T) y :
    Permutation (a ++ b ++ c ++ [y] ++ d) (a ++ b ++ [y] ++ c ++ d).
  Proof.
    apply Permutation_app_head. apply Permutation_app_head. rewrite !app_assoc.
    apply Permutation_app_tail. symmetry. apply (Permutation_cons_append c y).
  Qed.

  Lemma cons_snoc_perm {T} (x : T) (U2 U' : list T) : Permutation (x :: U2) (U' ++ [x]) -> Permutation U2 U'.
  Proof. intros H. apply (Permutation_cons_inv (a := x)). rewrite H. symmetry. apply Permutation_cons_append. Qed.

  Lemma cols_perm (E1 E2 : row) c : Permutation E1 E2 -> In c (cols E1) -> In c (cols E2).
  Proof. intros H. unfold cols. apply Permutation_in, Permutation_map, H. Qed.

  (** one pass of the while loop *)
  Lemma step_ok (A0 A : ell) nzt D U i :
    wf A0 -> (forall r, r < eN A0 -> count (eN A0) (pattern A0 r) <= eM A0) ->
    same_dims A0 A -> rows A D U -> nzs (eN A0) nzt D -> tinv A0 D U -> i < eN A0 ->
    (forall r, r < i -> U r = []) -> U i <> [] ->
    exists A' nzt' D' U', tr_left_step i A nzt (nnz A i) = Ok (A', nzt', nnz A' i) /\
      same_dims A0 A' /\ rows A' D' U' /\ nzs (eN A0) nzt' D' /\ tinv A0 D' U' /\
      (forall r, r < i -> U' r = []) /\ length (U' i) = length (U i) - 1.
  Proof.
    intros Hw0 Hcap [EN EM] HR HZ HI Hi Hlow HUi.
    destruct (exists_last HUi) as (U1 & [j v] & EU).
    assert (HiA : i < eN A) by lia.
    destruct (rows_nnz A D U i HR HiA) as [En Ln].
    assert (Hj : j < eN A0). { apply (U_lt A0 D U i j v Hw0 HI Hi). rewrite EU. apply in_app_iff. right; left; auto. }
    assert (HjA : j < eN A) by lia.
    assert (HRR := HR). destruct HRR as [Hs Hrow]. destruct (Hrow i HiA) as [Ei Li].
    assert (ELU : length (U i) = S (length U1)) by (rewrite EU, app_length; simpl; lia).
    assert (Eip : nnz A i - 1 = length (D i) + length U1) by lia.
    assert (Hslot : nth (length (D i) + length U1) (erow A i) (0, k0) = (j, v)).
    { rewrite Ei, EU, app_nth2, app_nth2 by lia. replace (_ - _ - _) with 0 by lia. auto. }
    unfold erow in Hslot. rewrite slots_nth in Hslot by lia. injection Hslot as Hidx Hval.
    assert (HzL : length nzt = eN A0) by apply HZ.
    assert (Hz : forall r, r < eN A0 -> rd nzt r = Ok (length (D r))).
    { intros r Hr. rewrite (rd_ok nzt r 0) by lia. f_equal. apply HZ; auto. }
    destruct (nodup_DU A0 D U i Hw0 HI Hi) as [HDi HUi'].
    destruct (nodup_DU A0 D U j Hw0 HI Hj) as [HDj HUj].
    assert (Hjin : In j (cols (U i))) by (rewrite EU; unfold cols; rewrite map_app, in_app_iff; right; left; auto).
    assert (Hwait := waiting A0 D U i j Hw0 HI Hi Hj Hjin).
    assert (HjU1 : ~ In j (cols U1)).
    { rewrite EU in HUi'. unfold cols in *. rewrite map_app in HUi'. simpl in HUi'. apply NoDup_remove_2 in HUi'. rewrite app_nil_r in HUi'. auto. }
    assert (Hst : stored A0 i j = true).
    { unfold stored. apply existsb_eqb. assert (H : In (j, v) (erow A0 i)).
      { apply (in_U A0 D U i j v HI Hi). rewrite EU. apply in_app_iff. right; left; auto. }
      apply (in_map fst) in H. auto. }
    unfold tr_left_step. rewrite Eip. rewrite e_idx_ok by (auto; lia). rewrite Hidx. cbn [bind].
    destruct (Nat.ltb_spec i j) as [Hij|Hij].
    - rewrite e_nnz_ok by auto. cbn [bind]. rewrite Hz by auto. cbn [bind].
      destruct (search_ok A D U j i HR HjA) as (f & Ef & Hf). rewrite Ef. cbn [bind].
      destruct f as [p|].
      + (* symmetric entry found *)
        destruct Hf as (P & w & Q & EUj & ->).
        destruct (rows_nnz A D U j HR HjA) as [Enj Lnj].
        assert (Lj : length (U j) = length P + S (length Q)) by (rewrite EUj, app_length; auto).
        destruct (Hrow j HjA) as [Ej Lj2].
        assert (Hslotj : nth (length (D j) + length P) (erow A j) (0, k0) = (i, w)).
        { rewrite Ej, EUj, app_nth2, app_nth2 by lia. replace (_ - _ - _) with 0 by lia. auto. }
        unfold erow in Hslotj. rewrite slots_nth in Hslotj by lia. injection Hslotj as Hidxj Hvalj.
        rewrite (e_val_ok A i) by (auto; lia). rewrite Hval. cbn [bind].
        rewrite e_val_ok by (auto; lia). rewrite Hvalj. cbn [bind].
        destruct (setU A D U i U1 [] j v w HR HiA EU) as (A1 & E1 & [D11 D12] & R1). rewrite E1. cbn [bind].
        set (Ua := upd_fun U i (U1 ++ [(j, w)])) in *.
        assert (EUa : Ua j = P ++ (i, w) :: Q) by (unfold Ua; rewrite uf_neq by lia; auto).
        destruct (setU A1 D Ua j P Q i w v R1 ltac:(lia) EUa) as (A2 & E2 & [D21 D22] & R2). rewrite E2. cbn [bind].
        set (Ub := upd_fun Ua j (P ++ (i, v) :: Q)) in *.
        assert (EUb : Ub i = U1 ++ [(j, w)]) by (unfold Ub, Ua; rewrite uf_neq, uf_eq by lia; auto).
        rewrite ?Hz by auto. cbn [bind].
        destruct (bring A2 D Ub i (length U1) R2 ltac:(lia)) as (A3 & U2 & E3 & [D31 D32] & HP3 & R3).
        { rewrite EUb, app_length. simpl. lia. }
        rewrite E3. cbn [bind]. rewrite ?Hz by auto. cbn [bind].
        rewrite EUb, app_nth2, Nat.sub_diag in HP3, R3 by lia. simpl nth in HP3, R3.
        apply cons_snoc_perm in HP3.
        set (Dc := upd_fun D i (D i ++ [(j, w)])) in *. set (Uc := upd_fun Ub i U2) in *.
        assert (EUc : Uc j = P ++ (i, v) :: Q) by (unfold Uc, Ub; rewrite uf_neq, uf_eq by lia; auto).
        assert (EDc : Dc j = D j) by (unfold Dc; rewrite uf_neq by lia; auto).
        destruct (bring A3 Dc Uc j (length P) R3 ltac:(lia)) as (A4 & U3 & E4 & [D41 D42] & HP4 & R4).
        { rewrite EUc, app_length. simpl. lia. }
        rewrite EDc in E4. rewrite E4. cbn [bind].
        rewrite EUc, app_nth2, Nat.sub_diag in HP4, R4 by lia. simpl nth in HP4, R4.
        assert (HP4' : Permutation U3 (P ++ Q)).
        { apply (Permutation_cons_inv (a := (i, v))). rewrite HP4. symmetry. apply Permutation_middle. }
        rewrite wr_ok by lia. cbn [bind].
        rewrite (rd_ok _ j 0) by (rewrite length_set_nth; lia). cbn [bind].
        rewrite nth_set_nth_neq by lia. replace (nth j nzt 0) with (length (D j)) by (symmetry; apply HZ; auto).
        rewrite wr_ok by (rewrite length_set_nth; lia). cbn [bind].
        rewrite EDc in R4.
        set (Dd := upd_fun Dc j (D j ++ [(i, v)])) in *. set (Ud := upd_fun Uc j U3) in *.
        assert (EDi : Dd i = D i ++ [(j, w)]) by (unfold Dd, Dc; rewrite uf_neq, uf_eq by lia; auto).
        assert (EUdi : Ud i = U2) by (unfold Ud, Uc; rewrite uf_neq, uf_eq by lia; auto).
        assert (EDj : Dd j = D j ++ [(i, v)]) by (unfold Dd; rewrite uf_eq; auto).
        assert (EUdj : Ud j = U3) by (unfold Ud; rewrite uf_eq; auto).
        assert (Eo : forall r, r <> i -> r <> j -> Dd r = D r /\ Ud r = U r).
        { intros r H1 H2. unfold Dd, Ud, Dc, Uc, Ub, Ua. rewrite !uf_neq by auto. auto. }
        exists A4. eexists. exists Dd, Ud.
        assert (EnA4 : nnz A4 i = nnz A i).
        { destruct (rows_nnz A4 Dd Ud i R4 ltac:(lia)) as [En4 _]. rewrite En4, EDi, EUdi, app_length.
          apply Permutation_length in HP3. simpl. lia. }
        rewrite EnA4.
        split; [reflexivity|]. split; [split; congruence|]. split; auto. split; [|split; [|split]].
        * assert (Z1 := nzs_upd (eN A0) nzt D i (D i ++ [(j, w)]) HZ Hi).
          assert (Z2 := nzs_upd (eN A0) _ _ j (D j ++ [(i, v)]) Z1 Hj).
          rewrite !app_length in Z2. simpl in Z2. rewrite !Nat.add_1_r in Z2. exact Z2.
        * destruct HI as [HPI HDI]. split.
          -- rewrite <- HPI. unfold trips. apply (flat_map_upd2 _ i j); auto; try lia.
             ++ intros r Hr H1 H2. unfold ents. destruct (Eo r H1 H2) as [-> ->]. auto.
             ++ unfold ents. rewrite EDi, EUdi, EDj, EUdj, EU, EUj, HP3, HP4'. rewrite !map_app. cbn [map fst snd].
                rewrite <- !app_assoc. apply (perm_found _ _ _ _ _ (j, i, w) (i, j, v)) .
          -- intros r Hr c. destruct (Nat.eq_dec r i) as [->|Hri]; [|destruct (Nat.eq_dec r j) as [->|Hrj]].
             ++ rewrite EDi, EUdi. unfold cols at 1. rewrite map_app, in_app_iff. simpl. intros Hc Hc2.
                apply (cols_perm _ _ c HP3) in Hc2. destruct Hc as [Hc|[<-|[]]].
                ** apply (HDI i Hi c Hc). rewrite EU. unfold cols. rewrite map_app, in_app_iff. auto.
                ** auto.
             ++ rewrite EDj, EUdj. unfold cols at 1. rewrite map_app, in_app_iff. simpl. intros Hc Hc2.
                apply (cols_perm _ _ c HP4') in Hc2. destruct Hc as [Hc|[<-|[]]].
                ** apply (HDI j Hj c Hc). rewrite EUj. unfold cols in *. rewrite map_app in *. rewrite in_app_iff in *. simpl. tauto.
                ** rewrite EUj in HUj. unfold cols in HUj, Hc2. rewrite map_app in HUj, Hc2. simpl in HUj.
                   apply NoDup_remove_2 in HUj. auto.
             ++ destruct (Eo r Hri Hrj) as [-> ->]. apply HDI; auto.
        * intros r Hr. destruct (Eo r) as [_ ->]; try lia. auto.
        * rewrite EUdi, ELU. apply Permutation_length in HP3. lia.
      + (* not found: the element moves to row j *)
        destruct (rows_nnz A D U j HR HjA) as [Enj Lnj].
        assert (Hroom : length (D j ++ U j) < eM A).
        { assert (H := room A0 D U j ((D j ++ U j) ++ [(i, v)]) Hw0 HI Hj (Hcap j Hj)).
          rewrite app_length in H. simpl in H. rewrite EM in H.
          enough (length (D j ++ U j) + 1 <= eM A) by lia. apply H.
          - unfold cols. rewrite !map_app. simpl. fold (cols (D j)). fold (cols (U j)).
            apply NoDup_app_intro; [apply NoDup_app_intro; auto; apply HI; auto|repeat constructor; auto|].
            intros c Hc [<-|[]]. apply in_app_iff in Hc. tauto.
          - intros c. unfold cols. rewrite map_app, in_app_iff. simpl. intros [Hc|[<-|[]]]; auto. }
        rewrite (e_val_ok A i) by (auto; lia). rewrite Hval. cbn [bind].
        destruct (pushU A D U j i v HR HjA Hroom) as (A1 & E1 & [D11 D12] & R1). rewrite E1. cbn [bind].
        set (Ua := upd_fun U j (U j ++ [(i, v)])) in *.
        assert (EUa : Ua j = U j ++ [(i, v)]) by (unfold Ua; rewrite uf_eq; auto).
        destruct (rows_nnz A1 D Ua j R1 ltac:(lia)) as [En1 Ln1].
        rewrite e_nnz_ok by (try apply R1; lia). cbn [bind]. rewrite ?Hz by auto. cbn [bind].
        replace (nnz A1 j - 1) with (length (D j) + length (U j)).
        2:{ rewrite En1, EUa, app_length. simpl. lia. }
        destruct (bring A1 D Ua j (length (U j)) R1 ltac:(lia)) as (A2 & U2 & E2 & [D21 D22] & HP2 & R2).
        { rewrite EUa, app_length. simpl. lia. }
        rewrite E2. cbn [bind].
        rewrite EUa, app_nth2, Nat.sub_diag in HP2, R2 by lia. simpl nth in HP2, R2. apply cons_snoc_perm in HP2.
        rewrite wr_ok by lia. cbn [bind]. rewrite e_nnz_ok by (try apply R2; lia). cbn [bind].
        set (Db := upd_fun D j (D j ++ [(i, v)])) in *. set (Ub := upd_fun Ua j U2) in *.
        assert (EUb : Ub i = U1 ++ [(j, v)]) by (unfold Ub, Ua; rewrite !uf_neq by lia; auto).
        destruct (dropU A2 Db Ub i U1 (j, v) R2 ltac:(lia) EUb) as (A3 & E3 & [D31 D32] & R3). rewrite E3. cbn [bind].
        set (Uc := upd_fun Ub i U1) in *.
        assert (EDi : Db i = D i) by (unfold Db; rewrite uf_neq by lia; auto).
        assert (EUi : Uc i = U1) by (unfold Uc; rewrite uf_eq; auto).
        assert (EDj : Db j = D j ++ [(i, v)]) by (unfold Db; rewrite uf_eq; auto).
        assert (EUj : Uc j = U2) by (unfold Uc, Ub; rewrite uf_neq, uf_eq by lia; auto).
        assert (Eo : forall r, r <> i -> r <> j -> Db r = D r /\ Uc r = U r).
        { intros r H1 H2. unfold Db, Uc, Ub, Ua. rewrite !uf_neq by auto. auto. }
        exists A3. eexists. exists Db, Uc.
        assert (En3 : nnz A3 i = length (D i) + length U1).
        { destruct (rows_nnz A3 Db Uc i R3 ltac:(lia)) as [En3 _]. rewrite En3, EDi, EUi. auto. }
        rewrite En3.
        split; [reflexivity|]. split; [split; congruence|]. split; auto. split; [|split; [|split]].
        * assert (Z1 := nzs_upd (eN A0) nzt D j (D j ++ [(i, v)]) HZ Hj).
          rewrite !app_length in Z1. simpl in Z1. rewrite !Nat.add_1_r in Z1. exact Z1.
        * destruct HI as [HPI HDI]. split.
          -- rewrite <- HPI. unfold trips. apply (flat_map_upd2 _ i j); auto; try lia.
             ++ intros r Hr H1 H2. unfold ents. destruct (Eo r H1 H2) as [-> ->]. auto.
             ++ unfold ents. rewrite EDi, EUi, EDj, EUj, EU, HP2. rewrite !map_app. cbn [map fst snd].
                rewrite <- !app_assoc. apply (perm_notfound _ _ _ _ (i, j, v)).
          -- intros r Hr c. destruct (Nat.eq_dec r i) as [->|Hri]; [|destruct (Nat.eq_dec r j) as [->|Hrj]].
             ++ rewrite EDi, EUi. intros Hc Hc2. apply (HDI i Hi c Hc). rewrite EU. unfold cols. rewrite map_app, in_app_iff. auto.
             ++ rewrite EDj, EUj. unfold cols at 1. rewrite map_app, in_app_iff. simpl. intros Hc Hc2.
                apply (cols_perm _ _ c HP2) in Hc2. destruct Hc as [Hc|[<-|[]]]; [|auto]. apply (HDI j Hj c Hc); auto.
             ++ destruct (Eo r Hri Hrj) as [-> ->]. apply HDI; auto.
        * intros r Hr. destruct (Eo r) as [_ ->]; try lia. auto.
        * rewrite EUi, ELU. lia.
    - destruct (Nat.ltb_spec j i) as [Hji|Hji].
      + (* element below the diagonal without partner *)
        assert (EUj0 : U j = []) by (apply Hlow; auto).
        destruct (rows_nnz A D U j HR HjA) as [Enj Lnj].
        assert (Hroom : length (D j ++ U j) < eM A).
        { assert (H := room A0 D U j ((D j ++ U j) ++ [(i, v)]) Hw0 HI Hj (Hcap j Hj)).
          rewrite app_length in H. simpl in H. rewrite EM in H.
          enough (length (D j ++ U j) + 1 <= eM A) by lia. apply H.
          - unfold cols. rewrite !map_app. simpl. fold (cols (D j)). fold (cols (U j)).
            apply NoDup_app_intro; [apply NoDup_app_intro; auto; apply HI; auto|repeat constructor; auto|].
            intros c Hc [<-|[]]. apply in_app_iff in Hc. rewrite EUj0 in Hc. simpl in Hc. tauto.
          - intros c. unfold cols. rewrite map_app, in_app_iff. simpl. intros [Hc|[<-|[]]]; auto. }
        rewrite (e_val_ok A i) by (auto; lia). rewrite Hval. cbn [bind].
        destruct (pushU A D U j i v HR HjA Hroom) as (A1 & E1 & [D11 D12] & R1). rewrite E1. cbn [bind].
        rewrite ?Hz by auto. cbn [bind]. rewrite wr_ok by lia. cbn [bind].
        set (Ua := upd_fun U j (U j ++ [(i, v)])) in *.
        rewrite e_nnz_ok by (try apply R1; lia). cbn [bind].
        assert (EUa : Ua i = U1 ++ [(j, v)]) by (unfold Ua; rewrite !uf_neq by lia; auto).
        destruct (dropU A1 D Ua i U1 (j, v) R1 ltac:(lia) EUa) as (A3 & E3 & [D31 D32] & R3). rewrite E3. cbn [bind].
        set (Db := upd_fun D j (D j ++ [(i, v)])) in *. set (Uc := upd_fun U i U1) in *.
        assert (EDi : Db i = D i) by (unfold Db; rewrite uf_neq by lia; auto).
        assert (EUi : Uc i = U1) by (unfold Uc; rewrite uf_eq; auto).
        assert (EDj : Db j = D j ++ [(i, v)]) by (unfold Db; rewrite uf_eq; auto).
        assert (EUj : Uc j = []) by (unfold Uc; rewrite uf_neq by lia; auto).
        assert (Eo : forall r, r <> i -> r <> j -> Db r = D r /\ Uc r = U r).
        { intros r H1 H2. unfold Db, Uc. rewrite !uf_neq by auto. auto. }
        assert (R4 : rows A3 Db Uc).
        { destruct R3 as [Hs3 R3]. split; auto. intros r Hr. destruct (R3 r Hr) as [X1 X2].
          destruct (Nat.eq_dec r i) as [->|Hri]; [|destruct (Nat.eq_dec r j) as [->|Hrj]].
          - rewrite uf_eq in X1, X2. rewrite EDi, EUi. auto.
          - rewrite uf_neq in X1, X2 by auto. unfold Ua in X1, X2. rewrite uf_eq in X1, X2.
            rewrite EUj0 in X1, X2. simpl in X1, X2. rewrite EDj, EUj, app_nil_r. auto.
          - rewrite uf_neq in X1, X2 by auto. unfold Ua in X1, X2. rewrite uf_neq in X1, X2 by auto.
            destruct (Eo r Hri Hrj) as [-> ->]. auto. }
        exists A3. eexists. exists Db, Uc.
        assert (En3 : nnz A3 i = length (D i) + length U1).
        { destruct (rows_nnz A3 Db Uc i R4 ltac:(lia)) as [En3 _]. rewrite En3, EDi, EUi. auto. }
        rewrite En3.
        split; [reflexivity|]. split; [split; congruence|]. split; auto. split; [|split; [|split]].
        * assert (Z1 := nzs_upd (eN A0) nzt D j (D j ++ [(i, v)]) HZ Hj).
          rewrite !app_length in Z1. simpl in Z1. rewrite !Nat.add_1_r in Z1. exact Z1.
        * destruct HI as [HPI HDI]. split.
          -- rewrite <- HPI. unfold trips. apply (flat_map_upd2 _ i j); auto; try lia.
             ++ intros r Hr H1 H2. unfold ents. destruct (Eo r H1 H2) as [-> ->]. auto.
             ++ unfold ents. rewrite EDi, EUi, EDj, EUj, EU, EUj0. rewrite !map_app. cbn [map fst snd].
                rewrite <- !app_assoc. apply (perm_notfound _ _ _ _ (i, j, v)).
          -- intros r Hr c. destruct (Nat.eq_dec r i) as [->|Hri]; [|destruct (Nat.eq_dec r j) as [->|Hrj]].
             ++ rewrite EDi, EUi. intros Hc Hc2. apply (HDI i Hi c Hc). rewrite EU. unfold cols. rewrite map_app, in_app_iff. auto.
             ++ rewrite EUj. simpl. auto.
             ++ destruct (Eo r Hri Hrj) as [-> ->]. apply HDI; auto.
        * intros r Hr. destruct (Nat.eq_dec r j) as [->|Hrj]; auto. destruct (Eo r) as [_ ->]; try lia. auto.
        * rewrite EUi, ELU. lia.
      + (* diagonal element *)
        assert (j = i) as -> by lia.
        rewrite ?Hz by auto. cbn [bind].
        destruct (bring A D U i (length U1) HR HiA) as (A3 & U2 & E3 & [D31 D32] & HP3 & R3); [lia|].
        rewrite E3. cbn [bind]. rewrite wr_ok by lia. cbn [bind].
        rewrite EU, app_nth2, Nat.sub_diag in HP3, R3 by lia. simpl nth in HP3, R3.
        apply cons_snoc_perm in HP3.
        set (Dc := upd_fun D i (D i ++ [(i, v)])) in *. set (Uc := upd_fun U i U2) in *.
        assert (EDi : Dc i = D i ++ [(i, v)]) by (unfold Dc; rewrite uf_eq; auto).
        assert (EUi : Uc i = U2) by (unfold Uc; rewrite uf_eq; auto).
        assert (Eo : forall r, r <> i -> Dc r = D r /\ Uc r = U r).
        { intros r H1. unfold Dc, Uc. rewrite !uf_neq by auto. auto. }
        exists A3. eexists. exists Dc, Uc.
        assert (EnA4 : nnz A3 i = nnz A i).
        { destruct (rows_nnz A3 Dc Uc i R3 ltac:(lia)) as [En4 _]. rewrite En4, EDi, EUi, app_length.
          apply Permutation_length in HP3. simpl. lia. }
        rewrite EnA4.
        split; [reflexivity|]. split; [split; congruence|]. split; auto. split; [|split; [|split]].
        * assert (Z1 := nzs_upd (eN A0) nzt D i (D i ++ [(i, v)]) HZ Hi).
          rewrite !app_length in Z1. simpl in Z1. rewrite !Nat.add_1_r in Z1. exact Z1.
        * destruct HI as [HPI HDI]. split.
          -- rewrite <- HPI. unfold trips. apply (flat_map_upd1 _ i); auto.
             ++ intros r Hr H1. unfold ents. destruct (Eo r H1) as [-> ->]. auto.
             ++ unfold ents. rewrite EDi, EUi, EU, HP3. rewrite !map_app. cbn [map fst snd].
                rewrite <- !app_assoc. apply Permutation_app_head. apply Permutation_app_comm.
          -- intros r Hr c. destruct (Nat.eq_dec r i) as [->|Hri].
             ++ rewrite EDi, EUi. unfold cols at 1. rewrite map_app, in_app_iff. simpl. intros Hc Hc2.
                apply (cols_perm _ _ c HP3) in Hc2. destruct Hc as [Hc|[<-|[]]].
                ** apply (HDI i Hi c Hc). rewrite EU. unfold cols. rewrite map_app, in_app_iff. auto.
                ** auto.
             ++ destruct (Eo r Hri) as [-> ->]. apply HDI; auto.
        * intros r Hr. destruct (Eo r) as [_ ->]; try lia. auto.
        * rewrite EUi, ELU. apply Permutation_length in HP3. lia.
  Qed.

  Lemma while_ok (A0 : ell) i : wf A0 -> (forall r, r < eN A0 -> count (eN A0) (pattern A0 r) <= eM A0) -> i < eN A0 ->
    forall fuel A nzt D U, same_dims A0 A -> rows A D U -> nzs (eN A0) nzt D -> tinv A0 D U ->
    (forall r, r < i -> U r = []) -> length (U i) < fuel ->
    exists A' nzt' D' U', tr_left_while fuel i A nzt (nnz A i) = Ok (A', nzt') /\
      same_dims A0 A' /\ rows A' D' U' /\ nzs (eN A0) nzt' D' /\ tinv A0 D' U' /\ (forall r, r < S i -> U' r = []).
  Proof.
    intros Hw Hcap Hi. induction fuel as [|fuel IH]; intros A nzt D U HD HR HZ HI Hlow Hf; [lia|]. simpl.
    assert (HiA : i < eN A) by (destruct HD; lia).
    destruct (rows_nnz A D U i HR HiA) as [En Ln].
    rewrite (rd_ok nzt i 0) by (destruct HZ; lia). cbn [bind]. replace (nth i nzt 0) with (length (D i)) by (symmetry; apply HZ; auto).
    destruct (Nat.ltb_spec (length (D i)) (nnz A i)) as [Hlt|Hge].
    - assert (HU : U i <> []) by (intros E; rewrite E in En; simpl in En; lia).
      destruct (step_ok A0 A nzt D U i Hw Hcap HD HR HZ HI Hi Hlow HU) as (A1 & z1 & D1 & U1 & E1 & HD1 & HR1 & HZ1 & HI1 & Hl1 & HL1).
      rewrite E1. cbn [bind]. apply (IH A1 z1 D1 U1); auto. lia.
    - exists A, nzt, D, U. split; auto. repeat (split; [assumption|]). intros r Hr.
      destruct (Nat.eq_dec r i) as [->|Hne]; [|apply Hlow; lia].
      destruct (U i); auto. simpl in En. lia.
  Qed.

  Theorem ell_transpose_ok (A0 : ell) : wf A0 ->
    (forall r, r < eN A0 -> count (eN A0) (pattern A0 r) <= eM A0) ->
    exists B, ell_transpose A0 = Ok B /\ wf B /\ same_dims A0 B /\ meq (eN A0) (emat B) (mtrans (emat A0)).
  Proof.
    intros Hw Hcap. unfold ell_transpose.
    assert (G : wp (for_n (eN A0) (fun i '(A, nzt) => innz <- e_nnz A i ;; tr_left_while (S innz) i A nzt innz) (A0, repeat 0 (eN A0)))
      (fun s => exists D U, same_dims A0 (fst s) /\ rows (fst s) D U /\ nzs (eN A0) (snd s) D /\ tinv A0 D U /\ forall r, r < eN A0 -> U r = [])).
    { apply (for_n_inv (fun i s => exists D U, same_dims A0 (fst s) /\ rows (fst s) D U /\ nzs (eN A0) (snd s) D /\ tinv A0 D U /\ forall r, r < i -> U r = [])).
      - exists (fun _ => []), (erow A0). split; [split; auto|]. split.
        + split; [apply Hw|]. intros r Hr. split; auto. simpl. rewrite erow_length. apply wf_nnz; auto.
        + split; [split; [apply repeat_length|intros; apply nth_repeat_any]|]. split; [|intros; lia].
          split; [auto|]. simpl. tauto.
      - intros i [A nzt] Hi (D & U & HD & HR & HZ & HI & Hlow). simpl fst in *. simpl snd in *.
        assert (HiA : i < eN A) by (destruct HD; lia).
        rewrite e_nnz_ok by (try apply HR; auto). cbn [bind].
        destruct (rows_nnz A D U i HR HiA) as [En Ln].
        destruct (while_ok A0 i Hw Hcap Hi (S (nnz A i)) A nzt D U HD HR HZ HI Hlow ltac:(lia))
          as (A1 & z1 & D1 & U1 & E1 & HD1 & HR1 & HZ1 & HI1 & Hl1).
        rewrite E1. simpl. exists D1, U1. auto. }
    apply wp_ok in G as ([A nzt] & E & D & U & HD & HR & HZ & HI & Hlow). simpl fst in *. simpl snd in *.
    rewrite E. cbn [bind]. exists A. split; auto.
    assert (ED : forall r, r < eN A0 -> erow A r = D r).
    { intros r Hr. destruct HR as [_ HR]. destruct (HR r) as [H _]; [destruct HD; lia|]. rewrite H, Hlow, app_nil_r; auto. }
    destruct HD as [HD1 HD2]. split; [|split; [split; auto|]].
    - split; [apply HR|]. rewrite <- HD1, <- HD2. intros r Hr. rewrite ED by auto. split; [|split].
      + destruct HR as [_ HR]. destruct (HR r ltac:(lia)) as [_ H]. rewrite app_length in H. lia.
      + apply (nodup_DU A0 D U r); auto.
      + intros k Hk. apply in_map_iff in Hk as ([k' v] & Ek & Hk). simpl in Ek. subst k'. apply (in_D A0 D U r k v HI Hr Hk).
    - intros r c Hr Hc. unfold emat, mtrans. rewrite ED by auto.
      assert (HdD : NoDup (cols (D r))) by (apply (nodup_DU A0 D U r); auto).
      assert (Hd0 : NoDup (cols (erow A0 c))) by (apply Hw; auto).
      destruct (in_dec Nat.eq_dec r (cols (erow A0 c))) as [Hin|Hout].
      + apply in_map_iff in Hin as ([r' v] & Er & Hin). simpl in Er. subst r'.
        assert (HT : In (c, r, v) (trips (eN A0) D U)) by (apply (tinv_in A0 D U c r v HI); auto).
        unfold trips in HT. apply in_flat_map in HT as (q & Hq & HT). apply in_seq in Hq. unfold ents in HT.
        rewrite Hlow in HT by lia. simpl in HT. rewrite app_nil_r in HT. apply in_map_iff in HT as ([a b] & Eab & HT).
        simpl in Eab. inversion Eab; subst.
        rewrite (elook_in _ _ _ HdD HT). symmetry. apply (elook_in _ _ _ Hd0 Hin).
      + rewrite (elook_notin (erow A0 c)) by auto. apply elook_notin. intros Hk.
        apply in_map_iff in Hk as ([k' v] & Ek & Hk). simpl in Ek. subst k'.
        apply (in_D A0 D U r c v HI Hr) in Hk as [_ Hk]. apply Hout. apply (in_map fst) in Hk. auto.
  Qed.
End EllpackTrans.
