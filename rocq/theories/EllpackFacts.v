(** Proofs about the ellpack model. *)
From Verif Require Import Base BaseFacts Spec SpecFacts EllpackModel EllpackSpec.
From Coq Require Import Ring.

#[local] Arguments firstn {A} !n !l : simpl nomatch.
#[local] Arguments skipn {A} !n !l : simpl nomatch.

(** ** index arithmetic *)
Lemma idx_lt N M i j : i < N -> j < M -> i * M + j < N * M.
Proof. nia. Qed.

Lemma idx_inj M i j i' j' : j < M -> j' < M -> i * M + j = i' * M + j' -> i = i' /\ j = j'.
Proof. intros. assert (i = i') by nia. subst. split; auto. lia. Qed.

(** ** first-occurrence deduplication *)
Definition dd (l : list nat) : list nat :=
  fold_left (fun acc k => if existsb (Nat.eqb k) acc then acc else acc ++ [k]) l [].

Lemma existsb_eqb k l : existsb (Nat.eqb k) l = true <-> In k l.
Proof.
  rewrite existsb_exists. split.
  - intros (x & H & E). apply Nat.eqb_eq in E. subst. auto.
  - intros H. exists k. split; auto. apply Nat.eqb_refl.
Qed.

Lemma existsb_eqb_false k l : existsb (Nat.eqb k) l = false <-> ~ In k l.
Proof.
  rewrite <- existsb_eqb. destruct (existsb (Nat.eqb k) l); split; try congruence; tauto.
Qed.

Lemma dd_snoc l k : dd (l ++ [k]) = if existsb (Nat.eqb k) (dd l) then dd l else dd l ++ [k].
Proof. unfold dd. rewrite fold_left_app. reflexivity. Qed.

Lemma in_dd l k : In k (dd l) <-> In k l.
Proof.
  induction l as [|x l IH] using rev_ind; [simpl; tauto|].
  rewrite dd_snoc. rewrite in_app_iff. simpl.
  destruct (existsb (Nat.eqb x) (dd l)) eqn:E.
  - rewrite IH. split; auto. intros [H|[<-|[]]]; auto. apply IH. apply existsb_eqb; auto.
  - rewrite in_app_iff, IH. simpl. tauto.
Qed.

Lemma NoDup_dd l : NoDup (dd l).
Proof.
  induction l as [|x l IH] using rev_ind; [constructor|].
  rewrite dd_snoc. destruct (existsb (Nat.eqb x) (dd l)) eqn:E; auto.
  apply existsb_eqb_false in E. apply NoDup_app_intro; auto.
  - constructor; [simpl; tauto|constructor].
  - simpl. intros y Hy [<-|[]]; auto.
Qed.

Lemma NoDup_bounded l N : NoDup l -> (forall k, In k l -> k < N) -> length l <= N.
Proof.
  intros Hd H. rewrite <- (seq_length N 0). apply NoDup_incl_length; auto.
  intros x Hx. apply in_seq. specialize (H x Hx). lia.
Qed.

Lemma dd_length l N : (forall k, In k l -> k < N) -> length (dd l) <= N.
Proof. intros H. apply NoDup_bounded; [apply NoDup_dd|]. intros k Hk. apply H. apply in_dd; auto. Qed.

Section EllpackFacts.
  Context {F : scalar}.
  Local Open Scope K_scope.
  Add Ring Kring2 : (k_ring F).
  Local Notation ell := (ell F).

  (** ** primitive accesses *)
  Lemma e_idx_ok (A : ell) i j : shape A -> (i < eN A)%nat -> (j < eM A)%nat ->
    e_idx A i j = Ok (nth (i * eM A + j) (eidx A) 0%nat).
  Proof. intros (H1 & H2 & H3) Hi Hj. unfold e_idx, ROWMAJOR. apply rd_ok. rewrite H2. apply idx_lt; auto. Qed.

  Lemma e_val_ok (A : ell) i j : shape A -> (i < eN A)%nat -> (j < eM A)%nat ->
    e_val A i j = Ok (nth (i * eM A + j) (eval A) 0).
  Proof. intros (H1 & H2 & H3) Hi Hj. unfold e_val, ROWMAJOR. apply rd_ok. rewrite H1. apply idx_lt; auto. Qed.

  Lemma e_nnz_ok (A : ell) i : shape A -> (i < eN A)%nat -> e_nnz A i = Ok (nnz A i).
  Proof. intros (H1 & H2 & H3) Hi. unfold e_nnz. apply rd_ok. lia. Qed.

  Definition putp (A : ell) i j c v : ell :=
    mkEll (eN A) (eM A) (set_nth (eval A) (i * eM A + j) v) (set_nth (eidx A) (i * eM A + j) c) (ennz A).
  Definition wvalp (A : ell) i j v : ell :=
    mkEll (eN A) (eM A) (set_nth (eval A) (i * eM A + j) v) (eidx A) (ennz A).
  Definition widxp (A : ell) i j c : ell :=
    mkEll (eN A) (eM A) (eval A) (set_nth (eidx A) (i * eM A + j) c) (ennz A).
  Definition wnnzp (A : ell) i n : ell :=
    mkEll (eN A) (eM A) (eval A) (eidx A) (set_nth (ennz A) i n).

  Lemma e_wval_ok (A : ell) i j v : shape A -> (i < eN A)%nat -> (j < eM A)%nat ->
    e_wval A i j v = Ok (wvalp A i j v).
  Proof. intros (H1 & H2 & H3) Hi Hj. unfold e_wval, ROWMAJOR. rewrite wr_ok; auto. rewrite H1. apply idx_lt; auto. Qed.

  Lemma e_widx_ok (A : ell) i j c : shape A -> (i < eN A)%nat -> (j < eM A)%nat ->
    e_widx A i j c = Ok (widxp A i j c).
  Proof. intros (H1 & H2 & H3) Hi Hj. unfold e_widx, ROWMAJOR. rewrite wr_ok; auto. rewrite H2. apply idx_lt; auto. Qed.

  Lemma e_put_ok (A : ell) i j c v : shape A -> (i < eN A)%nat -> (j < eM A)%nat ->
    e_put A i j c v = Ok (putp A i j c v).
  Proof.
    intros H Hi Hj. unfold e_put. rewrite e_wval_ok by auto. simpl.
    rewrite e_widx_ok; auto. destruct H as (H1 & H2 & H3). unfold shape, wvalp; simpl.
    rewrite length_set_nth. auto.
  Qed.

  Lemma e_wnnz_ok (A : ell) i n : shape A -> (i < eN A)%nat -> e_wnnz A i n = Ok (wnnzp A i n).
  Proof. intros (H1 & H2 & H3) Hi. unfold e_wnnz. rewrite wr_ok; auto. lia. Qed.

  Lemma shape_putp (A : ell) i j c v : shape A -> shape (putp A i j c v).
  Proof. unfold shape, putp; simpl. rewrite !length_set_nth. auto. Qed.
  Lemma shape_wvalp (A : ell) i j v : shape A -> shape (wvalp A i j v).
  Proof. unfold shape, wvalp; simpl. rewrite !length_set_nth. auto. Qed.
  Lemma shape_widxp (A : ell) i j v : shape A -> shape (widxp A i j v).
  Proof. unfold shape, widxp; simpl. rewrite !length_set_nth. auto. Qed.
  Lemma shape_wnnzp (A : ell) i n : shape A -> shape (wnnzp A i n).
  Proof. unfold shape, wnnzp; simpl. rewrite !length_set_nth. auto. Qed.

  Lemma nnz_wnnzp (A : ell) i n i' : shape A -> (i < eN A)%nat ->
    nnz (wnnzp A i n) i' = if i' =? i then n else nnz A i'.
  Proof.
    intros (H1 & H2 & H3) Hi. unfold nnz, wnnzp; simpl. rewrite nth_set_nth.
    rewrite H3. apply Nat.ltb_lt in Hi as ->. rewrite andb_true_r. auto.
  Qed.

  (** ** slots *)
  Lemma slots_length (A : ell) i n : length (slots A i n) = n.
  Proof. unfold slots. rewrite map_length, seq_length. auto. Qed.

  Lemma slots_S (A : ell) i n : slots A i (S n) =
    slots A i n ++ [(nth (i * eM A + n) (eidx A) 0%nat, nth (i * eM A + n) (eval A) 0)].
  Proof. unfold slots. rewrite seq_S, map_app. auto. Qed.

  Lemma slots_nth (A : ell) i n j : (j < n)%nat ->
    nth j (slots A i n) (0%nat, 0) = (nth (i * eM A + j) (eidx A) 0%nat, nth (i * eM A + j) (eval A) 0).
  Proof. intros H. unfold slots. apply (nth_map_seq (fun j => (nth (i * eM A + j) (eidx A) 0%nat, nth (i * eM A + j) (eval A) 0))); auto. Qed.

  Lemma slots_ext (A B : ell) i i' n :
    (forall j, (j < n)%nat -> nth (i * eM A + j) (eidx A) 0%nat = nth (i' * eM B + j) (eidx B) 0%nat /\
                              nth (i * eM A + j) (eval A) 0 = nth (i' * eM B + j) (eval B) 0) ->
    slots A i n = slots B i' n.
  Proof.
    intros H. unfold slots. apply map_ext_in. intros j Hj. apply in_seq in Hj.
    destruct (H j) as [-> ->]; auto. lia.
  Qed.

  Lemma slots_firstn (A : ell) i n m : (n <= m)%nat -> firstn n (slots A i m) = slots A i n.
  Proof.
    intros H. unfold slots. rewrite firstn_map. f_equal.
    replace m with (n + (m - n))%nat by lia. rewrite seq_app, firstn_app, seq_length, Nat.sub_diag. simpl.
    rewrite app_nil_r. rewrite <- (seq_length n 0) at 1. apply firstn_all.
  Qed.

  Lemma slots_putp_other (A : ell) i j c v i' n :
    shape A -> (j < eM A)%nat -> i' <> i -> (n <= eM A)%nat ->
    slots (putp A i j c v) i' n = slots A i' n.
  Proof.
    intros Hs Hj Hne Hn. apply slots_ext. simpl. intros p Hp.
    assert ((i' * eM A + p)%nat <> (i * eM A + j)%nat).
    { intros E. apply idx_inj in E; try lia. }
    rewrite !nth_set_nth_neq by auto. auto.
  Qed.

  Lemma slots_putp_below (A : ell) i j c v n :
    (n <= j)%nat -> slots (putp A i j c v) i n = slots A i n.
  Proof. intros Hn. apply slots_ext. simpl. intros p Hp. rewrite !nth_set_nth_neq by lia. auto. Qed.

  Lemma slots_putp_snoc (A : ell) i j c v :
    shape A -> (i < eN A)%nat -> (j < eM A)%nat ->
    slots (putp A i j c v) i (S j) = slots A i j ++ [(c, v)].
  Proof.
    intros (H1 & H2 & H3) Hi Hj. rewrite slots_S, slots_putp_below by auto. simpl.
    assert ((i * eM A + j < eN A * eM A)%nat) by (apply idx_lt; auto).
    rewrite !nth_set_nth_eq by congruence. auto.
  Qed.

  Lemma slots_putp (A : ell) i j c v n :
    shape A -> (i < eN A)%nat -> (j < n)%nat -> (n <= eM A)%nat ->
    slots (putp A i j c v) i n = set_nth (slots A i n) j (c, v).
  Proof.
    intros (H1 & H2 & H3) Hi Hj Hn.
    apply (list_ext_nth _ _ (0%nat, 0)).
    - rewrite length_set_nth, !slots_length. auto.
    - intros p Hp. rewrite slots_length in Hp. rewrite slots_nth by auto. simpl.
      assert ((i * eM A + j < eN A * eM A)%nat) by (apply idx_lt; auto; lia).
      destruct (Nat.eq_dec p j) as [->|Hne].
      + rewrite !nth_set_nth_eq by (try rewrite slots_length; try congruence). auto.
      + rewrite !nth_set_nth_neq by lia. rewrite slots_nth by auto. auto.
  Qed.

  Lemma slots_wvalp (A : ell) i j v n :
    shape A -> (i < eN A)%nat -> (j < n)%nat -> (n <= eM A)%nat ->
    slots (wvalp A i j v) i n = set_nth (slots A i n) j (fst (nth j (slots A i n) (0%nat, 0)), v).
  Proof.
    intros (H1 & H2 & H3) Hi Hj Hn.
    apply (list_ext_nth _ _ (0%nat, 0)).
    - rewrite length_set_nth, !slots_length. auto.
    - intros p Hp. rewrite slots_length in Hp. rewrite slots_nth by auto. simpl.
      assert ((i * eM A + j < eN A * eM A)%nat) by (apply idx_lt; auto; lia).
      destruct (Nat.eq_dec p j) as [->|Hne].
      + rewrite !nth_set_nth_eq by (try rewrite slots_length; try congruence).
        rewrite slots_nth by auto. auto.
      + rewrite !nth_set_nth_neq by lia. rewrite slots_nth by auto. auto.
  Qed.

  Lemma slots_wvalp_other (A : ell) i j v i' n :
    shape A -> (j < eM A)%nat -> i' <> i -> (n <= eM A)%nat ->
    slots (wvalp A i j v) i' n = slots A i' n.
  Proof.
    intros Hs Hj Hne Hn. apply slots_ext. simpl. intros p Hp.
    assert ((i' * eM A + p)%nat <> (i * eM A + j)%nat).
    { intros E. apply idx_inj in E; try lia. }
    rewrite !nth_set_nth_neq by auto. auto.
  Qed.

  Lemma slots_widxp (A : ell) i j c n :
    shape A -> (i < eN A)%nat -> (j < n)%nat -> (n <= eM A)%nat ->
    slots (widxp A i j c) i n = set_nth (slots A i n) j (c, snd (nth j (slots A i n) (0%nat, 0))).
  Proof.
    intros (H1 & H2 & H3) Hi Hj Hn.
    apply (list_ext_nth _ _ (0%nat, 0)).
    - rewrite length_set_nth, !slots_length. auto.
    - intros p Hp. rewrite slots_length in Hp. rewrite slots_nth by auto. simpl.
      assert ((i * eM A + j < eN A * eM A)%nat) by (apply idx_lt; auto; lia).
      destruct (Nat.eq_dec p j) as [->|Hne].
      + rewrite !nth_set_nth_eq by (try rewrite slots_length; try congruence).
        rewrite slots_nth by auto. auto.
      + rewrite !nth_set_nth_neq by lia. rewrite slots_nth by auto. auto.
  Qed.

  Lemma slots_widxp_other (A : ell) i j v i' n :
    shape A -> (j < eM A)%nat -> i' <> i -> (n <= eM A)%nat ->
    slots (widxp A i j v) i' n = slots A i' n.
  Proof.
    intros Hs Hj Hne Hn. apply slots_ext. simpl. intros p Hp.
    assert ((i' * eM A + p)%nat <> (i * eM A + j)%nat).
    { intros E. apply idx_inj in E; try lia. }
    rewrite !nth_set_nth_neq by auto. auto.
  Qed.

  Lemma slots_wnnzp (A : ell) i n i' m : slots (wnnzp A i n) i' m = slots A i' m.
  Proof. reflexivity. Qed.

  Lemma erow_length (A : ell) i : length (erow A i) = nnz A i.
  Proof. apply slots_length. Qed.

  Lemma wf_nnz (A : ell) i : wf A -> (i < eN A)%nat -> (nnz A i <= eM A)%nat.
  Proof. intros [_ H] Hi. destruct (H i Hi) as [H1 _]. rewrite erow_length in H1. auto. Qed.

  (** ** loop over a row *)
  Lemma e_for_row_eq {S} (A : ell) i (body : nat -> F -> S -> res S) s :
    shape A -> (i < eN A)%nat -> (nnz A i <= eM A)%nat ->
    e_for_row A i body s = forM (erow A i) (fun kv => body (fst kv) (snd kv)) s.
  Proof.
    intros Hs Hi Hn. unfold e_for_row. rewrite e_nnz_ok by auto. simpl.
    rewrite <- (for_n_nth (erow A i) (0%nat, 0)). rewrite erow_length.
    apply for_n_ext. intros j s' Hj.
    rewrite e_idx_ok, e_val_ok by (auto; lia). simpl.
    unfold erow. rewrite slots_nth by auto. reflexivity.
  Qed.

  (** ** relation between matrices that differ in row i *)
  (** writing into row i in progress: the first slots of row i hold E *)
  Definition rowpre (A A' : ell) (i : nat) (E : list (nat * F)) : Prop :=
    same_dims A A' /\ shape A' /\ slots A' i (length E) = E /\
    (forall i', i' <> i -> nnz A' i' = nnz A i') /\
    (forall i' n, i' <> i -> (n <= eM A)%nat -> slots A' i' n = slots A i' n).

  (** row i now holds E, all other rows are unchanged *)
  Definition upd_row (A A' : ell) (i : nat) (E : list (nat * F)) : Prop :=
    same_dims A A' /\ shape A' /\ erow A' i = E /\
    (forall i', i' <> i -> nnz A' i' = nnz A i') /\
    (forall i' n, i' <> i -> (n <= eM A)%nat -> slots A' i' n = slots A i' n).

  Lemma rowpre_refl (A : ell) i : shape A -> rowpre A A i [].
  Proof. intros H. repeat split; auto; apply H. Qed.

  Lemma rowpre_wnnz_start (A : ell) i n : shape A -> (i < eN A)%nat -> rowpre A (wnnzp A i n) i [].
  Proof.
    intros H Hi. repeat split; auto; try apply (shape_wnnzp A i n H).
    intros i' Hne. rewrite nnz_wnnzp by auto. apply Nat.eqb_neq in Hne as ->. auto.
  Qed.

  Lemma rowpre_put (A A' : ell) i E c v : rowpre A A' i E -> (i < eN A)%nat -> (length E < eM A)%nat ->
    e_put A' i (length E) c v = Ok (putp A' i (length E) c v) /\
    rowpre A (putp A' i (length E) c v) i (E ++ [(c, v)]).
  Proof.
    intros ((D1 & D2) & Hs & HE & Hn & Ho) Hi Hl.
    assert (Hi' : (i < eN A')%nat) by congruence.
    assert (Hl' : (length E < eM A')%nat) by congruence.
    split; [apply e_put_ok; auto|].
    split; [split; simpl; auto|]. split; [apply shape_putp; auto|].
    split.
    { rewrite app_length. simpl. rewrite Nat.add_1_r, slots_putp_snoc by auto. rewrite HE. auto. }
    split; [intros; apply Hn; auto|].
    intros i' n Hne Hle. rewrite slots_putp_other by (auto; lia). auto.
  Qed.

  Lemma rowpre_finish (A A' : ell) i E : rowpre A A' i E -> (i < eN A)%nat ->
    e_wnnz A' i (length E) = Ok (wnnzp A' i (length E)) /\ upd_row A (wnnzp A' i (length E)) i E.
  Proof.
    intros ((D1 & D2) & Hs & HE & Hn & Ho) Hi.
    assert (Hi' : (i < eN A')%nat) by congruence.
    split; [apply e_wnnz_ok; auto|].
    split; [split; simpl; auto|]. split; [apply shape_wnnzp; auto|].
    split.
    { unfold erow. rewrite nnz_wnnzp, Nat.eqb_refl by auto. rewrite slots_wnnzp. auto. }
    split.
    - intros i' Hne. rewrite nnz_wnnzp by auto. pose proof Hne as Hne'. apply Nat.eqb_neq in Hne' as ->. auto.
    - intros. rewrite slots_wnnzp. auto.
  Qed.

  Lemma upd_row_other (A A' : ell) i E i' : upd_row A A' i E -> i' <> i -> (nnz A i' <= eM A)%nat ->
    erow A' i' = erow A i'.
  Proof. intros (D & Hs & HE & Hn & Ho) Hne Hle. unfold erow. rewrite Hn by auto. apply Ho; auto. Qed.

  Lemma upd_row_self (A A' : ell) i E : upd_row A A' i E -> erow A' i = E.
  Proof. intros (D & Hs & HE & _). auto. Qed.

  Lemma rowpre_rowpre_start (A A0 A' : ell) i E : rowpre A A0 i [] -> rowpre A0 A' i E -> rowpre A A' i E.
  Proof.
    intros ((D1 & D2) & Hs & HE & Hn & Ho) ((D1' & D2') & Hs' & HE' & Hn' & Ho').
    split; [split; congruence|]. split; auto. split; auto. split.
    - intros i' H. rewrite Hn', Hn; auto.
    - intros i' n H Hle. rewrite Ho', Ho; auto. congruence.
  Qed.

  Lemma upd_row_wf (A A' : ell) i E : wf A -> (i < eN A)%nat -> upd_row A A' i E ->
    row_ok (eN A) (eM A) E -> wf A'.
  Proof.
    intros [Hs Hw] Hi HU HE. pose proof HU as ((D1 & D2) & Hs' & _).
    split; auto. intros i' Hi'. rewrite <- D1, <- D2.
    destruct (Nat.eq_dec i' i) as [->|Hne].
    - rewrite (upd_row_self _ _ _ _ HU). auto.
    - assert (i' < eN A)%nat by congruence.
      rewrite (upd_row_other _ _ _ _ _ HU); auto.
      apply wf_nnz; auto. split; auto.
  Qed.

  (** append an entry to row i *)
  Lemma e_push_ok (A : ell) i c v : shape A -> (i < eN A)%nat -> (nnz A i < eM A)%nat ->
    exists A', e_push A i c v = Ok A' /\ upd_row A A' i (erow A i ++ [(c, v)]).
  Proof.
    intros Hs Hi Hl. unfold e_push. rewrite e_nnz_ok by auto. simpl.
    assert (HM : rowpre A A i (erow A i)).
    { split; [split; auto|]. split; auto. rewrite erow_length. repeat split; auto. }
    destruct (rowpre_put A A i (erow A i) c v) as [E1 M1]; auto.
    { rewrite erow_length; auto. }
    rewrite erow_length in E1, M1. rewrite E1. simpl.
    destruct (rowpre_finish _ _ _ _ M1) as [E2 M2]; auto.
    rewrite app_length, erow_length, Nat.add_1_r in E2. simpl in E2. rewrite E2.
    eexists; split; eauto. rewrite app_length, erow_length, Nat.add_1_r in M2. auto.
  Qed.

  (** ** work arrays *)
  Section WS.
    Context {V : Type} (zero : V) (plus : V -> V -> V).

    Definition clean (N : nat) (w : wsp V) : Prop :=
      length (wix w) = N /\ length (wjx w) = N /\ length (wx w) = N /\
      forall k, (k < N)%nat -> nth k (wix w) 0%nat = 0%nat.

    (** columns cs have been touched, x[k] = f k on them *)
    Definition accd (N : nat) (cs : list nat) (f : nat -> V) (s : wsp V * nat) : Prop :=
      let '(w, l) := s in
      length (wix w) = N /\ length (wjx w) = N /\ length (wx w) = N /\
      (forall k, In k cs -> (k < N)%nat) /\
      l = length (dd cs) /\ firstn l (wjx w) = dd cs /\
      (forall k, (k < N)%nat -> (nth k (wix w) 0%nat <> 0%nat <-> In k cs)) /\
      (forall k, In k cs -> nth k (wx w) zero = f k) /\
      (forall k, ~ In k cs -> f k = zero).

    Lemma clean_new N : clean N (ws_new zero N).
    Proof.
      unfold clean, ws_new; simpl. rewrite !repeat_length. repeat split; auto.
      intros. apply nth_repeat_any.
    Qed.

    Lemma accd_start N w : clean N w -> accd N [] (fun _ => zero) (w, 0%nat).
    Proof.
      intros (H1 & H2 & H3 & H4). unfold accd. repeat split; auto; try tauto; simpl; try tauto.
      intros Hn. rewrite H4 in Hn; auto.
    Qed.

    Lemma accd_ext N cs f g s : (forall k, f k = g k) -> accd N cs f s -> accd N cs g s.
    Proof.
      destruct s as [w l]. intros E (H1 & H2 & H3 & H4 & H5 & H6 & H7 & H8 & H9).
      unfold accd. repeat split; auto; try apply H7; auto.
      - intros; rewrite H8; auto.
      - intros; rewrite <- E; auto.
    Qed.

    Lemma firstn_set_nth {T} (a : list T) n v : (n < length a)%nat ->
      firstn (S n) (set_nth a n v) = firstn n a ++ [v].
    Proof.
      revert n; induction a as [|x a IH]; intros [|n] H; simpl in *; try lia; auto.
      f_equal. apply IH. lia.
    Qed.

    Lemma ws_mark_ok N cs f i k s : accd N cs f s -> (k < N)%nat ->
      wp (ws_mark zero i k s) (accd N (cs ++ [k]) f).
    Proof.
      destruct s as [w l]. intros (H1 & H2 & H3 & H4 & H5 & H6 & H7 & H8 & H9) Hk.
      unfold ws_mark. rewrite (rd_ok _ _ 0%nat) by lia. simpl.
      destruct (Nat.eqb_spec (nth k (wix w) 0%nat) 0) as [E|E].
      - assert (Hn : ~ In k cs) by (intros Hin; apply H7 in Hin; auto).
        assert (Hl : (l < N)%nat).
        { rewrite H5. assert (Hlen := dd_length (k :: cs) N).
          assert (length (dd (cs ++ [k])) = S (length (dd cs))).
          { rewrite dd_snoc. assert (X : existsb (Nat.eqb k) (dd cs) = false).
            { apply existsb_eqb_false. rewrite in_dd. auto. }
            rewrite X, app_length. simpl. lia. }
          assert (length (dd (cs ++ [k])) <= N)%nat.
          { apply dd_length. intros q Hq. apply in_app_iff in Hq as [Hq|[<-|[]]]; auto. }
          lia. }
        rewrite !wr_ok by lia. cbn [bind wpq].
        unfold accd. cbn [wix wjx wx]. rewrite !length_set_nth.
        assert (X : existsb (Nat.eqb k) (dd cs) = false).
        { apply existsb_eqb_false. rewrite in_dd. auto. }
        rewrite dd_snoc, X.
        split; [auto|]. split; [auto|]. split; [auto|]. split.
        { intros q Hq. apply in_app_iff in Hq as [Hq|[<-|[]]]; auto. }
        split; [rewrite app_length; simpl; lia|].
        split; [rewrite firstn_set_nth by lia; rewrite H6; auto|].
        split.
        { intros q Hq. rewrite in_app_iff. simpl. destruct (Nat.eq_dec q k) as [->|Hne].
          - rewrite nth_set_nth_eq by lia. split; auto. intros; lia.
          - rewrite nth_set_nth_neq by auto. rewrite H7 by auto. split; auto.
            intros [H|[H|[]]]; auto. congruence. }
        split.
        { intros q Hq. apply in_app_iff in Hq as [Hq|[<-|[]]].
          - rewrite nth_set_nth_neq; auto. intros ->; auto.
          - rewrite nth_set_nth_eq by lia. symmetry. apply H9. auto. }
        { intros q Hq. apply H9. intros Hin. apply Hq. apply in_app_iff; auto. }
      - assert (Hin : In k cs) by (apply H7; auto).
        simpl. unfold accd.
        assert (X : existsb (Nat.eqb k) (dd cs) = true).
        { apply existsb_eqb. rewrite in_dd. auto. }
        rewrite dd_snoc, X.
        split; [auto|]. split; [auto|]. split; [auto|]. split.
        { intros q Hq. apply in_app_iff in Hq as [Hq|[<-|[]]]; auto. }
        split; [auto|]. split; [auto|].
        split.
        { intros q Hq. rewrite in_app_iff. simpl. rewrite H7 by auto. split; auto.
          intros [H|[<-|[]]]; auto. }
        split.
        { intros q Hq. apply H8. apply in_app_iff in Hq as [Hq|[<-|[]]]; auto. }
        { intros q Hq. apply H9. intros H. apply Hq. apply in_app_iff; auto. }
    Qed.

    Lemma ws_plus_ok N cs f k v s : accd N cs f s -> In k cs ->
      wp (ws_plus plus k v s) (accd N cs (upd_fun f k (plus (f k) v))).
    Proof.
      destruct s as [w l]. intros (H1 & H2 & H3 & H4 & H5 & H6 & H7 & H8 & H9) Hk.
      assert (HkN := H4 k Hk).
      unfold ws_plus. rewrite (rd_ok _ _ zero) by lia. simpl. rewrite wr_ok by lia. simpl.
      unfold accd. simpl. rewrite length_set_nth.
      repeat split; auto; try apply H7; auto.
      - intros q Hq. unfold upd_fun. destruct (Nat.eqb_spec q k) as [->|Hne].
        + rewrite nth_set_nth_eq by lia. rewrite H8; auto.
        + rewrite nth_set_nth_neq by auto. auto.
      - intros q Hq. unfold upd_fun. destruct (Nat.eqb_spec q k) as [->|Hne]; auto. contradiction.
    Qed.

    Lemma ws_acc_ok N cs f i k v s : accd N cs f s -> (k < N)%nat ->
      wp (ws_acc zero plus i k v s) (accd N (cs ++ [k]) (upd_fun f k (plus (f k) v))).
    Proof.
      intros H Hk. unfold ws_acc. apply wp_bind.
      eapply wp_mono; [apply (ws_mark_ok N cs f); auto|].
      intros s' H'. apply ws_plus_ok; auto. apply in_app_iff. right; simpl; auto.
    Qed.

    (** what the gather loop stores *)
    Definition kept (proj : V -> F) (kc : nat -> F -> bool) (cs : list nat) (f : nat -> V) : list (nat * F) :=
      filter (fun kv => kc (fst kv) (snd kv)) (map (fun k => (k, proj (f k))) (dd cs)).

    Lemma ws_gather_ok {T} N (proj : V -> F) (kc : nat -> F -> bool) (side : nat -> V -> T -> T)
          cs f i w l (A : ell) (t : T) :
      accd N cs f (w, l) -> shape A -> (i < eN A)%nat ->
      (length (kept proj kc cs f) <= eM A)%nat ->
      wp (ws_gather zero proj kc side i l A w t)
         (fun r => let '(A', w', t', ll) := r in
            rowpre A A' i (kept proj kc cs f) /\ clean N w' /\
            t' = fold_left (fun t k => side k (f k) t) (dd cs) t /\
            ll = length (kept proj kc cs f)).
    Proof.
      intros (H1 & H2 & H3 & H4 & H5 & H6 & H7 & H8 & H9) Hs Hi Hcap.
      unfold ws_gather.
      set (sel := fun pre => filter (fun kv => kc (fst kv) (snd kv)) (map (fun k => (k, proj (f k))) pre)).
      assert (Hdd : forall j, (j < length (dd cs))%nat -> nth j (wjx w) 0%nat = nth j (dd cs) 0%nat).
      { intros j Hj. rewrite <- H6. clear -Hj H5 H6 H2.
        assert (j < l)%nat by lia. clear -H.
        revert j H. generalize (wjx w). induction l as [|l IH]; intros a j Hj; [lia|].
        destruct a as [|x a]; [destruct j; reflexivity|]. destruct j as [|j]; simpl; auto. apply IH. lia. }
      eapply wp_mono.
      - apply (for_n_inv (fun p '(A', w', t', ll) =>
          rowpre A A' i (sel (firstn p (dd cs))) /\
          ll = length (sel (firstn p (dd cs))) /\
          length (wix w') = N /\ wjx w' = wjx w /\ length (wx w') = N /\
          (forall k, (k < N)%nat -> (nth k (wix w') 0%nat <> 0%nat <-> In k (skipn p (dd cs)))) /\
          (forall k, In k (skipn p (dd cs)) -> nth k (wx w') zero = f k) /\
          t' = fold_left (fun t k => side k (f k) t) (firstn p (dd cs)) t)).
        + simpl. repeat split; auto; try apply Hs; try (intros; apply H8; apply in_dd; auto).
          * intros Hk. apply in_dd. apply H7; auto.
          * intros Hk. apply H7; auto. apply in_dd; auto.
        + intros p [[[A' w'] t'] ll] Hp (M & Hll & L1 & L2 & L3 & Hix & Hx & Ht).
          rewrite H5 in Hp.
          set (k := nth p (dd cs) 0%nat).
          assert (Hkin : In k (dd cs)) by (apply nth_In; auto).
          assert (HkN : (k < N)%nat) by (apply H4; apply in_dd; auto).
          assert (Hsk : skipn p (dd cs) = k :: skipn (S p) (dd cs)).
          { clear -Hp k. subst k. revert p Hp. induction (dd cs) as [|y L IH]; intros p Hp; simpl in *; [lia|].
            destruct p as [|p]; simpl; auto. apply IH. lia. }
          assert (Hfs : firstn (S p) (dd cs) = firstn p (dd cs) ++ [k]).
          { clear -Hp k. subst k. revert p Hp. induction (dd cs) as [|y L IH]; intros p Hp; simpl in *; [lia|].
            destruct p as [|p]; simpl; auto. f_equal. apply IH. lia. }
          assert (Hnd : NoDup (k :: skipn (S p) (dd cs))).
          { rewrite <- Hsk. pose proof (NoDup_dd cs) as HD. rewrite <- (firstn_skipn p (dd cs)) in HD.
            apply NoDup_app_inv in HD. tauto. }
          assert (HlN : (l <= N)%nat) by (rewrite H5; apply dd_length; auto).
          rewrite L2. rewrite (rd_ok _ _ 0%nat) by (rewrite H2; lia). simpl.
          rewrite Hdd by auto. fold k.
          rewrite (rd_ok _ _ zero) by (rewrite L3; auto). simpl.
          assert (Hxk : nth k (wx w') zero = f k) by (apply Hx; rewrite Hsk; left; auto).
          rewrite Hxk.
          assert (Hsel : sel (firstn (S p) (dd cs)) =
                         sel (firstn p (dd cs)) ++ (if kc k (proj (f k)) then [(k, proj (f k))] else [])).
          { rewrite Hfs. unfold sel. rewrite map_app, filter_app. simpl.
            destruct (kc k (proj (f k))); auto. }
          assert (Hpost : forall A'' ll', rowpre A A'' i (sel (firstn (S p) (dd cs))) ->
                    ll' = length (sel (firstn (S p) (dd cs))) ->
             wp (x' <- wr (wx w') k zero;; ix' <- wr (wix w') k 0%nat;;
                 Ok (A'', {| wix := ix'; wjx := wjx w; wx := x' |}, side k (f k) t', ll'))
              (fun '(A', w', t', ll) =>
               rowpre A A' i (sel (firstn (S p) (dd cs))) /\
               ll = length (sel (firstn (S p) (dd cs))) /\
               length (wix w') = N /\ wjx w' = wjx w /\ length (wx w') = N /\
               (forall k, (k < N)%nat -> (nth k (wix w') 0%nat <> 0%nat <-> In k (skipn (S p) (dd cs)))) /\
               (forall k, In k (skipn (S p) (dd cs)) -> nth k (wx w') zero = f k) /\
               t' = fold_left (fun t k => side k (f k) t) (firstn (S p) (dd cs)) t)).
          { intros A'' ll' HM Hl'. rewrite !wr_ok by lia. simpl. rewrite !length_set_nth.
            split; auto. split; auto. split; auto. split; auto. split; auto.
            inversion Hnd as [|? ? Hk1 Hk2]; subst.
            split.
            { intros q Hq. destruct (Nat.eq_dec q k) as [->|Hne].
              - rewrite nth_set_nth_eq by lia. split; [intros; lia|contradiction].
              - rewrite nth_set_nth_neq by auto. rewrite Hix by auto. rewrite Hsk. simpl. split; auto.
                intros [Hc|Hc]; auto. congruence. }
            split.
            { intros q Hq. rewrite nth_set_nth_neq by (intros ->; contradiction). apply Hx.
              rewrite Hsk. right; auto. }
            { rewrite Hfs, fold_left_app. simpl. auto. } }
          destruct (kc k (proj (f k))) eqn:Ekc.
          * subst ll. destruct (rowpre_put A A' i (sel (firstn p (dd cs))) k (proj (f k))) as [E1 M1]; auto.
            { assert (length (sel (firstn (S p) (dd cs))) <= length (kept proj kc cs f))%nat.
              { unfold kept. fold (sel (dd cs)).
                rewrite <- (firstn_skipn (S p) (dd cs)) at 2. unfold sel.
                rewrite map_app, filter_app, app_length. lia. }
              rewrite Hsel, app_length in H. simpl in H. lia. }
            rewrite E1. simpl. apply Hpost; [rewrite Hsel; auto|].
            rewrite Hsel, app_length. simpl. lia.
          * simpl. apply Hpost; rewrite Hsel, app_nil_r; auto.
      - intros [[[A' w'] t'] ll] (M & Hll & L1 & L2 & L3 & Hix & Hx & Ht).
        rewrite H5, firstn_all in *. rewrite skipn_all in *.
        split; [exact M|]. split; [|split; auto].
        unfold clean. rewrite L1, L2, L3, H2. repeat split; auto.
        intros k Hk. destruct (Nat.eq_dec (nth k (wix w') 0%nat) 0) as [E|E]; auto.
        apply Hix in E; auto. destruct E.
    Qed.
  End WS.

  (** accumulation of scalar entries *)
  Lemma accd_loop N (E : list (nat * F)) i s cs f :
    accd 0 N cs f s -> (forall k, In k (cols E) -> (k < N)%nat) ->
    wp (forM E (fun kv s => ws_acc 0 kadd i (fst kv) (snd kv) s) s)
       (accd 0 N (cs ++ cols E) (fun k => f k + esum E k)).
  Proof.
    intros H HN.
    eapply wp_mono.
    - apply (forM_inv (fun pre s => accd 0 N (cs ++ cols pre) (fun k => f k + esum pre k) s)).
      + simpl. rewrite app_nil_r. eapply accd_ext; [|exact H]. intros; simpl; ring.
      + intros pre [k v] post s' HE HP. simpl.
        eapply wp_mono; [apply (ws_acc_ok 0 kadd N (cs ++ cols pre)); eauto|].
        * apply HN. rewrite HE. unfold cols. rewrite map_app. apply in_app_iff. right; left; auto.
        * intros s'' H''. unfold cols in *. rewrite map_app. simpl. rewrite app_assoc.
          eapply accd_ext; [|exact H'']. intros q. simpl. unfold upd_fun.
          rewrite esum_app. simpl. rewrite Nat.eqb_sym.
          destruct (Nat.eqb_spec k q) as [->|]; simpl; ring.
    - simpl. auto.
  Qed.

  Lemma elook_kept kc cs f j :
    (forall k, ~ In k cs -> f k = 0) ->
    elook (kept (fun x : F => x) kc cs f) j = if kc j (f j) then f j else 0.
  Proof.
    intros Hz. unfold kept.
    assert (HD := NoDup_dd cs).
    assert (G : forall L, NoDup L ->
       elook (filter (fun kv => kc (fst kv) (snd kv)) (map (fun k => (k, f k)) L)) j =
       if existsb (Nat.eqb j) L then (if kc j (f j) then f j else 0) else 0).
    { induction L as [|k L IH]; intros HL; simpl; auto. inversion HL; subst.
      rewrite (Nat.eqb_sym j k).
      destruct (Nat.eqb_spec k j) as [->|Hne]; simpl.
      - destruct (kc j (f j)) eqn:E; simpl; [rewrite Nat.eqb_refl; auto|].
        rewrite IH by auto. apply existsb_eqb_false in H1. rewrite H1. auto.
      - destruct (kc k (f k)); simpl.
        + apply Nat.eqb_neq in Hne. rewrite Hne. auto.
        + auto. }
    rewrite G by auto.
    destruct (existsb (Nat.eqb j) (dd cs)) eqn:E; auto.
    apply existsb_eqb_false in E. rewrite in_dd in E. rewrite (Hz j E).
    destruct (kc j 0); auto.
  Qed.

  Lemma kept_cols {V} (proj : V -> F) kc cs f :
    NoDup (cols (kept proj kc cs f)) /\
    forall k, In k (cols (kept proj kc cs f)) <-> In k cs /\ kc k (proj (f k)) = true.
  Proof.
    unfold kept, cols.
    assert (E : forall L, map fst (filter (fun kv => kc (fst kv) (snd kv)) (map (fun k => (k, proj (f k))) L)) =
              filter (fun k => kc k (proj (f k))) L).
    { induction L as [|k L IH]; simpl; auto. destruct (kc k (proj (f k))); simpl; rewrite IH; auto. }
    rewrite E. split.
    - apply NoDup_filter. apply NoDup_dd.
    - intros k. rewrite filter_In, in_dd. tauto.
  Qed.

  Lemma kept_length_le {V} (proj : V -> F) kc cs f : (length (kept proj kc cs f) <= length (dd cs))%nat.
  Proof.
    unfold kept. rewrite <- (map_length (fun k => (k, proj (f k))) (dd cs)).
    generalize (map (fun k => (k, proj (f k))) (dd cs)). intros L.
    induction L as [|x L IH]; simpl; auto. destruct (kc (fst x) (snd x)); simpl; lia.
  Qed.

  (** ** generic parallel loop over rows: iteration i replaces row i *)
  Lemma par_rows {e W} (A0 : ell) (sched : list (nat * nat)) (body : nat -> ell * W -> res (ell * W))
        (w0 : nat -> W) (target : nat -> list (nat * F)) (Winv : W -> Prop) :
    shape A0 -> (forall i, (i < eN A0)%nat -> (nnz A0 i <= eM A0)%nat) ->
    NoDup (map snd sched) -> (forall i, In i (map snd sched) -> (i < eN A0)%nat) ->
    (forall t, Winv (w0 t)) ->
    (forall i, In i (map snd sched) -> length (target i) <= eM A0)%nat ->
    (forall i A w, In i (map snd sched) -> same_dims A0 A -> shape A -> erow A i = erow A0 i -> Winv w ->
       wpq e (body i (A, w)) (fun r => upd_row A (fst r) i (target i) /\ Winv (snd r))) ->
    wpq e (par_for sched body A0 w0)
       (fun r => same_dims A0 (fst r) /\ shape (fst r) /\
          (forall i, In i (map snd sched) -> erow (fst r) i = target i) /\
          (forall i, (i < eN A0)%nat -> ~ In i (map snd sched) -> erow (fst r) i = erow A0 i) /\
          (forall t, Winv (snd r t))).
  Proof.
    intros Hs Hnz Hnd Hr Hw Hcap Hbody.
    eapply wp_mono.
    - apply (par_for_inv (fun done A w =>
        same_dims A0 A /\ shape A /\
        (forall i, (i < eN A0)%nat -> ~ In i done -> erow A i = erow A0 i) /\
        (forall i, In i done -> erow A i = target i) /\
        (forall t, Winv (w t)))).
      + split; [split; auto|]. split; auto. repeat split; auto; simpl; tauto.
      + intros pre t i post A w E (D & HsA & Hun & Hdo & HwA).
        assert (Hin : In i (map snd sched)).
        { rewrite E, map_app. apply in_app_iff. right; left; auto. }
        assert (Hnot : ~ In i (map snd pre)).
        { rewrite E, map_app in Hnd. apply NoDup_app_inv in Hnd as (_ & _ & Hx).
          intros Hc. apply (Hx i Hc). left; auto. }
        eapply wp_mono; [apply Hbody; auto|].
        intros [A' w'] [HU HW]. simpl in *.
        pose proof HU as ((D1 & D2) & HsA' & HE & Hn & Ho).
        assert (D' : same_dims A0 A') by (destruct D; split; congruence).
        assert (HM : eM A = eM A0) by (destruct D; auto).
        split; [auto|]. split; [auto|]. split; [|split].
        * intros i' Hi' Hni. rewrite in_app_iff in Hni. simpl in Hni.
          assert (i' <> i) by (intros ->; apply Hni; auto).
          assert (~ In i' (map snd pre)) by tauto.
          rewrite (upd_row_other _ _ _ _ _ HU); auto.
          rewrite HM, <- erow_length, Hun, erow_length by auto. auto.
        * intros i' Hi'. apply in_app_iff in Hi'. simpl in Hi'.
          destruct (Nat.eq_dec i' i) as [->|Hne]; auto.
          destruct Hi' as [Hi'|[Hi'|[]]]; [|congruence].
          rewrite (upd_row_other _ _ _ _ _ HU); auto.
          rewrite HM, <- erow_length, Hdo by auto. apply Hcap.
          rewrite E, map_app. apply in_app_iff; auto.
        * intros t'. unfold upd_fun. destruct (t' =? t); auto.
    - simpl. intros r (D & HsA & Hun & Hdo & HwA). auto.
  Qed.
End EllpackFacts.
#[global] Arguments accd : simpl never.
