(** Proofs about ellpack getters, setters, constructors, import and export. *)
From Verif Require Import Base BaseFacts Spec SpecFacts EllpackModel EllpackSpec EllpackFacts.
From Coq Require Import Ring.
#[local] Arguments firstn {A} !n !l : simpl nomatch.

Section EllpackOps.
  Context {F : scalar}.
  Local Open Scope K_scope.
  Add Ring Kring3 : (k_ring F).
  Local Notation ell := (ell F).

  (** ** lookups *)
  Lemma e_find_ok (A : ell) i j : shape A -> (i < eN A)%nat -> (nnz A i <= eM A)%nat ->
    exists f, e_find A i j = Ok f /\
      match f with
      | None => ~ In j (cols (erow A i))
      | Some l => (l < nnz A i)%nat /\ fst (nth l (erow A i) (0%nat, 0)) = j /\
                  snd (nth l (erow A i) (0%nat, 0)) = elook (erow A i) j
      end.
  Proof.
    intros Hs Hi Hn. apply wp_ok. unfold e_find. rewrite e_nnz_ok by auto. cbn [bind].
    assert (HL := erow_length A i).
    eapply wp_mono.
    - apply (for_n_inv (fun p f =>
        match f with
        | None => ~ In j (cols (firstn p (erow A i)))
        | Some l => (l < nnz A i)%nat /\ fst (nth l (erow A i) (0%nat, 0)) = j /\
                  snd (nth l (erow A i) (0%nat, 0)) = elook (erow A i) j
        end)).
      + simpl. tauto.
      + intros p [l|] Hp HP; simpl; auto.
        rewrite e_idx_ok by (auto; lia). simpl.
        assert (E : nth (i * eM A + p) (eidx A) 0%nat = fst (nth p (erow A i) (0%nat, 0))).
        { unfold erow. rewrite slots_nth by auto. auto. }
        rewrite E.
        destruct (Nat.eqb_spec (fst (nth p (erow A i) (0%nat, 0))) j) as [Hj|Hj].
        * split; auto. split; auto.
          rewrite (nth_split_eq (erow A i) p (0%nat, 0)) at 2 by lia.
          clear E. revert Hj HP. generalize (nth p (erow A i) (0%nat, 0)). intros [k v]; simpl. intros <-.
          generalize (skipn (S p) (erow A i)). generalize (firstn p (erow A i)).
          induction l as [|[k' v'] l IH]; simpl; intros l0 HP.
          -- rewrite Nat.eqb_refl; auto.
          -- destruct (Nat.eqb_spec k' k); [exfalso; auto|]. auto.
        * rewrite (firstn_S_nth _ _ (0%nat, 0)) by lia.
          unfold cols. rewrite map_app, in_app_iff. simpl. tauto.
    - simpl. intros [l|] H; auto. rewrite <- HL, firstn_all in H. auto.
  Qed.

  Lemma ell_get_element_ok (A : ell) i j : shape A -> (i < eN A)%nat -> (j < eN A)%nat ->
    (nnz A i <= eM A)%nat -> ell_get_element A i j = Ok (emat A i j).
  Proof.
    intros Hs Hi Hj Hn. unfold ell_get_element.
    apply Nat.leb_gt in Hi as Hi'. apply Nat.leb_gt in Hj as Hj'. rewrite Hi', Hj'.
    destruct (e_find_ok A i j Hs Hi Hn) as (f & -> & Hf). simpl.
    destruct f as [l|].
    - destruct Hf as (H1 & H2 & H3). rewrite e_val_ok by (auto; lia). f_equal.
      unfold emat. rewrite <- H3. unfold erow. rewrite slots_nth by auto. auto.
    - unfold emat. rewrite elook_notin; auto.
  Qed.

  Lemma ell_get_element_err (A : ell) i j : (eN A <= i \/ eN A <= j)%nat -> ell_get_element A i j = Err.
  Proof.
    unfold ell_get_element. intros [H|H]; apply Nat.leb_le in H; rewrite H; auto.
    destruct (eN A <=? i); auto.
  Qed.

  (** writing all entries of a row into a vector *)
  Lemma scatter_row (E : list (nat * F)) N (row : list F) :
    length row = N -> NoDup (cols E) -> (forall k, In k (cols E) -> (k < N)%nat) ->
    wp (forM E (fun kv row => wr row (fst kv) (snd kv)) row)
       (fun r => length r = N /\ forall j, (j < N)%nat ->
          nth j r 0 = if existsb (Nat.eqb j) (cols E) then elook E j else nth j row 0).
  Proof.
    intros HL Hd Hr. revert row HL Hd Hr. induction E as [|[k v] E IH]; intros row HL Hd Hr.
    - simpl. auto.
    - simpl. inversion Hd; subst. assert (k < length row)%nat by (apply Hr; left; auto).
      rewrite wr_ok by auto. cbn [bind].
      eapply wp_mono; [apply IH; auto|].
      + rewrite length_set_nth; auto.
      + intros; apply Hr; right; auto.
      + simpl. intros r [Hl Hn]. split; auto. intros j Hj. rewrite Hn by auto.
        rewrite (Nat.eqb_sym j k). destruct (Nat.eqb_spec k j) as [->|Hne]; simpl.
        * apply existsb_eqb_false in H1. rewrite H1. rewrite nth_set_nth_eq by auto. auto.
        * destruct (existsb (Nat.eqb j) (cols E)); auto. rewrite nth_set_nth_neq; auto.
  Qed.

  Lemma elook_existsb (E : list (nat * F)) j :
    (if existsb (Nat.eqb j) (cols E) then elook E j else 0) = elook E j.
  Proof.
    destruct (existsb (Nat.eqb j) (cols E)) eqn:X; auto.
    apply existsb_eqb_false in X. symmetry. apply elook_notin. auto.
  Qed.

  Lemma ell_get_row_ok (A : ell) i : wf A -> (i < eN A)%nat ->
    ell_get_row A i = Ok (map (emat A i) (seq 0 (eN A))).
  Proof.
    intros Hw Hi. pose proof Hw as [Hs Hr]. destruct (Hr i Hi) as (H1 & H2 & H3).
    apply wp_eq. unfold ell_get_row. rewrite e_for_row_eq by (auto; apply wf_nnz; auto).
    eapply wp_mono; [apply (scatter_row (erow A i) (eN A)); auto; apply repeat_length|].
    simpl. intros r [Hl Hn]. apply (list_ext_nth _ _ 0).
    - rewrite map_length, seq_length. auto.
    - intros j Hj. rewrite Hl in Hj. rewrite Hn by auto. rewrite nth_map_seq by auto.
      rewrite nth_repeat_any, elook_existsb. auto.
  Qed.

  Lemma ell_get_diagonal_ok (A : ell) : wf A ->
    ell_get_diagonal A = Ok (map (fun i => emat A i i) (seq 0 (eN A))).
  Proof.
    intros Hw. pose proof Hw as [Hs Hr]. apply wp_eq. unfold ell_get_diagonal.
    eapply wp_mono.
    - apply (for_n_inv (fun p d => length d = eN A /\ forall i, (i < p)%nat -> nth i d 0 = emat A i i)).
      + rewrite repeat_length. split; auto. intros; lia.
      + intros i d Hi [Hl Hd]. rewrite wr_ok by lia. cbn [bind].
        destruct (Hr i Hi) as (H1 & H2 & H3).
        rewrite e_for_row_eq by (auto; apply wf_nnz; auto).
        eapply wp_mono.
        * apply (forM_inv (fun pre d' => length d' = eN A /\ (forall q, (q < i)%nat -> nth q d' 0 = emat A q q)
             /\ nth i d' 0 = elook (rev pre) i)).
          -- rewrite length_set_nth. split; auto. split.
             ++ intros q Hq. rewrite nth_set_nth_neq by lia. auto.
             ++ rewrite nth_set_nth_eq by lia. auto.
          -- intros pre [k v] post d' E (L & D1 & D2). simpl. rewrite rev_app_distr. simpl.
             destruct (Nat.eqb_spec k i) as [->|Hne].
             ++ rewrite wr_ok by lia. simpl. rewrite length_set_nth. split; auto. split.
                ** intros q Hq. rewrite nth_set_nth_neq by lia. auto.
                ** rewrite nth_set_nth_eq by lia. auto.
             ++ simpl. auto.
        * simpl. intros d' (L & D1 & D2). split; auto. intros q Hq.
          destruct (Nat.eq_dec q i) as [->|]; [|apply D1; lia].
          rewrite D2. unfold emat. symmetry. apply elook_perm; auto. apply Permutation_rev.
    - simpl. intros d [Hl Hd]. apply (list_ext_nth _ _ 0).
      + rewrite map_length, seq_length; auto.
      + intros j Hj. rewrite Hl in Hj. rewrite Hd by auto. rewrite nth_map_seq; auto.
  Qed.

  (** ** collecting entries into row i *)
  Lemma collect_ok (kc : nat -> F -> bool) (L : list (nat * F)) (A : ell) i :
    shape A -> (i < eN A)%nat ->
    (length (filter (fun kv => kc (fst kv) (snd kv)) L) <= eM A)%nat ->
    wp (forM L (fun kv '(A, ll) =>
          if kc (fst kv) (snd kv) then A1 <- e_put A i ll (fst kv) (snd kv) ;; Ok (A1, S ll) else Ok (A, ll)) (A, 0%nat))
       (fun r => rowpre A (fst r) i (filter (fun kv => kc (fst kv) (snd kv)) L) /\
                 snd r = length (filter (fun kv => kc (fst kv) (snd kv)) L)).
  Proof.
    intros Hs Hi Hc.
    apply (forM_inv (fun pre r => rowpre A (fst r) i (filter (fun kv => kc (fst kv) (snd kv)) pre) /\
                 snd r = length (filter (fun kv => kc (fst kv) (snd kv)) pre))).
    - simpl. split; auto. apply rowpre_refl; auto.
    - intros pre [k v] post [A' ll] E [HP Hl]. simpl in *. rewrite filter_app. simpl.
      destruct (kc k v) eqn:Ek.
      + subst ll. destruct (rowpre_put A A' i _ k v HP) as [E1 E2]; auto.
        { rewrite E, filter_app, app_length in Hc. simpl in Hc. rewrite Ek in Hc. simpl in Hc. lia. }
        rewrite E1. simpl. rewrite app_length. simpl. split; auto. lia.
      + simpl. rewrite app_nil_r. auto.
  Qed.

  (** entries of a dense row that pass the test *)
  Definition drow (keep : F -> bool) (N : nat) (f : nat -> F) : list (nat * F) :=
    filter (fun kv => keep (snd kv)) (map (fun j => (j, f j)) (seq 0 N)).

  Lemma drow_length keep N f : length (drow keep N f) = count N (fun j => keep (f j)).
  Proof.
    unfold drow, count. induction (seq 0 N) as [|k l IH]; simpl; auto.
    destruct (keep (f k)); simpl; auto.
  Qed.

  Lemma cols_filter_sub (p : nat * F -> bool) (E : list (nat * F)) :
    NoDup (cols E) -> NoDup (cols (filter p E)) /\ forall k, In k (cols (filter p E)) -> In k (cols E).
  Proof.
    unfold cols. induction E as [|x E IH]; simpl; intros Hd; [split; auto; constructor|].
    inversion Hd; subst. destruct (IH H2) as [I1 I2]. destruct (p x); simpl; split; auto.
    - constructor; auto.
    - intros k [H|H]; auto.
  Qed.

  Lemma cols_map_pair (f : nat -> F) l : cols (map (fun j => (j, f j)) l) = l.
  Proof. unfold cols. rewrite map_map. simpl. apply map_id. Qed.

  Lemma drow_ok keep N M f : (count N (fun j => keep (f j)) <= M)%nat -> row_ok N M (drow keep N f).
  Proof.
    intros H. unfold row_ok. rewrite drow_length. split; auto.
    destruct (cols_filter_sub (fun kv => keep (snd kv)) (map (fun j => (j, f j)) (seq 0 N))) as [H1 H2].
    { rewrite cols_map_pair. apply seq_NoDup. }
    split; auto. intros k Hk. apply H2 in Hk. rewrite cols_map_pair in Hk. apply in_seq in Hk. lia.
  Qed.

  Lemma elook_filter (keep : F -> bool) (E : list (nat * F)) j : NoDup (cols E) ->
    elook (filter (fun kv => keep (snd kv)) E) j = cut keep (elook E j).
  Proof.
    induction E as [|[k v] E IH]; simpl; intros Hd.
    - unfold cut. destruct (keep 0); auto.
    - inversion Hd; subst. destruct (keep v) eqn:Ek; simpl; destruct (Nat.eqb_spec k j) as [->|Hne]; auto.
      + unfold cut. rewrite Ek. auto.
      + rewrite IH by auto. rewrite elook_notin by auto. unfold cut. rewrite Ek. destruct (keep 0); auto.
  Qed.

  Lemma elook_seq (f : nat -> F) N j : elook (map (fun j => (j, f j)) (seq 0 N)) j = if j <? N then f j else 0.
  Proof.
    destruct (Nat.ltb_spec j N).
    - apply elook_in; [rewrite cols_map_pair; apply seq_NoDup|].
      apply in_map_iff. exists j. split; auto. apply in_seq; lia.
    - apply elook_notin. rewrite cols_map_pair. rewrite in_seq. lia.
  Qed.

  Lemma elook_drow keep N f j : (j < N)%nat -> elook (drow keep N f) j = cut keep (f j).
  Proof.
    intros H. unfold drow. rewrite elook_filter by (rewrite cols_map_pair; apply seq_NoDup).
    rewrite elook_seq. apply Nat.ltb_lt in H as ->. auto.
  Qed.

  Lemma ell_set_row_ok (keep : F -> bool) (A : ell) i (row : list F) : shape A -> (i < eN A)%nat -> length row = eN A ->
    (count (eN A) (fun j => keep (nth j row k0)) <= eM A)%nat ->
    exists A', ell_set_row keep A i row = Ok A' /\ upd_row A A' i (drow keep (eN A) (fun j => nth j row 0)).
  Proof.
    intros Hs Hi HL Hc. apply wp_ok. unfold ell_set_row.
    assert (E : for_n (eN A) (fun j '(A, ll) =>
        r <- rd row j ;;
        if keep r then A1 <- e_put A i ll j r ;; Ok (A1, S ll) else Ok (A, ll)) (A, 0%nat) =
      forM (map (fun j => (j, nth j row 0)) (seq 0 (eN A))) (fun kv '(A, ll) =>
          if keep (snd kv) then A1 <- e_put A i ll (fst kv) (snd kv) ;; Ok (A1, S ll) else Ok (A, ll)) (A, 0%nat)).
    { rewrite forM_map. apply forM_ext. intros j [A' ll] Hj. apply in_seq in Hj.
      rewrite (rd_ok _ _ 0) by lia. reflexivity. }
    rewrite E. clear E. apply wp_bind.
    eapply wp_mono; [apply (collect_ok (fun _ x => keep x)); auto|].
    - fold (drow keep (eN A) (fun j => nth j row 0)). rewrite drow_length. auto.
    - intros [A' ll] [HP Hll]. simpl in *.
      destruct (rowpre_finish _ _ _ _ HP Hi) as [E1 E2]. rewrite Hll, E1. simpl. auto.
  Qed.

  (** ** constructors *)
  Lemma shape_noinit N M gv gi : @shape F (ell_noinit N M gv gi).
  Proof. unfold shape, ell_noinit; simpl. rewrite !map_length, !seq_length, repeat_length. auto. Qed.

  Lemma nnz_noinit N M gv gi i : @nnz F (ell_noinit N M gv gi) i = 0%nat.
  Proof. unfold nnz, ell_noinit; simpl. apply nth_repeat_any. Qed.

  Lemma erow_noinit N M gv gi i : @erow F (ell_noinit N M gv gi) i = [].
  Proof. unfold erow. rewrite nnz_noinit. auto. Qed.

  Lemma row_ok_nil N M : @row_ok F N M [].
  Proof. repeat split; simpl; try lia; try tauto; constructor. Qed.

  Lemma wf_noinit N M gv gi : @wf F (ell_noinit N M gv gi).
  Proof. split; [apply shape_noinit|]. intros i Hi. rewrite erow_noinit. apply row_ok_nil. Qed.

  Lemma ell_zero_ok N M : (0 < M)%nat ->
    exists A : ell, ell_zero N M = Ok A /\ eN A = N /\ eM A = M /\ shape A /\ (forall i, erow A i = []).
  Proof.
    intros H. unfold ell_zero. destruct (Nat.eqb_spec M 0); [lia|].
    eexists; split; [reflexivity|]. simpl. repeat split; simpl; rewrite ?repeat_length; auto.
    intros i. unfold erow, nnz; simpl. rewrite nth_repeat_any. auto.
  Qed.

  Lemma ell_zero_wf N M : (0 < M)%nat ->
    exists A : ell, ell_zero N M = Ok A /\ eN A = N /\ eM A = M /\ wf A /\ (forall i, erow A i = []).
  Proof.
    intros H. destruct (ell_zero_ok N M H) as (A & E & H1 & H2 & H3 & H4).
    exists A. repeat split; auto; try apply H3; rewrite H4; simpl; try constructor; try lia; tauto.
  Qed.

  Lemma wf_rows (A0 A : ell) target : same_dims A0 A -> shape A ->
    (forall i, (i < eN A0)%nat -> erow A i = target i) ->
    (forall i, (i < eN A0)%nat -> row_ok (eN A0) (eM A0) (target i)) -> wf A.
  Proof.
    intros [D1 D2] Hs Hr Ht. split; auto. rewrite <- D1, <- D2. intros i Hi. rewrite Hr by auto. auto.
  Qed.

  Lemma perm_in (l : list nat) N i : Permutation l (seq 0 N) -> (In i l <-> (i < N)%nat).
  Proof.
    intros H. split; intros Hi.
    - apply (Permutation_in _ H) in Hi. apply in_seq in Hi. lia.
    - apply (Permutation_in _ (Permutation_sym H)). apply in_seq. lia.
  Qed.

  Lemma perm_nodup (l : list nat) N : Permutation l (seq 0 N) -> NoDup l.
  Proof. intros H. apply (Permutation_NoDup (Permutation_sym H)). apply seq_NoDup. Qed.

  (** parallel loop over all rows *)
  Lemma par_all {e W} (A0 : ell) sched (body : nat -> ell * W -> res (ell * W)) w0 target (Winv : W -> Prop) :
    shape A0 -> (forall i, (i < eN A0)%nat -> (nnz A0 i <= eM A0)%nat) ->
    Permutation (map snd sched) (seq 0 (eN A0)) ->
    (forall t, Winv (w0 t)) ->
    (forall i, (i < eN A0)%nat -> (length (target i) <= eM A0)%nat) ->
    (forall i A w, (i < eN A0)%nat -> same_dims A0 A -> shape A -> erow A i = erow A0 i -> Winv w ->
       wpq e (body i (A, w)) (fun r => upd_row A (fst r) i (target i) /\ Winv (snd r))) ->
    wpq e (par_for sched body A0 w0)
       (fun r => same_dims A0 (fst r) /\ shape (fst r) /\
          (forall i, (i < eN A0)%nat -> erow (fst r) i = target i) /\ (forall t, Winv (snd r t))).
  Proof.
    intros Hs Hn HP Hw Hc Hb.
    eapply wp_mono.
    - apply (par_rows A0 sched body w0 target Winv); auto.
      + eapply perm_nodup; eauto.
      + intros i Hi. apply (perm_in _ _ _ HP); auto.
      + intros i Hi. apply Hc. apply (perm_in _ _ _ HP); auto.
      + intros i A w Hi. apply Hb. apply (perm_in _ _ _ HP); auto.
    - intros r (D & S & Hr & _ & HW). repeat split; auto; try apply D; try apply S.
      intros i Hi. apply Hr. apply (perm_in _ _ _ HP); auto.
  Qed.

  (** pushes of the entries of a list *)
  Lemma push_loop (kc : nat -> F -> bool) (L : list (nat * F)) (A : ell) i :
    shape A -> (i < eN A)%nat ->
    (nnz A i + length (filter (fun kv => kc (fst kv) (snd kv)) L) <= eM A)%nat ->
    wp (forM L (fun kv A => if kc (fst kv) (snd kv) then e_push A i (fst kv) (snd kv) else Ok A) A)
       (fun A' => upd_row A A' i (erow A i ++ filter (fun kv => kc (fst kv) (snd kv)) L)).
  Proof.
    intros Hs Hi Hc.
    apply (forM_inv (fun pre A' => upd_row A A' i (erow A i ++ filter (fun kv => kc (fst kv) (snd kv)) pre))).
    - simpl. rewrite app_nil_r. repeat split; auto; apply Hs.
    - intros pre [k v] post A' E HU. simpl. rewrite filter_app. simpl.
      pose proof HU as ((D1 & D2) & Hs' & HE & Hn & Ho).
      destruct (kc k v) eqn:Ek.
      + destruct (e_push_ok A' i k v) as (A'' & E1 & HU'); auto.
        { congruence. }
        { rewrite <- erow_length, HE, app_length, erow_length, <- D2.
          rewrite E, filter_app, app_length in Hc. simpl in Hc. rewrite Ek in Hc. simpl in Hc. lia. }
        rewrite E1. simpl.
        destruct HU' as ((D1' & D2') & Hs'' & HE' & Hn' & Ho').
        split; [split; congruence|]. split; auto. split; [rewrite HE', HE, app_assoc; auto|]. split.
        * intros i' Hne. rewrite Hn', Hn; auto.
        * intros i' n Hne Hle. rewrite Ho', Ho; auto. congruence.
      + simpl. rewrite app_nil_r. auto.
  Qed.

  Lemma upd_row_start (A A0 A' : ell) i E E0 : upd_row A A0 i E0 -> upd_row A0 A' i E -> upd_row A A' i E.
  Proof.
    intros ((D1 & D2) & Hs & HE & Hn & Ho) ((D1' & D2') & Hs' & HE' & Hn' & Ho').
    split; [split; congruence|]. split; auto. split; auto. split.
    - intros i' H. rewrite Hn', Hn; auto.
    - intros i' n H Hle. rewrite Ho', Ho; auto. congruence.
  Qed.

  Lemma wnnz_upd (A : ell) i n : shape A -> (i < eN A)%nat -> upd_row A (wnnzp A i n) i (slots A i n).
  Proof.
    intros Hs Hi. split; [split; auto|]. split; [apply shape_wnnzp; auto|]. split.
    - unfold erow. rewrite nnz_wnnzp, Nat.eqb_refl by auto. auto.
    - split; auto. intros i' Hne. rewrite nnz_wnnzp by auto. apply Nat.eqb_neq in Hne as ->. auto.
  Qed.

  (** ** import / export *)
  Lemma dense_at_ok o N (D : list F) i j : length D = (N * N)%nat -> (i < N)%nat -> (j < N)%nat ->
    dense_at o N D i j = Ok (dmat o N D i j).
  Proof.
    intros HL Hi Hj. unfold dense_at, dmat. destruct o; unfold ROWMAJOR, COLMAJOR; apply rd_ok; rewrite HL; nia.
  Qed.

  Lemma ell_import_ok o N M (keep : F -> bool) (D : list F) sched :
    (0 < M)%nat -> length D = (N * N)%nat -> Permutation (map snd sched) (seq 0 N) ->
    fits N M keep (dmat o N D) ->
    exists A, ell_import o N M keep D sched = Ok A /\ eN A = N /\ eM A = M /\ wf A /\
      (forall i, (i < N)%nat -> erow A i = drow keep N (dmat o N D i)).
  Proof.
    intros HM HL HP Hf. apply wp_ok. unfold ell_import.
    destruct (ell_zero_ok N M HM) as (A0 & E0 & HN0 & HM0 & Hs0 & Hr0). rewrite E0. cbn [bind].
    apply wp_bind.
    eapply wp_mono.
    - apply (par_all A0 sched _ _ (fun i => drow keep N (dmat o N D i)) (fun _ => True)); auto.
      + intros i _. rewrite <- erow_length, Hr0. simpl. lia.
      + rewrite HN0. auto.
      + intros i Hi. rewrite drow_length, HM0. apply Hf. lia.
      + intros i A w Hi [D1 D2] Hs HE _.
        rewrite e_wnnz_ok by (auto; lia). cbn [bind].
        assert (HU := wnnz_upd A i 0 Hs ltac:(lia)).
        pose proof HU as ((DU1 & DU2) & HUs & HUe & _).
        assert (EQ : for_n N (fun j A => a <- dense_at o N D i j ;; if keep a then e_push A i j a else Ok A) (wnnzp A i 0)
          = forM (map (fun j => (j, dmat o N D i j)) (seq 0 N))
              (fun kv A => if keep (snd kv) then e_push A i (fst kv) (snd kv) else Ok A) (wnnzp A i 0)).
        { rewrite forM_map. apply forM_ext. intros j A' Hj. apply in_seq in Hj.
          rewrite dense_at_ok by (auto; lia). reflexivity. }
        rewrite EQ. apply wp_bind.
        eapply wp_mono; [apply (push_loop (fun _ x => keep x)); simpl; auto; try lia|].
        * rewrite nnz_wnnzp, Nat.eqb_refl by (auto; lia).
          fold (drow keep N (dmat o N D i)). rewrite drow_length. simpl.
          specialize (Hf i ltac:(lia)). lia.
        * intros A' HU'. simpl. split; auto. rewrite HUe in HU'. eapply upd_row_start; eauto.
    - intros [A w] ((D1 & D2) & Hs & Hr & _). simpl in *.
      split; [congruence|]. split; [congruence|]. split; [|intros; apply Hr; lia].
      apply (wf_rows A0 A (fun i => drow keep N (dmat o N D i))); auto.
      + split; auto.
      + intros i Hi. rewrite HN0, HM0. apply drow_ok. apply Hf. lia.
  Qed.

  Lemma emat_drow (A : ell) N keep f i j : erow A i = drow keep N f -> (j < N)%nat -> emat A i j = cut keep (f j).
  Proof. intros H Hj. unfold emat. rewrite H. apply elook_drow; auto. Qed.

  (** position of element (i,j) in a dense array *)
  Definition dpos (o : dorder) (N i j : nat) : nat :=
    match o with row_major => (i * N + j)%nat | col_major => (i + j * N)%nat end.

  Lemma dpos_lt o N i j : (i < N -> j < N -> dpos o N i j < N * N)%nat.
  Proof. destruct o; simpl; nia. Qed.

  Lemma dpos_inj o N i j i' j' : (i < N -> j < N -> i' < N -> j' < N -> dpos o N i j = dpos o N i' j' -> i = i' /\ j = j')%nat.
  Proof.
    destruct o; simpl; intros.
    - eapply idx_inj; eauto.
    - destruct (idx_inj N j i j' i'); auto. lia.
  Qed.

  Lemma ell_export_ok o (A : ell) sched : wf A -> Permutation (map snd sched) (seq 0 (eN A)) ->
    exists D, ell_export o A sched = Ok D /\ length D = (eN A * eN A)%nat /\
      meq (eN A) (dmat o (eN A) D) (emat A).
  Proof.
    intros Hw HP. pose proof Hw as [Hs Hr]. apply wp_ok. unfold ell_export. apply wp_bind.
    set (N := eN A) in *.
    eapply wp_mono.
    - apply (par_for_inv (fun done D w => length D = (N * N)%nat /\
        (forall i j, (i < N)%nat -> (j < N)%nat -> nth (dpos o N i j) D 0 = if existsb (Nat.eqb i) done then emat A i j else 0))).
      + rewrite repeat_length. split; auto. intros. rewrite nth_repeat_any. auto.
      + intros pre t i post D w E [HL HD].
        assert (Hin : In i (map snd sched)) by (rewrite E, map_app; apply in_app_iff; right; left; auto).
        assert (Hnot : ~ In i (map snd pre)).
        { pose proof (perm_nodup _ _ HP) as Hnd. rewrite E, map_app in Hnd.
          apply NoDup_app_inv in Hnd as (_ & _ & Hx). intros Hc. apply (Hx i Hc). left; auto. }
        assert (Hi : (i < N)%nat) by (apply (perm_in _ _ _ HP); auto).
        destruct (Hr i Hi) as (R1 & R2 & R3).
        rewrite e_for_row_eq by (auto; apply wf_nnz; auto). apply wp_bind.
        eapply wp_mono.
        * apply (forM_inv (fun pr D' => length D' = (N * N)%nat /\
            (forall i' j, (i' < N)%nat -> (j < N)%nat -> i' <> i -> nth (dpos o N i' j) D' 0 = nth (dpos o N i' j) D 0) /\
            (forall j, (j < N)%nat -> nth (dpos o N i j) D' 0 = elook (rev pr) j))).
          -- split; auto. split; auto. intros j Hj. rewrite HD by auto.
             apply existsb_eqb_false in Hnot. rewrite Hnot. auto.
          -- intros pr [k v] po D' E' (L' & O' & I'). simpl.
             assert (Hk : (k < N)%nat).
             { apply R3. rewrite E'. unfold cols. rewrite map_app. apply in_app_iff. right; left; auto. }
             fold (dpos o N i k).
             assert (Hpos := dpos_lt o N i k Hi Hk).
             replace (match o with row_major => ROWMAJOR i k N N | col_major => COLMAJOR i k N N end)
               with (dpos o N i k) by (destruct o; reflexivity).
             rewrite wr_ok by lia. simpl. rewrite length_set_nth. split; auto. split.
             ++ intros i' j Hi' Hj Hne. rewrite nth_set_nth_neq; auto.
                intros X. apply dpos_inj in X; tauto.
             ++ intros j Hj. rewrite rev_app_distr. simpl. destruct (Nat.eqb_spec k j) as [->|Hne].
                ** rewrite nth_set_nth_eq by lia. auto.
                ** rewrite nth_set_nth_neq; auto. intros X. apply dpos_inj in X; auto. destruct X; congruence.
        * simpl. intros D' (L' & O' & I'). split; auto. intros i' j Hi' Hj.
          rewrite existsb_app. simpl. destruct (Nat.eqb_spec i' i) as [->|Hne]; simpl.
          -- rewrite orb_true_r. rewrite I' by auto. unfold emat. symmetry. apply elook_perm; auto. apply Permutation_rev.
          -- rewrite orb_false_r. rewrite O' by auto. auto.
    - intros [D w] [HL HD]. simpl in *. split; auto. intros i j Hi Hj.
      unfold dmat. fold (dpos o N i j). rewrite HD by auto.
      assert (X : existsb (Nat.eqb i) (map snd sched) = true) by (apply existsb_eqb; apply (perm_in _ _ _ HP); auto).
      rewrite X. auto.
  Qed.

  (** ** set_element *)
  Lemma ell_set_element_new_ok (A : ell) i j v : shape A -> (i < eN A)%nat -> (nnz A i < eM A)%nat ->
    exists A', ell_set_element_new A i j v = Ok A' /\ upd_row A A' i (erow A i ++ [(j, v)]).
  Proof. apply e_push_ok. Qed.

  Lemma wvalp_upd (A : ell) i l v : shape A -> (i < eN A)%nat -> (l < nnz A i)%nat -> (nnz A i <= eM A)%nat ->
    upd_row A (wvalp A i l v) i (set_nth (erow A i) l (fst (nth l (erow A i) (0%nat, 0)), v)).
  Proof.
    intros Hs Hi Hl Hn. split; [split; auto|]. split; [apply shape_wvalp; auto|]. split; [|split; auto].
    - unfold erow. replace (nnz (wvalp A i l v) i) with (nnz A i) by auto.
      apply slots_wvalp; auto.
    - intros. apply slots_wvalp_other; auto. lia.
  Qed.

  Lemma cols_set_nth (E : list (nat * F)) l v : cols (set_nth E l (fst (nth l E (0%nat, 0)), v)) = cols E.
  Proof.
    unfold cols. revert l. induction E as [|[k u] E IH]; intros [|l]; simpl; auto. rewrite IH. auto.
  Qed.

  Lemma elook_set_nth (E : list (nat * F)) l v j : NoDup (cols E) -> (l < length E)%nat ->
    elook (set_nth E l (fst (nth l E (0%nat, 0)), v)) j =
    if j =? fst (nth l E (0%nat, 0)) then v else elook E j.
  Proof.
    revert l. induction E as [|[k u] E IH]; intros [|l] Hd Hl; simpl in *; try lia.
    - rewrite (Nat.eqb_sym k j). destruct (j =? k); auto.
    - inversion Hd; subst. rewrite IH by (auto; lia).
      destruct (Nat.eqb_spec k j) as [->|Hne]; auto.
      destruct (Nat.eqb_spec j (fst (nth l E (0%nat, 0)))) as [->|]; auto.
      exfalso. apply H1. unfold cols. change 0%nat with (fst (0%nat, @k0 F)) at 1.
      apply in_map. apply nth_In. lia.
  Qed.

  Lemma elook_app_new (E : list (nat * F)) j v q : ~ In j (cols E) ->
    elook (E ++ [(j, v)]) q = if q =? j then v else elook E q.
  Proof.
    intros H. induction E as [|[k u] E IH]; simpl.
    - rewrite Nat.eqb_sym. auto.
    - simpl in H. destruct (Nat.eqb_spec k q) as [->|Hne].
      + destruct (Nat.eqb_spec q j) as [->|]; auto. exfalso; auto.
      + apply IH. tauto.
  Qed.

  Lemma row_ok_snoc N M (E : list (nat * F)) j v : row_ok N M E -> (length E < M)%nat -> (j < N)%nat -> ~ In j (cols E) ->
    row_ok N M (E ++ [(j, v)]).
  Proof.
    intros (H1 & H2 & H3) Hl Hj Hn. unfold row_ok, cols in *. rewrite app_length, map_app. simpl.
    split; [lia|]. split.
    - apply NoDup_app_intro; auto; [constructor; [simpl; tauto|constructor]|].
      intros x Hx [<-|[]]; auto.
    - intros k Hk. apply in_app_iff in Hk as [Hk|[<-|[]]]; auto.
  Qed.

  Lemma ell_set_element_ok (A : ell) i j v : wf A -> (i < eN A)%nat -> (j < eN A)%nat ->
    (2 < nnz A i \/ ~ In j (cols (erow A i)))%nat ->
    (In j (cols (erow A i)) \/ nnz A i < eM A)%nat ->
    exists A', ell_set_element A i j v = Ok A' /\ wf A' /\ same_dims A A' /\
      forall i' j', (i' < eN A)%nat -> emat A' i' j' = if (i' =? i) && (j' =? j) then v else emat A i' j'.
  Proof.
    intros Hw Hi Hj Hc Hcap. pose proof Hw as [Hs Hr]. destruct (Hr i Hi) as (R1 & R2 & R3).
    assert (Hn := wf_nnz A i Hw Hi).
    assert (Push : ~ In j (cols (erow A i)) -> exists A', e_push A i j v = Ok A' /\ wf A' /\ same_dims A A' /\
      forall i' j', (i' < eN A)%nat -> emat A' i' j' = if (i' =? i) && (j' =? j) then v else emat A i' j').
    { intros Hnin. destruct Hcap as [?|Hcap]; [contradiction|].
      destruct (e_push_ok A i j v Hs Hi Hcap) as (A' & E & HU). exists A'. split; auto.
      split. { apply (upd_row_wf _ _ _ _ Hw Hi HU). apply row_ok_snoc; auto. rewrite erow_length; auto. }
      split. { apply HU. }
      intros i' j' Hi'. unfold emat. destruct (Nat.eqb_spec i' i) as [->|Hne]; simpl.
      - rewrite (upd_row_self _ _ _ _ HU). apply elook_app_new. auto.
      - rewrite (upd_row_other _ _ _ _ _ HU); auto. apply wf_nnz; auto. }
    unfold ell_set_element. rewrite e_nnz_ok by auto. cbn [bind].
    destruct (Nat.ltb_spec 2 (nnz A i)) as [H2|H2].
    - destruct (e_find_ok A i j Hs Hi Hn) as (f & -> & Hf). cbn [bind]. destruct f as [l|].
      + destruct Hf as (F1 & F2 & F3). rewrite e_wval_ok by (auto; lia).
        eexists; split; [reflexivity|].
        assert (HU := wvalp_upd A i l v Hs Hi F1 Hn).
        split. { apply (upd_row_wf _ _ _ _ Hw Hi HU). unfold row_ok. rewrite length_set_nth, cols_set_nth. auto. }
        split. { apply HU. }
        intros i' j' Hi'. unfold emat. destruct (Nat.eqb_spec i' i) as [->|Hne]; simpl.
        * rewrite (upd_row_self _ _ _ _ HU). rewrite elook_set_nth by (auto; rewrite erow_length; auto).
          rewrite F2. auto.
        * rewrite (upd_row_other _ _ _ _ _ HU); auto. apply wf_nnz; auto.
      + apply Push. auto.
    - apply Push. destruct Hc; auto. lia.
  Qed.
End EllpackOps.
