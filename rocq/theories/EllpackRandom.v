(** * bml_random_matrix for ellpack and csr: which elements are stored *)
From Coq Require Import List Arith Lia Bool Permutation.
From Verif Require Import EllpackArith Base BaseFacts Spec SpecFacts EllpackModel EllpackSpec EllpackFacts EllpackOps CsrModel CsrSpec CsrFacts CsrOps.
Import ListNotations.
Open Scope K_scope.

Section Rnd.
  Context {F : scalar}.
  Notation ell := (ell F).
  Notation csr := (csr F).

  Lemma marked_reset (cs : list nat) N mk :
    length mk = N -> (forall k, (k < N)%nat -> nth k mk false = existsb (Nat.eqb k) cs) ->
    (forall c, In c cs -> (c < N)%nat) ->
    forM cs (fun c mark => wr mark c false) mk = Ok (repeat false N).
  Proof.
    intros Hm Hk Hc.
    enough (E : exists mk', forM cs (fun c mark => wr mark c false) mk = Ok mk' /\ length mk' = N /\
      forall k, (k < N)%nat -> nth k mk' false = if existsb (Nat.eqb k) cs then false else nth k mk false).
    { destruct E as (mk' & -> & HL & Hn). f_equal. apply (list_ext_nth _ _ false); [rewrite repeat_length; auto|].
      intros k Hkn. rewrite nth_repeat_any, Hn by lia. rewrite Hk by lia. destruct (existsb _ _); auto. }
    clear Hk. revert mk Hm Hc. induction cs as [|c cs IH]; intros mk Hm Hc; simpl.
    - exists mk. auto.
    - rewrite wr_ok by (rewrite Hm; apply Hc; left; auto). cbn [bind].
      destruct (IH (set_nth mk c false)) as (mk' & -> & HL & Hn); [rewrite length_set_nth; auto|intros; apply Hc; right; auto|].
      exists mk'. split; [auto|]. split; [auto|]. intros k Hkn. rewrite Hn by auto.
      destruct (Nat.eqb_spec k c) as [->|Hne]; simpl.
      + rewrite nth_set_nth_eq by (rewrite Hm; apply Hc; left; auto). destruct (existsb _ _); auto.
      + rewrite nth_set_nth_neq by auto. auto.
  Qed.

  (** the columns drawn by rand() % N *)
  Definition rcN (rc : nat -> nat -> nat) (N i j : nat) : nat := (rc i j mod N)%nat.

  Lemma ell_random_ok N M rv rc : (0 < M)%nat ->
    exists A : ell, ell_random N M rv rc = Ok A /\ eN A = N /\ eM A = M /\ wf A /\
      (forall i, (i < N)%nat -> erow A i = randE rv (rcN rc N) i M).
  Proof.
    intros HM. apply wp_ok. unfold ell_random.
    destruct (@ell_zero_wf F N M HM) as (Z & -> & ZN & ZM & ZW & ZE). cbn [bind]. apply wp_bind.
    eapply wp_mono.
    - apply (for_n_inv (fun p '(A, mark) => eN A = N /\ eM A = M /\ shape A /\ mark = repeat false N /\
        (forall i, (i < p)%nat -> erow A i = randE rv (rcN rc N) i M) /\
        (forall i, (i < N)%nat -> (nnz A i <= M)%nat))).
      + split; [auto|]. split; [auto|]. split; [apply ZW|]. split; [auto|]. split; [intros; lia|].
        intros i Hi. rewrite <- ZM. apply wf_nnz; auto. lia.
      + intros i [A mark] Hi (HN & HMm & HS & -> & Hd & Hz).
        assert (Hrc : forall j, (rcN rc N i j < N)%nat) by (intros j; apply Nat.mod_upper_bound; lia).
        apply wp_bind. eapply wp_mono.
        * apply (for_n_inv (fun j '(B, mk, pos, col) =>
            col = rcol (rcN rc N) i j /\ pos = cols (randE rv (rcN rc N) i j) /\ rowpre A B i (randE rv (rcN rc N) i j) /\
            length mk = N /\ (forall k, (k < N)%nat -> nth k mk false = existsb (Nat.eqb k) pos))).
          -- split; [auto|]. split; [auto|]. split; [apply rowpre_refl; auto|]. split; [apply repeat_length|].
             intros. apply nth_repeat_any.
          -- intros j [[[B mk] pos] col] Hj (-> & -> & Hp & Hm & Hk).
             assert (Hcol : (rcol (rcN rc N) i j < N)%nat) by (destruct j; simpl; auto).
             rewrite (rd_ok _ _ false) by lia. cbn [bind]. rewrite Hk by auto.
             assert (HE : randE rv (rcN rc N) i (S j) = if existsb (Nat.eqb (rcol (rcN rc N) i j)) (cols (randE rv (rcN rc N) i j)) then randE rv (rcN rc N) i j
                 else randE rv (rcN rc N) i j ++ [(rcol (rcN rc N) i j, rv i j)]) by reflexivity.
             rewrite HE. destruct (existsb (Nat.eqb (rcol (rcN rc N) i j)) (cols (randE rv (rcN rc N) i j))) eqn:X.
             ++ cbn [bind wpq]. split; [reflexivity|]. auto.
             ++ assert (Hlp : length (cols (randE rv (rcN rc N) i j)) = length (randE rv (rcN rc N) i j)) by apply map_length.
                pose proof (randE_len rv (rcN rc N) i j) as Hle. rewrite Hlp.
                destruct (rowpre_put A B i (randE rv (rcN rc N) i j) (rcol (rcN rc N) i j) (rv i j) Hp) as [-> Hp']; [lia|lia|].
                cbn [bind]. rewrite wr_ok by lia. cbn [bind wpq]. rewrite !length_set_nth, cols_app.
                split; [reflexivity|]. split; [auto|]. split; [auto|]. split; [auto|].
                intros k Hkn. rewrite nth_set_nth, existsb_app. simpl. rewrite orb_false_r.
                assert (Z1 : (rcol (rcN rc N) i j <? length mk)%nat = true) by (apply Nat.ltb_lt; lia). rewrite Z1, andb_true_r.
                rewrite Hk by auto. destruct (k =? rcol (rcN rc N) i j); rewrite ?orb_true_r, ?orb_false_r; auto.
        * intros [[[B mk] pos] col] (-> & -> & Hp & Hm & Hk).
          assert (Hlp : length (cols (randE rv (rcN rc N) i M)) = length (randE rv (rcN rc N) i M)) by apply map_length.
          rewrite Hlp. destruct (rowpre_finish A B i _ Hp) as [-> HU]; [lia|]. cbn [bind].
          assert (Hco := randE_ok N rv (rcN rc N) i M Hi Hrc).
          rewrite (marked_reset _ N mk Hm Hk) by apply Hco. cbn [bind wpq].
          destruct HU as ((D1 & D2) & HS' & HE & Hn & Ho).
          split; [congruence|]. split; [congruence|]. split; [auto|]. split; [auto|]. split.
          -- intros q Hq. destruct (Nat.eq_dec q i) as [->|Hne]; auto.
             unfold erow. rewrite Hn, Ho by (auto; rewrite HMm; apply Hz; lia). apply Hd. lia.
          -- intros q Hq. destruct (Nat.eq_dec q i) as [->|Hne]; [|rewrite Hn by auto; auto].
             rewrite <- erow_length, HE. apply randE_len.
    - intros [A mk] (HN & HMm & HS & _ & Hd & _). cbn [wpq]. split; [auto|]. split; [auto|]. split; auto.
      split; [auto|]. intros i Hi. rewrite HN in Hi. rewrite Hd, HN, HMm by auto.
      assert (Hrc : forall j, (rcN rc N i j < N)%nat) by (intros j; apply Nat.mod_upper_bound; lia).
      destruct (randE_ok N rv (rcN rc N) i M Hi Hrc). split; [apply randE_len|]. auto.
  Qed.

  (** value of an element: the value drawn in the first step that tried its column *)
  Lemma randE_first rv rc i n k : (k < n)%nat -> (forall k', (k' < k)%nat -> rcol rc i k' <> rcol rc i k) ->
    elook (randE rv rc i n) (rcol rc i k) = rv i k :> F.
  Proof.
    induction n as [|n IH]; intros Hk Hf; [lia|]. simpl.
    destruct (existsb (Nat.eqb (rcol rc i n)) (cols (randE rv rc i n))) eqn:X.
    - apply IH; auto. destruct (Nat.eq_dec k n) as [->|]; [|lia].
      apply existsb_eqb, in_randE in X as (j & Hj & E). exfalso. apply (Hf j); auto.
    - apply existsb_eqb_false in X. rewrite elook_app_new by auto.
      destruct (Nat.eqb_spec (rcol rc i k) (rcol rc i n)) as [E|E].
      + destruct (Nat.eq_dec k n) as [->|]; auto. exfalso. apply X. apply in_randE. exists k. split; [lia|auto].
      + apply IH; auto. destruct (Nat.eq_dec k n) as [->|]; [congruence|lia].
  Qed.

  Lemma randE_none rv rc i n j : (forall k, (k < n)%nat -> rcol rc i k <> j) -> elook (randE rv rc i n) j = 0 :> F.
  Proof.
    intros H. apply elook_notin. intros Hin. apply in_randE in Hin as (k & Hk & ->). apply (H k); auto.
  Qed.

  (** the columns tried in row i: the diagonal, then the draws *)
  Definition tried (draw : nat -> nat -> nat) (i k : nat) : nat := match k with O => i | S k => draw i k end.

  Lemma ell_random_spec N M (rv : nat -> nat -> F) rc : (0 < M)%nat ->
    exists A : ell, ell_random N M rv rc = Ok A /\ eN A = N /\ eM A = M /\ wf A /\
      (forall i j, (i < N)%nat -> (In j (cols (erow A i)) <-> exists k, (k < M)%nat /\ j = tried (fun i k => rc i k mod N)%nat i k)) /\
      (forall i k, (i < N)%nat -> (k < M)%nat ->
         (forall k', (k' < k)%nat -> tried (fun i k => rc i k mod N)%nat i k' <> tried (fun i k => rc i k mod N)%nat i k) ->
         emat A i (tried (fun i k => rc i k mod N)%nat i k) = rv i k).
  Proof.
    intros HM. destruct (ell_random_ok N M rv rc HM) as (A & E & H1 & H2 & H3 & H4). exists A.
    do 4 (split; [auto|]). split.
    - intros i j Hi. rewrite H4 by auto. rewrite in_randE. reflexivity.
    - intros i k Hi Hk Hf. unfold emat. rewrite H4 by auto. apply (randE_first rv (rcN rc N)); auto.
  Qed.

  Lemma csr_random_spec N M (rv : nat -> nat -> F) rc : (forall i j, (rc i j < N)%nat) ->
    exists A : csr, csr_random N M rv rc = Ok A /\ cN A = N /\ cM A = M /\ cwf A /\
      (forall i j, (i < N)%nat -> (In j (cols (crow A i)) <-> exists k, (k < M)%nat /\ j = tried rc i k)) /\
      (forall i k, (i < N)%nat -> (k < M)%nat ->
         (forall k', (k' < k)%nat -> tried rc i k' <> tried rc i k) -> cmat A i (tried rc i k) = rv i k).
  Proof.
    intros Hr. destruct (csr_random_ok N M rv rc Hr) as (A & E & H1 & H2 & H3 & H4). exists A.
    do 4 (split; [auto|]). split.
    - intros i j Hi. rewrite H4 by auto. rewrite in_randE. reflexivity.
    - intros i k Hi Hk Hf. unfold cmat. rewrite H4 by auto. apply (randE_first rv rc); auto.
  Qed.
End Rnd.
