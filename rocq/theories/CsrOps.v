(** Proofs about csr constructors, diagonal access, import/export, copy,
    scale, threshold and identity addition. *)
From Verif Require Import Base BaseFacts Spec SpecFacts EllpackModel EllpackSpec EllpackFacts EllpackOps EllpackArith
  EllpackMul EllpackMore EllpackRest CsrModel CsrSpec CsrFacts.
From Coq Require Import Ring.

#[local] Arguments firstn {A} !n !l : simpl nomatch.
#[local] Arguments skipn {A} !n !l : simpl nomatch.

Section CsrOps.
  Context {F : scalar}.
  Local Open Scope K_scope.
  Add Ring Kring11 : (k_ring F).
  Local Notation row := (row F).
  Local Notation csr := (csr F).
  Local Notation ent := (nat * K F)%type.

  Lemma cols_ok_nil N : @cols_ok F N [].
  Proof. split; [constructor|simpl; tauto]. Qed.

  Lemma cols_ok_row_ok N M (E : list ent) : row_ok N M E -> cols_ok N E.
  Proof. intros (_ & H); exact H. Qed.

  Lemma cols_ok_len N (E : list ent) : cols_ok N E -> (length E <= N)%nat.
  Proof. intros [H1 H2]. rewrite <- (map_length fst). apply NoDup_bounded; auto. Qed.

  Lemma cols_ok_row N (E : list ent) : cols_ok N E -> row_ok N N E.
  Proof. intros H. split; [apply cols_ok_len; auto|exact H]. Qed.

  (** sequential loop: iteration i replaces row i *)
  Lemma cseq_rows {e} (A0 : csr) (f : nat -> row -> res row) (R : nat -> row -> Prop) :
    length (cdata A0) = cN A0 ->
    (forall i, (i < cN A0)%nat -> wpq e (f i (nth i (cdata A0) row0)) (R i)) ->
    wpq e (for_n (cN A0) (fun i A => r <- c_row A i ;; r <- f i r ;; c_put A i r) A0)
       (fun A => cdims A0 A /\ crows R A).
  Proof.
    intros HL Hf. eapply wp_mono.
    - apply (for_n_inv (fun p A => cdims A0 A /\ length (cdata A) = cN A0 /\
        (forall i, (i < p)%nat -> R i (nth i (cdata A) row0)) /\
        (forall i, (p <= i < cN A0)%nat -> nth i (cdata A) row0 = nth i (cdata A0) row0))).
      + split; [split; auto|]. split; [auto|]. split; [intros; lia|auto].
      + intros i A Hi ((D1 & D2) & HA & Hd & Hu).
        rewrite c_row_ok by lia. cbn [bind]. rewrite (Hu i) by lia.
        apply wp_bind. eapply wp_mono; [apply Hf; auto|]. intros r HR.
        rewrite c_put_ok by lia. cbn [wpq]. split; [split; auto|]. simpl. rewrite length_set_nth. split; [auto|]. split.
        * intros q Hq. destruct (Nat.eq_dec q i) as [->|].
          -- rewrite nth_set_nth_eq by lia; auto.
          -- rewrite nth_set_nth_neq by auto. apply Hd. lia.
        * intros q Hq. rewrite nth_set_nth_neq by lia. apply Hu. lia.
    - simpl. intros A (D & HA & Hd & _). split; [auto|]. destruct D as [D1 D2]. split; [lia|]. intros i Hi. apply Hd. lia.
  Qed.

  (** ** diagonal *)
  Lemma csr_set_diagonal_ok (keep : F -> bool) (A : csr) (diag : list F) : cwf A -> length diag = cN A ->
    exists A', csr_set_diagonal keep A diag = Ok A' /\ cwf A' /\ cdims A A' /\
      forall i, (i < cN A)%nat -> crow A' i = setE (crow A i) i (cut keep (nth i diag 0)).
  Proof.
    intros HA Hl. apply wp_ok. unfold csr_set_diagonal.
    assert (EQ : for_n (cN A) (fun i A => d <- rd diag i ;; r <- c_row A i ;;
        r <- r_set r i (if keep d then d else 0) ;; c_put A i r) A =
      for_n (cN A) (fun i A => r <- c_row A i ;; r <- r_set r i (cut keep (nth i diag 0)) ;; c_put A i r) A).
    { apply for_n_ext. intros i B Hi. rewrite (rd_ok _ _ 0) by lia. reflexivity. }
    rewrite EQ. eapply wp_mono.
    - apply (cseq_rows A (fun i r => r_set r i (cut keep (nth i diag 0)))
        (fun i r => row_is r (setE (crow A i) i (cut keep (nth i diag 0))))); [apply cwf_len; auto|].
      intros i Hi. destruct (r_set_ok _ _ i (cut keep (nth i diag 0)) (cwf_is A i HA Hi)) as (r' & E1 & E2 & _).
      rewrite E1. exact E2.
    - intros A' [[D1 D2] HR]. destruct (crows_wf A' _ HR) as [H1 H2].
      + intros i Hi. rewrite <- D1 in *. apply cols_ok_setE; auto. apply HA; auto.
      + split; [auto|]. split; [split; auto|]. rewrite D1. auto.
  Qed.

  Lemma csr_get_diagonal_ok (A : csr) : cwf A -> csr_get_diagonal A = Ok (map (fun i => cmat A i i) (seq 0 (cN A))).
  Proof.
    intros HA. apply wp_eq. unfold csr_get_diagonal. eapply wp_mono.
    - apply (for_n_inv (fun p d => length d = cN A /\ forall i, (i < p)%nat -> nth i d 0 = cmat A i i)).
      + rewrite repeat_length. split; auto. intros; lia.
      + intros i d Hi [Hl Hd]. rewrite c_row_ok by (rewrite (cwf_len _ HA); auto). cbn [bind].
        rewrite (r_elem_ok _ _ i (cwf_is A i HA Hi)). cbn [bind]. rewrite wr_ok by lia. cbn [wpq].
        rewrite length_set_nth. split; [auto|]. intros q Hq. destruct (Nat.eq_dec q i) as [->|].
        * rewrite nth_set_nth_eq by lia. auto.
        * rewrite nth_set_nth_neq by auto. apply Hd. lia.
    - simpl. intros d [Hl Hd]. apply (list_ext_nth _ _ 0).
      + rewrite map_length, seq_length; auto.
      + intros j Hj. rewrite Hl in Hj. rewrite Hd by auto. rewrite (nth_map_seq (fun i => cmat A i i)); auto.
  Qed.

  Lemma csr_get_sparse_row_ok (A : csr) i : cwf A -> (i < cN A)%nat -> csr_get_sparse_row A i = Ok (crow A i).
  Proof.
    intros HA Hi. unfold csr_get_sparse_row. rewrite c_row_ok by (rewrite (cwf_len _ HA); auto). cbn [bind].
    rewrite (r_for_eq _ _ _ _ (cwf_is A i HA Hi)). apply wp_eq.
    eapply wp_mono; [apply (forM_inv (fun pre out => out = pre)); [auto|]|intros ? ->; auto].
    intros pre [k v] post s _ ->. simpl. auto.
  Qed.

  Lemma csr_set_sparse_row_ok (keep : F -> bool) (A : csr) i (cs : list nat) (vs : list F) : cshape A -> (i < cN A)%nat -> length vs = length cs ->
    exists A', csr_set_sparse_row keep A i cs vs = Ok A' /\ cupd A A' i (filter (fun kv => keep (snd kv)) (combine cs vs)).
  Proof.
    intros HA Hi Hl. pose proof HA as [HL _]. unfold csr_set_sparse_row. rewrite c_row_ok by lia. cbn [bind].
    destruct (r_set_sparse_ok keep _ _ cs vs (cshape_is A i HA Hi) Hl) as (r' & E1 & E2 & _). rewrite E1. cbn [bind].
    rewrite c_put_ok by lia. eexists; split; [reflexivity|]. exists r'. auto.
  Qed.

  (** ** import and export *)
  Lemma push_loop_row (L : list ent) (kc : ent -> bool) r E : row_is r E ->
    wp (forM L (fun kv r => if kc kv then r_push r (fst kv) (snd kv) else Ok r) r)
       (fun r' => row_is r' (E ++ filter kc L)).
  Proof.
    intros H. apply (forM_inv (fun pre r' => row_is r' (E ++ filter kc pre))).
    - simpl. rewrite app_nil_r. auto.
    - intros pre [k v] post s _ HP. rewrite filter_app. simpl. destruct (kc (k, v)).
      + destruct (r_push_ok _ _ k v HP) as (r' & E1 & E2 & _). simpl. rewrite E1. simpl. rewrite app_assoc. auto.
      + simpl. rewrite app_nil_r. auto.
  Qed.

  Lemma csr_import_ok o N M (keep : F -> bool) (D : list F) sched :
    length D = (N * N)%nat -> Permutation (map snd sched) (seq 0 N) ->
    exists A, csr_import o N M keep D sched = Ok A /\ cN A = N /\ cM A = M /\ cwf A /\
      (forall i, (i < N)%nat -> crow A i = drow keep N (dmat o N D i)).
  Proof.
    intros HL HP. apply wp_ok. unfold csr_import. apply wp_bind.
    eapply wp_mono.
    - apply (cpar_rows (csr_zero N M) sched (fun i r => for_n N (fun j r =>
            v <- rd D (match o with row_major => ROWMAJOR i j N N | col_major => COLMAJOR i j N N end) ;;
            if keep v then r_push r j v else Ok r) r) (fun i r => row_is r (drow keep N (dmat o N D i)))).
      + simpl. apply repeat_length.
      + auto.
      + intros i Hi. rewrite zero_rows by auto. simpl in Hi.
        assert (EQ : forall r, for_n N (fun j r =>
            v <- rd D (match o with row_major => ROWMAJOR i j N N | col_major => COLMAJOR i j N N end) ;;
            if keep v then r_push r j v else Ok r) r =
          forM (map (fun j => (j, dmat o N D i j)) (seq 0 N))
              (fun kv r => if keep (snd kv) then r_push r (fst kv) (snd kv) else Ok r) r).
        { intros r. rewrite forM_map. apply forM_ext. intros j r' Hj. apply in_seq in Hj.
          pose proof (dense_at_ok o N D i j HL Hi ltac:(lia)) as X. unfold dense_at in X. rewrite X. reflexivity. }
        rewrite EQ. apply (push_loop_row _ (fun kv => keep (snd kv)) _ []). apply zero_row_is.
    - intros [A w] [[D1 D2] HR]. simpl in *. destruct (crows_wf A _ HR) as [H1 H2].
      + intros i Hi. rewrite <- D1 in *. apply (cols_ok_row_ok N N). apply drow_ok.
        unfold count. eapply Nat.le_trans; [apply filter_length_le|]. rewrite seq_length. auto.
      + split; [auto|]. split; [auto|]. split; [auto|]. intros. apply H2. lia.
  Qed.

  Lemma csr_export_ok o (A : csr) sched : cwf A -> Permutation (map snd sched) (seq 0 (cN A)) ->
    exists D, csr_export o A sched = Ok D /\ length D = (cN A * cN A)%nat /\
      meq (cN A) (dmat o (cN A) D) (cmat A).
  Proof.
    intros HA HP. pose proof HA as [Hs Hr]. apply wp_ok. unfold csr_export. apply wp_bind.
    set (N := cN A) in *.
    eapply wp_mono.
    - apply (par_for_inv (fun done D w => length D = (N * N)%nat /\
        (forall i j, (i < N)%nat -> (j < N)%nat -> nth (dpos o N i j) D 0 = if existsb (Nat.eqb i) done then cmat A i j else 0))).
      + rewrite repeat_length. split; auto. intros. rewrite nth_repeat_any. auto.
      + intros pre t i post D w E [HL HD].
        assert (Hin : In i (map snd sched)) by (rewrite E, map_app; apply in_app_iff; right; left; auto).
        assert (Hnot : ~ In i (map snd pre)).
        { pose proof (perm_nodup _ _ HP) as Hnd. rewrite E, map_app in Hnd.
          apply NoDup_app_inv in Hnd as (_ & _ & Hx). intros Hc. apply (Hx i Hc). left; auto. }
        assert (Hi : (i < N)%nat) by (apply (perm_in _ _ _ HP); auto).
        destruct (Hr i Hi) as (R2 & R3).
        rewrite c_row_ok by (rewrite (cwf_len _ HA); auto). cbn [bind].
        rewrite (r_for_eq _ _ _ _ (cwf_is A i HA Hi)). apply wp_bind.
        eapply wp_mono.
        * apply (forM_inv (fun pr D' => length D' = (N * N)%nat /\
            (forall i' j, (i' < N)%nat -> (j < N)%nat -> i' <> i -> nth (dpos o N i' j) D' 0 = nth (dpos o N i' j) D 0) /\
            (forall j, (j < N)%nat -> nth (dpos o N i j) D' 0 = elook (rev pr) j))).
          -- split; auto. split; auto. intros j Hj. rewrite HD by auto.
             apply existsb_eqb_false in Hnot. rewrite Hnot. auto.
          -- intros pr [k v] po D' E' (L' & O' & I'). simpl.
             assert (Hk : (k < N)%nat).
             { apply R3. rewrite E'. unfold cols. rewrite map_app. apply in_app_iff. right; left; auto. }
             assert (Hpos := dpos_lt o N i k Hi Hk).
             replace (match o with row_major => ROWMAJOR i k N N | col_major => COLMAJOR i k N N end)
               with (dpos o N i k) by (destruct o; reflexivity).
             rewrite wr_ok by lia. simpl. rewrite length_set_nth. split; auto. split.
             ++ intros i' j Hi' Hj Hne. rewrite nth_set_nth_neq; auto.
                intros X. apply dpos_inj in X; tauto.
             ++ intros j Hj. rewrite rev_app_distr. simpl. destruct (Nat.eqb_spec k j) as [->|Hne].
                ** rewrite nth_set_nth_eq by lia. auto.
                ** rewrite nth_set_nth_neq; auto. intros X. apply dpos_inj in X; auto. destruct X; congruence.
        * simpl. intros D' (L' & O' & I'). split; auto. intros i' j Hi' Hj.
          rewrite existsb_app. simpl. destruct (Nat.eqb_spec i' i) as [->|Hne]; simpl.
          -- rewrite orb_true_r. rewrite I' by auto. unfold cmat. symmetry. apply elook_perm; auto. apply Permutation_rev.
          -- rewrite orb_false_r. rewrite O' by auto. auto.
    - intros [D w] [HL HD]. simpl in *. split; auto. intros i j Hi Hj.
      unfold dmat. fold (dpos o N i j). rewrite HD by auto.
      assert (X : existsb (Nat.eqb i) (map snd sched) = true) by (apply existsb_eqb; apply (perm_in _ _ _ HP); auto).
      rewrite X. auto.
  Qed.

  (** ** copy and scale *)
  Lemma zero_row_alloc M : ralloc (@zero_row F M) = max INIT_ROW_SPACE M.
  Proof. unfold ralloc, zero_row. cbn [rcells]. apply repeat_length. Qed.
  Lemma noinit_row_cells M : length (rcells (@noinit_row F M)) = max INIT_ROW_SPACE M.
  Proof. apply repeat_length. Qed.

  Lemma memcpy_row_ok (r : row) E dst : row_is r E -> (length E <= length dst)%nat -> (INIT_ROW_SPACE <= length dst)%nat ->
    exists r' : row, memcpy_row r dst = Ok r' /\ row_is r' E /\ ralloc r' = length dst.
  Proof.
    intros H Hl Hi. unfold memcpy_row. rewrite (row_is_nnz _ _ H).
    destruct (fill_ok dst E Hl Hi) as (c' & E1 & E2 & E3).
    rewrite (for_n_ext _ _ (fun p c => wr c p (Some (nth p E (0%nat, 0))))).
    - rewrite E1. cbn [bind]. eauto.
    - intros p c Hp. destruct H as (pad & H1 & H2 & _).
      rewrite (rd_ok _ _ (Some (0%nat, 0))) by (rewrite H1, app_length, map_length; lia). cbn [bind].
      rewrite H1, app_nth1 by (rewrite map_length; auto). rewrite map_nth. auto.
  Qed.

  Lemma csr_copy_new_ok (A : csr) sched : cwf A -> Permutation (map snd sched) (seq 0 (cN A)) ->
    exists B, csr_copy_new A sched = Ok B /\ cwf B /\ cdims A B /\
      (forall i, (i < cN A)%nat -> crow B i = crow A i /\ (length (crow A i) <= calloc B i)%nat).
  Proof.
    intros HA HP. apply wp_ok. unfold csr_copy_new. apply wp_bind. eapply wp_mono.
    - apply (cpar (mkCsr (cN A) (cM A) (repeat (mkRow [] 0) (cN A))) sched _ _
        (fun i r => row_is r (crow A i)) (fun _ => True)); simpl; auto using repeat_length.
      intros i B w Hi [D1 D2] HL _ _. simpl in HL. rewrite c_row_ok by (rewrite (cwf_len _ HA); auto). cbn [bind].
      unfold copy_row_new. pose proof (cwf_is A i HA Hi) as HI.
      destruct (memcpy_row_ok _ _ (rcells (noinit_row (ralloc (nth i (cdata A) row0)))) HI) as (r' & E1 & E2 & _).
      { rewrite noinit_row_cells. pose proof (row_is_alloc _ _ HI). lia. }
      { rewrite noinit_row_cells. lia. }
      rewrite E1. cbn [bind]. rewrite c_put_ok by lia. cbn [bind wpq fst snd]. eauto.
    - intros [B w] [[D1 D2] HR]. simpl in *. destruct (crows_wf B _ HR) as [H1 H2].
      + intros i Hi. rewrite <- D1 in *. apply HA; auto.
      + split; [auto|]. split; [split; auto|]. rewrite D1. intros i Hi. split; [auto|].
        rewrite <- (H2 i Hi). apply (row_is_alloc _ _ (cwf_is B i H1 Hi)).
  Qed.

  (** bml_copy: an error exactly when a row does not fit *)
  Lemma csr_copy_ok (A B : csr) sched : cwf A -> cwf B -> cN A = cN B -> Permutation (map snd sched) (seq 0 (cN A)) ->
    (forall i, (i < cN A)%nat -> (length (crow A i) <= calloc B i)%nat) ->
    exists B', csr_copy A B sched = Ok B' /\ cwf B' /\ cdims B B' /\
      (forall i, (i < cN A)%nat -> crow B' i = crow A i).
  Proof.
    intros HA HB HN HP Hc. apply wp_ok. unfold csr_copy. rewrite HN, Nat.eqb_refl. cbn [negb].
    apply wp_bind. eapply wp_mono.
    - apply (cpar B sched _ _ (fun i r => row_is r (crow A i)) (fun _ => True)); auto.
      + apply cwf_len; auto.
      + rewrite <- HN; auto.
      + intros i B1 w Hi [D1 D2] HL Hn _. rewrite <- HN in Hi.
        rewrite (c_row_ok A) by (rewrite (cwf_len _ HA); auto). cbn [bind].
        rewrite c_row_ok by lia. cbn [bind]. rewrite Hn. unfold copy_row.
        pose proof (cwf_is A i HA Hi) as HI. pose proof (cwf_is B i HB ltac:(lia)) as HIB.
        rewrite (row_is_nnz _ _ HI).
        assert (X : (ralloc (nth i (cdata B) row0) <? length (crow A i))%nat = false)
          by (apply Nat.ltb_ge; apply Hc; auto).
        rewrite X.
        destruct (memcpy_row_ok _ _ (rcells (nth i (cdata B) row0)) HI) as (r' & E1 & E2 & _).
        { apply Hc; auto. } { destruct HIB as (? & _ & _ & HH); auto. }
        rewrite E1. cbn [bind]. rewrite c_put_ok by lia. cbn [bind wpq fst snd]. eauto.
    - intros [B' w] [[D1 D2] HR]. simpl in *. destruct (crows_wf B' _ HR) as [H1 H2].
      + intros i Hi. rewrite <- D1, <- HN in *. apply HA; auto.
      + split; [auto|]. split; [split; auto|]. intros i Hi. apply H2. lia.
  Qed.

  Lemma csr_copy_err (A B : csr) sched i : cwf A -> cwf B -> cN A = cN B -> Permutation (map snd sched) (seq 0 (cN A)) ->
    (i < cN A)%nat -> (calloc B i < length (crow A i))%nat -> csr_copy A B sched = Err.
  Proof.
    intros HA HB HN HP Hi Hlt.
    assert (X : wpq True (csr_copy A B sched) (fun _ => False)).
    { unfold csr_copy. rewrite HN, Nat.eqb_refl. cbn [negb]. apply wp_bind.
      eapply wp_mono.
      - apply (par_for_inv (fun done B1 w => ~ In i done /\ cdims B B1 /\ length (cdata B1) = cN B /\
          (forall q, (q < cN B)%nat -> ralloc (nth q (cdata B1) row0) = calloc B q /\ (INIT_ROW_SPACE <= calloc B q)%nat))).
        + split; [simpl; tauto|]. split; [split; auto|]. split; [apply cwf_len; auto|].
          intros q Hq. split; [reflexivity|]. destruct (cwf_is B q HB Hq) as (? & _ & _ & HH). exact HH.
        + intros pre t q post B1 w E (Hd & (D1 & D2) & HL & Ha).
          assert (Hq : (q < cN A)%nat).
          { apply (perm_in _ _ _ HP). rewrite E, map_app. apply in_app_iff. right; left; auto. }
          rewrite (c_row_ok A) by (rewrite (cwf_len _ HA); auto). cbn [bind].
          rewrite c_row_ok by lia. cbn [bind]. unfold copy_row.
          pose proof (cwf_is A q HA Hq) as HI. rewrite (row_is_nnz _ _ HI).
          destruct (Ha q ltac:(lia)) as [Ha1 Ha2]. rewrite Ha1.
          destruct (Nat.ltb_spec (calloc B q) (length (crow A q))) as [Hb|Hb]; [exact I|].
          destruct (memcpy_row_ok _ _ (rcells (nth q (cdata B1) row0)) HI) as (r' & E1 & E2 & E3).
          { unfold ralloc in Ha1. lia. } { unfold ralloc in Ha1. lia. }
          rewrite E1. cbn [bind]. rewrite c_put_ok by lia. cbn [bind wpq fst snd].
          split.
          { intros Hin. apply in_app_iff in Hin as [Hin|[Hin|[]]]; auto. subst. lia. }
          split; [split; auto|]. simpl. rewrite length_set_nth. split; [auto|].
          intros q' Hq'. destruct (Ha q' Hq') as [A1 A2]. split; [|auto].
          destruct (Nat.eq_dec q' q) as [->|].
          * rewrite nth_set_nth_eq by lia. unfold ralloc in *. lia.
          * rewrite nth_set_nth_neq by auto. auto.
      - intros [B' w] [Hd _]. exfalso. apply Hd. apply (perm_in _ _ _ HP). auto. }
    destruct (csr_copy A B sched); simpl in X; tauto.
  Qed.

  Lemma scale_row_ok a (r : row) E : row_is r E -> exists r' : row, scale_row a r = Ok r' /\ row_is r' (sc a E) /\ ralloc r' = ralloc r.
  Proof.
    intros H.
    assert (X : wp (scale_row a r) (fun r' => row_is r' (sc a E) /\ ralloc r' = ralloc r)).
    { unfold scale_row. rewrite (row_is_nnz _ _ H). eapply wp_mono.
      - apply (for_n_inv (fun p r' => row_is r' (sc a (firstn p E) ++ skipn p E) /\ ralloc r' = ralloc r)); [simpl; auto|].
        intros p r' Hp [HP HA].
        assert (Hlen : length (sc a (firstn p E)) = p) by (unfold sc; rewrite map_length, firstn_length; lia).
        rewrite (r_get_ok _ _ p HP) by (rewrite app_length, Hlen, skipn_length; lia). cbn [bind].
        rewrite app_nth2 by lia. rewrite Hlen, Nat.sub_diag.
        assert (Hsk := skipn_S_nth E p (0%nat, 0) Hp). rewrite Hsk at 1. cbn [nth].
        destruct (nth p E (0%nat, 0)) as [k v] eqn:Ek.
        destruct (r_put_ok _ _ p k (a * v) HP) as (r'' & E1 & E2 & E3 & _).
        { rewrite app_length, Hlen, skipn_length. lia. }
        rewrite E1. cbn [wpq]. split; [|congruence].
        rewrite Hsk in E2. rewrite set_nth_app_r, Hlen, Nat.sub_diag in E2 by lia. cbn [set_nth] in E2.
        rewrite (firstn_S_nth E p (0%nat, 0) Hp), Ek. unfold sc at 1. rewrite map_app, <- app_assoc. exact E2.
      - intros r' [H1 H2]. rewrite firstn_all, skipn_all, app_nil_r in H1. auto. }
    apply wp_ok in X as (r' & X1 & X2 & X3). eauto.
  Qed.

  Lemma cols_ok_sc N a (E : list ent) : cols_ok N E -> cols_ok N (sc a E).
  Proof. unfold cols_ok. rewrite cols_sc. auto. Qed.

  Lemma csr_scale_inplace_ok a (A : csr) sched : cwf A -> Permutation (map snd sched) (seq 0 (cN A)) ->
    exists A', csr_scale_inplace a A sched = Ok A' /\ cwf A' /\ cdims A A' /\
      (forall i, (i < cN A)%nat -> crow A' i = sc a (crow A i)) /\
      (forall i, (i < cN A)%nat -> calloc A' i = calloc A i).
  Proof.
    intros HA HP. apply wp_ok. unfold csr_scale_inplace. apply wp_bind. eapply wp_mono.
    - apply (cpar_rows A sched (fun i r => scale_row a r) (fun i r => row_is r (sc a (crow A i)) /\ ralloc r = calloc A i)); auto.
      + apply cwf_len; auto.
      + intros i Hi. destruct (scale_row_ok a _ _ (cwf_is A i HA Hi)) as (r' & E1 & E2 & E3). rewrite E1. simpl; auto.
    - intros [A' w] [[D1 D2] [HR1 HR2]]. cbn [fst snd wpq] in *.
      destruct (crows_wf A' (fun i => sc a (crow A i))) as [H1 H2].
      + split; auto. intros i Hi. apply HR2; auto.
      + intros i Hi. rewrite <- D1 in *. apply cols_ok_sc. apply HA; auto.
      + split; [auto|]. split; [split; auto|]. rewrite D1. split; [auto|]. intros i Hi. apply HR2; auto.
  Qed.

  (** ** threshold *)
  Lemma thr_row_ok (keep : F -> bool) (r : row) E : row_is r E ->
    exists r' : row, thr_row keep r = Ok r' /\ row_is r' (cutrow keep E) /\ ralloc r' = ralloc r.
  Proof.
    intros H. pose proof H as (pad & H1 & H2 & H3). pose proof (row_is_alloc _ _ H) as Ha.
    assert (X : wp (thr_row keep r) (fun r' => row_is r' (cutrow keep E) /\ ralloc r' = ralloc r)).
    { unfold thr_row. apply wp_bind. rewrite (row_is_nnz _ _ H). eapply wp_mono.
      - apply (for_n_inv (fun p '(r', rlen) => length (rcells r') = length (rcells r) /\
          rlen = length (cutrow keep (firstn p E)) /\
          firstn rlen (rcells r') = map Some (cutrow keep (firstn p E)) /\
          (forall q, (p <= q)%nat -> nth q (rcells r') None = nth q (rcells r) None))).
        + simpl. auto.
        + intros p [r' rlen] Hp (Hl & Hr & Hf & Hq).
          assert (Hlen : (rlen <= p)%nat).
          { rewrite Hr. unfold cutrow. eapply Nat.le_trans; [apply filter_length_le|]. rewrite firstn_length. lia. }
          unfold ralloc in *.
          assert (Hg : r_get r' p = Ok (nth p E (0%nat, 0))).
          { rewrite <- (r_get_ok r E p H Hp). unfold r_get. rewrite !(rd_ok _ _ None) by lia. rewrite Hq by auto. auto. }
          rewrite Hg. cbn [bind]. destruct (nth p E (0%nat, 0)) as [k v] eqn:Ek.
          rewrite (firstn_S_nth E p (0%nat, 0) Hp), Ek. unfold cutrow. rewrite filter_app. simpl.
          fold (cutrow keep (firstn p E)). destruct (keep v).
          * assert (HS : nth p (rcells r') None = Some (k, v)).
            { rewrite Hq by auto. rewrite H1, app_nth1 by (rewrite map_length; auto).
              rewrite (nth_indep _ None (Some (0%nat, 0))) by (rewrite map_length; auto). rewrite map_nth, Ek. auto. }
            destruct (Nat.ltb_spec rlen p) as [Hlt|Hge].
            -- unfold r_put. rewrite wr_ok by lia. cbn [bind wpq rcells]. rewrite length_set_nth.
               split; [auto|]. split; [rewrite app_length; simpl; lia|]. split.
               ++ rewrite firstn_set_nth by lia. rewrite Hf, map_app. auto.
               ++ intros q Hqq. rewrite nth_set_nth_neq by lia. apply Hq. lia.
            -- assert (rlen = p) by lia. cbn [bind wpq]. split; [auto|]. split; [rewrite app_length; simpl; lia|]. split.
               ++ rewrite (firstn_S_nth _ _ None) by lia. rewrite Hf, map_app. simpl. congruence.
               ++ intros q Hqq. apply Hq. lia.
          * cbn [wpq]. rewrite app_nil_r. split; [auto|]. split; [auto|]. split; [auto|]. intros q Hqq. apply Hq. lia.
      - intros [r' rlen] (Hl & Hr & Hf & _). cbn [wpq]. rewrite firstn_all in *. unfold ralloc. cbn [rcells]. split; [|auto].
        exists (skipn rlen (rcells r')). unfold ralloc. cbn [rcells rnnz]. split; [|split; [auto|unfold ralloc in *; lia]].
        rewrite <- Hf. symmetry. apply firstn_skipn. }
    apply wp_ok in X as (r' & X1 & X2 & X3). eauto.
  Qed.

  Lemma cutrow_cols_ok (keep : F -> bool) N (E : list ent) : cols_ok N E -> cols_ok N (cutrow keep E).
  Proof. intros H. eapply cols_ok_row_ok. apply (cutrow_ok keep N N). apply cols_ok_row; auto. Qed.

  Lemma csr_threshold_ok (keep : F -> bool) (A : csr) sched : cwf A -> Permutation (map snd sched) (seq 0 (cN A)) ->
    exists A', csr_threshold keep A sched = Ok A' /\ cwf A' /\ cdims A A' /\
      (forall i, (i < cN A)%nat -> crow A' i = cutrow keep (crow A i)) /\
      (forall i, (i < cN A)%nat -> calloc A' i = calloc A i).
  Proof.
    intros HA HP. apply wp_ok. unfold csr_threshold. apply wp_bind. eapply wp_mono.
    - apply (cpar_rows A sched (fun i r => thr_row keep r) (fun i r => row_is r (cutrow keep (crow A i)) /\ ralloc r = calloc A i)); auto.
      + apply cwf_len; auto.
      + intros i Hi. destruct (thr_row_ok keep _ _ (cwf_is A i HA Hi)) as (r' & E1 & E2 & E3). rewrite E1. simpl; auto.
    - intros [A' w] [[D1 D2] [HR1 HR2]]. cbn [fst snd wpq] in *.
      destruct (crows_wf A' (fun i => cutrow keep (crow A i))) as [H1 H2].
      + split; auto. intros i Hi. apply HR2; auto.
      + intros i Hi. rewrite <- D1 in *. apply cutrow_cols_ok. apply HA; auto.
      + split; [auto|]. split; [split; auto|]. rewrite D1. split; [auto|]. intros i Hi. apply HR2; auto.
  Qed.

  (** bml_threshold_new: right when each row keeps at most one entry *)
  Lemma csr_threshold_new_ok (keep : F -> bool) (A : csr) sched : cwf A -> Permutation (map snd sched) (seq 0 (cN A)) ->
    (forall i, (i < cN A)%nat -> (length (cutrow keep (crow A i)) <= 1)%nat) ->
    exists B, csr_threshold_new keep A sched = Ok B /\ cwf B /\ cdims A B /\
      (forall i, (i < cN A)%nat -> crow B i = cutrow keep (crow A i)).
  Proof.
    intros HA HP H1. apply wp_ok. unfold csr_threshold_new. apply wp_bind. eapply wp_mono.
    - apply (cpar (csr_zero (cN A) (cM A)) sched _ _ (fun i r => row_is r (cutrow keep (crow A i))) (fun _ => True));
        auto; [simpl; apply repeat_length|].
      intros i B w Hi [D1 D2] HL Hn _. simpl in Hi, D1, D2.
      rewrite c_row_ok by (simpl in HL; lia). cbn [bind]. rewrite Hn, zero_rows by auto.
      rewrite c_row_ok by (rewrite (cwf_len _ HA); auto). cbn [bind].
      rewrite (r_for_eq _ _ _ _ (cwf_is A i HA Hi)). apply wp_bind.
      change (rnnz (zero_row (cM A))) with 0%nat.
      eapply wp_mono.
      + apply (forM_inv (fun pre b => (10 <= length (rcells b))%nat /\ rnnz b = length (cutrow keep pre) /\
            firstn (length (cutrow keep pre)) (rcells b) = map Some (cutrow keep pre))).
        * fold (ralloc (@zero_row F (cM A))). rewrite zero_row_alloc. unfold INIT_ROW_SPACE. split; [lia|auto].
        * intros pre [k v] post b E (B1 & B2 & B3). simpl.
          specialize (H1 i Hi). rewrite E in H1. unfold cutrow in *. rewrite filter_app in H1. simpl in H1.
          rewrite filter_app. simpl. destruct (keep v).
          -- rewrite app_length in H1. simpl in H1.
             assert (X : filter (fun kv : ent => keep (snd kv)) pre = []).
             { destruct (filter (fun kv : ent => keep (snd kv)) pre); auto. simpl in H1. lia. }
             rewrite X in *. unfold r_put. rewrite wr_ok by lia. cbn [bind wpq rcells rnnz app length].
             rewrite length_set_nth. split; [auto|]. split; [rewrite B2; auto|].
             destruct (rcells b); simpl in *; [lia|auto].
          -- cbn [wpq]. rewrite app_nil_r. auto.
      + intros b (B1 & B2 & B3). rewrite c_put_ok by (simpl in HL; lia). cbn [bind wpq fst snd].
        exists b. split; [auto|]. split; [|auto].
        exists (skipn (length (cutrow keep (crow A i))) (rcells b)). split; [|split; auto].
        rewrite <- B3. symmetry. apply firstn_skipn.
    - intros [B w] [[D1 D2] HR]. simpl in *. destruct (crows_wf B _ HR) as [H2 H3].
      + intros i Hi. rewrite <- D1 in *. apply cutrow_cols_ok. apply HA; auto.
      + split; [auto|]. split; [split; auto|]. rewrite D1. auto.
  Qed.

  (** ** identity addition *)
  Definition idE (beta : F) (i : nat) (E : list ent) : list ent :=
    if keqb beta 0 then E else setE E i (elook E i + beta).

  Lemma elook_idE beta i E j : elook (idE beta i E) j = elook E j + (if j =? i then beta else 0).
  Proof.
    unfold idE. destruct (keqb beta 0) eqn:X.
    - apply keqb_spec in X. subst. destruct (j =? i); ring.
    - rewrite elook_setE. destruct (Nat.eqb_spec j i) as [->|]; ring.
  Qed.

  Lemma add_identity_row_ok beta i (r : row) E : row_is r E ->
    exists r' : row, CsrModel.add_identity_row beta i r = Ok r' /\ row_is r' (idE beta i E).
  Proof.
    intros H. unfold CsrModel.add_identity_row. rewrite (r_find_ok _ _ i H). cbn [bind]. unfold idE.
    destruct (keqb beta 0); [eauto|]. unfold setE. destruct (epos E i) as [p|] eqn:X.
    - apply epos_Some in X as (Hp & Hk & _ & Hv). rewrite (r_get_ok _ _ _ H Hp). cbn [bind].
      destruct (nth p E (0%nat, 0)) as [k v] eqn:Ek. simpl in Hk, Hv. subst.
      destruct (r_put_ok r E p i (elook E i + beta) H Hp) as (r' & E1 & E2 & _). eauto.
    - destruct (r_push_ok r E i beta H) as (r' & E1 & E2 & _). exists r'. split; auto.
      apply epos_None in X. rewrite elook_notin by auto. replace (0 + beta) with beta by ring. auto.
  Qed.

  Lemma csr_add_identity_ok (keep : F -> bool) beta (A : csr) s1 s2 : cwf A ->
    Permutation (map snd s1) (seq 0 (cN A)) -> Permutation (map snd s2) (seq 0 (cN A)) ->
    exists A', csr_add_identity keep beta A s1 s2 = Ok A' /\ cwf A' /\ cdims A A' /\
      (forall i, (i < cN A)%nat -> crow A' i = cutrow keep (idE beta i (crow A i))).
  Proof.
    intros HA HP1 HP2. apply wp_ok. unfold csr_add_identity. apply wp_bind. eapply wp_mono.
    - apply (cpar_rows A s1 (fun i r => CsrModel.add_identity_row beta i r) (fun i r => row_is r (idE beta i (crow A i)))); auto.
      + apply cwf_len; auto.
      + intros i Hi. destruct (add_identity_row_ok beta i _ _ (cwf_is A i HA Hi)) as (r' & E1 & E2). rewrite E1. simpl; auto.
    - intros [A1 w] [[D1 D2] HR]. cbn [fst snd wpq] in *. destruct (crows_wf A1 _ HR) as [H1 H2].
      + intros i Hi. rewrite <- D1 in *. unfold idE. destruct (keqb beta 0); [apply HA; auto|]. apply cols_ok_setE; auto. apply HA; auto.
      + destruct (csr_threshold_ok keep A1 s2 H1) as (A' & E1 & E2 & [D3 D4] & E4 & _); [rewrite <- D1; auto|].
        rewrite E1. cbn [wpq]. split; [auto|]. split; [split; congruence|]. rewrite D1. intros i Hi.
        rewrite E4, H2 by auto. auto.
  Qed.

  Lemma csr_scale_add_identity_ok (keep : F -> bool) alpha beta (A : csr) s0 s1 s2 : cwf A ->
    Permutation (map snd s0) (seq 0 (cN A)) ->
    Permutation (map snd s1) (seq 0 (cN A)) -> Permutation (map snd s2) (seq 0 (cN A)) ->
    exists A', csr_scale_add_identity keep alpha beta A s0 s1 s2 = Ok A' /\ cwf A' /\ cdims A A' /\
      (forall i, (i < cN A)%nat -> crow A' i = cutrow keep (idE beta i (sc alpha (crow A i)))).
  Proof.
    intros HA HP0 HP1 HP2. unfold csr_scale_add_identity.
    destruct (csr_scale_inplace_ok alpha A s0 HA HP0) as (A1 & E1 & W1 & [D1 D2] & R1 & _). rewrite E1. cbn [bind].
    destruct (csr_add_identity_ok keep beta A1 s1 s2 W1) as (A' & E2 & W2 & [D3 D4] & R2); try (rewrite <- D1; auto).
    exists A'. split; [auto|]. split; [auto|]. split; [split; congruence|].
    intros i Hi. rewrite R2, R1 by lia. auto.
  Qed.

  (** ** clear, identity, banded, random *)
  Lemma csr_clear_ok (A : csr) sched : cwf A -> Permutation (map snd sched) (seq 0 (cN A)) ->
    exists A', csr_clear A sched = Ok A' /\ cwf A' /\ cdims A A' /\ (forall i, (i < cN A)%nat -> crow A' i = []).
  Proof.
    intros HA HP. apply wp_ok. unfold csr_clear. apply wp_bind. eapply wp_mono.
    - apply (cpar_rows A sched (fun i r => clear_row r) (fun i r => row_is r [])); auto.
      + apply cwf_len; auto.
      + intros i Hi. destruct (clear_row_ok _ _ (cwf_is A i HA Hi)) as (r' & E1 & E2 & _). rewrite E1. simpl; auto.
    - intros [A' w] [[D1 D2] HR]. cbn [fst snd wpq] in *. destruct (crows_wf A' (fun _ => []) HR) as [H1 H2].
      + intros; apply cols_ok_nil.
      + split; [auto|]. split; [split; auto|]. rewrite D1. auto.
  Qed.

  (** writing consecutive slots of a row *)
  Lemma put_fill (r : row) (L : list ent) n : n = length L -> (length L <= ralloc r)%nat -> (INIT_ROW_SPACE <= ralloc r)%nat ->
    exists r', for_n n (fun q r => r_put r q (fst (nth q L (0%nat, 0))) (snd (nth q L (0%nat, 0)))) r = Ok r' /\
      row_is (mkRow (rcells r') n) L.
  Proof.
    intros -> Hl Hi. destruct (fill_ok (rcells r) L Hl Hi) as (c' & E1 & E2 & E3).
    exists (mkRow c' (rnnz r)). split; [|exact E3].
    assert (G : forall n, for_n n (fun q r => r_put r q (fst (nth q L (0%nat, 0))) (snd (nth q L (0%nat, 0)))) r =
      (c <- for_n n (fun p c => wr c p (Some (nth p L (0%nat, 0)))) (rcells r) ;; Ok (mkRow c (rnnz r)))).
    { induction n as [|n IH]; [destruct r; reflexivity|]. rewrite !for_n_S, IH.
      destruct (for_n n (fun p c => wr c p (Some (nth p L (0%nat, 0)))) (rcells r)); simpl; auto.
      unfold r_put. cbn [rcells rnnz]. destruct (nth n L (0%nat, 0)). auto. }
    rewrite G, E1. auto.
  Qed.


  Lemma csr_identity_ok N M sched : Permutation (map snd sched) (seq 0 N) ->
    exists A : csr, csr_identity N M sched = Ok A /\ cN A = N /\ cM A = M /\ cwf A /\
      (forall i, (i < N)%nat -> crow A i = [(i, 1)]).
  Proof.
    intros HP. apply wp_ok. unfold csr_identity. apply wp_bind. eapply wp_mono.
    - apply (cpar (csr_zero N M) sched _ _ (fun i r => row_is r [(i, 1)]) (fun _ => True)); auto; [simpl; apply repeat_length|].
      intros i A w Hi [D1 D2] HL Hn _. simpl in Hi, HL. rewrite c_row_ok by lia. cbn [bind]. rewrite Hn, zero_rows by auto.
      destruct (put_fill (zero_row M) [(i, 1)] 1 eq_refl) as (r' & E1 & E2).
      { simpl. rewrite zero_row_alloc. unfold INIT_ROW_SPACE. lia. } { rewrite zero_row_alloc. lia. }
      unfold for_n in E1. simpl in E1. destruct (r_put (zero_row M) 0 i 1) as [r1| | |]; simpl in E1; try discriminate.
      inversion E1; subst. cbn [bind]. rewrite c_put_ok by lia. cbn [bind wpq fst snd]. eauto.
    - intros [A w] [[D1 D2] HR]. simpl in *. destruct (crows_wf A _ HR) as [H1 H2].
      + intros i Hi. split; simpl; [constructor; [simpl; tauto|constructor]|]. intros k [<-|[]]; auto.
      + split; [auto|]. split; [auto|]. split; [auto|]. rewrite D1. auto.
  Qed.

  Lemma csr_banded_ok N M rnd sched : Permutation (map snd sched) (seq 0 N) ->
    exists A : csr, csr_banded N M rnd sched = Ok A /\ cN A = N /\ cM A = M /\ cwf A /\
      (forall i, (i < N)%nat -> crow A i = bandrow N M rnd i).
  Proof.
    intros HP. apply wp_ok. unfold csr_banded. apply wp_bind. eapply wp_mono.
    - apply (cpar (csr_zero N M) sched _ _ (fun i r => row_is r (bandrow N M rnd i)) (fun _ => True)); auto; [simpl; apply repeat_length|].
      intros i A w Hi [D1 D2] HL Hn _. simpl in Hi, HL. rewrite c_row_ok by lia. cbn [bind]. rewrite Hn, zero_rows by auto.
      assert (Hhi : (if (i + M <=? N + M / 2)%nat then (i + M - M / 2)%nat else N) = band_hi N M i).
      { unfold band_hi. assert (M / 2 <= M)%nat by (apply Nat.div_le_upper_bound; lia).
        destruct (Nat.leb_spec (i + M) (N + M / 2)); lia. }
      rewrite Hhi. fold (band_lo M i).
      destruct (put_fill (zero_row M) (bandrow N M rnd i) (band_hi N M i - band_lo M i)) as (r' & E1 & E2).
      { unfold bandrow. rewrite map_length, seq_length. auto. }
      { rewrite zero_row_alloc. destruct (bandrow_ok N M rnd i Hi) as [X _]. lia. }
      { rewrite zero_row_alloc. lia. }
      rewrite (for_n_ext _ _ (fun q r => r_put r q (fst (nth q (bandrow N M rnd i) (0%nat, 0))) (snd (nth q (bandrow N M rnd i) (0%nat, 0))))).
      + rewrite E1. cbn [bind]. rewrite c_put_ok by lia. cbn [bind wpq fst snd]. eauto.
      + intros q r Hq. unfold bandrow.
        rewrite (nth_indep _ (0%nat, 0) (0%nat, rnd i 0%nat)) by (rewrite map_length, seq_length; auto).
        pose proof (map_nth (fun j => (j, rnd i j)) (seq (band_lo M i) (band_hi N M i - band_lo M i)) 0%nat q) as Y. cbv beta in Y. rewrite Y.
        rewrite seq_nth by auto. auto.
    - intros [A w] [[D1 D2] HR]. simpl in *. destruct (crows_wf A _ HR) as [H1 H2].
      + intros i Hi. rewrite <- D1 in *. apply (cols_ok_row_ok N M). apply bandrow_ok. auto.
      + split; [auto|]. split; [auto|]. split; [auto|]. intros; apply H2; lia.
  Qed.

  (** the column tried in step j of row i: first the diagonal, then the
      columns drawn *)
  Definition rcol (rc : nat -> nat -> nat) (i j : nat) : nat := match j with O => i | S j => rc i j end.

  (** the entries stored in the first n steps of row i *)
  Fixpoint randE (rv : nat -> nat -> F) (rc : nat -> nat -> nat) (i n : nat) : list ent :=
    match n with
    | O => []
    | S n => let E := randE rv rc i n in
             if existsb (Nat.eqb (rcol rc i n)) (cols E) then E else E ++ [(rcol rc i n, rv i n)]
    end.

  Lemma randE_len rv rc i n : (length (randE rv rc i n) <= n)%nat.
  Proof. induction n as [|n IH]; simpl; auto. destruct (existsb _ _); rewrite ?app_length; simpl; lia. Qed.

  Lemma randE_ok N rv rc i n : (i < N)%nat -> (forall j, (rc i j < N)%nat) -> cols_ok N (randE rv rc i n).
  Proof.
    intros Hi Hr. induction n as [|n [H1 H2]]; simpl; [apply cols_ok_nil|].
    destruct (existsb (Nat.eqb (rcol rc i n)) (cols (randE rv rc i n))) eqn:X; [split; auto|].
    apply existsb_eqb_false in X. split; rewrite cols_app; simpl.
    - apply NoDup_app_intro; auto; [constructor; [simpl; tauto|constructor]|]. simpl. intros x Hx [<-|[]]. auto.
    - intros k Hk. apply in_app_iff in Hk as [Hk|[<-|[]]]; auto. destruct n; simpl; auto.
  Qed.

  Lemma in_randE rv rc i n k : In k (cols (randE rv rc i n)) <-> exists j, (j < n)%nat /\ k = rcol rc i j.
  Proof.
    induction n as [|n IH]; simpl.
    - split; [tauto|]. intros (j & H & _). lia.
    - destruct (existsb (Nat.eqb (rcol rc i n)) (cols (randE rv rc i n))) eqn:X.
      + rewrite IH. split; intros (j & H1 & H2).
        * exists j. split; auto.
        * destruct (Nat.eq_dec j n) as [->|].
          -- subst. apply IH. apply existsb_eqb; auto.
          -- exists j. split; auto. lia.
      + rewrite cols_app, in_app_iff, IH. simpl. split.
        * intros [(j & H1 & H2)|[<-|[]]]; [exists j|exists n]; auto.
        * intros (j & H1 & H2). destruct (Nat.eq_dec j n) as [->|]; [subst; auto|]. left. exists j. split; auto. lia.
  Qed.

  Lemma csr_random_ok N M rv rc : (forall i j, (rc i j < N)%nat) ->
    exists A : csr, csr_random N M rv rc = Ok A /\ cN A = N /\ cM A = M /\ cwf A /\
      (forall i, (i < N)%nat -> crow A i = randE rv rc i M).
  Proof.
    intros Hrc. apply wp_ok. unfold csr_random. apply wp_bind.
    eapply wp_mono.
    - apply (for_n_inv (fun p '(A, marker) => cN A = N /\ cM A = M /\ length (cdata A) = N /\ marker = repeat false N /\
        (forall i, (i < p)%nat -> row_is (nth i (cdata A) row0) (randE rv rc i M)) /\
        (forall i, (p <= i < N)%nat -> nth i (cdata A) row0 = zero_row M))).
      + simpl. rewrite repeat_length. do 4 (split; [auto|]). split; [intros; lia|].
        intros i Hi. apply (zero_rows N M i). lia.
      + intros i [A marker] Hi (HN & HM & HL & -> & Hd & Hu).
        rewrite c_row_ok by lia. cbn [bind]. rewrite (Hu i) by lia. apply wp_bind.
        eapply wp_mono.
        * apply (for_n_inv (fun j '(r, marker, pos, col) =>
            col = rcol rc i j /\ pos = cols (randE rv rc i j) /\ length (rcells r) = max INIT_ROW_SPACE M /\
            length marker = N /\ (forall k, (k < N)%nat -> nth k marker false = existsb (Nat.eqb k) pos) /\
            firstn (length pos) (rcells r) = map Some (randE rv rc i j))).
          -- split; [auto|]. split; [auto|]. split; [apply repeat_length|]. split; [apply repeat_length|]. split; [|auto].
             intros. apply nth_repeat_any.
          -- intros j [[[r mk] pos] col] Hj (-> & -> & Hc & Hm & Hk & Hf).
             assert (Hcol : (rcol rc i j < N)%nat) by (destruct j; simpl; auto).
             rewrite (rd_ok _ _ false) by lia. cbn [bind]. rewrite Hk by auto.
             assert (HE : randE rv rc i (S j) = if existsb (Nat.eqb (rcol rc i j)) (cols (randE rv rc i j)) then randE rv rc i j
                 else randE rv rc i j ++ [(rcol rc i j, rv i j)]) by reflexivity.
             rewrite HE. destruct (existsb (Nat.eqb (rcol rc i j)) (cols (randE rv rc i j))) eqn:X.
             ++ cbn [bind wpq]. split; [destruct j; auto|]. auto.
             ++ assert (Hlp : length (cols (randE rv rc i j)) = length (randE rv rc i j)) by apply map_length.
                pose proof (randE_len rv rc i j) as Hle.
                unfold r_put. rewrite wr_ok by lia. cbn [bind]. rewrite wr_ok by lia. cbn [bind].
                assert (Y : (length (cols (randE rv rc i j)) <? M)%nat = true) by (apply Nat.ltb_lt; lia).
                rewrite Y. cbn [bind wpq rcells]. rewrite !length_set_nth, cols_app. cbn [cols map fst].
                split; [reflexivity|]. split; [auto|]. split; [auto|]. split; [auto|]. split.
                ** intros k Hkn. rewrite nth_set_nth, existsb_app. simpl. rewrite orb_false_r.
                   assert (Z : (rcol rc i j <? length mk)%nat = true) by (apply Nat.ltb_lt; lia). rewrite Z, andb_true_r.
                   rewrite Hk by auto. fold (cols (randE rv rc i j)). destruct (k =? rcol rc i j); rewrite ?orb_true_r, ?orb_false_r; auto.
                ** rewrite app_length. simpl. rewrite Nat.add_1_r. unfold cols in *. rewrite firstn_set_nth by lia.
                   rewrite Hf, map_app. auto.
        * intros [[[r mk] pos] col] (-> & -> & Hc & Hm & Hk & Hf).
          assert (Hlp : length (cols (randE rv rc i M)) = length (randE rv rc i M)) by apply map_length.
          rewrite c_put_ok by lia. cbn [bind]. apply wp_bind.
          assert (Hco := randE_ok N rv rc i M Hi (Hrc i)).
          eapply wp_mono.
          -- apply (for_n_inv (fun p mk' => length mk' = N /\ (forall k, (k < N)%nat -> nth k mk' false = existsb (Nat.eqb k) (skipn p (cols (randE rv rc i M)))))).
             ++ split; [auto|]. exact Hk.
             ++ intros p mk' Hp [Hm' Hk'].
                assert (Hsk := skipn_S_nth (cols (randE rv rc i M)) p 0%nat Hp).
                set (c := nth p (cols (randE rv rc i M)) 0%nat) in *.
                assert (Hcn : (c < N)%nat) by (apply Hco; apply nth_In; auto).
                rewrite (rd_ok _ _ 0%nat) by auto. cbn [bind]. fold c. rewrite wr_ok by lia. cbn [wpq].
                rewrite length_set_nth. split; [auto|]. intros k Hkn.
                assert (HD : NoDup (c :: skipn (S p) (cols (randE rv rc i M)))).
                { rewrite <- Hsk. destruct Hco as [HD _]. rewrite <- (firstn_skipn p (cols (randE rv rc i M))) in HD.
                  apply NoDup_app_inv in HD. tauto. }
                destruct (Nat.eq_dec k c) as [->|Hne].
                ** rewrite nth_set_nth_eq by lia. symmetry. apply existsb_eqb_false. inversion HD; auto.
                ** rewrite nth_set_nth_neq by auto. rewrite Hk' by auto. rewrite Hsk. simpl.
                   destruct (Nat.eqb_spec k c); [congruence|]. auto.
          -- simpl. intros mk' [Hm' Hk']. rewrite length_set_nth. split; [auto|]. split; [auto|]. split; [auto|]. split; [|split].
             ++ apply (list_ext_nth _ _ false); [rewrite repeat_length; auto|].
                intros k Hkn. rewrite nth_repeat_any. rewrite Hk' by lia. rewrite skipn_all. auto.
             ++ intros q Hq. destruct (Nat.eq_dec q i) as [->|].
                ** rewrite nth_set_nth_eq by lia.
                   exists (skipn (length (cols (randE rv rc i M))) (rcells r)). unfold ralloc. cbn [rcells rnnz].
                   split; [|split; [auto|lia]]. rewrite <- Hf. symmetry. apply firstn_skipn.
                ** rewrite nth_set_nth_neq by auto. apply Hd. lia.
             ++ intros q Hq. rewrite nth_set_nth_neq by lia. apply Hu. lia.
    - intros [A mk] (HN & HM & HL & _ & Hd & _). cbn [wpq]. split; [auto|]. split; [auto|].
      destruct (crows_wf A (fun i => randE rv rc i M)) as [H1 H2].
      + split; [lia|]. intros i Hi. apply Hd. lia.
      + intros i Hi. rewrite HN in *. apply randE_ok; auto.
      + split; [auto|]. intros i Hi. apply H2. lia.
  Qed.
End CsrOps.
