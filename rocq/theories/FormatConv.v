(** Conversion between formats, and two runs in different formats. *)
From Verif Require Import Base BaseFacts Spec SpecFacts EllpackModel EllpackSpec EllpackFacts EllpackOps EllpackArith EllpackMul EllpackMore
  EllpackMul2 EllpackExact EllpackRest EllpackNorm EllpackTrans CsrModel CsrSpec CsrFacts CsrOps CsrMul CsrHash CsrMore CsrTrans CsrTop
  GemmModel DenseModel DenseSpec GemmFacts DenseFacts DenseOps FormatModel FormatSpec FormatFacts.
From Coq Require Import Ring.

Section FormatConv.
  Context {F : scalar}.
  Local Open Scope K_scope.
  Add Ring Kringfmt2 : (k_ring F).
  Local Notation bmat := (bmat F).
  Local Notation env := (env F).

  Lemma convert_dense_ok (A : bmat) : bwf A ->
    exists B, convert_dense A = Ok B /\ dwf B /\ dN B = bml_get_N A /\ meq (bml_get_N A) (denm B) (bmx A).
  Proof.
    intros HA. unfold convert_dense. set (N := bml_get_N A). destruct (dense_zero_ok (F:=F) N) as (Z1 & Z2 & Z3).
    destruct (grid_seq_ok (dense_zero N : dense F) (fun i j _ => bmx A i j)
      (fun i j (B : dense F) => v <- bml_get_element A i j ;; d_put B i j v)) as (B & E & W & D & V); auto.
    - intros i j B Hi Hj _ _ _. rewrite Z2 in *. rewrite bml_get_element_ok by auto. auto.
    - exists B. rewrite Z2 in *. split; [exact E|]. split; auto.
  Qed.

  (** storing at a new column appends *)
  Lemma ell_set_new_ok (B : ell F) i j v : wf B -> (i < eN B)%nat -> ~ In j (cols (erow B i)) -> (nnz B i < eM B)%nat ->
    exists B', ell_set_element B i j v = Ok B' /\ upd_row B B' i (erow B i ++ [(j, v)]).
  Proof.
    intros HW Hi Hni Hc. pose proof HW as [Hs _]. unfold ell_set_element. rewrite e_nnz_ok by auto. cbn [bind].
    destruct (Nat.ltb_spec 2 (nnz B i)); [|apply e_push_ok; auto].
    destruct (e_find_ok B i j Hs Hi ltac:(lia)) as (f & -> & Hf). cbn [bind]. destruct f as [l|]; [|apply e_push_ok; auto].
    exfalso. destruct Hf as (F1 & F2 & _). apply Hni. rewrite <- F2. unfold cols.
    apply in_map, nth_In. rewrite erow_length; auto.
  Qed.

  Lemma convert_ell_ok (A : bmat) M : bwf A -> (0 < M)%nat -> (bml_get_N A <= M)%nat ->
    exists B, convert_ell A M = Ok B /\ wf B /\ eN B = bml_get_N A /\ eM B = M /\ meq (bml_get_N A) (emat B) (bmx A).
  Proof.
    intros HA HM HNM. unfold convert_ell.
    assert (HG : forall i j, (i < bml_get_N A)%nat -> (j < bml_get_N A)%nat -> bml_get_element A i j = Ok (bmx A i j))
      by (intros; apply bml_get_element_ok; auto).
    revert HNM HG. generalize (bml_get_N A). intros N HNM HG.
    destruct (zero_spec (F:=F) N M HM) as (Z & EZ & ZN & ZM & ZW & ZV). rewrite EZ. cbn [bind].
    assert (Zr : forall a, (a < N)%nat -> erow Z a = []).
    { intros a Ha. unfold ell_zero in EZ. destruct (M =? 0)%nat; [discriminate|]. inversion EZ. unfold erow, slots, nnz. simpl.
      rewrite nth_repeat_any. auto. }
    set (full := fun a n => map (fun j => (j, bmx A a j)) (seq 0 n)).
    assert (G : wp (for_n N (fun i B => for_n N (fun j B => v <- bml_get_element A i j ;; ell_set_element B i j v) B) Z)
      (fun B => wf B /\ eN B = N /\ eM B = M /\ forall a, (a < N)%nat -> erow B a = full a N)).
    { eapply wp_mono.
      - apply (for_n_inv (fun i B => wf B /\ eN B = N /\ eM B = M /\
          forall a, (a < N)%nat -> erow B a = if (a <? i)%nat then full a N else [])).
        + repeat (split; [assumption|]). intros a Ha. rewrite Zr; auto.
        + intros i B Hi (W & BN & BM & R). eapply wp_mono.
          * apply (for_n_inv (fun j B => wf B /\ eN B = N /\ eM B = M /\
              forall a, (a < N)%nat -> erow B a = if (a <? i)%nat then full a N else if (a =? i)%nat then full a j else [])).
            -- repeat (split; [assumption|]). intros a Ha. rewrite R by auto. destruct (a <? i)%nat; auto. destruct (a =? i)%nat; auto.
            -- intros j B' Hj (W' & BN' & BM' & R'). rewrite HG by auto. cbn [bind].
               assert (Ri : erow B' i = full i j). { rewrite R' by auto. rewrite Nat.ltb_irrefl, Nat.eqb_refl. auto. }
               assert (Hn : nnz B' i = j). { rewrite <- erow_length, Ri. unfold full. rewrite map_length, seq_length; auto. }
               assert (Hni : ~ In j (cols (erow B' i))).
               { rewrite Ri. unfold full, cols. rewrite map_map. simpl. rewrite map_id. rewrite in_seq. lia. }
               destruct (ell_set_new_ok B' i j (bmx A i j) W') as (B'' & E & HU); [lia|auto|rewrite Hn, BM'; lia|].
               rewrite E. simpl.
               assert (Hib : (i < eN B')%nat) by lia.
               assert (W'' : wf B''). { apply (upd_row_wf _ _ _ _ W' Hib HU). apply row_ok_snoc; auto; [apply W'; lia|rewrite erow_length; lia|lia]. }
               pose proof HU as ([D1 D2] & _). split; [auto|]. split; [congruence|]. split; [congruence|].
               intros a Ha. destruct (Nat.eq_dec a i) as [->|Hne].
               ++ rewrite (upd_row_self _ _ _ _ HU), Ri, Nat.ltb_irrefl, Nat.eqb_refl. unfold full.
                  rewrite seq_S, map_app. auto.
               ++ rewrite (upd_row_other _ _ _ _ _ HU) by (auto; apply wf_nnz; auto; lia). rewrite R' by auto.
                  destruct (a <? i)%nat; auto. destruct (Nat.eqb_spec a i); auto. contradiction.
          * intros B' (W' & BN' & BM' & R'). repeat (split; [assumption|]). intros a Ha. rewrite R' by auto.
            destruct (Nat.ltb_spec a i), (Nat.ltb_spec a (S i)), (Nat.eqb_spec a i); try lia; auto.
      - intros B (W & BN & BM & R). repeat (split; [assumption|]). intros a Ha. rewrite R by auto.
        destruct (Nat.ltb_spec a N); auto. lia. }
    apply wp_ok in G as (B & E & W & BN & BM & R). exists B. split; [exact E|]. repeat (split; [assumption|]).
    intros i j Hi Hj. unfold emat. rewrite R by auto. unfold full.
    pose proof (elook_drow (F:=F) (fun _ => true) N (bmx A i) j Hj) as H. unfold drow in H.
    transitivity (cut (fun _ : F => true) (bmx A i j)); [|reflexivity]. rewrite <- H. f_equal. symmetry. clear.
    induction (map _ _) as [|x l IH]; simpl; auto. f_equal. auto.
  Qed.

  (** every element is stored, so rows of [M < N] slots always overrun *)
  Lemma for_n_ub {S} (P : nat -> S -> Prop) n (body : nat -> S -> res S) s :
    P 0%nat s -> (forall i s, (i < n)%nat -> P i s -> body i s = UB \/ exists s', body i s = Ok s' /\ P (Datatypes.S i) s') ->
    for_n n body s = UB \/ exists s', for_n n body s = Ok s' /\ P n s'.
  Proof.
    intros H0 Hs. induction n as [|n IH].
    - right. exists s. auto.
    - rewrite for_n_S. destruct IH as [->|(s1 & -> & H1)]; [intros; apply Hs; auto; lia|left; auto|].
      cbn [bind]. apply Hs; auto.
  Qed.

  Lemma rd_some {X} (l : list X) i (d : X) : (i < length l)%nat -> rd l i = Ok (nth i l d).
  Proof. apply rd_ok. Qed.

  (** row [i] starts with the columns 0 .. j-1, possibly running past its end *)
  Definition spill N M (B : ell F) i j : Prop :=
    eN B = N /\ eM B = M /\ shape B /\ nnz B i = j /\ (i * M + j <= N * M)%nat /\
    forall l, (l < j)%nat -> nth (i * M + l) (eidx B) 0%nat = l.

  Lemma push_spill N M (B : ell F) i j v : (i < N)%nat -> spill N M B i j ->
    e_push B i j v = UB \/ exists B', e_push B i j v = Ok B' /\ spill N M B' i (S j) /\ forall a, a <> i -> nnz B' a = nnz B a.
  Proof.
    intros Hi (BN & BM & (L1 & L2 & L3) & Hn & Hc & Hx). unfold e_push. rewrite e_nnz_ok by (repeat split; auto; lia). cbn [bind].
    rewrite Hn. unfold e_put, e_wval, e_widx, e_wnnz, ROWMAJOR. rewrite BM, BN in *.
    destruct (Nat.eq_dec (i * M + j) (N * M)) as [He|Hne].
    - left. rewrite wr_oob by (rewrite L1; lia). auto.
    - right. rewrite wr_ok by (rewrite L1; lia). cbn [bind eN eM eidx eval ennz].
      rewrite wr_ok by (rewrite L2; lia). cbn [bind eN eM eidx eval ennz]. rewrite wr_ok by (rewrite L3; lia). cbn [bind].
      eexists; split; [reflexivity|]. unfold spill, shape, nnz. cbn [eN eM eidx eval ennz]. rewrite !length_set_nth. split.
      + split; auto. split; auto. split; [repeat split; auto|]. rewrite nth_set_nth_eq by (rewrite L3; lia).
        split; auto. split; [lia|]. intros l Hl. destruct (Nat.eq_dec l j) as [->|Hnl].
        * rewrite nth_set_nth_eq by (rewrite L2; lia). auto.
        * rewrite nth_set_nth_neq by lia. apply Hx. lia.
      + intros a Ha. rewrite nth_set_nth_neq by auto. auto.
  Qed.

  Lemma find_none N M (B : ell F) i j : (i < N)%nat -> spill N M B i j -> e_find B i j = Ok None.
  Proof.
    intros Hi (BN & BM & (L1 & L2 & L3) & Hn & Hc & Hx). unfold e_find. rewrite e_nnz_ok by (repeat split; auto; lia). cbn [bind].
    rewrite Hn. apply wp_eq. apply (for_n_inv (fun _ f => f = None)); auto. intros l f Hl ->.
    unfold e_idx, ROWMAJOR. rewrite BM, (rd_some _ _ 0%nat) by (rewrite L2, BN, BM; lia). cbn [bind]. rewrite Hx by auto.
    destruct (Nat.eqb_spec l j); [lia|]. simpl. auto.
  Qed.

  Lemma convert_ell_ub (A : bmat) M : bwf A -> (0 < M)%nat -> (M < bml_get_N A)%nat -> convert_ell A M = UB.
  Proof.
    intros HA HM HNM. unfold convert_ell.
    assert (HG : forall i j, (i < bml_get_N A)%nat -> (j < bml_get_N A)%nat -> bml_get_element A i j = Ok (bmx A i j))
      by (intros; apply bml_get_element_ok; auto).
    revert HNM HG. generalize (bml_get_N A). intros N HNM HG.
    unfold ell_zero. destruct (Nat.eqb_spec M 0); [lia|]. cbn [bind].
    set (Z := mkEll N M (repeat 0 (N * M)) (repeat 0%nat (N * M)) (repeat 0%nat N)).
    destruct (for_n_ub (fun i B => eN B = N /\ eM B = M /\ shape B /\ (forall a, (i <= a)%nat -> nnz B a = 0%nat) /\ (i < N)%nat)
      N (fun i B => for_n N (fun j B => v <- bml_get_element A i j ;; ell_set_element B i j v) B) Z) as [H|(B & _ & H)]; auto.
    - split; auto. split; auto. split; [repeat split; simpl; rewrite repeat_length; auto|]. split; [|lia].
      intros a _. unfold nnz. simpl. apply nth_repeat_any.
    - intros i B Hi (BN & BM & Bs & Bz & _).
      destruct (for_n_ub (fun j B' => spill N M B' i j /\ forall a, a <> i -> nnz B' a = nnz B a)
        N (fun j B => v <- bml_get_element A i j ;; ell_set_element B i j v) B) as [H|(B' & E & H1 & H2)]; auto.
      + split; auto. unfold spill. repeat (split; [solve [auto]|]). split; [nia|]. intros l Hl. lia.
      + intros j B' Hj (S1 & S2). rewrite HG by auto. cbn [bind]. unfold ell_set_element.
        pose proof S1 as (BN' & BM' & Bs' & Hn' & _). rewrite e_nnz_ok by (auto; lia). cbn [bind]. rewrite (find_none N M) by auto. cbn [bind].
        destruct (push_spill N M B' i j (bmx A i j) Hi S1) as [->|(B2 & -> & T1 & T2)]; [destruct (_ <? _); auto|].
        right. exists B2. destruct (_ <? _); split; auto; split; auto; intros a Ha; rewrite T2, S2; auto.
      + right. exists B'. split; [exact E|]. destruct H1 as (BN' & BM' & Bs' & Hn' & Hc' & _).
        repeat (split; [assumption|]). split; [|nia]. intros a Ha. rewrite H2 by lia. apply Bz. lia.
    - destruct H as (_ & _ & _ & _ & H). lia.
  Qed.

  Lemma convert_csr_ok (nz : F -> bool) (A : bmat) M : bwf A -> keeps_nonzero nz ->
    exists B, convert_csr nz A M = Ok B /\ cwf B /\ cN B = bml_get_N A /\ cM B = M /\ meq (bml_get_N A) (cmat B) (bmx A).
  Proof.
    intros HA Hz. unfold convert_csr.
    assert (HG : forall i, (i < bml_get_N A)%nat -> bml_get_row A i = Ok (map (bmx A i) (seq 0 (bml_get_N A))))
      by (intros; apply bml_get_row_ok; auto).
    revert HG. generalize (bml_get_N A). intros N HG. destruct (csr_zero_ok (F:=F) N M) as [ZW ZR].
    apply wp_ok. eapply wp_mono.
    - apply (for_n_inv (fun i B => cwf B /\ cN B = N /\ cM B = M /\
          forall a, (a < i)%nat -> crow B a = drow nz N (fun j => nth j (map (bmx A a) (seq 0 N)) 0))).
      + repeat (split; [solve [auto]|]). intros a Ha. lia.
      + intros i B Hi (W & BN & BM & R). rewrite HG by auto. cbn [bind].
        destruct (csr_set_row_ok nz B i (map (bmx A i) (seq 0 N)) W) as (B' & E & HU); [lia|rewrite map_length, seq_length; lia|].
        rewrite E. simpl. rewrite BN in HU.
        destruct (cupd_wf B B' i _ W ltac:(lia) HU) as (W' & [D1 D2] & R1 & R2).
        { rewrite BN. destruct (drow_ok nz N N (fun j => nth j (map (bmx A i) (seq 0 N)) 0)) as (_ & H); [|exact H].
          unfold count. rewrite filter_length_le, seq_length. lia. }
        split; auto. split; [congruence|]. split; [congruence|]. intros a Ha. destruct (Nat.eq_dec a i) as [->|Hne]; auto.
        rewrite R2 by auto. apply R. lia.
    - intros B (W & BN & BM & R). repeat (split; [assumption|]). intros i j Hi Hj. unfold cmat. rewrite R by auto.
      rewrite elook_drow by auto. rewrite cut_exact by auto. rewrite nth_map_seq; auto.
  Qed.

  Lemma bml_convert_ok (nz : F -> bool) (A : bmat) t M : bwf A -> keeps_nonzero nz ->
    (t = FEll -> 0 < M /\ bml_get_N A <= M)%nat ->
    exists B, bml_convert nz A t M = Ok B /\ bwf B /\ bml_get_type B = t /\ same_matrix A B.
  Proof.
    intros HA Hz Hr. destruct t; cbn [bml_convert].
    - destruct (convert_dense_ok A HA) as (B & E & W & D & V). rewrite E. cbn [bind]. exists (BDense B).
      do 3 (split; [solve [auto]|]). split; cbn [bml_get_N bmx]; [congruence|]. apply meq_sym. exact V.
    - destruct Hr as [R1 R2]; auto. destruct (convert_ell_ok A M HA R1 R2) as (B & E & W & D & D2 & V). rewrite E. cbn [bind]. exists (BEll B).
      do 3 (split; [solve [auto]|]). split; cbn [bml_get_N bmx]; [congruence|]. apply meq_sym. exact V.
    - destruct (convert_csr_ok nz A M HA Hz) as (B & E & W & D & D2 & V). rewrite E. cbn [bind]. exists (BCsr B).
      do 3 (split; [solve [auto]|]). split; cbn [bml_get_N bmx]; [congruence|]. apply meq_sym. exact V.
  Qed.

  Lemma bml_convert_element (nz : F -> bool) (A : bmat) t M : bwf A -> keeps_nonzero nz ->
    (t = FEll -> 0 < M /\ bml_get_N A <= M)%nat ->
    exists B, bml_convert nz A t M = Ok B /\ bml_get_type B = t /\ bml_get_N B = bml_get_N A /\
      (forall i j, (i < bml_get_N A)%nat -> (j < bml_get_N A)%nat -> bml_get_element B i j = bml_get_element A i j) /\
      (forall i, (i < bml_get_N A)%nat -> bml_get_row B i = bml_get_row A i).
  Proof.
    intros HA Hz Hr. destruct (bml_convert_ok nz A t M HA Hz Hr) as (B & E & W & T & HN & V).
    exists B. do 3 (split; [solve [auto]|]). split.
    - intros i j Hi Hj. rewrite !bml_get_element_ok by (auto; rewrite <- HN; auto). rewrite V; auto.
    - intros i Hi. rewrite !bml_get_row_ok by (auto; rewrite <- HN; auto). rewrite <- HN. f_equal. apply map_ext_in.
      intros j Hj. apply in_seq in Hj. symmetry. apply V; auto. lia.
  Qed.

  (** there and back *)
  Lemma bml_convert_roundtrip (nz : F -> bool) (A : bmat) t M M' : bwf A -> keeps_nonzero nz ->
    (t = FEll -> 0 < M /\ bml_get_N A <= M)%nat -> (bml_get_type A = FEll -> 0 < M' /\ bml_get_N A <= M')%nat ->
    exists B A', bml_convert nz A t M = Ok B /\ bml_convert nz B (bml_get_type A) M' = Ok A' /\ bwf A' /\ alike A A' /\ same_matrix A A'.
  Proof.
    intros HA Hz H1 H2. destruct (bml_convert_ok nz A t M HA Hz H1) as (B & E & W & T & HN & V).
    destruct (bml_convert_ok nz B (bml_get_type A) M' W Hz) as (A' & E' & W' & T' & HN' & V'); [rewrite <- HN; auto|].
    exists B, A'. do 3 (split; [solve [auto]|]). split; [split; congruence|]. split; [congruence|]. intros i j Hi Hj. rewrite V by auto.
    apply V'; congruence.
  Qed.
End FormatConv.
