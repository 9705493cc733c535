(** Proofs: extracting and assigning blocks of the same format, and the
    in-place adjungate of a triangle (SubModel). *)
From Verif Require Import Base BaseFacts Spec SpecFacts EllpackModel EllpackSpec EllpackFacts EllpackOps EllpackArith
  GemmModel DenseModel DenseSpec DenseFacts CsrMore SubModel SubSpec SubIndex SubBlock.

Section SubSame.
  Context {F : scalar}.
  Local Notation ell := (ell F).
  Local Notation ent := (nat * F)%type.

  (** the rows of A are given by R *)
  Definition holds (N M : nat) (R : nat -> list ent) (A : ell) : Prop :=
    eN A = N /\ eM A = M /\ shape A /\ forall i, i < N -> erow A i = R i /\ length (R i) <= M.
  Definition plus_at (R : nat -> list ent) (i : nat) (E : list ent) : nat -> list ent :=
    fun r => if r =? i then R r ++ E else R r.

  Lemma holds_wf A : wf A -> holds (eN A) (eM A) (erow A) A.
  Proof. intros [Hs Hr]. split; [auto|]. split; [auto|]. split; [auto|]. intros i Hi. split; auto. apply Hr. auto. Qed.
  Lemma holds_ext N M R R' A : (forall i, i < N -> R i = R' i) -> holds N M R A -> holds N M R' A.
  Proof. intros E (H1 & H2 & H3 & H4). split; [auto|]. split; [auto|]. split; [auto|]. intros i Hi. rewrite <- E by auto. auto. Qed.
  Lemma holds_push {e} N M R A i c v : holds N M R A -> i < N -> length (R i) < M -> wpq e (e_push A i c v) (holds N M (plus_at R i [(c, v)])).
  Proof.
    intros (H1 & H2 & H3 & H4) Hi Hl. destruct (H4 i Hi) as [HE HL].
    destruct (e_push_ok A i c v) as (A' & E & HU); [auto|lia|rewrite <- erow_length, HE; lia|]. rewrite E. cbn [wpq].
    pose proof HU as ((D1 & D2) & Hs & _). split; [congruence|]. split; [congruence|]. split; [exact Hs|].
    intros r Hr. unfold plus_at. destruct (Nat.eqb_spec r i) as [->|Hne].
    - rewrite (upd_row_self _ _ _ _ HU), HE. split; [auto|]. rewrite app_length. simpl. lia.
    - destruct (H4 r Hr) as [HE' HL']. rewrite (upd_row_other _ _ _ _ _ HU); auto. rewrite <- erow_length, HE'. lia.
  Qed.
  Lemma holds_is_wf N M R A : holds N M R A -> (forall i, i < N -> NoDup (cols (R i)) /\ forall k, In k (cols (R i)) -> k < N) -> wf A.
  Proof.
    intros (H1 & H2 & H3 & H4) HR. split; [exact H3|]. intros i Hi. rewrite H1 in *. destruct (H4 i Hi) as [-> HL]. rewrite H2. destruct (HR i Hi). split; auto.
  Qed.
  Lemma holds_mat N M R A i j : holds N M R A -> i < N -> emat A i j = elook (R i) j.
  Proof. intros (H1 & H2 & H3 & H4) Hi. unfold emat. destruct (H4 i Hi) as [-> _]. auto. Qed.

  (** ** bml_extract_submatrix *)
  Lemma subE_app icol n (E1 E2 : list ent) : subE icol n (E1 ++ E2) = subE icol n E1 ++ subE icol n E2.
  Proof. unfold subE. rewrite filter_app, map_app. auto. Qed.
  Lemma subE_count (A : ell) icol n i : NoDup (cols (erow A i)) -> length (subE icol n (erow A i)) = block_count A icol n i.
  Proof.
    intros ND. unfold block_count, count. rewrite <- (map_length fst (subE icol n (erow A i))). fold (cols (subE icol n (erow A i))). apply Nat.le_antisymm.
    - apply NoDup_incl_length; [apply subE_nodup; auto|]. intros k Hk. apply in_subE in Hk as [H1 H2]. apply filter_In. split; [apply in_seq; lia|]. apply stored_iff. auto.
    - apply NoDup_incl_length; [apply NoDup_filter, seq_NoDup|]. intros k Hk. apply filter_In in Hk as [H1 H2]. apply in_seq in H1. apply in_subE. split; [lia|]. apply stored_iff. auto.
  Qed.

  Theorem ell_extract_ok (A : ell) irow icol BN BM : wf A -> irow + BN <= eN A -> 0 < BM ->
    (forall i, i < BN -> block_count A icol BN (irow + i) <= BM) ->
    exists B, ell_extract A irow icol BN BM = Ok B /\ wf B /\ eN B = BN /\ eM B = BM /\ meq BN (emat B) (sub_at (emat A) irow icol).
  Proof.
    intros HA Hr HM HR. pose proof HA as [HsA HrA]. unfold ell_extract.
    destruct (ell_zero_ok (F:=F) BN BM HM) as (B0 & E0 & HN0 & HM0 & Hs0 & Hr0). rewrite E0. cbn [bind].
    set (T := fun n i => if i <? n then subE icol BN (erow A (irow + i)) else [] : list ent).
    assert (G : wp (for_n BN (fun iB B => e_for_row A (irow + iB) (fun j v B =>
        if (icol <=? j) && (j <? icol + BN) then e_push B iB (j - icol) v else Ok B) B) B0) (holds BN BM (T BN))).
    { apply (for_n_inv (fun n B => holds BN BM (T n) B)).
      - split; [auto|]. split; [auto|]. split; [auto|]. intros i Hi. rewrite Hr0. simpl. split; [auto|lia].
      - intros iB B Hi HB. rewrite e_for_row_eq by (first [lia | exact HsA | apply wf_nnz; [exact HA|lia]]). eapply wp_mono.
        + apply (forM_inv (fun pre B => holds BN BM (plus_at (T iB) iB (subE icol BN pre)) B)).
          * eapply holds_ext; [|exact HB]. intros r _. unfold plus_at. simpl. rewrite app_nil_r. destruct (r =? iB); auto.
          * intros pre [j v] post B' E HB'. cbn [fst snd].
            assert (ESN : subE icol BN (pre ++ [(j, v)]) = subE icol BN pre ++ if (icol <=? j) && (j <? icol + BN) then [(j - icol, v)] else []).
            { rewrite subE_app. f_equal. unfold subE. simpl. destruct ((icol <=? j) && (j <? icol + BN)); auto. }
            assert (TB : T iB iB = []) by (unfold T; rewrite Nat.ltb_irrefl; auto).
            destruct ((icol <=? j) && (j <? icol + BN)) eqn:X.
            -- eapply wp_mono; [apply (holds_push BN BM _ B' iB (j - icol) v HB' Hi)|].
               ++ unfold plus_at. rewrite Nat.eqb_refl, TB. simpl.
                  assert (length (subE icol BN (pre ++ [(j, v)])) <= length (subE icol BN (erow A (irow + iB)))).
                  { rewrite E. replace (pre ++ (j, v) :: post) with ((pre ++ [(j, v)]) ++ post) by (rewrite <- app_assoc; auto). rewrite (subE_app _ _ (pre ++ [(j, v)]) post), (app_length (subE icol BN (pre ++ [(j, v)]))). lia. }
                  rewrite ESN, app_length in H. simpl in H. rewrite subE_count in H by (apply HrA; lia). specialize (HR iB Hi). lia.
               ++ intros B2 HB2. eapply holds_ext; [|exact HB2]. intros r Hr'. unfold plus_at. destruct (Nat.eqb_spec r iB) as [->|]; auto.
                  rewrite ESN, <- app_assoc. auto.
            -- cbn [wpq]. rewrite ESN, app_nil_r. exact HB'.
        + intros B' HB'. eapply holds_ext; [|exact HB']. intros r Hr'. unfold plus_at, T. destruct (Nat.eqb_spec r iB) as [->|Hne].
          * rewrite Nat.ltb_irrefl, (proj2 (Nat.ltb_lt iB (S iB))) by lia. reflexivity.
          * destruct (Nat.ltb_spec r iB), (Nat.ltb_spec r (S iB)); auto; lia. }
    destruct (proj1 (wp_ok _ _) G) as (B & E & HB). exists B. split; [exact E|].
    assert (HT : forall i, i < BN -> T BN i = subE icol BN (erow A (irow + i))) by (intros i Hi; unfold T; rewrite (proj2 (Nat.ltb_lt i BN)) by auto; auto).
    split; [|split; [apply HB|split; [apply HB|]]].
    - eapply holds_is_wf; [exact HB|]. intros i Hi. rewrite HT by auto. split; [apply subE_nodup; apply HrA; lia|]. intros k Hk. apply in_subE in Hk. tauto.
    - intros i j Hi Hj. rewrite (holds_mat _ _ _ _ _ _ HB) by auto. rewrite HT by auto. rewrite elook_subE by auto. reflexivity.
  Qed.

  (** ** bml_assign_submatrix: entries are appended, so the block must be empty *)
  Theorem ell_assign_ok (A B : ell) irow icol : wf A -> wf B -> irow + eN B <= eN A -> icol + eN B <= eN A ->
    (forall i j, i < eN B -> j < eN B -> stored A (irow + i) (icol + j) = false) ->
    (forall i, i < eN B -> nnz A (irow + i) + nnz B i <= eM A) ->
    exists A', ell_assign A B irow icol = Ok A' /\ wf A' /\ same_dims A A' /\ meq (eN A) (emat A') (paste (emat A) (emat B) irow icol (eN B)).
  Proof.
    intros HA HB Hr Hc Hfree HM. pose proof HA as [HsA HrA]. pose proof HB as [HsB HrB]. unfold ell_assign.
    set (T := fun n i => if (irow <=? i) && (i <? irow + n) then erow A i ++ shiftE icol (erow B (i - irow)) else erow A i).
    assert (G : wp (for_n (eN B) (fun i A => e_for_row B i (fun jB v A => e_push A (i + irow) (jB + icol) v) A) A) (holds (eN A) (eM A) (T (eN B)))).
    { apply (for_n_inv (fun n A' => holds (eN A) (eM A) (T n) A')).
      - eapply holds_ext; [|apply holds_wf; auto]. intros i _. unfold T. destruct (Nat.leb_spec irow i); simpl; auto. destruct (Nat.ltb_spec i (irow + 0)); auto; lia.
      - intros n A1 Hn HA1. rewrite e_for_row_eq by (auto; apply wf_nnz; auto). eapply wp_mono.
        + apply (forM_inv (fun pre A' => holds (eN A) (eM A) (plus_at (T n) (n + irow) (shiftE icol pre)) A')).
          * eapply holds_ext; [|exact HA1]. intros r _. unfold plus_at. simpl. rewrite app_nil_r. destruct (r =? n + irow); auto.
          * intros pre [j v] post A' E HA'. cbn [fst snd]. eapply wp_mono; [apply (holds_push (eN A) (eM A) _ A' (n + irow) (j + icol) v HA'); [lia|]|].
            -- unfold plus_at. rewrite Nat.eqb_refl. unfold T.
               assert (X : (n + irow <? irow + n) = false) by (apply Nat.ltb_ge; lia). rewrite X, andb_false_r, app_length, erow_length.
               unfold shiftE. rewrite map_length. pose proof (HM n Hn) as HMn. rewrite <- (erow_length B n), E, app_length in HMn. simpl in HMn. rewrite (Nat.add_comm n irow). lia.
            -- intros A2 HA2. eapply holds_ext; [|exact HA2]. intros r _. unfold plus_at. destruct (r =? n + irow); auto. unfold shiftE. rewrite map_app, <- app_assoc. auto.
        + intros A' HA'. eapply holds_ext; [|exact HA']. intros r Hr'. unfold plus_at, T. destruct (Nat.eqb_spec r (n + irow)) as [->|Hne].
          * replace (n + irow <? irow + n) with false by (symmetry; apply Nat.ltb_ge; lia). rewrite andb_false_r.
            replace (irow <=? n + irow) with true by (symmetry; apply Nat.leb_le; lia). replace (n + irow <? irow + S n) with true by (symmetry; apply Nat.ltb_lt; lia).
            simpl. replace (n + irow - irow) with n by lia. auto.
          * destruct (Nat.leb_spec irow r), (Nat.ltb_spec r (irow + n)), (Nat.ltb_spec r (irow + S n)); simpl; auto; lia. }
    destruct (proj1 (wp_ok _ _) G) as (A' & E & HA'). exists A'. split; [exact E|].
    assert (IN : forall i k, i < eN A -> (irow <=? i) && (i <? irow + eN B) = true -> In k (cols (shiftE icol (erow B (i - irow)))) -> icol <= k /\ k - icol < eN B /\ ~ In k (cols (erow A i))).
    { intros i k Hi X Hk. rewrite cols_shiftE in Hk. apply in_map_iff in Hk as (j & <- & Hj). apply andb_true_iff in X as [X1 X2]. apply Nat.leb_le in X1. apply Nat.ltb_lt in X2.
      assert (Hj' : j < eN B) by (apply (HrB (i - irow)); auto; lia). split; [lia|]. split; [lia|].
      intros Hs'. assert (X := Hfree (i - irow) j). replace (irow + (i - irow)) with i in X by lia. rewrite (Nat.add_comm icol j) in X.
      rewrite (proj2 (stored_iff A i (j + icol)) Hs') in X. assert (true = false) by (apply X; lia). discriminate. }
    split; [|split; [split; symmetry; apply HA'|]].
    - eapply holds_is_wf; [exact HA'|]. intros i Hi. unfold T. destruct ((irow <=? i) && (i <? irow + eN B)) eqn:X; [|split; apply HrA; auto].
      assert (Hi' : i - irow < eN B) by (apply andb_true_iff in X as [X1 X2]; apply Nat.leb_le in X1; apply Nat.ltb_lt in X2; lia).
      rewrite cols_app. split.
      + apply NoDup_app_intro; [apply HrA; auto| |].
        * rewrite cols_shiftE. assert (HNB : NoDup (cols (erow B (i - irow)))) by (apply HrB; auto). clear -HNB. induction HNB as [|x L Hx HN IH]; simpl; constructor; auto.
          intros Hc. apply in_map_iff in Hc as (y & Ey & Hy). assert (y = x) by lia. subst. contradiction.
        * intros k Hk1 Hk2. destruct (IN i k Hi X Hk2) as (_ & _ & Hn). contradiction.
      + intros k Hk. apply in_app_iff in Hk as [Hk|Hk]; [apply (HrA i); auto|]. destruct (IN i k Hi X Hk) as (H1 & H2 & _). lia.
    - intros i j Hi Hj. rewrite (holds_mat _ _ _ _ _ _ HA') by auto. unfold T, paste, in_block. destruct ((irow <=? i) && (i <? irow + eN B)) eqn:X; simpl; [|reflexivity].
      pose proof X as X0. apply andb_true_iff in X0 as [X1 X2]. apply Nat.leb_le in X1. apply Nat.ltb_lt in X2. rewrite elook_app.
      destruct ((icol <=? j) && (j <? icol + eN B)) eqn:Y.
      + apply andb_true_iff in Y as [Y1 Y2]. apply Nat.leb_le in Y1. apply Nat.ltb_lt in Y2.
        replace (existsb (Nat.eqb j) (cols (erow A i))) with false.
        2: { symmetry. pose proof (Hfree (i - irow) (j - icol)) as HF. unfold stored in HF. replace (irow + (i - irow)) with i in HF by lia. replace (icol + (j - icol)) with j in HF by lia. apply HF; lia. }
        rewrite elook_shiftE. replace (j <? icol) with false by (symmetry; apply Nat.ltb_ge; lia). reflexivity.
      + destruct (existsb (Nat.eqb j) (cols (erow A i))) eqn:EX; [reflexivity|]. unfold emat. rewrite (elook_notin (erow A i)) by (apply existsb_eqb_false; auto).
        apply elook_notin. intros Hk. destruct (IN i j Hi X Hk) as (H1 & H2 & _). apply andb_false_iff in Y as [Y|Y]; [apply Nat.leb_gt in Y|apply Nat.ltb_ge in Y]; lia.
  Qed.

  Theorem ell_assign_extract (A B : ell) irow icol BM : wf A -> wf B -> irow + eN B <= eN A -> icol + eN B <= eN A ->
    (forall i j, i < eN B -> j < eN B -> stored A (irow + i) (icol + j) = false) ->
    (forall i, i < eN B -> nnz A (irow + i) + nnz B i <= eM A) -> 0 < BM -> eN B <= BM ->
    exists A' B', ell_assign A B irow icol = Ok A' /\ ell_extract A' irow icol (eN B) BM = Ok B' /\ wf B' /\ meq (eN B) (emat B') (emat B).
  Proof.
    intros HA HB Hr Hc Hf HM HB0 HBM. destruct (ell_assign_ok A B irow icol) as (A' & E & W & [D1 D2] & X); auto.
    destruct (ell_extract_ok A' irow icol (eN B) BM) as (B' & E' & W' & _ & _ & X'); auto; [lia| |].
    - intros i Hi. unfold block_count, count. pose proof (filter_length_le (fun j => stored A' (irow + i) (icol + j)) (seq 0 (eN B))) as X0. rewrite seq_length in X0. lia.
    - exists A', B'. split; [exact E|]. split; [exact E'|]. split; [exact W'|]. intros i j Hi Hj. rewrite X' by auto. unfold sub_at. rewrite X by lia. unfold paste, in_block.
      replace ((irow <=? irow + i) && (irow + i <? irow + eN B) && (icol <=? icol + j) && (icol + j <? icol + eN B)) with true.
      2: { symmetry. rewrite !andb_true_iff, !Nat.leb_le, !Nat.ltb_lt. lia. }
      f_equal; lia.
  Qed.

  (** ** bml_adjungate_triangle *)
  (** entries that row i appends to row r *)
  Definition adjE (cj : F -> F) (sel : nat -> nat -> bool) (i : nat) (E : list ent) (r : nat) : list ent :=
    flat_map (fun kv => if (fst kv =? r) && sel i r then [(i, cj (snd kv))] else []) E.
  Definition adjR (cj : F -> F) (sel : nat -> nat -> bool) (A : ell) (is : list nat) (r : nat) : list ent :=
    erow A r ++ flat_map (fun i => adjE cj sel i (erow A i) r) is.

  Lemma adjE_app cj sel i E1 E2 r : adjE cj sel i (E1 ++ E2) r = adjE cj sel i E1 r ++ adjE cj sel i E2 r.
  Proof. apply flat_map_app. Qed.
  Lemma in_adjE cj sel i E r k v : In (k, v) (adjE cj sel i E r) <-> k = i /\ sel i r = true /\ exists u, In (r, u) E /\ v = cj u.
  Proof.
    unfold adjE. rewrite in_flat_map. split.
    - intros ([c u] & H1 & H2). cbn [fst snd] in H2. destruct (Nat.eqb_spec c r) as [->|]; cbn in H2; [|contradiction]. destruct (sel i r) eqn:S0; [|contradiction].
      destruct H2 as [H2|[]]. injection H2 as <- <-. eauto.
    - intros (-> & HS & u & H1 & ->). exists (r, u). split; auto. cbn [fst snd]. rewrite Nat.eqb_refl, HS. left; auto.
  Qed.
  Lemma adjE_short cj sel i E r : NoDup (cols E) -> NoDup (cols (adjE cj sel i E r)).
  Proof.
    intros ND. induction E as [|[c u] E IH]; simpl; [constructor|]. inversion ND as [|x L Hx HN]; subst. rewrite cols_app. apply NoDup_app_intro; [|auto|].
    - destruct (_ && _); repeat constructor; auto.
    - intros k H1 H2. destruct (Nat.eqb_spec c r) as [->|]; [|destruct H1]. unfold cols in H2. apply in_map_iff in H2 as ([k' v'] & E' & H2).
      fold (adjE cj sel i E r) in H2. apply in_adjE in H2 as (_ & _ & w & H2 & _). apply Hx. apply (in_map fst) in H2. exact H2.
  Qed.

  Lemma adj_rows_nodup cj sel (A : ell) is r : wf A -> NoDup is -> (forall i, In i is -> i < eN A) -> r < eN A ->
    (forall i, sel i r = true -> stored A r i = false) ->
    NoDup (cols (adjR cj sel A is r)) /\ forall k, In k (cols (adjR cj sel A is r)) -> k < eN A.
  Proof.
    intros HA ND HI Hr HF. pose proof HA as [_ HrA]. unfold adjR. rewrite cols_app.
    assert (INF : forall k, In k (cols (flat_map (fun i => adjE cj sel i (erow A i) r) is)) -> In k is /\ sel k r = true).
    { intros k Hk. unfold cols in Hk. apply in_map_iff in Hk as ([k' v'] & E & Hk). simpl in E. subst k'. apply in_flat_map in Hk as (i & Hi & Hk).
      apply in_adjE in Hk as (-> & HS & _). auto. }
    split.
    - apply NoDup_app_intro; [apply HrA; auto| |].
      + clear INF. induction is as [|i is IH]; simpl; [constructor|]. inversion ND as [|x L Hx HN]; subst. rewrite cols_app. apply NoDup_app_intro.
        * apply adjE_short. apply HrA. apply HI. left; auto.
        * apply IH; auto. intros q Hq. apply HI. right; auto.
        * intros k H1 H2. unfold cols in H1, H2. apply in_map_iff in H1 as ([k1 v1] & E1 & H1). apply in_map_iff in H2 as ([k2 v2] & E2 & H2). simpl in E1, E2. subst k1 k2.
          apply in_adjE in H1 as (-> & _). apply in_flat_map in H2 as (i' & Hi' & H2). apply in_adjE in H2 as (-> & _). contradiction.
      + intros k H1 H2. apply INF in H2 as [H2 HS]. apply HF in HS. apply stored_iff in H1. congruence.
    - intros k Hk. apply in_app_iff in Hk as [Hk|Hk]; [apply (HrA r); auto|]. apply INF in Hk as [Hk _]. auto.
  Qed.

  Lemma adj_ok (cj : F -> F) (sel : nat -> nat -> bool) (A : ell) nth_ sched : wf A -> eN A <= eM A -> cj k0 = k0 ->
    (forall i r, sel i r = true -> sel r i = false) -> (forall i r, i < eN A -> r < eN A -> sel i r = true -> stored A r i = false) ->
    full_sched (eN A) nth_ sched ->
    exists A', par_do sched (fun i A => n <- e_nnz A i ;;
      for_n n (fun j A => ll <- e_idx A i j ;; if sel i ll then if eM A <=? ll then UB else v <- e_val A i j ;; e_push A ll i (cj v) else Ok A) A) A = Ok A' /\
      wf A' /\ same_dims A A' /\ meq (eN A) (emat A') (fun i j => if sel j i then cj (emat A j i) else emat A i j).
  Proof.
    intros HA HM C0 AS HF HS. destruct (sched_rows _ _ _ HS) as [ND HI]. pose proof HA as [HsA HrA]. rewrite par_do_forM.
    assert (IR : forall r, sel r r = false) by (intros r; destruct (sel r r) eqn:X; auto; rewrite <- X; apply AS; auto).
    match goal with |- exists A', ?x = _ /\ _ => assert (G : wp x (holds (eN A) (eM A) (adjR cj sel A (map snd sched)))) end.
    { apply (forM_inv (fun pre A' => holds (eN A) (eM A) (adjR cj sel A pre) A')).
      - eapply holds_ext; [|apply holds_wf; auto]. intros i _. unfold adjR. simpl. rewrite app_nil_r. auto.
      - intros pre i post A1 E H1.
        assert (Hi : i < eN A) by (apply HI; rewrite E; apply in_app_iff; right; left; auto).
        assert (NP : NoDup (pre ++ [i])) by (rewrite E in ND; replace (pre ++ i :: post) with ((pre ++ [i]) ++ post) in ND by (rewrite <- app_assoc; auto); apply NoDup_app_inv in ND; tauto).
        assert (NI : ~ In i pre) by (apply NoDup_app_inv in NP as (_ & _ & X); intros Hc; apply (X i Hc); left; auto).
        assert (HP : forall q, In q (pre ++ [i]) -> q < eN A) by (intros q Hq; apply HI; rewrite E; apply in_app_iff; apply in_app_iff in Hq as [Hq|[<-|[]]]; [left; auto|right; left; auto]).
        pose proof H1 as (N1 & M1 & S1 & R1). destruct (R1 i Hi) as [RE RL]. rewrite e_nnz_ok by (auto; lia). cbn [bind].
        rewrite <- erow_length, RE. set (Ei := adjR cj sel A pre i) in *.
        eapply wp_mono.
        + apply (for_n_inv (fun n A' => holds (eN A) (eM A) (fun r => adjR cj sel A pre r ++ adjE cj sel i (firstn n Ei) r) A')).
          * eapply holds_ext; [|exact H1]. intros r _. simpl. rewrite app_nil_r. auto.
          * intros j A2 Hj H2. pose proof H2 as (N2 & M2 & S2 & R2). destruct (R2 i Hi) as [RE2 RL2].
            assert (AI : adjE cj sel i (firstn j Ei) i = []).
            { unfold adjE. generalize (firstn j Ei). intros L0. clear -IR. induction L0 as [|[c u] L IH]; simpl; auto. rewrite IH, IR, andb_false_r. reflexivity. }
            rewrite AI, app_nil_r in RE2. fold Ei in RE2.
            assert (HN2 : nnz A2 i = length Ei) by (rewrite <- erow_length, RE2; auto).
            rewrite e_idx_ok by (auto; lia). cbn [bind].
            assert (NE : nth j (erow A2 i) (0, k0) = (nth (i * eM A2 + j) (eidx A2) 0, nth (i * eM A2 + j) (eval A2) k0)) by (unfold erow; apply slots_nth; lia).
            set (c := nth (i * eM A2 + j) (eidx A2) 0) in *. set (v := nth (i * eM A2 + j) (eval A2) k0) in *. rewrite RE2 in NE.
            assert (FS : firstn (S j) Ei = firstn j Ei ++ [(c, v)]) by (rewrite (firstn_S_nth _ _ (0, k0)) by auto; rewrite NE; auto).
            assert (INE : In (c, v) Ei) by (rewrite <- NE; apply nth_In; auto).
            destruct (adj_rows_nodup cj sel A pre i HA) as [NDi BDi]; auto.
            { apply NoDup_app_inv in NP. tauto. } { intros q Hq. apply HP. apply in_app_iff; auto. }
            { intros q Hq. destruct (Nat.lt_ge_cases q (eN A)); [apply HF; auto|]. destruct (stored A i q) eqn:Sq; auto. apply stored_iff in Sq. apply HrA in Sq; auto. lia. }
            assert (Hc : c < eN A) by (apply BDi; apply (in_map fst) in INE; exact INE).
            destruct (sel i c) eqn:SL.
            -- replace (eM A2 <=? c) with false by (symmetry; apply Nat.leb_gt; lia). rewrite e_val_ok by (auto; lia). cbn [bind]. fold v.
               assert (ROOM : length (adjR cj sel A (pre ++ [i]) c) <= eN A).
               { rewrite <- (map_length fst). apply NoDup_bounded; apply (adj_rows_nodup cj sel A (pre ++ [i]) c HA NP HP Hc); intros q Hq;
                   (destruct (Nat.lt_ge_cases q (eN A)); [apply HF; auto|]; destruct (stored A c q) eqn:Sq; auto; apply stored_iff in Sq; apply HrA in Sq; auto; lia). }
               assert (SUB : length (adjE cj sel i (firstn (S j) Ei) c) <= length (adjE cj sel i (erow A i) c)).
               { rewrite <- (map_length fst (adjE cj sel i (firstn (S j) Ei) c)). rewrite <- (map_length fst (adjE cj sel i (erow A i) c)).
                 apply NoDup_incl_length.
                 - fold (cols (adjE cj sel i (firstn (S j) Ei) c)). apply adjE_short. unfold cols. rewrite <- firstn_map. fold (cols Ei).
                   fold Ei in NDi. rewrite <- (firstn_skipn (S j) (cols Ei)) in NDi. apply NoDup_app_inv in NDi. tauto.
                 - intros k Hk. apply in_map_iff in Hk as ([k' v'] & Ek & Hk). simpl in Ek. subst k'. apply in_adjE in Hk as (-> & _ & u & Hu & ->).
                   apply in_map_iff. exists (i, cj u). split; auto. apply in_adjE. split; auto. split; auto. exists u. split; auto.
                   assert (HuE : In (c, u) Ei) by (rewrite <- (firstn_skipn (S j) Ei); apply in_app_iff; auto).
                   unfold Ei, adjR in HuE. apply in_app_iff in HuE as [HuE|HuE]; auto. apply in_flat_map in HuE as (q & _ & HuE). apply in_adjE in HuE as (-> & HSq & _).
                   apply AS in HSq. congruence. }
               rewrite FS, adjE_app, app_length in SUB.
               assert (A1E : adjE cj sel i [(c, v)] c = [(i, cj v)]) by (unfold adjE; simpl; rewrite Nat.eqb_refl, SL; auto). rewrite A1E in SUB. simpl in SUB.
               unfold adjR in ROOM. rewrite flat_map_app in ROOM. simpl in ROOM. rewrite app_nil_r, app_assoc, app_length in ROOM. fold (adjR cj sel A pre c) in ROOM.
               eapply wp_mono; [apply (holds_push _ _ _ A2 c i (cj v) H2 Hc); rewrite app_length; lia|].
               intros A3 H3. eapply holds_ext; [|exact H3]. intros r Hr'. unfold plus_at. rewrite FS, adjE_app. destruct (Nat.eqb_spec r c) as [->|Hne].
               ++ rewrite A1E, <- app_assoc. auto.
               ++ unfold adjE at 3. simpl. apply Nat.eqb_neq in Hne. rewrite (Nat.eqb_sym c r), Hne. simpl. rewrite app_nil_r. auto.
            -- cbn [wpq]. eapply holds_ext; [|exact H2]. intros r Hr'. rewrite FS, adjE_app. unfold adjE at 3. simpl.
               destruct (Nat.eqb_spec c r) as [->|]; simpl; [rewrite SL|]; rewrite app_nil_r; auto.
        + intros A2 H2. eapply holds_ext; [|exact H2]. intros r Hr'. cbn beta. rewrite firstn_all. unfold adjR at 2. rewrite flat_map_app. simpl. rewrite app_nil_r, app_assoc. fold (adjR cj sel A pre r). f_equal.
          unfold Ei, adjR. rewrite adjE_app. replace (adjE cj sel i (flat_map _ pre) r) with (@nil ent); [rewrite app_nil_r; auto|].
          symmetry. unfold adjE at 1. assert (X : forall L, (forall k v, In (k, v) L -> sel i k = false) -> flat_map (fun kv : ent => if (fst kv =? r) && sel i r then [(i, cj (snd kv))] else []) L = []).
          { induction L as [|[k v] L IH]; intros HL; simpl; auto. rewrite IH by (intros; eapply HL; right; eauto). destruct (Nat.eqb_spec k r) as [->|]; simpl; auto. rewrite (HL r v) by (left; auto). auto. }
          apply X. intros k v Hk. apply in_flat_map in Hk as (q & _ & Hk). apply in_adjE in Hk as (-> & HSq & _). apply AS. auto. }
    destruct (proj1 (wp_ok _ _) G) as (A' & E & HA'). exists A'. split; [exact E|].
    assert (RF : forall i, i < eN A -> NoDup (cols (adjR cj sel A (map snd sched) i)) /\ forall k, In k (cols (adjR cj sel A (map snd sched) i)) -> k < eN A).
    { intros i Hi. apply adj_rows_nodup; auto. intros q; apply HI. intros q Hq. destruct (Nat.lt_ge_cases q (eN A)); [apply HF; auto|]. destruct (stored A i q) eqn:Sq; auto. apply stored_iff in Sq. apply HrA in Sq; auto. lia. }
    split; [eapply holds_is_wf; [exact HA'|exact RF]|]. split; [split; symmetry; apply HA'|].
    intros i j Hi Hj. rewrite (holds_mat _ _ _ _ _ _ HA') by auto. destruct (RF i Hi) as [NDr _].
    destruct (sel j i) eqn:SL.
    - destruct (stored A j i) eqn:ST.
      + apply stored_iff in ST. unfold cols in ST. apply in_map_iff in ST as ([i' u] & E' & HU). simpl in E'. subst i'.
        unfold emat at 1. rewrite (elook_in (erow A j) i u) by (auto; apply HrA; auto). apply elook_in; auto. unfold adjR. apply in_app_iff. right. apply in_flat_map. exists j.
        split; [apply HI; auto|]. apply in_adjE. eauto.
      + assert (Z : emat A j i = k0) by (unfold emat; apply elook_notin; rewrite <- stored_iff; congruence). rewrite Z, C0. apply elook_notin. intros Hc.
        unfold adjR in Hc. rewrite cols_app in Hc. apply in_app_iff in Hc as [Hc|Hc]; [apply stored_iff in Hc; rewrite HF in Hc by auto; discriminate|].
        unfold cols in Hc. apply in_map_iff in Hc as ([k' v'] & E' & Hc). simpl in E'. subst k'. apply in_flat_map in Hc as (q & _ & Hc). apply in_adjE in Hc as (-> & _ & u & Hu & _).
        assert (stored A q i = true) by (apply stored_iff; apply (in_map fst) in Hu; exact Hu). congruence.
    - unfold adjR. rewrite elook_app. destruct (existsb (Nat.eqb j) (cols (erow A i))) eqn:EX; [reflexivity|].
      unfold emat. rewrite (elook_notin (erow A i)) by (apply existsb_eqb_false; auto). apply elook_notin. intros Hc.
      unfold cols in Hc. apply in_map_iff in Hc as ([k' v'] & E' & Hc). simpl in E'. subst k'. apply in_flat_map in Hc as (q & _ & Hc). apply in_adjE in Hc as (-> & HSq & _). congruence.
  Qed.

  Theorem ell_adjungate_ok (cj : F -> F) (A : ell) (upper : bool) nth_ sched : wf A -> eN A <= eM A -> cj k0 = k0 ->
    (forall i j, i < j < eN A -> (if upper then stored A j i else stored A i j) = false) -> full_sched (eN A) nth_ sched ->
    exists A', ell_adjungate cj A (if upper then TriU else TriL) sched = Ok A' /\ wf A' /\ same_dims A A' /\
      meq (eN A) (emat A') (fun i j => if (if upper then j <? i else i <? j) then cj (emat A j i) else emat A i j).
  Proof.
    intros HA HM C0 HF HS. destruct upper; unfold ell_adjungate.
    - destruct (adj_ok cj (fun i ll => (0 <? ll) && (i <? ll)) A nth_ sched) as (A' & E & W & D & X); auto.
      + intros i r H. apply andb_true_iff in H as [_ H]. apply Nat.ltb_lt in H. apply andb_false_iff. right. apply Nat.ltb_ge. lia.
      + intros i r Hi Hr H. apply andb_true_iff in H as [_ H]. apply Nat.ltb_lt in H. apply HF. lia.
      + exists A'. split; [exact E|]. split; [exact W|]. split; [exact D|]. intros i j Hi Hj. rewrite X by auto. cbn beta.
        destruct (Nat.ltb_spec j i), (Nat.ltb_spec 0 i); simpl; auto; lia.
    - destruct (adj_ok cj (fun i ll => ll <? i) A nth_ sched) as (A' & E & W & D & X); auto.
      + intros i r H. apply Nat.ltb_lt in H. apply Nat.ltb_ge. lia.
      + intros i r Hi Hr H. apply Nat.ltb_lt in H. apply HF. lia.
      + exists A'. split; [exact E|]. split; [exact W|]. split; [exact D|]. exact X.
  Qed.
End SubSame.
