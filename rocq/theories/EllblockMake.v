(** Constructors of the block format: defaults, zero, identity, import, threshold_new, transpose_new. *)
From Verif Require Import Base BaseFacts Spec SpecFacts EllpackModel EllpackSpec EllblockModel EllblockSpec EllblockFacts EllblockHeap EllblockRead EllblockBuild.

(** ** The default block sizes *)
Lemma boff_repeat b n t k : k <= n -> boff (repeat b n ++ t) k = b * k.
Proof.
  intros H. induction k as [|k IH]; [unfold boff; simpl; lia|]. rewrite boff_S, IH by lia. unfold bsz. rewrite app_nth1 by (rewrite repeat_length; lia).
  rewrite (nth_indep _ 0 b) by (rewrite repeat_length; lia). rewrite nth_repeat_any. lia.
Qed.
Lemma get_block_sizes_first N M : 0 < N -> 0 < M ->
  exists d, bml_get_block_sizes None N M = Ok d /\ sizes_for d N /\ s_mb d <= s_nb d /\
    (forall ib, ib < s_nb d -> 1 <= bsz (s_bsize d) ib <= 4) /\
    (forall ib, S ib < s_nb d -> bsz (s_bsize d) ib = 4) /\
    (M <= 4 * s_mb d \/ s_mb d = s_nb d).
Proof.
  intros HN HM. unfold bml_get_block_sizes. destruct (Nat.eqb_spec M 0); [lia|].
  pose proof (Nat.div_mod N 4 ltac:(lia)) as DN. pose proof (Nat.mod_upper_bound N 4 ltac:(lia)) as BN.
  pose proof (Nat.div_mod M 4 ltac:(lia)) as DM. pose proof (Nat.mod_upper_bound M 4 ltac:(lia)) as BM.
  set (q := N / 4) in *. set (qm := M / 4) in *.
  set (nb := if q * 4 <? N then S q else q).
  assert (Hnb : 4 * (nb - 1) < N <= 4 * nb /\ 0 < nb). { unfold nb. destruct (Nat.ltb_spec (q * 4) N); lia. }
  set (mb1 := if qm * 4 <? M then S qm else qm).
  assert (Hmb1 : M <= 4 * mb1). { unfold mb1. destruct (Nat.ltb_spec (qm * 4) M); lia. }
  set (mb2 := if mb1 <? 4 then 4 else mb1).
  assert (Hmb2 : mb1 <= mb2 /\ 4 <= mb2). { unfold mb2. destruct (Nat.ltb_spec mb1 4); lia. }
  destruct (Nat.eqb_spec nb 0); [lia|]. eexists. split; [reflexivity|]. cbn [s_nb s_mb s_bsize].
  set (bs := repeat 4 (nb - 1) ++ [N - 4 * (nb - 1)]).
  assert (Hlast : bsz bs (nb - 1) = N - 4 * (nb - 1)). { unfold bsz, bs. rewrite app_nth2; rewrite repeat_length; [|lia]. replace (nb - 1 - (nb - 1)) with 0 by lia. reflexivity. }
  assert (Hfirst : forall ib, S ib < nb -> bsz bs ib = 4).
  { intros ib H. unfold bsz, bs. rewrite app_nth1 by (rewrite repeat_length; lia). rewrite (nth_indep _ 0 4) by (rewrite repeat_length; lia). apply nth_repeat_any. }
  split; [|split; [|split; [|split]]].
  - unfold sizes_for; cbn [s_nb s_mb s_bsize]. split; [lia|]. split; [destruct (Nat.ltb_spec nb mb2); lia|]. split.
    + unfold bs. rewrite app_length, repeat_length. simpl. lia.
    + transitivity (boff bs (S (nb - 1))); [f_equal; lia|]. rewrite boff_S. unfold bs at 1. rewrite boff_repeat by lia. fold bs. rewrite Hlast. lia.
  - destruct (Nat.ltb_spec nb mb2); lia.
  - intros ib H. destruct (Nat.eq_dec ib (nb - 1)) as [->|]; [rewrite Hlast; lia|]. rewrite Hfirst by lia. lia.
  - exact Hfirst.
  - destruct (Nat.ltb_spec nb mb2); [right; auto|left; lia].
Qed.
(** the defaults a call uses: the stored ones, whatever the size asked for *)
Lemma get_block_sizes_later d N M : bml_get_block_sizes (Some d) N M = Ok d.
Proof. reflexivity. Qed.

Section Make.
  Context {F : scalar}.
  Local Notation eb := (eb F).
  Implicit Types A B : eb.

  Lemma kin_dims A B : kin A B -> same_dims A B.
  Proof. intros (H1 & H2 & H3 & H4 & H5 & _). unfold same_dims. auto. Qed.

  (** ** zero and noinit *)
  Lemma eb_zero_ok c N M d : M <= N -> bml_get_block_sizes c N M = Ok d -> sizes_for d N ->
    exists A, eb_zero (F:=F) c N M = Ok (Some d, A) /\ fresh (s_nb d) (s_mb d) M (s_bsize d) A /\ bN A = N.
  Proof.
    intros HM E (H1 & H2 & H3 & H4). unfold eb_zero. destruct (Nat.ltb_spec N M); [lia|]. rewrite E. cbn [bind].
    destruct (block_matrix_ok (F:=F) (Some d) (s_nb d) (s_mb d) M (s_bsize d)) as (A & EA & HF); auto; [lia|cbn; lia|].
    exists A. rewrite EA. split; [reflexivity|]. split; auto. rewrite (fr_N _ _ _ _ _ HF). auto.
  Qed.
  (** with stored defaults the size of the result is theirs, not the N asked for *)
  Lemma eb_zero_later d n N M : M <= N -> M <= n -> sizes_for d n ->
    exists A, eb_zero (F:=F) (Some d) N M = Ok (Some d, A) /\ fresh (s_nb d) (s_mb d) M (s_bsize d) A /\ bN A = n.
  Proof.
    intros HM HM2 (H1 & H2 & H3 & H4). unfold eb_zero. destruct (Nat.ltb_spec N M); [lia|]. cbn [bml_get_block_sizes bind].
    destruct (block_matrix_ok (F:=F) (Some d) (s_nb d) (s_mb d) M (s_bsize d)) as (A & EA & HF); auto; [lia|cbn; lia|].
    exists A. rewrite EA. split; [reflexivity|]. split; auto. rewrite (fr_N _ _ _ _ _ HF). auto.
  Qed.
  Lemma eb_zero_too_big d n N M : n < M -> sizes_for d n -> eb_zero (F:=F) (Some d) N M = Err.
  Proof.
    intros HM (H1 & H2 & H3 & H4). unfold eb_zero. destruct (Nat.ltb_spec N M); auto. cbn [bml_get_block_sizes bind]. unfold block_matrix.
    destruct (Nat.eqb_spec (s_nb d) 0); [lia|]. destruct (Nat.eqb_spec (s_mb d) 0); [lia|]. cbn [orb].
    rewrite sum_sizes by lia. cbn [bind]. rewrite H4. destruct (Nat.ltb_spec n M); [reflexivity|lia].
  Qed.
  Lemma eb_noinit_first N M : eb_noinit (F:=F) None N M = Err.
  Proof. reflexivity. Qed.

  (** ** Building a row from a list of blocks *)
  Lemma build_row {e T} B ib (ts : list T) (cf : T -> nat) (p : T -> bool) (h : T -> nat -> F) (body : T -> eb -> res eb) :
    ebwf B -> ib < bNB B -> brow B ib = [] -> NoDup (map cf ts) -> (forall t, In t ts -> cf t < bNB B) ->
    length (filter p ts) <= bMB B ->
    (forall B' t, In t ts -> ebwf B' -> kin B B' -> (p t = true -> bnz B' ib < bMB B') -> ~ In (cf t) (bcols B' ib) ->
       wpq e (body t B') (fun B'' => if p t then exists y, pushed B' ib (cf t) y B'' /\
          forall k, k < bsz (bbs B) ib * bsz (bbs B) (cf t) -> nth k y k0 = h t k else B'' = B')) ->
    wpq e (forM ts body B) (fun B' => ebwf B' /\ kin B B' /\ (forall i, i < bNB B -> i <> ib -> brow B' i = brow B i) /\
       (clean B -> clean B') /\
       (forall t k, In t ts -> k < bsz (bbs B) ib * bsz (bbs B) (cf t) -> bel B' ib (cf t) k = if p t then h t k else k0) /\
       (forall c k, ~ In c (map cf ts) -> bel B' ib c k = k0)).
  Proof.
    intros HW Hi H0 Hnd Hcols Hroom Hbody.
    eapply wp_mono. { apply (forM_inv (fun pre B' => ebwf B' /\ kin B B' /\ (forall i, i < bNB B -> i <> ib -> brow B' i = brow B i) /\
       (clean B -> clean B') /\ bcols B' ib = map cf (filter p pre) /\
       (forall t k, In t pre -> k < bsz (bbs B) ib * bsz (bbs B) (cf t) -> bel B' ib (cf t) k = if p t then h t k else k0) /\
       (forall c k, ~ In c (map cf pre) -> bel B' ib c k = k0))).
      - split; auto. split; [apply kin_refl|]. split; auto. split; auto. split; [rewrite <- brow_cols, H0; auto|].
        split; [intros t k []|]. intros c k _. rewrite bel_brow, H0. reflexivity.
      - intros pre t post B' E (W & K & O & C & Col & V & Z). pose proof K as (_ & _ & EN & EM & EB & _).
        assert (Hin : In t ts) by (rewrite E; apply in_or_app; right; left; auto).
        assert (Hnin : ~ In (cf t) (map cf pre)). { rewrite E, map_app in Hnd. simpl in Hnd. apply NoDup_remove in Hnd as [_ Hn]. intros H. apply Hn. apply in_or_app. auto. }
        assert (Hnc : ~ In (cf t) (bcols B' ib)). { rewrite Col. intros H. apply Hnin. apply in_map_iff in H as (u & Eu & Hu). apply filter_In in Hu as [Hu _]. apply in_map_iff. exists u; auto. }
        eapply wp_mono; [apply Hbody; auto|].
        + intros Hp. rewrite bnz_cols, Col, map_length, EM. eapply Nat.lt_le_trans; [|exact Hroom]. rewrite E, filter_app. simpl. rewrite Hp, app_length. simpl. lia.
        + intros B'' HB. destruct (p t) eqn:Ep.
          * destruct HB as (y & HP & Hy). split; [apply HP|]. split; [eapply kin_trans; [exact K|apply HP]|]. split.
            { intros i Hi' Hne. rewrite (pu_other _ _ _ _ _ HP) by (auto; lia). auto. }
            split; [intros HC; apply (pu_clean _ _ _ _ _ HP); auto|]. split.
            { rewrite <- brow_cols, (pu_row _ _ _ _ _ HP), map_app, brow_cols, Col, filter_app, map_app. simpl. rewrite Ep. reflexivity. }
            split.
            { intros u k Hu Hk. rewrite (pushed_bel B' ib (cf t) y B'') by (auto; lia). rewrite Nat.eqb_refl. cbn [andb].
              apply in_app_or in Hu as [Hu|[<-|[]]].
              - destruct (Nat.eqb_spec (cf u) (cf t)) as [Ec|]; [|auto]. exfalso. apply Hnin. rewrite <- Ec. apply in_map; auto.
              - rewrite Nat.eqb_refl, Ep. auto. }
            { intros c k Hc. rewrite (pushed_bel B' ib (cf t) y B'') by (auto; lia). rewrite map_app, in_app_iff in Hc. simpl in Hc.
              destruct (Nat.eqb_spec c (cf t)); [exfalso; apply Hc; auto|]. rewrite andb_false_r. apply Z. tauto. }
          * subst B''. split; auto. split; auto. split; auto. split; auto. split; [rewrite Col, filter_app; simpl; rewrite Ep, app_nil_r; auto|]. split.
            { intros u k Hu Hk. apply in_app_or in Hu as [Hu|[<-|[]]]; auto. rewrite Ep. apply Z; auto. }
            { intros c k Hc. apply Z. rewrite map_app, in_app_iff in Hc. tauto. } }
    intros B' (W & K & O & C & _ & V & Z). repeat (split; auto).
  Qed.

  (** building all rows *)
  Lemma build_rows {e} B0 (P : nat -> list nat -> Prop) (spec : nat -> nat -> nat -> F) (body : nat -> eb -> res eb) : ebwf B0 ->
    (forall ib, ib < bNB B0 -> brow B0 ib = []) ->
    (forall ib B, ib < bNB B0 -> ebwf B -> kin B0 B -> brow B ib = [] -> wpq e (body ib B) (fun B' =>
       ebwf B' /\ kin B B' /\ (forall i, i < bNB B -> i <> ib -> brow B' i = brow B i) /\ (clean B -> clean B') /\ P ib (bcols B' ib) /\
       forall jb k, jb < bNB B -> k < bsz (bbs B) ib * bsz (bbs B) jb -> bel B' ib jb k = spec ib jb k)) ->
    wpq e (for_n (bNB B0) body B0) (fun B => ebwf B /\ kin B0 B /\ (clean B0 -> clean B) /\
       (forall ib, ib < bNB B0 -> P ib (bcols B ib)) /\
       forall ib jb k, ib < bNB B0 -> jb < bNB B0 -> k < bsz (bbs B0) ib * bsz (bbs B0) jb -> bel B ib jb k = spec ib jb k).
  Proof.
    intros HW H0 Hbody. eapply wp_mono. { apply (for_n_inv (fun n B => ebwf B /\ kin B0 B /\ (clean B0 -> clean B) /\
       (forall ib, ib < n -> P ib (bcols B ib)) /\
       (forall ib jb k, ib < n -> jb < bNB B0 -> k < bsz (bbs B0) ib * bsz (bbs B0) jb -> bel B ib jb k = spec ib jb k) /\
       (forall ib, n <= ib < bNB B0 -> brow B ib = []))).
      - split; auto. split; [apply kin_refl|]. split; auto. split; [intros; lia|]. split; [intros; lia|]. intros ib H. apply H0. lia.
      - intros ib B Hi (W & K & C & HPc & V & Z). pose proof K as (_ & _ & EN & EM & EB & _). eapply wp_mono; [apply Hbody; auto; apply Z; lia|].
        intros B' (W' & K' & O' & C' & P' & V'). split; auto. split; [eapply kin_trans; eauto|]. split; auto.
        split. { intros i Hi'. destruct (Nat.eq_dec i ib) as [->|]; auto. rewrite <- brow_cols, O', brow_cols by lia. apply HPc. lia. }
        split.
        + intros i jb k Hi' Hj Hk. destruct (Nat.eq_dec i ib) as [->|Hne].
          * apply V'; rewrite ?EN, ?EB; auto.
          * rewrite bel_brow, O', <- bel_brow by (rewrite ?EN; lia). apply V; auto; lia.
        + intros i Hi'. rewrite O' by (rewrite ?EN; lia). apply Z. lia. }
    intros B (W & K & C & HPc & V & _). repeat (split; auto). Qed.
  Lemma build_rows' {e} B0 (spec : nat -> nat -> nat -> F) (body : nat -> eb -> res eb) : ebwf B0 ->
    (forall ib, ib < bNB B0 -> brow B0 ib = []) ->
    (forall ib B, ib < bNB B0 -> ebwf B -> kin B0 B -> brow B ib = [] -> wpq e (body ib B) (fun B' =>
       ebwf B' /\ kin B B' /\ (forall i, i < bNB B -> i <> ib -> brow B' i = brow B i) /\ (clean B -> clean B') /\
       forall jb k, jb < bNB B -> k < bsz (bbs B) ib * bsz (bbs B) jb -> bel B' ib jb k = spec ib jb k)) ->
    wpq e (for_n (bNB B0) body B0) (fun B => ebwf B /\ kin B0 B /\ (clean B0 -> clean B) /\
       forall ib jb k, ib < bNB B0 -> jb < bNB B0 -> k < bsz (bbs B0) ib * bsz (bbs B0) jb -> bel B ib jb k = spec ib jb k).
  Proof.
    intros HW H0 Hbody. eapply wp_mono; [apply (build_rows B0 (fun _ _ => True) spec body); auto|].
    - intros ib B Hi W K E. eapply wp_mono; [apply Hbody; auto|]. intros B' (H1 & H2 & H3 & H4 & H5). repeat (split; auto).
    - intros B (H1 & H2 & H3 & _ & H5). repeat (split; auto).
  Qed.

  Lemma diag_fill {e} b (f : nat -> res F) (h : nat -> F) x : length x = b * b -> (forall ii, ii < b -> f ii = Ok (h ii)) ->
    wpq e (x <- blk_zero (b * b) x ;; for_n b (fun ii x => v <- f ii ;; wr x (ROWMAJOR ii ii b b) v) x)
      (fun y => length y = b * b /\ forall k, k < b * b -> nth k y k0 = if k / b =? k mod b then h (k / b) else k0).
  Proof.
    intros Hx Hf. apply wp_bind. eapply wp_mono; [apply (blk_map_ok (b * b) _ (fun _ => k0)); [lia|reflexivity]|]. intros y (L1 & Y1 & _).
    assert (Hpos : forall ii, ii < b -> ROWMAJOR ii ii b b < b * b) by (intros; apply pos_lt; auto).
    eapply wp_mono; [apply (scatter_ok b f h (fun ii => ROWMAJOR ii ii b b) y)|].
    - auto.
    - intros ii Hi. rewrite L1, Hx. auto.
    - intros i i' Hi Hi' E. unfold ROWMAJOR in E. rewrite <- (pos_div b i i), <- (pos_div b i' i') by auto. congruence.
    - intros z (L2 & Z1 & Z2). split; [lia|]. intros k Hk. destruct (pos_split _ _ _ Hk) as (P1 & P2 & P3).
      destruct (Nat.eqb_spec (k / b) (k mod b)) as [E|E].
      + rewrite <- (Z1 (k / b)) by auto. f_equal. unfold ROWMAJOR. rewrite P3 at 1. lia.
      + rewrite Z2; [apply Y1; auto|]. intros ii Hii Ek. apply E. rewrite Ek. unfold ROWMAJOR. rewrite pos_div, pos_mod by auto. reflexivity.
  Qed.

  (** ** identity *)
  Lemma eb_identity_ok c N M d (g : nat -> F) : M <= N -> bml_get_block_sizes c N M = Ok d -> sizes_for d N ->
    exists A, eb_identity c N M g = Ok (Some d, A) /\ ebwf A /\ clean A /\ bN A = N /\ bM A = M /\
      bNB A = s_nb d /\ bMB A = s_mb d /\ bbs A = s_bsize d /\
      (forall ib, ib < bNB A -> bcols A ib = [ib]) /\ meq N (ebmx A) mid.
  Proof.
    intros HM E HSz. pose proof HSz as (H1 & H2 & H3 & H4). unfold eb_identity. rewrite E. cbn [bind].
    destruct (block_matrix_ok (F:=F) (Some d) (s_nb d) (s_mb d) M (s_bsize d)) as (A & EA & HF); auto; [lia|cbn; lia|].
    rewrite EA. cbn [bind cache_after].
    assert (G : wpq False (for_n (bNB A) (fun ib A =>
      b <- rd (s_bsize d) ib ;;
      b_new A ib 0 ib (b * b) g (fun x =>
        x <- blk_zero (b * b) x ;;
        for_n b (fun ii x => wr x (ROWMAJOR ii ii b b) k1) x)) A) (fun B => ebwf B /\ kin A B /\ (clean A -> clean B) /\
       (forall ib, ib < bNB A -> bcols B ib = [ib]) /\
       forall ib jb k, ib < bNB A -> jb < bNB A -> k < bsz (bbs A) ib * bsz (bbs A) jb -> bel B ib jb k =
        if (ib =? jb) then (if k / bsz (bbs A) ib =? k mod bsz (bbs A) ib then k1 else k0) else k0)).
    { apply (build_rows A (fun ib cs => cs = [ib])); [apply HF|intros; apply (fr_row _ _ _ _ _ HF)|]. intros ib B Hi W K H0. pose proof K as (_ & _ & EN & EM & EB & _).
      apply wp_bind. rewrite (rd_ok (s_bsize d) ib 0) by (rewrite H3, <- (fr_NB _ _ _ _ _ HF); auto). cbn [wpq].
      change (nth ib (s_bsize d) 0) with (bsz (s_bsize d) ib). rewrite <- (fr_bs _ _ _ _ _ HF). rewrite <- EB. set (b := bsz (bbs B) ib).
      assert (E0 : bnz B ib = 0) by (rewrite <- brow_length, H0; auto).
      pose proof (new_block_ok (e:=False) B ib ib (b * b) g (fun x => x <- blk_zero (b * b) x ;; for_n b (fun ii x => wr x (ROWMAJOR ii ii b b) k1) x)
         (fun y => forall k, k < b * b -> nth k y k0 = if k / b =? k mod b then k1 else k0)) as G. rewrite E0 in G. apply G; clear G; auto; try lia.
      - rewrite EM, (fr_MB _ _ _ _ _ HF). auto.
      - rewrite <- brow_cols, H0. simpl. auto.
      - intros x Hx. apply (diag_fill b (fun _ => Ok k1) (fun _ => k1)); auto.
      - intros y B' Ly Hy HP. split; [apply HP|]. split; [apply HP|]. split; [intros; apply HP; auto|]. split; [apply HP|].
        split; [rewrite <- brow_cols, (pu_row _ _ _ _ _ HP), H0; reflexivity|].
        intros jb k Hj Hk. rewrite (pushed_bel B ib ib y B') by (auto; try lia; rewrite <- brow_cols, H0; simpl; auto). rewrite Nat.eqb_refl. cbn [andb].
        rewrite (Nat.eqb_sym jb ib). destruct (Nat.eqb_spec ib jb) as [<-|]; [apply Hy; auto|]. rewrite bel_brow, H0. reflexivity. }
    match type of G with wpq _ ?t _ => destruct t as [B| | |] end; cbn [wpq bind] in G |- *; try tauto.
    destruct G as (W & K & C & HCs & V). exists B. split; [reflexivity|]. split; auto. split; [apply C, HF|].
    pose proof K as (EN & EMM & ENB & EMB & EB & _).
    split; [rewrite EN, (fr_N _ _ _ _ _ HF); auto|]. split; [rewrite EMM; apply HF|]. split; [rewrite ENB; apply HF|]. split; [rewrite EMB; apply HF|].
    split; [rewrite EB; apply HF|]. split; [rewrite ENB; auto|].
    assert (HN : bN B = N) by (rewrite EN, (fr_N _ _ _ _ _ HF); auto). rewrite <- HN.
    pose proof W as (HS & _ & _). apply meq_blocks; auto. rewrite ENB, EB. intros ib jb k Hi Hj Hk. rewrite V by auto.
    destruct (pos_split _ _ _ Hk) as (P1 & P2 & P3). unfold xb, mid.
    pose proof (sh_bs _ HS) as HL. rewrite EB, ENB in HL.
    destruct (Nat.eqb_spec ib jb) as [<-|Hne].
    - destruct (Nat.eqb_spec (k / bsz (bbs A) ib) (k mod bsz (bbs A) ib)) as [Ek|Ek].
      + rewrite Ek, Nat.eqb_refl. reflexivity.
      + destruct (Nat.eqb_spec (boff (bbs A) ib + k / bsz (bbs A) ib) (boff (bbs A) ib + k mod bsz (bbs A) ib)); [lia|reflexivity].
    - destruct (Nat.eqb_spec (boff (bbs A) ib + k / bsz (bbs A) jb) (boff (bbs A) jb + k mod bsz (bbs A) jb)) as [Ek|]; [|reflexivity].
      exfalso. apply (f_equal (bloc (bbs A))) in Ek. rewrite !bloc_at in Ek by (auto; lia). congruence.
  Qed.

  (** ** import *)
  Lemma existsb_ext {X} (p q : X -> bool) l : (forall x, In x l -> p x = q x) -> existsb p l = existsb q l.
  Proof. induction l as [|x l IH]; intros H; [reflexivity|]. simpl. rewrite H by (left; auto). rewrite IH; auto. intros y Hy. apply H. right; auto. Qed.

  Lemma bcut_xb bs (keep : F -> bool) X ib jb k : ib < length bs -> jb < length bs -> k < bsz bs ib * bsz bs jb ->
    xb bs (bcut bs keep X) ib jb k = if blk_keep bs keep X ib jb then xb bs X ib jb k else k0.
  Proof. intros Hi Hj Hk. destruct (pos_split _ _ _ Hk) as (P1 & P2 & P3). unfold xb, bcut. rewrite !bloc_at by auto. reflexivity. Qed.

  Lemma eb_import_ok c o N (D : list F) (keep : F -> bool) M d (g : nat -> F) :
    M <= N -> bml_get_block_sizes c N M = Ok d -> sizes_for d N -> length D = N * N ->
    (forall ib, ib < s_nb d -> count (s_nb d) (blk_keep (s_bsize d) keep (dmat o N D) ib) <= s_mb d) ->
    exists A, eb_import c o N D keep M g = Ok (Some d, A) /\ ebwf A /\ clean A /\ bN A = N /\ bM A = M /\
      bNB A = s_nb d /\ bMB A = s_mb d /\ bbs A = s_bsize d /\ meq N (ebmx A) (bcut (s_bsize d) keep (dmat o N D)).
  Proof.
    intros HM E HSz HD Hroom. pose proof HSz as (H1 & H2 & H3 & H4). unfold eb_import.
    destruct (eb_zero_ok c N M d HM E HSz) as (A & EA & HF & HN). rewrite EA. cbn [bind].
    pose proof (fr_NB _ _ _ _ _ HF) as ENB. pose proof (fr_MB _ _ _ _ _ HF) as EMB. pose proof (fr_bs _ _ _ _ _ HF) as EBS.
    rewrite offsets_ok by (rewrite ?ENB, ?EBS; lia). cbn [bind]. rewrite EBS.
    match goal with |- context [for_n (bNB A) ?b A] => set (body := b) end.
    assert (G : wpq False (for_n (bNB A) body A) (fun B => ebwf B /\ kin A B /\ (clean A -> clean B) /\
       forall ib jb k, ib < bNB A -> jb < bNB A -> k < bsz (bbs A) ib * bsz (bbs A) jb -> bel B ib jb k =
        if blk_keep (s_bsize d) keep (dmat o N D) ib jb then xb (s_bsize d) (dmat o N D) ib jb k else k0)).
    { apply build_rows'; [apply HF|intros; apply (fr_row _ _ _ _ _ HF)|]. intros ib B Hi W K H0. pose proof K as (_ & _ & EN & EM & EB & _).
      unfold body. pose proof W as (HS & HO & HR). apply wp_bind. apply b_wnnz_ok'; [auto|lia|]. intros B1 N1.
      assert (E0 : bnz B ib = 0) by (rewrite <- brow_length, H0; auto).
      pose proof (ns_kin _ _ _ _ N1) as K1. pose proof K1 as (_ & _ & EN1 & EM1 & EB1 & _).
      assert (HNZ : forall i, bnz B1 i = bnz B i). { intros i. destruct (Nat.eq_dec i ib) as [->|]; [rewrite (ns_at _ _ _ _ N1), E0; auto|apply (ns_other _ _ _ _ N1); auto]. }
      assert (Hsame : forall i, row_same (bnz B) B B1 i).
      { intros i. constructor; intros; [apply HNZ|eapply nnz_set_col; eauto|eapply nnz_set_addr; eauto|eapply nnz_set_obj; eauto]. }
      assert (Hbrow : forall i, i < bNB B -> brow B1 i = brow B i). { intros i Hi'. apply (row_same_brow (bnz B)); auto. apply ebwf_nnz; auto. }
      assert (W1 : ebwf B1).
      { split; [eapply kin_shape; eauto|]. split.
        - apply own_cap_eq with (cap := bnz B); [intros; apply HNZ|]. eapply nnz_set_own; eauto.
        - rewrite EN1. intros i Hi'. apply (row_same_ok (bnz B) B); auto. apply ebwf_nnz; auto. }
      assert (C1 : clean B -> clean B1).
      { intros HC i jp Hi' Hj. rewrite HNZ in Hj. rewrite (nnz_set_addr B ib 0 B1) by auto. apply HC; congruence. }
      eapply wp_mono. { apply (build_row B1 ib (seq 0 (bNB A)) (fun t => t) (fun jb => blk_keep (s_bsize d) keep (dmat o N D) ib jb)
             (fun jb k => xb (s_bsize d) (dmat o N D) ib jb k)).
        - auto. - lia. - rewrite Hbrow by lia. auto. - rewrite map_id. apply seq_NoDup.
        - intros t Ht. apply in_seq in Ht. lia.
        - rewrite EM1, EM, EMB, ENB. apply Hroom. lia.
        - intros B' jb Hjb W' K' Hm Hnc. apply in_seq in Hjb. pose proof W' as (HS' & _ & _). pose proof K' as (_ & _ & EN' & EM' & EB' & _).
          assert (EBB : bbs B' = s_bsize d) by congruence.
          apply wp_bind. rewrite b_bs_ok by (auto; lia). cbn [wpq]. apply wp_bind. rewrite b_bs_ok by (auto; lia). cbn [wpq]. rewrite EBB.
          assert (EBB1 : bbs B1 = s_bsize d) by congruence. rewrite EBB1.
          set (bi := bsz (s_bsize d) ib). set (bj := bsz (s_bsize d) jb).
          apply wp_bind. eapply wp_mono. { apply (blk_fill_ok bi bj _ (fun ii jj => dmat o N D (boff (s_bsize d) ib + ii) (boff (s_bsize d) jb + jj))).
            - rewrite map_length, seq_length. auto.
            - intros ii jj Hii Hjj. rewrite !(rd_ok (map (boff (s_bsize d)) (seq 0 (bNB A))) _ 0) by (rewrite map_length, seq_length; lia). cbn [bind].
              rewrite !nth_map_seq by lia. rewrite dmat_pos.
              apply rd_ok. rewrite HD. apply dense_pos_lt; rewrite <- H4; apply boff_in; auto; lia. }
          intros x (Lx & Vx). rewrite map_length, seq_length in Lx.
          apply wp_bind. rewrite blk_above_ok by lia. cbn [wpq].
          assert (Ek : existsb (fun k => keep (nth k x k0)) (seq 0 (bi * bj)) = blk_keep (s_bsize d) keep (dmat o N D) ib jb).
          { unfold blk_keep. apply existsb_ext. intros k Hk. apply in_seq in Hk. rewrite Vx by lia. reflexivity. }
          rewrite Ek. destruct (blk_keep (s_bsize d) keep (dmat o N D) ib jb); [|cbn [wpq]; auto].
          apply wp_bind. rewrite b_nnz_ok by (auto; lia). cbn [wpq].
          apply (new_block_ok B' ib jb (bi * bj) g _ (fun y => forall k, k < bi * bj -> nth k y k0 = xb (s_bsize d) (dmat o N D) ib jb k)); auto; try lia.
          + rewrite EBB. auto.
          + intros z Lz. eapply wp_mono; [apply (blk_map_ok (bi * bj) _ (fun k => nth k x k0)); [lia|intros; apply rd_ok; lia]|].
            intros y (L1 & Y1 & _). split; [lia|]. intros k Hk. rewrite Y1 by auto. apply Vx; auto.
          + intros y B'' Ly Hy HP. exists y. split; auto. }
      intros B' (W' & K' & O' & C' & V' & Z'). pose proof K' as (_ & _ & EN' & EM' & EB' & _).
      split; auto. split; [eapply kin_trans; eauto|]. split; [intros i Hi' Hne; rewrite O' by (auto; lia); apply Hbrow; auto|]. split; [auto|].
      intros jb k Hj Hk. apply V'; [apply in_seq; lia|]. rewrite EB1. auto. }
    match type of G with wpq _ ?t _ => destruct t as [B| | |] end; cbn [wpq bind] in G |- *; try tauto.
    destruct G as (W & K & C & V). exists B. split; [reflexivity|]. split; auto. split; [apply C, HF|].
    pose proof K as (EN & EMM & ENB' & EMB' & EB & _).
    split; [congruence|]. split; [rewrite EMM; apply HF|]. split; [congruence|]. split; [congruence|]. split; [congruence|].
    assert (HNB : bN B = N) by congruence. rewrite <- HNB at 1.
    pose proof W as (HS & _ & _). apply meq_blocks; auto. rewrite ENB', EB. intros ib jb k Hi Hj Hk. rewrite V by auto. rewrite EBS in *.
    rewrite bcut_xb by (auto; lia). reflexivity.
  Qed.

  (** ** threshold_new *)
  Lemma eb_threshold_new_ok c (keep : F -> bool) A (g : nat -> F) : ebwf A -> good_cache c ->
    exists B, eb_threshold_new c keep A g = Ok (cache_after c (bNB A) (bMB A) (bbs A), B) /\ ebwf B /\ clean B /\ same_dims A B /\
      meq (bN A) (ebmx B) (mcut keep (ebmx A)).
  Proof.
    intros HW HC. pose proof HW as (HS & HO & HR). unfold eb_threshold_new.
    destruct (block_matrix_ok (F:=F) c (bNB A) (bMB A) (bM A) (bbs A)) as (B0 & EB0 & HF); try apply HS; auto.
    { rewrite <- (sh_bs A HS), <- shape_N by auto. apply HS. }
    rewrite EB0. cbn [bind].
    pose proof (fr_NB _ _ _ _ _ HF) as ENB. pose proof (fr_MB _ _ _ _ _ HF) as EMB. pose proof (fr_bs _ _ _ _ _ HF) as EBS.
    match goal with |- context [for_n (bNB A) ?b B0] => set (body := b) end.
    replace (for_n (bNB A) body B0) with (for_n (bNB B0) body B0) by (rewrite ENB; reflexivity).
    assert (G : wpq False (for_n (bNB B0) body B0) (fun B => ebwf B /\ kin B0 B /\ (clean B0 -> clean B) /\
       forall ib jb k, ib < bNB B0 -> jb < bNB B0 -> k < bsz (bbs B0) ib * bsz (bbs B0) jb -> bel B ib jb k = cut keep (bel A ib jb k))).
    { apply build_rows'; [apply HF|intros; apply (fr_row _ _ _ _ _ HF)|]. intros ib B Hi W K H0. pose proof K as (_ & _ & EN & EM & EB & _).
      unfold body. assert (HiA : ib < bNB A) by lia. rewrite b_for_row_unfold by auto. unfold for_n.
      set (p := fun jp => existsb (fun k => keep (nth k (sblk A ib jp) k0)) (seq 0 (bsz (bbs A) ib * bsz (bbs A) (scol A ib jp)))).
      eapply wp_mono. { apply (build_row B ib (seq 0 (bnz A ib)) (scol A ib) p (fun jp k => cut keep (nth k (sblk A ib jp) k0))).
        - auto. - lia. - auto. - apply (bro_nodup _ _ (HR ib HiA)).
        - intros jp Hj. apply in_seq in Hj. destruct (ebwf_slot A ib jp) as (_ & H & _); auto; lia.
        - rewrite EM, EMB. etransitivity; [apply filter_length_le|]. rewrite seq_length. apply ebwf_nnz; auto.
        - intros B' jp Hj W' K' Hm Hnc. apply in_seq in Hj. pose proof W' as (HS' & _ & _). pose proof K' as (_ & _ & EN' & EM' & EB' & _).
          destruct (ebwf_slot A ib jp) as (Hjm & Hjc & Hjo & Hjl); auto; try lia.
          apply wp_bind. rewrite (b_blk_ok A ib jp (sblk A ib jp)) by auto. cbn [wpq].
          apply wp_bind. rewrite b_bs_ok by auto. cbn [wpq]. apply wp_bind. rewrite b_bs_ok by auto. cbn [wpq].
          set (jb := scol A ib jp) in *. set (n := bsz (bbs A) ib * bsz (bbs A) jb) in *.
          apply wp_bind. rewrite blk_above_ok by auto. cbn [wpq]. change (existsb _ (seq 0 n)) with (p jp).
          destruct (p jp); [|cbn [wpq]; auto]. apply wp_bind. rewrite b_nnz_ok by (auto; lia). cbn [wpq].
          assert (EBB : bbs B' = bbs A) by congruence. assert (EBB1 : bbs B = bbs A) by congruence. rewrite EBB1. fold n.
          apply (new_block_ok B' ib jb n g _ (fun y => forall k, k < n -> nth k y k0 = cut keep (nth k (sblk A ib jp) k0))); auto; try lia.
          + rewrite EBB. auto.
          + intros z Lz. apply wp_bind. eapply wp_mono; [apply (blk_map_ok n _ (fun k => nth k (sblk A ib jp) k0)); [lia|intros; apply rd_ok; lia]|].
            intros y (L1 & Y1 & _). eapply wp_mono; [apply (blk_map_ok n _ (fun k => cut keep (nth k y k0))); [lia|reflexivity]|].
            intros y2 (L2 & Y2 & _). split; [lia|]. intros k Hk. rewrite Y2, Y1 by auto. reflexivity.
          + intros y B'' Ly Hy HP. exists y. split; auto. }
      intros B' (W' & K' & O' & C' & V' & Z'). split; auto. split; auto. split; auto. split; auto.
      intros jb k Hj Hk. destruct (slot_dec A ib jb) as [(jp & Hjp & <-)|Hno].
      - rewrite V' by (auto; apply in_seq; lia). rewrite (bel_hit A ib _ jp k) by auto. destruct (p jp) eqn:Ep; auto.
        unfold cut. destruct (keep (nth k (sblk A ib jp) k0)) eqn:Ek; auto. exfalso.
        assert (p jp = true); [|congruence]. unfold p. apply existsb_exists. exists k. split; auto. apply in_seq. rewrite EB, EBS in Hk. lia.
      - rewrite Z', bel_miss by (auto; intros Hin; apply in_map_iff in Hin as (jp & Ej & Hin); apply in_seq in Hin; apply (Hno jp); auto; lia).
        unfold cut. destruct (keep k0); auto. }
    match type of G with wpq _ ?t _ => destruct t as [B| | |] end; cbn [wpq bind] in G |- *; try tauto.
    destruct G as (W & K & C & V). exists B. split; [reflexivity|]. split; auto. split; [apply C, HF|].
    pose proof K as (EN & EMM & ENB' & EMB' & EB & _).
    assert (HN : bN B = bN A). { rewrite EN, (fr_N _ _ _ _ _ HF), <- (sh_bs A HS). symmetry. apply shape_N; auto. }
    split. { unfold same_dims. rewrite EMM, (fr_M _ _ _ _ _ HF). repeat split; congruence. }
    rewrite <- HN. pose proof W as (HS' & _ & _). apply meq_blocks; auto. rewrite ENB', EB. intros ib jb k Hi Hj Hk. rewrite V by auto.
    rewrite EBS, ENB in *. rewrite <- ebmx_xb by auto. reflexivity.
  Qed.
End Make.
