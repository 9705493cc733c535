(** Proofs: Gershgorin bounds, sums of absolute values, normalization of ellblock matrices. *)
From Coq Require Import Reals Lra.
From Verif Require Import Base BaseFacts Spec SpecFacts RealSpec EllpackModel EllpackSpec EllpackExact GershModel GershFacts CsrGersh
  EllblockModel EllblockSpec EllblockFacts EllblockHeap EllblockRead EllblockSet EllblockAdd EllblockProd EllblockRealModel.

(** for (q = 0; q < n; q++) t = f(q, t) *)
Fixpoint iterf {T} (n : nat) (f : nat -> T -> T) (t : T) : T := match n with 0 => t | S n => f n (iterf n f t) end.

Lemma iterf_ext {T} n (f f' : nat -> T -> T) t : (forall q t, q < n -> f q t = f' q t) -> iterf n f t = iterf n f' t.
Proof. induction n; intros H; simpl; auto. rewrite IHn by auto. apply H. lia. Qed.

Lemma iterf_proj {T U} n (f : nat -> T -> T) (f' : nat -> U -> U) (p : T -> U) t :
  (forall q t, q < n -> p (f q t) = f' q (p t)) -> p (iterf n f t) = iterf n f' (p t).
Proof. induction n; intros H; simpl; auto. rewrite H by auto. rewrite IHn by auto. reflexivity. Qed.

Lemma iterf_sum n (h : nat -> R) t : (iterf n (fun q s => s + h q) t = t + bigsum (F:=Rscalar) n h)%R.
Proof.
  induction n; simpl iterf; simpl bigsum.
  - change (@k0 Rscalar) with 0%R. ring.
  - rewrite IHn. change (kadd (s:=Rscalar)) with Rplus. ring.
Qed.

(** at most one assignment *)
Lemma iterf_none {T} n (f : nat -> T -> T) t : (forall q t, q < n -> f q t = t) -> iterf n f t = t.
Proof. induction n; intros H; simpl; auto. rewrite IHn by auto. apply H; lia. Qed.
Lemma iterf_one {T} n (f : nat -> T -> T) t p v : p < n -> (forall t, f p t = v) -> (forall q t, q < n -> q <> p -> f q t = t) -> iterf n f t = v.
Proof.
  induction n; intros Hp Hv Ho; [lia|]. simpl. destruct (Nat.eq_dec p n) as [->|Hne]; [apply Hv|].
  rewrite Ho by lia. apply IHn; auto; lia.
Qed.

Section Elements.
  Local Notation eb := (eb Rscalar).
  Context {S T : Type} (get : S -> nat -> T) (good : S -> Prop) (N : nat).
  Variable body : nat -> nat -> nat -> nat -> nat -> R -> S -> res S.
  Variable step : nat -> nat -> nat -> nat -> R -> T -> T.
  Hypothesis body_ok : forall ib jb ii jj i v s, good s -> i < N ->
    wp (body ib jb ii jj i v s) (fun s' => good s' /\ get s' i = step ib jb ii jj v (get s i) /\ forall q, q <> i -> get s' q = get s q).

  (** the value of row ii of block row ib after all its slots *)
  Definition row_value (A : eb) (ib ii : nat) (t : T) : T :=
    iterf (bnz A ib) (fun jp t => iterf (bsz (bbs A) (scol A ib jp)) (fun jj t =>
      step ib (scol A ib jp) ii jj (nth (ii * bsz (bbs A) (scol A ib jp) + jj) (sblk A ib jp) (k0 : Rscalar)) t) t) t.

  Lemma elements_ok (A : eb) s0 : ebwf A -> N = bN A -> good s0 ->
    wp (eb_elements A body s0) (fun s => good s /\
      forall ib ii, ib < bNB A -> ii < bsz (bbs A) ib -> get s (boff (bbs A) ib + ii) = row_value A ib ii (get s0 (boff (bbs A) ib + ii))).
  Proof.
    intros HW EN G0. pose proof HW as (HS & HO & HR). unfold eb_elements.
    pose proof (shape_N A HS) as EN'. rewrite (sh_bs A HS), <- EN in EN'. set (bs := bbs A) in *.
    apply wp_bind. apply wp_mono with (P := fun p : S * nat => good (fst p) /\
      forall ib ii, ib < bNB A -> ii < bsz bs ib -> get (fst p) (boff bs ib + ii) = row_value A ib ii (get s0 (boff bs ib + ii))).
    2:{ intros [s off] H. cbn [wp wpq]. exact H. }
    eapply wp_mono.
    - apply (for_n_inv (fun n (p : S * nat) => good (fst p) /\ snd p = boff bs n /\
        (forall ib ii, ib < n -> ii < bsz bs ib -> get (fst p) (boff bs ib + ii) = row_value A ib ii (get s0 (boff bs ib + ii))) /\
        (forall q, boff bs n <= q -> get (fst p) q = get s0 q))).
      + repeat split; auto. intros; lia.
      + intros ib [s off] Hi (G & E & H1 & H2). cbn [fst snd] in *. subst off.
        apply wp_bind. rewrite b_for_row_unfold by auto.
        set (P := fun n (s' : S) => good s' /\ (forall q, (forall ii, ii < bsz bs ib -> q <> boff bs ib + ii) -> get s' q = get s q) /\
          forall ii, ii < bsz bs ib -> get s' (boff bs ib + ii) =
            iterf n (fun jp t => iterf (bsz bs (scol A ib jp)) (fun jj t =>
              step ib (scol A ib jp) ii jj (nth (ii * bsz bs (scol A ib jp) + jj) (sblk A ib jp) (k0 : Rscalar)) t) t) (get s (boff bs ib + ii))).
        apply wp_mono with (P := P (bnz A ib)).
        * apply (for_n_inv P).
          { repeat split; auto. }
          intros jp s1 Hjp (G1 & P1 & P2). destruct (ebwf_slot A ib jp) as (Hm & Hc & Hx & Hl); auto.
          rewrite (b_blk_ok A ib jp (sblk A ib jp)) by auto. cbn [bind]. rewrite !b_bs_ok by auto. cbn [bind]. fold bs.
          change (bbs A) with bs in Hl. set (jb := scol A ib jp) in *. set (bi := bsz bs ib) in *. set (bj := bsz bs jb) in *.
          (* rows of the block *)
          unfold for_2.
          eapply wp_mono.
          { apply (for_n_inv (fun n (s2 : S) => good s2 /\ (forall q, (forall ii, ii < bi -> q <> boff bs ib + ii) -> get s2 q = get s1 q) /\
              (forall ii, ii < n -> get s2 (boff bs ib + ii) = iterf bj (fun jj t => step ib jb ii jj (nth (ii * bj + jj) (sblk A ib jp) (k0 : Rscalar)) t) (get s1 (boff bs ib + ii))) /\
              (forall ii, n <= ii -> ii < bi -> get s2 (boff bs ib + ii) = get s1 (boff bs ib + ii)))).
            - repeat split; auto. intros; lia.
            - intros ii s2 Hii (G2 & R1 & R2 & R3).
              assert (HiN : boff bs ib + ii < N). { rewrite EN'. apply boff_in; auto. }
              eapply wp_mono.
              { apply (for_n_inv (fun n (s3 : S) => good s3 /\ (forall q, q <> boff bs ib + ii -> get s3 q = get s2 q) /\
                  get s3 (boff bs ib + ii) = iterf n (fun jj t => step ib jb ii jj (nth (ii * bj + jj) (sblk A ib jp) (k0 : Rscalar)) t) (get s1 (boff bs ib + ii)))).
                - split; [auto|]. split; [auto|]. simpl iterf. apply R3; auto.
                - intros jj s3 Hjj (G3 & T1 & T2). unfold ROWMAJOR. pose proof (pos_lt bi bj ii jj Hii Hjj).
                  rewrite (rd_ok _ _ (k0 : Rscalar)) by lia. cbn [bind]. eapply wp_mono; [apply body_ok; auto|].
                  intros s4 (G4 & U1 & U2). split; [auto|]. split.
                  + intros q Hq. rewrite U2 by auto. auto.
                  + simpl iterf. rewrite U1, T2. reflexivity. }
              intros s3 (G3 & T1 & T2). split; [auto|]. split; [|split].
              + intros q Hq. rewrite T1 by (apply Hq; auto). auto.
              + intros ii' Hlt. destruct (Nat.eq_dec ii' ii) as [->|]; [auto|]. rewrite T1 by lia. apply R2. lia.
              + intros ii' Hge Hlt. rewrite T1 by lia. apply R3; lia. }
          intros s2 (G2 & R1 & R2 & _). split; [auto|]. split.
          { intros q Hq. rewrite R1 by auto. auto. }
          { intros ii Hii. rewrite R2 by auto. simpl iterf. rewrite P2 by auto. reflexivity. }
        * intros s1 (G1 & P1 & P2). cbn [bind]. rewrite b_bs_ok by auto. cbn [wp wpq bind fst snd]. fold bs.
          split; [auto|]. split; [rewrite boff_S; reflexivity|]. split.
          { intros ib' ii Hib' Hii. destruct (Nat.eq_dec ib' ib) as [->|Hne].
            - rewrite P2 by auto. unfold row_value. fold bs. rewrite H2 by lia. reflexivity.
            - assert (Hlt : ib' < ib) by lia. pose proof (boff_in bs ib' ii ib Hlt Hii). rewrite P1 by (intros; lia). auto. }
          { intros q Hq. rewrite boff_S in Hq. rewrite P1 by (intros; lia). apply H2. lia. }
    - intros [s off] (G & _ & H & _). cbn [fst] in *. split; auto.
  Qed.
End Elements.

Local Open Scope R_scope.

Lemma eb_row_sum_abs (A : eb Rscalar) ib ii (p : nat -> nat -> bool) : ebwf A -> (ib < bNB A)%nat -> (ii < bsz (bbs A) ib)%nat ->
  (forall jb jj, (jb < bNB A)%nat -> (jj < bsz (bbs A) jb)%nat -> p jb jj = true -> True) ->
  bigsum (F:=Rscalar) (bnz A ib) (fun jp => bigsum (F:=Rscalar) (bsz (bbs A) (scol A ib jp)) (fun jj =>
     if p (scol A ib jp) jj then Rabs (nth (ii * bsz (bbs A) (scol A ib jp) + jj)%nat (sblk A ib jp) (k0 : Rscalar)) else 0)) =
  bigsum (F:=Rscalar) (bNB A) (fun jb => bigsum (F:=Rscalar) (bsz (bbs A) jb) (fun jj =>
     if p jb jj then Rabs (ebmx A (boff (bbs A) ib + ii)%nat (boff (bbs A) jb + jj)%nat) else 0)).
Proof.
  intros HW Hib Hii _. pose proof HW as (HS & _ & HR).
  rewrite (row_sum A ib (fun jb f => bigsum (F:=Rscalar) (bsz (bbs A) jb) (fun jj => if p jb jj then Rabs (f (ii * bsz (bbs A) jb + jj)%nat) else 0))).
  - apply (bigsum_ext (F:=Rscalar)). intros jb Hjb. apply (bigsum_ext (F:=Rscalar)). intros jj Hjj. rewrite ebmx_at by auto. reflexivity.
  - auto.
  - intros c f f' E. apply bigsum_ext. intros jj _. rewrite E. reflexivity.
  - intros c. apply bigsum_zero. intros jj _. change (@k0 Rscalar) with 0. rewrite Rabs_R0. destruct (p c jj); reflexivity.
Qed.

Lemma boff_inj bs ib ii jb jj : (ii < bsz bs ib)%nat -> (jj < bsz bs jb)%nat -> (ib < length bs)%nat -> (jb < length bs)%nat ->
  ((boff bs ib + ii =? boff bs jb + jj) = (ib =? jb) && (ii =? jj))%nat%bool.
Proof.
  intros H1 H2 H3 H4. destruct (Nat.eqb_spec (boff bs ib + ii)%nat (boff bs jb + jj)%nat) as [E|E].
  - pose proof (bloc_at bs ib ii H3 H1) as B1. pose proof (bloc_at bs jb jj H4 H2) as B2. rewrite E in B1. rewrite B1 in B2.
    injection B2 as -> ->. rewrite !Nat.eqb_refl. reflexivity.
  - destruct (Nat.eqb_spec ib jb) as [->|]; [|reflexivity]. destruct (Nat.eqb_spec ii jj) as [->|]; [congruence|reflexivity].
Qed.

(** sums of the absolute values of the rows, with or without the diagonal *)
Lemma eb_accumulate_ok (A : eb Rscalar) (diag : bool) : ebwf A ->
  exists s, eb_accumulate_offdiag A diag = Ok s /\ length s = bN A /\
    forall i, (i < bN A)%nat -> nth i s 0 = Rsum (bN A) (fun j => if (negb (Nat.eqb i j) || diag)%bool then Rabs (ebmx A i j) else 0).
Proof.
  intros HW. pose proof HW as (HS & _ & HR). apply wp_ok. unfold eb_accumulate_offdiag. eapply wp_mono.
  - apply (elements_ok (fun (s : list R) i => nth i s 0) (fun s => length s = bN A) (bN A) _
      (fun ib jb ii jj v t => if (negb (Nat.eqb ib jb) || negb (Nat.eqb ii jj) || diag)%bool then t + Rabs v else t)).
    + intros ib jb ii jj i v s G Hi. destruct (negb (ib =? jb)%nat || negb (ii =? jj)%nat || diag)%bool.
      * rewrite (rd_ok _ _ 0) by lia. cbn [bind]. rewrite wr_ok by lia. cbn [wp wpq]. rewrite length_set_nth. split; [auto|].
        split; [apply nth_set_nth_eq; lia|]. intros q Hq. apply nth_set_nth_neq; auto.
      * cbn [wp wpq]. auto.
    + auto.
    + reflexivity.
    + apply repeat_length.
  - intros s (L & H). split; [exact L|]. intros i Hi.
    pose proof (shape_N A HS) as EN. rewrite EN in Hi. destruct (bloc_spec (bbs A) i Hi) as (ib & ii & _ & Hib & Hii & ->).
    rewrite (sh_bs A HS) in Hib. rewrite H by auto. unfold row_value. rewrite nth_repeat_any.
    rewrite <- bigsum_Rsum.
    rewrite (iterf_ext (bnz A ib) _ (fun jp t => t + bigsum (F:=Rscalar) (bsz (bbs A) (scol A ib jp)) (fun jj =>
       if (negb (Nat.eqb ib (scol A ib jp)) || negb (Nat.eqb ii jj) || diag)%bool
       then Rabs (nth (ii * bsz (bbs A) (scol A ib jp) + jj)%nat (sblk A ib jp) (k0 : Rscalar)) else 0))).
    2:{ intros jp t _. rewrite <- iterf_sum. apply iterf_ext. intros jj t' _. destruct (_ || _ || _)%bool; ring. }
    rewrite iterf_sum, Rplus_0_l.
    rewrite (eb_row_sum_abs A ib ii (fun jb jj => (negb (Nat.eqb ib jb) || negb (Nat.eqb ii jj) || diag)%bool)) by auto.
    rewrite bigsum_N by auto. apply (bigsum_ext (F:=Rscalar)). intros jb Hjb. apply (bigsum_ext (F:=Rscalar)). intros jj Hjj.
    rewrite boff_inj by (rewrite ?(sh_bs A HS); auto). rewrite negb_andb. reflexivity.
Qed.

Lemma eb_gershgorin_post (A : eb Rscalar) : ebwf A ->
  exists emin emax, eb_gershgorin A = Ok (emin, emax) /\ scan_post (bN A) (fun i => ebmx A i i) (radius (bN A) (ebmx A)) (emin, emax).
Proof.
  intros HW. pose proof HW as (HS & _ & HR).
  assert (H : wp (eb_gershgorin A) (scan_post (bN A) (fun i => ebmx A i i) (radius (bN A) (ebmx A)))).
  2:{ apply wp_ok in H as ([emin emax] & E & H). exists emin, emax. auto. }
  unfold eb_gershgorin. apply wp_bind. eapply wp_mono.
  - apply (elements_ok (fun (s : list R * list R) i => (nth i (fst s) 0, nth i (snd s) 0)) (fun s => length (fst s) = bN A /\ length (snd s) = bN A) (bN A) _
      (fun ib jb ii jj v t => if (Nat.eqb ib jb && Nat.eqb ii jj)%bool then (v, snd t) else (fst t, snd t + Rabs v))).
    + intros ib jb ii jj i v [d r] [G1 G2] Hi. cbn [fst snd] in *. destruct (ib =? jb)%nat eqn:E1; [destruct (ii =? jj)%nat eqn:E2|]; cbn [andb].
      * rewrite wr_ok by lia. cbn [bind wp wpq fst snd]. rewrite length_set_nth, nth_set_nth_eq by lia. split; [auto|].
        split; [reflexivity|]. intros q Hq. rewrite nth_set_nth_neq by auto. reflexivity.
      * rewrite (rd_ok _ _ 0) by lia. cbn [bind]. rewrite wr_ok by lia. cbn [bind wp wpq fst snd]. rewrite length_set_nth, nth_set_nth_eq by lia. split; [auto|].
        split; [reflexivity|]. intros q Hq. rewrite nth_set_nth_neq by auto. reflexivity.
      * rewrite (rd_ok _ _ 0) by lia. cbn [bind]. rewrite wr_ok by lia. cbn [bind wp wpq fst snd]. rewrite length_set_nth, nth_set_nth_eq by lia. split; [auto|].
        split; [reflexivity|]. intros q Hq. rewrite nth_set_nth_neq by auto. reflexivity.
    + auto.
    + reflexivity.
    + cbn [fst snd]. rewrite !repeat_length. auto.
  - intros [dval rad] ([L1 L2] & H). cbn [fst snd] in *.
    assert (V : forall i, (i < bN A)%nat -> nth i dval 0 = ebmx A i i /\ nth i rad 0 = radius (bN A) (ebmx A) i).
    { intros i Hi. pose proof (shape_N A HS) as EN. rewrite EN in Hi. destruct (bloc_spec (bbs A) i Hi) as (ib & ii & _ & Hib & Hii & ->).
      rewrite (sh_bs A HS) in Hib. specialize (H ib ii Hib Hii). rewrite !nth_repeat_any in H. unfold row_value in H.
      split.
      - assert (E : nth (boff (bbs A) ib + ii)%nat dval 0 = iterf (bnz A ib) (fun jp t => iterf (bsz (bbs A) (scol A ib jp)) (fun jj t =>
           if (Nat.eqb ib (scol A ib jp) && Nat.eqb ii jj)%bool then nth (ii * bsz (bbs A) (scol A ib jp) + jj)%nat (sblk A ib jp) (k0 : Rscalar) else t) t) 0).
        { apply (f_equal fst) in H. cbn [fst] in H. rewrite H.
          rewrite (iterf_proj (bnz A ib) _ (fun jp t => iterf (bsz (bbs A) (scol A ib jp)) (fun jj t =>
             if (Nat.eqb ib (scol A ib jp) && Nat.eqb ii jj)%bool then nth (ii * bsz (bbs A) (scol A ib jp) + jj)%nat (sblk A ib jp) (k0 : Rscalar) else t) t) fst); [reflexivity|].
          intros jp t _. apply (iterf_proj _ _ _ fst). intros jj t' _. destruct (_ && _)%bool; reflexivity. }
        rewrite E, ebmx_at by auto. destruct (slot_dec A ib ib) as [(jp & Hjp & Es)|Hn].
        + rewrite (bel_hit A ib ib jp) by auto.
          apply (iterf_one _ _ _ jp).
          * auto.
          * intros t. apply (iterf_one _ _ _ ii).
            { rewrite Es. auto. }
            { intros t'. rewrite Es, !Nat.eqb_refl. reflexivity. }
            { intros jj t' _ Hne. destruct (Nat.eqb_spec ii jj); [congruence|]. rewrite andb_false_r. reflexivity. }
          * intros jq t Hjq Hne. apply iterf_none. intros jj t' _. destruct (Nat.eqb_spec ib (scol A ib jq)) as [Eq|]; [|reflexivity].
            destruct Hne. apply (scol_inj A ib); auto. congruence.
        + rewrite bel_miss by auto. apply iterf_none. intros jp t Hjp. apply iterf_none. intros jj t' _.
          destruct (Nat.eqb_spec ib (scol A ib jp)) as [Eq|]; [|reflexivity]. destruct (Hn jp Hjp). auto.
      - assert (E : nth (boff (bbs A) ib + ii)%nat rad 0 = iterf (bnz A ib) (fun jp t => t + bigsum (F:=Rscalar) (bsz (bbs A) (scol A ib jp)) (fun jj =>
           if negb (Nat.eqb ib (scol A ib jp) && Nat.eqb ii jj)%bool then Rabs (nth (ii * bsz (bbs A) (scol A ib jp) + jj)%nat (sblk A ib jp) (k0 : Rscalar)) else 0)) 0).
        { apply (f_equal snd) in H. cbn [snd] in H. rewrite H.
          rewrite (iterf_proj (bnz A ib) _ (fun jp t => t + bigsum (F:=Rscalar) (bsz (bbs A) (scol A ib jp)) (fun jj =>
             if negb (Nat.eqb ib (scol A ib jp) && Nat.eqb ii jj)%bool then Rabs (nth (ii * bsz (bbs A) (scol A ib jp) + jj)%nat (sblk A ib jp) (k0 : Rscalar)) else 0)) snd); [reflexivity|].
          intros jp t _. rewrite <- iterf_sum. apply (iterf_proj _ _ _ snd). intros jj t' _. destruct (_ && _)%bool; cbn [negb snd]; ring. }
        rewrite E, iterf_sum, Rplus_0_l.
        rewrite (eb_row_sum_abs A ib ii (fun jb jj => negb (Nat.eqb ib jb && Nat.eqb ii jj)%bool)) by auto.
        unfold radius. rewrite <- (bigsum_Rsum (bN A)). rewrite bigsum_N by auto. apply (bigsum_ext (F:=Rscalar)). intros jb Hjb. apply (bigsum_ext (F:=Rscalar)). intros jj Hjj.
        rewrite boff_inj by (rewrite ?(sh_bs A HS); auto). destruct (_ && _)%bool; reflexivity. }
    apply scan_ok; intros i Hi; destruct (V i Hi) as [V1 V2].
    + rewrite (rd_ok _ _ None) by (rewrite map_length; lia). f_equal. rewrite (nth_indep _ None (Some 0)) by (rewrite map_length; lia). rewrite map_nth, V1. reflexivity.
    + rewrite (rd_ok _ _ None) by (rewrite map_length; lia). f_equal. rewrite (nth_indep _ None (Some 0)) by (rewrite map_length; lia). rewrite map_nth, V2. reflexivity.
Qed.

Lemma eb_gershgorin_bounds (A : eb Rscalar) : ebwf A ->
  exists emin emax, eb_gershgorin A = Ok (emin, emax) /\ forall lambda, eigenvalue (bN A) (ebmx A) lambda -> emin <= lambda <= emax.
Proof.
  intros HW. destruct (eb_gershgorin_post A HW) as (emin & emax & E & H). exists emin, emax. split; [exact E|].
  intros lambda. apply (scan_bounds (bN A) (ebmx A) emin emax lambda H).
Qed.

Lemma eb_gershgorin_exact (A : eb Rscalar) : ebwf A ->
  (exists i, (i < bN A)%nat /\ DBL_MIN <= ebmx A i i + radius (bN A) (ebmx A) i) ->
  (exists i, (i < bN A)%nat /\ ebmx A i i - radius (bN A) (ebmx A) i <= DBL_MAX) ->
  exists emin emax, eb_gershgorin A = Ok (emin, emax) /\
    (forall i, (i < bN A)%nat -> emin <= ebmx A i i - radius (bN A) (ebmx A) i) /\
    (exists i, (i < bN A)%nat /\ emin = ebmx A i i - radius (bN A) (ebmx A) i) /\
    (forall i, (i < bN A)%nat -> ebmx A i i + radius (bN A) (ebmx A) i <= emax) /\
    (exists i, (i < bN A)%nat /\ emax = ebmx A i i + radius (bN A) (ebmx A) i).
Proof.
  intros HW H1 H2. destruct (eb_gershgorin_post A HW) as (emin & emax & E & H). exists emin, emax. split; [exact E|].
  apply (scan_exact (bN A) (fun i => ebmx A i i) (radius (bN A) (ebmx A)) emin emax H H1 H2).
Qed.

Lemma eb_normalize_ok s c (A : eb Rscalar) mineval maxeval g nth_ sched : ebwf A -> (0 < bN A)%nat -> own_sizes c A ->
  uniform s A -> roomy (s * s)%nat A -> (forall ib, (ib < bNB A)%nat -> In ib (bcols A ib) \/ (bnz A ib < bMB A)%nat) ->
  full_sched (bNB A) nth_ sched -> mineval <> maxeval ->
  exists A', eb_normalize c A mineval maxeval g sched = Ok (c, A') /\ ebwf A' /\ same_dims A A' /\
    forall i j, (i < bN A)%nat -> (j < bN A)%nat -> ebmx A' i j = (maxeval * mid (F:=Rscalar) i j - ebmx A i j) / (maxeval - mineval).
Proof.
  intros HW HN HC HU HRm Hroom HSc Hne. unfold eb_normalize.
  destruct (eb_scale_add_identity_ok s c (gtR 0 : Rscalar -> bool) ((-1 / (maxeval - mineval)) : Rscalar) ((maxeval / (maxeval - mineval)) : Rscalar)
    A (g : nat -> Rscalar) nth_ sched HW HN HC HU HRm Hroom HSc) as (A' & E & W & _ & D & H).
  exists A'. split; [exact E|]. split; [exact W|]. split; [exact D|]. intros i j Hi Hj. rewrite H by auto.
  rewrite (bcut_exact _ _ (bN A)); auto; [|apply gtR0_nonzero|apply shape_N; apply HW].
  unfold madd, mscale. change (kadd (s:=Rscalar)) with Rplus. change (kmul (s:=Rscalar)) with Rmult. change (@eq (K Rscalar)) with (@eq R). field. lra.
Qed.

Lemma eb_fnorm_ok (A : eb Rscalar) : ebwf A -> eb_fnorm A = Ok (sqrt (Rsum (bN A) (fun i => Rsum (bN A) (fun j => ebmx A i j * ebmx A i j)))).
Proof.
  intros HW. unfold eb_fnorm. rewrite eb_sum_squares_ok by auto. cbn [bind]. do 2 f_equal.
Qed.
