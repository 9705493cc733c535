(** Dense matrices over the reals: thresholds, Gershgorin bounds, normalize. *)
From Coq Require Import Reals Lra.
From Verif Require Import Base BaseFacts Spec SpecFacts RealSpec EllpackModel EllpackSpec EllpackFacts EllpackOps
  EllpackArith EllpackExact GershModel GershFacts CsrGersh DenseModel DenseSpec DenseFacts DenseOps DenseRealModel.
Local Open Scope R_scope.

Lemma radius_sum N (X : mat Rscalar) i : (i < N)%nat -> Rsum N (fun j => Rabs (X i j)) - Rabs (X i i) = radius N X i.
Proof. intros Hi. rewrite (Rsum_pick N (fun j => Rabs (X i j)) i Hi). unfold radius. rring. Qed.

Lemma dense_gersh_row_ok (A : dense Rscalar) i : dwf A -> (i < dN A)%nat ->
  dense_gersh_row A i = Ok (denm A i i, radius (dN A) (denm A) i).
Proof.
  intros HA Hi. unfold dense_gersh_row.
  assert (E : for_n (dN A) (fun j (radius : R) => a <- d_at A i j ;; Ok (radius + Rabs (a : R))) 0 = Ok (Rsum (dN A) (fun j => Rabs (denm A i j)))).
  { apply wp_eq. apply (for_n_inv (fun k (r : R) => r = Rsum k (fun j => Rabs (denm A i j)))); auto.
    intros j r Hj ->. rewrite d_at_ok by auto. reflexivity. }
  rewrite E. cbn [bind]. rewrite d_at_ok by auto. cbn [bind]. rewrite <- (radius_sum (dN A) (denm A) i Hi). reflexivity.
Qed.

Lemma combine_min_ok nth w :
  combine_min nth w <= DBL_MAX /\ (forall t x, (t < nth)%nat -> w t = Some x -> combine_min nth w <= x) /\
  (combine_min nth w = DBL_MAX \/ exists t, (t < nth)%nat /\ w t = Some (combine_min nth w)).
Proof.
  unfold combine_min. induction nth as [|n IH].
  - simpl. split; [lra|]. split; [intros; lia|auto].
  - rewrite seq_S, fold_left_app. simpl.
    set (e := fold_left _ (seq 0 n) DBL_MAX) in *. destruct IH as (H1 & H2 & H3).
    destruct (w n) as [x|] eqn:Ex; [destruct (Rlt_dec x e)|].
    + split; [lra|]. split.
      * intros t y Ht Ey. destruct (Nat.eq_dec t n) as [->|]; [rewrite Ex in Ey; inversion Ey; subst; lra|]. specialize (H2 t y ltac:(lia) Ey). lra.
      * right. exists n. split; [lia|auto].
    + split; [lra|]. split.
      * intros t y Ht Ey. destruct (Nat.eq_dec t n) as [->|]; [rewrite Ex in Ey; inversion Ey; subst; lra|]. specialize (H2 t y ltac:(lia) Ey). lra.
      * destruct H3 as [H3|(t & Ht & H3)]; [auto|]. right. exists t. split; [lia|auto].
    + split; [lra|]. split.
      * intros t y Ht Ey. destruct (Nat.eq_dec t n) as [->|]; [congruence|]. apply (H2 t); auto. lia.
      * destruct H3 as [H3|(t & Ht & H3)]; [auto|]. right. exists t. split; [lia|auto].
Qed.

Lemma combine_max_ok nth w :
  DBL_MIN <= combine_max nth w /\ (forall t x, (t < nth)%nat -> w t = Some x -> x <= combine_max nth w) /\
  (combine_max nth w = DBL_MIN \/ exists t, (t < nth)%nat /\ w t = Some (combine_max nth w)).
Proof.
  unfold combine_max. induction nth as [|n IH].
  - simpl. split; [lra|]. split; [intros; lia|auto].
  - rewrite seq_S, fold_left_app. simpl.
    set (e := fold_left _ (seq 0 n) DBL_MIN) in *. destruct IH as (H1 & H2 & H3).
    destruct (w n) as [x|] eqn:Ex; [destruct (Rlt_dec e x)|].
    + split; [lra|]. split.
      * intros t y Ht Ey. destruct (Nat.eq_dec t n) as [->|]; [rewrite Ex in Ey; inversion Ey; subst; lra|]. specialize (H2 t y ltac:(lia) Ey). lra.
      * right. exists n. split; [lia|auto].
    + split; [lra|]. split.
      * intros t y Ht Ey. destruct (Nat.eq_dec t n) as [->|]; [rewrite Ex in Ey; inversion Ey; subst; lra|]. specialize (H2 t y ltac:(lia) Ey). lra.
      * destruct H3 as [H3|(t & Ht & H3)]; [auto|]. right. exists t. split; [lia|auto].
    + split; [lra|]. split.
      * intros t y Ht Ey. destruct (Nat.eq_dec t n) as [->|]; [congruence|]. apply (H2 t); auto. lia.
      * destruct H3 as [H3|(t & Ht & H3)]; [auto|]. right. exists t. split; [lia|auto].
Qed.

Lemma red_min_le m x : red_min m x <= x /\ (forall e, m = Some e -> red_min m x <= e) /\ (red_min m x = x \/ m = Some (red_min m x)).
Proof.
  unfold red_min. destruct m as [e|]; [destruct (Rlt_dec x e)|].
  - split; [lra|]. split; [intros e' [= ->]; lra|auto].
  - split; [lra|]. split; [intros e' [= ->]; lra|auto].
  - split; [lra|]. split; [discriminate|auto].
Qed.
Lemma red_max_ge m x : x <= red_max m x /\ (forall e, m = Some e -> e <= red_max m x) /\ (red_max m x = x \/ m = Some (red_max m x)).
Proof.
  unfold red_max. destruct m as [e|]; [destruct (Rlt_dec e x)|].
  - split; [lra|]. split; [intros e' [= ->]; lra|auto].
  - split; [lra|]. split; [intros e' [= ->]; lra|auto].
  - split; [lra|]. split; [discriminate|auto].
Qed.

Lemma dense_gershgorin_ok (A : dense Rscalar) n nth sched : dwf A -> (n <= dN A)%nat -> full_sched n nth sched ->
  exists emin emax, dense_gershgorin A nth sched = Ok (emin, emax) /\
    scan_post n (fun i => denm A i i) (radius (dN A) (denm A)) (emin, emax).
Proof.
  intros HA Hn [HP HT]. set (d := fun i => denm A i i). set (r := radius (dN A) (denm A)).
  assert (G : wp (dense_gershgorin A nth sched) (scan_post n d r)).
  { unfold dense_gershgorin. apply wp_bind. eapply wp_mono.
    - apply (par_for_inv (fun done (_ : unit) (w : nat -> option R * option R) =>
        (forall i, In i done -> exists t e, (t < nth)%nat /\ fst (w t) = Some e /\ e <= d i - r i) /\
        (forall i, In i done -> exists t e, (t < nth)%nat /\ snd (w t) = Some e /\ d i + r i <= e) /\
        (forall t e, fst (w t) = Some e -> exists i, (i < n)%nat /\ e = d i - r i) /\
        (forall t e, snd (w t) = Some e -> exists i, (i < n)%nat /\ e = d i + r i))).
      + split; [intros i []|]. split; [intros i []|]. split; discriminate.
      + intros pre t i post [] w E (H1 & H2 & H3 & H4).
        assert (Hi : (i < n)%nat).
        { assert (In i (map snd sched)) by (rewrite E, map_app; apply in_app_iff; right; left; auto).
          rewrite HP in H. apply in_seq in H. lia. }
        assert (Ht : (t < nth)%nat) by (apply (HT t i); rewrite E; apply in_app_iff; right; left; auto).
        destruct (w t) as [mn mx] eqn:Ew. rewrite dense_gersh_row_ok by (auto; lia). cbn [bind wp wpq fst snd].
        fold r. change (denm A i i) with (d i).
        destruct (red_min_le mn (d i - r i)) as (A1 & A2 & A3). destruct (red_max_ge mx (d i + r i)) as (B1 & B2 & B3).
        set (w' := upd_fun w t (Some (red_min mn (d i - r i)), Some (red_max mx (d i + r i)))).
        assert (Wt : w' t = (Some (red_min mn (d i - r i)), Some (red_max mx (d i + r i)))) by (unfold w', upd_fun; rewrite Nat.eqb_refl; auto).
        assert (Wo : forall u, u <> t -> w' u = w u) by (intros u Hu; unfold w', upd_fun; destruct (Nat.eqb_spec u t); [congruence|auto]).
        split; [|split; [|split]].
        * intros q Hq. apply in_app_iff in Hq as [Hq|[<-|[]]].
          -- destruct (H1 q Hq) as (u & e & Hu & He & Hle). destruct (Nat.eq_dec u t) as [->|Hne].
             ++ exists t, (red_min mn (d i - r i)). rewrite Wt. split; auto. split; auto. rewrite Ew in He. specialize (A2 e He). lra.
             ++ exists u, e. rewrite Wo by auto. auto.
          -- exists t, (red_min mn (d i - r i)). rewrite Wt. auto.
        * intros q Hq. apply in_app_iff in Hq as [Hq|[<-|[]]].
          -- destruct (H2 q Hq) as (u & e & Hu & He & Hle). destruct (Nat.eq_dec u t) as [->|Hne].
             ++ exists t, (red_max mx (d i + r i)). rewrite Wt. split; auto. split; auto. rewrite Ew in He. specialize (B2 e He). lra.
             ++ exists u, e. rewrite Wo by auto. auto.
          -- exists t, (red_max mx (d i + r i)). rewrite Wt. auto.
        * intros u e He. destruct (Nat.eq_dec u t) as [->|Hne].
          -- rewrite Wt in He. injection He as <-. destruct A3 as [A3|A3].
             ++ exists i. auto.
             ++ apply (H3 t). rewrite Ew. auto.
          -- rewrite Wo in He by auto. apply (H3 u); auto.
        * intros u e He. destruct (Nat.eq_dec u t) as [->|Hne].
          -- rewrite Wt in He. injection He as <-. destruct B3 as [B3|B3].
             ++ exists i. auto.
             ++ apply (H4 t). rewrite Ew. auto.
          -- rewrite Wo in He by auto. apply (H4 u); auto.
    - intros [[] w] (H1 & H2 & H3 & H4). cbn [fst snd] in *.
      destruct (combine_min_ok nth (fun t => fst (w t))) as (A1 & A2 & A3).
      destruct (combine_max_ok nth (fun t => snd (w t))) as (B1 & B2 & B3).
      assert (Hin : forall i, (i < n)%nat -> In i (map snd sched)) by (intros i Hi; rewrite HP; apply in_seq; lia).
      unfold wp, wpq, scan_post. cbn [fst snd]. split; auto. split; auto. split; [|split; [|split]].
      + intros i Hi. destruct (H1 i (Hin i Hi)) as (t & e & Ht & He & Hle). specialize (A2 t e Ht He). lra.
      + intros i Hi. destruct (H2 i (Hin i Hi)) as (t & e & Ht & He & Hle). specialize (B2 t e Ht He). lra.
      + destruct A3 as [A3|(t & Ht & He)]; [auto|]. right. apply (H3 t); auto.
      + destruct B3 as [B3|(t & Ht & He)]; [auto|]. right. apply (H4 t); auto. }
  apply wp_ok in G as ([emin emax] & E & H). eauto.
Qed.

Lemma dense_gershgorin_bounds (A : dense Rscalar) nth sched : dwf A -> full_sched (dN A) nth sched ->
  exists emin emax, dense_gershgorin A nth sched = Ok (emin, emax) /\
    forall lambda, eigenvalue (dN A) (denm A) lambda -> emin <= lambda <= emax.
Proof.
  intros HA HP. destruct (dense_gershgorin_ok A (dN A) nth sched HA (le_n _) HP) as (emin & emax & E & H).
  exists emin, emax. split; auto. intros lambda. apply scan_bounds; auto.
Qed.

Lemma dense_gershgorin_exact (A : dense Rscalar) n nth sched : dwf A -> (n <= dN A)%nat -> full_sched n nth sched ->
  (exists i, (i < n)%nat /\ DBL_MIN <= denm A i i + radius (dN A) (denm A) i) ->
  (exists i, (i < n)%nat /\ denm A i i - radius (dN A) (denm A) i <= DBL_MAX) ->
  exists emin emax, dense_gershgorin A nth sched = Ok (emin, emax) /\
    (forall i, (i < n)%nat -> emin <= denm A i i - radius (dN A) (denm A) i) /\
    (exists i, (i < n)%nat /\ emin = denm A i i - radius (dN A) (denm A) i) /\
    (forall i, (i < n)%nat -> denm A i i + radius (dN A) (denm A) i <= emax) /\
    (exists i, (i < n)%nat /\ emax = denm A i i + radius (dN A) (denm A) i).
Proof.
  intros HA Hn HP H1 H2. destruct (dense_gershgorin_ok A n nth sched HA Hn HP) as (emin & emax & E & H).
  exists emin, emax. split; auto. apply (scan_exact n (fun i => denm A i i) (radius (dN A) (denm A)) emin emax H H1 H2).
Qed.

Lemma dense_accumulate_offdiag_ok (A : dense Rscalar) (incl : bool) : dwf A ->
  dense_accumulate_offdiag A incl =
  Ok (map (fun i => if incl then Rsum (dN A) (fun j => Rabs (denm A i j)) else radius (dN A) (denm A) i) (seq 0 (dN A))).
Proof.
  intros HA. unfold dense_accumulate_offdiag.
  apply (fill_ok (F:=Rscalar) (dN A) (fun i => for_n (dN A) (fun j (r : R) => a <- d_at A i j ;;
           Ok (if negb (Nat.eqb i j) || incl then r + Rabs (a : R) else r)) 0)).
  intros i Hi. apply wp_eq. eapply wp_mono.
  - apply (for_n_inv (fun k (r : R) => r = Rsum k (fun j => if negb (Nat.eqb i j) || incl then Rabs (denm A i j) else 0))); auto.
    intros j r Hj ->. rewrite d_at_ok by auto. cbn [bind wp wpq]. rewrite Rsum_S. destruct (negb (Nat.eqb i j) || incl); [reflexivity|rring].
  - intros s ->. destruct incl.
    + apply Rsum_ext. intros j _. rewrite orb_true_r. auto.
    + unfold radius. apply Rsum_ext. intros j _. rewrite orb_false_r. destruct (Nat.eqb i j); auto.
Qed.

Lemma dense_threshold_bounds (t : R) (A : dense Rscalar) sched s2 : 0 <= t -> dwf A ->
  Permutation (map snd sched) (seq 0 (dN A * dN A)) -> Permutation (map snd s2) (seq 0 (dN A * dN A)) ->
  exists B, dense_threshold (gtR t : Rscalar -> bool) A sched = Ok B /\ dwf B /\ dN B = dN A /\
    (forall i j, (i < dN A)%nat -> (j < dN A)%nat -> Rabs (denm B i j - denm A i j) <= t) /\
    (forall i j, (i < dN A)%nat -> (j < dN A)%nat -> t < Rabs (denm A i j) -> denm B i j = denm A i j) /\
    exists C, dense_threshold (gtR t : Rscalar -> bool) B s2 = Ok C /\ meq (dN A) (denm C) (denm B).
Proof.
  intros Ht HA HP HP2. destruct (dense_threshold_ok (F:=Rscalar) (gtR t) A sched HA HP) as (B & E & Hw & D1 & Hm).
  exists B. split; auto. split; auto. split; auto. split; [|split].
  - intros i j Hi Hj. rewrite (Hm i j) by auto. apply cut_bound; auto.
  - intros i j Hi Hj Hgt. rewrite (Hm i j) by auto. apply cut_kept; auto.
  - rewrite <- D1 in HP2. destruct (dense_threshold_ok (F:=Rscalar) (gtR t) B s2 Hw HP2) as (C & E2 & _ & _ & Hm2).
    exists C. split; auto. intros i j Hi Hj. rewrite (Hm2 i j) by congruence. rewrite (Hm i j) by auto.
    unfold mcut. rewrite (Hm i j) by auto. apply cut_idem; auto.
Qed.

Lemma dense_normalize_ok (A : dense Rscalar) (mn mx : R) sched : dwf A -> mn <> mx ->
  Permutation (map snd sched) (seq 0 (dN A)) ->
  exists B, dense_normalize A mn mx sched = Ok B /\ dwf B /\ dN B = dN A /\
    forall i j, (i < dN A)%nat -> (j < dN A)%nat ->
      denm B i j = ((if Nat.eqb i j then mx else 0) - denm A i j) / (mx - mn).
Proof.
  intros HA Hne P. unfold dense_normalize.
  destruct (dense_scale_add_identity_ok (F:=Rscalar) (-1 / (mx - mn)) (mx / (mx - mn)) A sched HA P) as (B & E & Hw & D & Hm).
  exists B. split; auto. split; auto. split; auto. intros i j Hi Hj. rewrite (Hm i j) by congruence.
  unfold madd, mscale, mid. simpl. destruct (Nat.eqb i j); simpl; rfield; lra.
Qed.

Lemma dense_normalize_spec (A : dense Rscalar) nth sched s1 emin emax : dwf A -> full_sched (dN A) nth sched ->
  Permutation (map snd s1) (seq 0 (dN A)) ->
  dense_gershgorin A nth sched = Ok (emin, emax) -> emin < emax ->
  exists B, dense_normalize A emin emax s1 = Ok B /\ dwf B /\ dN B = dN A /\
    (forall i j, (i < dN A)%nat -> (j < dN A)%nat ->
      denm B i j = ((if Nat.eqb i j then emax else 0) - denm A i j) / (emax - emin)) /\
    forall mu, eigenvalue (dN A) (denm B) mu -> 0 <= mu <= 1.
Proof.
  intros HA HP P1 EG Hlt. destruct (dense_normalize_ok A emin emax s1 HA ltac:(lra) P1) as (B & E & Hw & D & Hm).
  exists B. repeat (split; [assumption|]). intros mu Hmu.
  apply (normalize_spectrum (denm A) (denm B) (dN A) emin emax mu); auto.
  destruct (dense_gershgorin_bounds A nth sched HA HP) as (a & b & E2 & Hb). rewrite EG in E2. inversion E2; subst. auto.
Qed.
