(** csr over the reals: thresholds, Gershgorin bounds and normalization. *)
From Coq Require Import Reals Lra.
From Verif Require Import Base BaseFacts Spec SpecFacts RealSpec EllpackModel EllpackSpec EllpackFacts EllpackOps
  EllpackArith EllpackMore EllpackExact GershModel GershFacts CsrModel CsrSpec CsrFacts CsrOps CsrMore CsrGershModel.
Local Open Scope R_scope.

(** the row loop shared by the formats *)
Lemma gersh_entries (E : list (nat * Rscalar)) N i : cols_ok N E ->
  forM E (fun kv s => (fun k (v : R) '(d, r) => if Nat.eqb i k then Ok (v, r) else Ok (d, r + Rabs v)) (fst kv) (snd kv) s) (0, 0) =
  Ok (elook E i, Rsum N (fun j => if Nat.eqb i j then 0 else Rabs (elook E j))).
Proof.
  intros [R2 R3]. apply wp_eq. eapply wp_mono.
  - apply (forM_inv (fun (pre : list (nat * Rscalar)) s => s = (elook pre i, Rsum N (fun j => if Nat.eqb i j then 0 else Rabs (elook pre j))))).
    + simpl. f_equal. symmetry. rewrite (Rsum_ext _ _ (fun _ => 0)).
      * apply Rsum_0.
      * intros j _. destruct (Nat.eqb i j); auto. apply Rabs_R0.
    + intros pre [k v] post s E1 ->. cbn [bind fst snd].
      assert (Hnew : ~ In k (cols pre)).
      { rewrite E1 in R2. unfold cols in R2. rewrite map_app in R2. simpl in R2. apply NoDup_remove_2 in R2.
        intros H. apply R2. apply in_app_iff. left. exact H. }
      assert (Hk : (k < N)%nat).
      { apply R3. rewrite E1. unfold cols. rewrite map_app. apply in_app_iff. right; left; auto. }
      assert (Hl : forall j, elook (pre ++ [(k, v)]) j = if Nat.eqb j k then v else elook pre j).
      { intros j. apply elook_app_new. auto. }
      rewrite Hl.
      destruct (Nat.eqb_spec i k) as [->|Hne]; rewrite ?Nat.eqb_refl; unfold wp, wpq; cbn [fst snd]; [|destruct (Nat.eqb_spec i k); [congruence|]]; (apply pair_eq; [reflexivity|]).
      * apply Rsum_ext. intros j Hj. rewrite Hl. destruct (Nat.eqb_spec k j) as [->|]; auto.
        destruct (Nat.eqb_spec j k); [congruence|auto].
      * rewrite (Rsum_pick _ (fun j => if Nat.eqb i j then 0 else Rabs (elook (pre ++ [(k, v)]) j)) k Hk).
        rewrite (Rsum_pick _ (fun j => if Nat.eqb i j then 0 else Rabs (elook pre j)) k Hk).
        destruct (Nat.eqb_spec i k); [congruence|].
        rewrite (Hl k), Nat.eqb_refl. rewrite (elook_notin pre k Hnew). simpl. rewrite Rabs_R0, Rplus_0_l, Rplus_comm. f_equal.
        apply Rsum_ext. intros j Hj. destruct (Nat.eqb_spec k j) as [->|Hkj]; auto. destruct (Nat.eqb i j); auto.
        rewrite Hl. destruct (Nat.eqb_spec j k); [congruence|auto].
  - intros s ->. reflexivity.
Qed.

Lemma csr_gersh_row_ok (A : csr Rscalar) i : cwf A -> (i < cN A)%nat ->
  csr_gersh_row A i = Ok (cmat A i i, radius (cN A) (cmat A) i).
Proof.
  intros HA Hi. unfold csr_gersh_row. rewrite c_row_ok by (rewrite cwf_len; auto). cbn [bind].
  rewrite (r_for_eq _ _ _ _ (cwf_is A i HA Hi)).
  apply (gersh_entries (crow A i) (cN A) i). apply HA; auto.
Qed.

(** the two loops, for any row function that returns centre and radius *)
Lemma gersh_loops (N n : nat) (f : nat -> res (R * R)) (d r : nat -> R) sched :
  (n <= N)%nat -> Permutation (map snd sched) (seq 0 n) -> (forall i, (i < n)%nat -> f i = Ok (d i, r i)) ->
  wp ('(dval, rad, _) <- par_for sched (fun i '(s, w) =>
      '(d, r) <- f i ;;
      dval <- wr (fst s) i (Some d) ;;
      rad <- wr (snd s) i (Some r) ;;
      Ok ((dval, rad), w)) (repeat None N, repeat None N) (fun _ => tt) ;;
    gersh_scan n dval rad) (scan_post n d r).
Proof.
  intros Hn HP Hf. apply wp_bind. eapply wp_mono.
  - apply (par_for_inv (fun done (s : list (option R) * list (option R)) (_ : nat -> unit) =>
      length (fst s) = N /\ length (snd s) = N /\
      (forall i, In i done -> nth i (fst s) None = Some (d i) /\ nth i (snd s) None = Some (r i)))).
    + simpl. rewrite !repeat_length. tauto.
    + intros pre t i post [dv rv] w E (H1 & H2 & H3). cbn [fst snd] in *.
      assert (Hi : (i < n)%nat).
      { assert (In i (map snd sched)) by (rewrite E, map_app; apply in_app_iff; right; left; auto).
        rewrite HP in H. apply in_seq in H. lia. }
      rewrite Hf by auto. cbn [bind]. rewrite !wr_ok by lia. cbn [bind wp wpq fst snd].
      rewrite !length_set_nth. split; auto. split; auto.
      intros q Hq. apply in_app_iff in Hq. rewrite !nth_set_nth.
      replace (i <? length dv) with true by (symmetry; apply Nat.ltb_lt; lia).
      replace (i <? length rv) with true by (symmetry; apply Nat.ltb_lt; lia).
      destruct (Nat.eqb_spec q i) as [->|Hne]; simpl; auto. apply H3. destruct Hq as [Hq|[Hq|[]]]; [auto|congruence].
  - intros [[dv rv] w] (H1 & H2 & H3). cbn [fst snd] in *.
    apply scan_ok; intros i Hi.
    + rewrite (rd_ok _ _ None) by lia. f_equal. apply H3. rewrite HP. apply in_seq. lia.
    + rewrite (rd_ok _ _ None) by lia. f_equal. apply H3. rewrite HP. apply in_seq. lia.
Qed.

(** bounds from the scan, for any matrix *)
Lemma scan_bounds N (X : mat Rscalar) emin emax lambda :
  scan_post N (fun i => X i i) (radius N X) (emin, emax) -> eigenvalue N X lambda -> emin <= lambda <= emax.
Proof.
  intros (_ & _ & H3 & H4 & _) HE. destruct (gershgorin_theorem _ _ _ HE) as (i & Hi & Hd). simpl in *.
  specialize (H3 i Hi). specialize (H4 i Hi).
  destruct (Rcase_abs (lambda - X i i)) as [Hc|Hc].
  - rewrite Rabs_left in Hd by auto. lra.
  - rewrite Rabs_right in Hd by auto. lra.
Qed.

Lemma scan_exact n (d r : nat -> R) emin emax : scan_post n d r (emin, emax) ->
  (exists i, (i < n)%nat /\ DBL_MIN <= d i + r i) -> (exists i, (i < n)%nat /\ d i - r i <= DBL_MAX) ->
  (forall i, (i < n)%nat -> emin <= d i - r i) /\ (exists i, (i < n)%nat /\ emin = d i - r i) /\
  (forall i, (i < n)%nat -> d i + r i <= emax) /\ (exists i, (i < n)%nat /\ emax = d i + r i).
Proof.
  intros (H1 & H2 & H3 & H4 & H5 & H6) (i1 & Hi1 & Hmin) (i2 & Hi2 & Hmax). simpl in *.
  split; auto. split.
  - destruct H5 as [H5|H5]; auto. exists i2. split; auto. specialize (H3 i2 Hi2). lra.
  - split; auto. destruct H6 as [H6|H6]; auto. exists i1. split; auto. specialize (H4 i1 Hi1). lra.
Qed.

Lemma csr_gershgorin_ok (A : csr Rscalar) n sched : cwf A -> (n <= cN A)%nat -> Permutation (map snd sched) (seq 0 n) ->
  exists emin emax, csr_gershgorin A n sched = Ok (emin, emax) /\
    scan_post n (fun i => cmat A i i) (radius (cN A) (cmat A)) (emin, emax).
Proof.
  intros HA Hn HP.
  assert (G : wp (csr_gershgorin A n sched) (scan_post n (fun i => cmat A i i) (radius (cN A) (cmat A)))).
  { unfold csr_gershgorin. apply gersh_loops; auto. intros i Hi. apply csr_gersh_row_ok; auto. lia. }
  apply wp_ok in G as ([emin emax] & E & H). eauto.
Qed.

Lemma csr_gershgorin_bounds (A : csr Rscalar) sched : cwf A -> Permutation (map snd sched) (seq 0 (cN A)) ->
  exists emin emax, csr_gershgorin A (cN A) sched = Ok (emin, emax) /\
    forall lambda, eigenvalue (cN A) (cmat A) lambda -> emin <= lambda <= emax.
Proof.
  intros HA HP. destruct (csr_gershgorin_ok A (cN A) sched HA (le_n _) HP) as (emin & emax & E & H).
  exists emin, emax. split; auto. intros lambda. apply scan_bounds; auto.
Qed.

Lemma csr_gershgorin_exact (A : csr Rscalar) n sched : cwf A -> (n <= cN A)%nat -> Permutation (map snd sched) (seq 0 n) ->
  (exists i, (i < n)%nat /\ DBL_MIN <= cmat A i i + radius (cN A) (cmat A) i) ->
  (exists i, (i < n)%nat /\ cmat A i i - radius (cN A) (cmat A) i <= DBL_MAX) ->
  exists emin emax, csr_gershgorin A n sched = Ok (emin, emax) /\
    (forall i, (i < n)%nat -> emin <= cmat A i i - radius (cN A) (cmat A) i) /\
    (exists i, (i < n)%nat /\ emin = cmat A i i - radius (cN A) (cmat A) i) /\
    (forall i, (i < n)%nat -> cmat A i i + radius (cN A) (cmat A) i <= emax) /\
    (exists i, (i < n)%nat /\ emax = cmat A i i + radius (cN A) (cmat A) i).
Proof.
  intros HA Hn HP H1 H2. destruct (csr_gershgorin_ok A n sched HA Hn HP) as (emin & emax & E & H).
  exists emin, emax. split; auto. apply (scan_exact n (fun i => cmat A i i) (radius (cN A) (cmat A)) emin emax H H1 H2).
Qed.

Lemma csr_accumulate_offdiag_ok (A : csr Rscalar) (incl : bool) : cwf A ->
  csr_accumulate_offdiag A incl =
  Ok (map (fun i => if incl then Rsum (cN A) (fun j => Rabs (cmat A i j)) else radius (cN A) (cmat A) i) (seq 0 (cN A))).
Proof.
  intros HA. apply wp_eq. unfold csr_accumulate_offdiag. eapply wp_mono.
  - apply (for_n_inv (fun i (s : list R) => length s = cN A /\ forall q, (q < i)%nat -> nth q s 0 = (if incl then Rsum (cN A) (fun j => Rabs (cmat A q j)) else radius (cN A) (cmat A) q))).
    + split; [apply repeat_length|lia].
    + intros i s Hi [H1 H2]. rewrite c_row_ok by (rewrite cwf_len; auto). cbn [bind].
      rewrite (r_for_eq _ _ _ _ (cwf_is A i HA Hi)). destruct HA as [Hs Hr]. destruct (Hr i Hi) as (R2 & R3).
      rewrite (abs_entries (crow A i) i (cN A) incl R2 R3 0). cbn [bind]. rewrite wr_ok by lia. cbn [wp wpq].
      split; [rewrite length_set_nth; auto|]. intros q Hq. rewrite nth_set_nth.
      replace (i <? length s) with true by (symmetry; apply Nat.ltb_lt; lia).
      destruct (Nat.eqb_spec q i) as [->|Hne]; simpl.
      * rewrite Rplus_0_l. unfold radius. destruct incl; apply Rsum_ext; intros j Hj; [rewrite orb_true_r; reflexivity|]. rewrite orb_false_r. destruct (Nat.eqb i j); auto.
      * apply H2. lia.
  - intros s [H1 H2]. apply (list_ext_nth _ _ 0).
    + rewrite map_length, seq_length. auto.
    + intros i Hi. rewrite H2 by lia. rewrite nth_map_seq by lia. auto.
Qed.
