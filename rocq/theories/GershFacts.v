(** Proofs over the reals: thresholds, Gershgorin's theorem, the Gershgorin
    functions and normalization. *)
From Coq Require Import Reals Lra.
From Verif Require Import Base BaseFacts Spec SpecFacts RealSpec EllpackModel EllpackSpec EllpackFacts EllpackOps EllpackArith EllpackMul EllpackMore EllpackMul2 EllpackExact GershModel.
Local Open Scope R_scope.

Ltac rring := change (@eq (K Rscalar)) with (@eq R); ring.
Ltac rfield := change (@eq (K Rscalar)) with (@eq R); field.

Lemma bigsum_Rsum n (f : nat -> R) : bigsum (F:=Rscalar) n f = Rsum n f.
Proof. induction n as [|n IH]; simpl; [auto|rewrite IH; auto]. Qed.

(** ** sums *)
Lemma Rsum_S n (f : nat -> R) : Rsum (S n) f = Rsum n f + f n.
Proof. reflexivity. Qed.

Lemma Rsum_le n (f g : nat -> R) : (forall i, (i < n)%nat -> f i <= g i) -> Rsum n f <= Rsum n g.
Proof.
  induction n as [|n IH]; intros H; [simpl; lra|]. rewrite !Rsum_S.
  assert (Rsum n f <= Rsum n g) by (apply IH; intros; apply H; lia). assert (f n <= g n) by (apply H; lia). lra.
Qed.

Lemma Rsum_abs n (f : nat -> R) : Rabs (Rsum n f) <= Rsum n (fun i => Rabs (f i)).
Proof.
  induction n as [|n IH]; [simpl; rewrite Rabs_R0; lra|]. rewrite !Rsum_S.
  eapply Rle_trans; [apply Rabs_triang|]. lra.
Qed.

Lemma Rsum_nonneg n (f : nat -> R) : (forall i, (i < n)%nat -> 0 <= f i) -> 0 <= Rsum n f.
Proof.
  induction n as [|n IH]; intros H; [simpl; lra|]. rewrite Rsum_S.
  assert (0 <= Rsum n f) by (apply IH; intros; apply H; lia). assert (0 <= f n) by (apply H; lia). lra.
Qed.

Lemma Rsum_ext n (f g : nat -> R) : (forall i, (i < n)%nat -> f i = g i) -> Rsum n f = Rsum n g.
Proof. intros H. induction n as [|n IH]; simpl; [auto|]. rewrite IH, H by (intros; auto). auto. Qed.

Lemma Rsum_0 n : Rsum n (fun _ => 0) = 0.
Proof. induction n as [|n IH]; simpl; [auto|]. rewrite IH. ring. Qed.

Lemma Rsum_scale n (c : R) (f : nat -> R) : Rsum n (fun i => c * f i) = c * Rsum n f.
Proof. induction n as [|n IH]; [simpl; rring|]. rewrite !Rsum_S, IH. rring. Qed.

Lemma Rsum_plus n (f g : nat -> R) : Rsum n (fun i => f i + g i) = Rsum n f + Rsum n g.
Proof. induction n as [|n IH]; [simpl; rring|]. rewrite !Rsum_S, IH. rring. Qed.

Lemma Rsum_pick n (f : nat -> R) i : (i < n)%nat ->
  Rsum n f = f i + Rsum n (fun j => if Nat.eqb i j then 0 else f j).
Proof.
  induction n as [|n IH]; intros Hi; [lia|]. rewrite !Rsum_S. destruct (Nat.eq_dec i n) as [->|Hne].
  - rewrite Nat.eqb_refl. rewrite (Rsum_ext n (fun j => if Nat.eqb n j then 0 else f j) f); [rring|].
    intros j Hj. destruct (Nat.eqb_spec n j); [lia|auto].
  - rewrite IH by lia. destruct (Nat.eqb_spec i n); [lia|]. rring.
Qed.

(** ** Gershgorin's theorem *)
Lemma argmax n (x : nat -> R) : (0 < n)%nat -> exists i, (i < n)%nat /\ forall j, (j < n)%nat -> Rabs (x j) <= Rabs (x i).
Proof.
  induction n as [|n IH]; intros H; [lia|]. destruct n as [|n].
  - exists 0%nat. split; [lia|]. intros j Hj. replace j with 0%nat by lia. lra.
  - destruct IH as (i & Hi & Hm); [lia|]. destruct (Rle_dec (Rabs (x (S n))) (Rabs (x i))) as [Hle|Hgt].
    + exists i. split; [lia|]. intros j Hj. destruct (Nat.eq_dec j (S n)) as [->|]; [lra|apply Hm; lia].
    + exists (S n). split; [lia|]. intros j Hj. destruct (Nat.eq_dec j (S n)) as [->|]; [lra|].
      assert (Rabs (x j) <= Rabs (x i)) by (apply Hm; lia). lra.
Qed.

Theorem gershgorin_theorem N (A : mat Rscalar) lambda : eigenvalue N A lambda ->
  exists i, (i < N)%nat /\ Rabs (lambda - A i i) <= radius N A i.
Proof.
  intros (x & (k & Hk & Hx) & Heig). destruct (argmax N x) as (i & Hi & Hm); [lia|].
  exists i. split; auto.
  assert (Hxi : 0 < Rabs (x i)).
  { assert (H := Hm k Hk). assert (0 < Rabs (x k)) by (apply Rabs_pos_lt; auto). lra. }
  assert (E := Heig i Hi). rewrite (Rsum_pick N _ i Hi) in E.
  assert (E2 : (lambda - A i i) * x i = Rsum N (fun j => if Nat.eqb i j then 0 else A i j * x j)) by lra.
  assert (E3 : Rabs (lambda - A i i) * Rabs (x i) <= radius N A i * Rabs (x i)).
  { rewrite <- Rabs_mult, E2. eapply Rle_trans; [apply Rsum_abs|]. unfold radius. rewrite Rmult_comm, <- Rsum_scale.
    apply Rsum_le. intros j Hj. destruct (Nat.eqb i j).
    - rewrite Rabs_R0. lra.
    - rewrite Rabs_mult, Rmult_comm. apply Rmult_le_compat_r; [apply Rabs_pos|auto]. }
  apply Rmult_le_reg_r in E3; auto.
Qed.

(** ** the rows *)
Lemma pair_eq (a b c d : R) : a = c -> b = d -> (a, b) = (c, d).
Proof. congruence. Qed.

Lemma gersh_row_ok (A : ell Rscalar) i : wf A -> (i < eN A)%nat ->
  ell_gersh_row A i = Ok (emat A i i, radius (eN A) (emat A) i).
Proof.
  intros HA Hi. pose proof HA as [Hs Hr]. destruct (Hr i Hi) as (R1 & R2 & R3).
  apply wp_eq. unfold ell_gersh_row. rewrite e_for_row_eq by (auto; apply wf_nnz; auto).
  eapply wp_mono.
  - apply (forM_inv (fun (pre : list (nat * Rscalar)) s => s = (elook pre i, Rsum (eN A) (fun j => if Nat.eqb i j then 0 else Rabs (elook pre j))))).
    + simpl. f_equal. symmetry. rewrite (Rsum_ext _ _ (fun _ => 0)).
      * apply Rsum_0.
      * intros j _. destruct (Nat.eqb i j); auto. apply Rabs_R0.
    + intros pre [k v] post s E ->. cbn [bind].
      assert (Hnew : ~ In k (cols pre)).
      { rewrite E in R2. unfold cols in R2. rewrite map_app in R2. simpl in R2. apply NoDup_remove_2 in R2.
        intros H. apply R2. apply in_app_iff. left. exact H. }
      assert (Hk : (k < eN A)%nat).
      { apply R3. rewrite E. unfold cols. rewrite map_app. apply in_app_iff. right; left; auto. }
      assert (Hl : forall j, elook (pre ++ [(k, v)]) j = if Nat.eqb j k then v else elook pre j).
      { intros j. apply elook_app_new. auto. }
      rewrite Hl.
      destruct (Nat.eqb_spec i k) as [->|Hne]; rewrite ?Nat.eqb_refl; unfold wp, wpq; cbn [fst snd]; [|destruct (Nat.eqb_spec i k); [congruence|]]; (apply pair_eq; [reflexivity|]).
      * apply Rsum_ext. intros j Hj. rewrite Hl. destruct (Nat.eqb_spec k j) as [->|]; auto.
        destruct (Nat.eqb_spec j k); [congruence|auto].
      * rewrite (Rsum_pick _ (fun j => if Nat.eqb i j then 0 else Rabs (elook (pre ++ [(k, v)]) j)) k Hk).
        rewrite (Rsum_pick _ (fun j => if Nat.eqb i j then 0 else Rabs (elook pre j)) k Hk).
        destruct (Nat.eqb_spec i k); [congruence|].
        rewrite (Hl k), Nat.eqb_refl. rewrite (elook_notin pre k Hnew). simpl. rewrite Rabs_R0, Rplus_0_l, Rplus_comm. f_equal.
        apply Rsum_ext. intros j Hj. destruct (Nat.eqb_spec k j) as [->|Hkj]; auto. destruct (Nat.eqb i j); auto.
        rewrite Hl. destruct (Nat.eqb_spec j k); [congruence|auto].
  - intros s ->. reflexivity.
Qed.

(** ** the scan *)
Definition scan_post (n : nat) (d r : nat -> R) (p : R * R) : Prop :=
  fst p <= DBL_MAX /\ DBL_MIN <= snd p /\
  (forall i, (i < n)%nat -> fst p <= d i - r i) /\ (forall i, (i < n)%nat -> d i + r i <= snd p) /\
  (fst p = DBL_MAX \/ exists i, (i < n)%nat /\ fst p = d i - r i) /\
  (snd p = DBL_MIN \/ exists i, (i < n)%nat /\ snd p = d i + r i).

Lemma scan_ok n (dval rad : list (option R)) (d r : nat -> R) :
  (forall i, (i < n)%nat -> rd dval i = Ok (Some (d i))) -> (forall i, (i < n)%nat -> rd rad i = Ok (Some (r i))) ->
  wp (gersh_scan n dval rad) (scan_post n d r).
Proof.
  intros Hd Hr. unfold gersh_scan. apply (for_n_inv (fun i => scan_post i d r)).
  - unfold scan_post. simpl. split; [lra|]. split; [lra|]. do 2 (split; [lia|]). auto.
  - intros i [emin emax] Hi (H1 & H2 & H3 & H4 & H5 & H6). rewrite Hd by auto. cbn [bind]. rewrite Hr by auto. cbn [bind use].
    unfold wp, wpq, scan_post. cbn [fst snd] in *.
    assert (forall (P : nat -> Prop), P i -> (forall q, (q < i)%nat -> P q) -> forall q, (q < S i)%nat -> P q) as HS.
    { intros P Hp Hlt q Hq. destruct (Nat.eq_dec q i) as [->|]; auto. apply Hlt. lia. }
    destruct (Rlt_dec (d i - r i) emin), (Rlt_dec emax (d i + r i));
      (split; [lra|]); (split; [lra|]);
      (split; [apply HS; [lra|intros q Hq; specialize (H3 q Hq); lra]|]);
      (split; [apply HS; [lra|intros q Hq; specialize (H4 q Hq); lra]|]); split;
      try (right; exists i; split; [lia|reflexivity]).
    all: try solve [destruct H5 as [H5|(q & Hq & H5)]; [left; exact H5|right; exists q; split; [lia|exact H5]]].
    all: try solve [destruct H6 as [H6|(q & Hq & H6)]; [left; exact H6|right; exists q; split; [lia|exact H6]]].
Qed.

Lemma ell_gershgorin_ok (A : ell Rscalar) n sched : wf A -> (n <= eN A)%nat -> Permutation (map snd sched) (seq 0 n) ->
  exists emin emax, ell_gershgorin A n sched = Ok (emin, emax) /\
    scan_post n (fun i => emat A i i) (radius (eN A) (emat A)) (emin, emax).
Proof.
  intros HA Hn HP.
  assert (G : wp (ell_gershgorin A n sched) (scan_post n (fun i => emat A i i) (radius (eN A) (emat A)))).
  2:{ apply wp_ok in G as ([emin emax] & E & H). eauto. }
  unfold ell_gershgorin. apply wp_bind. eapply wp_mono.
  - apply (par_for_inv (fun done (s : list (option R) * list (option R)) (_ : nat -> unit) =>
      length (fst s) = eN A /\ length (snd s) = eN A /\
      (forall i, In i done -> nth i (fst s) None = Some (emat A i i) /\ nth i (snd s) None = Some (radius (eN A) (emat A) i)))).
    + simpl. rewrite !repeat_length. tauto.
    + intros pre t i post [dv rv] w E (H1 & H2 & H3). cbn [fst snd] in *.
      assert (Hi : (i < n)%nat).
      { assert (In i (map snd sched)) by (rewrite E, map_app; apply in_app_iff; right; left; auto).
        rewrite HP in H. apply in_seq in H. lia. }
      rewrite gersh_row_ok by (auto; lia). cbn [bind]. rewrite !wr_ok by lia. cbn [bind wp wpq fst snd].
      rewrite !length_set_nth. split; auto. split; auto.
      intros q Hq. apply in_app_iff in Hq. rewrite !nth_set_nth.
      replace (i <? length dv) with true by (symmetry; apply Nat.ltb_lt; lia).
      replace (i <? length rv) with true by (symmetry; apply Nat.ltb_lt; lia).
      destruct (Nat.eqb_spec q i) as [->|Hne]; simpl; auto. apply H3. destruct Hq as [Hq|[Hq|[]]]; [auto|congruence].
  - intros [[dv rv] w] (H1 & H2 & H3). cbn [fst snd] in *.
    apply scan_ok; intros i Hi.
    + rewrite (rd_ok _ _ None) by lia. f_equal. apply H3. rewrite HP. apply in_seq. lia.
    + rewrite (rd_ok _ _ None) by lia. f_equal. apply H3. rewrite HP. apply in_seq. lia.
Qed.

(** C18 *)
Lemma ell_gershgorin_bounds (A : ell Rscalar) sched : wf A -> Permutation (map snd sched) (seq 0 (eN A)) ->
  exists emin emax, ell_gershgorin A (eN A) sched = Ok (emin, emax) /\
    forall lambda, eigenvalue (eN A) (emat A) lambda -> emin <= lambda <= emax.
Proof.
  intros HA HP. destruct (ell_gershgorin_ok A (eN A) sched HA (le_n _) HP) as (emin & emax & E & H).
  exists emin, emax. split; auto. intros lambda HE.
  destruct (gershgorin_theorem _ _ _ HE) as (i & Hi & Hd).
  destruct H as (_ & _ & H3 & H4 & _). simpl in *. specialize (H3 i Hi). specialize (H4 i Hi).
  assert (Hc := Rabs_def2 (lambda - emat A i i) (radius (eN A) (emat A) i + 1)). clear Hc.
  destruct (Rcase_abs (lambda - emat A i i)) as [Hc|Hc].
  - rewrite Rabs_left in Hd by auto. lra.
  - rewrite Rabs_right in Hd by auto. lra.
Qed.

(** C19: exact when a disc reaches DBL_MIN on the right (and DBL_MAX on the left) *)
Lemma ell_gershgorin_exact (A : ell Rscalar) n sched : wf A -> (n <= eN A)%nat -> Permutation (map snd sched) (seq 0 n) ->
  (exists i, (i < n)%nat /\ DBL_MIN <= emat A i i + radius (eN A) (emat A) i) ->
  (exists i, (i < n)%nat /\ emat A i i - radius (eN A) (emat A) i <= DBL_MAX) ->
  exists emin emax, ell_gershgorin A n sched = Ok (emin, emax) /\
    (forall i, (i < n)%nat -> emin <= emat A i i - radius (eN A) (emat A) i) /\
    (exists i, (i < n)%nat /\ emin = emat A i i - radius (eN A) (emat A) i) /\
    (forall i, (i < n)%nat -> emat A i i + radius (eN A) (emat A) i <= emax) /\
    (exists i, (i < n)%nat /\ emax = emat A i i + radius (eN A) (emat A) i).
Proof.
  intros HA Hn HP (i1 & Hi1 & Hmin) (i2 & Hi2 & Hmax).
  destruct (ell_gershgorin_ok A n sched HA Hn HP) as (emin & emax & E & H1 & H2 & H3 & H4 & H5 & H6). simpl in *.
  exists emin, emax. split; auto. split; auto. split.
  - destruct H5 as [H5|H5]; auto. exists i2. split; auto. specialize (H3 i2 Hi2). lra.
  - split; auto. destruct H6 as [H6|H6]; auto. exists i1. split; auto. specialize (H4 i1 Hi1). lra.
Qed.

(** ** accumulate_offdiag *)
Lemma abs_entries (E : list (nat * Rscalar)) i N (incl : bool) : NoDup (cols E) -> (forall k, In k (cols E) -> (k < N)%nat) ->
  forall acc, forM E (fun kv r => (fun k (v : R) r => Ok (if negb (Nat.eqb i k) || incl then r + Rabs v else r)) (fst kv) (snd kv) r) acc =
    Ok (acc + Rsum N (fun j => if negb (Nat.eqb i j) || incl then Rabs (elook E j) else 0)).
Proof.
  induction E as [|[k v] E IH]; intros Hd Hr acc; simpl.
  - f_equal. rewrite (Rsum_ext _ _ (fun _ => 0)).
    + rewrite Rsum_0. rring.
    + intros j _. destruct (_ || _); auto. apply Rabs_R0.
  - inversion Hd; subst. rewrite IH; auto.
    2:{ intros q Hq. apply Hr. right; auto. }
    f_equal. assert (Hk : (k < N)%nat) by (apply Hr; left; auto).
    rewrite (Rsum_pick N (fun j => if negb (Nat.eqb i j) || incl then Rabs (elook E j) else 0) k Hk).
    rewrite (Rsum_pick N (fun j => if negb (Nat.eqb i j) || incl then Rabs (if Nat.eqb k j then v else elook E j) else 0) k Hk).
    rewrite Nat.eqb_refl. rewrite (elook_notin E k) by auto. simpl. rewrite Rabs_R0.
    rewrite (Rsum_ext N (fun j => if Nat.eqb k j then 0 else if negb (Nat.eqb i j) || incl then Rabs (if Nat.eqb k j then v else elook E j) else 0)
      (fun j => if Nat.eqb k j then 0 else if negb (Nat.eqb i j) || incl then Rabs (elook E j) else 0)).
    + destruct (negb (Nat.eqb i k) || incl); rring.
    + intros j _. destruct (Nat.eqb k j); auto.
Qed.

Lemma ell_accumulate_offdiag_ok (A : ell Rscalar) (incl : bool) : wf A ->
  ell_accumulate_offdiag A incl =
  Ok (map (fun i => if incl then Rsum (eN A) (fun j => Rabs (emat A i j)) else radius (eN A) (emat A) i) (seq 0 (eN A))).
Proof.
  intros HA. pose proof HA as [Hs Hr]. apply wp_eq. unfold ell_accumulate_offdiag. eapply wp_mono.
  - apply (for_n_inv (fun i (s : list R) => length s = eN A /\ forall q, (q < i)%nat -> nth q s 0 = (if incl then Rsum (eN A) (fun j => Rabs (emat A q j)) else radius (eN A) (emat A) q))).
    + split; [apply repeat_length|lia].
    + intros i s Hi [H1 H2]. rewrite e_for_row_eq by (auto; apply wf_nnz; auto). destruct (Hr i Hi) as (R1 & R2 & R3).
      rewrite (abs_entries (erow A i) i (eN A) incl R2 R3 0). cbn [bind]. rewrite wr_ok by lia. cbn [wp wpq].
      split; [rewrite length_set_nth; auto|]. intros q Hq. rewrite nth_set_nth.
      replace (i <? length s) with true by (symmetry; apply Nat.ltb_lt; lia).
      destruct (Nat.eqb_spec q i) as [->|Hne]; simpl.
      * rewrite Rplus_0_l. unfold radius. destruct incl; apply Rsum_ext; intros j Hj; [rewrite orb_true_r; reflexivity|]. rewrite orb_false_r. destruct (Nat.eqb i j); auto.
      * apply H2. lia.
  - intros s [H1 H2]. apply (list_ext_nth _ _ 0).
    + rewrite map_length, seq_length. auto.
    + intros i Hi. rewrite H2 by lia. rewrite nth_map_seq by lia. auto.
Qed.

(** ** threshold *)
Lemma gtR_true t x : gtR t x = true <-> t < Rabs x.
Proof. unfold gtR. destruct (Rlt_dec t (Rabs x)); split; intros; auto; try discriminate; try contradiction. Qed.
Lemma gtR_false t x : gtR t x = false <-> Rabs x <= t.
Proof. unfold gtR. destruct (Rlt_dec t (Rabs x)); split; intros; auto; try discriminate; lra. Qed.

Lemma gtR0_nonzero : keeps_nonzero (F:=Rscalar) (gtR 0).
Proof.
  intros x Hx. apply gtR_false in Hx. assert (H := Rabs_pos x). destruct (Req_dec x 0) as [->|Hn]; auto. apply Rabs_pos_lt in Hn. exfalso. lra.
Qed.

Lemma cut_bound t x : 0 <= t -> Rabs (cut (F:=Rscalar) (gtR t) x - x) <= t.
Proof.
  intros Ht. unfold cut. destruct (gtR t x) eqn:E.
  - rewrite Rminus_diag_eq, Rabs_R0; auto.
  - apply gtR_false in E. replace (k0 (s:=Rscalar) - x) with (- x) by (simpl; ring). rewrite Rabs_Ropp. auto.
Qed.

Lemma cut_kept t x : t < Rabs x -> cut (F:=Rscalar) (gtR t) x = x.
Proof. intros H. unfold cut. apply gtR_true in H as ->. auto. Qed.

Lemma cut_idem t x : 0 <= t -> cut (F:=Rscalar) (gtR t) (cut (F:=Rscalar) (gtR t) x) = cut (F:=Rscalar) (gtR t) x.
Proof.
  intros Ht. unfold cut. destruct (gtR t x) eqn:E; [rewrite E; auto|].
  destruct (gtR t (k0 (s:=Rscalar))) eqn:E0; auto.
Qed.

Lemma threshold_bounds (t : R) (A : ell Rscalar) sched : 0 <= t -> wf A -> Permutation (map snd sched) (seq 0 (eN A)) ->
  exists B, ell_threshold (gtR t : Rscalar -> bool) A sched = Ok B /\ wf B /\ same_dims A B /\
    (forall i j, (i < eN A)%nat -> (j < eN A)%nat -> Rabs (emat B i j - emat A i j) <= t) /\
    (forall i j, (i < eN A)%nat -> (j < eN A)%nat -> t < Rabs (emat A i j) -> emat B i j = emat A i j) /\
    exists C, ell_threshold (gtR t : Rscalar -> bool) B sched = Ok C /\ meq (eN A) (emat C) (emat B).
Proof.
  intros Ht HA HP. destruct (threshold_spec (F:=Rscalar) (gtR t) A sched HA HP) as (B & E & Hw & [D1 D2] & Hm).
  exists B. split; auto. split; auto. split; [split; auto|]. split; [|split].
  - intros i j Hi Hj. rewrite (Hm i j) by auto. apply cut_bound; auto.
  - intros i j Hi Hj Hgt. rewrite (Hm i j) by auto. apply cut_kept; auto.
  - rewrite D1 in HP. destruct (threshold_spec (F:=Rscalar) (gtR t) B sched Hw HP) as (C & E2 & _ & _ & Hm2).
    exists C. split; auto. intros i j Hi Hj. rewrite (Hm2 i j) by congruence. rewrite (Hm i j) by auto.
    unfold mcut. rewrite (Hm i j) by auto. apply cut_idem; auto.
Qed.

Lemma threshold_new_bounds (t : R) (A : ell Rscalar) sched : 0 <= t -> wf A -> (0 < eM A)%nat -> Permutation (map snd sched) (seq 0 (eN A)) ->
  exists B, ell_threshold_new (gtR t : Rscalar -> bool) A sched = Ok B /\ wf B /\ same_dims A B /\
    (forall i j, (i < eN A)%nat -> (j < eN A)%nat -> Rabs (emat B i j - emat A i j) <= t) /\
    (forall i j, (i < eN A)%nat -> (j < eN A)%nat -> t < Rabs (emat A i j) -> emat B i j = emat A i j) /\
    exists C, ell_threshold_new (gtR t : Rscalar -> bool) B sched = Ok C /\ meq (eN A) (emat C) (emat B).
Proof.
  intros Ht HA HM HP. destruct (threshold_new_spec (F:=Rscalar) (gtR t) A sched HA HM HP) as (B & E & Hw & [D1 D2] & Hm).
  exists B. split; auto. split; auto. split; [split; auto|]. split; [|split].
  - intros i j Hi Hj. rewrite (Hm i j) by auto. apply cut_bound; auto.
  - intros i j Hi Hj Hgt. rewrite (Hm i j) by auto. apply cut_kept; auto.
  - rewrite D1 in HP. rewrite D2 in HM. destruct (threshold_new_spec (F:=Rscalar) (gtR t) B sched Hw HM HP) as (C & E2 & _ & _ & Hm2).
    exists C. split; auto. intros i j Hi Hj. rewrite (Hm2 i j) by congruence. rewrite (Hm i j) by auto.
    unfold mcut. rewrite (Hm i j) by auto. apply cut_idem; auto.
Qed.

Lemma add_bounds (t alpha beta : R) (A B : ell Rscalar) sched : 0 <= t -> wf A -> wf B -> eN A = eN B ->
  Permutation (map snd sched) (seq 0 (eN A)) ->
  fits (F:=Rscalar) (eN A) (eM A) (gtR t) (madd (mscale (alpha : Rscalar) (emat A)) (mscale (beta : Rscalar) (emat B))) ->
  exists A', ell_add (gtR t : Rscalar -> bool) (alpha : Rscalar) (beta : Rscalar) A B sched = Ok A' /\ wf A' /\ same_dims A A' /\
    forall i j, (i < eN A)%nat -> (j < eN A)%nat -> Rabs (emat A' i j - (alpha * emat A i j + beta * emat B i j)) <= t.
Proof.
  intros Ht HA HB HN HP Hf. destruct (add_spec (F:=Rscalar) (gtR t) alpha beta A B sched HA HB HN HP Hf) as (C & E & Hw & D & Hm).
  exists C. repeat (split; [assumption|]). intros i j Hi Hj. rewrite (Hm i j) by auto. unfold mcut, madd, mscale. apply cut_bound; auto.
Qed.

Lemma multiply_AB_bounds (t : R) (A B C : ell Rscalar) sched : 0 <= t -> wf A -> wf B -> eN A = eN B -> wf C -> eN C = eN A ->
  Permutation (map snd sched) (seq 0 (eN A)) ->
  (ell_multiply_AB (gtR t : Rscalar -> bool) A B C sched = Err /\ exists i, (i < eN A)%nat /\ (eM C < prod_cols A B i)%nat) \/
  (exists C', ell_multiply_AB (gtR t : Rscalar -> bool) A B C sched = Ok C' /\ wf C' /\ same_dims C C' /\
    forall i j, (i < eN A)%nat -> (j < eN A)%nat -> Rabs (emat C' i j - mmul (eN A) (emat A) (emat B) i j) <= t).
Proof.
  intros Ht HA HB HN HC HNC HP.
  destruct (multiply_AB_spec (F:=Rscalar) (gtR t) A B C sched HA HB HN HC HNC HP) as [H|(C' & E & _ & Hw & D & Hm)]; auto.
  right. exists C'. repeat (split; [assumption|]). intros i j Hi Hj. rewrite (Hm i j) by auto. unfold mcut_offdiag.
  destruct (Nat.eqb i j); [|apply cut_bound; auto]. rewrite Rminus_diag_eq, Rabs_R0; auto.
Qed.

(** ** normalize *)
Lemma normalize_ok (A : ell Rscalar) (mn mx : R) sched : wf A -> mn <> mx ->
  Permutation (map snd sched) (seq 0 (eN A)) ->
  (forall i, (i < eN A)%nat -> mx = 0 \/ In i (cols (erow A i)) \/ (nnz A i < eM A)%nat) ->
  exists B, ell_normalize A mn mx sched = Ok B /\ wf B /\ same_dims A B /\
    forall i j, (i < eN A)%nat -> (j < eN A)%nat ->
      emat B i j = ((if Nat.eqb i j then mx else 0) - emat A i j) / (mx - mn).
Proof.
  intros HA Hne HP Hroom. unfold ell_normalize.
  destruct (scale_inplace_spec (F:=Rscalar) (-1 / (mx - mn)) A HA) as (A1 & E1 & Hw1 & [D1 D2] & Hm1 & Hc1).
  rewrite E1. cbn [bind].
  destruct (add_identity_spec (F:=Rscalar) (gtR 0) (mx / (mx - mn)) A1 sched Hw1) as (B & E & Hw & [D3 D4] & Hm).
  - rewrite <- D1. auto.
  - rewrite <- D1, <- D2. intros i Hi. rewrite Hc1 by auto. destruct (Hroom i Hi) as [->|[H|H]].
    + left. simpl. unfold Rdiv. rring.
    + right. left. auto.
    + right. right. rewrite <- (erow_length A1), <- (map_length fst). unfold cols in Hc1. rewrite Hc1 by auto.
      rewrite map_length, erow_length. auto.
  - exists B. split; auto. split; auto. split; [split; congruence|]. intros i j Hi Hj. rewrite (Hm i j) by congruence.
    unfold mcut. rewrite (cut_exact (F:=Rscalar) (gtR 0) _ gtR0_nonzero).
    unfold madd, mscale, mid. rewrite (Hm1 i j) by auto. unfold mscale. simpl.
    destruct (Nat.eqb i j); simpl; rfield; lra.
Qed.

Lemma normalize_spectrum (A B : mat Rscalar) N (mn mx mu : R) : mn < mx ->
  (forall lambda, eigenvalue N A lambda -> mn <= lambda <= mx) ->
  (forall i j, (i < N)%nat -> (j < N)%nat -> B i j = ((if Nat.eqb i j then mx else 0) - A i j) / (mx - mn)) ->
  eigenvalue N B mu -> 0 <= mu <= 1.
Proof.
  intros Hlt Hb HB (x & Hx & He).
  assert (HA : eigenvalue N A (mx - mu * (mx - mn))).
  { exists x. split; auto. intros i Hi. specialize (He i Hi).
    assert (E : Rsum N (fun j => B i j * x j) = / (mx - mn) * (mx * x i - Rsum N (fun j => A i j * x j))).
    { transitivity (Rsum N (fun j => / (mx - mn) * ((if Nat.eqb i j then mx * x i else 0) + - 1 * (A i j * x j)))).
      - apply Rsum_ext. intros j Hj. rewrite HB by auto. destruct (Nat.eqb_spec i j) as [->|]; rfield; lra.
      - rewrite Rsum_scale, Rsum_plus, Rsum_scale. f_equal.
        rewrite (Rsum_pick N (fun j => if Nat.eqb i j then mx * x i else 0) i Hi). rewrite Nat.eqb_refl.
        rewrite (Rsum_ext N (fun j => if Nat.eqb i j then 0 else if Nat.eqb i j then mx * x i else 0) (fun _ => 0)).
        + rewrite Rsum_0. rring.
        + intros j _. destruct (Nat.eqb i j); auto. }
    rewrite E in He. apply (Rmult_eq_compat_l (mx - mn)) in He. rewrite <- Rmult_assoc, Rinv_r in He by lra. lra. }
  apply Hb in HA. split.
  - assert (0 <= mu * (mx - mn)) by lra. destruct (Rle_dec 0 mu); auto. exfalso.
    assert (mu * (mx - mn) < 0) by (apply Ropp_lt_cancel; rewrite Ropp_0, Ropp_mult_distr_l; apply Rmult_lt_0_compat; lra). lra.
  - destruct (Rle_dec mu 1); auto. exfalso.
    assert (1 * (mx - mn) < mu * (mx - mn)) by (apply Rmult_lt_compat_r; lra). lra.
Qed.

Lemma ell_normalize_spec (A : ell Rscalar) sched emin emax : wf A -> Permutation (map snd sched) (seq 0 (eN A)) ->
  ell_gershgorin A (eN A) sched = Ok (emin, emax) -> emin < emax ->
  (forall i, (i < eN A)%nat -> emax = 0 \/ In i (cols (erow A i)) \/ (nnz A i < eM A)%nat) ->
  exists B, ell_normalize A emin emax sched = Ok B /\ wf B /\ same_dims A B /\
    (forall i j, (i < eN A)%nat -> (j < eN A)%nat ->
      emat B i j = ((if Nat.eqb i j then emax else 0) - emat A i j) / (emax - emin)) /\
    forall mu, eigenvalue (eN A) (emat B) mu -> 0 <= mu <= 1.
Proof.
  intros HA HP EG Hlt Hroom. destruct (normalize_ok A emin emax sched HA ltac:(lra) HP Hroom) as (B & E & Hw & D & Hm).
  exists B. repeat (split; [assumption|]). intros mu Hmu.
  apply (normalize_spectrum (emat A) (emat B) (eN A) emin emax mu); auto.
  destruct (ell_gershgorin_bounds A sched HA HP) as (a & b & E2 & Hb). rewrite EG in E2. inversion E2; subst. auto.
Qed.
