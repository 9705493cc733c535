(** Matrix-level statements about csr setters, getters, constructors,
    thresholds and histories. *)
From Verif Require Import Base BaseFacts Spec SpecFacts EllpackModel EllpackSpec EllpackFacts EllpackOps EllpackArith
  EllpackMore EllpackRest EllpackExact CsrModel CsrSpec CsrFacts CsrOps CsrHash CsrMore.
From Coq Require Import Ring.

(** ** histories of the hash table *)

(** one operation of the table; lookups return a value and leave the table unchanged *)
Inductive tcmd : Type := TInsert (key : nat) | TReset.
Definition texec (c : tcmd) (t : table) : res table :=
  match c with TInsert key => table_insert t key | TReset => Ok (table_reset t) end.
Definition trun (cs : list tcmd) (t : table) : res table := forM cs texec t.

(** the keys inserted since the last reset, in order *)
Fixpoint live_from (acc : list nat) (cs : list tcmd) : list nat :=
  match cs with
  | [] => acc
  | TInsert key :: cs => live_from (acc ++ [key]) cs
  | TReset :: cs => live_from [] cs
  end.
(** the largest number of keys held at one time *)
Fixpoint peak_from (n : nat) (cs : list tcmd) : nat :=
  match cs with
  | [] => n
  | TInsert key :: cs => peak_from (S n) cs
  | TReset :: cs => max n (peak_from 0 cs)
  end.

Lemma live_from_app acc a b : live_from acc (a ++ b) = live_from (live_from acc a) b.
Proof. revert acc. induction a as [|[k|] a IH]; intros acc; simpl; auto. Qed.
Lemma peak_ge n cs : n <= peak_from n cs.
Proof. revert n; induction cs as [|[k|] cs IH]; intros n; simpl; auto; [specialize (IH (S n)); lia|lia]. Qed.

Lemma trun_ok k cs : forall t keys, tinv (2 ^ k) keys t -> peak_from (length keys) cs <= 2 ^ k ->
  exists t', trun cs t = Ok t' /\ tinv (2 ^ k) (live_from keys cs) t'.
Proof.
  induction cs as [|[key|] cs IH]; intros t keys HT Hp; cbn [trun forM texec bind live_from peak_from] in *.
  - exists t. auto.
  - assert (Hg := peak_ge (S (length keys)) cs).
    destruct (table_insert_ok k keys t key HT ltac:(lia)) as (t1 & E1 & T1). unfold trun in *. cbn [forM texec]. rewrite E1. cbn [bind].
    apply IH; auto. rewrite app_length. simpl. rewrite Nat.add_1_r. auto.
  - unfold trun in *. cbn [forM texec bind]. apply IH; [eapply tinv_reset; eauto|]. simpl. lia.
Qed.

Lemma lastk_latest keys key n p q : lastk keys key n = Some p -> (p < q < n)%nat -> nth q keys 0 <> key.
Proof.
  induction n as [|n IH]; simpl; [discriminate|]. destruct (Nat.eqb_spec (nth n keys 0) key) as [E|E]; intros H Hq.
  - inversion H; subst. lia.
  - destruct (Nat.eq_dec q n) as [->|]; auto. apply IH; auto. lia.
Qed.

Lemma lastk_spec keys key : (forall p, lastk keys key (length keys) = Some p ->
    (p < length keys)%nat /\ nth p keys 0 = key /\ forall q, (p < q < length keys)%nat -> nth q keys 0 <> key) /\
  (lastk keys key (length keys) = None -> ~ In key keys).
Proof.
  split.
  - intros p Hp. pose proof (lastk_Some _ _ _ _ Hp) as [H1 H2]. split; auto. split; auto.
    intros q. apply (lastk_latest keys key (length keys) p q Hp).
  - intros Hp Hin. apply In_nth with (d := 0) in Hin as (p & Hl & E).
    apply (lastk_None keys key (length keys)) in Hp; [|lia]. apply Hp. rewrite firstn_all, <- E. apply nth_In. auto.
Qed.

(** the table behaves as the map from each live key to its position *)
Lemma table_history ts cs key : (ts <= table_max)%nat -> (peak_from 0 cs <= ts)%nat ->
  exists t0 t v, table_new ts = Ok t0 /\ trun cs t0 = Ok t /\ table_lookup t key = Ok v /\
    match v with
    | Some p => (p < length (live_from [] cs))%nat /\ nth p (live_from [] cs) 0 = key /\
                forall q, (p < q < length (live_from [] cs))%nat -> nth q (live_from [] cs) 0 <> key
    | None => ~ In key (live_from [] cs)
    end.
Proof.
  intros H1 H2. destruct (table_new_ok ts H1) as (k & Hk & E).
  destruct (trun_ok k cs _ [] (tinv_new (2 ^ k)) ltac:(simpl; lia)) as (t & Et & HT).
  exists (mkTable (repeat None (2 ^ k)) (repeat None (2 ^ k)) 0), t, (lastk (live_from [] cs) key (length (live_from [] cs))).
  split; auto. split; auto. split; [apply (table_lookup_ok k); auto|].
  destruct (lastk_spec (live_from [] cs) key) as [X Y].
  destruct (lastk (live_from [] cs) key (length (live_from [] cs))); auto.
Qed.

Section CsrTop.
  Context {F : scalar}.
  Local Open Scope K_scope.
  Add Ring Kring20 : (k_ring F).
  Local Notation csr := (csr F).

  Lemma map_cut_seq (keep : F -> bool) (f : nat -> F) N (l : list F) : length l = N ->
    (forall j, (j < N)%nat -> f j = cut keep (nth j l 0)) -> map f (seq 0 N) = map (cut keep) l.
  Proof.
    intros HL H. apply (list_ext_nth _ _ 0); [rewrite !map_length, seq_length; auto|].
    intros j Hj. rewrite map_length, seq_length in Hj. rewrite nth_map_seq by auto.
    rewrite (nth_indep _ 0 (cut keep 0)) by (rewrite map_length; lia). rewrite map_nth. auto.
  Qed.

  Lemma cset_row_spec (keep : F -> bool) (A : csr) i (vals : list F) : cwf A -> (i < cN A)%nat -> length vals = cN A ->
    exists A', csr_set_row keep A i vals = Ok A' /\ cwf A' /\ cdims A A' /\
      csr_get_row A' i = Ok (map (cut keep) vals) /\
      (forall i', (i' < cN A)%nat -> i' <> i -> csr_get_row A' i' = csr_get_row A i').
  Proof.
    intros HA Hi HL. destruct (csr_set_row_ok keep A i vals HA Hi HL) as (A' & E & HU).
    assert (Hok : cols_ok (cN A) (drow keep (cN A) (fun j => nth j vals 0))).
    { destruct (drow_ok keep (cN A) (cN A) (fun j => nth j vals 0)) as (_ & H); [|exact H].
      unfold count. rewrite filter_length_le, seq_length. lia. }
    destruct (cupd_wf A A' i _ HA Hi HU Hok) as (W & [D1 D2] & R1 & R2).
    exists A'. split; auto. split; auto. split; [split; auto|]. split.
    - rewrite csr_get_row_ok by (auto; lia). f_equal. rewrite <- D1. apply map_cut_seq; auto.
      intros j Hj. unfold cmat. rewrite R1. rewrite elook_drow by auto. auto.
    - intros i' Hi' Hne. rewrite !csr_get_row_ok by (auto; lia). f_equal. rewrite <- D1. apply map_ext.
      intros j. unfold cmat. rewrite R2 by auto. auto.
  Qed.

  Lemma cset_element_spec (A : csr) i j (v : F) : cwf A -> (i < cN A)%nat -> (j < cN A)%nat ->
    exists A', csr_set_element A i j v = Ok A' /\ cwf A' /\ cdims A A' /\
      forall i' j', cmat A' i' j' = if ((i' =? i) && (j' =? j))%nat then v else cmat A i' j'.
  Proof.
    intros HA Hi Hj. destruct (csr_set_element_ok A i j v (proj1 HA) Hi) as (A' & E & HU).
    destruct (cupd_wf A A' i _ HA Hi HU) as (W & D & R1 & R2); [apply cols_ok_setE; auto; apply HA; auto|].
    exists A'. split; auto. split; auto. split; auto. intros i' j'. unfold cmat.
    destruct (Nat.eqb_spec i' i) as [->|Hne]; cbn [andb].
    - rewrite R1, elook_setE. auto.
    - rewrite R2 by auto. auto.
  Qed.

  Lemma cget_element_spec (A : csr) i j : cwf A -> csr_get_element A i j = if (i <? cN A)%nat then Ok (cmat A i j) else Err.
  Proof.
    intros HA. destruct (Nat.ltb_spec i (cN A)) as [H|H].
    - apply csr_get_element_ok; auto. apply HA.
    - unfold csr_get_element. apply Nat.leb_le in H as ->. auto.
  Qed.

  (** ** histories of set_element *)
  (** the value written last at (i,j), if any *)
  Fixpoint last_write (ops : list (nat * nat * F)) (i j : nat) : option F :=
    match ops with
    | [] => None
    | (a, b, v) :: ops =>
        match last_write ops i j with
        | Some w => Some w
        | None => if ((a =? i) && (b =? j))%nat then Some v else None
        end
    end.
  Definition set_all (ops : list (nat * nat * F)) (A : csr) : res csr :=
    forM ops (fun '(i, j, v) A => csr_set_element A i j v) A.

  Lemma set_all_ok (ops : list (nat * nat * F)) : forall (A : csr), cwf A ->
    (forall i j v, In (i, j, v) ops -> (i < cN A)%nat /\ (j < cN A)%nat) ->
    exists A', set_all ops A = Ok A' /\ cwf A' /\ cdims A A' /\
      forall i j, cmat A' i j = match last_write ops i j with Some v => v | None => cmat A i j end.
  Proof.
    induction ops as [|[[a b] v] ops IH]; intros A HA Hin.
    - exists A. split; [reflexivity|]. split; auto. split; [split; auto|]. auto.
    - destruct (Hin a b v (or_introl eq_refl)) as [Ha Hb].
      destruct (cset_element_spec A a b v HA Ha Hb) as (A1 & E1 & W1 & [D1 D2] & M1).
      destruct (IH A1 W1) as (A2 & E2 & W2 & [D3 D4] & M2).
      { intros i j w Hw. rewrite <- D1. apply (Hin i j w). right; auto. }
      exists A2. split; [unfold set_all in *; cbn [forM]; rewrite E1; cbn [bind]; auto|]. split; auto. split; [split; congruence|].
      intros i j. rewrite M2. cbn [last_write]. destruct (last_write ops i j); auto. rewrite M1.
      rewrite (Nat.eqb_sym i a), (Nat.eqb_sym j b). destruct ((a =? i) && (b =? j))%nat; auto.
  Qed.

  Lemma set_all_get (N M : nat) (ops : list (nat * nat * F)) :
    (forall i j v, In (i, j, v) ops -> (i < N)%nat /\ (j < N)%nat) ->
    exists A, set_all ops (csr_zero N M) = Ok A /\ cwf A /\
      forall i j, (i < N)%nat -> csr_get_element A i j = Ok (match last_write ops i j with Some v => v | None => 0 end).
  Proof.
    intros Hin. destruct (csr_zero_ok (F:=F) N M) as [W R].
    destruct (set_all_ok ops (csr_zero N M) W Hin) as (A & E & W' & [D1 D2] & HM).
    exists A. split; auto. split; auto. intros i j Hi.
    rewrite csr_get_element_ok by (try apply W'; rewrite <- D1; auto). f_equal. rewrite HM.
    unfold cmat. rewrite R. auto.
  Qed.

  (** ** the other matrix-level statements *)
  Lemma cset_diagonal_spec (keep : F -> bool) (A : csr) (diag : list F) : cwf A -> length diag = cN A ->
    exists B, csr_set_diagonal keep A diag = Ok B /\ cwf B /\ cdims A B /\
      csr_get_diagonal B = Ok (map (cut keep) diag) /\
      (forall i j, (i < cN A)%nat -> (j < cN A)%nat -> i <> j -> cmat B i j = cmat A i j).
  Proof.
    intros HA HL. destruct (csr_set_diagonal_ok keep A diag HA HL) as (B & E & W & [D1 D2] & R).
    exists B. split; auto. split; auto. split; [split; auto|]. split.
    - rewrite csr_get_diagonal_ok by auto. f_equal. rewrite <- D1. apply map_cut_seq; auto.
      intros i Hi. unfold cmat. rewrite R, elook_setE, Nat.eqb_refl by auto. auto.
    - intros i j Hi Hj Hne. unfold cmat. rewrite R, elook_setE by auto.
      destruct (Nat.eqb_spec j i); [congruence|auto].
  Qed.

  Lemma cimport_export_spec (keep : F -> bool) o o' N M (D : list F) s1 s2 : length D = (N * N)%nat ->
    Permutation (map snd s1) (seq 0 N) -> Permutation (map snd s2) (seq 0 N) ->
    exists A D', csr_import o N M keep D s1 = Ok A /\ cwf A /\ cN A = N /\ cM A = M /\
      meq N (cmat A) (mcut keep (dmat o N D)) /\
      csr_export o' A s2 = Ok D' /\ length D' = (N * N)%nat /\
      meq N (dmat o' N D') (mcut keep (dmat o N D)).
  Proof.
    intros HL P1 P2. destruct (csr_import_ok o N M keep D s1 HL P1) as (A & E & HN & HM & W & R).
    assert (Hm : meq N (cmat A) (mcut keep (dmat o N D))).
    { intros i j Hi Hj. unfold cmat. rewrite R by auto. rewrite elook_drow by auto. auto. }
    destruct (csr_export_ok o' A s2 W) as (D' & E' & L' & M'); [rewrite HN; auto|]. rewrite HN in *.
    exists A, D'. split; auto. split; auto. split; auto. split; auto. split; auto. split; auto. split; auto.
    intros i j Hi Hj. rewrite M' by auto. auto.
  Qed.

  Lemma cthreshold_spec (keep : F -> bool) (A : csr) sched : cwf A -> Permutation (map snd sched) (seq 0 (cN A)) ->
    exists B, csr_threshold keep A sched = Ok B /\ cwf B /\ cdims A B /\ meq (cN A) (cmat B) (mcut keep (cmat A)).
  Proof.
    intros HA HP. destruct (csr_threshold_ok keep A sched HA HP) as (B & E & W & D & R & _).
    exists B. split; auto. split; auto. split; auto. intros i j Hi Hj. unfold cmat. rewrite R by auto.
    apply elook_cutrow. apply HA; auto.
  Qed.

  Lemma cthreshold_new_spec (keep : F -> bool) (A : csr) sched : cwf A -> Permutation (map snd sched) (seq 0 (cN A)) ->
    (forall i, (i < cN A)%nat -> (count (cN A) (fun j => cstored A i j && keep (cmat A i j)) <= 1)%nat) ->
    exists B, csr_threshold_new keep A sched = Ok B /\ cwf B /\ cdims A B /\ meq (cN A) (cmat B) (mcut keep (cmat A)).
  Proof.
    intros HA HP H1. destruct (csr_threshold_new_ok keep A sched HA HP) as (B & E & W & D & R).
    { intros i Hi. etransitivity; [|apply (H1 i Hi)]. destruct (proj2 HA i Hi) as [Hd Hr].
      unfold count. rewrite <- (map_length fst (cutrow keep (crow A i))). apply NoDup_incl_length.
      - apply NoDup_cols_filter. auto.
      - intros k Hk. apply in_map_iff in Hk as ([k' v] & Ek & Hk). simpl in Ek. subst k'.
        unfold cutrow in Hk. apply filter_In in Hk as [Hk Hv]. simpl in Hv.
        assert (Hc : In k (cols (crow A i))) by (apply (in_map fst) in Hk; auto).
        apply filter_In. split; [apply in_seq; split; [lia|simpl; auto]|].
        apply andb_true_iff. split; [apply existsb_eqb; auto|]. unfold cmat. rewrite (elook_in _ _ _ Hd Hk). auto. }
    exists B. split; auto. split; auto. split; auto. intros i j Hi Hj. unfold cmat. rewrite R by auto.
    apply elook_cutrow. apply HA; auto.
  Qed.

  Lemma cadd_identity_spec (keep : F -> bool) beta (A : csr) s1 s2 : cwf A ->
    Permutation (map snd s1) (seq 0 (cN A)) -> Permutation (map snd s2) (seq 0 (cN A)) ->
    exists A', csr_add_identity keep beta A s1 s2 = Ok A' /\ cwf A' /\ cdims A A' /\
      meq (cN A) (cmat A') (mcut keep (madd (cmat A) (mscale beta mid))).
  Proof.
    intros HA P1 P2. destruct (csr_add_identity_ok keep beta A s1 s2 HA P1 P2) as (A' & E & W & D & R).
    exists A'. split; auto. split; auto. split; auto. intros i j Hi Hj. unfold cmat. rewrite R by auto.
    rewrite elook_cutrow.
    - rewrite elook_idE. unfold mcut, madd, mscale, mid, cmat. f_equal.
      rewrite (Nat.eqb_sym j i). destruct (i =? j); ring.
    - unfold idE. destruct (keqb beta 0); [apply HA; auto|]. apply (cols_ok_setE (cN A)); auto. apply HA; auto.
  Qed.

  Lemma cscale_inplace_spec a (A : csr) sched : cwf A -> Permutation (map snd sched) (seq 0 (cN A)) ->
    exists B, csr_scale_inplace a A sched = Ok B /\ cwf B /\ cdims A B /\ meq (cN A) (cmat B) (mscale a (cmat A)).
  Proof.
    intros HA HP. destruct (csr_scale_inplace_ok a A sched HA HP) as (B & E & W & D & R & _).
    exists B. split; auto. split; auto. split; auto. intros i j Hi Hj. unfold cmat, mscale. rewrite R by auto. apply elook_sc.
  Qed.

  Lemma cscale_add_identity_spec (keep : F -> bool) alpha beta (A : csr) s0 s1 s2 : cwf A ->
    Permutation (map snd s0) (seq 0 (cN A)) ->
    Permutation (map snd s1) (seq 0 (cN A)) -> Permutation (map snd s2) (seq 0 (cN A)) ->
    exists A', csr_scale_add_identity keep alpha beta A s0 s1 s2 = Ok A' /\ cwf A' /\ cdims A A' /\
      meq (cN A) (cmat A') (mcut keep (madd (mscale alpha (cmat A)) (mscale beta mid))).
  Proof.
    intros HA P0 P1 P2. unfold csr_scale_add_identity.
    destruct (cscale_inplace_spec alpha A s0 HA P0) as (B & E & W & [D1 D2] & M1). rewrite E. cbn [bind].
    destruct (cadd_identity_spec keep beta B s1 s2 W) as (C & E2 & W2 & [D3 D4] & M2); try (rewrite <- D1; auto).
    exists C. split; auto. split; auto. split; [split; congruence|]. intros i j Hi Hj. rewrite M2 by congruence.
    unfold mcut, madd. rewrite M1 by auto. auto.
  Qed.

  Lemma ccopy_new_spec (A : csr) sched : cwf A -> Permutation (map snd sched) (seq 0 (cN A)) ->
    exists B, csr_copy_new A sched = Ok B /\ cwf B /\ cdims A B /\ forall i j, (i < cN A)%nat -> cmat B i j = cmat A i j.
  Proof.
    intros HA HP. destruct (csr_copy_new_ok A sched HA HP) as (B & E & W & D & R).
    exists B. split; auto. split; auto. split; auto. intros i j Hi. unfold cmat. destruct (R i Hi) as [-> _]. auto.
  Qed.

  (** bml_copy succeeds exactly when each row of B has room for the row of A *)
  Lemma ccopy_spec (A B : csr) sched : cwf A -> cwf B -> cN A = cN B -> Permutation (map snd sched) (seq 0 (cN A)) ->
    (csr_copy A B sched = Err /\ exists i, (i < cN A)%nat /\ (calloc B i < length (crow A i))%nat) \/
    (exists B', csr_copy A B sched = Ok B' /\ cwf B' /\ cdims B B' /\ forall i j, (i < cN A)%nat -> cmat B' i j = cmat A i j).
  Proof.
    intros HA HB HN HP.
    assert (X : (forall i, (i < cN A)%nat -> (length (crow A i) <= calloc B i)%nat) \/
                (exists i, (i < cN A)%nat /\ (calloc B i < length (crow A i))%nat)).
    { clear HN HP. induction (cN A) as [|n IH]; [left; lia|]. destruct IH as [IH|(i & Hi & H)].
      - destruct (Nat.le_gt_cases (length (crow A n)) (calloc B n)) as [H|H].
        + left. intros i Hi. destruct (Nat.eq_dec i n) as [->|]; auto. apply IH. lia.
        + right. exists n. auto.
      - right. exists i. auto. }
    destruct X as [X|(i & Hi & X)].
    - right. destruct (csr_copy_ok A B sched HA HB HN HP X) as (B' & E & W & D & R).
      exists B'. split; auto. split; auto. split; auto. intros i j Hi. unfold cmat. rewrite R by auto. auto.
    - left. split; [eapply csr_copy_err; eauto|eauto].
  Qed.

  Lemma elook_bandrow N M (rnd : nat -> nat -> F) i j : (i < N)%nat -> (j < N)%nat ->
    elook (bandrow N M rnd i) j = if ((i <=? j + M / 2) && (j + M / 2 <? i + M))%nat then rnd i j else 0.
  Proof.
    intros Hi Hj. unfold bandrow. rewrite elook_map_pair.
    assert (HM2 : (M / 2 <= M)%nat) by (apply Nat.div_le_upper_bound; lia).
    assert (X : existsb (Nat.eqb j) (seq (band_lo M i) (band_hi N M i - band_lo M i)) =
                ((i <=? j + M / 2) && (j + M / 2 <? i + M))%nat).
    { apply Bool.eq_iff_eq_true. rewrite existsb_eqb, in_seq, andb_true_iff, Nat.leb_le, Nat.ltb_lt.
      unfold band_lo, band_hi. lia. }
    rewrite X. auto.
  Qed.

  Lemma cconstructors_spec N M (rnd : nat -> nat -> F) sched : Permutation (map snd sched) (seq 0 N) ->
    (cwf (csr_zero N M : csr) /\ meq N (cmat (csr_zero N M : csr)) mzero) /\
    (exists A : csr, csr_identity N M sched = Ok A /\ cN A = N /\ cM A = M /\ cwf A /\ meq N (cmat A) mid) /\
    (exists A : csr, csr_banded N M rnd sched = Ok A /\ cN A = N /\ cM A = M /\ cwf A /\
       meq N (cmat A) (fun i j => if ((i <=? j + M / 2) && (j + M / 2 <? i + M))%nat then rnd i j else 0)).
  Proof.
    intros HP. split; [|split].
    - destruct (csr_zero_ok (F:=F) N M) as [W R]. split; auto. intros i j _ _. unfold cmat. rewrite R. auto.
    - destruct (csr_identity_ok (F:=F) N M sched HP) as (A & E & HN & HM & W & R). exists A. do 4 (split; [auto|]).
      intros i j Hi Hj. unfold cmat, mid. rewrite R by auto. reflexivity.
    - destruct (csr_banded_ok N M rnd sched HP) as (A & E & HN & HM & W & R). exists A. do 4 (split; [auto|]).
      intros i j Hi Hj. unfold cmat. rewrite R by auto. apply elook_bandrow; auto.
  Qed.
End CsrTop.
