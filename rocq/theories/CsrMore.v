(** Proofs about csr: general product, transpose_new, traces, norms,
    introspection and submatrices. *)
From Verif Require Import Base BaseFacts Spec SpecFacts EllpackModel EllpackSpec EllpackFacts EllpackOps EllpackArith
  EllpackMul EllpackMore EllpackRest EllpackExact EllpackNorm CsrModel CsrSpec CsrFacts CsrOps CsrMul CsrHash.
From Coq Require Import Ring.

#[local] Arguments firstn {A} !n !l : simpl nomatch.
#[local] Arguments skipn {A} !n !l : simpl nomatch.

Section CsrMore.
  Context {F : scalar}.
  Local Open Scope K_scope.
  Add Ring Kring14 : (k_ring F).
  Local Notation row := (row F).
  Local Notation csr := (csr F).
  Local Notation ent := (nat * K F)%type.

  Lemma count_le N (p q : nat -> bool) : (forall k, (k < N)%nat -> p k = true -> q k = true) -> (count N p <= count N q)%nat.
  Proof.
    intros H. unfold count. apply NoDup_incl_length; [apply NoDup_filter, seq_NoDup|].
    intros k Hk. apply filter_In in Hk as [H1 H2]. apply filter_In. split; auto. apply H; auto. apply in_seq in H1. lia.
  Qed.

  (** ** matrix level statements *)
  Lemma cadd_spec (keep : F -> bool) alpha beta (A B : csr) s1 s2 : cwf A -> cwf B -> cN A = cN B ->
    Permutation (map snd s1) (seq 0 (cN A)) -> Permutation (map snd s2) (seq 0 (cN A)) ->
    (forall i, (i < cN A)%nat -> (length (crow A i) <= table_max)%nat) ->
    (forall i, (i < cN A)%nat -> (union_cols A B i <= calloc A i)%nat) ->
    exists A', csr_add keep alpha beta A B s1 s2 = Ok A' /\ cwf A' /\ cdims A A' /\
      meq (cN A) (cmat A') (mcut keep (madd (mscale alpha (cmat A)) (mscale beta (cmat B)))).
  Proof.
    intros HA HB HN H1 H2 H3 H4.
    destruct (csr_add_ok keep alpha beta A B s1 s2 HA HB HN H1 H2 H3 H4) as (A' & E & Hw & D & Hr).
    exists A'. split; [auto|]. split; [auto|]. split; [auto|]. intros i j Hi Hj.
    destruct (Hr i Hi) as (E0 & R1 & R2 & R3). unfold cmat at 1. rewrite R1.
    rewrite elook_cutrow.
    - rewrite R3. auto.
    - rewrite R2. pose proof HA as [_ HrA]. pose proof HB as [_ HrB].
      destruct (HrA i Hi) as [A2 A3]. destruct (HrB i ltac:(lia)) as [B2 B3].
      apply NoDup_app_intro; auto.
      + unfold newE. apply NoDup_cols_filter. auto.
      + intros x Hx1 Hx2. unfold cols, newE in Hx2. apply in_map_iff in Hx2 as ([x' u] & <- & Hx2). apply filter_In in Hx2 as [_ Hx2].
        simpl in Hx2, Hx1. apply negb_true_iff in Hx2. apply existsb_eqb_false in Hx2. auto.
  Qed.

  Lemma cadd_self_spec (keep : F -> bool) alpha beta (A : csr) s1 s2 : cwf A ->
    Permutation (map snd s1) (seq 0 (cN A)) -> Permutation (map snd s2) (seq 0 (cN A)) ->
    (forall i, (i < cN A)%nat -> (length (crow A i) <= table_max)%nat) ->
    exists A', csr_add_self keep alpha beta A s1 s2 = Ok A' /\ cwf A' /\ cdims A A' /\
      meq (cN A) (cmat A') (mcut keep (mscale (alpha * (1 + beta)) (cmat A))).
  Proof.
    intros HA H1 H2 H3. destruct (csr_add_self_ok keep alpha beta A s1 s2 HA H1 H2 H3) as (A' & E & Hw & D & Hr).
    exists A'. split; [auto|]. split; [auto|]. split; [auto|]. intros i j Hi Hj. unfold cmat at 1. rewrite Hr by auto.
    destruct HA as [_ HA]. destruct (HA i Hi) as [A1 A2]. rewrite elook_cutrow by (rewrite cols_sc; auto).
    rewrite elook_sc. auto.
  Qed.

  Lemma cmultiply_AB_spec (keep : F -> bool) (A B C : csr) sched :
    cwf A -> cwf B -> cN A = cN B -> cwf C -> cN C = cN A ->
    Permutation (map snd sched) (seq 0 (cN A)) ->
    exists C', csr_multiply_AB keep A B C sched = Ok C' /\ cwf C' /\ cdims C C' /\
      meq (cN A) (cmat C') (mcut_offdiag keep (mmul (cN A) (cmat A) (cmat B))).
  Proof.
    intros HA HB HN HC HNC HP. destruct (csr_multiply_AB_ok keep A B C sched HA HB HN HC HNC HP) as (C' & E & Hw & D & Hr).
    exists C'. split; [auto|]. split; [auto|]. split; [auto|]. intros i j Hi Hj. unfold cmat at 1. rewrite Hr by auto.
    apply elook_cmulrow; auto.
  Qed.

  Lemma cmultiply_x2_spec (keep : F -> bool) (X X2 : csr) nth sched :
    cwf X -> cwf X2 -> cN X2 = cN X -> full_sched (cN X) nth sched ->
    exists C, csr_multiply_x2 keep X X2 nth sched =
        Ok (C, mtrace (cN X) (cmat X), mtrace (cN X) (mmul (cN X) (cmat X) (cmat X))) /\
      cwf C /\ cdims X2 C /\ meq (cN X) (cmat C) (mcut_offdiag keep (mmul (cN X) (cmat X) (cmat X))).
  Proof.
    intros HX HC HN HS. destruct (csr_multiply_x2_ok keep X X2 nth sched HX HC HN HS) as (C & E & Hw & D & Hr).
    exists C. split; [auto|]. split; [auto|]. split; [auto|]. intros i j Hi Hj. unfold cmat at 1. rewrite Hr by auto.
    apply elook_cmulrow; auto.
  Qed.

  Lemma celement_multiply_spec (keep : F -> bool) (A B C : csr) sched :
    cwf A -> cwf B -> cN A = cN B -> cwf C -> cN C = cN A ->
    Permutation (map snd sched) (seq 0 (cN A)) ->
    exists C', csr_element_multiply keep A B C sched = Ok C' /\ cwf C' /\ cdims C C' /\
      meq (cN A) (cmat C') (mcut_offdiag keep (mhad (cmat A) (cmat B))).
  Proof.
    intros HA HB HN HC HNC HP. destruct (csr_element_multiply_ok keep A B C sched HA HB HN HC HNC HP) as (C' & E & Hw & D & Hr).
    exists C'. split; [auto|]. split; [auto|]. split; [auto|]. intros i j Hi Hj. unfold cmat at 1. rewrite Hr by auto.
    unfold mhad, cmat. apply elook_emulrow; (apply HA || apply HB); congruence.
  Qed.

  (** ** C := beta*C + alpha*A*B *)
  Definition mul_room (keep : F -> bool) (A B C : csr) (i : nat) : nat :=
    count (cN C) (fun k => cstored C i k || (k =? i)%nat || keep (mmul (cN A) (cmat A) (cmat B) i k)).

  Lemma cmulrow_cols (keep : F -> bool) (A B : csr) i k : cwf A -> cwf B -> cN A = cN B -> (i < cN A)%nat ->
    In k (cols (cmulrow keep A B i)) -> k = i \/ keep (mmul (cN A) (cmat A) (cmat B) i k) = true.
  Proof.
    intros HA HB HN Hi H. unfold cmulrow in H. apply (proj2 (kept_cols _ _ _ _)) in H as [_ H].
    rewrite esum_cprodE in H by auto. unfold kc_offdiag in H. apply orb_true_iff in H as [H|H]; auto.
    apply Nat.eqb_eq in H. auto.
  Qed.

  Lemma add_prod (keep : F -> bool) alpha beta (A B C P : csr) s2 s3 :
    cwf A -> cwf B -> cN A = cN B -> cwf C -> cN C = cN A -> cwf P -> cN P = cN C ->
    (forall i, (i < cN C)%nat -> crow P i = cmulrow keep A B i) ->
    Permutation (map snd s2) (seq 0 (cN C)) -> Permutation (map snd s3) (seq 0 (cN C)) ->
    (forall i, (i < cN C)%nat -> (length (crow C i) <= table_max)%nat) ->
    (forall i, (i < cN C)%nat -> (mul_room keep A B C i <= calloc C i)%nat) ->
    exists C', csr_add keep beta alpha C P s2 s3 = Ok C' /\ cwf C' /\ cdims C C' /\
      meq (cN C) (cmat C') (mcut keep (madd (mscale beta (cmat C)) (mscale alpha (mcut_offdiag keep (mmul (cN A) (cmat A) (cmat B)))))).
  Proof.
    intros HA HB HN HC HNC HP HNP Hrow H2 H3 Hm Hcap.
    destruct (cadd_spec keep beta alpha C P s2 s3 HC HP ltac:(lia) H2 H3 Hm) as (C' & E & Hw & D & Hr).
    - intros i Hi. eapply Nat.le_trans; [|apply Hcap; auto]. unfold union_cols, mul_room. apply count_le.
      intros k Hk Hx. apply orb_true_iff in Hx as [Hx|Hx]; [rewrite Hx; auto|].
      unfold cstored in Hx at 1. rewrite Hrow in Hx by auto. apply existsb_eqb in Hx.
      apply cmulrow_cols in Hx; auto; [|lia]. destruct Hx as [->|Hx].
      + rewrite Nat.eqb_refl, orb_true_r. auto.
      + rewrite Hx, orb_true_r. auto.
    - exists C'. split; [auto|]. split; [auto|]. split; [auto|]. intros i j Hi Hj. rewrite (Hr i j) by auto.
      unfold mcut, madd, mscale. unfold cmat at 2. rewrite Hrow by auto. rewrite elook_cmulrow by (auto; lia). auto.
  Qed.

  Lemma cmultiply_spec (keep : F -> bool) alpha beta (A B C : csr) s1 s2 s3 :
    cwf A -> cwf B -> cN A = cN B -> cwf C -> cN C = cN A ->
    Permutation (map snd s1) (seq 0 (cN C)) ->
    Permutation (map snd s2) (seq 0 (cN C)) -> Permutation (map snd s3) (seq 0 (cN C)) ->
    (forall i, (i < cN C)%nat -> (length (crow C i) <= table_max)%nat) ->
    (forall i, (i < cN C)%nat -> (mul_room keep A B C i <= calloc C i)%nat) ->
    exists C', csr_multiply keep alpha beta A B C s1 s2 s3 = Ok C' /\ cwf C' /\ cdims C C' /\
      meq (cN C) (cmat C') (mcut keep (madd (mscale beta (cmat C)) (mscale alpha (mcut_offdiag keep (mmul (cN A) (cmat A) (cmat B)))))).
  Proof.
    intros HA HB HN HC HNC H1 H2 H3 Hm Hcap. unfold csr_multiply.
    destruct (csr_noinit_ok (F:=F) (cN C) (cM C)) as [HZ _].
    destruct (csr_multiply_AB_ok keep A B (csr_noinit (cN C) (cM C)) s1 HA HB HN HZ HNC ltac:(rewrite <- HNC; auto)) as (P & E1 & HP & [D1 D2] & Hr).
    rewrite E1. cbn [bind]. apply (add_prod keep alpha beta A B C P); auto. intros i Hi. apply Hr. lia.
  Qed.

  Lemma cmultiply_sq_spec (keep : F -> bool) alpha beta (A C : csr) nth s1 s2 s3 :
    cwf A -> cwf C -> cN C = cN A -> full_sched (cN C) nth s1 ->
    Permutation (map snd s2) (seq 0 (cN C)) -> Permutation (map snd s3) (seq 0 (cN C)) ->
    (forall i, (i < cN C)%nat -> (length (crow C i) <= table_max)%nat) ->
    (forall i, (i < cN C)%nat -> (mul_room keep A A C i <= calloc C i)%nat) ->
    exists C', csr_multiply_sq keep alpha beta A C nth s1 s2 s3 = Ok C' /\ cwf C' /\ cdims C C' /\
      meq (cN C) (cmat C') (if keqb alpha 1 && keqb beta 0 then mcut_offdiag keep (mmul (cN A) (cmat A) (cmat A))
        else mcut keep (madd (mscale beta (cmat C)) (mscale alpha (mcut_offdiag keep (mmul (cN A) (cmat A) (cmat A)))))).
  Proof.
    intros HA HC HNC H1 H2 H3 Hm Hcap. unfold csr_multiply_sq. destruct (keqb alpha 1 && keqb beta 0).
    - destruct (cmultiply_x2_spec keep A C nth s1 HA HC HNC ltac:(rewrite <- HNC; auto)) as (P & E1 & HP & D & Hr).
      rewrite E1. cbn [bind]. exists P. split; [auto|]. split; [auto|]. split; [auto|]. rewrite HNC. auto.
    - destruct (csr_noinit_ok (F:=F) (cN C) (cM C)) as [HZ _].
      destruct (csr_multiply_x2_ok keep A (csr_noinit (cN C) (cM C)) nth s1 HA HZ HNC ltac:(rewrite <- HNC; auto)) as (P & E1 & HP & [D1 D2] & Hr).
      rewrite E1. cbn [bind]. apply (add_prod keep alpha beta A A C P); auto. intros i Hi. apply Hr. lia.
  Qed.

  (** ** scale *)
  Lemma cscale_new_spec a (A : csr) s1 s2 : cwf A ->
    Permutation (map snd s1) (seq 0 (cN A)) -> Permutation (map snd s2) (seq 0 (cN A)) ->
    exists B, csr_scale_new a A s1 s2 = Ok B /\ cwf B /\ cdims A B /\ meq (cN A) (cmat B) (mscale a (cmat A)).
  Proof.
    intros HA H1 H2. unfold csr_scale_new. destruct (csr_copy_new_ok A s1 HA H1) as (B & E1 & HB & [D1 D2] & Hr).
    rewrite E1. cbn [bind]. destruct (csr_scale_inplace_ok a B s2 HB) as (C & E2 & HC & [D3 D4] & Hr2 & _); [rewrite <- D1; auto|].
    exists C. split; [auto|]. split; [auto|]. split; [split; congruence|]. intros i j Hi Hj. unfold cmat at 1.
    rewrite Hr2 by lia. rewrite elook_sc. destruct (Hr i Hi) as [-> _]. auto.
  Qed.

  Lemma cscale_spec a (A B : csr) s1 s2 : cwf A -> cwf B -> cN A = cN B ->
    (forall i, (i < cN A)%nat -> (length (crow A i) <= calloc B i)%nat) ->
    Permutation (map snd s1) (seq 0 (cN A)) -> Permutation (map snd s2) (seq 0 (cN A)) ->
    exists B', csr_scale a A B s1 s2 = Ok B' /\ cwf B' /\ cdims B B' /\ meq (cN A) (cmat B') (mscale a (cmat A)).
  Proof.
    intros HA HB HN Hc H1 H2. unfold csr_scale. destruct (csr_copy_ok A B s1 HA HB HN H1 Hc) as (B1 & E1 & HB1 & [D1 D2] & Hr).
    rewrite E1. cbn [bind]. destruct (csr_scale_inplace_ok a B1 s2 HB1) as (C & E2 & HC & [D3 D4] & Hr2 & _); [rewrite <- D1, <- HN; auto|].
    exists C. split; [auto|]. split; [auto|]. split; [split; congruence|]. intros i j Hi Hj. unfold cmat at 1.
    rewrite Hr2 by lia. rewrite elook_sc, Hr by auto. auto.
  Qed.

  (** ** transpose_new, for every order of the critical sections *)
  Lemma in_c_slots (A : csr) i j : In (i, j) (c_slots A) <-> (i < cN A /\ j < length (crow A i))%nat.
  Proof.
    unfold c_slots. rewrite in_flat_map. split.
    - intros (i' & H1 & H2). apply in_map_iff in H2 as (j' & E & H2). inversion E; subst.
      apply in_seq in H1. apply in_seq in H2. lia.
    - intros [H1 H2]. exists i. split; [apply in_seq; lia|]. apply in_map_iff. exists j. split; auto. apply in_seq; lia.
  Qed.

  Lemma NoDup_c_slots (A : csr) : NoDup (c_slots A).
  Proof.
    unfold c_slots. generalize (seq_NoDup (cN A) 0). induction (seq 0 (cN A)) as [|i l IH]; intros Hd; simpl; [constructor|].
    inversion Hd; subst. apply NoDup_app_intro; auto.
    - apply FinFun.Injective_map_NoDup; [|apply seq_NoDup]. intros x y E. congruence.
    - intros [a b] H3 H4. apply in_map_iff in H3 as (j & E & _). inversion E; subst.
      apply in_flat_map in H4 as (i' & H5 & H6). apply in_map_iff in H6 as (j' & E' & _). inversion E'; subst. auto.
  Qed.

  Definition csl (A : csr) (ij : nat * nat) : ent := nth (snd ij) (crow A (fst ij)) (0%nat, 0).
  Definition ctrrow (A : csr) (ev : list (nat * nat)) (r : nat) : list ent :=
    map (fun ij => (fst ij, snd (csl A ij))) (filter (fun ij => (fst (csl A ij) =? r)%nat) ev).

  Lemma ctrrow_nodup (A : csr) ev r : cwf A -> NoDup ev -> (forall i j, In (i, j) ev -> (i < cN A /\ j < length (crow A i))%nat) ->
    NoDup (cols (ctrrow A ev r)).
  Proof.
    intros [Hs Hr] Hd Hin. unfold ctrrow, cols. rewrite map_map. simpl.
    induction ev as [|[i j] ev IH]; simpl; [constructor|]. inversion Hd; subst.
    assert (IH' : NoDup (map (fun x : nat * nat => fst x) (filter (fun ij => (fst (csl A ij) =? r)%nat) ev))).
    { apply IH; auto. intros; apply Hin; right; auto. }
    destruct (Nat.eqb_spec (fst (csl A (i, j))) r) as [E|E]; simpl; auto.
    constructor; auto. intros H. apply in_map_iff in H as ([i' j'] & E1 & H). simpl in E1. subst i'.
    apply filter_In in H as [H3 H4]. apply Nat.eqb_eq in H4. unfold csl in E, H4. simpl in E, H4.
    assert (j = j').
    { destruct (Hin i j (or_introl eq_refl)) as [I1 I2]. destruct (Hin i j' (or_intror H3)) as [I3 I4].
      destruct (Hr i I1) as (Hnd & _). unfold cols in Hnd.
      rewrite (NoDup_nth (map fst (crow A i)) (fst (0%nat, @k0 F))) in Hnd.
      apply Hnd; rewrite ?map_length; auto. rewrite !(map_nth fst). congruence. }
    subst. auto.
  Qed.

  Lemma in_ctrrow_cols (A : csr) ev r i : (forall i j, In (i, j) ev -> (i < cN A /\ j < length (crow A i))%nat) ->
    In i (cols (ctrrow A ev r)) -> (i < cN A)%nat /\ In r (cols (crow A i)).
  Proof.
    intros Hin H. unfold ctrrow, cols in H. rewrite map_map in H. apply in_map_iff in H as ([i' j] & E & H).
    simpl in E. subst. apply filter_In in H as [H H2]. apply Hin in H. apply Nat.eqb_eq in H2.
    split; [lia|]. rewrite <- H2. unfold csl; simpl. unfold cols. apply in_map. apply nth_In. lia.
  Qed.

  Lemma elook_ctrrow (A : csr) ev r i : cwf A -> Permutation ev (c_slots A) -> (i < cN A)%nat ->
    elook (ctrrow A ev r) i = cmat A i r.
  Proof.
    intros Hw HP Hi. pose proof Hw as [Hs Hr].
    assert (Hd : NoDup ev) by (apply (Permutation_NoDup (Permutation_sym HP)); apply NoDup_c_slots).
    assert (Hin : forall i j, In (i, j) ev -> (i < cN A /\ j < length (crow A i))%nat).
    { intros a b H. apply in_c_slots. apply (Permutation_in _ HP); auto. }
    destruct (Hr i Hi) as (H2 & H3). unfold cmat.
    destruct (in_dec Nat.eq_dec r (cols (crow A i))) as [Hc|Hc].
    - pose proof (in_cols_elook _ _ H2 Hc) as He.
      apply (In_nth _ _ (0%nat, 0)) in He as (j & Hj & Ej).
      apply elook_in; [apply ctrrow_nodup; auto|].
      unfold ctrrow. apply in_map_iff. exists (i, j). unfold csl; simpl. rewrite Ej. split; auto.
      apply filter_In. split.
      + apply (Permutation_in _ (Permutation_sym HP)). apply in_c_slots. auto.
      + simpl. rewrite Ej. apply Nat.eqb_refl.
    - rewrite (elook_notin (crow A i)) by auto. apply elook_notin. intros H.
      apply in_ctrrow_cols in H; auto. tauto.
  Qed.

  Lemma ctranspose_new_spec (A : csr) ev : cwf A -> Permutation ev (c_slots A) ->
    exists B, csr_transpose_new A ev = Ok B /\ cwf B /\ cdims A B /\ meq (cN A) (cmat B) (mtrans (cmat A)).
  Proof.
    intros Hw HP. pose proof Hw as [Hs Hr].
    assert (Hd : NoDup ev) by (apply (Permutation_NoDup (Permutation_sym HP)); apply NoDup_c_slots).
    assert (Hin : forall i j, In (i, j) ev -> (i < cN A /\ j < length (crow A i))%nat).
    { intros a b H. apply in_c_slots. apply (Permutation_in _ HP); auto. }
    apply wp_ok. unfold csr_transpose_new.
    eapply wp_mono.
    - apply (forM_inv (fun pre B => cdims A B /\ cshape B /\ forall r, (r < cN A)%nat -> crow B r = ctrrow A pre r)).
      + destruct (csr_noinit_ok (F:=F) (cN A) (cM A)) as [[HZ _] HE]. split; [split; auto|]. split; [auto|].
        intros r _. rewrite HE. auto.
      + intros pre [i j] post B E ((D1 & D2) & HsB & HB).
        destruct (Hin i j) as [Hi Hj]; [rewrite E; apply in_app_iff; right; left; auto|].
        rewrite c_row_ok by (rewrite (cwf_len _ Hw); auto). cbn [bind].
        rewrite (r_get_ok _ _ j (cwf_is A i Hw Hi) Hj). cbn [bind].
        change (nth j (crow A i) (0%nat, 0)) with (csl A (i, j)).
        destruct (csl A (i, j)) as [k v] eqn:Ekv.
        assert (Hk : (k < cN A)%nat).
        { apply (Hr i Hi). replace k with (fst (csl A (i, j))) by (rewrite Ekv; auto). unfold csl, cols. simpl. apply in_map. apply nth_In. auto. }
        destruct (csr_set_element_new_ok B k i v HsB ltac:(lia)) as (B' & E1 & HU). rewrite E1. cbn [wpq].
        assert (HkB : (k < cN B)%nat) by lia. destruct (cupd_shape _ _ _ _ HsB HkB HU) as ((D3 & D4) & U1 & U2 & U3).
        split; [split; congruence|]. split; [auto|]. intros r Hrr.
        assert (Htr : ctrrow A (pre ++ [(i, j)]) r = ctrrow A pre r ++ (if (k =? r)%nat then [(i, v)] else [])).
        { unfold ctrrow. rewrite filter_app, map_app. f_equal. cbn [filter]. rewrite Ekv. cbn [fst].
          destruct (k =? r); auto. cbn [map fst]. rewrite Ekv. auto. }
        rewrite Htr. destruct (Nat.eqb_spec k r) as [<-|Hne].
        * rewrite U2, HB by auto. auto.
        * rewrite U3, HB, app_nil_r by auto. auto.
    - intros B ((D1 & D2) & HsB & HB).
      split; [|split; [split; auto|]].
      + split; auto. intros i Hi. rewrite <- D1 in *. rewrite HB by auto. split; [apply ctrrow_nodup; auto|].
        intros k Hk. apply in_ctrrow_cols in Hk; tauto.
      + intros i j Hi Hj. unfold cmat at 1. rewrite HB by auto. unfold mtrans. apply elook_ctrrow; auto.
  Qed.

  (** ** traces *)
  Lemma csr_trace_ok (A : csr) nth sched : cwf A -> full_sched (cN A) nth sched ->
    csr_trace A nth sched = Ok (mtrace (cN A) (cmat A)).
  Proof.
    intros HA [HP Hth]. apply wp_eq. unfold csr_trace. apply wp_bind. eapply wp_mono.
    - apply (par_red (F:=F) sched _ (fun _ => 0) (fun _ => True) (fun w => w) (fun i => cmat A i i) nth (cN A)); auto.
      intros i w Hi _. rewrite c_row_ok by (rewrite (cwf_len _ HA); auto). cbn [bind].
      rewrite (r_elem_ok _ _ i (cwf_is A i HA Hi)). cbn [bind wpq snd]. auto.
    - simpl. intros [u w] H. unfold reduce_sum, mtrace. simpl in *. etransitivity; [exact H|].
      rewrite bigsum_zero by auto. ring.
  Qed.

  Lemma elook_snoc (E : list ent) k v j : elook (E ++ [(k, v)]) j =
    if existsb (Nat.eqb j) (cols E) then elook E j else if (j =? k)%nat then v else 0.
  Proof.
    induction E as [|[a b] E IH]; simpl.
    - rewrite (Nat.eqb_sym k j). auto.
    - rewrite (Nat.eqb_sym j a). destruct (a =? j); simpl; auto.
  Qed.

  (** first matching entry of a row *)
  Lemma first_match (E : list ent) i (a tr : F) :
    wp (forM E (fun kv s => (fun k b '(tr, stop) =>
                if (stop : bool) then Ok (tr, stop)
                else if (i =? k)%nat then Ok (tr + a * b, true) else Ok (tr, false)) (fst kv) (snd kv) s) (tr, false))
       (fun r => fst r = tr + a * elook E i).
  Proof.
    eapply wp_mono.
    - apply (forM_inv (fun pre (r : F * bool) => fst r = tr + a * elook pre i /\ snd r = existsb (Nat.eqb i) (cols pre))).
      + simpl. split; [ring|auto].
      + intros pre [k v] post [t st] _ [H1 H2]. cbn [fst snd] in *. rewrite cols_app, existsb_app, elook_snoc. simpl.
        rewrite orb_false_r. subst st. destruct (existsb (Nat.eqb i) (cols pre)) eqn:X; simpl; [auto|].
        apply existsb_eqb_false in X. rewrite H1, (elook_notin pre) by auto.
        destruct (i =? k); simpl; split; auto; ring.
    - intros r [H _]. auto.
  Qed.

  Lemma csr_trace_mult_ok (A B : csr) nth sched : cwf A -> cwf B -> cN A = cN B -> full_sched (cN A) nth sched ->
    csr_trace_mult A B nth sched = Ok (mtrace (cN A) (mmul (cN A) (cmat A) (cmat B))).
  Proof.
    intros HA HB HN [HP Hth]. pose proof HA as [_ HrA]. apply wp_eq. unfold csr_trace_mult. rewrite HN, Nat.eqb_refl. cbn [negb]. rewrite <- HN.
    apply wp_bind. eapply wp_mono.
    - apply (par_red (F:=F) sched _ (fun _ => 0) (fun _ => True) (fun w => w) (fun i => mmul (cN A) (cmat A) (cmat B) i i) nth (cN A)); auto.
      intros i w Hi _. rewrite c_row_ok by (rewrite (cwf_len _ HA); auto). cbn [bind].
      rewrite (r_for_eq _ _ _ _ (cwf_is A i HA Hi)). destruct (HrA i Hi) as [A1 A2].
      apply wp_bind. eapply wp_mono.
      + apply (forM_inv (fun pre tr => tr = w + lsum (map (fun kv => snd kv * cmat B (fst kv) i) pre))).
        * simpl. ring.
        * intros pre [j a] post tr E ->. cbn [fst snd].
          assert (Hj : (j < cN B)%nat).
          { rewrite <- HN. apply A2. rewrite E, cols_app. apply in_app_iff. right; left; auto. }
          rewrite c_row_ok by (rewrite (cwf_len _ HB); auto). cbn [bind].
          rewrite (r_for_eq _ _ _ _ (cwf_is B j HB Hj)). apply wp_bind. eapply wp_mono; [apply first_match|].
          intros [t st] Ht. cbn [fst wpq] in *. rewrite Ht, map_app, lsum_app. simpl. unfold cmat. ring.
      + intros tr ->. cbn [wpq snd]. split; auto. f_equal. unfold mmul.
        apply (lsum_entries (crow A i) (cN A) (fun j v => v * cmat B j i)); auto. intros; ring.
    - simpl. intros [u w] H. unfold reduce_sum, mtrace. simpl in *. etransitivity; [exact H|].
      rewrite bigsum_zero by auto. ring.
  Qed.

  (** ** norms *)
  Lemma csr_sum_squares_ok (A : csr) nth sched : cwf A -> full_sched (cN A) nth sched ->
    csr_sum_squares A nth sched = Ok (msum (cN A) (mhad (cmat A) (cmat A))).
  Proof.
    intros Hw [HP Hth]. pose proof Hw as [Hs Hr]. apply wp_eq. unfold csr_sum_squares. apply wp_bind.
    eapply wp_mono.
    - apply (par_red (F:=F) sched _ (fun _ => 0) (fun _ => True) (fun w => w)
         (fun i => bigsum (cN A) (fun j => cmat A i j * cmat A i j)) nth (cN A)); auto.
      intros i w Hi _. destruct (Hr i Hi) as (H2 & H3).
      rewrite c_row_ok by (rewrite (cwf_len _ Hw); auto). cbn [bind].
      rewrite (r_for_eq _ _ _ _ (cwf_is A i Hw Hi)). apply wp_bind.
      eapply wp_mono.
      + apply (forM_inv (fun pre s => s = w + lsum (map (fun kv => snd kv * snd kv) pre))).
        * simpl. ring.
        * intros pre [k v] post s E ->. simpl. rewrite map_app, lsum_app. simpl. ring.
      + intros s ->. simpl. split; auto. f_equal.
        apply (lsum_entries0 (crow A i) (cN A) (fun v => v * v)); auto. ring.
    - simpl. intros [u w] H. unfold reduce_sum, msum, mhad. simpl in *. etransitivity; [exact H|].
      rewrite bigsum_zero by auto. ring.
  Qed.

  Lemma csr_sum_squares_submatrix_ok (A : csr) core nth sched : cwf A -> (core <= cN A)%nat ->
    full_sched core nth sched ->
    csr_sum_squares_submatrix A core nth sched = Ok (msum core (mhad (cmat A) (cmat A))).
  Proof.
    intros Hw Hcore [HP Hth]. pose proof Hw as [Hs Hr]. apply wp_eq. unfold csr_sum_squares_submatrix. apply wp_bind.
    eapply wp_mono.
    - apply (par_red (F:=F) sched _ (fun _ => 0) (fun _ => True) (fun w => w)
         (fun i => bigsum core (fun j => cmat A i j * cmat A i j)) nth core); auto.
      intros i w Hi _. assert (HiN : (i < cN A)%nat) by lia. destruct (Hr i HiN) as (H2 & H3).
      rewrite c_row_ok by (rewrite (cwf_len _ Hw); auto). cbn [bind].
      rewrite (r_for_eq _ _ _ _ (cwf_is A i Hw HiN)). apply wp_bind.
      eapply wp_mono.
      + apply (forM_inv (fun pre s => s = w + lsum (map (fun kv => if (fst kv <? core)%nat then snd kv * snd kv else 0) pre))).
        * simpl. ring.
        * intros pre [k v] post s E ->. simpl. rewrite map_app, lsum_app. simpl. destruct (k <? core); ring.
      + intros s ->. simpl. split; auto. f_equal.
        rewrite (lsum_entries (crow A i) (cN A) (fun k v => if (k <? core)%nat then v * v else 0)); auto.
        * replace (cN A) with (core + (cN A - core))%nat by lia. rewrite bigsum_split.
          rewrite (bigsum_zero (cN A - core)).
          2:{ intros j _. assert (X : (core + j <? core)%nat = false) by (apply Nat.ltb_ge; lia). rewrite X. auto. }
          rewrite (bigsum_ext core _ (fun j => cmat A i j * cmat A i j)); [ring|].
          intros j Hj. apply Nat.ltb_lt in Hj. rewrite Hj. auto.
        * intros k _. destruct (k <? core); ring.
    - simpl. intros [u w] H. unfold reduce_sum, msum, mhad. simpl in *. etransitivity; [exact H|].
      rewrite bigsum_zero by auto. ring.
  Qed.

  (** the prelude: cvals[pos] = alpha * value, and the table of the columns *)
  Lemma fill_row_ok (alpha : F) (r : row) E (cv : list F) : row_is r E -> (length E <= table_max)%nat -> (length E <= length cv)%nat ->
    exists cv' t k, fill_row alpha r cv = Ok (cv', t) /\ length cv' = length cv /\ tinv (2 ^ k) (cols E) t /\
      firstn (length E) cv' = map (fun kv => alpha * snd kv) E.
  Proof.
    intros H Hm Hl. unfold fill_row. rewrite (row_is_nnz _ _ H).
    destruct (table_new_ok (length E) Hm) as (k & Hk & Et). rewrite Et. cbn [bind].
    assert (X : wp (for_n (length E) (fun pos '(cv, t) =>
      '(k, v) <- r_get r pos ;; cv <- wr cv pos (alpha * v) ;; t <- table_insert t k ;; Ok (cv, t))
       (cv, mkTable (repeat None (2 ^ k)) (repeat None (2 ^ k)) 0))
       (fun s => length (fst s) = length cv /\ tinv (2 ^ k) (cols (firstn (length E) E)) (snd s) /\
          firstn (length E) (fst s) = map (fun kv => alpha * snd kv) (firstn (length E) E))).
    { apply (for_n_inv (fun p s => length (fst s) = length cv /\ tinv (2 ^ k) (cols (firstn p E)) (snd s) /\
          firstn p (fst s) = map (fun kv => alpha * snd kv) (firstn p E))).
      - cbn [fst snd]. split; [auto|]. split; [apply tinv_new|auto].
      - intros p [c t] Hp (H1 & H2 & H3). cbn [fst snd] in *.
        rewrite (r_get_ok _ _ p H Hp). cbn [bind]. rewrite (firstn_S_nth E p (0%nat, 0) Hp).
        destruct (nth p E (0%nat, 0)) as [q v]. rewrite wr_ok by lia. cbn [bind].
        destruct (table_insert_ok k (cols (firstn p E)) t q H2) as (t' & E4 & E5).
        { unfold cols. rewrite map_length, firstn_length. lia. }
        rewrite E4. cbn [bind wpq fst snd]. rewrite length_set_nth. split; [auto|]. split; [rewrite cols_app; exact E5|].
        rewrite firstn_set_nth by lia. rewrite H3, map_app. auto. }
    apply wp_ok in X as ([cv' t] & X1 & X2 & X3 & X4). cbn [fst snd] in *. rewrite firstn_all in *.
    exists cv', t, k. auto.
  Qed.

  Lemma cut_0 (keep : F -> bool) : cut keep 0 = 0.
  Proof. unfold cut. destruct (keep 0); auto. Qed.

  (** positions in row EA of the columns of EB that occur there *)
  Definition poss (EA EB : list ent) : list nat :=
    flat_map (fun kv => match epos EA (fst kv) with Some p => [p] | None => [] end) EB.

  Lemma poss_len EA EB : (length (poss EA EB) <= length EB)%nat.
  Proof.
    unfold poss. induction EB as [|kv EB IH]; simpl; auto. rewrite app_length.
    destruct (epos EA (fst kv)); simpl; lia.
  Qed.

  Lemma poss_lt EA EB p : In p (poss EA EB) -> (p < length EA)%nat.
  Proof.
    unfold poss. rewrite in_flat_map. intros (kv & _ & H). destruct (epos EA (fst kv)) eqn:X; simpl in H; [|tauto].
    destruct H as [<-|[]]. apply epos_Some in X. tauto.
  Qed.

  Lemma epos_inj (E : list ent) j q p : NoDup (cols E) -> epos E j = Some p -> epos E q = Some p -> j = q.
  Proof. intros _ H1 H2. apply epos_Some in H1 as (_ & <- & _). apply epos_Some in H2 as (_ & <- & _). auto. Qed.

  Lemma sum_AB_row (keep : F -> bool) (alpha : F) (A B : csr) i (cv : list F) (ip : list nat) (sum : F) :
    cwf A -> cwf B -> cN A = cN B -> (i < cN A)%nat -> (length (crow A i) <= table_max)%nat ->
    length cv = cN A -> length ip = cN A ->
    wp (ra <- c_row A i ;;
        '(cv, t) <- fill_row alpha ra cv ;;
        rb <- c_row B i ;;
        '(cv, ip, cnt) <- r_for rb (fun k v '(cv, ip, cnt) =>
            idx <- table_lookup t k ;;
            match idx with
            | Some p => x <- rd cv p ;; cv <- wr cv p (x * v) ;; ip <- wr ip cnt p ;; Ok (cv, ip, S cnt)
            | None => Ok (cv, ip, cnt)
            end) (cv, ip, 0%nat) ;;
        sum <- for_n cnt (fun q sum => p <- rd ip q ;; x <- rd cv p ;; Ok (if keep x then sum + x else sum)) sum ;;
        Ok (cv, ip, sum))
      (fun s => length (fst (fst s)) = cN A /\ length (snd (fst s)) = cN A /\
         snd s = sum + bigsum (cN A) (fun k => cut keep (alpha * (cmat A i k * cmat B i k)))).
  Proof.
    intros HA HB HN Hi Hm Hcv Hip. assert (HiB : (i < cN B)%nat) by lia. pose proof HA as [_ HrA]. pose proof HB as [_ HrB].
    destruct (HrA i Hi) as [A1 A2]. destruct (HrB i HiB) as [B1 B2].
    pose proof (cols_ok_len _ _ (HrA i Hi)) as HlA. pose proof (cols_ok_len _ _ (HrB i HiB)) as HlB.
    rewrite c_row_ok by (rewrite (cwf_len _ HA); auto). cbn [bind].
    set (EA := crow A i) in *. set (EB := crow B i) in *.
    destruct (fill_row_ok alpha _ EA cv (cwf_is A i HA Hi) Hm ltac:(lia)) as (cv1 & t & k & E1 & L1 & HT & V1).
    rewrite E1. cbn [bind]. rewrite c_row_ok by (rewrite (cwf_len _ HB); auto). cbn [bind].
    rewrite (r_for_eq _ _ _ _ (cwf_is B i HB HiB)). fold EB.
    assert (V1' : forall p, (p < length EA)%nat -> nth p cv1 0 = alpha * snd (nth p EA (0%nat, 0))).
    { intros p Hp. rewrite <- (nth_firstn_lt cv1 (length EA) p) by auto. rewrite V1.
      rewrite (nth_indep _ 0 (alpha * snd (0%nat, 0 : F))) by (rewrite map_length; auto).
      pose proof (map_nth (fun kv : ent => alpha * snd kv) EA (0%nat, 0) p) as Y. cbv beta in Y. exact Y. }
    apply wp_bind. eapply wp_mono.
    - apply (forM_inv (fun pre s => length (fst (fst s)) = cN A /\ length (snd (fst s)) = cN A /\
        snd s = length (poss EA pre) /\ firstn (snd s) (snd (fst s)) = poss EA pre /\
        forall c p, epos EA c = Some p -> nth p (fst (fst s)) 0 = alpha * elook EA c *
            (if existsb (Nat.eqb c) (cols pre) then elook pre c else 1))).
      + cbn [fst snd]. split; [lia|]. do 3 (split; [auto|]). intros c p Hp. apply epos_Some in Hp as (P1 & P2 & P3 & P4).
        rewrite V1' by auto. rewrite P4. simpl. ring.
      + intros pre [c v] post [[cv2 ip2] cnt] HE (L2 & L3 & H3 & H4 & H5). cbn [fst snd] in *.
        assert (HND : ~ In c (cols pre)).
        { rewrite HE, cols_app in B1. apply NoDup_app_inv in B1 as (_ & _ & Hx). intros Y. apply (Hx c Y). left; auto. }
        pose proof HND as HNDb. apply existsb_eqb_false in HNDb.
        assert (Hps : poss EA (pre ++ [(c, v)]) = poss EA pre ++ match epos EA c with Some p => [p] | None => [] end).
        { unfold poss. rewrite flat_map_app. simpl. rewrite app_nil_r. auto. }
        rewrite (table_lookup_ok k _ _ _ HT), lastk_epos by auto. cbn [bind].
        destruct (epos EA c) as [p|] eqn:Xp.
        * pose proof Xp as Xp'. apply epos_Some in Xp' as (P1 & P2 & P3 & P4).
          assert (Hcnt : (cnt < cN A)%nat).
          { subst cnt. assert (length pre < length EB)%nat by (rewrite HE, app_length; simpl; lia).
            pose proof (poss_len EA pre). lia. }
          rewrite (rd_ok _ _ 0) by lia. cbn [bind]. rewrite wr_ok by lia. cbn [bind]. rewrite wr_ok by lia. cbn [bind wpq fst snd].
          rewrite !length_set_nth, Hps, app_length. split; [auto|]. split; [auto|]. split; [simpl; lia|]. split.
          -- rewrite firstn_set_nth by lia. rewrite H4. auto.
          -- intros c' p' Hp'. rewrite cols_app, existsb_app. simpl. rewrite orb_false_r, elook_app_new by auto.
             rewrite nth_set_nth. destruct (Nat.eqb_spec p' p) as [->|Hne].
             ++ assert (c' = c) by (apply (epos_inj EA c' c p A1 Hp' Xp)). subst c'. rewrite Nat.eqb_refl, orb_true_r.
                replace (p <? length cv2)%nat with true by (symmetry; apply Nat.ltb_lt; lia). cbn [andb].
                rewrite (H5 c p) by auto. rewrite HNDb. ring.
             ++ cbn [andb]. rewrite (H5 c' p') by auto.
                destruct (Nat.eqb_spec c' c) as [->|Hc]; [congruence|]. rewrite orb_false_r. auto.
        * cbn [wpq fst snd]. rewrite app_nil_r in Hps. rewrite Hps. do 4 (split; [auto|]).
          intros c' p' Hp'. rewrite cols_app, existsb_app. simpl. rewrite orb_false_r, elook_app_new by auto.
          rewrite (H5 c' p') by auto. destruct (Nat.eqb_spec c' c) as [->|Hc]; [congruence|]. rewrite orb_false_r. auto.
    - intros [[cv2 ip2] cnt] (L2 & L3 & H3 & H4 & H5). cbn [fst snd] in *.
      apply wp_bind. eapply wp_mono.
      + apply (for_n_inv (fun q s => s = sum + lsum (map (fun p => cut keep (nth p cv2 0)) (firstn q (poss EA EB))))).
        * simpl. ring.
        * intros q s Hq ->. pose proof (poss_len EA EB) as Hpl.
          rewrite (rd_ok ip2 q 0%nat) by lia. cbn [bind].
          assert (Hn : nth q ip2 0%nat = nth q (poss EA EB) 0%nat).
          { rewrite <- H4. rewrite nth_firstn_lt; auto. }
          rewrite Hn.
          assert (Hlt : (nth q (poss EA EB) 0 < length EA)%nat) by (apply (poss_lt EA EB); apply nth_In; lia).
          rewrite (rd_ok cv2 _ 0) by lia. cbn [bind wpq].
          rewrite (firstn_S_nth (poss EA EB) q 0%nat) by lia. rewrite map_app, lsum_app. cbn [map lsum].
          set (L := lsum _). set (x := nth (nth q (poss EA EB) 0%nat) cv2 0). unfold cut. destruct (keep x); ring.
      + intros s ->. cbn [wpq fst snd]. split; [auto|]. split; [auto|]. f_equal.
        rewrite H3, firstn_all. unfold poss. rewrite lsum_flat_map.
        rewrite (lsum_map_ext _ (fun kv => cut keep (alpha * (elook EA (fst kv) * snd kv)))).
        * apply (lsum_entries EB (cN A) (fun c v => cut keep (alpha * (elook EA c * v)))); auto.
          -- rewrite HN; auto.
          -- intros c _. replace (alpha * (elook EA c * 0)) with (0 : F) by ring. apply cut_0.
        * intros [c v] Hin. cbn [fst snd]. destruct (epos EA c) as [p|] eqn:Xp.
          -- simpl. rewrite (H5 c p Xp).
             assert (X : existsb (Nat.eqb c) (cols EB) = true) by (apply existsb_eqb; apply (in_map fst) in Hin; auto).
             rewrite X, (elook_in EB c v) by auto. replace (alpha * elook EA c * v) with (alpha * (elook EA c * v)) by ring. ring.
          -- simpl. apply epos_None in Xp. rewrite (elook_notin EA) by auto.
             replace (alpha * (0 * v)) with (0 : F) by ring. symmetry. apply cut_0.
  Qed.

  Lemma csr_sum_AB_ok (keep : F -> bool) alpha (A B : csr) : cwf A -> cwf B -> cN A = cN B ->
    (forall i, (i < cN A)%nat -> (length (crow A i) <= table_max)%nat) ->
    csr_sum_AB keep alpha A B = Ok (msum (cN A) (mcut keep (mscale alpha (mhad (cmat A) (cmat B))))).
  Proof.
    intros HA HB HN Hm. apply wp_eq. unfold csr_sum_AB. apply wp_bind. eapply wp_mono.
    - apply (for_n_inv (fun n s => length (fst (fst s)) = cN A /\ length (snd (fst s)) = cN A /\
        snd s = bigsum n (fun i => bigsum (cN A) (fun k => cut keep (alpha * (cmat A i k * cmat B i k)))))).
      + cbn [fst snd]. rewrite !repeat_length. auto.
      + intros i [[cv ip] sum] Hi (H1 & H2 & H3). cbn [fst snd] in *. eapply wp_mono; [apply sum_AB_row; auto|].
        intros [[cv' ip'] sum'] (G1 & G2 & G3). cbn [fst snd] in *. split; [auto|]. split; [auto|]. rewrite G3, H3. auto.
    - intros [[cv ip] sum] (_ & _ & H). cbn [wpq snd] in *. rewrite H. auto.
  Qed.

  (** ** sum_squares2 *)
  Lemma sum_sq2_row (keep : F -> bool) (alpha beta : F) (A B : csr) i (cv : list F) (sum : F) :
    cwf A -> cwf B -> cN A = cN B -> (i < cN A)%nat -> (length (crow A i) <= table_max)%nat ->
    length cv = cN A ->
    wp (ra <- c_row A i ;;
        '(cv, t) <- fill_row alpha ra cv ;;
        rb <- c_row B i ;;
        '(cv, cnt) <- r_for rb (fun k v '(cv, cnt) =>
            idx <- table_lookup t k ;;
            match idx with
            | Some p => x <- rd cv p ;; cv <- wr cv p (x + beta * v) ;; Ok (cv, cnt)
            | None => cv <- wr cv cnt (beta * v) ;; Ok (cv, S cnt)
            end) (cv, rnnz ra) ;;
        '(cv, sum) <- for_n cnt (fun q '(cv, sum) =>
            x <- rd cv q ;; cv <- wr cv q 0 ;; Ok (cv, if keep x then sum + x * x else sum)) (cv, sum) ;;
        Ok (cv, sum))
      (fun s => length (fst s) = cN A /\
         snd s = sum + bigsum (cN A) (fun k => let z := cut keep (alpha * cmat A i k + beta * cmat B i k) in z * z)).
  Proof.
    intros HA HB HN Hi Hm Hcv. assert (HiB : (i < cN B)%nat) by lia. pose proof HA as [_ HrA]. pose proof HB as [_ HrB].
    destruct (HrA i Hi) as [A1 A2]. destruct (HrB i HiB) as [B1 B2].
    pose proof (cols_ok_len _ _ (HrA i Hi)) as HlA.
    pose proof (union_cols_len A B i HA HB HN Hi) as HU.
    assert (HUN : (union_cols A B i <= cN A)%nat).
    { unfold union_cols, count. eapply Nat.le_trans; [apply filter_length_le|]. rewrite seq_length. auto. }
    rewrite c_row_ok by (rewrite (cwf_len _ HA); auto). cbn [bind].
    set (EA := crow A i) in *. set (EB := crow B i) in *.
    destruct (fill_row_ok alpha _ EA cv (cwf_is A i HA Hi) Hm ltac:(lia)) as (cv1 & t & k & E1 & L1 & HT & V1).
    rewrite E1. cbn [bind]. rewrite c_row_ok by (rewrite (cwf_len _ HB); auto). cbn [bind].
    rewrite (r_for_eq _ _ _ _ (cwf_is B i HB HiB)). fold EB. rewrite (row_is_nnz _ _ (cwf_is A i HA Hi)). fold EA.
    assert (Hnew : forall P, NoDup (cols P) -> NoDup (cols EA ++ cols (newE EA P))).
    { intros P HP. apply NoDup_app_intro; auto.
      - unfold newE. apply NoDup_cols_filter. auto.
      - intros x Hx1 Hx2. unfold cols, newE in Hx2. apply in_map_iff in Hx2 as ([x' u] & <- & Hx2). apply filter_In in Hx2 as [_ Hx2].
        simpl in Hx2, Hx1. apply negb_true_iff in Hx2. apply existsb_eqb_false in Hx2. auto. }
    apply wp_bind. eapply wp_mono.
    - apply (forM_inv (fun pre s => length (fst s) = cN A /\ exists E', snd s = length E' /\
        firstn (length E') (fst s) = map snd E' /\ cols E' = cols EA ++ cols (newE EA pre) /\
        forall j, elook E' j = alpha * elook EA j + beta * elook pre j)).
      + cbn [fst snd]. split; [lia|]. exists (sc alpha EA).
        assert (HL : length (sc alpha EA) = length EA) by (unfold sc; apply map_length). rewrite HL.
        split; [auto|]. split; [|split].
        * rewrite V1. unfold sc. rewrite map_map. auto.
        * rewrite cols_sc. simpl. rewrite app_nil_r. auto.
        * intros j. rewrite elook_sc. simpl. ring.
      + intros pre [c v] post [cv2 cnt] HE (L2 & E' & H3 & H4 & H5 & H6). cbn [fst snd] in *. subst cnt.
        assert (HNDp : NoDup (cols (pre ++ [(c, v)]))).
        { rewrite HE in B1. rewrite cols_app in *. simpl in *. change (c :: cols post) with ([c] ++ cols post) in B1.
          rewrite app_assoc in B1. apply NoDup_app_inv in B1. tauto. }
        assert (Hnc : ~ In c (cols pre)).
        { rewrite cols_app in HNDp. apply NoDup_app_inv in HNDp as (_ & _ & Hx). intros Y. apply (Hx c Y). left; auto. }
        assert (HNDpre : NoDup (cols pre)) by (rewrite cols_app in HNDp; apply NoDup_app_inv in HNDp; tauto).
        assert (HdE : NoDup (cols E')) by (rewrite H5; auto).
        assert (HNE : newE EA (pre ++ [(c, v)]) = newE EA pre ++ if existsb (Nat.eqb c) (cols EA) then [] else [(c, v)]).
        { unfold newE. rewrite filter_app. simpl. destruct (existsb (Nat.eqb c) (cols EA)); auto. }
        assert (HlE' : length E' = (length EA + length (newE EA pre))%nat).
        { rewrite <- (map_length fst E'). unfold cols in H5. rewrite H5, app_length, !map_length. auto. }
        rewrite (table_lookup_ok k _ _ _ HT), lastk_epos by auto. cbn [bind].
        destruct (epos EA c) as [p|] eqn:Xp.
        * apply epos_Some in Xp as (P1 & P2 & P3 & P4).
          assert (Hx : existsb (Nat.eqb c) (cols EA) = true) by (apply existsb_eqb; auto).
          rewrite Hx, app_nil_r in HNE.
          assert (Hpl : (p < length E')%nat) by lia.
          assert (Hfst : fst (nth p E' (0%nat, 0)) = c).
          { pose proof (map_nth fst E' (0%nat, 0) p) as M1. pose proof (map_nth fst EA (0%nat, 0) p) as M2. cbn [fst] in *.
            rewrite <- M1. unfold cols in H5. rewrite H5, app_nth1 by (rewrite map_length; auto). rewrite M2. auto. }
          assert (HlE'N : (length E' <= length cv2)%nat).
          { assert (X := f_equal (@length F) H4). rewrite firstn_length, map_length in X. lia. }
          rewrite (rd_ok _ _ 0) by lia. cbn [bind]. rewrite wr_ok by lia. cbn [bind wpq fst snd].
          assert (Hval : nth p cv2 0 = snd (nth p E' (0%nat, 0))).
          { rewrite <- (nth_firstn_lt cv2 (length E') p) by auto. rewrite H4.
            pose proof (map_nth snd E' (0%nat, 0) p) as M1. cbn [snd] in M1. exact M1. }
          assert (Hlk : snd (nth p E' (0%nat, 0)) = elook E' c).
          { symmetry. apply elook_in; auto. rewrite <- Hfst. destruct (nth p E' (0%nat, 0)) eqn:Y. cbn [fst snd]. rewrite <- Y. apply nth_In; auto. }
          rewrite length_set_nth. split; [auto|].
          exists (set_nth E' p (c, nth p cv2 0 + beta * v)). rewrite length_set_nth. split; [auto|]. split; [|split].
          -- rewrite map_set_nth. cbn [snd]. rewrite <- H4. apply (list_ext_nth _ _ 0).
             ++ rewrite length_set_nth, !firstn_length, length_set_nth. auto.
             ++ intros q Hq. rewrite firstn_length, length_set_nth in Hq. rewrite nth_firstn_lt by lia.
                rewrite !nth_set_nth, firstn_length. rewrite nth_firstn_lt by lia.
                replace (p <? length cv2)%nat with true by (symmetry; apply Nat.ltb_lt; lia).
                replace (p <? Nat.min (length E') (length cv2))%nat with true by (symmetry; apply Nat.ltb_lt; lia). auto.
          -- rewrite HNE. rewrite <- H5. rewrite <- Hfst. apply cols_set_nth.
          -- intros j. rewrite <- Hfst at 1. rewrite elook_set_nth by auto. rewrite Hfst, elook_app_new by auto.
             destruct (Nat.eqb_spec j c) as [->|]; rewrite ?H6; auto.
             rewrite Hval, Hlk, H6. rewrite (elook_notin pre) by auto. ring.
        * apply epos_None in Xp. pose proof Xp as Xp'. apply existsb_eqb_false in Xp'. rewrite Xp' in HNE.
          assert (Hle : (length (newE EA (pre ++ [(c, v)])) <= length (newE EA EB))%nat).
          { rewrite HE. change (pre ++ (c, v) :: post) with (pre ++ [(c, v)] ++ post). rewrite app_assoc. unfold newE.
            rewrite (filter_app _ (pre ++ [(c, v)])), app_length. lia. }
          rewrite HNE, app_length in Hle. simpl in Hle.
          rewrite wr_ok by lia. cbn [bind wpq fst snd]. rewrite length_set_nth. split; [auto|].
          exists (E' ++ [(c, beta * v)]). rewrite app_length. simpl length. rewrite Nat.add_1_r. split; [auto|].
          split; [|split].
          -- rewrite firstn_set_nth by lia. rewrite H4, map_app. auto.
          -- rewrite cols_app, H5, HNE, cols_app, <- app_assoc. auto.
          -- intros j. rewrite elook_app_new.
             ++ rewrite elook_app_new by auto. destruct (Nat.eqb_spec j c) as [->|]; rewrite ?H6; auto.
                rewrite (elook_notin EA) by auto. ring.
             ++ rewrite H5, in_app_iff. intros [Y|Y]; auto. unfold cols, newE in Y. apply in_map_iff in Y as ([x' u] & <- & Y).
                apply filter_In in Y as [Y _]. apply Hnc. apply in_map_iff. exists (x', u). auto.
    - intros [cv2 cnt] (L2 & E' & H3 & H4 & H5 & H6). cbn [fst snd] in *. subst cnt.
      assert (HlE'N : (length E' <= length cv2)%nat).
      { assert (X := f_equal (@length F) H4). rewrite firstn_length, map_length in X. lia. }
      apply wp_bind. eapply wp_mono.
      + apply (for_n_inv (fun q s => length (fst s) = cN A /\ (forall p, (q <= p)%nat -> nth p (fst s) 0 = nth p cv2 0) /\
           snd s = sum + lsum (map (fun kv => let z := cut keep (snd kv) in z * z) (firstn q E')))).
        * cbn [fst snd]. split; [auto|]. split; [auto|]. simpl. ring.
        * intros q [cv3 s] Hq (L3 & G1 & G2). cbn [fst snd] in *. rewrite (rd_ok _ _ 0) by lia. cbn [bind].
          rewrite wr_ok by lia. cbn [bind wpq fst snd]. rewrite length_set_nth. split; [auto|]. split.
          -- intros p Hp. rewrite nth_set_nth_neq by lia. apply G1. lia.
          -- rewrite (firstn_S_nth E' q (0%nat, 0)) by auto. rewrite map_app, lsum_app. cbn [map lsum].
             rewrite (G1 q) by lia.
             assert (Hval : nth q cv2 0 = snd (nth q E' (0%nat, 0))).
             { rewrite <- (nth_firstn_lt cv2 (length E') q) by auto. rewrite H4.
               pose proof (map_nth snd E' (0%nat, 0) q) as M1. cbn [snd] in M1. exact M1. }
             rewrite Hval, G2. set (L := lsum _). cbv zeta. set (x := snd (nth q E' (0%nat, 0))). unfold cut. destruct (keep x); ring.
      + intros [cv3 s] (L3 & _ & G2). cbn [wpq fst snd] in *. split; [auto|]. rewrite G2, firstn_all. f_equal.
        etransitivity; [apply (lsum_entries0 E' (cN A) (fun v => cut keep v * cut keep v))|].
        * rewrite H5. auto.
        * intros c Hc. rewrite H5 in Hc. apply in_app_iff in Hc as [Hc|Hc]; auto.
          unfold cols, newE in Hc. apply in_map_iff in Hc as ([x' u] & <- & Hc). apply filter_In in Hc as [Hc _].
          rewrite HN. apply B2. apply in_map_iff. exists (x', u). auto.
        * rewrite cut_0. ring.
        * apply bigsum_ext. intros j Hj. rewrite H6. auto.
  Qed.

  Lemma csr_sum_squares2_ok (keep : F -> bool) alpha beta (A B : csr) : cwf A -> cwf B -> cN A = cN B ->
    (forall i, (i < cN A)%nat -> (length (crow A i) <= table_max)%nat) ->
    csr_sum_squares2 keep alpha beta A B =
      Ok (let Z := mcut keep (madd (mscale alpha (cmat A)) (mscale beta (cmat B))) in msum (cN A) (mhad Z Z)).
  Proof.
    intros HA HB HN Hm. apply wp_eq. unfold csr_sum_squares2. apply wp_bind. eapply wp_mono.
    - apply (for_n_inv (fun n s => length (fst s) = cN A /\
        snd s = bigsum n (fun i => bigsum (cN A) (fun k => let z := cut keep (alpha * cmat A i k + beta * cmat B i k) in z * z)))).
      + cbn [fst snd]. rewrite !repeat_length. auto.
      + intros i [cv sum] Hi (H1 & H3). cbn [fst snd] in *. eapply wp_mono; [apply sum_sq2_row; auto|].
        intros [cv' sum'] (G1 & G3). cbn [fst snd] in *. split; [auto|]. rewrite G3, H3. auto.
    - intros [cv sum] (_ & H). cbn [wpq snd] in *. rewrite H. auto.
  Qed.

  (** ** introspection *)
  Lemma csr_nnz_above_ok (keep : F -> bool) (A : csr) : cwf A -> keep 0 = false ->
    csr_nnz_above keep A = Ok (nsum (cN A) (fun i => count (cN A) (fun j => keep (cmat A i j)))).
  Proof.
    intros HA Hk0. pose proof HA as [Hs Hr]. apply wp_eq. unfold csr_nnz_above.
    eapply wp_mono; [apply (for_n_inv (fun n s => s = nsum n (fun i => count (cN A) (fun j => keep (cmat A i j)))))|].
    - auto.
    - intros i s Hi ->. destruct (Hr i Hi) as (H2 & H3).
      rewrite c_row_ok by (rewrite (cwf_len _ HA); auto). cbn [bind].
      rewrite (r_for_eq _ _ _ _ (cwf_is A i HA Hi)).
      eapply wp_mono.
      + apply (forM_inv (fun pre s => s = (nsum i (fun i => count (cN A) (fun j => keep (cmat A i j))) + length (filter (fun kv : ent => keep (snd kv)) pre))%nat)).
        * simpl. lia.
        * intros pre [k v] post s E ->. cbn [wpq snd fst]. rewrite filter_app, app_length. simpl.
          destruct (keep v); simpl; lia.
      + intros s ->. cbn [nsum]. f_equal.
        set (L := cutrow keep (crow A i)).
        assert (HL : NoDup (cols L)) by (apply NoDup_cols_filter; auto).
        change (length (filter (fun kv : ent => keep (snd kv)) (crow A i))) with (length L).
        rewrite <- (map_length fst L). unfold count. apply Nat.le_antisymm; apply NoDup_incl_length; auto.
        * intros k Hk. apply in_map_iff in Hk as ([k' v] & <- & Hk). apply filter_In in Hk as [Hk1 Hk2]. cbn [fst snd] in *.
          apply filter_In. split.
          -- apply in_seq. split; [lia|]. apply H3. apply in_map_iff. exists (k', v). auto.
          -- unfold cmat. rewrite (elook_in _ k' v) by auto. auto.
        * apply NoDup_filter, seq_NoDup.
        * intros k Hk. apply filter_In in Hk as [_ Hk]. unfold cmat in Hk.
          assert (Hin : In k (cols (crow A i))).
          { destruct (in_dec Nat.eq_dec k (cols (crow A i))); auto. rewrite elook_notin in Hk by auto. congruence. }
          apply in_map_iff. exists (k, elook (crow A i) k). split; auto. apply filter_In. split; auto.
          apply in_cols_elook; auto.
    - intros s ->. auto.
  Qed.

  Lemma csr_row_bandwidth_ok (nz : F -> bool) (A : csr) i : cwf A -> (i < cN A)%nat -> nz 0 = false ->
    exists n, csr_row_bandwidth A i = Ok n /\ (count (cN A) (fun j => nz (cmat A i j)) <= n <= cN A)%nat.
  Proof.
    intros HA Hi Hz. pose proof HA as [Hs Hr]. destruct (Hr i Hi) as (H2 & H3). unfold csr_row_bandwidth.
    rewrite c_row_ok by (rewrite (cwf_len _ HA); auto). cbn [bind].
    rewrite (row_is_nnz _ _ (cwf_is A i HA Hi)). eexists; split; [reflexivity|]. split.
    - rewrite <- (map_length fst (crow A i)). unfold count. apply NoDup_incl_length; [apply NoDup_filter, seq_NoDup|].
      intros k Hk. apply filter_In in Hk as [_ Hk]. unfold cmat in Hk.
      destruct (in_dec Nat.eq_dec k (cols (crow A i))); auto. rewrite elook_notin in Hk by auto. congruence.
    - apply cols_ok_len. auto.
  Qed.

  Lemma csr_bandwidth_max (A : csr) : cwf A -> (0 < cN A)%nat ->
    exists n, csr_bandwidth A = Ok n /\ (forall i, (i < cN A)%nat -> exists m, csr_row_bandwidth A i = Ok m /\ (m <= n)%nat) /\
      exists i, (i < cN A)%nat /\ csr_row_bandwidth A i = Ok n.
  Proof.
    intros HA HN. assert (HR : forall i, (i < cN A)%nat -> csr_row_bandwidth A i = Ok (length (crow A i))).
    { intros i Hi. unfold csr_row_bandwidth. rewrite c_row_ok by (rewrite (cwf_len _ HA); auto). cbn [bind].
      rewrite (row_is_nnz _ _ (cwf_is A i HA Hi)). reflexivity. }
    destruct (csr_bandwidth_ok A HA) as (b & E & HB & HM). exists b. split; [exact E|]. split.
    - intros i Hi. exists (length (crow A i)). split; auto.
    - destruct HM as [->|(i & Hi & ->)]; [|exists i; auto]. exists 0%nat. split; [exact HN|]. rewrite HR by auto. f_equal. specialize (HB 0%nat HN). lia.
  Qed.

  (** ** submatrices *)
  Definition subE (icol BN : nat) (E : list ent) : list ent :=
    map (fun kv => ((fst kv - icol)%nat, snd kv)) (filter (fun kv => (icol <=? fst kv) && (fst kv <? icol + BN)) E)%nat.

  Lemma in_subE icol BN E k : In k (cols (subE icol BN E)) <-> (k < BN)%nat /\ In (icol + k)%nat (cols E).
  Proof.
    unfold subE, cols. rewrite map_map. rewrite in_map_iff. split.
    - intros ([a v] & <- & H). apply filter_In in H as [H1 H2]. cbn [fst snd] in *. apply andb_true_iff in H2 as [H2 H3].
      apply Nat.leb_le in H2. apply Nat.ltb_lt in H3. split; [lia|]. replace (icol + (a - icol))%nat with a by lia.
      apply in_map_iff. exists (a, v). auto.
    - intros [H1 H2]. apply in_map_iff in H2 as ([a v] & E1 & H2). cbn [fst] in E1. exists (a, v). cbn [fst]. split; [lia|].
      apply filter_In. split; auto. cbn [fst]. apply andb_true_iff. split; [apply Nat.leb_le; lia|apply Nat.ltb_lt; lia].
  Qed.

  Lemma subE_nodup icol BN E : NoDup (cols E) -> NoDup (cols (subE icol BN E)).
  Proof.
    intros H. unfold subE, cols. rewrite map_map. induction E as [|[a v] E IH]; simpl; [constructor|].
    inversion H; subst. destruct ((icol <=? a) && (a <? icol + BN))%nat eqn:X; simpl; auto.
    constructor; auto. apply andb_true_iff in X as [X1 X2]. apply Nat.leb_le in X1.
    intros Hin. apply in_map_iff in Hin as ([b u] & E1 & Hin). cbn [fst] in E1. apply filter_In in Hin as [Hin Hb]. cbn [fst] in Hb.
    apply andb_true_iff in Hb as [Hb _]. apply Nat.leb_le in Hb. apply H2. assert (a = b) by lia. subst.
    apply in_map_iff. exists (b, u). auto.
  Qed.

  Lemma elook_subE icol BN E j : (j < BN)%nat -> elook (subE icol BN E) j = elook E (icol + j).
  Proof.
    intros Hj. unfold subE. induction E as [|[a v] E IH]; simpl; auto.
    destruct ((icol <=? a) && (a <? icol + BN))%nat eqn:X; simpl.
    - apply andb_true_iff in X as [X1 X2]. apply Nat.leb_le in X1.
      destruct (Nat.eqb_spec (a - icol) j), (Nat.eqb_spec a (icol + j)); auto; lia.
    - rewrite IH. destruct (Nat.eqb_spec a (icol + j)) as [->|]; auto. exfalso.
      apply andb_false_iff in X as [X|X]; [apply Nat.leb_gt in X|apply Nat.ltb_ge in X]; lia.
  Qed.

  Lemma csr_extract_ok (keep0 : F -> bool) (A : csr) irow icol BN BM : cwf A -> (irow + BN <= cN A)%nat ->
    exists B, csr_extract keep0 A irow icol BN BM = Ok B /\ cwf B /\ cN B = BN /\ cM B = BM /\
      forall i j, (i < BN)%nat -> (j < BN)%nat -> cmat B i j = cut keep0 (cmat A (irow + i)%nat (icol + j)%nat).
  Proof.
    intros HA Hrow. pose proof HA as [_ HrA]. apply wp_ok. unfold csr_extract. eapply wp_mono.
    - apply (for_n_inv (fun n B => cshape B /\ cN B = BN /\ cM B = BM /\
        forall i, crow B i = if (i <? n)%nat then cutrow keep0 (subE icol BN (crow A (irow + i))) else [])).
      + destruct (csr_zero_ok (F:=F) BN BM) as [[H1 _] H2]. do 3 (split; [auto|]). intros i. rewrite H2. auto.
      + intros q B Hq (HsB & D1 & D2 & HB). assert (Hi : (irow + q < cN A)%nat) by lia.
        destruct (HrA _ Hi) as [A1 A2]. set (E := crow A (irow + q)) in *.
        rewrite c_row_ok by (rewrite (cwf_len _ HA); auto). cbn [bind].
        rewrite (r_for_eq _ _ _ _ (cwf_is A _ HA Hi)). fold E.
        apply wp_bind. eapply wp_mono.
        * apply (forM_inv (fun pre s => fst s = cols (subE icol BN pre) /\ snd s = map snd (subE icol BN pre))).
          -- auto.
          -- intros pre [k v] post [cs vs] HE [H1 H2]. cbn [fst snd] in *.
             assert (Hsub : subE icol BN (pre ++ [(k, v)]) = subE icol BN pre ++ if ((icol <=? k) && (k <? icol + BN))%nat then [((k - icol)%nat, v)] else []).
             { unfold subE. rewrite filter_app, map_app. f_equal. simpl. destruct ((icol <=? k) && (k <? icol + BN))%nat; auto. }
             rewrite Hsub. destruct ((icol <=? k) && (k <? icol + BN))%nat.
             ++ assert (HX : (length (subE icol BN (pre ++ [(k, v)])) <= BN)%nat).
                { rewrite <- (map_length fst). change (map fst (subE icol BN (pre ++ [(k, v)]))) with (cols (subE icol BN (pre ++ [(k, v)]))).
                  apply NoDup_bounded.
                  - apply subE_nodup. rewrite HE in A1. rewrite cols_app in A1. rewrite cols_app. simpl in *.
                    change (k :: cols post) with ([k] ++ cols post) in A1. rewrite app_assoc in A1. apply NoDup_app_inv in A1. tauto.
                  - intros x Hx. apply in_subE in Hx. tauto. }
                rewrite Hsub, app_length in HX. simpl in HX.
                assert (Hl : (length cs <? BN)%nat = true).
                { apply Nat.ltb_lt. rewrite H1. unfold cols. rewrite map_length. lia. }
                rewrite Hl. cbn [wpq fst snd]. rewrite cols_app, map_app, H1, H2. auto.
             ++ cbn [wpq fst snd]. rewrite app_nil_r. auto.
        * intros [cs vs] [H1 H2]. cbn [fst snd] in *.
          destruct (csr_set_sparse_row_ok keep0 B q cs vs HsB ltac:(lia)) as (B' & E1 & HU).
          { rewrite H1, H2. unfold cols. rewrite !map_length. auto. }
          rewrite E1. cbn [wpq]. assert (HqB : (q < cN B)%nat) by lia.
          destruct (cupd_shape _ _ _ _ HsB HqB HU) as ((D3 & D4) & U1 & U2 & U3).
          split; [auto|]. split; [congruence|]. split; [congruence|]. intros i.
          destruct (Nat.eq_dec i q) as [->|Hne].
          -- rewrite U2. replace (q <? S q)%nat with true by (symmetry; apply Nat.ltb_lt; lia). unfold cutrow. f_equal.
             fold E. rewrite H1, H2. clear. induction (subE icol BN E) as [|[a b] L IH]; simpl; auto. f_equal. auto.
          -- rewrite U3, HB by auto.
             destruct (Nat.ltb_spec i q), (Nat.ltb_spec i (S q)); auto; lia.
    - intros B (HsB & D1 & D2 & HB). split; [|split; [auto|split; [auto|]]].
      + split; auto. intros i Hi. rewrite HB. replace (i <? BN)%nat with true by (symmetry; apply Nat.ltb_lt; lia).
        apply cutrow_cols_ok. split.
        * apply subE_nodup. apply HrA. lia.
        * intros k Hk. apply in_subE in Hk. lia.
      + intros i j Hi Hj. unfold cmat at 1. rewrite HB. apply Nat.ltb_lt in Hi as Hb. rewrite Hb.
        rewrite elook_cutrow, elook_subE by (auto; apply subE_nodup; apply HrA; lia). auto.
  Qed.

  (** assign onto unoccupied positions *)
  Definition shiftE (icol : nat) (E : list ent) : list ent := map (fun kv => ((fst kv + icol)%nat, snd kv)) E.

  Lemma cols_shiftE icol E : cols (shiftE icol E) = map (fun k => (k + icol)%nat) (cols E).
  Proof. unfold shiftE, cols. rewrite !map_map. auto. Qed.

  Lemma elook_shiftE icol E j : elook (shiftE icol E) j = if (j <? icol)%nat then 0 else elook E (j - icol).
  Proof.
    induction E as [|[a v] E IH]; simpl.
    - destruct (j <? icol)%nat; auto.
    - rewrite IH. destruct (Nat.ltb_spec j icol), (Nat.eqb_spec (a + icol) j); auto; try lia.
      + subst. replace (a + icol - icol)%nat with a by lia. rewrite Nat.eqb_refl. auto.
      + destruct (Nat.eqb_spec a (j - icol)); auto; lia.
  Qed.

  Lemma elook_app (E1 E2 : list ent) j : elook (E1 ++ E2) j = if existsb (Nat.eqb j) (cols E1) then elook E1 j else elook E2 j.
  Proof. induction E1 as [|[a v] E1 IH]; simpl; auto. rewrite (Nat.eqb_sym j a). destruct (a =? j); auto. Qed.

  Lemma csr_assign_ok (A B : csr) irow icol : cwf A -> cwf B -> (irow + cN B <= cN A)%nat -> (icol + cN B <= cN A)%nat ->
    (forall i j, (i < cN B)%nat -> (j < cN B)%nat -> cstored A (irow + i) (icol + j) = false) ->
    exists A', csr_assign A B irow icol = Ok A' /\ cwf A' /\ cdims A A' /\
      forall i j, (i < cN A)%nat -> (j < cN A)%nat -> cmat A' i j =
        if ((irow <=? i) && (i <? irow + cN B) && (icol <=? j) && (j <? icol + cN B))%nat
        then cmat B (i - irow)%nat (j - icol)%nat else cmat A i j.
  Proof.
    intros HA HB Hr Hc Hfree. pose proof HA as [HsA HrA]. pose proof HB as [_ HrB]. apply wp_ok. unfold csr_assign.
    eapply wp_mono.
    - apply (for_n_inv (fun n A' => cshape A' /\ cdims A A' /\
        forall i, crow A' i = crow A i ++ if ((irow <=? i) && (i <? irow + n))%nat then shiftE icol (crow B (i - irow)) else [])).
      + split; [auto|]. split; [split; auto|]. intros i.
        replace ((irow <=? i) && (i <? irow + 0))%nat with false.
        * rewrite app_nil_r. auto.
        * symmetry. destruct (Nat.leb_spec irow i); auto. apply Nat.ltb_ge. lia.
      + intros n A1 Hn (Hs1 & (D1 & D2) & H1). rewrite c_row_ok by (rewrite (cwf_len _ HB); auto). cbn [bind].
        rewrite !(r_for_eq _ _ _ _ (cwf_is B n HB Hn)).
        destruct (HrB n Hn) as [B1 B2]. set (E := crow B n) in *.
        apply wp_bind. eapply wp_mono.
        * apply (forM_inv (fun _ _ => True)); auto. intros pre [k v] post [] HE _. cbn [fst].
          replace (k <? cN B)%nat with true; [simpl; auto|]. symmetry. apply Nat.ltb_lt. apply B2. rewrite HE, cols_app. apply in_app_iff. right; left; auto.
        * intros _ _. eapply wp_mono.
          -- apply (forM_inv (fun pre A2 => cshape A2 /\ cdims A A2 /\
               forall i, crow A2 i = if (i =? n + irow)%nat then crow A1 i ++ shiftE icol pre else crow A1 i)).
             ++ split; [auto|]. split; [split; auto|]. intros i. simpl. rewrite app_nil_r. destruct (i =? n + irow)%nat; auto.
             ++ intros pre [k v] post A2 HE (Hs2 & (D3 & D4) & H2). cbn [fst snd].
                assert (Hi : (n + irow < cN A2)%nat) by lia.
                destruct (csr_set_element_new_ok A2 (n + irow) (k + icol) v Hs2 Hi) as (A3 & E1 & HU). rewrite E1. cbn [wpq].
                destruct (cupd_shape _ _ _ _ Hs2 Hi HU) as ((D5 & D6) & U1 & U2 & U3).
                split; [auto|]. split; [split; congruence|]. intros i. destruct (Nat.eqb_spec i (n + irow)) as [->|Hne].
                ** rewrite U2, H2, Nat.eqb_refl. unfold shiftE. rewrite map_app, <- app_assoc. auto.
                ** rewrite U3, H2 by auto. apply Nat.eqb_neq in Hne as ->. auto.
          -- intros A2 (Hs2 & D & H2). split; [auto|]. split; [auto|]. intros i. rewrite H2, H1.
             destruct (Nat.eqb_spec i (n + irow)) as [->|Hne].
             ++ replace ((irow <=? n + irow) && (n + irow <? irow + n))%nat with false.
                2:{ symmetry. apply andb_false_iff. right. apply Nat.ltb_ge. lia. }
                replace ((irow <=? n + irow) && (n + irow <? irow + S n))%nat with true.
                2:{ symmetry. apply andb_true_iff. split; [apply Nat.leb_le|apply Nat.ltb_lt]; lia. }
                rewrite app_nil_r. replace (n + irow - irow)%nat with n by lia. auto.
             ++ f_equal. destruct (Nat.leb_spec irow i), (Nat.ltb_spec i (irow + n)), (Nat.ltb_spec i (irow + S n)); simpl; auto; lia.
    - intros A' (Hs & (D1 & D2) & H1).
      assert (Hout : forall i, (i < cN A)%nat -> ((irow <=? i) && (i <? irow + cN B))%nat = true ->
         forall j, In j (cols (crow A i)) -> ~ In j (cols (shiftE icol (crow B (i - irow))))).
      { intros i Hi Hb j Hj Hk. apply andb_true_iff in Hb as [X1 X2]. apply Nat.leb_le in X1. apply Nat.ltb_lt in X2.
        rewrite cols_shiftE in Hk. apply in_map_iff in Hk as (k & <- & Hk).
        assert (Hkl : (k < cN B)%nat) by (apply (HrB (i - irow)%nat); auto; lia).
        assert (Hf := Hfree (i - irow)%nat k ltac:(lia) Hkl). replace (irow + (i - irow))%nat with i in Hf by lia.
        unfold cstored in Hf. apply existsb_eqb_false in Hf. apply Hf. rewrite Nat.add_comm. auto. }
      split; [|split; [split; auto|]].
      + split; auto. intros i Hi. rewrite <- D1 in *. rewrite H1. destruct (HrA i Hi) as [A1 A2].
        destruct ((irow <=? i) && (i <? irow + cN B))%nat eqn:X; [|rewrite app_nil_r; split; auto].
        pose proof X as X'. apply andb_true_iff in X' as [X1 X2]. apply Nat.leb_le in X1. apply Nat.ltb_lt in X2.
        assert (HiB : (i - irow < cN B)%nat) by lia. destruct (HrB _ HiB) as [B1 B2].
        split; rewrite cols_app.
        * apply NoDup_app_intro; auto. rewrite cols_shiftE. apply FinFun.Injective_map_NoDup; auto. intros x y. lia.
        * intros k Hk. apply in_app_iff in Hk as [Hk|Hk]; auto. rewrite cols_shiftE in Hk. apply in_map_iff in Hk as (k' & <- & Hk).
          apply B2 in Hk. lia.
      + intros i j Hi Hj. unfold cmat at 1. rewrite H1.
        destruct ((irow <=? i) && (i <? irow + cN B))%nat eqn:X; cbn [andb]; [|rewrite app_nil_r; auto].
        pose proof X as X'. apply andb_true_iff in X' as [X1 X2]. apply Nat.leb_le in X1. apply Nat.ltb_lt in X2.
        assert (HiB : (i - irow < cN B)%nat) by lia. destruct (HrB _ HiB) as [B1 B2].
        rewrite elook_app, elook_shiftE. destruct (Nat.leb_spec icol j) as [Y|Y]; cbn [andb].
        * replace (j <? icol)%nat with false by (symmetry; apply Nat.ltb_ge; auto).
          destruct (Nat.ltb_spec j (icol + cN B)) as [Z|Z].
          -- assert (Hf := Hfree (i - irow)%nat (j - icol)%nat HiB ltac:(lia)).
             replace (irow + (i - irow))%nat with i in Hf by lia. replace (icol + (j - icol))%nat with j in Hf by lia.
             unfold cstored in Hf. rewrite Hf. auto.
          -- destruct (existsb (Nat.eqb j) (cols (crow A i))) eqn:W; auto. apply existsb_eqb_false in W.
             unfold cmat. rewrite (elook_notin (crow A i)) by auto. apply elook_notin. intros H. apply B2 in H. lia.
        * replace (j <? icol)%nat with true by (symmetry; apply Nat.ltb_lt; auto).
          destruct (existsb (Nat.eqb j) (cols (crow A i))) eqn:W; auto. apply existsb_eqb_false in W.
          unfold cmat. rewrite (elook_notin (crow A i)) by auto. auto.
  Qed.
End CsrMore.
