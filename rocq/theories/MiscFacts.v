(** Small functions: clear, set_element_new, get_sparse_row, and the memory of a few more calls. *)
From Verif Require Import Base BaseFacts Spec SpecFacts EllpackModel EllpackSpec EllpackFacts EllpackOps EllpackCheck
  CsrModel CsrSpec CsrFacts CsrOps MemModel MemSpec MemFacts.
Local Open Scope K_scope.

Section Misc.
  Context {F : scalar}.
  Local Notation ell := (ell F).
  Local Notation csr := (csr F).

  Lemma ell_clear_ok (A : ell) : shape A -> same_dims A (ell_clear A) /\ wf (ell_clear A) /\
    forall i j, (i < eN A)%nat -> emat (ell_clear A) i j = 0 /\ nnz (ell_clear A) i = 0%nat.
  Proof.
    intros (H1 & H2 & H3). assert (Z : forall i, (i < eN A)%nat -> nnz (ell_clear A) i = 0%nat).
    { intros i Hi. unfold nnz, ell_clear. cbn [ennz]. apply nth_repeat. }
    split; [split; reflexivity|]. split.
    - split; [unfold shape, ell_clear; cbn [eval eidx ennz eN eM]; rewrite !repeat_length; auto|].
      intros i Hi. cbn [ell_clear eN] in Hi. unfold erow. rewrite Z by auto. repeat split; [simpl; lia|constructor|simpl; tauto].
    - intros i j Hi. split; auto. unfold emat, erow. rewrite Z by auto. reflexivity.
  Qed.

  (** set_element_new: the caller promises that (i, j) is not stored and that the row has room *)
  Lemma ell_set_element_new_ok2 (A : ell) i j v : wf A -> (i < eN A)%nat -> (j < eN A)%nat -> (nnz A i < eM A)%nat ->
    stored A i j = false ->
    exists A', ell_set_element_new A i j v = Ok A' /\ wf A' /\ same_dims A A' /\
      forall i' j', (i' < eN A)%nat -> emat A' i' j' = if (i' =? i) && (j' =? j) then v else emat A i' j'.
  Proof.
    intros Hw Hi Hj Hn Hst. unfold stored in Hst. apply existsb_eqb_false in Hst. pose proof Hw as [Hs Hr]. destruct (Hr i Hi) as (R1 & R2 & R3).
    destruct (ell_set_element_new_ok A i j v Hs Hi Hn) as (A' & E & HU). exists A'. split; auto.
    split. { apply (upd_row_wf _ _ _ _ Hw Hi HU). apply row_ok_snoc; auto. rewrite erow_length; auto. }
    split. { apply HU. }
    intros i' j' Hi'. unfold emat. destruct (Nat.eqb_spec i' i) as [->|Hne]; simpl.
    - rewrite (upd_row_self _ _ _ _ HU). apply elook_app_new. auto.
    - rewrite (upd_row_other _ _ _ _ _ HU); auto. apply wf_nnz; auto.
  Qed.
  (** otherwise there are two entries for (i, j) *)
  Lemma ell_set_element_new_dup (A : ell) i j v : wf A -> (i < eN A)%nat -> (nnz A i < eM A)%nat -> stored A i j = true ->
    exists A', ell_set_element_new A i j v = Ok A' /\ ~ wf A' /\ emat A' i j = emat A i j.
  Proof.
    intros Hw Hi Hn Hst. unfold stored in Hst. pose proof Hst as Hin. apply existsb_eqb in Hin. pose proof Hw as [Hs Hr].
    destruct (ell_set_element_new_ok A i j v Hs Hi Hn) as (A' & E & HU). exists A'. split; auto. split.
    - intros [_ Hr']. pose proof HU as ((D1 & _) & _). assert (Hi' : (i < eN A')%nat) by congruence. destruct (Hr' i Hi') as (_ & ND & _).
      rewrite (upd_row_self _ _ _ _ HU) in ND. unfold cols in ND, Hin. rewrite map_app in ND. apply NoDup_remove_2 with (l' := []) in ND. rewrite app_nil_r in ND. auto.
    - unfold emat. rewrite (upd_row_self _ _ _ _ HU). clear - Hin. induction (erow A i) as [|[k x] l IH]; [destruct Hin|].
      cbn [app elook]. destruct (Nat.eqb_spec k j); auto. apply IH. destruct Hin as [H|H]; [simpl in H; congruence|exact H].
  Qed.
  (** a full last row: a write past the end of the arrays *)
  Lemma ell_set_element_new_full (A : ell) j v : shape A -> (0 < eN A)%nat -> nnz A (eN A - 1) = eM A ->
    ell_set_element_new A (eN A - 1) j v = UB.
  Proof.
    intros Hs HN Hn. unfold ell_set_element_new, e_push. rewrite e_nnz_ok by (auto; lia). cbn [bind]. rewrite Hn. unfold e_put, e_wval.
    destruct Hs as (H1 & H2 & H3). unfold wr. rewrite H1. unfold ROWMAJOR.
    destruct (Nat.ltb_spec ((eN A - 1) * eM A + eM A) (eN A * eM A)); [nia|]. reflexivity.
  Qed.

  (** the entries of the row, in order, without duplicates, whose values are the row of the matrix *)
  Lemma csr_get_sparse_row_spec (A : csr) i : cwf A -> (i < cN A)%nat ->
    exists E, csr_get_sparse_row A i = Ok E /\ NoDup (cols E) /\ (forall k, In k (cols E) -> (k < cN A)%nat) /\
      (forall k x, In (k, x) E -> cmat A i k = x) /\ (forall k, ~ In k (cols E) -> cmat A i k = 0).
  Proof.
    intros HA Hi. exists (crow A i). split; [apply csr_get_sparse_row_ok; auto|]. destruct HA as [Hs Hc]. destruct (Hc i Hi) as [H1 H2].
    split; auto. split; auto. split.
    - intros k x Hin. unfold cmat. clear - Hin H1. induction (crow A i) as [|[a y] l IH]; [destruct Hin|]. cbn [elook]. unfold cols in *. cbn [map fst] in *. inversion H1; subst.
      destruct Hin as [E|Hin]; [injection E as -> ->; rewrite Nat.eqb_refl; auto|]. destruct (Nat.eqb_spec a k) as [->|]; auto.
      exfalso. apply H2. apply in_map_iff. exists (k, x). auto.
    - intros k Hk. unfold cmat. clear - Hk. induction (crow A i) as [|[a y] l IH]; auto. cbn [elook]. unfold cols in *. cbn [map fst] in *. destruct (Nat.eqb_spec a k) as [->|]; [exfalso; apply Hk; left; auto|].
      apply IH. intros H. apply Hk. right. auto.
  Qed.
End Misc.

Lemma mem_small (fresh : nat -> list nat -> nat) (Hf : good_alloc fresh) n : uses [] (m_scale_new_dense fresh) own_dense 0 /\ uses [] (m_vectors_ellpack fresh n) nothing 0.
Proof. split; eapply usesp_uses; [apply u_noinit_dense, Hf|apply u_vectors, Hf]. Qed.
