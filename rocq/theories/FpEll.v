(** Error bounds for the kernels with rounding: the ellpack kernels. *)
From Coq Require Import Reals Lra Permutation.
From Verif Require Import Base BaseFacts Spec SpecFacts EllpackModel EllpackSpec EllpackFacts EllpackOps EllpackArith EllpackMul
  RealSpec FpModel FpSpec FpFacts FpKernels.
Local Open Scope R_scope.

Local Arguments K : simpl never.
Section FpEll.
  Variables (u lam : R) (rnd : R -> R).
  Hypothesis Hr : rounds u lam rnd.
  Local Notation F := Rscalar.
  Local Notation close := (close u).
  Local Notation bigsum := (bigsum (F := Rscalar)).
  Local Notation madd := (madd (F := Rscalar)).
  Local Notation mscale := (mscale (F := Rscalar)).
  Local Notation mmul := (mmul (F := Rscalar)).
  Local Notation ell := (ell Rscalar).
  Local Notation z0 := (@k0 Rscalar).

  (** what the scratch row holds in column k after the entries E *)
  Definition facc (E : list (nat * F)) (k : nat) (s : F) : F :=
    fold_left (fun s kv => if (fst kv =? k)%nat then fadd rnd s (snd kv) else s) E s.
  Lemma facc_app E E' k s : facc (E ++ E') k s = facc E' k (facc E k s).
  Proof. apply fold_left_app. Qed.
  Lemma facc_notin E k s : ~ In k (cols E) -> facc E k s = s.
  Proof.
    revert s. induction E as [|[j v] E IH]; intros s H; simpl; auto. simpl in H.
    destruct (Nat.eqb_spec j k); [tauto|]. apply IH. tauto.
  Qed.

  Lemma facc_loop N i E cs f s : accd z0 N cs f s -> (forall k, In k (cols E) -> (k < N)%nat) ->
    wp (forM E (fun kv s => ws_acc z0 (fadd rnd) i (fst kv) (snd kv) s) s)
       (accd z0 N (cs ++ cols E) (fun k => facc E k (f k))).
  Proof.
    revert cs f s. induction E as [|[j v] E IH]; intros cs f s H HE.
    - simpl. rewrite app_nil_r. exact H.
    - cbn [forM fst snd]. apply wp_bind. eapply wp_mono; [apply (ws_acc_ok z0 (fadd rnd) N cs f i j v s H)|].
      + apply HE. left. auto.
      + intros s' H'. eapply wp_mono; [apply IH; [exact H'|]|].
        * intros k Hk. apply HE. right. auto.
        * intros s2 H2. replace (cs ++ cols ((j, v) :: E)) with ((cs ++ [j]) ++ cols E) by (rewrite <- app_assoc; auto).
          eapply accd_ext; [|exact H2]. intros k. unfold facc. cbn [fold_left fst snd]. unfold upd_fun. rewrite (Nat.eqb_sym k j).
          destruct (Nat.eqb_spec j k); subst; auto.
  Qed.

  (** the error of such a sum: the terms x with their computed values y, at most n of them in column k *)
  Lemma facc_close {X} (g : X -> nat * F) (x m : X -> R) kk k (l : list X) n : 
    (forall a, In a l -> close kk (x a) (snd (g a)) (m a)) ->
    (length (filter (fun a => (fst (g a) =? k)%nat) l) <= n)%nat ->
    close (kk + n) (sumf x (filter (fun a => (fst (g a) =? k)%nat) l)) (facc (map g l) k 0) (sumf m (filter (fun a => (fst (g a) =? k)%nat) l) + INR n * lam).
  Proof.
    intros H HL.
    assert (E : facc (map g l) k 0 = fold_left (fun s a => fadd rnd s (snd (g a))) (filter (fun a => (fst (g a) =? k)%nat) l) 0).
    { unfold facc. generalize 0. clear. induction l as [|a l IH]; intros s; auto. cbn [map filter fold_left].
      destruct (fst (g a) =? k)%nat; apply IH. }
    rewrite E. rewrite <- (Rplus_0_l (sumf x _)).
    assert (Q : 0 + sumf (fun a => m a + lam) (filter (fun a => (fst (g a) =? k)%nat) l) <= sumf m (filter (fun a => (fst (g a) =? k)%nat) l) + INR n * lam).
    { rewrite sumf_plus, sumf_const. apply le_INR in HL. pose proof (lam_pos u lam rnd Hr).
      assert (INR (length (filter (fun a => (fst (g a) =? k)%nat) l)) * lam <= INR n * lam) by (apply Rmult_le_compat_r; auto). lra. }
    eapply close_wider; [exact Hr| |exact Q].
    eapply close_mono; [exact Hr| |apply (close_fold u lam rnd Hr x _ m kk _ 0)].
    - lia.
    - intros a Ha. apply filter_In in Ha. apply H. tauto.
    - apply close_0.
  Qed.

  Lemma sumf_esum {X} (c : X -> nat) (x : X -> F) k l :
    sumf x (filter (fun a => (c a =? k)%nat) l) = esum (F := Rscalar) (map (fun a => (c a, x a)) l) k.
  Proof. induction l as [|a l IH]; simpl; auto. destruct (c a =? k)%nat; simpl; rewrite IH; auto. Qed.

  Lemma elook_map (h : R -> R) (E : list (nat * F)) k : h 0 = 0 ->
    elook (F := Rscalar) (map (fun kv => (fst kv, h (snd kv))) E) k = h (elook E k).
  Proof. intros H. induction E as [|[j v] E IH]; simpl; auto. destruct (j =? k)%nat; auto. Qed.
  Lemma cols_mapv (h : R -> R) (E : list (nat * F)) : cols (F := Rscalar) (map (fun kv => (fst kv, h (snd kv))) E) = cols E.
  Proof. unfold cols. rewrite map_map. auto. Qed.
  Lemma filter_nodup (E : list (nat * F)) k : NoDup (cols E) -> (length (filter (fun kv => fst kv =? k)%nat E) <= 1)%nat.
  Proof.
    intros H. induction E as [|[j v] E IH]; simpl; auto. inversion H; subst. destruct (Nat.eqb_spec j k); [|auto]. subst. simpl.
    assert (Z : filter (fun kv => (fst kv =? k)%nat) E = []).
    { clear -H2. induction E as [|[j w] E IH]; simpl; auto. simpl in H2. destruct (Nat.eqb_spec j k); [tauto|]. apply IH. tauto. }
    rewrite Z. auto.
  Qed.

  (** the terms of row i of the product, in the order of the loops *)
  Definition terms (A B : ell) (i : nat) : list ((nat * F) * (nat * F)) :=
    flat_map (fun ja => map (fun kb => (ja, kb)) (erow B (fst ja))) (erow A i).
  Definition tcol (t : (nat * F) * (nat * F)) : nat := fst (snd t).
  Definition tval (h : R -> R -> R) (t : (nat * F) * (nat * F)) : F := h (snd (fst t)) (snd (snd t)).

  Lemma terms_sum (h : R -> R -> R) (A B : ell) i k : (forall x, h 0 x = 0) -> (forall x, h x 0 = 0) ->
    wf A -> wf B -> eN A = eN B -> (i < eN A)%nat ->
    sumf (tval h) (filter (fun t => (tcol t =? k)%nat) (terms A B i)) = bigsum (eN A) (fun j => h (emat A i j) (emat B j k)).
  Proof.
    intros H1 H2 [HsA HA] [HsB HB] HN Hi. destruct (HA i Hi) as (R1 & R2 & R3). rewrite (sumf_esum tcol (tval h)). unfold terms.
    assert (E : map (fun a => (tcol a, tval h a)) (flat_map (fun ja => map (fun kb => (ja, kb)) (erow B (fst ja))) (erow A i)) =
      flat_map (fun ja => map (fun kb => (fst kb, h (snd ja) (snd kb))) (erow B (fst ja))) (erow A i)).
    { generalize (erow A i). intros l. induction l as [|ja l IH]; simpl; auto. rewrite map_app, IH, map_map. auto. }
    rewrite E, (esum_flat_map (F := Rscalar)).
    rewrite (lsum_map_ext (F := Rscalar) _ (fun kv => h (snd kv) (emat B (fst kv) k))).
    - apply (lsum_entries (F := Rscalar) (erow A i) (eN A) (fun j v => h v (emat B j k))); auto.
    - intros [j a] Hin. cbn [fst snd]. assert (j < eN A)%nat by (apply R3; apply in_map_iff; exists (j, a); auto).
      destruct (HB j) as (_ & H4 & _); [congruence|]. rewrite esum_elook.
      + apply (elook_map (h a)); auto.
      + rewrite (cols_mapv (h a)). auto.
  Qed.

  Lemma terms_len (A B : ell) i k : wf A -> wf B -> eN A = eN B -> (i < eN A)%nat ->
    (length (filter (fun t => (tcol t =? k)%nat) (terms A B i)) <= nnz A i)%nat.
  Proof.
    intros [HsA HA] [HsB HB] HN Hi. destruct (HA i Hi) as (R1 & R2 & R3). rewrite <- erow_length. unfold terms.
    assert (X : forall j, In j (cols (erow A i)) -> NoDup (cols (erow B j))).
    { intros j Hj. apply HB. rewrite <- HN. auto. }
    clear -X. induction (erow A i) as [|[j a] l IH]; simpl; auto. rewrite filter_app, app_length.
    assert (P : (length (filter (fun t => (tcol t =? k)%nat) (map (fun kb => ((j, a), kb)) (erow B j))) <= 1)%nat).
    { etransitivity; [|apply (filter_nodup (erow B j) k); apply X; left; auto]. apply Nat.eq_le_incl.
      clear. induction (erow B j) as [|[q b] m IH]; simpl; auto. change (tcol (j, a, (q, b))) with q. destruct (q =? k)%nat; simpl; auto. }
    assert (length (filter (fun t => (tcol t =? k)%nat) (flat_map (fun ja => map (fun kb => (ja, kb)) (erow B (fst ja))) l)) <= length l)%nat.
    { apply IH. intros q Hq. apply X. right. auto. }
    lia.
  Qed.

  Definition fpE (A B : ell) (i : nat) : list (nat * F) := map (fun t => (tcol t, tval (fmul rnd) t)) (terms A B i).
  Lemma cols_fpE A B i : cols (fpE A B i) = cols (prodE A B i).
  Proof.
    unfold fpE, prodE, terms. unfold cols. generalize (erow A i). intros l. induction l as [|ja l IH]; simpl; auto.
    rewrite !map_app. f_equal; [unfold sc; rewrite !map_map; auto|exact IH].
  Qed.

  Lemma fp_acc_prod (A B : ell) N i w : wf A -> wf B -> eN A = eN B -> (i < eN A)%nat -> N = eN A ->
    clean N w ->
    wp (e_for_row A i (fun j a s => e_for_row B j (fun k b s => ws_acc z0 (fadd rnd) i k (fmul rnd a b) s) s) (w, 0%nat))
       (accd z0 N (cols (fpE A B i)) (fun k => facc (fpE A B i) k 0)).
  Proof.
    intros HA HB HN Hi -> Hc. pose proof HA as [HsA HrA]. pose proof HB as [HsB HrB].
    destruct (HrA i Hi) as (R1 & R2 & R3).
    rewrite e_for_row_eq by (auto; apply wf_nnz; auto).
    set (G := fun l : list (nat * F) => map (B := nat * F) (fun t => (tcol t, tval (fmul rnd) t)) (flat_map (fun ja => map (fun kb => (ja, kb)) (erow B (fst ja))) l)).
    apply (forM_inv (fun pre s => accd z0 (eN A) (cols (G pre)) (fun k => facc (G pre) k 0) s)).
    - simpl. apply (accd_start z0); auto.
    - intros pre [j a] post s E HP. cbn [fst snd].
      assert (Hj : (j < eN A)%nat).
      { apply R3. rewrite E. unfold cols. rewrite map_app. apply in_app_iff. right; left; auto. }
      assert (HjB : (j < eN B)%nat) by congruence.
      destruct (HrB j HjB) as (B1 & B2 & B3).
      rewrite e_for_row_eq by (auto; apply wf_nnz; auto).
      set (E' := map (fun kb : nat * F => (fst kb, fmul rnd a (snd kb))) (erow B j)).
      assert (E0 : forM (erow B j) (fun kv s => ws_acc z0 (fadd rnd) i (fst kv) (fmul rnd a (snd kv)) s) s =
                   forM E' (fun kv s => ws_acc z0 (fadd rnd) i (fst kv) (snd kv) s) s).
      { unfold E'. rewrite forM_map. auto. }
      rewrite E0.
      assert (GE : G (pre ++ [(j, a)]) = G pre ++ E').
      { unfold G, E'. rewrite flat_map_app, map_app. simpl. rewrite app_nil_r, map_map. auto. }
      eapply wp_mono; [apply (facc_loop (eN A)); eauto|].
      + unfold E'. rewrite (cols_mapv (fmul rnd a)), HN. auto.
      + intros s' Hs'. rewrite GE, cols_app. eapply accd_ext; [|exact Hs']. intros k. rewrite facc_app. auto.
  Qed.

  (** a gathered row: element j is the accumulated value, or nothing if the test refuses it *)
  Definition fprow (kc : nat -> F -> bool) (E : list (nat * F)) : list (nat * F) :=
    kept (fun x => x) kc (cols E) (fun k => facc E k 0).
  Lemma elook_fprow kc E j : elook (fprow kc E) j = if kc j (facc E j 0) then facc E j 0 else 0.
  Proof. unfold fprow. apply (elook_kept (F := Rscalar)). intros. apply facc_notin. auto. Qed.
  Lemma fprow_len kc E : (length (fprow kc E) <= length (dd (cols E)))%nat.
  Proof. apply kept_length_le. Qed.

  Lemma fp_mul_row_ok keep (A B C : ell) i w : wf A -> wf B -> eN A = eN B -> eN C = eN A -> (i < eN A)%nat ->
    shape C -> clean (eN A) w -> (prod_cols A B i <= eM C)%nat ->
    wp (fp_mul_row rnd keep A B i (C, w))
       (fun r => upd_row C (fst r) i (fprow (kc_offdiag keep i) (fpE A B i)) /\ clean (eN A) (snd r)).
  Proof.
    intros HA HB HN HNC Hi HsC Hc HM. unfold fp_mul_row.
    apply wp_bind. eapply wp_mono; [apply (fp_acc_prod A B (eN A)); auto|].
    intros [w1 l] HA1.
    assert (HD : length (dd (cols (fpE A B i))) = prod_cols A B i) by (rewrite cols_fpE; apply prod_cols_dd; auto).
    assert (Hl : l = prod_cols A B i) by (rewrite <- HD; apply HA1).
    destruct (Nat.ltb_spec (eM C) l) as [Hlt|Hle]; [simpl; lia|].
    apply wp_bind.
    assert (Hcap := fprow_len (kc_offdiag keep i) (fpE A B i)).
    eapply wp_mono; [apply (ws_gather_ok z0 (fadd rnd) (eN A) (fun x : F => x) (kc_offdiag keep i) (fun _ _ t => t)
        (cols (fpE A B i)) (fun k => facc (fpE A B i) k 0)); auto|].
    - lia.
    - fold (fprow (kc_offdiag keep i) (fpE A B i)). lia.
    - intros [[[C' w'] t'] ll] (HG & Hc' & _ & Hll). fold (fprow (kc_offdiag keep i) (fpE A B i)) in HG, Hll.
      destruct (rowpre_finish _ _ _ _ HG) as [E1 E2]; [lia|]. subst ll. rewrite E1. simpl. auto.
  Qed.

  Lemma fp_mul_close (A B : ell) i k : wf A -> wf B -> eN A = eN B -> (i < eN A)%nat ->
    close (1 + nnz A i) (mmul (eN A) (emat A) (emat B) i k) (facc (fpE A B i) k 0)
      (mmul (eN A) (mabs (emat A)) (mabs (emat B)) i k + INR (2 * nnz A i) * lam).
  Proof.
    intros HA HB HN Hi.
    pose proof (facc_close (fun t => (tcol t, tval (fmul rnd) t)) (tval Rmult) (fun t => tval (fun x y => Rabs x * Rabs y) t + lam) 1 k (terms A B i) (nnz A i)) as H.
    cbn [fst snd] in H. rewrite sumf_plus, sumf_const in H. rewrite !terms_sum in H; auto; try (intros; rewrite ?Rabs_R0; ring).
    pose proof (terms_len A B i k HA HB HN Hi) as HL.
    eapply close_wider; [exact Hr|apply H; auto|].
    - intros [[j a] [q b]] _. unfold tval. simpl. apply close_1. auto.
    - apply le_INR in HL. pose proof (lam_pos u lam rnd Hr). rewrite mult_INR. simpl (INR 2).
      assert (INR (length (filter (fun t => (tcol t =? k)%nat) (terms A B i))) * lam <= INR (nnz A i) * lam) by (apply Rmult_le_compat_r; auto).
      change (Spec.mmul (F := Rscalar) (eN A) (mabs (emat A)) (mabs (emat B)) i k) with (bigsum (eN A) (fun j => Rabs (emat A i j) * Rabs (emat B j k))).
      change (K Rscalar) with R in *. lra.
  Qed.

  Lemma fp_ell_multiply_AB_rows keep (A B C : ell) sched : wf A -> wf B -> wf C -> eN A = eN B -> eN C = eN A ->
    Permutation (map snd sched) (seq 0 (eN A)) -> (forall i, (i < eN A)%nat -> (prod_cols A B i <= eM C)%nat) ->
    exists C', fp_ell_multiply_AB rnd keep A B C sched = Ok C' /\ same_dims C C' /\ wf C' /\
      forall i, (i < eN A)%nat -> erow C' i = fprow (kc_offdiag keep i) (fpE A B i).
  Proof.
    intros HA HB HC HN HNC HP HM. pose proof HC as [HsC HrC].
    assert (Hcap : forall i, (i < eN A)%nat -> (length (fprow (kc_offdiag keep i) (fpE A B i)) <= eM C)%nat).
    { intros i Hi. etransitivity; [apply fprow_len|]. rewrite cols_fpE, prod_cols_dd; auto. }
    apply wp_ok. unfold fp_ell_multiply_AB. apply wp_bind.
    eapply wp_mono.
    - apply (par_all C sched _ _ (fun i => fprow (kc_offdiag keep i) (fpE A B i)) (clean (eN A))); auto.
      + intros; apply wf_nnz; auto.
      + rewrite HNC; auto.
      + intros. rewrite HNC. apply clean_new.
      + intros i Hi. rewrite HNC in Hi. auto.
      + intros i C1 w Hi [D1 D2] Hs1 _ Hc. rewrite HNC in Hi. apply fp_mul_row_ok; auto; [congruence|]. rewrite <- D2. auto.
    - intros [C' w] (D & Hs & Hrw & _). simpl in *. rewrite HNC in Hrw. split; [auto|]. split; [|auto].
      apply (wf_rows C C' (fun i => fprow (kc_offdiag keep i) (fpE A B i)) D Hs).
      + rewrite HNC; auto.
      + intros i Hi. rewrite HNC in *. apply kept_row_ok; auto.
        * rewrite cols_fpE. apply prodE_lt; auto.
        * apply Hcap. auto.
  Qed.

  Theorem fp_ell_multiply_AB_ok keep (A B C : ell) sched : wf A -> wf B -> wf C -> eN A = eN B -> eN C = eN A ->
    Permutation (map snd sched) (seq 0 (eN A)) -> (forall i, (i < eN A)%nat -> (prod_cols A B i <= eM C)%nat) ->
    exists C', fp_ell_multiply_AB rnd keep A B C sched = Ok C' /\ same_dims C C' /\ wf C' /\
      forall i j, (i < eN A)%nat -> (j < eN A)%nat -> exists x,
        Rabs (x - mmul (eN A) (emat A) (emat B) i j) <= gam u (1 + nnz A i) * (mmul (eN A) (mabs (emat A)) (mabs (emat B)) i j + INR (2 * nnz A i) * lam) /\
        emat C' i j = if (i =? j)%nat then x else cut (F := Rscalar) keep x.
  Proof.
    intros HA HB HC HN HNC HP HM.
    destruct (fp_ell_multiply_AB_rows keep A B C sched) as (C' & E & D & W & Hrw); auto. exists C'. split; auto. split; auto. split; auto.
    intros i j Hi Hj. exists (facc (fpE A B i) j 0). split.
    - destruct (fp_mul_close A B i j) as [H _]; auto.
    - unfold emat. rewrite Hrw by auto. rewrite elook_fprow. unfold kc_offdiag, cut. rewrite (Nat.eqb_sym j i).
      destruct (i =? j)%nat; auto.
  Qed.

  (** with rounding, too, the schedule does not matter *)
  Theorem fp_ell_multiply_AB_sched keep (A B C C1 C2 : ell) sched1 sched2 : wf A -> wf B -> wf C -> eN A = eN B -> eN C = eN A ->
    Permutation (map snd sched1) (seq 0 (eN A)) -> Permutation (map snd sched2) (seq 0 (eN A)) ->
    (forall i, (i < eN A)%nat -> (prod_cols A B i <= eM C)%nat) ->
    fp_ell_multiply_AB rnd keep A B C sched1 = Ok C1 -> fp_ell_multiply_AB rnd keep A B C sched2 = Ok C2 ->
    forall i, (i < eN A)%nat -> erow C1 i = erow C2 i.
  Proof.
    intros HA HB HC HN HNC HP1 HP2 HM E1 E2 i Hi.
    destruct (fp_ell_multiply_AB_rows keep A B C sched1) as (D1 & X1 & _ & _ & R1); auto.
    destruct (fp_ell_multiply_AB_rows keep A B C sched2) as (D2 & X2 & _ & _ & R2); auto.
    rewrite E1 in X1. rewrite E2 in X2. injection X1 as <-. injection X2 as <-. rewrite R1, R2; auto.
  Qed.

  (** addition *)
  Definition fsc (a : F) (E : list (nat * F)) : list (nat * F) := map (fun kv => (fst kv, fmul rnd a (snd kv))) E.
  Lemma cols_fsc a E : cols (fsc a E) = cols E.
  Proof. apply cols_mapv. Qed.
  Lemma fsc_loop N i a E cs f s : accd z0 N cs f s -> (forall k, In k (cols E) -> (k < N)%nat) ->
    wp (forM E (fun kv s => ws_acc z0 (fadd rnd) i (fst kv) (fmul rnd a (snd kv)) s) s)
       (accd z0 N (cs ++ cols (fsc a E)) (fun k => facc (fsc a E) k (f k))).
  Proof.
    intros H HE.
    assert (E0 : forM E (fun kv s => ws_acc z0 (fadd rnd) i (fst kv) (fmul rnd a (snd kv)) s) s =
                 forM (fsc a E) (fun kv s => ws_acc z0 (fadd rnd) i (fst kv) (snd kv) s) s).
    { unfold fsc. rewrite forM_map. auto. }
    rewrite E0. apply facc_loop; auto. rewrite cols_fsc. auto.
  Qed.
  Definition faddE (alpha beta : F) (EA EB : list (nat * F)) : list (nat * F) :=
    (if keqb alpha z0 then [] else fsc alpha EA) ++ (if keqb beta z0 then [] else fsc beta EB).
  Lemma cols_faddE alpha beta EA EB k : In k (cols (faddE alpha beta EA EB)) -> In k (cols EA) \/ In k (cols EB).
  Proof.
    unfold faddE. rewrite cols_app, in_app_iff. destruct (keqb alpha z0), (keqb beta z0); rewrite ?cols_fsc; simpl; tauto.
  Qed.

  Lemma fp_add_row_ok (keep : F -> bool) alpha beta (A B : ell) i w :
    let E := faddE alpha beta (erow A i) (erow B i) in
    shape A -> (i < eN A)%nat -> (nnz A i <= eM A)%nat ->
    shape B -> (i < eN B)%nat -> (nnz B i <= eM B)%nat ->
    (forall k, In k (cols (erow A i)) -> (k < eN A)%nat) -> (forall k, In k (cols (erow B i)) -> (k < eN A)%nat) ->
    (length (fprow (fun _ x => keep x) E) <= eM A)%nat ->
    clean (eN A) w ->
    wp (fp_add_row rnd keep alpha beta B i (A, w))
       (fun r => upd_row A (fst r) i (fprow (fun _ x => keep x) E) /\ clean (eN A) (snd r)).
  Proof.
    intros E HsA HiA HnA HsB HiB HnB HrA HrB Hcap Hcl. unfold fp_add_row.
    assert (H1 : wp (if keqb alpha z0 then Ok (w, 0%nat)
           else e_for_row A i (fun k v s => ws_acc z0 (fadd rnd) i k (fmul rnd alpha v) s) (w, 0%nat))
           (accd z0 (eN A) (cols (if keqb alpha z0 then [] else fsc alpha (erow A i)))
              (fun k => facc (if keqb alpha z0 then [] else fsc alpha (erow A i)) k 0))).
    { destruct (keqb alpha z0).
      - simpl. apply (accd_start z0); auto.
      - rewrite e_for_row_eq by auto. apply (fsc_loop (eN A) i alpha (erow A i) [] (fun _ => z0)); auto. apply (accd_start z0); auto. }
    apply wp_bind. eapply wp_mono; [exact H1|]. clear H1. intros s1 HA1.
    apply wp_bind.
    assert (H2 : wp (if keqb beta z0 then Ok s1
           else e_for_row B i (fun k v s => ws_acc z0 (fadd rnd) i k (fmul rnd beta v) s) s1)
           (accd z0 (eN A) (cols E) (fun k => facc E k 0))).
    { unfold E, faddE. rewrite cols_app. destruct (keqb beta z0).
      - simpl wpq. rewrite app_nil_r. eapply accd_ext; [|exact HA1]. intros k. rewrite facc_app. auto.
      - rewrite e_for_row_eq by auto. eapply wp_mono; [apply fsc_loop; [exact HA1|auto]|]. intros s2 Hs2.
        eapply accd_ext; [|exact Hs2]. intros k. rewrite facc_app. auto. }
    eapply wp_mono; [exact H2|]. clear H2. intros [w2 l] HA2.
    rewrite e_wnnz_ok by auto. cbn [bind].
    apply wp_bind.
    eapply wp_mono; [apply (ws_gather_ok z0 (fadd rnd) (eN A) (fun x : F => x) (fun _ x => keep x) (fun _ _ t => t)
        (cols E) (fun k => facc E k 0)); auto|].
    - apply shape_wnnzp; auto.
    - intros [[[A' w'] t'] ll] (HM & Hc & _ & Hl).
      assert (HM2 : rowpre A A' i (fprow (fun _ x => keep x) E)).
      { eapply rowpre_rowpre_start; [apply rowpre_wnnz_start; auto|exact HM]. }
      destruct (rowpre_finish _ _ _ _ HM2 HiA) as [E1 E2].
      subst ll. fold (fprow (fun _ x => keep x) E). rewrite E1. simpl. auto.
  Qed.

  Lemma facc_fsc_close a (E : list (nat * F)) k n x y m : NoDup (cols E) -> close n x y m ->
    close (S (Nat.max n 1)) (x + a * elook E k) (facc (fsc a E) k y) (m + Rabs a * Rabs (elook E k) + 2 * lam).
  Proof.
    intros H Hc. induction E as [|[j v] E IH].
    - simpl. rewrite Rabs_R0, !Rmult_0_r, !Rplus_0_r. eapply close_mono; [exact Hr| |eapply close_wider; [exact Hr|exact Hc|pose proof (lam_pos u lam rnd Hr); lra]]. lia.
    - cbn [fsc map]. unfold facc. cbn [fold_left fst snd elook]. inversion H; subst. destruct (Nat.eqb_spec j k).
      + subst. fold (fsc a E). fold (facc (fsc a E) k (fadd rnd y (fmul rnd a v))). rewrite facc_notin by (rewrite cols_fsc; auto).
        replace (m + Rabs a * Rabs v + 2 * lam) with (m + (Rabs a * Rabs v + lam) + lam) by ring. apply (close_add u lam rnd Hr n 1); auto. apply close_1; auto.
      + apply IH. auto.
  Qed.

  Lemma fp_ell_add_rows keep alpha beta (A B : ell) sched : wf A -> wf B -> eN A = eN B ->
    Permutation (map snd sched) (seq 0 (eN A)) -> (forall i, (i < eN A)%nat -> (either_cols A B i <= eM A)%nat) ->
    exists A', fp_ell_add rnd keep alpha beta A B sched = Ok A' /\ same_dims A A' /\ wf A' /\
      forall i, (i < eN A)%nat -> erow A' i = fprow (fun _ x => keep x) (faddE alpha beta (erow A i) (erow B i)).
  Proof.
    intros HA HB HN HP Hf. pose proof HA as [HsA HrA]. pose proof HB as [HsB HrB].
    set (E := fun i => faddE alpha beta (erow A i) (erow B i)).
    assert (HE : forall i k, (i < eN A)%nat -> In k (cols (E i)) -> (k < eN A)%nat).
    { intros i k Hi Hk. apply cols_faddE in Hk as [Hk|Hk]; [apply (HrA i Hi); auto|]. rewrite HN. apply (HrB i); [congruence|auto]. }
    assert (Hcap : forall i, (i < eN A)%nat -> (length (fprow (fun _ x => keep x) (E i)) <= eM A)%nat).
    { intros i Hi. etransitivity; [apply fprow_len|]. etransitivity; [|apply (Hf i Hi)].
      rewrite (dd_count _ (eN A)) by (intros k Hk; apply (HE i k); auto). unfold either_cols, count.
      assert (X : forall l, (length (filter (fun k => existsb (Nat.eqb k) (cols (E i))) l) <=
        length (filter (fun j => existsb (Nat.eqb j) (cols (erow A i)) || existsb (Nat.eqb j) (cols (erow B i))) l))%nat).
      { intros l. induction l as [|q l IH]; simpl; auto.
        destruct (existsb (Nat.eqb q) (cols (E i))) eqn:Q.
        - apply existsb_eqb, cols_faddE in Q. assert (Y : (existsb (Nat.eqb q) (cols (erow A i)) || existsb (Nat.eqb q) (cols (erow B i)))%bool = true).
          { apply Bool.orb_true_iff. rewrite !existsb_eqb. auto. }
          rewrite Y. simpl. lia.
        - destruct (existsb (Nat.eqb q) (cols (erow A i)) || existsb (Nat.eqb q) (cols (erow B i)))%bool; simpl; lia. }
      apply X. }
    apply wp_ok. unfold fp_ell_add. apply wp_bind.
    eapply wp_mono.
    - apply (par_all A sched _ _ (fun i => fprow (fun _ x => keep x) (E i)) (clean (eN A))); auto.
      + intros. apply wf_nnz; auto.
      + intros. apply clean_new.
      + intros i A1 w Hi [D1 D2] Hs1 HE1 Hc.
        destruct (HrA i Hi) as (R1 & R2 & R3).
        destruct (HrB i) as (B1 & B2 & B3); [congruence|].
        assert (Hn1 : (nnz A1 i <= eM A)%nat) by (rewrite <- erow_length, HE1; auto).
        assert (HiB : (i < eN B)%nat) by congruence.
        assert (HnB := wf_nnz B i HB HiB).
        assert (Hk := Hcap i Hi). rewrite <- HN in B3.
        unfold E in *. rewrite <- HE1 in Hk |- *. rewrite D1. apply fp_add_row_ok; rewrite ?HE1, <- ?D1, <- ?D2; auto.
    - intros [A' w] (D & Hs & Hrw & _). simpl in *. split; [auto|]. split; [|auto].
      apply (wf_rows A A' _ D Hs Hrw). intros i Hi. apply kept_row_ok; [intros k Hk; apply (HE i k); auto|apply Hcap; auto].
  Qed.

  Theorem fp_ell_add_ok keep alpha beta (A B : ell) sched : wf A -> wf B -> eN A = eN B ->
    Permutation (map snd sched) (seq 0 (eN A)) -> (forall i, (i < eN A)%nat -> (either_cols A B i <= eM A)%nat) ->
    exists A', fp_ell_add rnd keep alpha beta A B sched = Ok A' /\ same_dims A A' /\ wf A' /\
      forall i j, (i < eN A)%nat -> (j < eN A)%nat -> exists x,
        Rabs (x - madd (mscale alpha (emat A)) (mscale beta (emat B)) i j) <=
          gam u 3 * (madd (mscale (Rabs alpha) (mabs (emat A))) (mscale (Rabs beta) (mabs (emat B))) i j + 4 * lam) /\
        emat A' i j = cut (F := Rscalar) keep x.
  Proof.
    intros HA HB HN HP Hf. pose proof HA as [HsA HrA]. pose proof HB as [HsB HrB].
    destruct (fp_ell_add_rows keep alpha beta A B sched) as (A' & E0 & D & W & Hrw); auto. exists A'. split; auto. split; auto. split; auto.
    set (E := fun i => faddE alpha beta (erow A i) (erow B i)) in *.
    intros i j Hi Hj. exists (facc (E i) j 0). split; [|unfold emat; rewrite Hrw by auto; unfold E; rewrite elook_fprow; auto].
        destruct (HrA i Hi) as (R1 & R2 & R3). destruct (HrB i) as (B1 & B2 & B3); [congruence|].
        assert (X : close 3 (0 + alpha * emat A i j + beta * emat B i j) (facc (E i) j 0) (0 + Rabs alpha * Rabs (emat A i j) + 2 * lam + Rabs beta * Rabs (emat B i j) + 2 * lam)).
        { unfold E, faddE. rewrite facc_app.
          assert (Y : close 2 (0 + alpha * emat A i j) (facc (if keqb alpha z0 then [] else fsc alpha (erow A i)) j 0) (0 + Rabs alpha * Rabs (emat A i j) + 2 * lam)).
          { change (keqb alpha z0) with (Reqb alpha 0). destruct (Reqb alpha 0) eqn:Ea.
            - apply Reqb_spec in Ea. rewrite Ea, Rabs_R0, !Rmult_0_l, !Rplus_0_l. eapply close_wider; [exact Hr|apply close_0|pose proof (lam_pos u lam rnd Hr); lra].
            - apply (facc_fsc_close alpha (erow A i) j 0 0 0 0); auto. apply close_0. }
          change (keqb beta z0) with (Reqb beta 0). destruct (Reqb beta 0) eqn:Eb.
          - apply Reqb_spec in Eb. rewrite Eb, Rabs_R0, !Rmult_0_l, !Rplus_0_r. eapply close_mono; [exact Hr| |eapply close_wider; [exact Hr|exact Y|pose proof (lam_pos u lam rnd Hr); lra]]. lia.
          - apply (facc_fsc_close beta (erow B i) j 2); auto. }
        destruct X as [X _]. rewrite !Rplus_0_l in X. eapply Rle_trans; [exact X|]. apply Req_le. f_equal.
        change (@eq R (Rabs alpha * Rabs (emat A i j) + 2 * lam + Rabs beta * Rabs (emat B i j) + 2 * lam) (Rabs alpha * Rabs (emat A i j) + Rabs beta * Rabs (emat B i j) + 4 * lam)). ring.
  Qed.

  Theorem fp_ell_add_sched keep alpha beta (A B A1 A2 : ell) sched1 sched2 : wf A -> wf B -> eN A = eN B ->
    Permutation (map snd sched1) (seq 0 (eN A)) -> Permutation (map snd sched2) (seq 0 (eN A)) ->
    (forall i, (i < eN A)%nat -> (either_cols A B i <= eM A)%nat) ->
    fp_ell_add rnd keep alpha beta A B sched1 = Ok A1 -> fp_ell_add rnd keep alpha beta A B sched2 = Ok A2 ->
    forall i, (i < eN A)%nat -> erow A1 i = erow A2 i.
  Proof.
    intros HA HB HN HP1 HP2 HM E1 E2 i Hi.
    destruct (fp_ell_add_rows keep alpha beta A B sched1) as (D1 & X1 & _ & _ & R1); auto.
    destruct (fp_ell_add_rows keep alpha beta A B sched2) as (D2 & X2 & _ & _ & R2); auto.
    rewrite E1 in X1. rewrite E2 in X2. injection X1 as <-. injection X2 as <-. rewrite R1, R2; auto.
  Qed.

  Lemma first_diag i (E : list (nat * F)) tr : NoDup (cols E) ->
    exists b, forM E (fun kv '(tr, stop) => if (stop : bool) then Ok (tr, stop) else if (i =? fst kv)%nat then Ok (fadd rnd tr (snd kv), true) else Ok (tr, false))
      (tr, false) = Ok (fold_left (fun v kv => fadd rnd v (snd kv)) (filter (fun kv => fst kv =? i)%nat E) tr, b).
  Proof.
    assert (X : forall (E : list (nat * F)) tr, forM E (fun kv '(tr, stop) => if (stop : bool) then Ok (tr, stop) else if (i =? fst kv)%nat then Ok (fadd rnd tr (snd kv), true) else Ok (tr, false))
      (tr, true) = Ok (tr, true)) by (induction E0; intros; cbn [forM bind]; auto).
    revert tr. induction E as [|[j v] E IH]; intros tr H; [exists false; auto|]. inversion H; subst.
    cbn [forM fst snd filter]. rewrite (Nat.eqb_sym j i). destruct (Nat.eqb_spec i j).
    - subst. cbn [bind fold_left snd]. rewrite X. exists true.
      assert (Z : filter (fun kv => (fst kv =? j)%nat) E = []).
      { clear -H2. induction E as [|[q w] E IH]; auto. simpl in H2. cbn [filter fst]. destruct (Nat.eqb_spec q j); [tauto|]. apply IH. tauto. }
      rewrite Z. auto.
    - cbn [bind]. apply IH. auto.
  Qed.
  Lemma sumf_diag (z : R -> R) (E : list (nat * F)) i : z 0 = 0 -> NoDup (cols E) ->
    sumf (fun kv => z (snd kv)) (filter (fun kv => fst kv =? i)%nat E) = z (elook E i).
  Proof.
    intros Hz H. rewrite (sumf_esum fst (fun kv => z (snd kv))). rewrite (esum_elook (F := Rscalar)) by (rewrite (cols_mapv z); auto).
    apply (elook_map z). auto.
  Qed.

  Theorem fp_ell_trace_ok (A : ell) nth ord sched : wf A -> full_sched (eN A) nth sched -> Permutation ord (seq 0 nth) ->
    exists s, fp_ell_trace rnd A ord sched = Ok s /\
      Rabs (s - mtrace (eN A) (emat A)) <= gam u (eN A + nth) * (mtrace (eN A) (mabs (emat A)) + INR (eN A + nth) * lam).
  Proof.
    intros HA HS HO. pose proof HA as [HsA HrA]. pose proof HS as [HP _]. unfold fp_ell_trace.
    assert (HI : forall i, In i (map snd sched) -> (i < eN A)%nat).
    { intros i Hi. apply (Permutation_in _ HP) in Hi. apply in_seq in Hi. lia. }
    set (g := fun i => filter (fun kv : nat * F => (fst kv =? i)%nat) (erow A i)).
    destruct (par_steps sched (fun i '(s, tr) =>
        '(tr, _) <- e_for_row A i (fun k v '(tr, stop) =>
           if (stop : bool) then Ok (tr, stop)
           else if (i =? k)%nat then Ok (fadd rnd tr v, true) else Ok (tr, false)) (tr, false) ;;
        Ok (s, tr)) (fun i v => fold_left (fun v kv => fadd rnd v (snd kv)) (g i) v) tt (fun _ => z0)) as (w & E & V).
    { intros i v Hi. apply HI in Hi. rewrite e_for_row_eq by (auto; apply wf_nnz; auto).
      destruct (first_diag i (erow A i) v) as (b & X); [apply HrA; auto|]. rewrite X. auto. }
    rewrite E. cbn [bind]. eexists. split; [reflexivity|].
    assert (B : forall z : R -> R, z 0 = 0 -> bigsum (eN A) (fun i => z (emat A i i)) = bigsum (eN A) (fun i => sumf (fun kv => z (snd kv)) (g i))).
    { intros z Hz. apply (bigsum_ext (F := Rscalar)). intros i Hi. symmetry. apply sumf_diag; auto. apply HrA; auto. }
    unfold mtrace, mabs. rewrite (B (fun x => x)), (B Rabs) by (auto; apply Rabs_R0).
    apply (reduction_close u lam rnd Hr g (fun kv => snd kv) (fun kv => snd kv) (fun kv => Rabs (snd kv)) 0 (eN A) (eN A) nth ord sched w HS HO); auto.
    - intros. apply close_exact.
    - clear -HrA. assert (X : forall l, (forall i, In i l -> (i < eN A)%nat) -> (length (flat_map g l) <= length l)%nat).
      { induction l as [|i l IH]; intros H; simpl; auto. rewrite app_length.
        assert (length (g i) <= 1)%nat by (apply filter_nodup; apply HrA; apply H; left; auto).
        assert (length (flat_map g l) <= length l)%nat by (apply IH; intros; apply H; right; auto). lia. }
      rewrite <- (seq_length (eN A) 0) at 2. apply X. intros i Hi. apply in_seq in Hi. lia.
  Qed.

  Theorem fp_ell_sum_squares_ok (A : ell) nth ord sched : wf A -> full_sched (eN A) nth sched -> Permutation ord (seq 0 nth) ->
    exists s, fp_ell_sum_squares rnd A ord sched = Ok s /\
      Rabs (s - msum (eN A) (mhad (emat A) (emat A))) <=
      gam u (1 + list_sum (map (nnz A) (seq 0 (eN A))) + nth) *
        (msum (eN A) (mhad (emat A) (emat A)) + INR (2 * list_sum (map (nnz A) (seq 0 (eN A))) + nth) * lam).
  Proof.
    intros HA HS HO. pose proof HA as [HsA HrA]. pose proof HS as [HP _]. unfold fp_ell_sum_squares.
    assert (HI : forall i, In i (map snd sched) -> (i < eN A)%nat).
    { intros i Hi. apply (Permutation_in _ HP) in Hi. apply in_seq in Hi. lia. }
    destruct (par_steps sched (fun i '(s, sum) =>
        sum <- e_for_row A i (fun _ v sum => Ok (fadd rnd sum (fmul rnd v v))) sum ;; Ok (s, sum))
        (fun i v => fold_left (fun v kv => fadd rnd v (fmul rnd (snd kv) (snd kv))) (erow A i) v) tt (fun _ => z0)) as (w & E & V).
    { intros i v Hi. apply HI in Hi. rewrite e_for_row_eq by (auto; apply wf_nnz; auto).
      assert (X : forall (l : list (nat * F)) v, forM l (fun kv sum => Ok (fadd rnd sum (fmul rnd (snd kv) (snd kv)))) v =
         Ok (fold_left (fun v kv => fadd rnd v (fmul rnd (snd kv) (snd kv))) l v)) by (induction l; intros; cbn [forM bind fold_left]; auto).
      rewrite X. auto. }
    rewrite E. cbn [bind]. eexists. split; [reflexivity|].
    assert (B : msum (F := Rscalar) (eN A) (mhad (emat A) (emat A)) = bigsum (eN A) (fun i => sumf (fun kv => snd kv * snd kv) (erow A i))).
    { apply (bigsum_ext (F := Rscalar)). intros i Hi. destruct (HrA i Hi) as (R1 & R2 & R3). symmetry.
      assert (Y : forall l : list (nat * F), sumf (fun kv => snd kv * snd kv) l = lsum (F := Rscalar) (map (fun kv => snd kv * snd kv) l)).
      { clear. induction l; simpl; auto. rewrite IHl. auto. }
      rewrite Y. apply (lsum_entries (F := Rscalar) (erow A i) (eN A) (fun _ v => v * v)); auto. intros. apply Rmult_0_l. }
    rewrite B.
    assert (P : forall kv : nat * F, snd kv * snd kv = Rabs (snd kv) * Rabs (snd kv)).
    { intros kv. rewrite <- Rabs_mult. symmetry. apply Rabs_pos_eq. apply Rle_0_sqr. }
    assert (B2 : bigsum (eN A) (fun i => sumf (fun kv : nat * F => snd kv * snd kv) (erow A i)) = bigsum (eN A) (fun i => sumf (fun kv : nat * F => Rabs (snd kv) * Rabs (snd kv)) (erow A i))).
    { apply (bigsum_ext (F := Rscalar)). intros i _. apply sumf_ext. intros kv _. apply P. }
    set (L := list_sum (map (nnz A) (seq 0 (eN A)))).
    assert (LE : length (flat_map (erow A) (seq 0 (eN A))) = L).
    { unfold L. clear. induction (seq 0 (eN A)) as [|i l IH]; simpl; auto. rewrite app_length, erow_length. simpl. lia. }
    assert (B3 : bigsum (eN A) (fun i => sumf (fun kv : nat * F => snd kv * snd kv) (erow A i)) + INR (2 * L + nth) * lam =
      bigsum (eN A) (fun i => sumf (fun kv : nat * F => Rabs (snd kv) * Rabs (snd kv) + lam) (erow A i)) + INR (L + nth) * lam).
    { rewrite B2. rewrite <- !sumf_seq, <- !sumf_flat_map. rewrite sumf_plus, sumf_const, LE.
      rewrite !plus_INR, mult_INR. simpl (INR 2). change (K Rscalar) with R in *. ring. }
    eapply Rle_trans; [|apply Req_le; apply (f_equal (Rmult _)); symmetry; exact B3].
    apply (reduction_close u lam rnd Hr (fun i => erow A i) (fun kv => snd kv * snd kv) (fun kv => fmul rnd (snd kv) (snd kv)) (fun kv => Rabs (snd kv) * Rabs (snd kv) + lam)
      1 L (eN A) nth ord sched w HS HO); auto.
    - intros. apply close_1. auto.
    - apply Nat.eq_le_incl. exact LE.
  Qed.

  Lemma cut_close t (x y e : R) : 0 <= t -> Rabs (x - y) <= e -> Rabs (cut (F := Rscalar) (gtR t) x - y) <= e + t.
  Proof.
    intros Ht H. unfold cut. destruct (gtR t x) eqn:G; [lra|].
    assert (X : Rabs x <= t).
    { unfold gtR in G. destruct (Rlt_dec t (Rabs x)); [discriminate|lra]. }
    change (@k0 Rscalar) with 0. replace (0 - y) with ((x - y) + - x) by ring.
    pose proof (Rabs_triang (x - y) (- x)). rewrite Rabs_Ropp in H0. lra.
  Qed.

  (** rounding and threshold together *)
  Theorem fp_ell_multiply_AB_bound t (A B C : ell) sched : 0 <= t -> wf A -> wf B -> wf C -> eN A = eN B -> eN C = eN A ->
    Permutation (map snd sched) (seq 0 (eN A)) -> (forall i, (i < eN A)%nat -> (prod_cols A B i <= eM C)%nat) ->
    exists C', fp_ell_multiply_AB rnd (gtR t) A B C sched = Ok C' /\ wf C' /\
      forall i j, (i < eN A)%nat -> (j < eN A)%nat ->
        Rabs (emat C' i j - mmul (eN A) (emat A) (emat B) i j) <=
          gam u (1 + nnz A i) * (mmul (eN A) (mabs (emat A)) (mabs (emat B)) i j + INR (2 * nnz A i) * lam) + (if (i =? j)%nat then 0 else t).
  Proof.
    intros Ht HA HB HC HN HNC HP HM. destruct (fp_ell_multiply_AB_ok (gtR t) A B C sched) as (C' & E & _ & W & V); auto.
    exists C'. split; auto. split; auto. intros i j Hi Hj. destruct (V i j Hi Hj) as (x & Hx & ->).
    destruct (i =? j)%nat; [change (K Rscalar) with R in *; lra|apply cut_close; auto].
  Qed.
  Theorem fp_ell_add_bound t alpha beta (A B : ell) sched : 0 <= t -> wf A -> wf B -> eN A = eN B ->
    Permutation (map snd sched) (seq 0 (eN A)) -> (forall i, (i < eN A)%nat -> (either_cols A B i <= eM A)%nat) ->
    exists A', fp_ell_add rnd (gtR t) alpha beta A B sched = Ok A' /\ wf A' /\
      forall i j, (i < eN A)%nat -> (j < eN A)%nat ->
        Rabs (emat A' i j - madd (mscale alpha (emat A)) (mscale beta (emat B)) i j) <=
          gam u 3 * (madd (mscale (Rabs alpha) (mabs (emat A))) (mscale (Rabs beta) (mabs (emat B))) i j + 4 * lam) + t.
  Proof.
    intros Ht HA HB HN HP HM. destruct (fp_ell_add_ok (gtR t) alpha beta A B sched) as (A' & E & _ & W & V); auto.
    exists A'. split; auto. split; auto. intros i j Hi Hj. destruct (V i j Hi Hj) as (x & Hx & ->). apply cut_close; auto.
  Qed.
End FpEll.
