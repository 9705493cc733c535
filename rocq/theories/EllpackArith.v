(** Proofs about ellpack arithmetic: add, multiply, threshold, ... *)
From Verif Require Import Base BaseFacts Spec SpecFacts EllpackModel EllpackSpec EllpackFacts EllpackOps.
From Coq Require Import Ring.

Lemma NoDup_count (l : list nat) N (p : nat -> bool) :
  NoDup l -> (forall k, In k l -> k < N /\ p k = true) -> length l <= count N p.
Proof.
  intros Hd H. unfold count. apply NoDup_incl_length; auto.
  intros k Hk. apply filter_In. destruct (H k Hk). split; auto. apply in_seq. lia.
Qed.

Lemma dd_count (l : list nat) N :
  (forall k, In k l -> k < N) -> length (dd l) = count N (fun k => existsb (Nat.eqb k) l).
Proof.
  intros H. apply Nat.le_antisymm.
  - apply NoDup_count; [apply NoDup_dd|]. intros k Hk. rewrite in_dd in Hk. split; auto.
    apply existsb_eqb; auto.
  - unfold count. apply NoDup_incl_length; [apply NoDup_filter, seq_NoDup|].
    intros k Hk. apply filter_In in Hk as [_ Hk]. apply in_dd. apply existsb_eqb; auto.
Qed.

(** A reduction of a read-only loop over the rows [L]. *)
Lemma par_red_on {F : scalar} {e W} (sched : list (nat * nat)) (body : nat -> unit * W -> res (unit * W))
      (w0 : nat -> W) (Winv : W -> Prop) (red : W -> F) (c : nat -> F) nth L :
  Permutation (map snd sched) L -> (forall t i, In (t, i) sched -> t < nth) ->
  (forall t, Winv (w0 t)) ->
  (forall i w, In i L -> Winv w ->
     wpq e (body i (tt, w)) (fun r => Winv (snd r) /\ red (snd r) = kadd (red w) (c i))) ->
  wpq e (par_for sched body tt w0)
     (fun r => bigsum nth (fun t => red (snd r t)) = kadd (bigsum nth (fun t => red (w0 t))) (lsum (map c L))).
Proof.
  intros HP Ht Hw Hb.
  rewrite <- (lsum_perm _ _ (Permutation_map c HP)).
  eapply wp_mono.
  - apply (par_for_inv (fun done s w => (forall t, Winv (w t)) /\
      bigsum nth (fun t => red (w t)) = kadd (bigsum nth (fun t => red (w0 t))) (lsum (map c done)))).
    + split; auto. simpl. destruct (k_ring F). rewrite Radd_comm, Radd_0_l. auto.
    + intros pre t i post [] w E [HW HS].
      assert (Hi : In i L).
      { apply (Permutation_in _ HP). rewrite E, map_app. apply in_app_iff. right; left; auto. }
      assert (Htn : t < nth) by (apply (Ht t i); rewrite E; apply in_app_iff; right; left; auto).
      eapply wp_mono; [apply (Hb i (w t)); auto|].
      intros [s' w'] [HW' HR]. simpl in *. split.
      * intros t'. unfold upd_fun. destruct (t' =? t); auto.
      * rewrite map_app, lsum_app. simpl.
        rewrite (bigsum_ext nth (fun t0 => red (upd_fun w t w' t0)) (upd_fun (fun t => red (w t)) t (red w'))).
        2:{ intros q Hq. unfold upd_fun. destruct (q =? t); auto. }
        rewrite HR. rewrite (reduce_step nth (fun t => red (w t)) t (c i)) by auto. rewrite HS.
        destruct (k_ring F). rewrite (Radd_comm (c i) k0), Radd_0_l. symmetry. apply Radd_assoc.
  - simpl. intros r [_ H]. auto.
Qed.

(** A reduction of a read-only loop over all rows. *)
Lemma par_red {F : scalar} {e W} (sched : list (nat * nat)) (body : nat -> unit * W -> res (unit * W))
      (w0 : nat -> W) (Winv : W -> Prop) (red : W -> F) (c : nat -> F) nth N :
  Permutation (map snd sched) (seq 0 N) -> (forall t i, In (t, i) sched -> t < nth) ->
  (forall t, Winv (w0 t)) ->
  (forall i w, i < N -> Winv w ->
     wpq e (body i (tt, w)) (fun r => Winv (snd r) /\ red (snd r) = kadd (red w) (c i))) ->
  wpq e (par_for sched body tt w0)
     (fun r => bigsum nth (fun t => red (snd r t)) = kadd (bigsum nth (fun t => red (w0 t))) (bigsum N c)).
Proof.
  intros HP Ht Hw Hb. rewrite <- (lsum_rows c N (seq 0 N)) by auto.
  apply (par_red_on sched body w0 Winv red c nth (seq 0 N)); auto.
  intros i w Hi. apply Hb. apply in_seq in Hi. lia.
Qed.

Section EllpackArith.
  Context {F : scalar}.
  Local Open Scope K_scope.
  Add Ring Kring4 : (k_ring F).
  Local Notation ell := (ell F).

  (** parallel loop over all rows with reductions *)
  Lemma par_all_red {e W Q} (A0 : ell) sched (body : nat -> ell * W -> res (ell * W)) w0 target
        (Winv : W -> Prop) (reds : Q -> W -> F) (c : Q -> nat -> F) nth :
    shape A0 -> (forall i, (i < eN A0)%nat -> (nnz A0 i <= eM A0)%nat) ->
    Permutation (map snd sched) (seq 0 (eN A0)) -> (forall t i, In (t, i) sched -> (t < nth)%nat) ->
    (forall t, Winv (w0 t)) ->
    (forall i, (i < eN A0)%nat -> (length (target i) <= eM A0)%nat) ->
    (forall i A w, (i < eN A0)%nat -> same_dims A0 A -> shape A -> erow A i = erow A0 i -> Winv w ->
       wpq e (body i (A, w)) (fun r => upd_row A (fst r) i (target i) /\ Winv (snd r) /\
          forall q, reds q (snd r) = reds q w + c q i)) ->
    wpq e (par_for sched body A0 w0)
       (fun r => same_dims A0 (fst r) /\ shape (fst r) /\
          (forall i, (i < eN A0)%nat -> erow (fst r) i = target i) /\
          forall q, bigsum nth (fun t => reds q (snd r t)) =
                    bigsum nth (fun t => reds q (w0 t)) + bigsum (eN A0) (c q)).
  Proof.
    intros Hs Hnz HP Hth Hw Hcap Hbody.
    assert (Hnd := perm_nodup _ _ HP).
    eapply wp_mono.
    - apply (par_for_inv (fun done A w =>
        same_dims A0 A /\ shape A /\
        (forall i, (i < eN A0)%nat -> ~ In i done -> erow A i = erow A0 i) /\
        (forall i, In i done -> erow A i = target i) /\
        (forall t, Winv (w t)) /\
        (forall q, bigsum nth (fun t => reds q (w t)) =
                    bigsum nth (fun t => reds q (w0 t)) + lsum (map (c q) done)))).
      + split; [split; auto|]. split; auto. repeat split; auto; simpl; try tauto. intros; ring.
      + intros pre t i post A w E (D & HsA & Hun & Hdo & HwA & Hred).
        assert (Hin : In i (map snd sched)).
        { rewrite E, map_app. apply in_app_iff. right; left; auto. }
        assert (Hi : (i < eN A0)%nat) by (apply (perm_in _ _ _ HP); auto).
        assert (Htn : (t < nth)%nat) by (apply (Hth t i); rewrite E; apply in_app_iff; right; left; auto).
        assert (Hnot : ~ In i (map snd pre)).
        { rewrite E, map_app in Hnd. apply NoDup_app_inv in Hnd as (_ & _ & Hx).
          intros Hc. apply (Hx i Hc). left; auto. }
        eapply wp_mono; [apply (Hbody i A (w t)); auto|].
        intros [A' w'] (HU & HW & HR). simpl in *.
        pose proof HU as ((D1 & D2) & HsA' & HE & Hn & Ho).
        assert (D' : same_dims A0 A') by (destruct D; split; congruence).
        assert (HM : eM A = eM A0) by (destruct D; auto).
        split; [auto|]. split; [auto|]. split; [|split; [|split]].
        * intros i' Hi' Hni. rewrite in_app_iff in Hni. simpl in Hni.
          assert (i' <> i) by (intros ->; apply Hni; auto).
          assert (~ In i' (map snd pre)) by tauto.
          rewrite (upd_row_other _ _ _ _ _ HU); auto.
          rewrite HM, <- erow_length, Hun, erow_length by auto. auto.
        * intros i' Hi'. apply in_app_iff in Hi'. simpl in Hi'.
          destruct (Nat.eq_dec i' i) as [->|Hne]; auto.
          destruct Hi' as [Hi'|[Hi'|[]]]; [|congruence].
          rewrite (upd_row_other _ _ _ _ _ HU); auto.
          rewrite HM, <- erow_length, Hdo by auto. apply Hcap.
          apply (perm_in _ _ _ HP). rewrite E, map_app. apply in_app_iff; auto.
        * intros t'. unfold upd_fun. destruct (t' =? t); auto.
        * intros q. rewrite map_app, lsum_app. simpl.
          rewrite (bigsum_ext nth (fun t0 => reds q (upd_fun w t w' t0)) (upd_fun (fun t => reds q (w t)) t (reds q w'))).
          2:{ intros p Hp. unfold upd_fun. destruct (p =? t); auto. }
          rewrite HR. rewrite (reduce_step nth (fun t => reds q (w t)) t (c q i)) by auto. rewrite Hred. ring.
    - simpl. intros r (D & HsA & Hun & Hdo & HwA & Hred).
      split; [auto|]. split; [auto|]. split.
      + intros i Hi. apply Hdo. apply (perm_in _ _ _ HP); auto.
      + intros q. rewrite Hred. rewrite (lsum_rows (c q) (eN A0) _ HP). auto.
  Qed.

  Lemma kept_fits (keep : nat -> F -> bool) cs (f : nat -> F) N M :
    (forall k, In k cs -> (k < N)%nat) -> (count N (fun j => keep j (f j)) <= M)%nat ->
    (length (kept (fun x => x) keep cs f) <= M)%nat.
  Proof.
    intros Hr Hc. destruct (kept_cols (fun x : F => x) keep cs f) as [H1 H2].
    unfold cols in *. rewrite <- (map_length fst).
    eapply Nat.le_trans; [|exact Hc]. apply NoDup_count; auto.
    intros k Hk. apply H2 in Hk as [Hk1 Hk2]. auto.
  Qed.

  Lemma kept_row_ok (keep : nat -> F -> bool) cs (f : nat -> F) N M :
    (forall k, In k cs -> (k < N)%nat) -> (length (kept (fun x => x) keep cs f) <= M)%nat ->
    row_ok N M (kept (fun x => x) keep cs f).
  Proof.
    intros Hr Hc. destruct (kept_cols (fun x : F => x) keep cs f) as [H1 H2].
    repeat split; auto. intros k Hk. apply H2 in Hk as [Hk _]. auto.
  Qed.

  (** ** add *)
  Definition sc (a : F) (E : list (nat * F)) : list (nat * F) := map (fun kv => (fst kv, a * snd kv)) E.

  Lemma cols_sc a E : cols (sc a E) = cols E.
  Proof. unfold cols, sc. rewrite map_map. auto. Qed.

  Definition addE (alpha beta : F) (EA EB : list (nat * F)) : list (nat * F) :=
    (if keqb alpha 0 then [] else sc alpha EA) ++ (if keqb beta 0 then [] else sc beta EB).

  Definition addrow (keep : F -> bool) alpha beta EA EB : list (nat * F) :=
    kept (fun x => x) (fun _ x => keep x) (cols (addE alpha beta EA EB)) (esum (addE alpha beta EA EB)).

  Lemma cols_app (E1 E2 : list (nat * F)) : cols (E1 ++ E2) = cols E1 ++ cols E2.
  Proof. apply map_app. Qed.

  Lemma cols_addE alpha beta EA EB k : In k (cols (addE alpha beta EA EB)) -> In k (cols EA) \/ In k (cols EB).
  Proof.
    unfold addE. rewrite cols_app, in_app_iff.
    destruct (keqb alpha 0), (keqb beta 0); rewrite ?cols_sc; simpl; tauto.
  Qed.

  Lemma esum_addE alpha beta EA EB k : esum (addE alpha beta EA EB) k = alpha * esum EA k + beta * esum EB k.
  Proof.
    unfold addE. rewrite esum_app.
    assert (X : forall a E, esum (if keqb a 0 then [] else sc a E) k = a * esum E k).
    { intros a E. destruct (keqb a 0) eqn:Ea.
      - apply keqb_spec in Ea. subst. simpl. ring.
      - unfold sc. apply esum_scale. }
    rewrite !X. auto.
  Qed.

  Lemma acc_sc (N i : nat) a E cs f s : accd 0 N cs f s -> (forall k, In k (cols E) -> (k < N)%nat) ->
    wp (forM E (fun kv s => ws_acc 0 kadd i (fst kv) (a * snd kv) s) s)
       (accd 0 N (cs ++ cols (sc a E)) (fun k => f k + esum (sc a E) k)).
  Proof.
    intros H Hr.
    assert (E0 : forM E (fun kv s => ws_acc 0 kadd i (fst kv) (a * snd kv) s) s =
                 forM (sc a E) (fun kv s => ws_acc 0 kadd i (fst kv) (snd kv) s) s).
    { unfold sc. rewrite forM_map. auto. }
    rewrite E0. apply accd_loop; auto. rewrite cols_sc. auto.
  Qed.

  Lemma add_row_ok (keep : F -> bool) alpha beta (A B : ell) i w :
    let EA := erow A i in let EB := erow B i in
    shape A -> (i < eN A)%nat -> (nnz A i <= eM A)%nat ->
    shape B -> (i < eN B)%nat -> (nnz B i <= eM B)%nat ->
    (forall k, In k (cols EA) -> (k < eN A)%nat) -> (forall k, In k (cols EB) -> (k < eN A)%nat) ->
    (length (addrow keep alpha beta EA EB) <= eM A)%nat ->
    clean (eN A) w ->
    wp (add_row keep alpha beta B i (A, w))
       (fun r => upd_row A (fst r) i (addrow keep alpha beta EA EB) /\ clean (eN A) (snd r)).
  Proof.
    intros EA EB HsA HiA HnA HsB HiB HnB HrA HrB Hcap Hcl.
    unfold add_row.
    assert (H1 : wp (if keqb alpha 0 then Ok (w, 0%nat)
           else e_for_row A i (fun k v s => ws_acc 0 kadd i k (alpha * v) s) (w, 0%nat))
           (accd 0 (eN A) ([] ++ cols (if keqb alpha 0 then [] else sc alpha EA))
              (fun k => 0 + esum (if keqb alpha 0 then [] else sc alpha EA) k))).
    { destruct (keqb alpha 0).
      - simpl. eapply accd_ext; [|apply accd_start; auto]. intros; simpl; ring.
      - rewrite e_for_row_eq by auto. apply acc_sc; auto. apply accd_start; auto. }
    apply wp_bind. eapply wp_mono; [exact H1|]. clear H1. intros s1 HA1.
    apply wp_bind.
    assert (H2 : wp (if keqb beta 0 then Ok s1
           else e_for_row B i (fun k v s => ws_acc 0 kadd i k (beta * v) s) s1)
           (accd 0 (eN A) (cols (addE alpha beta EA EB)) (esum (addE alpha beta EA EB)))).
    { assert (X : wp (if keqb beta 0 then Ok s1
           else e_for_row B i (fun k v s => ws_acc 0 kadd i k (beta * v) s) s1)
           (accd 0 (eN A) (([] ++ cols (if keqb alpha 0 then [] else sc alpha EA)) ++
               cols (if keqb beta 0 then [] else sc beta EB))
              (fun k => (0 + esum (if keqb alpha 0 then [] else sc alpha EA) k) +
                        esum (if keqb beta 0 then [] else sc beta EB) k))).
      { destruct (keqb beta 0).
        - simpl wpq. rewrite app_nil_r. eapply accd_ext; [|exact HA1]. intros; simpl; ring.
        - rewrite e_for_row_eq by auto. apply acc_sc; auto. }
      eapply wp_mono; [exact X|]. intros s2 Hs2. unfold addE. rewrite cols_app.
      eapply accd_ext; [|exact Hs2]. intros k. rewrite esum_app. ring. }
    eapply wp_mono; [exact H2|]. clear H2. intros [w2 l] HA2.
    rewrite e_wnnz_ok by auto. cbn [bind].
    apply wp_bind.
    eapply wp_mono; [apply (ws_gather_ok 0 kadd (eN A) (fun x : F => x) (fun _ x => keep x) (fun _ _ t => t)
        (cols (addE alpha beta EA EB)) (esum (addE alpha beta EA EB))); auto|].
    - apply shape_wnnzp; auto.
    - intros [[[A' w'] t'] ll] (HM & Hc & _ & Hl).
      assert (HM2 : rowpre A A' i (addrow keep alpha beta EA EB)).
      { eapply rowpre_rowpre_start; [apply rowpre_wnnz_start; auto|exact HM]. }
      destruct (rowpre_finish _ _ _ _ HM2 HiA) as [E1 E2].
      subst ll. fold (addrow keep alpha beta EA EB). rewrite E1. simpl. auto.
  Qed.

  Lemma elook_addrow keep alpha beta EA EB j : NoDup (cols EA) -> NoDup (cols EB) ->
    elook (addrow keep alpha beta EA EB) j = cut keep (alpha * elook EA j + beta * elook EB j).
  Proof.
    intros HA HB. unfold addrow. rewrite elook_kept by (intros; apply esum_notin; auto).
    rewrite esum_addE, !esum_elook by auto. auto.
  Qed.

  Lemma addrow_fits keep alpha beta EA EB N M :
    NoDup (cols EA) -> NoDup (cols EB) ->
    (forall k, In k (cols EA) -> (k < N)%nat) -> (forall k, In k (cols EB) -> (k < N)%nat) ->
    (count N (fun j => keep (kadd (kmul alpha (elook EA j)) (kmul beta (elook EB j)))) <= M)%nat ->
    row_ok N M (addrow keep alpha beta EA EB).
  Proof.
    intros HA HB HrA HrB Hc. unfold addrow.
    assert (Hr : forall k, In k (cols (addE alpha beta EA EB)) -> (k < N)%nat).
    { intros k Hk. apply cols_addE in Hk as [Hk|Hk]; auto. }
    apply kept_row_ok; auto. apply (kept_fits (fun _ x => keep x) _ _ N); auto.
    eapply Nat.le_trans; [|exact Hc]. apply Nat.eq_le_incl. unfold count. f_equal.
    apply filter_ext. intros k. rewrite esum_addE, !esum_elook by auto. auto.
  Qed.

  Lemma ell_add_ok keep alpha beta (A B : ell) sched :
    wf A -> wf B -> eN A = eN B -> Permutation (map snd sched) (seq 0 (eN A)) ->
    fits (eN A) (eM A) keep (madd (mscale alpha (emat A)) (mscale beta (emat B))) ->
    exists A', ell_add keep alpha beta A B sched = Ok A' /\ same_dims A A' /\ wf A' /\
      (forall i, (i < eN A)%nat -> erow A' i = addrow keep alpha beta (erow A i) (erow B i)).
  Proof.
    intros HA HB HN HP Hf. pose proof HA as [HsA HrA]. pose proof HB as [HsB HrB].
    assert (Hok : forall i, (i < eN A)%nat -> row_ok (eN A) (eM A) (addrow keep alpha beta (erow A i) (erow B i))).
    { intros i Hi. destruct (HrA i Hi) as (A1 & A2 & A3).
      destruct (HrB i) as (B1 & B2 & B3); [congruence|]. apply addrow_fits; auto.
      - rewrite HN; auto.
      - apply (Hf i Hi). }
    apply wp_ok. unfold ell_add. apply wp_bind.
    eapply wp_mono.
    - apply (par_all A sched _ _ (fun i => addrow keep alpha beta (erow A i) (erow B i)) (clean (eN A))); auto.
      + intros. apply wf_nnz; auto.
      + intros. apply clean_new.
      + intros i Hi. apply Hok; auto.
      + intros i A1 w Hi [D1 D2] Hs1 HE Hc.
        destruct (HrA i Hi) as (R1 & R2 & R3).
        destruct (HrB i) as (B1 & B2 & B3); [congruence|].
        assert (Hn1 : (nnz A1 i <= eM A)%nat) by (rewrite <- erow_length, HE; auto).
        assert (HiB : (i < eN B)%nat) by congruence.
        assert (HnB := wf_nnz B i HB HiB).
        assert (Hk := proj1 (Hok i Hi)). rewrite <- HN in B3.
        eapply wp_mono; [apply add_row_ok; rewrite ?HE, <- ?D1, <- ?D2; auto|].
        * rewrite HE, <- D1. auto.
    - intros [A' w] (D & Hs & Hr & _). simpl in *. split; [auto|]. split; [|auto].
      apply (wf_rows A A' _ D Hs Hr). auto.
  Qed.

  Lemma ell_add_self_ok keep alpha beta (A : ell) sched :
    wf A -> Permutation (map snd sched) (seq 0 (eN A)) ->
    fits (eN A) (eM A) keep (madd (mscale alpha (emat A)) (mscale beta (emat A))) ->
    exists A', ell_add_self keep alpha beta A sched = Ok A' /\ same_dims A A' /\ wf A' /\
      (forall i, (i < eN A)%nat -> erow A' i = addrow keep alpha beta (erow A i) (erow A i)).
  Proof.
    intros HA HP Hf. pose proof HA as [HsA HrA].
    assert (Hok : forall i, (i < eN A)%nat -> row_ok (eN A) (eM A) (addrow keep alpha beta (erow A i) (erow A i))).
    { intros i Hi. destruct (HrA i Hi) as (A1 & A2 & A3). apply addrow_fits; auto. apply (Hf i Hi). }
    apply wp_ok. unfold ell_add_self. apply wp_bind.
    eapply wp_mono.
    - apply (par_all A sched _ _ (fun i => addrow keep alpha beta (erow A i) (erow A i)) (clean (eN A))); auto.
      + intros. apply wf_nnz; auto.
      + intros. apply clean_new.
      + intros i Hi. apply Hok; auto.
      + intros i A1 w Hi [D1 D2] Hs1 HE Hc.
        destruct (HrA i Hi) as (R1 & R2 & R3). simpl fst.
        assert (Hn : (nnz A1 i <= eM A)%nat) by (rewrite <- erow_length, HE; auto).
        assert (Hk := proj1 (Hok i Hi)).
        eapply wp_mono; [apply add_row_ok; rewrite ?HE, <- ?D1, <- ?D2; auto|].
        * rewrite HE, <- D1. auto.
    - intros [A' w] (D & Hs & Hr & _). simpl in *. split; [auto|]. split; [|auto].
      apply (wf_rows A A' _ D Hs Hr). auto.
  Qed.

  (** ** add_norm *)
  Definition psum (E : list (nat * (F * F))) (k : nat) : F * F :=
    fold_right (fun kv acc => if fst kv =? k then padd (snd kv) acc else acc) (0, 0) E.

  Lemma padd_assoc (a b c : F * F) : padd a (padd b c) = padd (padd a b) c.
  Proof. unfold padd; simpl. f_equal; ring. Qed.
  Lemma padd_0_l (a : F * F) : padd (0, 0) a = a.
  Proof. destruct a. unfold padd; simpl. f_equal; ring. Qed.
  Lemma padd_0_r (a : F * F) : padd a (0, 0) = a.
  Proof. destruct a. unfold padd; simpl. f_equal; ring. Qed.

  Lemma psum_app E1 E2 k : psum (E1 ++ E2) k = padd (psum E1 k) (psum E2 k).
  Proof.
    induction E1 as [|[q v] E1 IH]; simpl.
    - rewrite padd_0_l. auto.
    - destruct (q =? k); auto. rewrite IH, padd_assoc. auto.
  Qed.

  Lemma psum_notin E k : ~ In k (map fst E) -> psum E k = (0, 0).
  Proof.
    induction E as [|[q v] E IH]; simpl; auto. intros H.
    destruct (Nat.eqb_spec q k); [exfalso; auto|]. auto.
  Qed.

  Lemma accd_loop2 N (E : list (nat * (F * F))) i s cs f :
    accd (0, 0) N cs f s -> (forall k, In k (map fst E) -> (k < N)%nat) ->
    wp (forM E (fun kv s => ws_acc (0, 0) padd i (fst kv) (snd kv) s) s)
       (accd (0, 0) N (cs ++ map fst E) (fun k => padd (f k) (psum E k))).
  Proof.
    intros H HN.
    apply (forM_inv (fun pre s => accd (0, 0) N (cs ++ map fst pre) (fun k => padd (f k) (psum pre k)) s)).
    - simpl. rewrite app_nil_r. eapply accd_ext; [|exact H]. intros; simpl. rewrite padd_0_r; auto.
    - intros pre [k v] post s' HE HP. simpl.
      eapply wp_mono; [apply (ws_acc_ok (0, 0) padd N (cs ++ map fst pre)); eauto|].
      * apply HN. rewrite HE. rewrite map_app. apply in_app_iff. right; left; auto.
      * intros s'' H''. rewrite map_app. simpl. rewrite app_assoc.
        eapply accd_ext; [|exact H'']. intros q. simpl. unfold upd_fun.
        rewrite psum_app. simpl. rewrite Nat.eqb_sym.
        destruct (Nat.eqb_spec k q) as [->|]; simpl; rewrite ?padd_0_r; auto. rewrite padd_assoc; auto.
  Qed.

  Definition normE (alpha beta : F) (EA EB : list (nat * F)) : list (nat * (F * F)) :=
    map (fun kv => (fst kv, (alpha * snd kv, snd kv))) EA ++ map (fun kv => (fst kv, (beta * snd kv, - snd kv))) EB.

  Lemma psum_normE alpha beta EA EB k :
    psum (normE alpha beta EA EB) k = (alpha * esum EA k + beta * esum EB k, esum EA k - esum EB k).
  Proof.
    unfold normE. rewrite psum_app.
    assert (X : forall a b E, psum (map (fun kv : nat * F => (fst kv, (a * snd kv, b * snd kv))) E) k = (a * esum E k, b * esum E k)).
    { intros a b. induction E as [|[q v] E IH]; simpl.
      - f_equal; ring.
      - destruct (q =? k); auto. rewrite IH. unfold padd; simpl. f_equal; ring. }
    rewrite (map_ext (fun kv => (fst kv, (alpha * snd kv, snd kv))) (fun kv => (fst kv, (alpha * snd kv, 1 * snd kv)))).
    2:{ intros [q v]; simpl. repeat f_equal; ring. }
    rewrite (map_ext (fun kv => (fst kv, (beta * snd kv, - snd kv))) (fun kv => (fst kv, (beta * snd kv, - (1) * snd kv)))).
    2:{ intros [q v]; simpl. repeat f_equal; ring. }
    rewrite !X. unfold padd; simpl. f_equal; ring.
  Qed.

  Lemma fst_normE alpha beta EA EB : map fst (normE alpha beta EA EB) = cols EA ++ cols EB.
  Proof. unfold normE, cols. rewrite map_app, !map_map. auto. Qed.

  Definition normrow (keep : F -> bool) alpha beta EA EB : list (nat * F) :=
    kept fst (fun _ x => keep x) (cols EA ++ cols EB) (psum (normE alpha beta EA EB)).

  Lemma add_norm_row_ok (keep : F -> bool) alpha beta (A B : ell) i w tr :
    let EA := erow A i in let EB := erow B i in
    shape A -> (i < eN A)%nat -> (nnz A i <= eM A)%nat ->
    shape B -> (i < eN B)%nat -> (nnz B i <= eM B)%nat ->
    (forall k, In k (cols EA) -> (k < eN A)%nat) -> (forall k, In k (cols EB) -> (k < eN A)%nat) ->
    (length (normrow keep alpha beta EA EB) <= eM A)%nat ->
    clean (eN A) w ->
    wp (add_norm_row keep alpha beta B i (A, (w, tr)))
       (fun r => upd_row A (fst r) i (normrow keep alpha beta EA EB) /\ clean (eN A) (fst (snd r)) /\
          snd (snd r) = tr + bigsum (eN A) (fun k => (esum EA k - esum EB k) * (esum EA k - esum EB k))).
  Proof.
    intros EA EB HsA HiA HnA HsB HiB HnB HrA HrB Hcap Hcl.
    unfold add_norm_row.
    rewrite e_for_row_eq by auto.
    assert (X : forall g E s cs f, accd (0,0) (eN A) cs f s -> (forall k, In k (cols E) -> (k < eN A)%nat) ->
      wp (forM E (fun kv s => ws_acc (0,0) padd i (fst kv) (g (snd kv)) s) s)
       (accd (0, 0) (eN A) (cs ++ cols E) (fun k => padd (f k) (psum (map (fun kv : nat * F => (fst kv, g (snd kv))) E) k)))).
    { intros g E s cs f H1 H2.
      assert (E0 : forM E (fun kv s => ws_acc (0,0) padd i (fst kv) (g (snd kv)) s) s =
                 forM (map (fun kv => (fst kv, g (snd kv))) E) (fun kv s => ws_acc (0,0) padd i (fst kv) (snd kv) s) s).
      { rewrite forM_map. auto. }
      rewrite E0. eapply wp_mono; [apply (accd_loop2 (eN A)); eauto|].
      - rewrite map_map; auto.
      - rewrite map_map. auto. }
    apply wp_bind.
    eapply wp_mono; [apply (X (fun v => (alpha * v, v)) (erow A i)); auto; apply accd_start; eauto|].
    intros s1 HA1. rewrite e_for_row_eq by auto. apply wp_bind.
    eapply wp_mono; [apply (X (fun v => (beta * v, - v)) (erow B i)); eauto|].
    intros [w2 l] HA2.
    assert (HA3 : accd (0,0) (eN A) (cols EA ++ cols EB) (psum (normE alpha beta EA EB)) (w2, l)).
    { eapply accd_ext; [|exact HA2]. intros k. unfold normE. rewrite psum_app, padd_0_l. auto. }
    clear HA2. rewrite e_wnnz_ok by auto. cbn [bind]. apply wp_bind.
    eapply wp_mono; [apply (ws_gather_ok (0,0) padd (eN A) fst (fun _ x => keep x) (fun _ xy t => t + snd xy * snd xy)
        (cols EA ++ cols EB) (psum (normE alpha beta EA EB))); auto|].
    - apply shape_wnnzp; auto.
    - intros [[[A' w'] t'] ll] (HM & Hc & Ht & Hl).
      assert (HM2 : rowpre A A' i (normrow keep alpha beta EA EB)).
      { eapply rowpre_rowpre_start; [apply rowpre_wnnz_start; auto|exact HM]. }
      destruct (rowpre_finish _ _ _ _ HM2 HiA) as [E1 E2].
      subst ll. fold (normrow keep alpha beta EA EB). rewrite E1. simpl.
      split; [auto|]. split; [auto|]. rewrite Ht.
      set (f := fun k => (esum EA k - esum EB k) * (esum EA k - esum EB k)).
      assert (G : forall L t, fold_left (fun t k => t + snd (psum (normE alpha beta EA EB) k) * snd (psum (normE alpha beta EA EB) k)) L t
                 = t + lsum (map f L)).
      { induction L as [|k L IH]; intros t; simpl; [ring|]. rewrite IH, psum_normE. simpl. unfold f. ring. }
      rewrite G. f_equal.
      assert (Hd : NoDup (dd (cols EA ++ cols EB))) by apply NoDup_dd.
      assert (Y := lsum_entries (map (fun k => (k, f k)) (dd (cols EA ++ cols EB))) (eN A) (fun k v => v)).
      rewrite map_map in Y. simpl in Y. change (map (fun x => f x)) with (map f) in Y. rewrite Y.
      + apply bigsum_ext. intros k Hk.
        destruct (in_dec Nat.eq_dec k (dd (cols EA ++ cols EB))) as [Hin|Hnin].
        * apply elook_in; [rewrite cols_map_pair; auto|]. apply in_map_iff. eauto.
        * rewrite elook_notin by (rewrite cols_map_pair; auto). rewrite in_dd, in_app_iff in Hnin.
          unfold f. rewrite !esum_notin by tauto. ring.
      + rewrite cols_map_pair; auto.
      + rewrite cols_map_pair. intros k Hk. rewrite in_dd, in_app_iff in Hk. destruct Hk; auto.
      + auto.
  Qed.

  Lemma elook_kept_gen {V} (zero : V) (proj : V -> F) kc cs (f : nat -> V) j :
    proj zero = 0 -> (forall k, ~ In k cs -> f k = zero) ->
    elook (kept proj kc cs f) j = if kc j (proj (f j)) then proj (f j) else 0.
  Proof.
    intros Hp Hz.
    assert (E : kept proj kc cs f = kept (fun x => x) kc cs (fun k => proj (f k))) by reflexivity.
    rewrite E. apply (elook_kept kc cs (fun k => proj (f k)) j). intros k Hk. rewrite Hz; auto.
  Qed.

  Lemma elook_normrow keep alpha beta EA EB j : NoDup (cols EA) -> NoDup (cols EB) ->
    elook (normrow keep alpha beta EA EB) j = cut keep (alpha * elook EA j + beta * elook EB j).
  Proof.
    intros HA HB. unfold normrow. rewrite (elook_kept_gen (0,0)); auto.
    - rewrite psum_normE, !esum_elook by auto. auto.
    - intros k Hk. apply psum_notin. rewrite fst_normE. auto.
  Qed.

  Lemma normrow_fits keep alpha beta EA EB N M :
    NoDup (cols EA) -> NoDup (cols EB) ->
    (forall k, In k (cols EA) -> (k < N)%nat) -> (forall k, In k (cols EB) -> (k < N)%nat) ->
    (count N (fun j => keep (kadd (kmul alpha (elook EA j)) (kmul beta (elook EB j)))) <= M)%nat ->
    row_ok N M (normrow keep alpha beta EA EB).
  Proof.
    intros HA HB HrA HrB Hc.
    assert (E : normrow keep alpha beta EA EB = kept (fun x => x) (fun _ x => keep x) (cols EA ++ cols EB)
       (fun k => fst (psum (normE alpha beta EA EB) k))) by reflexivity.
    rewrite E.
    assert (Hr : forall k, In k (cols EA ++ cols EB) -> (k < N)%nat).
    { intros k Hk. apply in_app_iff in Hk as [Hk|Hk]; auto. }
    apply kept_row_ok; auto. apply (kept_fits (fun _ x => keep x) _ _ N); auto.
    eapply Nat.le_trans; [|exact Hc]. apply Nat.eq_le_incl. unfold count. f_equal.
    apply filter_ext. intros k. rewrite psum_normE, !esum_elook by auto. auto.
  Qed.

  Lemma ell_add_norm_ok keep alpha beta (A B : ell) nth sched :
    wf A -> wf B -> eN A = eN B -> full_sched (eN A) nth sched ->
    fits (eN A) (eM A) keep (madd (mscale alpha (emat A)) (mscale beta (emat B))) ->
    exists A', ell_add_norm keep alpha beta A B nth sched =
        Ok (A', bigsum (eN A) (fun i => bigsum (eN A) (fun j =>
                 (emat A i j - emat B i j) * (emat A i j - emat B i j)))) /\
      same_dims A A' /\ wf A' /\
      (forall i, (i < eN A)%nat -> erow A' i = normrow keep alpha beta (erow A i) (erow B i)).
  Proof.
    intros HA HB HN [HP Hth] Hf. pose proof HA as [HsA HrA]. pose proof HB as [HsB HrB].
    assert (Hok : forall i, (i < eN A)%nat -> row_ok (eN A) (eM A) (normrow keep alpha beta (erow A i) (erow B i))).
    { intros i Hi. destruct (HrA i Hi) as (A1 & A2 & A3).
      destruct (HrB i) as (B1 & B2 & B3); [congruence|]. apply normrow_fits; auto.
      - rewrite HN; auto.
      - apply (Hf i Hi). }
    cut (wp (ell_add_norm keep alpha beta A B nth sched) (fun r =>
       same_dims A (fst r) /\ wf (fst r) /\
      (forall i, (i < eN A)%nat -> erow (fst r) i = normrow keep alpha beta (erow A i) (erow B i)) /\
      snd r = bigsum (eN A) (fun i => bigsum (eN A) (fun j => (emat A i j - emat B i j) * (emat A i j - emat B i j))))).
    { intros H. apply wp_ok in H as ([A' x] & E & H1 & H2 & H3 & H4). simpl in *. subst x. eauto 10. }
    unfold ell_add_norm. apply wp_bind.
    eapply wp_mono.
    - apply (par_all_red (Q := unit) A sched _ _ (fun i => normrow keep alpha beta (erow A i) (erow B i)) (fun w => clean (eN A) (fst w))
        (fun _ w => snd w)
        (fun _ i => bigsum (eN A) (fun j => (emat A i j - emat B i j) * (emat A i j - emat B i j))) nth); auto.
      + intros. apply wf_nnz; auto.
      + intros. apply clean_new.
      + intros i Hi. apply Hok; auto.
      + intros i A1 [w tr] Hi [D1 D2] Hs1 HE Hc. simpl in Hc.
        destruct (HrA i Hi) as (R1 & R2 & R3).
        destruct (HrB i) as (B1 & B2 & B3); [congruence|].
        assert (Hn1 : (nnz A1 i <= eM A)%nat) by (rewrite <- erow_length, HE; auto).
        assert (HiB : (i < eN B)%nat) by congruence.
        assert (HnB := wf_nnz B i HB HiB).
        assert (Hk := proj1 (Hok i Hi)). rewrite <- HN in B3.
        eapply wp_mono; [apply add_norm_row_ok; rewrite ?HE, <- ?D1, <- ?D2; auto|].
        * rewrite HE, <- D1. simpl. intros r (H1 & H2 & H3). split; [auto|]. split; [auto|].
          intros _. rewrite H3. f_equal. apply bigsum_ext. intros k Hkk. rewrite !esum_elook by auto. auto.
    - intros [A' w] (D & Hs & Hr & Hsum). simpl in *. split; [auto|]. split; [|split; auto].
      + apply (wf_rows A A' _ D Hs Hr). auto.
      + unfold reduce_sum. rewrite (Hsum tt). rewrite bigsum_zero by auto. ring.
  Qed.
End EllpackArith.
