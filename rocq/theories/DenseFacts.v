(** Proofs about the dense format (DenseModel). *)
From Verif Require Import Base BaseFacts Spec SpecFacts EllpackModel EllpackSpec EllpackFacts EllpackOps EllpackArith GemmModel DenseModel DenseSpec GemmFacts.
From Coq Require Import Ring.

Lemma par_do_forM {S} sched (body : nat -> S -> res S) (s : S) :
  par_do sched body s = forM (map snd sched) body s.
Proof.
  unfold par_do.
  assert (G : forall w : nat -> unit, (exists w', par_for sched (fun i '(s, w) => s0 <- body i s ;; Ok (s0, w)) s w
     = (s1 <- forM (map snd sched) body s ;; Ok (s1, w')))).
  { revert s. induction sched as [|[t i] l IH]; intros s w; simpl.
    - exists w. reflexivity.
    - destruct (body i s) as [s'| | |] eqn:E; cbn [bind]; try (exists w; reflexivity). apply IH. }
  destruct (G (fun _ => tt)) as (w' & E). rewrite E.
  destruct (forM (map snd sched) body s); reflexivity.
Qed.

Lemma perm_nodup_seq l n : Permutation l (seq 0 n) -> NoDup l /\ forall i, In i l <-> i < n.
Proof.
  intros H. split.
  - eapply Permutation_NoDup; [apply Permutation_sym, H|apply seq_NoDup].
  - intros i. rewrite H, in_seq. lia.
Qed.

Lemma existsb_in x l : existsb (Nat.eqb x) l = true <-> In x l.
Proof.
  rewrite existsb_exists. split.
  - intros (y & Hy & E). apply Nat.eqb_eq in E. subst; auto.
  - intros H. exists x. split; auto. apply Nat.eqb_refl.
Qed.

Lemma set_nth_same {A} (l : list A) i d : set_nth l i (nth i l d) = l.
Proof. revert i; induction l as [|x l IH]; intros [|i]; simpl; auto. f_equal. auto. Qed.

Lemma rowmajor_inj N a b a' b' : b < N -> b' < N -> a * N + b = a' * N + b' -> a = a' /\ b = b'.
Proof.
  intros H H' E. assert (a = a').
  { assert ((b + a * N) / N = (b' + a' * N) / N) by (f_equal; lia).
    rewrite !Nat.div_add, !Nat.div_small in H0 by lia. lia. }
  subst. split; [auto|lia].
Qed.

Section DenseFacts.
  Context {F : scalar}.
  Local Open Scope K_scope.
  Add Ring KringD : (k_ring F).
  Local Notation dense := (dense F).

  Lemma d_at_ok (A : dense) i j : dwf A -> (i < dN A)%nat -> (j < dN A)%nat -> d_at A i j = Ok (denm A i j).
  Proof. intros H Hi Hj. unfold d_at, denm, ROWMAJOR. apply rd_ok. rewrite H. nia. Qed.

  Lemma d_put_ok (A : dense) i j v : dwf A -> (i < dN A)%nat -> (j < dN A)%nat ->
    d_put A i j v = Ok (mkDense (dN A) (set_nth (dmx A) (i * dN A + j)%nat v)).
  Proof. intros H Hi Hj. unfold d_put, ROWMAJOR. rewrite wr_ok by (rewrite H; nia). auto. Qed.

  Lemma d_put_wp {e} (A : dense) i j v (Q : dense -> Prop) : dwf A -> (i < dN A)%nat -> (j < dN A)%nat ->
    (forall A', dwf A' -> dN A' = dN A ->
       (forall a b, (a < dN A)%nat -> (b < dN A)%nat -> denm A' a b = if ((a =? i) && (b =? j))%nat then v else denm A a b) -> Q A') ->
    wpq e (d_put A i j v) Q.
  Proof.
    intros H Hi Hj HQ. rewrite d_put_ok by auto. simpl. apply HQ; simpl; auto.
    - unfold dwf in *. simpl. rewrite length_set_nth. auto.
    - intros a b Ha Hb. unfold denm. simpl. rewrite nth_set_nth.
      replace (i * dN A + j <? length (dmx A))%nat with true by (symmetry; apply Nat.ltb_lt; rewrite H; nia).
      destruct (Nat.eqb_spec a i) as [->|Hne]; [destruct (Nat.eqb_spec b j) as [->|Hne]|]; simpl.
      + rewrite Nat.eqb_refl. auto.
      + destruct (Nat.eqb_spec (i * dN A + b) (i * dN A + j)); simpl; [lia|auto].
      + destruct (Nat.eqb_spec (a * dN A + b) (i * dN A + j)) as [E|E]; simpl; auto.
        apply rowmajor_inj in E; intuition.
  Qed.

  (** A double loop that writes each cell of a grid at most once. *)
  Lemma grid_ok (A : dense) (rows : list nat) (cl : nat -> list nat) (h : nat -> nat -> F -> F) (body : nat -> nat -> dense -> res dense) :
    dwf A -> NoDup rows -> (forall i, In i rows -> (i < dN A)%nat) ->
    (forall i, In i rows -> NoDup (cl i) /\ forall j, In j (cl i) -> (j < dN A)%nat) ->
    (forall i j A', In i rows -> In j (cl i) -> dwf A' -> dN A' = dN A -> denm A' i j = denm A i j ->
       (forall a b, (a < dN A)%nat -> (b < dN A)%nat -> ~ (In a rows /\ In b (cl a)) -> denm A' a b = denm A a b) ->
       body i j A' = d_put A' i j (h i j (denm A i j))) ->
    exists A', forM rows (fun i A => forM (cl i) (fun j A => body i j A) A) A = Ok A' /\ dwf A' /\ dN A' = dN A /\
      forall a b, (a < dN A)%nat -> (b < dN A)%nat ->
        denm A' a b = if (existsb (Nat.eqb a) rows && existsb (Nat.eqb b) (cl a))%bool then h a b (denm A a b) else denm A a b.
  Proof.
    intros HA Hnd Hrows Hcl Hbody. apply wp_ok.
    apply (wp_mono _ (fun A' => dwf A' /\ dN A' = dN A /\
      forall a b, (a < dN A)%nat -> (b < dN A)%nat ->
        denm A' a b = if (existsb (Nat.eqb a) rows && existsb (Nat.eqb b) (cl a))%bool then h a b (denm A a b) else denm A a b)); [|auto].
    apply (forM_inv (fun pre A' => dwf A' /\ dN A' = dN A /\
      forall a b, (a < dN A)%nat -> (b < dN A)%nat ->
        denm A' a b = if (existsb (Nat.eqb a) pre && existsb (Nat.eqb b) (cl a))%bool then h a b (denm A a b) else denm A a b)).
    { repeat split; auto. }
    intros pre i post A1 E (H1 & H2 & H3).
    assert (Hi : In i rows) by (rewrite E; apply in_app_iff; right; left; auto).
    assert (Hip : ~ In i pre).
    { rewrite E in Hnd. apply NoDup_app_inv in Hnd as (_ & _ & Hd). intros Hx. apply (Hd i Hx). left; auto. }
    destruct (Hcl i Hi) as [Hcn Hcb].
    assert (Hib : (i < dN A)%nat) by auto.
    apply (wp_mono _ (fun A' => dwf A' /\ dN A' = dN A /\
      forall a b, (a < dN A)%nat -> (b < dN A)%nat ->
        denm A' a b = if ((a =? i)%nat && existsb (Nat.eqb b) (cl i))%bool then h i b (denm A i b) else denm A1 a b)).
    2:{ intros A2 (K1 & K2 & K3). split; auto. split; auto. intros a b Ha Hb. rewrite K3 by auto.
        rewrite existsb_app. simpl. rewrite orb_false_r.
        destruct (Nat.eqb_spec a i) as [->|Hne]; simpl.
        - rewrite orb_true_r. simpl. destruct (existsb (Nat.eqb b) (cl i)) eqn:Eb; auto.
          rewrite H3, Eb, andb_false_r by auto. auto.
        - rewrite orb_false_r. apply H3; auto. }
    apply (forM_inv (fun cpre A' => dwf A' /\ dN A' = dN A /\
      forall a b, (a < dN A)%nat -> (b < dN A)%nat ->
        denm A' a b = if ((a =? i)%nat && existsb (Nat.eqb b) cpre)%bool then h i b (denm A i b) else denm A1 a b)).
    { split; auto. split; auto. intros a b Ha Hb. simpl. rewrite andb_false_r. auto. }
    intros cpre j cpost A2 Ec (K1 & K2 & K3).
    assert (Hj : In j (cl i)) by (rewrite Ec; apply in_app_iff; right; left; auto).
    assert (Hjp : ~ In j cpre).
    { rewrite Ec in Hcn. apply NoDup_app_inv in Hcn as (_ & _ & Hd). intros Hx. apply (Hd j Hx). left; auto. }
    assert (Hjb : (j < dN A)%nat) by auto.
    assert (Hij : denm A2 i j = denm A i j).
    { rewrite K3 by auto. rewrite Nat.eqb_refl. simpl.
      replace (existsb (Nat.eqb j) cpre) with false by (symmetry; apply not_true_is_false; rewrite existsb_in; auto).
      rewrite H3 by auto.
      replace (existsb (Nat.eqb i) pre) with false by (symmetry; apply not_true_is_false; rewrite existsb_in; auto). auto. }
    rewrite (Hbody i j A2); auto.
    - apply d_put_wp; [auto|rewrite K2; auto|rewrite K2; auto|].
      intros A3 L1 L2 L3. split; auto. split; [congruence|]. intros a b Ha Hb. rewrite K2 in L3. rewrite L3 by auto.
      rewrite existsb_app. simpl. rewrite orb_false_r.
      destruct (Nat.eqb_spec a i) as [->|Hne]; simpl.
      + destruct (Nat.eqb_spec b j) as [->|Hne]; simpl.
        * rewrite orb_true_r. auto.
        * rewrite orb_false_r. rewrite K3 by auto. rewrite Nat.eqb_refl. auto.
      + rewrite K3 by auto. destruct (Nat.eqb_spec a i); [congruence|]. auto.
    - intros a b Ha Hb Hn. rewrite K3 by auto.
      destruct (Nat.eqb_spec a i) as [->|Hne]; simpl.
      + destruct (existsb (Nat.eqb b) cpre) eqn:Eb.
        * exfalso. apply Hn. split; auto. apply existsb_in in Eb. rewrite Ec. apply in_app_iff. auto.
        * rewrite H3 by auto.
          replace (existsb (Nat.eqb i) pre) with false by (symmetry; apply not_true_is_false; rewrite existsb_in; auto). auto.
      + rewrite H3 by auto. destruct (existsb (Nat.eqb a) pre) eqn:Ea; simpl; auto.
        destruct (existsb (Nat.eqb b) (cl a)) eqn:Eb; auto. exfalso. apply Hn. apply existsb_in in Ea, Eb. split; auto.
        rewrite E. apply in_app_iff. auto.
  Qed.

  Lemma existsb_seq a n : (a < n)%nat -> existsb (Nat.eqb a) (seq 0 n) = true.
  Proof. intros H. apply existsb_in. apply in_seq. lia. Qed.

  (** ... and all cells when rows and columns are complete *)
  Lemma full_grid_ok (A : dense) (rows : list nat) (h : nat -> nat -> F -> F) (body : nat -> nat -> dense -> res dense) :
    dwf A -> Permutation rows (seq 0 (dN A)) ->
    (forall i j A', (i < dN A)%nat -> (j < dN A)%nat -> dwf A' -> dN A' = dN A -> denm A' i j = denm A i j ->
       body i j A' = d_put A' i j (h i j (denm A i j))) ->
    exists A', forM rows (fun i A0 => for_n (dN A) (fun j A => body i j A) A0) A = Ok A' /\ dwf A' /\ dN A' = dN A /\
      forall a b, (a < dN A)%nat -> (b < dN A)%nat -> denm A' a b = h a b (denm A a b).
  Proof.
    intros HA HP Hb. destruct (perm_nodup_seq _ _ HP) as [Hnd Hin].
    destruct (grid_ok A rows (fun _ => seq 0 (dN A)) h body) as (A' & E & H1 & H2 & H3); auto.
    - intros i Hi. apply Hin; auto.
    - intros i Hi. split; [apply seq_NoDup|]. intros j Hj. apply in_seq in Hj. lia.
    - intros i j A' Hi Hj. apply Hin in Hi. apply in_seq in Hj. intros. apply Hb; auto. lia.
    - exists A'. split; auto. split; auto. split; auto. intros a b Ha Hb'. rewrite H3 by auto.
      rewrite existsb_seq by auto. rewrite (proj2 (existsb_in a rows)) by (apply Hin; auto). auto.
  Qed.

  Lemma grid_seq_ok (A : dense) (h : nat -> nat -> F -> F) (body : nat -> nat -> dense -> res dense) :
    dwf A -> (forall i j A', (i < dN A)%nat -> (j < dN A)%nat -> dwf A' -> dN A' = dN A -> denm A' i j = denm A i j ->
       body i j A' = d_put A' i j (h i j (denm A i j))) ->
    exists A', for_n (dN A) (fun i A0 => for_n (dN A) (fun j A => body i j A) A0) A = Ok A' /\ dwf A' /\ dN A' = dN A /\
      forall a b, (a < dN A)%nat -> (b < dN A)%nat -> denm A' a b = h a b (denm A a b).
  Proof. intros HA Hb. apply (full_grid_ok A (seq 0 (dN A))); auto. Qed.

  (** A loop over flat positions *)
  Lemma flat_ok (l : list nat) n (h : nat -> F -> F) (body : nat -> list F -> res (list F)) (c : list F) :
    Permutation l (seq 0 n) -> (n <= length c)%nat ->
    (forall i c', (i < n)%nat -> length c' = length c -> nth i c' 0 = nth i c 0 -> body i c' = Ok (set_nth c' i (h i (nth i c 0)))) ->
    exists c', forM l body c = Ok c' /\ length c' = length c /\
      (forall i, (i < n)%nat -> nth i c' 0 = h i (nth i c 0)) /\ (forall i, (n <= i)%nat -> nth i c' 0 = nth i c 0).
  Proof.
    intros HP HL Hb. destruct (perm_nodup_seq _ _ HP) as [Hnd Hin].
    destruct (sweep_ok 0 (fun i => i) h body l c) as (c' & E & L & V & U).
    - rewrite map_id. auto.
    - intros i Hi. apply Hin in Hi. lia.
    - intros i c' Hi L E _. apply Hin in Hi. apply Hb; auto.
    - exists c'. split; auto. split; auto. split.
      + intros i Hi. apply V. apply Hin. auto.
      + intros i Hi. apply U. rewrite map_id. intros Hx. apply Hin in Hx. lia.
  Qed.

  Lemma par_sum_ok nth n sched (f : nat -> res F) (g : nat -> F) : full_sched n nth sched ->
    (forall i, (i < n)%nat -> f i = Ok (g i)) -> par_sum nth sched f = Ok (bigsum n g).
  Proof.
    intros [HP HT] Hf. unfold par_sum. apply wp_eq. apply wp_bind.
    eapply wp_mono; [apply (par_red sched _ (fun _ => 0) (fun _ => True) (fun x => x) g nth n)|]; auto.
    - intros i w Hi _. rewrite Hf by auto. simpl. auto.
    - intros [[] w] H. simpl. cbn [snd] in H. unfold reduce_sum. transitivity (bigsum nth (fun t => w t)); [reflexivity|]. rewrite H. rewrite (bigsum_zero nth (fun _ => 0)) by auto. ring.
  Qed.

  Lemma bigsum_flat N M (f : nat -> F) : bigsum (N * M) f = bigsum N (fun i => bigsum M (fun j => f (i * M + j)%nat)).
  Proof.
    induction N as [|N IH]; simpl; auto. rewrite <- IH. clear IH.
    rewrite Nat.add_comm. rewrite bigsum_split. auto.
  Qed.

  Lemma denm_flat (A : dense) i j : denm A i j = nth (i * dN A + j)%nat (dmx A) 0.
  Proof. reflexivity. Qed.
End DenseFacts.
