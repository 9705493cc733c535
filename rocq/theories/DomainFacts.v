(** Proofs about row domains. *)
From Verif Require Import Base BaseFacts Spec DomainModel DomainSpec.

Lemma nsum_mono f n m : n <= m -> nsum n f <= nsum m f.
Proof. induction 1; simpl; lia. Qed.

Lemma nsum_ext n f g : (forall i, i < n -> f i = g i) -> nsum n f = nsum n g.
Proof. induction n; simpl; intros H; auto. rewrite IHn, H; auto. Qed.

Lemma nsum_mul n f c : nsum n (fun i => f i * c) = nsum n f * c.
Proof. induction n; simpl; auto. rewrite IHn. lia. Qed.

(** the intervals [nsum i ext, nsum (S i) ext) partition [0, nsum P ext) *)
Lemma chain_find ext P r : r < nsum P ext -> exists i, i < P /\ nsum i ext <= r < nsum (S i) ext.
Proof.
  induction P; simpl; intros H; [lia|].
  destruct (Nat.lt_ge_cases r (nsum P ext)) as [L|L].
  - destruct (IHP L) as (i & Hi & Q). exists i. split; [lia|]. exact Q.
  - exists P. simpl. lia.
Qed.

Lemma chain_uniq ext i j r : nsum i ext <= r < nsum (S i) ext -> nsum j ext <= r < nsum (S j) ext -> i = j.
Proof.
  intros A B. destruct (Nat.lt_trichotomy i j) as [L|[L|L]]; auto.
  - pose proof (nsum_mono ext (S i) j L). lia.
  - pose proof (nsum_mono ext (S j) i L). lia.
Qed.

(** [d] holds the chain of extents [ext] *)
Definition chained (P M : nat) (ext : nat -> nat) (d : domain) : Prop :=
  dom_shape P d /\
  forall i, i < P ->
    nth i (localRowExtent d) 0 = ext i /\
    nth i (localRowMin d) 0 = nsum i ext /\ nth i (localRowMax d) 0 = nsum (S i) ext /\
    nth i (localElements d) 0 = ext i * M /\ nth i (localDispl d) 0 = nsum i ext * M.

Lemma chained_partition P M ext d :
  chained P M ext d ->
  dom_shape P d /\ dom_consistent P M d /\ dom_partition P (nsum P ext) d /\
  (forall i, i < P -> nth i (localDispl d) 0 = nth i (localRowMin d) 0 * M).
Proof.
  intros [S0 C]. split; [exact S0|]. split; [|split; [split|]].
  - intros i Hi. destruct (C i Hi) as (E & A & B & L & D). rewrite E, A, B, L. simpl. lia.
  - intros r Hr. destruct (chain_find _ _ _ Hr) as (i & Hi & Q). exists i. split; auto.
    destruct (C i Hi) as (E & A & B & L & D). split; [unfold owns; rewrite A, B; exact Q|].
    intros j Hj O. destruct (C j Hj) as (E' & A' & B' & L' & D'). unfold owns in O. rewrite A', B' in O.
    eapply chain_uniq; eauto.
  - intros i r Hi O. destruct (C i Hi) as (E & A & B & L & D). unfold owns in O. rewrite A, B in O.
    pose proof (nsum_mono ext (S i) P Hi). lia.
  - intros i Hi. destruct (C i Hi) as (E & A & B & L & D). rewrite D, A. reflexivity.
Qed.

(** ** Single writes *)
Ltac dsimp := cbn [totalRows totalCols localRowMin localRowMax localRowExtent localElements localDispl] in *.

Section Set_.
  Variable d : domain.
  Lemma set_min_ok i v : i < length (localRowMin d) ->
    set_min d i v = Ok (mkDomain (totalRows d) (totalCols d) (set_nth (localRowMin d) i v) (localRowMax d) (localRowExtent d) (localElements d) (localDispl d)).
  Proof. intros H. unfold set_min. rewrite wr_ok; auto. Qed.
  Lemma set_max_ok i v : i < length (localRowMax d) ->
    set_max d i v = Ok (mkDomain (totalRows d) (totalCols d) (localRowMin d) (set_nth (localRowMax d) i v) (localRowExtent d) (localElements d) (localDispl d)).
  Proof. intros H. unfold set_max. rewrite wr_ok; auto. Qed.
  Lemma set_ext_ok i v : i < length (localRowExtent d) ->
    set_ext d i v = Ok (mkDomain (totalRows d) (totalCols d) (localRowMin d) (localRowMax d) (set_nth (localRowExtent d) i v) (localElements d) (localDispl d)).
  Proof. intros H. unfold set_ext. rewrite wr_ok; auto. Qed.
  Lemma set_elems_ok i v : i < length (localElements d) ->
    set_elems d i v = Ok (mkDomain (totalRows d) (totalCols d) (localRowMin d) (localRowMax d) (localRowExtent d) (set_nth (localElements d) i v) (localDispl d)).
  Proof. intros H. unfold set_elems. rewrite wr_ok; auto. Qed.
  Lemma set_displ_ok i v : i < length (localDispl d) ->
    set_displ d i v = Ok (mkDomain (totalRows d) (totalCols d) (localRowMin d) (localRowMax d) (localRowExtent d) (localElements d) (set_nth (localDispl d) i v)).
  Proof. intros H. unfold set_displ. rewrite wr_ok; auto. Qed.
End Set_.

Ltac dset :=
  repeat (first [ rewrite set_min_ok by (dsimp; rewrite ?length_set_nth; lia)
                | rewrite set_max_ok by (dsimp; rewrite ?length_set_nth; lia)
                | rewrite set_ext_ok by (dsimp; rewrite ?length_set_nth; lia)
                | rewrite set_elems_ok by (dsimp; rewrite ?length_set_nth; lia)
                | rewrite set_displ_ok by (dsimp; rewrite ?length_set_nth; lia)
                | rewrite (rd_ok _ _ 0) by (dsimp; rewrite ?length_set_nth; lia) ];
          cbn [bind]; dsimp).
Ltac dshape := unfold dom_shape in *; dsimp; rewrite ?length_set_nth; tauto.
Ltac dnth := repeat first [rewrite nth_set_nth_eq by (rewrite ?length_set_nth; lia) | rewrite nth_set_nth_neq by lia].

(** ** Sequential *)
Lemma sequential_ok P N M d0 :
  dom_shape P d0 ->
  wp (dom_sequential P N M d0) (fun d => dom_shape P d /\ forall i, i < P ->
    nth i (localRowMin d) 0 = 0 /\ nth i (localRowMax d) 0 = N /\ nth i (localRowExtent d) 0 = N /\
    nth i (localElements d) 0 = N * M /\ nth i (localDispl d) 0 = 0).
Proof.
  intros S0. unfold dom_sequential.
  apply (for_n_inv (fun k d => dom_shape P d /\ forall i, i < k ->
    nth i (localRowMin d) 0 = 0 /\ nth i (localRowMax d) 0 = N /\ nth i (localRowExtent d) 0 = N /\
    nth i (localElements d) 0 = N * M /\ nth i (localDispl d) 0 = 0)).
  - split; auto. intros; lia.
  - intros k d Hk [S1 IH]. pose proof S1 as (L1 & L2 & L3 & L4 & L5). dset. dnth.
    simpl. split; [dshape|]. intros i Hi. dsimp.
    destruct (Nat.eq_dec i k) as [->|n]; dnth.
    + rewrite Nat.sub_0_r. auto.
    + apply IH. lia.
Qed.

(** ** Distributed *)
Definition even_ext (P N i : nat) : nat := N / P + (if i <? N mod P then 1 else 0).

Lemma nsum_const n c : nsum n (fun _ => c) = n * c.
Proof. induction n; simpl; auto. rewrite IHn. lia. Qed.

Lemma nsum_even P N k : k <= P -> nsum k (even_ext P N) = k * (N / P) + Nat.min k (N mod P).
Proof.
  induction k; intros H; [simpl; lia|]. cbn [nsum]. rewrite IHk by lia. unfold even_ext.
  generalize (N / P), (N mod P). intros q m. destruct (Nat.ltb_spec k m); nia.
Qed.

Lemma nsum_even_all P N : 0 < P -> nsum P (even_ext P N) = N.
Proof.
  intros H. rewrite nsum_even by lia. pose proof (Nat.mod_upper_bound N P).
  rewrite Nat.min_r by lia. pose proof (Nat.div_mod N P ltac:(lia)). lia.
Qed.

Lemma extents_ok P N d0 :
  0 < P -> dom_shape P d0 ->
  wp (dom_extents P N d0) (fun d => dom_shape P d /\ forall i, i < P -> nth i (localRowExtent d) 0 = even_ext P N i).
Proof.
  intros HP S0. unfold dom_extents. apply wp_bind.
  assert (ML : N - P * (N / P) = N mod P).
  { pose proof (Nat.div_mod N P ltac:(lia)). lia. }
  pose proof (Nat.mod_upper_bound N P ltac:(lia)) as MU.
  eapply wp_mono; [apply (for_n_inv (fun k d => dom_shape P d /\ forall i, i < k -> nth i (localRowExtent d) 0 = N / P))|].
  - split; auto. intros; lia.
  - intros k d Hk [S1 IH]. pose proof S1 as (L1 & L2 & L3 & L4 & L5). dset. simpl.
    split; [dshape|]. intros i Hi. dsimp.
    destruct (Nat.eq_dec i k) as [->|n]; dnth; auto. apply IH. lia.
  - intros d1 [S1 E1]. rewrite ML.
    eapply wp_mono; [apply (for_n_inv (fun k d => dom_shape P d /\ forall i, i < P ->
       nth i (localRowExtent d) 0 = N / P + (if i <? k then 1 else 0)))|].
    + split; auto. intros i Hi. rewrite E1 by auto. simpl. lia.
    + intros k d Hk [S2 IH]. pose proof S2 as (L1 & L2 & L3 & L4 & L5). dset. simpl.
      split; [dshape|]. intros i Hi. dsimp.
      destruct (Nat.eq_dec i k) as [->|n]; dnth.
      * rewrite IH by lia. rewrite Nat.ltb_irrefl. destruct (Nat.ltb_spec k (S k)); lia.
      * rewrite IH by lia. destruct (Nat.ltb_spec i k), (Nat.ltb_spec i (S k)); lia.
    + intros d [S2 E2]. split; auto.
Qed.

Definition prefix_chain (P k : nat) (ext : nat -> nat) (d : domain) : Prop :=
  dom_shape P d /\ (forall i, i < P -> nth i (localRowExtent d) 0 = ext i) /\
  forall i, i < k -> nth i (localRowMin d) 0 = nsum i ext /\ nth i (localRowMax d) 0 = nsum (S i) ext.

Lemma chain_step P k ext d :
  0 < k < P -> prefix_chain P k ext d -> wp (dom_chain_step k d) (prefix_chain P (S k) ext).
Proof.
  intros Hk (S1 & E & C). pose proof S1 as (L1 & L2 & L3 & L4 & L5). unfold dom_chain_step. dset. simpl.
  split; [dshape|]. split; [intros i Hi; dsimp; auto|].
  destruct (C (k - 1)) as [C1 C2]; [lia|]. replace (S (k - 1)) with k in C2 by lia.
  intros i Hi. dsimp. destruct (Nat.eq_dec i k) as [->|n]; dnth.
  - rewrite C2, E by lia. auto.
  - apply C. lia.
Qed.

Lemma chain_ok P ext d0 :
  0 < P -> dom_shape P d0 -> (forall i, i < P -> nth i (localRowExtent d0) 0 = ext i) ->
  wp (dom_chain P d0) (prefix_chain P P ext).
Proof.
  intros HP S0 E. pose proof S0 as (L1 & L2 & L3 & L4 & L5). unfold dom_chain. dset.
  apply wp_bind.
  eapply wp_mono; [apply (forM_inv (fun pre d => prefix_chain P (S (length pre)) ext d))|].
  - split; [dshape|]. split; [intros i Hi; dsimp; auto|]. intros i Hi. assert (i = 0) as -> by (simpl in Hi; lia).
    dsimp. dnth. rewrite E by lia. auto.
  - intros pre k post d Hsplit IH.
    assert (Hk : k = S (length pre)).
    { assert (Hn : nth (length pre) (seq 1 (P - 1 - 1)) 0 = k).
      { rewrite Hsplit. rewrite app_nth2, Nat.sub_diag; auto. }
      assert (Hl : length pre < P - 1 - 1).
      { rewrite <- (seq_length (P - 1 - 1) 1), Hsplit, app_length. simpl. lia. }
      rewrite seq_nth in Hn by auto. lia. }
    assert (Hl : length pre < P - 1 - 1).
    { rewrite <- (seq_length (P - 1 - 1) 1), Hsplit, app_length. simpl. lia. }
    rewrite app_length. replace (S (length pre + length [k])) with (S k) by (simpl; lia).
    apply chain_step; [lia|]. rewrite Hk. exact IH.
  - intros d IH. rewrite seq_length in IH.
    destruct (Nat.ltb_spec 1 P) as [L|L].
    + replace (prefix_chain P P ext) with (prefix_chain P (S (P - 1)) ext) by (f_equal; lia).
      apply chain_step; [lia|]. replace (P - 1) with (S (P - 1 - 1)) by lia. exact IH.
    + simpl. replace (S (P - 1 - 1)) with P in IH by lia. exact IH.
Qed.

Lemma displ_ok P M ext d0 :
  prefix_chain P P ext d0 -> wp (for_n P (dom_displ_step M) d0) (chained P M ext).
Proof.
  intros (S0 & E0 & C0).
  eapply wp_mono; [apply (for_n_inv (fun k d => prefix_chain P P ext d /\
     forall i, i < k -> nth i (localElements d) 0 = ext i * M /\ nth i (localDispl d) 0 = nsum i ext * M))|].
  - split; [split; auto|]. intros; lia.
  - intros k d Hk [(S1 & E & C) IH]. pose proof S1 as (L1 & L2 & L3 & L4 & L5). unfold dom_displ_step. dset.
    destruct (Nat.eqb_spec k 0) as [->|n0].
    + dset. simpl. split; [split; [dshape|split; auto]|].
      intros i Hi. assert (i = 0) as -> by lia. dsimp. dnth. rewrite E by lia. auto.
    + dset. simpl. split; [split; [dshape|split; auto]|].
      destruct (IH (k - 1)) as [I1 I2]; [lia|].
      intros i Hi. dsimp. destruct (Nat.eq_dec i k) as [->|n]; dnth.
      * rewrite I1, I2, E by lia. split; auto.
        replace k with (S (k - 1)) at 3 by lia. cbn [nsum]. lia.
      * apply IH. lia.
  - intros d [(S1 & E & C) L]. split; auto. intros i Hi. destruct (C i Hi), (L i Hi). rewrite E by auto. auto.
Qed.

Lemma default_domain_chained P N M d1 d2 d3 d4 d5 :
  0 < P -> length d1 = P -> length d2 = P -> length d3 = P -> length d4 = P -> length d5 = P ->
  wp (default_domain P N M Distributed d1 d2 d3 d4 d5) (fun d => chained P M (even_ext P N) d).
Proof.
  intros HP L1 L2 L3 L4 L5. unfold default_domain. destruct (Nat.eqb_spec P 0); [lia|].
  apply wp_bind. eapply wp_mono; [apply extents_ok; auto; repeat split; auto|].
  intros d [S1 E1]. apply wp_bind. eapply wp_mono; [apply chain_ok; eauto|].
  intros d' C. apply displ_ok. exact C.
Qed.

(** ** The theorems *)

Lemma default_distributed_partition P N M d1 d2 d3 d4 d5 :
  0 < P -> length d1 = P -> length d2 = P -> length d3 = P -> length d4 = P -> length d5 = P ->
  exists d, default_domain P N M Distributed d1 d2 d3 d4 d5 = Ok d /\
    dom_shape P d /\ dom_consistent P M d /\ dom_partition P N d /\
    (forall i, i < P -> nth i (localDispl d) 0 = nth i (localRowMin d) 0 * M) /\
    (forall i j, i < P -> j < P -> nth i (localRowExtent d) 0 <= nth j (localRowExtent d) 0 + 1).
Proof.
  intros HP L1 L2 L3 L4 L5. destruct (proj1 (wp_ok _ _) (default_domain_chained P N M _ _ _ _ _ HP L1 L2 L3 L4 L5)) as (d & H & C).
  exists d. split; auto. pose proof (chained_partition _ _ _ _ C) as Q. rewrite nsum_even_all in Q by auto.
  destruct Q as (Q1 & Q2 & Q3 & Q4). repeat (split; [assumption|]).
  destruct C as [_ C]. intros i j Hi Hj. destruct (C i Hi) as [-> _], (C j Hj) as [-> _]. unfold even_ext.
  destruct (_ <? _), (j <? _); lia.
Qed.

Lemma default_sequential_full P N M d1 d2 d3 d4 d5 :
  length d1 = P -> length d2 = P -> length d3 = P -> length d4 = P -> length d5 = P ->
  exists d, default_domain P N M Sequential d1 d2 d3 d4 d5 = Ok d /\
    dom_shape P d /\ dom_consistent P M d /\
    (forall i r, i < P -> owns d i r <-> r < N) /\
    (forall i, i < P -> nth i (localDispl d) 0 = 0).
Proof.
  intros L1 L2 L3 L4 L5. destruct (proj1 (wp_ok _ _) (sequential_ok P N M (mkDomain N M d1 d2 d3 d4 d5) ltac:(repeat split; auto))) as (d & H & S1 & C).
  exists d. split; [exact H|]. split; auto. split; [|split].
  - intros i Hi. destruct (C i Hi) as (A & B & D & E & G). rewrite A, B, D, E. lia.
  - intros i r Hi. destruct (C i Hi) as (A & B & D & E & G). unfold owns. rewrite A, B. lia.
  - intros i Hi. apply C; auto.
Qed.

(** total number of nodes of the parts lo .. hi (1-based, inclusive) *)
Definition part_nodes (nodes : list nat) (lo hi : nat) : nat :=
  nsum (hi - (lo - 1)) (fun q => nth (lo - 1 + q) nodes 0).

Lemma part_sum nodes lo hi :
  1 <= lo -> hi <= length nodes ->
  forM (seq (lo - 1) (hi - (lo - 1))) (fun j t => n <- rd nodes j ;; Ok (t + n)) 0 = Ok (part_nodes nodes lo hi).
Proof.
  intros Hlo Hhi. apply wp_eq. unfold part_nodes. set (n := hi - (lo - 1)).
  assert (Hn : lo - 1 + n <= length nodes \/ n = 0) by lia.
  clearbody n. generalize dependent n. intros n Hn.
  eapply wp_mono; [apply (forM_inv (fun pre t => t = nsum (length pre) (fun q => nth (lo - 1 + q) nodes 0)))|].
  - reflexivity.
  - intros pre j post t Hsplit ->.
    assert (Hl : length pre < n).
    { rewrite <- (seq_length n (lo - 1)), Hsplit, app_length. simpl. lia. }
    assert (Hj : j = lo - 1 + length pre).
    { assert (Hq : nth (length pre) (seq (lo - 1) n) 0 = j) by (rewrite Hsplit, app_nth2, Nat.sub_diag; auto).
      rewrite seq_nth in Hq by auto. lia. }
    rewrite (rd_ok _ _ 0) by lia. simpl. rewrite app_length, Nat.add_1_r. cbn [nsum]. rewrite Hj. reflexivity.
  - intros t ->. rewrite seq_length. reflexivity.
Qed.

Lemma update_chained P d0 pmin pmax nodes :
  dom_shape P d0 -> length pmin = P -> length pmax = P ->
  (forall i, i < P -> 1 <= nth i pmin 0 /\ nth i pmax 0 <= length nodes) ->
  wp (update_domain P d0 pmin pmax nodes)
     (fun d => totalCols d = totalCols d0 /\ chained P (totalCols d0) (fun i => part_nodes nodes (nth i pmin 0) (nth i pmax 0)) d).
Proof.
  intros S0 Lm Lx HB. set (ext := fun i => part_nodes nodes (nth i pmin 0) (nth i pmax 0)). unfold update_domain.
  eapply wp_mono; [apply (for_n_inv (fun k d => dom_shape P d /\ totalCols d = totalCols d0 /\ forall i, i < k ->
    nth i (localRowExtent d) 0 = ext i /\
    nth i (localRowMin d) 0 = nsum i ext /\ nth i (localRowMax d) 0 = nsum (S i) ext /\
    nth i (localElements d) 0 = ext i * totalCols d0 /\ nth i (localDispl d) 0 = nsum i ext * totalCols d0))|].
  - split; auto. split; auto. intros; lia.
  - intros k d Hk (S1 & TC & IH). pose proof S1 as (L1 & L2 & L3 & L4 & L5).
    rewrite (rd_ok pmin k 0), (rd_ok pmax k 0) by lia. cbn [bind].
    destruct (HB k Hk) as [B1 B2]. destruct (Nat.eqb_spec (nth k pmin 0) 0) as [|_]; [lia|].
    rewrite part_sum by auto. cbn [bind]. change (part_nodes nodes (nth k pmin 0) (nth k pmax 0)) with (ext k).
    destruct (Nat.eqb_spec k 0) as [->|n0].
    + dset. dnth. simpl. split; [dshape|]. split; auto. intros i Hi. assert (i = 0) as -> by lia. dsimp. dnth.
      rewrite Nat.sub_0_r, TC. simpl. auto.
    + destruct (IH (k - 1)) as (I1 & I2 & I3 & I4 & I5); [lia|]. replace (S (k - 1)) with k in I3 by lia.
      dset. dnth. simpl. split; [dshape|]. split; auto. intros i Hi. dsimp.
      destruct (Nat.eq_dec i k) as [->|n]; dnth.
      * rewrite I3, I4, I5, TC. replace (nsum k ext + ext k - nsum k ext) with (ext k) by lia.
        repeat split; auto. rewrite <- Nat.mul_add_distr_r. f_equal.
        replace k with (S (k - 1)) at 3 by lia. cbn [nsum]. lia.
      * apply IH. lia.
  - intros d (S1 & TC & C). split; auto. split; auto.
Qed.

Lemma part_nodes_split nodes a b c : a <= b -> b <= c -> part_nodes nodes (S a) b + part_nodes nodes (S b) c = part_nodes nodes (S a) c.
Proof.
  unfold part_nodes. cbn [Nat.sub]. rewrite !Nat.sub_0_r. intros H1 H2.
  replace (c - a) with ((b - a) + (c - b)) by lia. generalize (c - b). intros m. induction m.
  - simpl. rewrite !Nat.add_0_r. reflexivity.
  - rewrite Nat.add_succ_r. cbn [nsum]. rewrite <- IHm. replace (a + (b - a + m)) with (b + m) by lia. lia.
Qed.

(** consecutive part ranges: the chain covers all nodes *)
Lemma parts_total P pmin pmax nodes :
  nth 0 pmin 0 = 1 -> (forall i, i < P -> nth i pmin 0 <= S (nth i pmax 0)) ->
  (forall i, S i < P -> nth (S i) pmin 0 = S (nth i pmax 0)) ->
  forall k, k < P -> nsum (S k) (fun i => part_nodes nodes (nth i pmin 0) (nth i pmax 0)) = part_nodes nodes 1 (nth k pmax 0).
Proof.
  intros H0 Hle Hc. induction k; intros Hk.
  - simpl. rewrite H0. reflexivity.
  - cbn [nsum] in *. rewrite IHk by lia. rewrite Hc by auto. apply part_nodes_split; [lia|].
    specialize (Hle (S k) Hk). rewrite Hc in Hle by auto. lia.
Qed.

Lemma part_nodes_all nodes : part_nodes nodes 1 (length nodes) = list_sum nodes.
Proof.
  unfold part_nodes. simpl (1 - 1). rewrite Nat.sub_0_r.
  assert (H : forall l n, nsum (length l) (fun q => nth (n + q) (repeat 0 n ++ l) 0) = list_sum l).
  { induction l as [|x l IH] using rev_ind; intros n; auto.
    rewrite app_length, Nat.add_1_r. cbn [nsum].
    rewrite list_sum_app. simpl. rewrite app_assoc, app_nth2; rewrite app_length, repeat_length; [|lia].
    rewrite Nat.sub_diag. simpl. rewrite Nat.add_0_r. f_equal. rewrite <- (IH n).
    apply nsum_ext. intros i Hi. rewrite app_nth1; auto. rewrite app_length, repeat_length. lia. }
  exact (H nodes 0).
Qed.

Lemma update_domain_partition P d0 pmin pmax nodes :
  0 < P -> dom_shape P d0 -> length pmin = P -> length pmax = P ->
  nth 0 pmin 0 = 1 -> nth (P - 1) pmax 0 = length nodes ->
  (forall i, i < P -> 1 <= nth i pmin 0 <= S (nth i pmax 0) /\ nth i pmax 0 <= length nodes) ->
  (forall i, S i < P -> nth (S i) pmin 0 = S (nth i pmax 0)) ->
  exists d, update_domain P d0 pmin pmax nodes = Ok d /\
    dom_shape P d /\ dom_consistent P (totalCols d0) d /\ dom_partition P (list_sum nodes) d /\
    (forall i, i < P -> nth i (localDispl d) 0 = nth i (localRowMin d) 0 * totalCols d0) /\
    (forall i, i < P -> nth i (localRowExtent d) 0 = list_sum (firstn (nth i pmax 0 - (nth i pmin 0 - 1)) (skipn (nth i pmin 0 - 1) nodes))).
Proof.
  intros HP S0 Lm Lx H0 HL HB Hc.
  destruct (proj1 (wp_ok _ _) (update_chained P d0 pmin pmax nodes S0 Lm Lx ltac:(intros i Hi; specialize (HB i Hi); lia))) as (d & H & TC & C).
  exists d. split; auto. pose proof (chained_partition _ _ _ _ C) as Q.
  assert (T : nsum P (fun i => part_nodes nodes (nth i pmin 0) (nth i pmax 0)) = list_sum nodes).
  { replace P with (S (P - 1)) by lia. rewrite (parts_total P); auto; try lia.
    - rewrite HL. apply part_nodes_all.
    - intros i Hi. specialize (HB i Hi). lia. }
  rewrite T in Q. destruct Q as (Q1 & Q2 & Q3 & Q4). repeat (split; [assumption|]).
  intros i Hi. destruct C as [_ C]. destruct (C i Hi) as [-> _].
  destruct (HB i Hi) as [HB1 HB2]. set (lo := nth i pmin 0) in *. set (hi := nth i pmax 0) in *.
  set (sub := firstn (hi - (lo - 1)) (skipn (lo - 1) nodes)).
  assert (Lsub : length sub = hi - (lo - 1)) by (unfold sub; rewrite firstn_length, skipn_length; clearbody lo hi; lia).
  rewrite <- part_nodes_all. unfold part_nodes. rewrite Lsub. simpl (1 - 1). rewrite Nat.sub_0_r.
  apply nsum_ext. intros q Hq. unfold sub. rewrite nth_firstn_lt by auto. simpl.
  clear. revert nodes. generalize (lo - 1). intros n. induction n; intros nodes; auto.
  destruct nodes as [|x nodes]; simpl; [destruct (n + q), q; auto|]. apply IHn.
Qed.

(** ** Copies *)
Lemma copy_ints_ok n src dst : length src = n -> length dst = n -> copy_ints n src dst = Ok src.
Proof.
  intros Ls Ld. unfold copy_ints. assert (H : exists l, for_n n (fun i dst => x <- rd src i ;; wr dst i x) dst = Ok l /\ length l = n /\ forall i, i < n -> nth i l 0 = nth i src 0).
  { apply wp_ok. apply (for_n_inv (fun k l => length l = n /\ forall i, i < k -> nth i l 0 = nth i src 0)).
    - split; auto. intros; lia.
    - intros k l Hk (L & V). apply wp_bind. rewrite (rd_ok _ _ 0) by lia. cbn [wpq]. rewrite wr_ok by lia. cbn [wpq]. rewrite length_set_nth. split; auto.
      intros i Hi. destruct (Nat.eq_dec i k) as [->|]; [apply nth_set_nth_eq; lia|]. rewrite nth_set_nth_neq by auto. apply V. lia. }
  destruct H as (l & -> & L & V). f_equal. apply (list_ext_nth _ _ 0); [congruence|]. intros i Hi. apply V. lia.
Qed.
Lemma copy_domain_ok P A B : dom_shape P A -> dom_shape P B ->
  copy_domain P A B = Ok (mkDomain (totalRows B) (totalCols B) (localRowMin A) (localRowMax A) (localRowExtent A) (localElements A) (localDispl A)).
Proof.
  intros (A1 & A2 & A3 & A4 & A5) (B1 & B2 & B3 & B4 & B5). unfold copy_domain.
  do 5 (rewrite copy_ints_ok by assumption; cbn [bind]). reflexivity.
Qed.

Lemma forM_keeps {X S} (I : S -> Prop) (f : X -> S -> res S) : (forall x s s', I s -> f x s = Ok s' -> I s') ->
  forall l s s', I s -> forM l f s = Ok s' -> I s'.
Proof.
  intros H. induction l as [|x l IH]; cbn [forM]; intros s s' Hs E; [injection E as <-; auto|].
  destruct (f x s) as [s1| | |] eqn:E1; try discriminate. cbn [bind] in E. eauto.
Qed.
Definition keeps_dom (P : nat) (d d' : domain) : Prop :=
  (dom_shape P d -> dom_shape P d') /\ totalRows d' = totalRows d /\ totalCols d' = totalCols d.
Lemma keeps_dom_trans P a b c : keeps_dom P a b -> keeps_dom P b c -> keeps_dom P a c.
Proof. intros (A1 & A2 & A3) (B1 & B2 & B3). split; [auto|]. split; congruence. Qed.
Lemma wr_keeps {X} (l l' : list X) i v : wr l i v = Ok l' -> length l' = length l.
Proof. unfold wr. destruct (Nat.ltb i (length l)) eqn:E; try discriminate. intros [= <-]. apply length_set_nth. Qed.
Lemma sets_keep P d i v d' : set_min d i v = Ok d' \/ set_max d i v = Ok d' \/ set_ext d i v = Ok d' \/ set_elems d i v = Ok d' \/ set_displ d i v = Ok d' -> keeps_dom P d d'.
Proof.
  unfold set_min, set_max, set_ext, set_elems, set_displ.
  intros H; repeat (destruct H as [H|H]); match type of H with bind (wr ?l ?i ?v) _ = _ => destruct (wr l i v) as [l'| | |] eqn:E; cbn [bind] in H; try discriminate H; apply wr_keeps in E; injection H as <- end;
    (split; [|split; reflexivity]); intros (A1 & A2 & A3 & A4 & A5); unfold dom_shape; cbn; repeat split; congruence.
Qed.
Lemma update_keeps P d pmin pmax nodes d' : update_domain P d pmin pmax nodes = Ok d' -> keeps_dom P d d'.
Proof.
  unfold update_domain. apply (forM_keeps (keeps_dom P d)); [|split; auto]. intros i s s' Hs H.
  repeat match type of H with
  | bind (rd ?l ?k) _ = _ => destruct (rd l k) as [?| | |]; cbn [bind] in H; try discriminate H
  | bind (if ?b then ?x else ?y) _ = _ => destruct (if b then x else y) as [?| | |] eqn:?E; cbn [bind] in H; try discriminate H
  | bind (?f ?a ?b ?c) _ = _ => destruct (f a b c) as [?| | |] eqn:?E; cbn [bind] in H; try discriminate H
  end.
  assert (H0 : exists k v, set_min s k v = Ok a2).
  { destruct (i =? 0); [eauto|]. destruct (rd (localRowMax s) (i - 1)); cbn [bind] in E0; try discriminate E0. eauto. }
  assert (H4 : exists k v, set_displ a9 k v = Ok s').
  { destruct (i =? 0); [eauto|]. destruct (rd (localDispl a9) (i - 1)); cbn [bind] in H; try discriminate H.
    destruct (rd (localElements a9) (i - 1)); cbn [bind] in H; try discriminate H. eauto. }
  destruct H0 as (k0 & v0 & H0), H4 as (k4 & v4 & H4).
  eapply keeps_dom_trans; [exact Hs|]. eapply keeps_dom_trans; [apply (sets_keep P _ _ _ _ (or_introl H0))|].
  eapply keeps_dom_trans; [apply (sets_keep P a2 i (a3 + a1) a4); auto|].
  eapply keeps_dom_trans; [apply (sets_keep P a4 i (a5 - a6) a7); auto|].
  eapply keeps_dom_trans; [apply (sets_keep P a7 i (a8 * totalCols a7) a9); auto|].
  apply (sets_keep P a9 k4 v4 s'); auto.
Qed.

(** save, change the domain, restore *)
Lemma save_update_restore P d d2 pmin pmax nodes d1 : dom_shape P d -> dom_shape P d2 -> update_domain P d pmin pmax nodes = Ok d1 ->
  exists d2', copy_domain P d d2 = Ok d2' /\ copy_domain P d2' d1 = Ok d.
Proof.
  intros S S2 H. apply update_keeps in H as (S1 & TR & TC). specialize (S1 S). rewrite copy_domain_ok by auto. eexists. split; [reflexivity|].
  rewrite copy_domain_ok; auto. cbn. rewrite TR, TC. destruct d; reflexivity.
Qed.
