(** Proofs about matrices distributed by rows: dense. *)
From Verif Require Import Base BaseFacts Spec SpecFacts EllpackModel EllpackSpec EllpackFacts EllpackArith GemmFacts
  DenseModel DenseSpec DenseFacts DenseOps DomainModel DomainSpec RowModel RowSpec RowFacts RowLocal RowOps RowMore.
From Coq Require Import Ring.

Section RowDense.
  Context {F : scalar}.
  Local Open Scope K_scope.
  Add Ring KringRD : (k_ring F).
  Local Notation dense := (dense F).
  Variables (P N : nat) (d : domain).
  Hypothesis HD : row_domain P N N d.

  Lemma held_rd_dense (As : list dense) X r : held_dense P d N As X -> (r < P)%nat ->
    exists A, rd As r = Ok A /\ nth_error As r = Some A /\ dwf A /\ dN A = N /\
      forall i j, owns d r i -> (j < N)%nat -> denm A i j = X i j.
  Proof.
    intros [HL HA] Hr. destruct (some_lt As r) as (A & E); [lia|]. exists A.
    split; [apply rd_some; auto|]. split; [auto|]. apply (HA r A E).
  Qed.
  Lemma repl_rd_dense (As : list dense) X r : replicated_dense P N As X -> (r < P)%nat ->
    exists A, rd As r = Ok A /\ nth_error As r = Some A /\ dwf A /\ dN A = N /\ meq N (denm A) X.
  Proof.
    intros [HL HA] Hr. destruct (some_lt As r) as (A & E); [lia|]. exists A.
    split; [apply rd_some; auto|]. split; [auto|]. apply (HA r A E).
  Qed.
  Lemma held_intro_dense (f : nat -> res dense) X :
    (forall r, (r < P)%nat -> exists A, f r = Ok A /\ dwf A /\ dN A = N /\
       forall i j, owns d r i -> (j < N)%nat -> denm A i j = X i j) ->
    exists As, ranks P f = Ok As /\ held_dense P d N As X.
  Proof.
    intros H. destruct (ranks_ok P f (fun r A => dwf A /\ dN A = N /\
       forall i j, owns d r i -> (j < N)%nat -> denm A i j = X i j)) as (As & E & L & HA).
    { intros r Hr. destruct (H r Hr) as (A & E & HA). apply wp_ok. eauto. }
    exists As. split; [auto|]. split; auto.
  Qed.

  Lemma replicated_held_dense (As : list dense) X : replicated_dense P N As X -> held_dense P d N As X.
  Proof.
    intros [HL HA]. split; [auto|]. intros r A Er. destruct (HA r A Er) as (H1 & H2 & H4).
    split; [auto|]. split; [auto|]. intros i j Ho Hj. apply H4; auto.
    apply (owns_lt P N N d r); auto. rewrite <- HL. apply nth_error_Some. congruence.
  Qed.

  (** the cells of the own rows *)
  Lemma my_cells_in r c : In c (my_cells d N r) <-> (c < N * N)%nat /\ owns d r (c / N) \/
     In c (my_cells d N r) /\ ~ (c < N * N)%nat.
  Proof.
    unfold my_cells, owns. rewrite in_seq. destruct N as [|m].
    - simpl. lia.
    - set (n := S m) in *. assert (Hn : n <> 0%nat) by (unfold n; lia).
      assert (E := Nat.div_mod c n Hn). assert (Hm := Nat.mod_upper_bound c n Hn).
      set (q := (c / n)%nat) in *. set (z := (c mod n)%nat) in *.
      split.
      + intros H. destruct (Nat.lt_ge_cases c (n * n)); [|right; lia]. left. split; [auto|]. nia.
      + intros [[H1 H2]|H]; [nia|tauto].
  Qed.

  Lemma my_cell r i j : (j < N)%nat -> In (i * N + j)%nat (my_cells d N r) <-> owns d r i.
  Proof.
    intros Hj. unfold my_cells, owns. rewrite in_seq.
    set (lo := nth r (localRowMin d) 0%nat). set (hi := nth r (localRowMax d) 0%nat). nia.
  Qed.

  Lemma my_cells_lt r c : (r < P)%nat -> In c (my_cells d N r) -> (c < N * N)%nat.
  Proof.
    intros Hr Hc. unfold my_cells in Hc. apply in_seq in Hc.
    destruct (rows_bound P N N d r HD Hr) as [H|H].
    - destruct HD as (_ & HC & _). destruct (HC r Hr) as [C1 _].
      set (lo := nth r (localRowMin d) 0%nat) in *. set (hi := nth r (localRowMax d) 0%nat) in *. nia.
    - destruct HD as (_ & HC & _). destruct (HC r Hr) as [C1 _].
      set (lo := nth r (localRowMin d) 0%nat) in *. set (hi := nth r (localRowMax d) 0%nat) in *. nia.
  Qed.

  (** a loop over the cells of a rank *)
  Lemma cells_ok r nth (sched : list (nat * nat)) (h : nat -> F -> F) (body : nat -> list F -> res (list F)) (c : list F) :
    (r < P)%nat -> cell_sched d N r nth sched -> length c = (N * N)%nat ->
    (forall i c', (i < N * N)%nat -> length c' = length c -> List.nth i c' 0 = List.nth i c 0 ->
       body i c' = Ok (set_nth c' i (h i (List.nth i c 0)))) ->
    exists c', par_do sched body c = Ok c' /\ length c' = length c /\
      forall i j, owns d r i -> (j < N)%nat -> List.nth (i * N + j)%nat c' 0 = h (i * N + j)%nat (List.nth (i * N + j)%nat c 0).
  Proof.
    intros Hr [HP _] HL Hb. rewrite par_do_forM.
    destruct (sweep_ok 0 (fun i => i) h body (map snd sched) c) as (c' & E & L & V & U).
    - rewrite map_id. apply (Permutation_NoDup (Permutation_sym HP)). apply seq_NoDup.
    - intros i Hi. apply (Permutation_in _ HP) in Hi. apply (my_cells_lt r) in Hi; auto. lia.
    - intros i c' Hi L E _. apply (Permutation_in _ HP) in Hi. apply Hb; auto. apply (my_cells_lt r); auto.
    - exists c'. split; [auto|]. split; [auto|]. intros i j Ho Hj. apply V.
      apply (Permutation_in _ (Permutation_sym HP)). apply my_cell; auto.
  Qed.

  (** ** gather *)
  Theorem row_gather_dense_ok (As : list dense) X : held_dense P d N As X ->
    exists Bs, row_gather_dense d As = Ok Bs /\ replicated_dense P N Bs X.
  Proof.
    intros [HL HA]. pose proof HD as ((S1 & S2 & S3 & S4 & S5) & HC & HPa & HDi).
    unfold row_gather_dense.
    destruct (allgatherv_ok (0 : F) (localElements d) (localDispl d) (map dmx As) (N * N)) as (vv & Ev & Lv & Hv);
      try (rewrite map_length; lia).
    { intros r b H. apply map_some in H as (A & E & ->). destruct (HA r A E) as (H1 & <- & _). auto. }
    { rewrite map_length, HL. intros s Hs. destruct (HC s Hs) as [C1 C2]. rewrite C2, HDi by auto.
      destruct (rows_bound P N N d s HD Hs) as [H|H]; [right; nia|left; rewrite H; auto]. }
    { rewrite map_length, HL. intros s t k Hs Ht H1 H2. apply (dom_elems_seg P N N) in H1; auto. apply (dom_elems_seg P N N) in H2; auto.
      apply (owner_unique P N N d (k / N)%nat); auto; tauto. }
    rewrite Ev. cbn [bind]. rewrite map_length in Lv, Hv.
    destruct (ranks_ok (length As) (fun r => A <- rd As r ;; m <- rd vv r ;; Ok (mkDense (dN A) m))
      (fun r B => dwf B /\ dN B = N /\ meq N (denm B) X)) as (Bs & EB & LB & HB).
    { intros r Hr. destruct (some_lt As r Hr) as (A & EA). rewrite (rd_some _ _ _ EA). cbn [bind].
      destruct (some_lt vv r) as (v & Evr); [lia|]. rewrite (rd_some _ _ _ Evr). cbn [bind wp wpq].
      destruct (HA r A EA) as (WA & NA & _). destruct (Hv r v Evr) as [Lv' Hv'].
      split; [unfold dwf; simpl; congruence|]. split; [auto|]. intros i j Hi Hj. unfold denm. simpl. rewrite NA.
      destruct (owner_exists P N N d i HD Hi) as (s & Hs & Ho).
      destruct (some_lt As s) as (A' & Es); [lia|].
      rewrite (Hv' s (i * N + j)%nat); [|lia|apply (row_cell_seg P N N); auto].
      rewrite (nth_error_nth (map dmx As) s [] (x := dmx A')) by (rewrite nth_error_map, Es; auto).
      destruct (HA s A' Es) as (_ & NA' & H). rewrite <- (H i j) by auto. unfold denm. rewrite NA'. auto. }
    exists Bs. rewrite EB. split; [auto|]. split; [lia|]. auto.
  Qed.

  (** ** operations *)
  Theorem row_threshold_dense_ok (keep : F -> bool) (As : list dense) X nth scheds :
    held_dense P d N As X -> (forall r, (r < P)%nat -> cell_sched d N r nth (scheds r)) ->
    exists Cs, row_threshold_dense keep As scheds = Ok Cs /\ held_dense P d N Cs (mcut keep X).
  Proof.
    intros HA HS. unfold row_threshold_dense. rewrite (proj1 HA). apply held_intro_dense. intros r Hr.
    destruct (held_rd_dense _ _ r HA Hr) as (A & EA & _ & WA & NA & XA). rewrite EA. cbn [bind].
    unfold dense_threshold. assert (HL : length (dmx A) = (N * N)%nat) by (rewrite <- NA; auto).
    destruct (cells_ok r nth (scheds r) (fun _ x => cut keep x) (fun i a => x <- rd a i ;; if keep x then Ok a else wr a i 0) (dmx A))
      as (c & E & L & V); auto.
    { intros i c' Hi L E. rewrite (rd_ok c' i 0) by lia. cbn [bind]. rewrite E. unfold cut. destruct (keep (List.nth i (dmx A) 0)).
      - rewrite <- E, set_nth_same. auto.
      - rewrite wr_ok by lia. auto. }
    rewrite E. cbn [bind]. eexists. split; [reflexivity|]. unfold dwf, denm, mcut. simpl. split; [congruence|]. split; [auto|].
    intros i j Ho Hj. rewrite NA, V by auto. rewrite <- XA by auto. unfold denm. rewrite NA. auto.
  Qed.

  Theorem row_element_multiply_dense_ok (As Bs Cs : list dense) X Y Z nth scheds :
    held_dense P d N As X -> held_dense P d N Bs Y -> held_dense P d N Cs Z ->
    (forall r, (r < P)%nat -> cell_sched d N r nth (scheds r)) ->
    exists Ds, row_element_multiply_dense As Bs Cs scheds = Ok Ds /\ held_dense P d N Ds (mhad X Y).
  Proof.
    intros HA HB HC HS. unfold row_element_multiply_dense. rewrite (proj1 HA). apply held_intro_dense. intros r Hr.
    destruct (held_rd_dense _ _ r HA Hr) as (A & EA & _ & WA & NA & XA). rewrite EA. cbn [bind].
    destruct (held_rd_dense _ _ r HB Hr) as (B & EB & _ & WB & NB & XB). rewrite EB. cbn [bind].
    destruct (held_rd_dense _ _ r HC Hr) as (C & EC & _ & WC & NC & _). rewrite EC. cbn [bind].
    unfold dense_element_multiply_AB. assert (LA : length (dmx A) = (N * N)%nat) by (rewrite <- NA; auto).
    assert (LB : length (dmx B) = (N * N)%nat) by (rewrite <- NB; auto).
    assert (LC : length (dmx C) = (N * N)%nat) by (rewrite <- NC; auto).
    destruct (cells_ok r nth (scheds r) (fun i _ => List.nth i (dmx A) 0 * List.nth i (dmx B) 0)
       (fun i c => a <- rd (dmx A) i ;; b <- rd (dmx B) i ;; wr c i (a * b)) (dmx C))
      as (c & E & L & V); auto.
    { intros i c' Hi L E. rewrite (rd_ok (dmx A) i 0) by lia. cbn [bind]. rewrite (rd_ok (dmx B) i 0) by lia. cbn [bind].
      rewrite wr_ok by lia. auto. }
    rewrite E. cbn [bind]. eexists. split; [reflexivity|]. unfold dwf, denm, mhad. simpl. split; [congruence|]. split; [auto|].
    intros i j Ho Hj. rewrite NC, V by auto. rewrite <- XA, <- XB by auto. unfold denm. rewrite NA, NB. auto.
  Qed.

  (** scal and axpy from an offset *)
  Lemma scal_at_ok n start (a : F) x : n = 0%nat \/ (start + n <= length x)%nat ->
    exists x', scal_at n start a x = Ok x' /\ length x' = length x /\
       forall p, nth p x' 0 = if (start <=? p) && (p <? start + n) then a * nth p x 0 else nth p x 0.
  Proof. exact (blas_scal_at n start a x). Qed.

  Lemma axpy_at_ok n start (a : F) x y : n = 0%nat \/ (start + n <= length y /\ start + n <= length x)%nat ->
    exists y', axpy_at n start a x y = Ok y' /\ length y' = length y /\
       forall p, nth p y' 0 = if (start <=? p) && (p <? start + n) then nth p y 0 + a * nth p x 0 else nth p y 0.
  Proof.
    intros Hn. apply wp_ok. unfold axpy_at.
    apply (for_n_inv (fun q v' => length v' = length y /\
       forall p, nth p v' 0 = if (start <=? p) && (p <? start + q) then nth p y 0 + a * nth p x 0 else nth p y 0)).
    - split; auto. intros p. destruct (Nat.leb_spec start p), (Nat.ltb_spec p (start + 0)); simpl; auto; lia.
    - intros q v' Hq [HL Hv]. simpl. rewrite (rd_ok x _ 0) by lia. cbn [bind]. rewrite (rd_ok v' _ 0) by lia. cbn [bind].
      rewrite wr_ok by lia. simpl.
      rewrite length_set_nth. split; auto. intros p.
      destruct (Nat.eq_dec p (start + q)) as [->|Hne].
      + rewrite nth_set_nth_eq by lia. rewrite Hv, Nat.ltb_irrefl.
        assert (X : (start + q <? start + S q) = true) by (apply Nat.ltb_lt; lia). rewrite X.
        assert (Y : (start <=? start + q) = true) by (apply Nat.leb_le; lia). rewrite Y. auto.
      + rewrite nth_set_nth_neq by auto. rewrite Hv.
        destruct (Nat.leb_spec start p), (Nat.ltb_spec p (start + q)), (Nat.ltb_spec p (start + S q)); simpl; auto; lia.
  Qed.

  (** the cells from the displacement on are those of the own rows *)
  Lemma own_range r i j : (r < P)%nat -> owns d r i -> (j < N)%nat ->
    ((nth r (localRowMin d) 0 * N <=? i * N + j) &&
     (i * N + j <? nth r (localRowMin d) 0 * N + nth r (localRowExtent d) 0 * N))%nat = true.
  Proof.
    intros Hr [O1 O2] Hj. destruct HD as (_ & HC & _). destruct (HC r Hr) as [C1 _].
    set (lo := nth r (localRowMin d) 0%nat) in *. set (e := nth r (localRowExtent d) 0%nat) in *.
    apply andb_true_intro. split; [apply Nat.leb_le|apply Nat.ltb_lt]; nia.
  Qed.
  Lemma own_room r : (r < P)%nat ->
    (nth r (localRowExtent d) 0 * N)%nat = 0%nat \/
    (nth r (localRowMin d) 0 * N + nth r (localRowExtent d) 0 * N <= N * N)%nat.
  Proof. intros Hr. destruct (rows_bound P N N d r HD Hr) as [H|H]; [right; nia|left; rewrite H; auto]. Qed.

  Theorem row_scale_dense_ok a (As : list dense) X : held_dense P d N As X ->
    exists Cs, row_scale_dense d a As = Ok Cs /\ held_dense P d N Cs (mscale a X).
  Proof.
    intros HA. pose proof HD as ((S1 & S2 & S3 & S4 & S5) & HC & _ & HDi).
    unfold row_scale_dense. rewrite (proj1 HA). apply held_intro_dense. intros r Hr.
    destruct (held_rd_dense _ _ r HA Hr) as (A & EA & _ & WA & NA & XA). rewrite EA. cbn [bind].
    unfold rank_scale_dense. rewrite (rd_ok (localRowExtent d) r 0%nat) by lia. cbn [bind].
    rewrite (rd_ok (localDispl d) r 0%nat) by lia. cbn [bind]. rewrite HDi, NA by auto.
    assert (LA : length (dmx A) = (N * N)%nat) by (rewrite <- NA; auto).
    destruct (scal_at_ok (nth r (localRowExtent d) 0 * N)%nat (nth r (localRowMin d) 0 * N)%nat a (dmx A)) as (v & Ev & Lv & Hv).
    { rewrite LA. apply own_room; auto. }
    rewrite Ev. cbn [bind]. eexists. split; [reflexivity|]. unfold dwf, denm, mscale. simpl. split; [congruence|]. split; [auto|].
    intros i j Ho Hj. rewrite Hv, own_range by auto. rewrite <- XA by auto. unfold denm. rewrite NA. auto.
  Qed.

  (** bml_add_dense would be right if the offset counted elements (sz = 1) *)
  Theorem row_add_dense_elements_ok alpha beta (As Bs : list dense) X Y : held_dense P d N As X -> held_dense P d N Bs Y ->
    exists Cs, row_add_dense d 1 alpha beta As Bs = Ok Cs /\
      held_dense P d N Cs (madd (mscale alpha X) (mscale beta Y)).
  Proof.
    intros HA HB. pose proof HD as ((S1 & S2 & S3 & S4 & S5) & HC & _ & HDi).
    unfold row_add_dense. rewrite (proj1 HA). apply held_intro_dense. intros r Hr.
    destruct (held_rd_dense _ _ r HA Hr) as (A & EA & _ & WA & NA & XA). rewrite EA. cbn [bind].
    destruct (held_rd_dense _ _ r HB Hr) as (B & EB & _ & WB & NB & XB). rewrite EB. cbn [bind].
    unfold rank_add_dense. rewrite (rd_ok (localRowExtent d) r 0%nat) by lia. cbn [bind].
    rewrite (rd_ok (localDispl d) r 0%nat) by lia. cbn [bind]. rewrite HDi, NB by auto.
    rewrite Nat.mod_1_r, Nat.div_1_r. cbn [Nat.eqb negb].
    assert (LA : length (dmx A) = (N * N)%nat) by (rewrite <- NA; auto).
    assert (LB : length (dmx B) = (N * N)%nat) by (rewrite <- NB; auto).
    destruct (scal_at_ok (nth r (localRowExtent d) 0 * N)%nat (nth r (localRowMin d) 0 * N)%nat alpha (dmx A)) as (v & Ev & Lv & Hv).
    { rewrite LA. apply own_room; auto. }
    rewrite Ev. cbn [bind].
    destruct (axpy_at_ok (nth r (localRowExtent d) 0 * N)%nat (nth r (localRowMin d) 0 * N)%nat beta (dmx B) v) as (u & Eu & Lu & Hu).
    { rewrite Lv, LA, LB. destruct (own_room r Hr); [left; auto|right; auto]. }
    rewrite Eu. cbn [bind]. eexists. split; [reflexivity|]. unfold dwf, denm, madd, mscale. simpl. split; [congruence|]. split; [auto|].
    intros i j Ho Hj. rewrite NA. rewrite Hu, own_range by auto. rewrite Hv, own_range by auto.
    rewrite <- XA, <- XB by auto. unfold denm. rewrite NA, NB. auto.
  Qed.

  Theorem row_add_identity_dense_ok beta (As : list dense) X nth scheds :
    held_dense P d N As X -> (forall r, (r < P)%nat -> rank_sched d r nth (scheds r)) ->
    exists Cs, row_add_identity_dense beta As scheds = Ok Cs /\ held_dense P d N Cs (madd X (mscale beta mid)).
  Proof.
    intros HA HS. unfold row_add_identity_dense. rewrite (proj1 HA). apply held_intro_dense. intros r Hr.
    destruct (held_rd_dense _ _ r HA Hr) as (A & EA & _ & WA & NA & XA). rewrite EA. cbn [bind].
    unfold dense_add_identity. rewrite par_do_forM.
    assert (Hon := rank_sched_on P N N d r nth _ HD Hr (HS r Hr)). destruct Hon as (HP & Hnd & Hlt).
    destruct (grid_ok A (map snd (scheds r)) (fun i => [i]) (fun i j x => x + beta)
       (fun i j A => x <- d_at A i i ;; d_put A i i (x + beta))) as (A' & E & W & NA' & V); auto.
    - apply (Permutation_NoDup (Permutation_sym HP)); auto.
    - intros i Hi. rewrite NA. apply Hlt. apply (Permutation_in _ HP); auto.
    - intros i Hi. split; [constructor; [simpl; tauto|constructor]|]. intros j [<-|[]]. rewrite NA. apply Hlt. apply (Permutation_in _ HP); auto.
    - intros i j A' Hi [<-|[]] W' N' E' _. assert (Hi' : (i < dN A)%nat) by (rewrite NA; apply Hlt; apply (Permutation_in _ HP); auto).
      rewrite d_at_ok by (auto; lia). cbn [bind]. rewrite E'. auto.
    - exists A'. split.
      { erewrite <- E. clear. generalize A. induction (map snd (scheds r)) as [|i l IH]; intros B; simpl; auto.
        destruct (d_at B i i) as [x| | |]; cbn [bind]; auto. destruct (d_put B i i (x + beta)); cbn [bind]; auto. }
      split; [auto|]. split; [congruence|]. intros i j Ho Hj.
      assert (Hi : (i < N)%nat) by (apply (owns_lt P N N d r); auto).
      rewrite V by congruence. rewrite (proj2 (existsb_in i _)) by (apply (Permutation_in _ (Permutation_sym HP)); apply my_rows_owns; auto).
      simpl. unfold madd, mscale, mid. rewrite (Nat.eqb_sym j i). destruct (Nat.eqb_spec i j) as [<-|Hne]; simpl.
      + rewrite XA by auto. ring.
      + rewrite XA by auto. ring.
  Qed.

  Theorem row_transpose_new_dense_ok (As : list dense) X gv nth scheds :
    replicated_dense P N As X -> (forall r, (r < P)%nat -> rank_sched d r nth (scheds r)) ->
    exists Cs, row_transpose_new_dense As gv scheds = Ok Cs /\ held_dense P d N Cs (mtrans X).
  Proof.
    intros HA HS. unfold row_transpose_new_dense. rewrite (proj1 HA). apply held_intro_dense. intros r Hr.
    destruct (repl_rd_dense _ _ r HA Hr) as (A & EA & _ & WA & NA & XA). rewrite EA. cbn [bind].
    unfold dense_transpose_new. rewrite par_do_forM, NA.
    assert (Hon := rank_sched_on P N N d r nth _ HD Hr (HS r Hr)). destruct Hon as (HP & Hnd & Hlt).
    assert (W0 : dwf (dense_noinit N gv)) by (unfold dwf; simpl; rewrite map_length, seq_length; auto).
    destruct (grid_ok (dense_noinit N gv) (map snd (scheds r)) (fun i => seq 0 N) (fun i j _ => denm A j i)
       (fun i j B => v <- d_at A j i ;; d_put B i j v)) as (A' & E & W & NA' & V); auto.
    - apply (Permutation_NoDup (Permutation_sym HP)); auto.
    - intros i Hi. apply Hlt. apply (Permutation_in _ HP); auto.
    - intros i Hi. split; [apply seq_NoDup|]. intros j Hj. apply in_seq in Hj. simpl. lia.
    - intros i j A' Hi Hj _ _ _ _. apply in_seq in Hj. assert (Hi' : (i < N)%nat) by (apply Hlt; apply (Permutation_in _ HP); auto).
      rewrite d_at_ok by (auto; lia). auto.
    - exists A'. split; [exact E|]. split; [auto|]. split; [auto|]. intros i j Ho Hj.
      assert (Hi : (i < N)%nat) by (apply (owns_lt P N N d r); auto).
      rewrite V by auto. rewrite (proj2 (existsb_in i _)) by (apply (Permutation_in _ (Permutation_sym HP)); apply my_rows_owns; auto).
      rewrite existsb_seq by auto. simpl. unfold mtrans. apply XA; auto.
  Qed.

  (** the product is computed completely on every rank *)
  Theorem row_multiply_dense_ok alpha beta (As Bs Cs : list dense) X Y Z : (0 < N)%nat ->
    replicated_dense P N As X -> replicated_dense P N Bs Y -> replicated_dense P N Cs Z ->
    exists Ds, row_multiply_dense alpha beta As Bs Cs = Ok Ds /\
      replicated_dense P N Ds (madd (mscale alpha (mmul N X Y)) (mscale beta Z)).
  Proof.
    intros HN HA HB HC. unfold row_multiply_dense. rewrite (proj1 HA).
    destruct (ranks_ok P (fun r => A <- rd As r ;; B <- rd Bs r ;; C <- rd Cs r ;; dense_multiply alpha beta A B C)
      (fun r D => dwf D /\ dN D = N /\ meq N (denm D) (madd (mscale alpha (mmul N X Y)) (mscale beta Z)))) as (Ds & E & L & H).
    { intros r Hr.
      destruct (repl_rd_dense _ _ r HA Hr) as (A & EA & _ & WA & NA & XA). rewrite EA. cbn [bind].
      destruct (repl_rd_dense _ _ r HB Hr) as (B & EB & _ & WB & NB & XB). rewrite EB. cbn [bind].
      destruct (repl_rd_dense _ _ r HC Hr) as (C & EC & _ & WC & NC & XC). rewrite EC. cbn [bind].
      destruct (dense_multiply_ok alpha beta A B C) as (D & ED & WD & ND & VD); auto; try congruence; try lia.
      rewrite ED. cbn [wp wpq]. split; [auto|]. split; [congruence|]. rewrite NA in VD. intros i j Hi Hj.
      rewrite VD by auto. unfold madd, mscale. rewrite XC by auto. f_equal. f_equal.
      apply bigsum_ext. intros k Hk. rewrite XA, XB by auto. auto. }
    exists Ds. split; [auto|]. split; auto.
  Qed.

  (** ** reductions *)
  Lemma par_sum_on nth sched (f : nat -> res F) (g : nat -> F) L :
    Permutation (map snd sched) L -> (forall t i, In (t, i) sched -> (t < nth)%nat) ->
    (forall i, In i L -> f i = Ok (g i)) -> par_sum nth sched f = Ok (lsum (map g L)).
  Proof.
    intros HP HT Hf. unfold par_sum. apply wp_eq. apply wp_bind.
    eapply wp_mono; [apply (par_red_on sched _ (fun _ => 0) (fun _ => True) (fun x => x) g nth L)|]; auto.
    - intros i w Hi _. rewrite Hf by auto. simpl. auto.
    - intros [[] w] H. simpl. cbn [snd] in H. unfold reduce_sum. transitivity (bigsum nth (fun t => w t)); [reflexivity|].
      rewrite H. rewrite (bigsum_zero nth (fun _ => 0)) by auto. ring.
  Qed.

  Lemma lsum_seq (f : nat -> F) a n : lsum (map f (seq a n)) = bigsum n (fun k => f (a + k)%nat).
  Proof.
    revert a. induction n as [|n IH]; intros a; auto.
    rewrite seq_S, map_app, lsum_app, IH. simpl. ring.
  Qed.

  Lemma lsum_cells (f : nat -> F) r :
    lsum (map f (my_cells d N r)) = lsum (map (fun i => bigsum N (fun j => f (i * N + j)%nat)) (my_rows d r)).
  Proof.
    unfold my_cells, my_rows. rewrite !lsum_seq, bigsum_flat. apply bigsum_ext. intros i Hi.
    apply bigsum_ext. intros j Hj. f_equal. lia.
  Qed.

  Theorem row_trace_dense_ok (As : list dense) X nth scheds :
    held_dense P d N As X -> (forall r, (r < P)%nat -> rank_sched d r nth (scheds r)) ->
    exists vs, row_trace_dense As nth scheds = Ok vs /\
      forall order, Permutation order (seq 0 P) -> allreduce_sum order vs = Ok (mtrace N X).
  Proof.
    intros HA HS. unfold row_trace_dense. rewrite (proj1 HA). unfold mtrace. apply (reduce_intro P N N d HD). intros r Hr.
    destruct (held_rd_dense _ _ r HA Hr) as (A & EA & _ & WA & NA & XA). rewrite EA. cbn [bind].
    destruct (HS r Hr) as [HP Ht]. unfold dense_trace.
    apply par_sum_on; auto. intros i Hi. apply my_rows_owns in Hi.
    assert (Hi' : (i < N)%nat) by (apply (owns_lt P N N d r); auto).
    rewrite d_at_ok by (auto; lia). rewrite XA; auto.
  Qed.

  Theorem row_sum_squares_dense_ok (As : list dense) X nth scheds :
    held_dense P d N As X -> (forall r, (r < P)%nat -> cell_sched d N r nth (scheds r)) ->
    exists vs, row_sum_squares_dense As nth scheds = Ok vs /\
      forall order, Permutation order (seq 0 P) -> allreduce_sum order vs = Ok (msum N (mhad X X)).
  Proof.
    intros HA HS. unfold row_sum_squares_dense. rewrite (proj1 HA). unfold msum. apply (reduce_intro P N N d HD). intros r Hr.
    destruct (held_rd_dense _ _ r HA Hr) as (A & EA & _ & WA & NA & XA). rewrite EA. cbn [bind].
    destruct (HS r Hr) as [HP Ht]. unfold dense_sum_squares.
    rewrite (par_sum_on nth (scheds r) _ (fun i => List.nth i (dmx A) 0 * List.nth i (dmx A) 0) (my_cells d N r)); auto.
    - f_equal. rewrite lsum_cells. apply lsum_own. intros i Ho. apply bigsum_ext. intros j Hj.
      unfold mhad. rewrite <- XA by auto. unfold denm. rewrite NA. auto.
    - intros i Hi. apply (my_cells_lt r) in Hi; auto. rewrite (rd_ok (dmx A) i 0); [auto|]. rewrite WA, NA. auto.
  Qed.

  Theorem row_trace_mult_dense_ok (As Bs : list dense) X Y nth scheds :
    held_dense P d N As X -> held_dense P d N Bs Y -> (forall r, (r < P)%nat -> cell_sched d N r nth (scheds r)) ->
    exists vs, row_trace_mult_dense As Bs nth scheds = Ok vs /\
      forall order, Permutation order (seq 0 P) -> allreduce_sum order vs = Ok (msum N (mhad X Y)).
  Proof.
    intros HA HB HS. unfold row_trace_mult_dense. rewrite (proj1 HA). unfold msum. apply (reduce_intro P N N d HD). intros r Hr.
    destruct (held_rd_dense _ _ r HA Hr) as (A & EA & _ & WA & NA & XA). rewrite EA. cbn [bind].
    destruct (held_rd_dense _ _ r HB Hr) as (B & EB & _ & WB & NB & XB). rewrite EB. cbn [bind].
    destruct (HS r Hr) as [HP Ht]. unfold dense_trace_mult. rewrite NA, NB, Nat.eqb_refl. cbn [negb].
    rewrite (par_sum_on nth (scheds r) _ (fun i => List.nth i (dmx A) 0 * List.nth i (dmx B) 0) (my_cells d N r)); auto.
    - f_equal. rewrite lsum_cells. apply lsum_own. intros i Ho. apply bigsum_ext. intros j Hj.
      unfold mhad. rewrite <- XA, <- XB by auto. unfold denm. rewrite NA, NB. auto.
    - intros i Hi. apply (my_cells_lt r) in Hi; auto.
      rewrite (rd_ok (dmx A) i 0) by (rewrite WA, NA; auto). cbn [bind].
      rewrite (rd_ok (dmx B) i 0) by (rewrite WB, NB; auto). auto.
  Qed.
End RowDense.
