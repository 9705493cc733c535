(** What each dense function computes. *)
From Verif Require Import Base BaseFacts Spec SpecFacts EllpackModel EllpackSpec EllpackFacts EllpackOps EllpackArith GemmModel DenseModel DenseSpec GemmFacts DenseFacts.
From Coq Require Import Ring.

Section DenseOps.
  Context {F : scalar}.
  Local Open Scope K_scope.
  Add Ring KringDO : (k_ring F).
  Local Notation dense := (dense F).

  Lemma dwf_mk N (c : list F) : length c = (N * N)%nat -> dwf (mkDense N c).
  Proof. auto. Qed.

  Lemma dense_zero_ok N : dwf (dense_zero N : dense) /\ dN (dense_zero N : dense) = N /\ forall i j, denm (dense_zero N : dense) i j = 0.
  Proof.
    split; [unfold dwf; simpl; apply repeat_length|]. split; auto. intros i j. unfold denm. simpl. apply nth_repeat_any.
  Qed.

  Lemma dense_noinit_wf N (gv : nat -> F) : dwf (dense_noinit N gv).
  Proof. unfold dwf. simpl. rewrite map_length, seq_length. auto. Qed.

  (** a loop that copies a block of cells *)
  Lemma copy_cells_ok (dst : list F) doff (src : list F) soff n : (doff + n <= length dst)%nat -> (soff + n <= length src)%nat ->
    exists dst', copy_cells dst doff src soff n = Ok dst' /\ length dst' = length dst /\
      forall p, nth p dst' 0 = if ((doff <=? p) && (p <? doff + n))%nat then nth (soff + (p - doff))%nat src 0 else nth p dst 0.
  Proof.
    intros Hd Hs. unfold copy_cells, for_n.
    destruct (sweep_ok 0 (fun q => doff + q)%nat (fun q _ => nth (soff + q)%nat src 0)
       (fun q dst => v <- rd src (soff + q) ;; wr dst (doff + q) v) (seq 0 n) dst) as (d & E & L & V & U).
    - apply NoDup_map_inj; [apply seq_NoDup|]. intros; lia.
    - intros q Hq. apply in_seq in Hq. lia.
    - intros q c Hq Lc _ _. apply in_seq in Hq. rewrite (rd_ok src _ 0) by lia. cbn [bind]. apply wr_ok. lia.
    - exists d. split; auto. split; auto. intros p.
      destruct (Nat.leb_spec doff p); simpl; [destruct (Nat.ltb_spec p (doff + n))|].
      + specialize (V (p - doff)%nat). rewrite in_seq in V. replace (doff + (p - doff))%nat with p in V by lia. apply V. lia.
      + apply U. intros Hx. apply in_map_iff in Hx as (q & e & Hq). apply in_seq in Hq. lia.
      + apply U. intros Hx. apply in_map_iff in Hx as (q & e & Hq). apply in_seq in Hq. lia.
  Qed.

  Lemma copy_all (dst src : list F) n : length dst = n -> length src = n -> copy_cells dst 0 src 0 n = Ok src.
  Proof.
    intros Hd Hs. destruct (copy_cells_ok dst 0 src 0 n) as (d & E & L & V); [lia|lia|]. rewrite E. f_equal.
    apply (list_ext_nth _ _ 0); [congruence|]. intros i Hi. rewrite V.
    destruct (Nat.leb_spec 0 i); [|lia]. destruct (Nat.ltb_spec i (0 + n)); [|lia]. simpl. rewrite Nat.sub_0_r. auto.
  Qed.

  (** ** Constructors *)

  Lemma dense_identity_ok N sched : Permutation (map snd sched) (seq 0 N) ->
    exists A, dense_identity N sched = Ok A /\ dwf A /\ dN A = N /\ meq N (denm A) (mid : mat F).
  Proof.
    intros HP. unfold dense_identity. rewrite par_do_forM.
    destruct (dense_zero_ok N) as (Z1 & Z2 & Z3). destruct (perm_nodup_seq _ _ HP) as [Hnd Hin].
    destruct (grid_ok (dense_zero N : dense) (map snd sched) (fun i => [i]) (fun _ _ _ => 1) (fun i j (A : dense) => d_put A i j 1)) as (A & E & H1 & H2 & H3); auto.
    - intros i Hi. apply Hin; auto.
    - intros i Hi. split; [repeat constructor; simpl; auto|]. intros j [<-|[]]. apply Hin; auto.
    - exists A. split; [|split; auto; split; auto].
      + rewrite <- E. apply forM_ext. intros i A0 Hi. simpl. destruct (d_put A0 i i 1); auto.
      + intros i j Hi Hj. rewrite H3 by auto. rewrite (proj2 (existsb_in i _)) by (apply Hin; auto). simpl.
        rewrite orb_false_r. unfold mid. rewrite Nat.eqb_sym. destruct (i =? j)%nat; auto.
  Qed.

  Lemma dense_banded_ok N M (rnd : nat -> nat -> F) sched : Permutation (map snd sched) (seq 0 N) ->
    exists A, dense_banded N M rnd sched = Ok A /\ dwf A /\ dN A = N /\
      forall i j, (i < N)%nat -> (j < N)%nat ->
        denm A i j = if ((i - M / 2 <=? j) && (j <? i + (M - M / 2)))%nat then rnd i j else 0.
  Proof.
    intros HP. unfold dense_banded. rewrite par_do_forM.
    destruct (dense_zero_ok N) as (Z1 & Z2 & Z3). destruct (perm_nodup_seq _ _ HP) as [Hnd Hin].
    destruct (grid_ok (dense_zero N : dense) (map snd sched) (fun i => seq (i - M / 2) (Nat.min N (i + (M - M / 2)) - (i - M / 2)))
      (fun i j _ => rnd i j) (fun i j (A : dense) => d_put A i j (rnd i j))) as (A & E & H1 & H2 & H3); auto.
    - intros i Hi. apply Hin; auto.
    - intros i Hi. split; [apply seq_NoDup|]. intros j Hj. apply in_seq in Hj. change (dN (dense_zero N : dense)) with N. lia.
    - exists A. split; [exact E|]. split; auto. split; auto.
      intros i j Hi Hj. rewrite H3 by auto. rewrite (proj2 (existsb_in i _)) by (apply Hin; auto). cbn [andb].
      rewrite Z3. destruct (existsb (Nat.eqb j) (seq (i - M / 2) (Nat.min N (i + (M - M / 2)) - (i - M / 2)))) eqn:Eb.
      + apply existsb_in in Eb. apply in_seq in Eb.
        destruct (Nat.leb_spec (i - M / 2) j); [|lia]. destruct (Nat.ltb_spec j (i + (M - M / 2))); [auto|lia].
      + destruct (Nat.leb_spec (i - M / 2) j); auto. destruct (Nat.ltb_spec j (i + (M - M / 2))); auto.
        exfalso. apply not_true_iff_false in Eb. apply Eb. apply existsb_in. apply in_seq. lia.
  Qed.

  Lemma dense_random_ok N (rnd : nat -> nat -> F) :
    exists A, dense_random N rnd = Ok A /\ dwf A /\ dN A = N /\ meq N (denm A) rnd.
  Proof.
    unfold dense_random. destruct (dense_zero_ok N) as (Z1 & Z2 & Z3).
    destruct (grid_seq_ok (dense_zero N : dense) (fun i j _ => rnd i j) (fun i j (A : dense) => d_put A i j (rnd i j))) as (A & E & H1 & H2 & H3); auto.
    exists A. split; [exact E|]. split; auto.
  Qed.

  (** ** Setters and getters *)

  Lemma dense_set_element_ok (A : dense) i j v : dwf A -> (i < dN A)%nat -> (j < dN A)%nat ->
    exists A', dense_set_element A i j v = Ok A' /\ dwf A' /\ dN A' = dN A /\
      forall a b, (a < dN A)%nat -> (b < dN A)%nat -> denm A' a b = if ((a =? i) && (b =? j))%nat then v else denm A a b.
  Proof. intros H Hi Hj. apply wp_ok. apply d_put_wp; auto. Qed.

  Lemma dense_get_element_ok (A : dense) i j : dwf A -> (i < dN A)%nat -> (j < dN A)%nat ->
    dense_get_element A i j = Ok (denm A i j).
  Proof. apply d_at_ok. Qed.

  Lemma dense_get_element_checked_ok (A : dense) i j : dwf A ->
    dense_get_element_checked A i j = if ((i <? dN A) && (j <? dN A))%nat then Ok (denm A i j) else Err.
  Proof.
    intros H. unfold dense_get_element_checked.
    destruct (Nat.leb_spec (dN A) i), (Nat.ltb_spec i (dN A)); try lia; simpl; auto.
    destruct (Nat.leb_spec (dN A) j), (Nat.ltb_spec j (dN A)); try lia; simpl; auto. apply d_at_ok; auto.
  Qed.

  Lemma dense_set_row_ok (A : dense) i (row : list F) : dwf A -> (i < dN A)%nat -> (dN A <= length row)%nat ->
    exists A', dense_set_row A i row = Ok A' /\ dwf A' /\ dN A' = dN A /\
      forall a b, (a < dN A)%nat -> (b < dN A)%nat -> denm A' a b = if (a =? i)%nat then nth b row 0 else denm A a b.
  Proof.
    intros H Hi Hr. unfold dense_set_row.
    destruct (grid_ok A [i] (fun _ => seq 0 (dN A)) (fun _ j _ => nth j row 0) (fun i j (A : dense) => v <- rd row j ;; d_put A i j v)) as (A' & E & H1 & H2 & H3); auto.
    - repeat constructor; simpl; auto.
    - intros a [<-|[]]; auto.
    - intros a _. split; [apply seq_NoDup|]. intros j Hj. apply in_seq in Hj. lia.
    - intros a j A' _ Hj _ _ _ _. apply in_seq in Hj. rewrite (rd_ok row j 0) by lia. reflexivity.
    - exists A'. split; [|split; auto; split; auto].
      + simpl in E. unfold for_n. destruct (forM (seq 0 (dN A)) (fun j A0 => v <- rd row j ;; d_put A0 i j v) A); auto.
      + intros a b Ha Hb. rewrite H3 by auto. simpl. rewrite orb_false_r. rewrite existsb_seq by auto. rewrite andb_true_r. auto.
  Qed.

  Lemma dense_set_diagonal_ok (A : dense) (diag : list F) : dwf A -> (dN A <= length diag)%nat ->
    exists A', dense_set_diagonal A diag = Ok A' /\ dwf A' /\ dN A' = dN A /\
      forall a b, (a < dN A)%nat -> (b < dN A)%nat -> denm A' a b = if (a =? b)%nat then nth a diag 0 else denm A a b.
  Proof.
    intros H Hr. unfold dense_set_diagonal, for_n.
    destruct (grid_ok A (seq 0 (dN A)) (fun i => [i]) (fun i _ _ => nth i diag 0) (fun i j (A : dense) => v <- rd diag i ;; d_put A i j v)) as (A' & E & H1 & H2 & H3); auto.
    - apply seq_NoDup.
    - intros i Hi. apply in_seq in Hi. lia.
    - intros i Hi. apply in_seq in Hi. split; [repeat constructor; simpl; auto|]. intros j [<-|[]]. lia.
    - intros i j A' Hi [<-|[]] _ _ _ _. apply in_seq in Hi. rewrite (rd_ok diag i 0) by lia. reflexivity.
    - exists A'. split; [|split; auto; split; auto].
      + rewrite <- E. apply forM_ext. intros j A0 Hj. simpl. destruct (v <- rd diag j ;; d_put A0 j j v); auto.
      + intros a b Ha Hb. rewrite H3 by auto. rewrite existsb_seq by auto. simpl. rewrite orb_false_r, Nat.eqb_sym. auto.
  Qed.

  (** a loop filling a fresh array *)
  Lemma fill_ok n (f : nat -> res F) (g : nat -> F) : (forall j, (j < n)%nat -> f j = Ok (g j)) ->
    for_n n (fun j row => v <- f j ;; wr row j v) (repeat 0 n) = Ok (map g (seq 0 n)).
  Proof.
    intros Hf. unfold for_n.
    destruct (flat_ok (seq 0 n) n (fun j _ => g j) (fun j row => v <- f j ;; wr row j v) (repeat 0 n)) as (c & E & L & V & U).
    - apply Permutation_refl.
    - rewrite repeat_length. auto.
    - intros i c' Hi Lc _. rewrite Hf by auto. cbn [bind]. apply wr_ok. rewrite Lc, repeat_length. auto.
    - rewrite E. f_equal. rewrite repeat_length in L. apply (list_ext_nth _ _ 0).
      + rewrite map_length, seq_length. auto.
      + intros i Hi. rewrite V by lia. rewrite nth_map_seq by lia. auto.
  Qed.

  Lemma dense_get_row_ok (A : dense) i : dwf A -> (i < dN A)%nat ->
    dense_get_row A i = Ok (map (fun j => denm A i j) (seq 0 (dN A))).
  Proof. intros H Hi. apply fill_ok. intros j Hj. apply d_at_ok; auto. Qed.

  Lemma dense_get_diagonal_ok (A : dense) : dwf A ->
    dense_get_diagonal A = Ok (map (fun j => denm A j j) (seq 0 (dN A))).
  Proof. intros H. apply (fill_ok (dN A) (fun j => d_at A j j)). intros j Hj. apply d_at_ok; auto. Qed.

  (** ** Import and export *)

  Lemma dense_import_ok o N (D : list F) : length D = (N * N)%nat ->
    exists A, dense_import o N D = Ok A /\ dwf A /\ dN A = N /\ meq N (denm A) (dmat o N D).
  Proof.
    intros HD. destruct (dense_zero_ok N) as (Z1 & Z2 & Z3). destruct o; unfold dense_import.
    - rewrite copy_all by (auto; simpl; rewrite repeat_length; auto). cbn [bind].
      eexists. split; [reflexivity|]. split; [auto|]. split; [auto|]. intros i j Hi Hj. reflexivity.
    - destruct (grid_seq_ok (dense_zero N : dense) (fun i j _ => nth (COLMAJOR i j N N) D 0)
        (fun i j (A : dense) => v <- rd D (COLMAJOR i j N N) ;; d_put A i j v)) as (A & E & H1 & H2 & H3); auto.
      + intros i j A' Hi Hj _ _ _. change (dN (dense_zero N : dense)) with N in *.
        rewrite (rd_ok D _ 0) by (unfold COLMAJOR; nia). reflexivity.
      + exists A. split; [exact E|]. split; auto.
  Qed.

  Lemma dense_export_ok (A : dense) o : dwf A ->
    exists D, dense_export A o = Ok D /\ length D = (dN A * dN A)%nat /\ meq (dN A) (dmat o (dN A) D) (denm A).
  Proof.
    intros HA. unfold dense_export. destruct o.
    - rewrite copy_all by (auto; apply repeat_length). eexists. split; [reflexivity|]. split; [auto|]. intros i j Hi Hj. reflexivity.
    - set (N := dN A).
      assert (G : exists D, for_n N (fun i D => for_n N (fun j D => v <- d_at A i j ;; wr D (COLMAJOR i j N N) v) D) (repeat 0 (N * N)) = Ok D /\
         length D = (N * N)%nat /\ forall i j, (i < N)%nat -> (j < N)%nat -> nth (COLMAJOR i j N N) D 0 = denm A i j).
      { apply wp_ok. eapply wp_mono.
        - apply (for_n_inv (fun k D => length D = (N * N)%nat /\ forall i j, (i < k)%nat -> (j < N)%nat -> nth (COLMAJOR i j N N) D 0 = denm A i j)).
          + split; [apply repeat_length|]. intros; lia.
          + intros i D Hi (L & V).
            eapply wp_mono.
            * apply (for_n_inv (fun k D' => length D' = (N * N)%nat /\
                (forall j, (j < k)%nat -> nth (COLMAJOR i j N N) D' 0 = denm A i j) /\
                (forall a j, (a < i)%nat -> (j < N)%nat -> nth (COLMAJOR a j N N) D' 0 = nth (COLMAJOR a j N N) D 0))).
              -- repeat split; auto. intros; lia.
              -- intros j D' Hj (L' & V' & U'). rewrite d_at_ok by auto. cbn [bind].
                 assert (COLMAJOR i j N N < N * N)%nat by (apply colmajor_lt; auto).
                 rewrite wr_ok by lia. cbn [wp wpq]. rewrite length_set_nth. split; auto. split.
                 ++ intros b Hb. rewrite nth_set_nth. replace (COLMAJOR i j N N <? length D')%nat with true by (symmetry; apply Nat.ltb_lt; lia).
                    destruct (Nat.eq_dec b j) as [->|Hne].
                    ** rewrite Nat.eqb_refl. auto.
                    ** destruct (Nat.eqb_spec (COLMAJOR i b N N) (COLMAJOR i j N N)) as [e|e].
                       { apply colmajor_inj in e; [lia|auto|auto]. }
                       simpl. apply V'. lia.
                 ++ intros a b Ha Hb. rewrite nth_set_nth_neq; auto. intros e. apply colmajor_inj in e; lia.
            * intros D' (L' & V' & U'). split; auto. intros a b Ha Hb. destruct (Nat.eq_dec a i) as [->|Hne]; auto.
              rewrite U' by (auto; lia). apply V; auto. lia.
        - intros D (L & V). split; auto. }
      destruct G as (D & E & L & V). exists D. split; auto.
  Qed.

  Lemma dense_import_export (A : dense) o : dwf A ->
    exists D B, dense_export A o = Ok D /\ dense_import o (dN A) D = Ok B /\ dwf B /\ dN B = dN A /\ meq (dN A) (denm B) (denm A).
  Proof.
    intros HA. destruct (dense_export_ok A o HA) as (D & E1 & L & V).
    destruct (dense_import_ok o (dN A) D L) as (B & E2 & H1 & H2 & H3).
    exists D, B. split; auto. split; auto. split; auto. split; auto. intros i j Hi Hj. rewrite H3, V; auto.
  Qed.

  (** ** Addition, scaling *)

  Lemma scal_ok n (alpha : F) (x : list F) : (n <= length x)%nat ->
    exists y, scal n alpha x = Ok y /\ length y = length x /\
      (forall i, (i < n)%nat -> nth i y 0 = alpha * nth i x 0) /\ (forall i, (n <= i)%nat -> nth i y 0 = nth i x 0).
  Proof.
    intros H. unfold scal, for_n. apply (flat_ok (seq 0 n) n (fun _ v => alpha * v)); auto.
    intros i c' Hi L E. rewrite upd_ok by lia. rewrite E. auto.
  Qed.

  Lemma axpy_ok n (a : F) (x y : list F) : (n <= length x)%nat -> (n <= length y)%nat ->
    exists z, axpy n a x y = Ok z /\ length z = length y /\
      (forall i, (i < n)%nat -> nth i z 0 = nth i y 0 + a * nth i x 0) /\ (forall i, (n <= i)%nat -> nth i z 0 = nth i y 0).
  Proof.
    intros Hx Hy. unfold axpy, for_n. apply (flat_ok (seq 0 n) n (fun i w => w + a * nth i x 0)); auto.
    intros i c' Hi L E. rewrite (rd_ok x i 0) by lia. cbn [bind]. rewrite upd_ok by lia. rewrite E. auto.
  Qed.

  Lemma axpy_self_ok n (a : F) (y : list F) : (n <= length y)%nat ->
    exists z, axpy_self n a y = Ok z /\ length z = length y /\
      (forall i, (i < n)%nat -> nth i z 0 = nth i y 0 + a * nth i y 0) /\ (forall i, (n <= i)%nat -> nth i z 0 = nth i y 0).
  Proof.
    intros Hy. unfold axpy_self, for_n. apply (flat_ok (seq 0 n) n (fun i w => w + a * w)); auto.
    intros i c' Hi L E. rewrite (rd_ok c' i 0) by lia. cbn [bind]. rewrite upd_ok by lia. rewrite E. auto.
  Qed.

  Lemma dense_add_ok (alpha beta : F) (A B : dense) : dwf A -> dwf B -> dN A = dN B ->
    exists A', dense_add alpha beta A B = Ok A' /\ dwf A' /\ dN A' = dN A /\
      meq (dN A) (denm A') (madd (mscale alpha (denm A)) (mscale beta (denm B))).
  Proof.
    intros HA HB HN. unfold dense_add. rewrite <- HN.
    destruct (scal_ok (dN A * dN A) alpha (dmx A)) as (y & E1 & L1 & V1 & _); [rewrite HA; auto|]. rewrite E1. cbn [bind].
    destruct (axpy_ok (dN A * dN A) beta (dmx B) y) as (z & E2 & L2 & V2 & _); [rewrite HB, HN; auto|rewrite L1, HA; auto|]. rewrite E2. cbn [bind].
    eexists. split; [reflexivity|]. split; [unfold dwf; simpl; rewrite L2, L1; auto|]. split; auto.
    intros i j Hi Hj. unfold denm, madd, mscale. simpl. rewrite <- HN.
    assert (i * dN A + j < dN A * dN A)%nat by nia.
    rewrite V2, V1 by auto. auto.
  Qed.

  Lemma dense_add_self_ok (alpha beta : F) (A : dense) : dwf A ->
    exists A', dense_add_self alpha beta A = Ok A' /\ dwf A' /\ dN A' = dN A /\
      meq (dN A) (denm A') (mscale (alpha * (1 + beta)) (denm A)).
  Proof.
    intros HA. unfold dense_add_self.
    destruct (scal_ok (dN A * dN A) alpha (dmx A)) as (y & E1 & L1 & V1 & _); [rewrite HA; auto|]. rewrite E1. cbn [bind].
    destruct (axpy_self_ok (dN A * dN A) beta y) as (z & E2 & L2 & V2 & _); [rewrite L1, HA; auto|]. rewrite E2. cbn [bind].
    eexists. split; [reflexivity|]. split; [unfold dwf; simpl; rewrite L2, L1; auto|]. split; auto.
    intros i j Hi Hj. unfold denm, mscale. simpl.
    assert (i * dN A + j < dN A * dN A)%nat by nia.
    rewrite V2, V1 by auto. ring.
  Qed.

  Lemma flat_msum (A : dense) (f : nat -> F) (M : mat F) : (forall i j, (i < dN A)%nat -> (j < dN A)%nat -> f (i * dN A + j)%nat = M i j) ->
    bigsum (dN A * dN A) f = msum (dN A) M.
  Proof.
    intros H. rewrite bigsum_flat. apply bigsum_ext. intros i Hi. apply bigsum_ext. intros j Hj. apply H; auto.
  Qed.

  Lemma dense_add_norm_ok (alpha beta : F) (A B : dense) nth sched : dwf A -> dwf B -> dN A = dN B -> full_sched (dN A * dN A) nth sched ->
    exists A', dense_add_norm alpha beta A B nth sched = Ok (A', msum (dN A) (mhad (denm B) (denm B))) /\ dwf A' /\ dN A' = dN A /\
      meq (dN A) (denm A') (madd (mscale alpha (denm A)) (mscale beta (denm B))).
  Proof.
    intros HA HB HN HS. unfold dense_add_norm.
    rewrite (par_sum_ok nth (dN A * dN A) sched _ (fun i => List.nth i (dmx B) 0 * List.nth i (dmx B) 0)); auto.
    2:{ intros i Hi. rewrite (rd_ok (dmx B) i 0) by (rewrite HB, <- HN; auto). auto. }
    cbn [bind]. destruct (dense_add_ok alpha beta A B HA HB HN) as (A' & E & H1 & H2 & H3). rewrite E. cbn [bind].
    exists A'. split; [|auto]. do 2 f_equal. rewrite HN. apply flat_msum. auto.
  Qed.

  Lemma dense_scale_inplace_ok (s : F) (A : dense) : dwf A ->
    exists A', dense_scale_inplace s A = Ok A' /\ dwf A' /\ dN A' = dN A /\ meq (dN A) (denm A') (mscale s (denm A)).
  Proof.
    intros HA. unfold dense_scale_inplace.
    destruct (scal_ok (dN A * dN A) s (dmx A)) as (y & E1 & L1 & V1 & _); [rewrite HA; auto|]. rewrite E1. cbn [bind].
    eexists. split; [reflexivity|]. split; [unfold dwf; simpl; rewrite L1; auto|]. split; auto.
    intros i j Hi Hj. unfold denm, mscale. simpl. apply V1. nia.
  Qed.

  Lemma dense_add_identity_ok (beta : F) (A : dense) sched : dwf A -> Permutation (map snd sched) (seq 0 (dN A)) ->
    exists A', dense_add_identity beta A sched = Ok A' /\ dwf A' /\ dN A' = dN A /\
      meq (dN A) (denm A') (madd (denm A) (mscale beta mid)).
  Proof.
    intros HA HP. unfold dense_add_identity. rewrite par_do_forM. destruct (perm_nodup_seq _ _ HP) as [Hnd Hin].
    destruct (grid_ok A (map snd sched) (fun i => [i]) (fun _ _ x => x + beta) (fun i j (A : dense) => x <- d_at A i j ;; d_put A i j (x + beta)))
      as (A' & E & H1 & H2 & H3); auto.
    - intros i Hi. apply Hin; auto.
    - intros i Hi. split; [repeat constructor; simpl; auto|]. intros j [<-|[]]. apply Hin; auto.
    - intros i j A' Hi [<-|[]] W EN Ed _. apply Hin in Hi. rewrite d_at_ok by (auto; rewrite EN; auto). rewrite Ed. reflexivity.
    - exists A'. split; [|split; auto; split; auto].
      + rewrite <- E. apply forM_ext. intros i A0 Hi. simpl. destruct (x <- d_at A0 i i ;; d_put A0 i i (x + beta)); auto.
      + intros i j Hi Hj. rewrite H3 by auto. rewrite (proj2 (existsb_in i _)) by (apply Hin; auto). simpl. rewrite orb_false_r, Nat.eqb_sym.
        unfold madd, mscale, mid. destruct (i =? j)%nat; ring.
  Qed.

  Lemma dense_scale_add_identity_ok (alpha beta : F) (A : dense) sched : dwf A -> Permutation (map snd sched) (seq 0 (dN A)) ->
    exists A', dense_scale_add_identity alpha beta A sched = Ok A' /\ dwf A' /\ dN A' = dN A /\
      meq (dN A) (denm A') (madd (mscale alpha (denm A)) (mscale beta mid)).
  Proof.
    intros HA HP. unfold dense_scale_add_identity.
    destruct (dense_scale_inplace_ok alpha A HA) as (A1 & E1 & W1 & N1 & V1). rewrite E1. cbn [bind].
    destruct (dense_add_identity_ok beta A1 sched W1) as (A2 & E2 & W2 & N2 & V2); [rewrite N1; auto|].
    exists A2. split; auto. split; auto. split; [congruence|]. intros i j Hi Hj. rewrite V2 by (rewrite N1; auto).
    unfold madd. rewrite V1 by auto. auto.
  Qed.

  (** ** Copy *)

  Lemma dense_copy_new_ok (A : dense) (gv : nat -> F) : dwf A -> dense_copy_new A gv = Ok A.
  Proof.
    intros HA. unfold dense_copy_new. rewrite copy_all by (auto; apply dense_noinit_wf). cbn [bind]. destruct A; auto.
  Qed.

  Lemma dense_copy_ok (A B : dense) : dwf A -> dwf B -> dN A = dN B -> dense_copy A B = Ok A.
  Proof.
    intros HA HB HN. unfold dense_copy. rewrite copy_all by (auto; rewrite HB, HN; auto). cbn [bind]. rewrite <- HN. destruct A; auto.
  Qed.

  Lemma dense_scale_new_ok (s : F) (A : dense) (gv : nat -> F) : dwf A ->
    exists B, dense_scale_new s A gv = Ok B /\ dwf B /\ dN B = dN A /\ meq (dN A) (denm B) (mscale s (denm A)).
  Proof. intros HA. unfold dense_scale_new. rewrite dense_copy_new_ok by auto. cbn [bind]. apply dense_scale_inplace_ok; auto. Qed.

  Lemma dense_scale_ok (s : F) (A B : dense) : dwf A -> dwf B -> dN A = dN B ->
    exists B', dense_scale s A B = Ok B' /\ dwf B' /\ dN B' = dN A /\ meq (dN A) (denm B') (mscale s (denm A)).
  Proof. intros HA HB HN. unfold dense_scale. rewrite dense_copy_ok by auto. cbn [bind]. apply dense_scale_inplace_ok; auto. Qed.

  (** reorder: only the columns are permuted, and in the inverse direction *)
  Lemma dense_reorder_ok (A : dense) perm (gv : nat -> F) s1 s2 : dwf A -> length perm = dN A ->
    (forall i, (i < dN A)%nat -> (nth i perm 0 < dN A)%nat) ->
    Permutation (map snd s1) (seq 0 (dN A)) -> Permutation (map snd s2) (seq 0 (dN A)) ->
    exists A', dense_reorder A perm gv s1 s2 = Ok A' /\ dwf A' /\ dN A' = dN A /\
      meq (dN A) (denm A') (fun i j => denm A i (List.nth j perm 0%nat)).
  Proof.
    intros HA HL HR P1 P2. unfold dense_reorder. rewrite dense_copy_new_ok by auto. cbn [bind]. rewrite !par_do_forM.
    set (N := dN A) in *.
    destruct (perm_nodup_seq _ _ P1) as [_ Hin1].
    assert (G : exists A1, forM (map snd s1) (fun i A0 => pi <- rd perm i ;;
        m <- copy_cells (dmx A0) (ROWMAJOR pi 0 N N) (dmx A) (ROWMAJOR i 0 N N) N ;; Ok (mkDense N m)) A = Ok A1 /\ dwf A1 /\ dN A1 = N).
    { apply wp_ok. apply (forM_inv (fun _ A1 => dwf A1 /\ dN A1 = N)); auto.
      intros pre i post A1 E (W & EN).
      assert (Hi : (i < N)%nat) by (apply Hin1; rewrite E; apply in_app_iff; right; left; auto).
      rewrite (rd_ok perm i 0%nat) by lia. cbn [bind].
      destruct (copy_cells_ok (dmx A1) (ROWMAJOR (nth i perm 0%nat) 0 N N) (dmx A) (ROWMAJOR i 0 N N) N) as (m & Em & Lm & _).
      - rewrite W, EN. specialize (HR i Hi). unfold ROWMAJOR. nia.
      - rewrite HA. unfold ROWMAJOR. fold N. nia.
      - rewrite Em. simpl. split; auto. unfold dwf. simpl. rewrite Lm, W, EN. auto. }
    destruct G as (A1 & E1 & W1 & N1). rewrite E1. cbn [bind].
    destruct (full_grid_ok A1 (map snd s2) (fun i j _ => denm A i (nth j perm 0%nat))
      (fun i j (A0 : dense) => pj <- rd perm j ;; v <- d_at A i pj ;; d_put A0 i j v)) as (A2 & E2 & W2 & N2 & V2); auto.
    - rewrite N1. auto.
    - rewrite N1. intros i j A' Hi Hj _ _ _. rewrite (rd_ok perm j 0%nat) by lia. cbn [bind].
      rewrite d_at_ok; [reflexivity|auto|auto|apply HR; auto].
    - rewrite N1 in *. exists A2. split; [rewrite par_do_forM; auto|auto].
  Qed.

  (** ** Transpose *)

  Lemma dense_transpose_new_ok (A : dense) (gv : nat -> F) sched : dwf A -> Permutation (map snd sched) (seq 0 (dN A)) ->
    exists B, dense_transpose_new A gv sched = Ok B /\ dwf B /\ dN B = dN A /\ meq (dN A) (denm B) (mtrans (denm A)).
  Proof.
    intros HA HP. unfold dense_transpose_new. rewrite par_do_forM.
    apply (full_grid_ok (dense_noinit (dN A) gv) (map snd sched) (fun i j _ => denm A j i) (fun i j (B : dense) => v <- d_at A j i ;; d_put B i j v)); auto.
    - apply dense_noinit_wf.
    - intros i j A' Hi Hj _ _ _. simpl in Hi, Hj. rewrite d_at_ok by auto. reflexivity.
  Qed.

  (** the pairs i < j visited by the in-place transpose *)
  Definition tri_pairs (N : nat) (l : list nat) : list (nat * nat) :=
    flat_map (fun i => map (fun j => (i, j)) (seq (i + 1) (N - (i + 1)))) l.

  Lemma in_tri_pairs N l i j : In (i, j) (tri_pairs N l) <-> In i l /\ (i < j < N)%nat.
  Proof.
    unfold tri_pairs. rewrite in_flat_map. split.
    - intros (x & Hx & Hin). apply in_map_iff in Hin as (y & e & Hy). inversion e; subst. apply in_seq in Hy. split; auto. lia.
    - intros [Hi Hj]. exists i. split; auto. apply in_map_iff. exists j. split; auto. apply in_seq. lia.
  Qed.

  Lemma NoDup_tri_pairs N l : NoDup l -> NoDup (tri_pairs N l).
  Proof.
    induction l as [|i l IH]; intros H; simpl; [constructor|]. apply NoDup_cons_iff in H as [Hi H].
    apply NoDup_app_intro.
    - apply NoDup_map_inj; [apply seq_NoDup|]. intros; congruence.
    - auto.
    - intros [a b] Ha Hb. apply in_map_iff in Ha as (y & e & Hy). inversion e; subst.
      fold (tri_pairs N l) in Hb. apply in_tri_pairs in Hb as [Hb _]. auto.
  Qed.

  Lemma forM_tri {S} N l (body : nat -> nat -> S -> res S) (s : S) :
    forM l (fun i s => forM (seq (i + 1) (N - (i + 1))) (fun j s => body i j s) s) s = forM (tri_pairs N l) (fun '(i, j) s => body i j s) s.
  Proof.
    unfold tri_pairs. rewrite forM_flat_map. apply forM_ext. intros i s' _. rewrite forM_map. auto.
  Qed.

  Lemma eqb_pair_dec (p q : nat * nat) : {p = q} + {p <> q}.
  Proof. decide equality; apply Nat.eq_dec. Qed.
  Definition inb (p : nat * nat) (l : list (nat * nat)) : bool := if in_dec eqb_pair_dec p l then true else false.
  Lemma inb_true p l : inb p l = true <-> In p l.
  Proof. unfold inb. destruct (in_dec eqb_pair_dec p l); split; auto; discriminate. Qed.
  Lemma inb_false p l : inb p l = false <-> ~ In p l.
  Proof. unfold inb. destruct (in_dec eqb_pair_dec p l); split; auto; try discriminate. contradiction. Qed.

  Lemma inb_snoc p q l : inb p (l ++ [q]) = (inb p l || if eqb_pair_dec p q then true else false)%bool.
  Proof.
    destruct (inb p (l ++ [q])) eqn:Ep.
    - apply inb_true in Ep. apply in_app_iff in Ep as [Ep|[Ep|[]]].
      + apply inb_true in Ep. rewrite Ep. auto.
      + subst. destruct (eqb_pair_dec p p); [rewrite orb_true_r; auto|congruence].
    - apply inb_false in Ep. rewrite in_app_iff in Ep. rewrite (proj2 (inb_false p l)) by tauto. simpl.
      destruct (eqb_pair_dec p q) as [->|]; auto. exfalso. apply Ep. right; left; auto.
  Qed.

  Lemma dense_transpose_ok (A : dense) sched : dwf A -> Permutation (map snd sched) (seq 0 (dN A - 1)) ->
    exists A', dense_transpose A sched = Ok A' /\ dwf A' /\ dN A' = dN A /\ meq (dN A) (denm A') (mtrans (denm A)).
  Proof.
    intros HA HP. unfold dense_transpose. rewrite par_do_forM.
    destruct (perm_nodup_seq _ _ HP) as [Hnd Hin].
    rewrite (forM_tri (dN A) (map snd sched) (fun i j (A : dense) => tmp <- d_at A i j ;; w <- d_at A j i ;; A <- d_put A i j w ;; d_put A j i tmp)).
    apply wp_ok.
    apply (wp_mono _ (fun A' => dwf A' /\ dN A' = dN A /\ forall a b, (a < dN A)%nat -> (b < dN A)%nat ->
      denm A' a b = if (inb (a, b) (tri_pairs (dN A) (map snd sched)) || inb (b, a) (tri_pairs (dN A) (map snd sched)))%bool then denm A b a else denm A a b)).
    2:{ intros A' (W & EN & V). split; auto. split; auto. intros i j Hi Hj. rewrite V by auto. unfold mtrans.
        destruct (Nat.eq_dec i j) as [->|Hne]; [destruct (_ || _)%bool; auto|].
        replace (inb (i, j) (tri_pairs (dN A) (map snd sched)) || inb (j, i) (tri_pairs (dN A) (map snd sched)))%bool with true; auto.
        symmetry. apply orb_true_iff. rewrite !inb_true, !in_tri_pairs, !Hin. lia. }
    pose proof (NoDup_tri_pairs (dN A) _ Hnd) as HNP.
    assert (Hb : forall a b, In (a, b) (tri_pairs (dN A) (map snd sched)) -> (a < b < dN A)%nat) by (intros a b H; apply in_tri_pairs in H; tauto).
    revert HNP Hb. generalize (tri_pairs (dN A) (map snd sched)) as P. intros P HNP Hb.
    apply (forM_inv (fun pre A' => dwf A' /\ dN A' = dN A /\ forall a b, (a < dN A)%nat -> (b < dN A)%nat ->
      denm A' a b = if (inb (a, b) pre || inb (b, a) pre)%bool then denm A b a else denm A a b)).
    { repeat split; auto. }
    intros pre [i j] post A1 E (W & EN & V).
    assert (Hij : In (i, j) P) by (rewrite E; apply in_app_iff; right; left; auto).
    pose proof (Hb i j Hij) as Hlt.
    assert (Hnp : ~ In (i, j) pre).
    { rewrite E in HNP. apply NoDup_app_inv in HNP as (_ & _ & Hd). intros Hx. apply (Hd _ Hx). left; auto. }
    assert (Hnp2 : ~ In (j, i) pre).
    { intros Hx. assert (In (j, i) P) by (rewrite E; apply in_app_iff; auto). apply Hb in H. lia. }
    assert (V1 : denm A1 i j = denm A i j).
    { rewrite V by lia. rewrite (proj2 (inb_false _ _) Hnp), (proj2 (inb_false _ _) Hnp2). auto. }
    assert (V2 : denm A1 j i = denm A j i).
    { rewrite V by lia. rewrite (proj2 (inb_false _ _) Hnp), (proj2 (inb_false _ _) Hnp2). auto. }
    rewrite !d_at_ok by (auto; lia). cbn [bind]. apply wp_bind.
    apply d_put_wp; [auto|lia|lia|]. intros A2 W2 N2 V3.
    apply d_put_wp; [auto|lia|lia|]. intros A3 W3 N3 V4.
    split; auto. split; [congruence|]. intros a b Ha Hb'. rewrite V4, V3 by lia.
    rewrite !inb_snoc.
    destruct (Nat.eqb_spec a j) as [->|Ha']; [destruct (Nat.eqb_spec b i) as [->|Hb'']|]; simpl.
    - rewrite V1. destruct (eqb_pair_dec (i, j) (i, j)) as [_|]; [|congruence]. destruct (inb (j, i) pre), (inb (i, j) pre), (eqb_pair_dec (j, i) (i, j)); reflexivity.
    - destruct (Nat.eqb_spec j i); [lia|]. simpl. rewrite V by lia.
      destruct (eqb_pair_dec (j, b) (i, j)) as [e|]; [inversion e; lia|].
      destruct (eqb_pair_dec (b, j) (i, j)) as [e|]; [inversion e; lia|]. rewrite !orb_false_r. auto.
    - destruct (Nat.eqb_spec a i) as [->|Ha'']; [destruct (Nat.eqb_spec b j) as [->|Hb'']|]; simpl.
      + rewrite V2. destruct (eqb_pair_dec (i, j) (i, j)) as [_|]; [|congruence]. destruct (inb (i, j) pre); reflexivity.
      + rewrite V by lia. destruct (eqb_pair_dec (i, b) (i, j)) as [e|]; [inversion e; lia|].
        destruct (eqb_pair_dec (b, i) (i, j)) as [e|]; [inversion e; lia|]. rewrite !orb_false_r. auto.
      + rewrite V by lia. destruct (eqb_pair_dec (a, b) (i, j)) as [e|]; [inversion e; lia|].
        destruct (eqb_pair_dec (b, a) (i, j)) as [e|]; [inversion e; lia|]. rewrite !orb_false_r. auto.
  Qed.

  (** ** Triangles *)

  Lemma tri_u_ok (conj : F -> F) (A : dense) sched : dwf A -> Permutation (map snd sched) (seq 0 (dN A)) ->
    exists A', tri_u conj A sched = Ok A' /\ dwf A' /\ dN A' = dN A /\
      meq (dN A) (denm A') (fun i j => if (j <? i)%nat then conj (denm A j i) else denm A i j).
  Proof.
    intros HA HP. unfold tri_u. rewrite par_do_forM. destruct (perm_nodup_seq _ _ HP) as [Hnd Hin].
    rewrite (forM_tri (dN A) (map snd sched) (fun i j (A : dense) => v <- d_at A i j ;; d_put A j i (conj v))).
    apply wp_ok.
    apply (wp_mono _ (fun A' => dwf A' /\ dN A' = dN A /\ forall a b, (a < dN A)%nat -> (b < dN A)%nat ->
      denm A' a b = if inb (b, a) (tri_pairs (dN A) (map snd sched)) then conj (denm A b a) else denm A a b)).
    2:{ intros A' (W & EN & V). split; auto. split; auto. intros i j Hi Hj. rewrite V by auto.
        destruct (inb (j, i) (tri_pairs (dN A) (map snd sched))) eqn:E.
        - apply inb_true in E. apply in_tri_pairs in E. destruct (Nat.ltb_spec j i); [auto|lia].
        - apply inb_false in E. rewrite in_tri_pairs, Hin in E. destruct (Nat.ltb_spec j i); [lia|auto]. }
    assert (Hb : forall a b, In (a, b) (tri_pairs (dN A) (map snd sched)) -> (a < b < dN A)%nat) by (intros a b H; apply in_tri_pairs in H; tauto).
    revert Hb. generalize (tri_pairs (dN A) (map snd sched)) as P. intros P Hb.
    apply (forM_inv (fun pre A' => dwf A' /\ dN A' = dN A /\ forall a b, (a < dN A)%nat -> (b < dN A)%nat ->
      denm A' a b = if inb (b, a) pre then conj (denm A b a) else denm A a b)).
    { repeat split; auto. }
    intros pre [i j] post A1 E (W & EN & V).
    assert (Hij : In (i, j) P) by (rewrite E; apply in_app_iff; right; left; auto).
    pose proof (Hb i j Hij) as Hlt.
    assert (Hnp2 : ~ In (j, i) pre).
    { intros Hx. assert (In (j, i) P) by (rewrite E; apply in_app_iff; auto). apply Hb in H. lia. }
    rewrite d_at_ok by (auto; lia). cbn [bind].
    apply d_put_wp; [auto|lia|lia|]. intros A2 W2 N2 V3.
    split; auto. split; [congruence|]. intros a b Ha Hb'. rewrite V3 by lia. rewrite inb_snoc.
    rewrite !V by lia. rewrite (proj2 (inb_false _ _) Hnp2).
    destruct (Nat.eqb_spec a j) as [->|Ha']; [destruct (Nat.eqb_spec b i) as [->|Hb'']|]; simpl.
    - destruct (eqb_pair_dec (i, j) (i, j)); [|congruence]. rewrite orb_true_r. auto.
    - destruct (eqb_pair_dec (b, j) (i, j)) as [e|]; [inversion e; lia|]. rewrite orb_false_r. auto.
    - destruct (eqb_pair_dec (b, a) (i, j)) as [e|]; [inversion e; lia|]. rewrite orb_false_r. auto.
  Qed.

  Lemma tri_l_ok (conj : F -> F) (A : dense) sched : dwf A -> Permutation (map snd sched) (seq 0 (dN A)) ->
    exists A', tri_l conj A sched = Ok A' /\ dwf A' /\ dN A' = dN A /\
      meq (dN A) (denm A') (fun i j => if (i <? j)%nat then conj (denm A j i) else denm A i j).
  Proof.
    intros HA HP. unfold tri_l. rewrite par_do_forM. destruct (perm_nodup_seq _ _ HP) as [Hnd Hin].
    rewrite (forM_tri (dN A) (map snd sched) (fun i j (A : dense) => v <- d_at A j i ;; d_put A i j (conj v))).
    apply wp_ok.
    apply (wp_mono _ (fun A' => dwf A' /\ dN A' = dN A /\ forall a b, (a < dN A)%nat -> (b < dN A)%nat ->
      denm A' a b = if inb (a, b) (tri_pairs (dN A) (map snd sched)) then conj (denm A b a) else denm A a b)).
    2:{ intros A' (W & EN & V). split; auto. split; auto. intros i j Hi Hj. rewrite V by auto.
        destruct (inb (i, j) (tri_pairs (dN A) (map snd sched))) eqn:E.
        - apply inb_true in E. apply in_tri_pairs in E. destruct (Nat.ltb_spec i j); [auto|lia].
        - apply inb_false in E. rewrite in_tri_pairs, Hin in E. destruct (Nat.ltb_spec i j); [lia|auto]. }
    assert (Hb : forall a b, In (a, b) (tri_pairs (dN A) (map snd sched)) -> (a < b < dN A)%nat) by (intros a b H; apply in_tri_pairs in H; tauto).
    revert Hb. generalize (tri_pairs (dN A) (map snd sched)) as P. intros P Hb.
    apply (forM_inv (fun pre A' => dwf A' /\ dN A' = dN A /\ forall a b, (a < dN A)%nat -> (b < dN A)%nat ->
      denm A' a b = if inb (a, b) pre then conj (denm A b a) else denm A a b)).
    { repeat split; auto. }
    intros pre [i j] post A1 E (W & EN & V).
    assert (Hij : In (i, j) P) by (rewrite E; apply in_app_iff; right; left; auto).
    pose proof (Hb i j Hij) as Hlt.
    assert (Hnp2 : ~ In (j, i) pre).
    { intros Hx. assert (In (j, i) P) by (rewrite E; apply in_app_iff; auto). apply Hb in H. lia. }
    rewrite d_at_ok by (auto; lia). cbn [bind].
    apply d_put_wp; [auto|lia|lia|]. intros A2 W2 N2 V3.
    split; auto. split; [congruence|]. intros a b Ha Hb'. rewrite V3 by lia. rewrite inb_snoc.
    rewrite !V by lia. rewrite (proj2 (inb_false _ _) Hnp2).
    destruct (Nat.eqb_spec a i) as [->|Ha']; [destruct (Nat.eqb_spec b j) as [->|Hb'']|]; simpl.
    - destruct (eqb_pair_dec (i, j) (i, j)); [|congruence]. rewrite orb_true_r. auto.
    - destruct (eqb_pair_dec (i, b) (i, j)) as [e|]; [inversion e; lia|]. rewrite orb_false_r. auto.
    - destruct (eqb_pair_dec (a, b) (i, j)) as [e|]; [inversion e; lia|]. rewrite orb_false_r. auto.
  Qed.

  Definition mirrored (t : triangle) (f : F -> F) (X : mat F) : mat F :=
    fun i j => match t with
               | TriU => if (j <? i)%nat then f (X j i) else X i j
               | TriL => if (i <? j)%nat then f (X j i) else X i j
               | TriOther => X i j
               end.
  Lemma dense_adjungate_triangle_ok (conj : F -> F) (A : dense) t sched :
    dwf A -> Permutation (map snd sched) (seq 0 (dN A)) ->
    match t with
    | TriOther => dense_adjungate_triangle conj A t sched = Err
    | _ => exists A', dense_adjungate_triangle conj A t sched = Ok A' /\ dwf A' /\ dN A' = dN A /\
             meq (dN A) (denm A') (mirrored t conj (denm A))
    end.
  Proof. intros W P. destruct t; [apply tri_u_ok; assumption|apply tri_l_ok; assumption|reflexivity]. Qed.
  Lemma dense_transpose_triangle_ok (A : dense) t sched :
    dwf A -> Permutation (map snd sched) (seq 0 (dN A)) ->
    exists A', dense_transpose_triangle A t sched = Ok A' /\ dwf A' /\ dN A' = dN A /\
      meq (dN A) (denm A') (mirrored t (fun x => x) (denm A)).
  Proof.
    intros W P. destruct t; [apply tri_u_ok; assumption|apply tri_l_ok; assumption|].
    exists A. split; [reflexivity|]. split; [exact W|]. split; [reflexivity|]. intros i j _ _. reflexivity.
  Qed.

  (** ** Threshold *)

  Lemma dense_threshold_new_ok (keep : F -> bool) (A : dense) sched : dwf A -> Permutation (map snd sched) (seq 0 (dN A * dN A)) ->
    exists B, dense_threshold_new keep A sched = Ok B /\ dwf B /\ dN B = dN A /\ meq (dN A) (denm B) (mcut keep (denm A)).
  Proof.
    intros HA HP. unfold dense_threshold_new. rewrite par_do_forM.
    assert (Z : forall i, nth i (dmx (dense_zero (dN A) : dense)) 0 = 0) by (intros i; simpl; apply nth_repeat_any).
    destruct (flat_ok (map snd sched) (dN A * dN A) (fun i _ => cut keep (nth i (dmx A) 0))
      (fun i (b : list F) => a <- rd (dmx A) i ;; if keep a then wr b i a else Ok b) (dmx (dense_zero (dN A) : dense))) as (b & E & L & V & _); auto.
    - simpl. rewrite repeat_length. auto.
    - intros i b Hi Lb Eb. rewrite (rd_ok (dmx A) i 0) by (rewrite HA; auto). cbn [bind].
      simpl in Lb. rewrite repeat_length in Lb. unfold cut. destruct (keep (nth i (dmx A) 0)).
      + apply wr_ok. lia.
      + rewrite Z in Eb. f_equal. rewrite <- Eb. symmetry. apply set_nth_same.
    - rewrite E. cbn [bind]. eexists. split; [reflexivity|]. simpl in L. rewrite repeat_length in L. split; [exact L|]. split; auto.
      intros i j Hi Hj. unfold denm, mcut. simpl. rewrite V by nia. auto.
  Qed.

  Lemma dense_threshold_ok (keep : F -> bool) (A : dense) sched : dwf A -> Permutation (map snd sched) (seq 0 (dN A * dN A)) ->
    exists B, dense_threshold keep A sched = Ok B /\ dwf B /\ dN B = dN A /\ meq (dN A) (denm B) (mcut keep (denm A)).
  Proof.
    intros HA HP. unfold dense_threshold. rewrite par_do_forM.
    destruct (flat_ok (map snd sched) (dN A * dN A) (fun i x => cut keep x)
      (fun i (a : list F) => x <- rd a i ;; if keep x then Ok a else wr a i 0) (dmx A)) as (b & E & L & V & _); auto.
    - rewrite HA. auto.
    - intros i b Hi Lb Eb. rewrite HA in Lb. rewrite (rd_ok b i 0) by (rewrite Lb; auto). cbn [bind].
      rewrite Eb. unfold cut. destruct (keep (nth i (dmx A) 0)).
      + f_equal. rewrite <- Eb. symmetry. apply set_nth_same.
      + apply wr_ok. lia.
    - rewrite E. cbn [bind]. eexists. split; [reflexivity|]. split; [unfold dwf; simpl; rewrite L; auto|]. split; auto.
      intros i j Hi Hj. unfold denm, mcut. simpl. rewrite V by nia. auto.
  Qed.

  (** ** Traces and norms *)

  Lemma dense_trace_ok (A : dense) nth sched : dwf A -> full_sched (dN A) nth sched ->
    dense_trace A nth sched = Ok (mtrace (dN A) (denm A)).
  Proof. intros HA HS. apply (par_sum_ok nth (dN A)); auto. intros i Hi. apply d_at_ok; auto. Qed.

  Lemma cells_sum (A : dense) nth sched (f : nat -> res F) (M : mat F) : full_sched (dN A * dN A) nth sched ->
    (forall i j, (i < dN A)%nat -> (j < dN A)%nat -> f (i * dN A + j)%nat = Ok (M i j)) ->
    par_sum nth sched f = Ok (msum (dN A) M).
  Proof.
    intros HS Hf.
    set (g := fun p => M (p / dN A)%nat (p mod dN A)%nat).
    rewrite (par_sum_ok nth (dN A * dN A) sched f g HS).
    - f_equal. apply flat_msum. intros i j Hi Hj. unfold g.
      rewrite Nat.add_comm, Nat.div_add, Nat.div_small, Nat.mod_add, Nat.mod_small by lia. auto.
    - intros p Hp. assert (HN : dN A <> 0%nat) by (intros Hz; rewrite Hz in Hp; simpl in Hp; lia).
      rewrite (Nat.div_mod p (dN A)) at 1 by auto. rewrite Nat.mul_comm. unfold g. apply Hf.
      + apply Nat.div_lt_upper_bound; auto.
      + apply Nat.mod_upper_bound. auto.
  Qed.

  Lemma rd_cell (A : dense) i j : dwf A -> (i < dN A)%nat -> (j < dN A)%nat -> rd (dmx A) (i * dN A + j)%nat = Ok (denm A i j).
  Proof. apply d_at_ok. Qed.

  Lemma rd_cell2 (A B : dense) i j : dwf B -> dN A = dN B -> (i < dN A)%nat -> (j < dN A)%nat -> rd (dmx B) (i * dN A + j)%nat = Ok (denm B i j).
  Proof. intros HB HN Hi Hj. rewrite HN in *. apply d_at_ok; auto. Qed.

  Lemma dense_trace_mult_ok (A B : dense) nth sched : dwf A -> dwf B -> dN A = dN B -> full_sched (dN A * dN A) nth sched ->
    dense_trace_mult A B nth sched = Ok (msum (dN A) (mhad (denm A) (denm B))).
  Proof.
    intros HA HB HN HS. unfold dense_trace_mult. rewrite HN, Nat.eqb_refl, <- HN. simpl. apply cells_sum; auto.
    intros i j Hi Hj. rewrite rd_cell, rd_cell2 by auto. auto.
  Qed.

  Lemma dense_trace_mult_rejects (A B : dense) nth sched : dN A <> dN B -> dense_trace_mult A B nth sched = Err.
  Proof. intros H. unfold dense_trace_mult. destruct (Nat.eqb_spec (dN A) (dN B)); [congruence|auto]. Qed.

  Lemma dense_sum_squares_ok (A : dense) nth sched : dwf A -> full_sched (dN A * dN A) nth sched ->
    dense_sum_squares A nth sched = Ok (msum (dN A) (mhad (denm A) (denm A))).
  Proof. intros HA HS. apply cells_sum; auto. intros i j Hi Hj. rewrite rd_cell by auto. auto. Qed.

  (** the sub-matrix variant sums the complete first rows *)
  Lemma dense_sum_squares_submatrix_ok (A : dense) core nth sched : dwf A -> (core <= dN A)%nat -> full_sched (core * dN A) nth sched ->
    dense_sum_squares A nth sched = Ok (bigsum core (fun i => bigsum (dN A) (fun j => denm A i j * denm A i j))).
  Proof.
    intros HA Hc HS. unfold dense_sum_squares.
    rewrite (par_sum_ok nth (core * dN A) sched _ (fun p => List.nth p (dmx A) 0 * List.nth p (dmx A) 0) HS).
    - rewrite bigsum_flat. auto.
    - intros i Hi. rewrite (rd_ok (dmx A) i 0) by (rewrite HA; nia). auto.
  Qed.

  Lemma dense_sum_AB_ok (keep : F -> bool) (A B : dense) (alpha : F) nth sched : dwf A -> dwf B -> dN A = dN B -> full_sched (dN A * dN A) nth sched ->
    dense_sum_AB keep A B alpha nth sched = Ok (msum (dN A) (mcut keep (mscale alpha (mhad (denm A) (denm B))))).
  Proof.
    intros HA HB HN HS. apply cells_sum; auto. intros i j Hi Hj. rewrite rd_cell, rd_cell2 by auto. cbn [bind].
    unfold mcut, mscale, mhad, cut. replace (alpha * (denm A i j * denm B i j)) with (alpha * denm A i j * denm B i j) by ring. auto.
  Qed.

  Lemma dense_sum_squares2_ok (keep : F -> bool) (A B : dense) (alpha beta : F) nth sched : dwf A -> dwf B -> dN A = dN B -> full_sched (dN A * dN A) nth sched ->
    dense_sum_squares2 keep A B alpha beta nth sched =
    Ok (let S := mcut keep (madd (mscale alpha (denm A)) (mscale beta (denm B))) in msum (dN A) (mhad S S)).
  Proof.
    intros HA HB HN HS. apply cells_sum; auto. intros i j Hi Hj. rewrite rd_cell, rd_cell2 by auto. cbn [bind].
    unfold mcut, madd, mscale, mhad, cut. destruct (keep _); [auto|]. f_equal. ring.
  Qed.

  (** ** fnorm2: the result when the two statements of an iteration are not
      separated by another thread *)
  Definition atomic_trace (sched : list (nat * nat)) : list (nat * f2_event) :=
    flat_map (fun '(t, i) => [(t, EvWr i); (t, EvAcc)]) sched.

  Lemma dense_fnorm2_atomic_ok (A B : dense) nth sched : dwf A -> dwf B -> dN A = dN B -> full_sched (dN A * dN A) nth sched ->
    dense_fnorm2_sq A B nth (atomic_trace sched) =
    Ok (msum (dN A) (fun i j => (denm A i j - denm B i j) * (denm A i j - denm B i j))).
  Proof.
    intros HA HB HN HS.
    assert (E : par_sum nth sched (fun i => a <- rd (dmx A) i ;; b <- rd (dmx B) i ;; Ok ((a - b) * (a - b))) =
      Ok (msum (dN A) (fun i j => (denm A i j - denm B i j) * (denm A i j - denm B i j)))).
    { apply cells_sum; auto. intros i j Hi Hj. rewrite rd_cell, rd_cell2 by auto. auto. }
    rewrite <- E. clear E HS. unfold dense_fnorm2_sq, par_sum.
    set (body := fun i '(s, sum) => v <- (a <- rd (dmx A) i ;; b <- rd (dmx B) i ;; Ok ((a - b) * (a - b))) ;; Ok (s : unit, sum + v)).
    assert (G : forall sched (temp : option F) (w : nat -> F),
      match forM (atomic_trace sched) (fnorm2_step A B) (temp, w), par_for sched body tt w with
      | Ok (_, w1), Ok (_, w2) => w1 = w2 | Err, Err => True | UB, UB => True | Loop, Loop => True | _, _ => False end).
    { clear sched. induction sched as [|[t i] sched IH]; intros temp w; simpl; auto.
      destruct (rd (dmx A) i); simpl; auto. destruct (rd (dmx B) i); simpl; auto. apply IH. }
    specialize (G sched None (fun _ => 0)).
    destruct (forM (atomic_trace sched) (fnorm2_step A B) (None, fun _ => 0)) as [[t1 w1]| | |];
      destruct (par_for sched body tt (fun _ => 0)) as [[t2 w2]| | |]; try contradiction; simpl; auto.
    subst. auto.
  Qed.

  (** ** Products *)

  Lemma dense_multiply_ok (alpha beta : F) (A B C : dense) : dwf A -> dwf B -> dwf C -> dN A = dN B -> dN A = dN C -> (0 < dN A)%nat ->
    exists C', dense_multiply alpha beta A B C = Ok C' /\ dwf C' /\ dN C' = dN A /\
      meq (dN A) (denm C') (madd (mscale alpha (mmul (dN A) (denm A) (denm B))) (mscale beta (denm C))).
  Proof.
    intros HA HB HC HNB HNC Hp. unfold dense_multiply.
    destruct (gemm_spec (fun x => x) TrN TrN (dN A) (dN A) (dN A) alpha (dmx B) (dmx A) beta (dmx C)) as (c & E & L & V & _); try discriminate; auto.
    - rewrite HB, HNB; auto.
    - rewrite HA; auto.
    - rewrite HC, HNC; auto.
    - cbn [is_N] in E, V. rewrite !(Nat.max_r 1 (dN A)) in * by lia. rewrite E. cbn [bind].
      eexists. split; [reflexivity|]. split; [unfold dwf; simpl; rewrite L; auto|]. split; auto.
      intros i j Hi Hj. specialize (V j i Hj Hi). unfold colm in V. unfold denm at 1. simpl.
      rewrite <- HNC. rewrite Nat.add_comm. rewrite V. unfold madd, mscale, mmul. f_equal; [f_equal|].
      + apply bigsum_ext. intros k Hk. unfold opm, denm. rewrite <- HNB. rewrite (Nat.add_comm j), (Nat.add_comm k). ring.
      + unfold denm. rewrite <- HNC. rewrite (Nat.add_comm j). auto.
  Qed.

  Lemma dense_multiply_N0 (alpha beta : F) (A B C : dense) : dN A = 0%nat -> dense_multiply alpha beta A B C = Err.
  Proof. intros H. unfold dense_multiply. rewrite H. reflexivity. Qed.

  Lemma dense_multiply_AB_ok (A B C : dense) : dwf A -> dwf B -> dwf C -> dN A = dN B -> dN A = dN C -> (0 < dN A)%nat ->
    exists C', dense_multiply_AB A B C = Ok C' /\ dwf C' /\ dN C' = dN A /\
      meq (dN A) (denm C') (mmul (dN A) (denm A) (denm B)).
  Proof.
    intros HA HB HC HNB HNC Hp. destruct (dense_multiply_ok 1 0 A B C) as (C' & E & H1 & H2 & H3); auto.
    exists C'. split; auto. split; auto. split; auto. intros i j Hi Hj. rewrite H3 by auto. unfold madd, mscale. ring.
  Qed.

  Lemma dense_multiply_x2_ok (X X2 : dense) nth s1 s2 : dwf X -> dwf X2 -> dN X = dN X2 -> (0 < dN X)%nat ->
    full_sched (dN X) nth s1 -> full_sched (dN X) nth s2 ->
    exists Y, dense_multiply_x2 X X2 nth s1 s2 = Ok (Y, mtrace (dN X) (denm X), mtrace (dN X) (mmul (dN X) (denm X) (denm X))) /\
      dwf Y /\ dN Y = dN X /\ meq (dN X) (denm Y) (mmul (dN X) (denm X) (denm X)).
  Proof.
    intros HX HX2 HN Hp S1 S2. unfold dense_multiply_x2. rewrite dense_trace_ok by auto. cbn [bind].
    destruct (dense_multiply_AB_ok X X X2) as (Y & E & H1 & H2 & H3); auto.
    unfold dense_multiply_AB in E. rewrite E. cbn [bind]. rewrite dense_trace_ok by (auto; rewrite H2; auto). cbn [bind].
    exists Y. split; auto. rewrite H2. f_equal. f_equal. unfold mtrace. apply bigsum_ext. intros i Hi. apply H3; auto.
  Qed.

  (** multiply_adjust_AB stores the transpose of ... : C = (B A) read by columns, i.e. C_ij = sum_k A_ki ... *)
  Lemma dense_multiply_adjust_AB_ok (A B C : dense) : dwf A -> dwf B -> dwf C -> dN A = dN B -> dN A = dN C -> (0 < dN A)%nat ->
    exists C', dense_multiply_adjust_AB A B C = Ok C' /\ dwf C' /\ dN C' = dN A /\
      meq (dN A) (denm C') (mtrans (mmul (dN A) (denm A) (denm B))).
  Proof.
    intros HA HB HC HNB HNC Hp. unfold dense_multiply_adjust_AB.
    destruct (gemm_spec (fun x => x) TrT TrT (dN A) (dN A) (dN A) 1 (dmx A) (dmx B) 0 (dmx C)) as (c & E & L & V & _); try discriminate; auto.
    - rewrite HA; auto.
    - rewrite HB, HNB; auto.
    - rewrite HC, HNC; auto.
    - cbn [is_N] in E, V. rewrite !(Nat.max_r 1 (dN A)) in * by lia. rewrite E. cbn [bind].
      eexists. split; [reflexivity|]. split; [unfold dwf; simpl; rewrite L; auto|]. split; auto.
      intros i j Hi Hj. specialize (V j i Hj Hi). unfold colm in V. unfold denm at 1. simpl.
      rewrite <- HNC. rewrite Nat.add_comm. rewrite V. unfold mtrans, mmul.
      transitivity (bigsum (dN A) (fun k => denm A j k * denm B k i)); [|auto].
      match goal with |- 1 * ?s + 0 * _ = _ => replace (bigsum (dN A) (fun k => denm A j k * denm B k i)) with s; [ring|] end.
      apply bigsum_ext. intros k Hk. unfold opm, mtrans, denm. rewrite <- HNB. rewrite (Nat.add_comm k), (Nat.add_comm i). auto.
  Qed.

  Lemma dense_element_multiply_AB_ok (A B C : dense) sched : dwf A -> dwf B -> dwf C -> dN A = dN B -> dN A = dN C ->
    Permutation (map snd sched) (seq 0 (dN A * dN A)) ->
    exists C', dense_element_multiply_AB A B C sched = Ok C' /\ dwf C' /\ dN C' = dN A /\
      meq (dN A) (denm C') (mhad (denm A) (denm B)).
  Proof.
    intros HA HB HC HNB HNC HP. unfold dense_element_multiply_AB. rewrite par_do_forM.
    destruct (flat_ok (map snd sched) (dN A * dN A) (fun i _ => nth i (dmx A) 0 * nth i (dmx B) 0)
      (fun i (c : list F) => a <- rd (dmx A) i ;; b <- rd (dmx B) i ;; wr c i (a * b)) (dmx C)) as (c & E & L & V & _); auto.
    - rewrite HC, HNC; auto.
    - intros i c' Hi Lc _. rewrite (rd_ok (dmx A) i 0) by (rewrite HA; auto). cbn [bind].
      rewrite (rd_ok (dmx B) i 0) by (rewrite HB, <- HNB; auto). cbn [bind]. apply wr_ok. rewrite Lc, HC, <- HNC. auto.
    - rewrite E. cbn [bind]. eexists. split; [reflexivity|]. split; [unfold dwf; simpl; rewrite L; auto|]. split; auto.
      intros i j Hi Hj. unfold denm, mhad. simpl. rewrite <- HNC, <- HNB. apply V. nia.
  Qed.

  (** ** Introspection *)

  Lemma count_loop n (p : nat -> bool) (f : nat -> res F) (g : F -> bool) m0 :
    (forall j, (j < n)%nat -> exists v, f j = Ok v /\ g v = p j) ->
    for_n n (fun j m => v <- f j ;; Ok (if g v then S m else m)) m0 = Ok (m0 + count n p)%nat.
  Proof.
    intros Hf. apply wp_eq.
    apply (for_n_inv (fun k m => m = (m0 + count k p)%nat)).
    - unfold count. simpl. lia.
    - intros k m Hk ->. destruct (Hf k Hk) as (v & E & Eg). rewrite E. cbn [bind wp wpq]. rewrite Eg.
      unfold count. rewrite seq_S, filter_app, app_length. simpl. destruct (p k); simpl; lia.
  Qed.

  Lemma dense_row_bandwidth_ok (nz : F -> bool) (A : dense) i : dwf A -> (i < dN A)%nat ->
    dense_row_bandwidth nz A i = Ok (count (dN A) (fun j => nz (denm A i j))).
  Proof.
    intros HA Hi. unfold dense_row_bandwidth. apply (count_loop (dN A) (fun j => nz (denm A i j)) (fun j => d_at A i j) nz 0%nat).
    intros j Hj. eexists. split; [apply d_at_ok; auto|auto].
  Qed.

  Lemma dense_bandwidth_ok (nz : F -> bool) (A : dense) : dwf A ->
    exists n, dense_bandwidth nz A = Ok n /\ (forall i, (i < dN A)%nat -> (count (dN A) (fun j => nz (denm A i j)) <= n)%nat) /\
      (n = 0%nat \/ exists i, (i < dN A)%nat /\ n = count (dN A) (fun j => nz (denm A i j))).
  Proof.
    intros HA. apply wp_ok. unfold dense_bandwidth.
    eapply wp_mono.
    - apply (for_n_inv (fun k n => (forall i, (i < k)%nat -> (count (dN A) (fun j => nz (denm A i j)) <= n)%nat) /\
        (n = 0%nat \/ exists i, (i < dN A)%nat /\ n = count (dN A) (fun j => nz (denm A i j))))).
      + split; auto. intros; lia.
      + intros k n Hk [H1 H2]. rewrite dense_row_bandwidth_ok by auto. cbn [bind wp wpq].
        set (c := count (dN A) (fun j => nz (denm A k j))).
        split.
        * intros i Hi. destruct (Nat.eq_dec i k) as [->|Hne].
          -- fold c. destruct (Nat.ltb_spec n c); lia.
          -- specialize (H1 i ltac:(lia)). destruct (Nat.ltb_spec n c); lia.
        * destruct (Nat.ltb_spec n c); auto. right. exists k. auto.
    - auto.
  Qed.

  Lemma dense_nnz_above_ok (keep : F -> bool) (A : dense) : dwf A ->
    dense_nnz_above keep A = Ok (nsum (dN A) (fun i => count (dN A) (fun j => keep (denm A i j)))).
  Proof.
    intros HA. apply wp_eq. unfold dense_nnz_above.
    apply (for_n_inv (fun k n => n = nsum k (fun i => count (dN A) (fun j => keep (denm A i j))))); auto.
    intros i n Hi ->. rewrite (count_loop (dN A) (fun j => keep (denm A i j)) (fun j => d_at A i j) keep).
    - simpl. auto.
    - intros j Hj. eexists. split; [apply d_at_ok; auto|auto].
  Qed.

  (** ** Submatrices *)

  Lemma dense_extract_submatrix_ok (A : dense) irow icol BN : dwf A -> (irow + BN <= dN A)%nat -> (icol + BN <= dN A)%nat ->
    exists B, dense_extract_submatrix A irow icol BN = Ok B /\ dwf B /\ dN B = BN /\
      meq BN (denm B) (fun i j => denm A (irow + i)%nat (icol + j)%nat).
  Proof.
    intros HA Hr Hc. unfold dense_extract_submatrix.
    destruct (dense_zero_ok BN) as (Z1 & Z2 & Z3).
    destruct (grid_seq_ok (dense_zero BN : dense) (fun i j _ => denm A (irow + i)%nat (icol + j)%nat)
      (fun i j (B : dense) => v <- d_at A (irow + i) (icol + j) ;; d_put B i j v)) as (B & E & H1 & H2 & H3); auto.
    { intros i j B Hi Hj _ _ _. simpl in Hi, Hj. rewrite d_at_ok by (auto; lia). auto. }
    exists B. split; [|auto]. rewrite <- E. change (dN (dense_zero BN : dense)) with BN. unfold for_n.
    assert (S : forall a n, seq a n = map (fun k => (a + k)%nat) (seq 0 n)).
    { intros a n. apply (list_ext_nth _ _ 0%nat); [rewrite map_length, !seq_length; auto|].
      intros i Hi. rewrite seq_length in Hi. rewrite nth_map_seq, seq_nth by auto. auto. }
    rewrite (S irow), forM_map. apply forM_ext. intros i B0 Hi.
    rewrite (S icol), forM_map. apply forM_ext. intros j B1 Hj.
    rewrite !Nat.add_sub_swap, !Nat.sub_diag by lia. auto.
  Qed.

  Lemma dense_assign_submatrix_ok (A B : dense) irow icol : dwf A -> dwf B -> (irow + dN B <= dN A)%nat -> (icol + dN B <= dN A)%nat ->
    exists A', dense_assign_submatrix A B irow icol = Ok A' /\ dwf A' /\ dN A' = dN A /\
      meq (dN A) (denm A') (fun i j => if ((irow <=? i) && (i <? irow + dN B) && (icol <=? j) && (j <? icol + dN B))%nat
                                       then denm B (i - irow)%nat (j - icol)%nat else denm A i j).
  Proof.
    intros HA HB Hr Hc. unfold dense_assign_submatrix. apply wp_ok.
    eapply wp_mono.
    - apply (for_n_inv (fun k A' => dwf A' /\ dN A' = dN A /\
        meq (dN A) (denm A') (fun i j => if ((irow <=? i) && (i <? irow + k) && (icol <=? j) && (j <? icol + dN B))%nat
                                       then denm B (i - irow)%nat (j - icol)%nat else denm A i j))).
      + split; auto. split; auto. intros i j Hi Hj. rewrite Nat.add_0_r.
        destruct (Nat.leb_spec irow i), (Nat.ltb_spec i irow); try lia; auto.
      + intros k A1 Hk (W & EN & V).
        destruct (copy_cells_ok (dmx A1) (ROWMAJOR (k + irow) icol (dN A) (dN A)) (dmx B) (ROWMAJOR k 0 (dN B) (dN B)) (dN B)) as (m & E & L & U).
        * rewrite W, EN. unfold ROWMAJOR. nia.
        * rewrite HB. unfold ROWMAJOR. nia.
        * rewrite E. cbn [bind wp wpq]. split; [unfold dwf; simpl; rewrite L, W, EN; auto|]. split; auto.
          intros i j Hi Hj. unfold denm at 1. cbn [dmx dN]. rewrite U. unfold ROWMAJOR.
          specialize (V i j Hi Hj). unfold denm at 1 in V. rewrite EN in V. rewrite V.
          destruct (Nat.eq_dec i (k + irow)) as [->|Hne].
          -- destruct (Nat.leb_spec irow (k + irow)); [|lia]. destruct (Nat.ltb_spec (k + irow) (irow + k)); [lia|].
             destruct (Nat.ltb_spec (k + irow) (irow + S k)); [|lia]. cbn [andb].
             destruct (Nat.leb_spec icol j).
             ++ destruct (Nat.leb_spec ((k + irow) * dN A + icol) ((k + irow) * dN A + j)); [|lia]. cbn [andb].
                destruct (Nat.ltb_spec j (icol + dN B)).
                ** destruct (Nat.ltb_spec ((k + irow) * dN A + j) ((k + irow) * dN A + icol + dN B)); [|lia].
                   unfold denm. f_equal. replace (k + irow - irow)%nat with k by lia. lia.
                ** destruct (Nat.ltb_spec ((k + irow) * dN A + j) ((k + irow) * dN A + icol + dN B)); [lia|]. auto.
             ++ destruct (Nat.leb_spec ((k + irow) * dN A + icol) ((k + irow) * dN A + j)); [lia|]. auto.
          -- replace (((k + irow) * dN A + icol <=? i * dN A + j) && (i * dN A + j <? (k + irow) * dN A + icol + dN B))%nat with false.
             ++ replace (i <? irow + S k)%nat with (i <? irow + k)%nat; auto.
                destruct (Nat.ltb_spec i (irow + k)), (Nat.ltb_spec i (irow + S k)); auto; lia.
             ++ symmetry. apply andb_false_iff.
                destruct (Nat.lt_ge_cases i (k + irow)) as [Hlt|Hge].
                ** left. apply Nat.leb_gt. nia.
                ** right. apply Nat.ltb_ge. nia.
    - auto.
  Qed.
End DenseOps.
