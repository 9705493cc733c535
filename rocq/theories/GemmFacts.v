(** Proofs about the built-in gemm (GemmModel). *)
From Verif Require Import Base BaseFacts Spec SpecFacts EllpackModel GemmModel DenseModel DenseSpec.
From Coq Require Import Ring.

(** A loop whose iteration x rewrites exactly the cell [pos x], with different
    positions for different x: the order of the iterations is irrelevant. *)
Lemma sweep_ok {A X} (d : A) (pos : X -> nat) (h : X -> A -> A) (body : X -> list A -> res (list A)) (l : list X) (c : list A) :
  NoDup (map pos l) ->
  (forall x, In x l -> pos x < length c) ->
  (forall x c', In x l -> length c' = length c -> nth (pos x) c' d = nth (pos x) c d ->
     (forall p, ~ In p (map pos l) -> nth p c' d = nth p c d) ->
     body x c' = Ok (set_nth c' (pos x) (h x (nth (pos x) c d)))) ->
  exists c', forM l body c = Ok c' /\ length c' = length c /\
    (forall x, In x l -> nth (pos x) c' d = h x (nth (pos x) c d)) /\
    (forall p, ~ In p (map pos l) -> nth p c' d = nth p c d).
Proof.
  revert c. induction l as [|x l IH]; intros c Hnd Hb Hbody.
  - exists c. repeat split; auto. intros x [].
  - simpl in Hnd. apply NoDup_cons_iff in Hnd as [Hx Hnd].
    simpl forM. rewrite (Hbody x c) by (simpl; auto). cbn [bind].
    destruct (IH (set_nth c (pos x) (h x (nth (pos x) c d)))) as (c' & E & L & V & U).
    + auto.
    + intros y Hy. rewrite length_set_nth. apply Hb. simpl; auto.
    + intros y c' Hy L E O. rewrite length_set_nth in L.
      assert (pos y <> pos x) by (intros e; apply Hx; rewrite <- e; apply in_map; auto).
      rewrite nth_set_nth_neq in * by auto. apply Hbody; simpl; auto.
      intros p Hp. rewrite O by tauto. apply nth_set_nth_neq. intuition.
    + exists c'. split; [auto|]. split; [rewrite L; apply length_set_nth|]. split.
      * intros y [<-|Hy].
        -- rewrite U by auto. apply nth_set_nth_eq. apply Hb. simpl; auto.
        -- rewrite V by auto.
           assert (pos y <> pos x) by (intros e; apply Hx; rewrite <- e; apply in_map; auto).
           rewrite nth_set_nth_neq by auto. auto.
      * intros p Hp. simpl in Hp. rewrite U by tauto. apply nth_set_nth_neq. intuition.
Qed.

Lemma NoDup_map_inj {A B} (f : A -> B) l : NoDup l -> (forall x y, In x l -> In y l -> f x = f y -> x = y) -> NoDup (map f l).
Proof.
  induction l as [|x l IH]; intros Hnd Hinj; simpl; [constructor|].
  apply NoDup_cons_iff in Hnd as [Hx Hnd]. constructor.
  - intros Hin. apply in_map_iff in Hin as (y & e & Hy). apply Hx. rewrite <- (Hinj y x); simpl; auto.
  - apply IH; auto. intros; apply Hinj; simpl; auto.
Qed.

Section GemmFacts.
  Context {F : scalar}.
  Local Open Scope K_scope.
  Add Ring KringG : (k_ring F).

  Lemma upd_ok (c : list F) p h : (p < length c)%nat -> upd c p h = Ok (set_nth c p (h (nth p c 0))).
  Proof. intros H. unfold upd. rewrite (rd_ok c p 0) by auto. cbn [bind]. apply wr_ok. auto. Qed.

  Lemma colmajor_lt i j m n : (i < m -> j < n -> COLMAJOR i j m n < m * n)%nat.
  Proof. unfold COLMAJOR. nia. Qed.

  Lemma colmajor_inj i j i' j' m n : (i < m -> i' < m -> COLMAJOR i j m n = COLMAJOR i' j' m n -> i = i' /\ j = j')%nat.
  Proof.
    unfold COLMAJOR. intros H H' E.
    assert (j = j').
    { assert ((i + j * m) / m = (i' + j' * m) / m)%nat by congruence.
      rewrite !Nat.div_add, !Nat.div_small in H0 by lia. lia. }
    subst. split; [lia|auto].
  Qed.

  (** element (i, j) of an array of m x n elements stored by columns *)
  Local Notation cm m n c i j := (nth (COLMAJOR i j m n) c 0).

  (** The sweep over column j. *)
  Lemma col_sweep m n j (h : nat -> F -> F) (body : nat -> list F -> res (list F)) (c : list F) :
    (j < n)%nat -> (m * n <= length c)%nat ->
    (forall i c', (i < m)%nat -> length c' = length c -> cm m n c' i j = cm m n c i j ->
       body i c' = Ok (set_nth c' (COLMAJOR i j m n) (h i (cm m n c i j)))) ->
    exists c', for_n m body c = Ok c' /\ length c' = length c /\
      (forall i, (i < m)%nat -> cm m n c' i j = h i (cm m n c i j)) /\
      (forall i j', (i < m)%nat -> j' <> j -> cm m n c' i j' = cm m n c i j') /\
      (forall p, (m * n <= p)%nat -> nth p c' 0 = nth p c 0).
  Proof.
    intros Hj HL Hbody. unfold for_n.
    destruct (sweep_ok 0 (fun i => COLMAJOR i j m n) h body (seq 0 m) c) as (c' & E & L & V & U).
    - apply NoDup_map_inj; [apply seq_NoDup|]. intros x y Hx Hy e. apply in_seq in Hx, Hy.
      apply colmajor_inj in e; [tauto|lia|lia].
    - intros x Hx. apply in_seq in Hx. assert (COLMAJOR x j m n < m * n)%nat by (apply colmajor_lt; lia). lia.
    - intros x c' Hx L E _. apply in_seq in Hx. apply Hbody; auto. lia.
    - exists c'. split; [auto|]. split; [auto|]. split; [|split].
      + intros i Hi. apply V. apply in_seq. lia.
      + intros i j' Hi Hne. apply U. intros Hin. apply in_map_iff in Hin as (x & e & Hx).
        apply in_seq in Hx. apply colmajor_inj in e; [|lia|lia]. intuition.
      + intros p Hp. apply U. intros Hin. apply in_map_iff in Hin as (x & e & Hx). apply in_seq in Hx.
        assert (COLMAJOR x j m n < m * n)%nat by (apply colmajor_lt; lia). lia.
  Qed.

  (** The loop over the columns, each column updated elementwise. *)
  Lemma cols_sweep m n (g : nat -> nat -> F -> F) (body : nat -> list F -> res (list F)) (c : list F) :
    (m * n <= length c)%nat ->
    (forall j c', (j < n)%nat -> length c' = length c -> (forall i, (i < m)%nat -> cm m n c' i j = cm m n c i j) ->
      exists c'', body j c' = Ok c'' /\ length c'' = length c' /\
      (forall i, (i < m)%nat -> cm m n c'' i j = g i j (cm m n c i j)) /\
      (forall i j', (i < m)%nat -> j' <> j -> cm m n c'' i j' = cm m n c' i j') /\
      (forall p, (m * n <= p)%nat -> nth p c'' 0 = nth p c' 0)) ->
    exists c', for_n n body c = Ok c' /\ length c' = length c /\
      (forall i j, (i < m)%nat -> (j < n)%nat -> cm m n c' i j = g i j (cm m n c i j)) /\
      (forall p, (m * n <= p)%nat -> nth p c' 0 = nth p c 0).
  Proof.
    intros HL Hbody. apply wp_ok.
    apply (wp_mono _ (fun c' => length c' = length c /\
      (forall i j, (i < m)%nat -> cm m n c' i j = if (j <? n)%nat then g i j (cm m n c i j) else cm m n c i j) /\
      (forall p, (m * n <= p)%nat -> nth p c' 0 = nth p c 0))).
    - apply (for_n_inv (fun k c' => length c' = length c /\
        (forall i j, (i < m)%nat -> cm m n c' i j = if (j <? k)%nat then g i j (cm m n c i j) else cm m n c i j) /\
        (forall p, (m * n <= p)%nat -> nth p c' 0 = nth p c 0))).
      + repeat split; auto.
      + intros j c' Hj (L & V & U).
        destruct (Hbody j c') as (c'' & E & L' & V' & O' & U'); auto.
        { intros i Hi. rewrite V by auto. destruct (Nat.ltb_spec j j); [lia|auto]. }
        rewrite E. simpl. split; [congruence|]. split.
        * intros i j' Hi. destruct (Nat.eq_dec j' j) as [->|Hne].
          -- rewrite V' by auto. destruct (Nat.ltb_spec j (S j)); [auto|lia].
          -- rewrite O', V by auto. destruct (Nat.ltb_spec j' j), (Nat.ltb_spec j' (S j)); auto; lia.
        * intros p Hp. rewrite U', U; auto.
    - intros c' (L & V & U). repeat split; auto. intros i j Hi Hj. rewrite V by auto.
      destruct (Nat.ltb_spec j n); [auto|lia].
  Qed.

  Lemma gemm_prep_ok m n (beta : F) j (c : list F) : (j < n)%nat -> (m * n <= length c)%nat ->
    exists c', gemm_prep m n beta j c = Ok c' /\ length c' = length c /\
      (forall i, (i < m)%nat -> cm m n c' i j = beta * cm m n c i j) /\
      (forall i j', (i < m)%nat -> j' <> j -> cm m n c' i j' = cm m n c i j') /\
      (forall p, (m * n <= p)%nat -> nth p c' 0 = nth p c 0).
  Proof.
    intros Hj HL. unfold gemm_prep.
    assert (Hlt : forall i, (i < m)%nat -> (COLMAJOR i j m n < length c)%nat).
    { intros i Hi. assert (COLMAJOR i j m n < m * n)%nat by (apply colmajor_lt; lia). lia. }
    destruct (keqb beta 0) eqn:B0.
    - apply keqb_spec in B0. subst.
      destruct (col_sweep m n j (fun _ _ => 0) (fun i c => wr c (COLMAJOR i j m n) 0) c) as (c' & E & L & V & O & U); auto.
      + intros i c' Hi L _. apply wr_ok. rewrite L. auto.
      + exists c'. repeat split; auto. intros i Hi. rewrite V by auto. ring.
    - destruct (keqb beta 1) eqn:B1.
      + apply keqb_spec in B1. subst. exists c. repeat split; auto. intros; ring.
      + destruct (col_sweep m n j (fun _ x => x * beta) (fun i c => upd c (COLMAJOR i j m n) (fun x => x * beta)) c) as (c' & E & L & V & O & U); auto.
        * intros i c' Hi L e. rewrite upd_ok by (rewrite L; auto). rewrite e. auto.
        * exists c'. repeat split; auto. intros i Hi. rewrite V by auto. ring.
  Qed.

  Lemma gemm_N_ok bpos m n k (alpha : F) (a b : list F) (beta : F) (c : list F) :
    (m * k <= length a)%nat -> (m * n <= length c)%nat ->
    (forall l j, (l < k)%nat -> (j < n)%nat -> (bpos l j < length b)%nat) ->
    exists c', gemm_N bpos m n k alpha a b beta c = Ok c' /\ length c' = length c /\
      (forall i j, (i < m)%nat -> (j < n)%nat ->
         cm m n c' i j = alpha * bigsum k (fun l => cm m k a i l * nth (bpos l j) b 0) + beta * cm m n c i j) /\
      (forall p, (m * n <= p)%nat -> nth p c' 0 = nth p c 0).
  Proof.
    intros HA HC HB. unfold gemm_N.
    apply (cols_sweep m n (fun i j x => alpha * bigsum k (fun l => cm m k a i l * nth (bpos l j) b 0) + beta * x)); auto.
    intros j c' Hj L E0.
    destruct (gemm_prep_ok m n beta j c') as (c1 & E1 & L1 & V1 & O1 & U1); [auto|rewrite L; auto|].
    rewrite E1. cbn [bind].
    apply wp_ok. apply (for_n_inv (fun q c2 => length c2 = length c' /\
      (forall i, (i < m)%nat -> cm m n c2 i j = alpha * bigsum q (fun l => cm m k a i l * nth (bpos l j) b 0) + beta * cm m n c i j) /\
      (forall i j', (i < m)%nat -> j' <> j -> cm m n c2 i j' = cm m n c' i j') /\
      (forall p, (m * n <= p)%nat -> nth p c2 0 = nth p c' 0))).
    - repeat split; auto. intros i Hi. simpl. rewrite V1, E0 by auto. ring.
    - intros l c2 Hl (L2 & V2 & O2 & U2). apply wp_ok.
      rewrite (rd_ok b (bpos l j) 0) by auto. cbn [bind].
      destruct (col_sweep m n j (fun i x => x + alpha * nth (bpos l j) b 0 * cm m k a i l)
        (fun i c => ail <- rd a (COLMAJOR i l m k) ;;
           upd c (COLMAJOR i j m n) (fun x => x + alpha * nth (bpos l j) b 0 * ail)) c2)
        as (c3 & E3 & L3 & V3 & O3 & U3).
      + auto.
      + rewrite L2, L; auto.
      + intros i c3 Hi L3 e3.
        assert (COLMAJOR i l m k < m * k)%nat by (apply colmajor_lt; lia).
        assert (COLMAJOR i j m n < m * n)%nat by (apply colmajor_lt; lia).
        rewrite (rd_ok a _ 0) by lia. cbn [bind]. rewrite upd_ok by lia. rewrite e3. auto.
      + exists c3. split; [auto|]. split; [congruence|]. split; [|split].
        * intros i Hi. rewrite V3, V2 by auto. simpl. ring.
        * intros i j' Hi Hne. rewrite O3, O2; auto.
        * intros p Hp. rewrite U3, U2; auto.
  Qed.

  Lemma gemm_T_ok bpos m n k (alpha : F) (a b : list F) (beta : F) (c : list F) :
    (m * k <= length a)%nat -> (m * n <= length c)%nat ->
    (forall l j, (l < k)%nat -> (j < n)%nat -> (bpos l j < length b)%nat) ->
    exists c', gemm_T bpos m n k alpha a b beta c = Ok c' /\ length c' = length c /\
      (forall i j, (i < m)%nat -> (j < n)%nat ->
         cm m n c' i j = alpha * bigsum k (fun l => cm k m a l i * nth (bpos l j) b 0) + beta * cm m n c i j) /\
      (forall p, (m * n <= p)%nat -> nth p c' 0 = nth p c 0).
  Proof.
    intros HA HC HB. unfold gemm_T.
    apply (cols_sweep m n (fun i j x => alpha * bigsum k (fun l => cm k m a l i * nth (bpos l j) b 0) + beta * x)); auto.
    intros j c' Hj L E0.
    destruct (col_sweep m n j (fun i x => alpha * bigsum k (fun l => cm k m a l i * nth (bpos l j) b 0) + beta * x)
      (fun i c => temp <- for_n k (fun l temp =>
          ali <- rd a (COLMAJOR l i k m) ;;
          blj <- rd b (bpos l j) ;;
          Ok (temp + ali * blj)) 0 ;;
        if keqb beta 0 then wr c (COLMAJOR i j m n) (alpha * temp)
        else upd c (COLMAJOR i j m n) (fun x => alpha * temp + beta * x)) c') as (c3 & E3 & L3 & V3 & O3 & U3).
    - auto.
    - rewrite L; auto.
    - intros i c2 Hi L2 e2.
      assert (COLMAJOR i j m n < m * n)%nat by (apply colmajor_lt; lia).
      assert (Hdot : for_n k (fun l temp =>
          ali <- rd a (COLMAJOR l i k m) ;;
          blj <- rd b (bpos l j) ;;
          Ok (temp + ali * blj)) 0 = Ok (bigsum k (fun l => cm k m a l i * nth (bpos l j) b 0))).
      { apply wp_eq. apply (for_n_inv (fun q t => t = bigsum q (fun l => cm k m a l i * nth (bpos l j) b 0))); [auto|].
        intros l t Hl ->. assert (COLMAJOR l i k m < k * m)%nat by (apply colmajor_lt; lia).
        rewrite (rd_ok a _ 0) by nia. cbn [bind]. rewrite (rd_ok b _ 0) by auto. reflexivity. }
      rewrite Hdot. cbn [bind]. destruct (keqb beta 0) eqn:B0.
      + apply keqb_spec in B0. subst. rewrite wr_ok by lia. do 2 f_equal. ring.
      + rewrite upd_ok by lia. rewrite e2. auto.
    - exists c3. split; [auto|]. split; [auto|]. split; [|split]; auto.
      intros i Hi. rewrite V3, E0; auto.
  Qed.

  Theorem gemm_spec (conj : F -> F) ta tb m n k (alpha : F) (a b : list F) (beta : F) (c : list F) :
    ta <> TrOther -> tb <> TrOther -> (ta = TrC \/ tb = TrC -> forall x, conj x = x) ->
    (m * k <= length a)%nat -> (k * n <= length b)%nat -> (m * n <= length c)%nat ->
    let lda := Nat.max 1 (if is_N ta then m else k) in
    let ldb := Nat.max 1 (if is_N tb then k else n) in
    exists c', gemm ta tb m n k alpha a lda b ldb beta c (Nat.max 1 m) = Ok c' /\ length c' = length c /\
      (forall i j, (i < m)%nat -> (j < n)%nat ->
         colm m c' i j = alpha * bigsum k (fun l => opm conj ta (colm lda a) i l * opm conj tb (colm ldb b) l j)
                         + beta * colm m c i j) /\
      (forall p, (m * n <= p)%nat -> nth p c' 0 = nth p c 0).
  Proof.
    intros Hta Htb Hc HA HB HC lda ldb. unfold gemm.
    replace (bad_trans ta) with false by (destruct ta; simpl; congruence).
    replace (bad_trans tb) with false by (destruct tb; simpl; congruence).
    destruct (Nat.ltb_spec lda (Nat.max 1 (if is_N ta then m else k))); [unfold lda in *; lia|].
    destruct (Nat.ltb_spec ldb (Nat.max 1 (if is_N tb then k else n))); [unfold ldb in *; lia|].
    rewrite Nat.ltb_irrefl. cbn [orb].
    destruct (((m =? 0) || (n =? 0)) || ((keqb alpha 0 || (k =? 0)) && keqb beta 1))%bool eqn:Q.
    { exists c. split; [auto|]. split; [auto|]. split; [|auto].
      intros i j Hi Hj. apply orb_true_iff in Q as [Q|Q].
      - apply orb_true_iff in Q as [Q|Q]; apply Nat.eqb_eq in Q; lia.
      - apply andb_true_iff in Q as [Q Q1]. apply keqb_spec in Q1. subst.
        apply orb_true_iff in Q as [Q|Q].
        + apply keqb_spec in Q. subst. ring.
        + apply Nat.eqb_eq in Q. subst. simpl. ring. }
    apply orb_false_iff in Q as [Q Q2]. apply orb_false_iff in Q as [Qm Qn].
    apply Nat.eqb_neq in Qm, Qn.
    destruct (keqb alpha 0) eqn:A0.
    { apply keqb_spec in A0. subst. unfold gemm_alpha0.
      assert (G : forall body, (forall i j c', (i < m)%nat -> (j < n)%nat -> length c' = length c ->
         body i j c' = Ok (set_nth c' (COLMAJOR i j m n) (beta * cm m n c' i j))) ->
         exists c', for_n n (fun j c => for_n m (fun i c => body i j c) c) c = Ok c' /\ length c' = length c /\
         (forall i j, (i < m)%nat -> (j < n)%nat -> cm m n c' i j = beta * cm m n c i j) /\
         (forall p, (m * n <= p)%nat -> nth p c' 0 = nth p c 0)).
      { intros body Hb. apply (cols_sweep m n (fun i j x => beta * x)); auto.
        intros j c' Hj L E0.
        destruct (col_sweep m n j (fun _ x => beta * x) (fun i c => body i j c) c') as (c3 & E3 & L3 & V3 & O3 & U3).
        - auto. - rewrite L; auto.
        - intros i c2 Hi L2 e2. rewrite Hb by (auto; congruence). rewrite e2. auto.
        - exists c3. repeat split; auto. intros i Hi. rewrite V3, E0; auto. }
      assert (G2 : exists c', (if keqb beta 0 then
          for_n n (fun j c => for_n m (fun i c => wr c (COLMAJOR i j m n) 0) c) c
        else
          for_n n (fun j c => for_n m (fun i c => upd c (COLMAJOR i j m n) (fun x => beta * x)) c) c) = Ok c' /\ length c' = length c /\
         (forall i j, (i < m)%nat -> (j < n)%nat -> cm m n c' i j = beta * cm m n c i j) /\
         (forall p, (m * n <= p)%nat -> nth p c' 0 = nth p c 0)).
      { destruct (keqb beta 0) eqn:B0.
        - apply keqb_spec in B0. subst. apply (G (fun i j c => wr c (COLMAJOR i j m n) 0)).
          intros i j c' Hi Hj L. assert (COLMAJOR i j m n < m * n)%nat by (apply colmajor_lt; lia).
          rewrite wr_ok by lia. do 2 f_equal. ring.
        - apply (G (fun i j c => upd c (COLMAJOR i j m n) (fun x => beta * x))).
          intros i j c' Hi Hj L. assert (COLMAJOR i j m n < m * n)%nat by (apply colmajor_lt; lia).
          apply upd_ok. lia. }
      destruct G2 as (c' & E & L & V & U). exists c'. split; [auto|]. split; [auto|]. split; [|auto].
      intros i j Hi Hj. unfold colm. unfold COLMAJOR in V. rewrite V by auto. ring. }
    set (bpos := if is_N tb then fun l j => COLMAJOR l j k n else fun l j => COLMAJOR j l n k).
    assert (HB' : forall l j, (l < k)%nat -> (j < n)%nat -> (bpos l j < length b)%nat).
    { intros l j Hl Hj. unfold bpos. destruct (is_N tb); unfold COLMAJOR; nia. }
    assert (HBv : forall l j, (l < k)%nat -> (j < n)%nat -> nth (bpos l j) b 0 = opm conj tb (colm ldb b) l j).
    { intros l j Hl Hj. unfold bpos, ldb, opm, colm, mtrans, COLMAJOR.
      destruct tb; simpl is_N; cbv iota beta.
      - rewrite Nat.max_r by lia. auto.
      - rewrite Nat.max_r by lia. auto.
      - rewrite Nat.max_r by lia. rewrite Hc by auto. auto.
      - congruence. }
    destruct (is_N ta) eqn:NA.
    - destruct (gemm_N_ok bpos m n k alpha a b beta c) as (c' & E & L & V & U); auto.
      exists c'. split; [auto|]. split; [auto|]. split; [|auto].
      intros i j Hi Hj. specialize (V i j Hi Hj). unfold COLMAJOR in V. unfold colm at 1. rewrite V.
      f_equal. f_equal. apply bigsum_ext. intros l Hl. rewrite HBv by auto. f_equal.
      destruct ta; try discriminate. unfold opm, colm, lda. rewrite Nat.max_r by lia. auto.
    - destruct (gemm_T_ok bpos m n k alpha a b beta c) as (c' & E & L & V & U); auto.
      exists c'. split; [auto|]. split; [auto|]. split; [|auto].
      intros i j Hi Hj. specialize (V i j Hi Hj). unfold COLMAJOR in V. unfold colm at 1. rewrite V.
      f_equal. f_equal. apply bigsum_ext. intros l Hl. rewrite HBv by auto. f_equal.
      unfold lda. rewrite Nat.max_r by lia.
      destruct ta; try discriminate; unfold opm; rewrite ?Hc by auto; auto.
  Qed.

  (** Wrong arguments are rejected. *)
  Theorem gemm_rejects ta tb m n k (alpha : F) (a : list F) lda (b : list F) ldb (beta : F) (c : list F) ldc :
    ta = TrOther \/ tb = TrOther \/ (lda < Nat.max 1 (if is_N ta then m else k))%nat \/
    (ldb < Nat.max 1 (if is_N tb then k else n))%nat \/ (ldc < Nat.max 1 m)%nat ->
    gemm ta tb m n k alpha a lda b ldb beta c ldc = Err.
  Proof.
    intros H. unfold gemm.
    replace (bad_trans ta || bad_trans tb || (lda <? Nat.max 1 (if is_N ta then m else k))%nat
       || (ldb <? Nat.max 1 (if is_N tb then k else n))%nat || (ldc <? Nat.max 1 m)%nat)%bool with true; auto.
    symmetry. rewrite !orb_true_iff, !Nat.ltb_lt.
    destruct H as [->|[->|[H|[H|H]]]]; simpl; auto.
  Qed.
End GemmFacts.
