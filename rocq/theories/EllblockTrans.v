(** In-place transpose of block matrices. *)
From Verif Require Import Base BaseFacts Spec SpecFacts EllpackModel EllpackSpec EllpackTrans CsrModel CsrSpec CsrTrans EllblockModel EllblockSpec EllblockFacts EllblockHeap EllblockRead EllblockBuild EllblockMake EllblockSet EllblockCopy EllblockPtr.
From Coq Require Import Permutation.

(** position, in an [m x n] block, of the element found at position [k] of the
    transposed [n x m] block *)
Definition tpos (m n k : nat) : nat := (k mod m) * n + k / m.
Lemma tpos_lt m n k : k < n * m -> tpos m n k < m * n.
Proof. intros H. destruct (pos_split _ _ _ H) as (P1 & P2 & P3). unfold tpos. apply pos_lt; auto. Qed.
Lemma tpos_at m n i j : i < m -> j < n -> tpos m n (j * m + i) = i * n + j.
Proof. intros Hi Hj. unfold tpos. rewrite pos_mod, pos_div by auto. reflexivity. Qed.
Lemma tpos_tpos m n k : k < n * m -> tpos n m (tpos m n k) = k.
Proof. intros H. destruct (pos_split _ _ _ H) as (P1 & P2 & P3). unfold tpos at 2. rewrite tpos_at by auto. auto. Qed.
Lemma tpos_inj m n k k' : k < n * m -> k' < n * m -> tpos m n k = tpos m n k' -> k = k'.
Proof. intros H H' E. rewrite <- (tpos_tpos m n k), <- (tpos_tpos m n k') by auto. congruence. Qed.

Lemma cons_snoc_perm' {T} (x : T) (U2 U' : list T) : Permutation (x :: U2) (U' ++ [x]) -> Permutation U2 U'.
Proof. intros H. apply (Permutation_cons_inv (a := x)). rewrite H. symmetry. apply Permutation_cons_append. Qed.

Section Trans.
  Context {F : scalar}.
  Local Notation eb := (eb F).
  Implicit Types A B C : eb.

  (** ** blocks *)
  Lemma transpose_block_ok {e} bi bj m2 (g : nat -> F) x : bi * bj <= length x -> bi * bj <= m2 ->
    wpq e (transpose_block bi bj m2 g x) (fun y => length y = length x /\ forall k, k < bj * bi -> nth k y k0 = nth (tpos bi bj k) x k0).
  Proof.
    intros Lx Lm. assert (EC : forall k, COLMAJOR (k / bj) (k mod bj) bi bj = tpos bj bi k) by (intros; unfold COLMAJOR, tpos; lia).
    unfold transpose_block. rewrite for_2_flat. apply wp_bind.
    eapply wp_mono. { apply (scatter_ok (bi * bj) (fun k => rd x (ROWMAJOR (k / bj) (k mod bj) bi bj)) (fun k => nth k x k0) (fun k => COLMAJOR (k / bj) (k mod bj) bi bj)).
      - intros k Hk. unfold ROWMAJOR. assert (bj <> 0) by (intros ->; lia). replace (k / bj * bj + k mod bj) with k by (rewrite (Nat.div_mod k bj) at 1 by auto; lia). apply rd_ok. lia.
      - intros k Hk. rewrite map_length, seq_length, EC. pose proof (tpos_lt bj bi k Hk). lia.
      - intros k k' Hk Hk'. rewrite !EC. apply tpos_inj; auto. }
    intros buf (Lb & Vb & _). rewrite map_length, seq_length in Lb.
    eapply wp_mono; [apply (blk_map_ok (bi * bj) _ (fun k => nth k buf k0)); [auto|intros; apply rd_ok; lia]|].
    intros y (Ly & Vy & _). split; [auto|]. intros k Hk. rewrite Vy by lia.
    rewrite <- (Vb (tpos bi bj k)) by (apply tpos_lt; auto). rewrite EC, tpos_tpos by auto. reflexivity.
  Qed.

  Lemma exchange_blocks_ok {e} bi bj (x y : list F) : bi * bj <= length x -> bj * bi <= length y ->
    wpq e (exchange_blocks bi bj x y) (fun s => length (fst s) = length x /\ length (snd s) = length y /\
      (forall k, k < bi * bj -> nth k (fst s) k0 = nth (tpos bj bi k) y k0) /\
      (forall k, k < bj * bi -> nth k (snd s) k0 = nth (tpos bi bj k) x k0)).
  Proof.
    intros Lx Ly. unfold exchange_blocks. rewrite for_2_flat.
    eapply wp_mono. { apply (for_n_inv (fun n s => length (fst s) = length x /\ length (snd s) = length y /\
        (forall k, k < bi * bj -> nth k (fst s) k0 = if k <? n then nth (tpos bj bi k) y k0 else nth k x k0) /\
        (forall k, k < bi * bj -> nth (tpos bj bi k) (snd s) k0 = if k <? n then nth k x k0 else nth (tpos bj bi k) y k0))).
      - cbn [fst snd]. auto.
      - intros n [x' y'] Hn (L1 & L2 & V1 & V2). cbn [fst snd] in *.
        assert (bj <> 0) by (intros ->; lia).
        assert (E1 : ROWMAJOR (n / bj) (n mod bj) bi bj = n) by (unfold ROWMAJOR; rewrite (Nat.div_mod n bj) at 3 by auto; lia).
        assert (E2 : ROWMAJOR (n mod bj) (n / bj) bj bi = tpos bj bi n) by reflexivity. rewrite E1, E2.
        pose proof (tpos_lt bj bi n Hn) as Ht.
        rewrite (rd_ok x' n k0) by lia. cbn [bind]. rewrite (rd_ok y' (tpos bj bi n) k0) by lia. cbn [bind].
        rewrite wr_ok by lia. cbn [bind]. rewrite wr_ok by lia. cbn [bind wpq fst snd]. rewrite !length_set_nth.
        split; [auto|]. split; [auto|]. split.
        + intros k Hk. rewrite nth_set_nth. destruct (Nat.eqb_spec k n) as [->|Hne]; cbn [andb].
          * destruct (Nat.ltb_spec n (length x')); [|lia]. destruct (Nat.ltb_spec n (S n)); [|lia]. rewrite V2 by auto. destruct (Nat.ltb_spec n n); [lia|]. reflexivity.
          * rewrite V1 by auto. destruct (Nat.ltb_spec k n), (Nat.ltb_spec k (S n)); auto; lia.
        + intros k Hk. rewrite nth_set_nth. destruct (Nat.eqb_spec (tpos bj bi k) (tpos bj bi n)) as [E|Hne]; cbn [andb].
          * apply tpos_inj in E; auto. subst k. destruct (Nat.ltb_spec (tpos bj bi n) (length y')); [|lia]. destruct (Nat.ltb_spec n (S n)); [|lia].
            rewrite V1 by auto. destruct (Nat.ltb_spec n n); [lia|]. reflexivity.
          * rewrite V2 by auto. assert (k <> n) by congruence. destruct (Nat.ltb_spec k n), (Nat.ltb_spec k (S n)); auto; lia. }
    intros [x' y'] (L1 & L2 & V1 & V2). cbn [fst snd] in *. split; [auto|]. split; [auto|]. split.
    - intros k Hk. rewrite V1 by auto. destruct (Nat.ltb_spec k (bi * bj)); [auto|lia].
    - intros k Hk. rewrite <- (tpos_tpos bi bj k Hk) at 1. pose proof (tpos_lt bi bj k Hk). rewrite V2 by auto.
      destruct (Nat.ltb_spec (tpos bi bj k) (bi * bj)); [auto|lia].
  Qed.

  Lemma transpose_diag_ok {e} b (x : list F) : b * b <= length x ->
    wpq e (transpose_diag b x) (fun y => length y = length x /\ forall k, k < b * b -> nth k y k0 = nth (tpos b b k) x k0).
  Proof.
    intros Lx. unfold transpose_diag.
    assert (Hp : forall i j, i < b -> j < b -> i * b + j < b * b).
    { intros i j Hi Hj. assert (i * b + b <= b * b); [|lia]. replace (i * b + b) with (S i * b) by lia. apply Nat.mul_le_mono_r. lia. }
    assert (Hpi : forall i j i' j', i < b -> j < b -> i' < b -> j' < b -> i * b + j = i' * b + j' -> i = i' /\ j = j').
    { intros i j i' j' Hi Hj Hi' Hj' E. assert (i = i'); [|subst; lia].
      rewrite <- (pos_div b i j), <- (pos_div b i' j') by auto. congruence. }
    set (done := fun (I J i j : nat) => (Nat.min i j <? I) || ((Nat.min i j =? I) && (Nat.max i j <? J))).
    set (P := fun I J (y : list F) => length y = length x /\ forall i j, i < b -> j < b ->
       nth (i * b + j) y k0 = if done I J i j then nth (j * b + i) x k0 else nth (i * b + j) x k0).
    eapply wp_mono. { apply (for_n_inv (fun I y => P I I y)).
      - split; [auto|]. intros i j Hi Hj. unfold done. destruct (Nat.ltb_spec (Nat.min i j) 0); [lia|]. destruct (Nat.ltb_spec (Nat.max i j) 0); [lia|]. rewrite andb_false_r. auto.
      - intros I y0 HI H0. eapply wp_mono. { apply (forM_inv (fun pre y => P I (I + length pre) y)).
          + cbn [length]. rewrite Nat.add_0_r. exact H0.
          + intros pre J post y E (L1 & V1).
            assert (HJ : J = I + length pre /\ J < b).
            { assert (Hlen : length (seq I (b - I)) = b - I) by apply seq_length. rewrite E, app_length in Hlen. simpl in Hlen.
              assert (Hnth : nth (length pre) (seq I (b - I)) 0 = J) by (rewrite E, app_nth2, Nat.sub_diag by lia; auto). rewrite seq_nth in Hnth by lia. lia. }
            destruct HJ as [EJ HJ]. rewrite <- EJ in V1. rewrite app_length. cbn [length]. replace (I + (length pre + 1)) with (S J) by lia.
            unfold ROWMAJOR. pose proof (Hp I J HI HJ). pose proof (Hp J I HJ HI).
            rewrite (rd_ok y _ k0) by lia. cbn [bind]. rewrite (rd_ok y _ k0) by lia. cbn [bind]. rewrite wr_ok by lia. cbn [bind].
            rewrite wr_ok by (rewrite length_set_nth; lia). cbn [wpq]. split; [rewrite !length_set_nth; auto|].
            assert (VIJ : nth (I * b + J) y k0 = nth (I * b + J) x k0).
            { rewrite V1 by auto. unfold done. destruct (Nat.ltb_spec (Nat.min I J) I); [lia|]. destruct (Nat.ltb_spec (Nat.max I J) J); [lia|]. rewrite andb_false_r. auto. }
            assert (VJI : nth (J * b + I) y k0 = nth (J * b + I) x k0).
            { rewrite V1 by auto. unfold done. destruct (Nat.ltb_spec (Nat.min J I) I); [lia|]. destruct (Nat.ltb_spec (Nat.max J I) J); [lia|]. rewrite andb_false_r. auto. }
            intros i j Hi Hj. rewrite !nth_set_nth, !length_set_nth.
            destruct (Nat.eqb_spec (i * b + j) (J * b + I)) as [E1|E1].
            { apply Hpi in E1; auto. destruct E1 as [-> ->]. destruct (Nat.ltb_spec (J * b + I) (length y)); [|lia]. cbn [andb].
              unfold done. destruct (Nat.eqb_spec (Nat.min J I) I); [|lia]. destruct (Nat.ltb_spec (Nat.max J I) (S J)); [|lia]. cbn [andb]. rewrite orb_true_r. exact VIJ. }
            cbn [andb]. destruct (Nat.eqb_spec (i * b + j) (I * b + J)) as [E2|E2].
            { apply Hpi in E2; auto. destruct E2 as [-> ->]. destruct (Nat.ltb_spec (I * b + J) (length y)); [|lia]. cbn [andb].
              unfold done. destruct (Nat.eqb_spec (Nat.min I J) I); [|lia]. destruct (Nat.ltb_spec (Nat.max I J) (S J)); [|lia]. cbn [andb]. rewrite orb_true_r. exact VJI. }
            cbn [andb]. rewrite V1 by auto. replace (done I (S J) i j) with (done I J i j); [auto|]. unfold done.
            destruct (Nat.ltb_spec (Nat.min i j) I); [auto|]. cbn [orb]. destruct (Nat.eqb_spec (Nat.min i j) I) as [Em|]; [|auto]. cbn [andb].
            destruct (Nat.ltb_spec (Nat.max i j) J), (Nat.ltb_spec (Nat.max i j) (S J)); auto; try lia.
            exfalso. destruct (Nat.le_ge_cases i j); [apply E2|apply E1]; f_equal; try (f_equal; lia); lia. }
        rewrite seq_length. intros y (L1 & V1). split; [auto|]. intros i j Hi Hj. rewrite V1 by auto.
        replace (done (S I) (S I) i j) with (done I (I + (b - I)) i j); [auto|]. unfold done.
        destruct (Nat.ltb_spec (Nat.min i j) I), (Nat.ltb_spec (Nat.min i j) (S I)), (Nat.eqb_spec (Nat.min i j) I), (Nat.eqb_spec (Nat.min i j) (S I)), (Nat.ltb_spec (Nat.max i j) (I + (b - I))), (Nat.ltb_spec (Nat.max i j) (S I)); cbn [andb orb]; auto; lia. }
    intros y (L1 & V1). split; [auto|]. intros k Hk. assert (b <> 0) by (intros ->; lia).
    assert (k / b < b) by (apply Nat.div_lt_upper_bound; auto). pose proof (Nat.mod_upper_bound k b H).
    replace (nth k y k0) with (nth (k / b * b + k mod b) y k0) by (f_equal; rewrite (Nat.div_mod k b) at 3 by auto; lia). rewrite V1 by auto.
    unfold done. destruct (Nat.ltb_spec (Nat.min (k / b) (k mod b)) b); [|lia]. reflexivity.
  Qed.
  (** ** swapping two entries of a row *)
  Definition swx (ib p q i x : nat) : nat := if i =? ib then (if x =? p then q else if x =? q then p else x) else x.
  Record swapped (cap : nat -> nat) A (ib p q : nat) A' : Prop := mkSwapped {
    sw_kin : kin A A'; sw_own : own cap A'; sw_nnz : bnnz A' = bnnz A;
    sw_col : forall i x, i < bNB A -> x < bMB A -> scol A' i x = scol A i (swx ib p q i x);
    sw_obj : forall i x, i < bNB A -> x < bMB A -> bobj A' i x = bobj A i (swx ib p q i x) }.

  Lemma swx_lt ib p q i x (cap : nat -> nat) : p < cap ib -> q < cap ib -> x < cap i -> swx ib p q i x < cap i.
  Proof. intros Hp Hq Hx. unfold swx. destruct (Nat.eqb_spec i ib) as [->|]; auto. destruct (x =? p); auto. destruct (x =? q); auto. Qed.
  Lemma swx_inj ib p q i x x' : swx ib p q i x = swx ib p q i x' -> x = x'.
  Proof.
    unfold swx. destruct (i =? ib); auto.
    destruct (Nat.eqb_spec x p), (Nat.eqb_spec x' p), (Nat.eqb_spec x q), (Nat.eqb_spec x' q); lia.
  Qed.

  Lemma swap_ok {e} cap A ib p q : eb_shape A -> own cap A -> ib < bNB A -> p < cap ib -> q < cap ib ->
    wpq e (swap_entries A ib p q) (swapped cap A ib p q).
  Proof.
    intros HS HO Hi Hp Hq. pose proof HO as (HO1 & HO2 & HO3). pose proof (HO1 ib Hi) as HM.
    unfold swap_entries. destruct (Nat.eqb_spec p q) as [->|Hne].
    { cbn [wpq]. assert (E : forall i x, swx ib q q i x = x). { intros i x. unfold swx. destruct (i =? ib); auto. destruct (Nat.eqb_spec x q); auto. }
      constructor; auto; try apply kin_refl; intros; rewrite E; auto. }
    apply wp_bind. rewrite rd_ptr_ok by (auto; lia). cbn [wpq]. apply wp_bind. rewrite rd_idx_ok by (auto; lia). cbn [wpq].
    apply wp_bind. rewrite rd_ptr_ok by (auto; lia). cbn [wpq].
    pose proof (lay_refl A) as L0.
    apply wp_bind. eapply wp_mono; [apply (lay_wptr A A _ _ ib p _ HS L0); lia|]. cbn beta. intros A1 L1. pose proof (la_kin _ _ _ _ L1) as K1.
    apply wp_bind. eapply wp_mono; [apply (lay_wptr A A1 _ _ ib q _ HS L1); lia|]. cbn beta. intros A2 L2. pose proof (la_kin _ _ _ _ L2) as K2. pose proof K2 as (_ & _ & EN2 & EM2 & _ & KS2).
    apply wp_bind. rewrite rd_idx_ok by (auto; lia). cbn [wpq].
    apply wp_bind. eapply wp_mono; [apply (lay_widx A A2 _ _ ib p _ HS L2); lia|]. cbn beta. intros A3 L3. pose proof (la_kin _ _ _ _ L3) as K3.
    eapply wp_mono; [apply (lay_widx A A3 _ _ ib q _ HS L3); lia|]. cbn beta. intros A4 L4. pose proof (la_kin _ _ _ _ L4) as K4. pose proof K4 as (_ & _ & EN4 & EM4 & _).
    rewrite (la_col _ _ _ _ L2) in L4 by lia.
    assert (Ea : forall i x, i < bNB A -> x < bMB A -> saddr A4 i x = saddr A i (swx ib p q i x)).
    { intros i x Hi' Hx. rewrite (la_adr _ _ _ _ L4) by auto. unfold at2, swx. destruct (Nat.eqb_spec i ib) as [->|]; cbn [andb]; auto.
      destruct (Nat.eqb_spec x q) as [->|]; [destruct (Nat.eqb_spec q p); [lia|auto]|]. destruct (Nat.eqb_spec x p); auto. }
    constructor; auto.
    - split; [rewrite EN4, EM4; auto|]. rewrite EN4. split.
      + intros i x a Hi' Hx E. pose proof (HO1 i Hi'). rewrite Ea in E by (auto; lia). rewrite (la_heap _ _ _ _ L4). eapply HO2; [| |exact E]; auto. apply swx_lt; auto.
      + intros i x i' x' a Hi1 Hx1 Hi2 Hx2 E1 E2. pose proof (HO1 i Hi1). pose proof (HO1 i' Hi2). rewrite Ea in E1, E2 by (auto; lia).
        destruct (HO3 i (swx ib p q i x) i' (swx ib p q i' x') a) as [-> E]; auto; try (apply swx_lt; auto). split; [auto|]. eapply swx_inj; eauto.
    - apply L4.
    - intros i x Hi' Hx. rewrite (la_col _ _ _ _ L4) by auto. unfold at2, swx. destruct (Nat.eqb_spec i ib) as [->|]; cbn [andb]; auto.
      destruct (Nat.eqb_spec x q) as [->|]; [destruct (Nat.eqb_spec q p); [lia|auto]|]. destruct (Nat.eqb_spec x p); auto.
    - intros i x Hi' Hx. unfold bobj. rewrite Ea by auto. rewrite (la_heap _ _ _ _ L4). reflexivity.
  Qed.

  Lemma lswap_length {T} (L : list T) p q d : length (lswap L p q d) = length L.
  Proof. unfold lswap. rewrite !length_set_nth. reflexivity. Qed.
  Lemma lswap_nth {T} (L : list T) p q d x ib : p < length L -> q < length L -> nth x (lswap L p q d) d = nth (swx ib p q ib x) L d.
  Proof.
    intros Hp Hq. unfold lswap, swx. rewrite Nat.eqb_refl, !nth_set_nth, length_set_nth.
    destruct (Nat.eqb_spec x q) as [->|]; cbn [andb].
    - destruct (Nat.ltb_spec q (length L)); [|lia]. destruct (Nat.eqb_spec q p) as [->|]; auto.
    - destruct (Nat.eqb_spec x p) as [->|]; cbn [andb]; [|auto]. destruct (Nat.ltb_spec p (length L)); [|lia]. auto.
  Qed.

  Lemma swapped_rowp cap A ib p q A' L : swapped cap A ib p q A' -> ib < bNB A -> length L <= bMB A -> p < length L -> q < length L ->
    rowp A ib L -> rowp A' ib (lswap L p q (0, [])).
  Proof.
    intros H Hi HM Hp Hq HR x Hx. rewrite lswap_length in Hx. rewrite (sw_col _ _ _ _ _ _ H), (sw_obj _ _ _ _ _ _ H) by (auto; lia).
    rewrite (lswap_nth L p q (0, []) x ib) by auto. apply HR. apply (swx_lt ib p q ib x (fun _ => length L)); auto.
  Qed.
  Lemma swapped_other cap A ib p q A' i L : swapped cap A ib p q A' -> i < bNB A -> length L <= bMB A -> i <> ib -> rowp A i L -> rowp A' i L.
  Proof.
    intros H Hi HM Hne HR x Hx. rewrite (sw_col _ _ _ _ _ _ H), (sw_obj _ _ _ _ _ _ H) by (auto; lia).
    unfold swx. destruct (Nat.eqb_spec i ib); [lia|]. apply HR; auto.
  Qed.
  Lemma swapped_bnz cap A ib p q A' i : swapped cap A ib p q A' -> bnz A' i = bnz A i.
  Proof. intros H. unfold bnz. rewrite (sw_nnz _ _ _ _ _ _ H). reflexivity. Qed.

  (** bring entry [q] of the pending part of a row to its front *)
  Lemma bring_ok {e} cap A r (D U : list (nat * list F)) p q t : eb_shape A -> own cap A -> r < bNB A -> length (D ++ U) <= cap r ->
    rowp A r (D ++ U) -> q < length U -> p = length D + q -> t = length D ->
    wpq e (swap_entries A r p t) (fun A' => swapped cap A r p t A' /\ exists U2, rowp A' r (D ++ nth q U (0, []) :: U2) /\ Permutation (nth q U (0, []) :: U2) U).
  Proof.
    intros HS HO Hr HL HR Hq -> ->. rewrite app_length in HL. pose proof HO as (HO1 & _). pose proof (HO1 r Hr).
    eapply wp_mono; [apply (swap_ok cap); auto; lia|]. intros A' SW. split; [auto|].
    destruct (lswap_bring D U q (0, []) Hq) as (U2 & E & HP). exists U2. split; [|auto]. rewrite <- E.
    eapply swapped_rowp; eauto; rewrite app_length; lia.
  Qed.

  Lemma slot_rowp cap A ib jp c y A' L : slot_set cap A ib jp c y A' -> ib < bNB A -> jp < length L -> length L <= cap ib -> cap ib <= bMB A ->
    rowp A ib L -> rowp A' ib (set_nth L jp (c, y)).
  Proof.
    intros H Hi Hj HL HM HR. intros x Hx. rewrite length_set_nth in Hx. rewrite nth_set_nth.
    destruct (Nat.eqb_spec x jp) as [->|Hne]; cbn [andb].
    - destruct (Nat.ltb_spec jp (length L)); [|lia]. cbn [fst snd]. split; apply H.
    - rewrite (ss_cols _ _ _ _ _ _ _ H), (ss_objs _ _ _ _ _ _ _ H) by (auto; lia). apply HR; auto.
  Qed.
  Lemma slot_other cap A ib jp c y A' i L : slot_set cap A ib jp c y A' -> i < bNB A -> i <> ib -> length L <= cap i -> cap i <= bMB A -> rowp A i L -> rowp A' i L.
  Proof.
    intros H Hi Hne HL HM HR x Hx. rewrite (ss_cols _ _ _ _ _ _ _ H), (ss_objs _ _ _ _ _ _ _ H) by (auto; lia). apply HR; auto.
  Qed.
  Lemma slot_bnz cap A ib jp c y A' i : slot_set cap A ib jp c y A' -> bnz A' i = bnz A i.
  Proof. intros H. unfold bnz. rewrite (ss_nnz _ _ _ _ _ _ _ H). reflexivity. Qed.

  (** ** moving a block to another row *)
  Lemma move_block_ok {e} m2 (g : nat -> F) ib jb iposb A nzt L1 v (Dj Uj : list (nat * list F)) :
    eb_shape A -> own (bnz A) A -> ib < bNB A -> jb < bNB A -> ib <> jb ->
    rcont A ib (L1 ++ [(jb, v)]) -> length L1 = iposb -> rcont A jb (Dj ++ Uj) -> length nzt = bNB A -> nth jb nzt 0 = length Dj ->
    length (Dj ++ Uj) < bMB A -> bsz (bbs A) ib * bsz (bbs A) jb <= length v -> bsz (bbs A) ib * bsz (bbs A) jb <= m2 ->
    wpq e (move_block m2 g ib jb iposb A nzt) (fun s => exists A' y U2, s = (A', set_nth nzt jb (S (length Dj))) /\
      kin A A' /\ own (bnz A') A' /\ rcont A' ib L1 /\ rcont A' jb (Dj ++ (ib, y) :: U2) /\ Permutation U2 Uj /\ length y = length v /\
      (forall k, k < bsz (bbs A) jb * bsz (bbs A) ib -> nth k y k0 = nth (tpos (bsz (bbs A) ib) (bsz (bbs A) jb) k) v k0) /\
      forall r L, r < bNB A -> r <> ib -> r <> jb -> rcont A r L -> rcont A' r L).
  Proof.
    intros HS HO Hi Hj Hne [Ri1 Ri2] EL [Rj1 Rj2] Lz Ez Hroom Lv Lm. pose proof HO as (HO1 & HO2 & HO3).
    rewrite app_length in Ri1. cbn [length] in Ri1. set (nj := bnz A jb) in *.
    pose proof (HO1 ib Hi) as HMi.
    unfold move_block. apply wp_bind. rewrite b_nnz_ok by auto. cbn [wpq]. fold nj.
    apply wp_bind. rewrite rd_ptr_ok by (auto; lia). cbn [wpq].
    apply wp_bind. eapply wp_mono; [apply (lay_wptr A A _ _ jb nj _ HS (lay_refl A)); lia|]. cbn beta. intros A1 Y1. pose proof (la_kin _ _ _ _ Y1) as K1.
    apply wp_bind. eapply wp_mono; [apply (lay_widx A A1 _ _ jb nj _ HS Y1); lia|]. cbn beta. intros A2 Y2. pose proof (la_kin _ _ _ _ Y2) as K2. pose proof K2 as (_ & _ & EN2 & EM2 & EB2 & KS2).
    apply wp_bind. apply b_wnnz_ok'; [auto|lia|]. intros A3 N3. pose proof (ns_kin _ _ _ _ N3) as K3'. pose proof (kin_trans _ _ _ K2 K3') as K3. pose proof K3 as (_ & _ & EN3 & EM3 & EB3 & KS3).
    apply wp_bind. rewrite b_bs_ok by (auto; lia). cbn [wpq]. apply wp_bind. rewrite b_bs_ok by (auto; lia). cbn [wpq]. rewrite EB3.
    set (bi := bsz (bbs A) ib) in *. set (bj := bsz (bbs A) jb) in *.
    set (cap := fun r => if r =? jb then S nj else if r =? ib then iposb else bnz A r).
    assert (Cj : cap jb = S nj) by (unfold cap; rewrite Nat.eqb_refl; auto).
    assert (Ci : cap ib = iposb) by (unfold cap; rewrite Nat.eqb_refl; destruct (Nat.eqb_spec ib jb); [lia|auto]).
    assert (Co : forall r, r <> ib -> r <> jb -> cap r = bnz A r) by (intros r H1 H2; unfold cap; destruct (Nat.eqb_spec r jb); [lia|]; destruct (Nat.eqb_spec r ib); [lia|auto]).
    assert (Cle : forall r, r < bNB A -> cap r <= bMB A).
    { intros r Hr. pose proof (HO1 r Hr). unfold cap. destruct (r =? jb); [lia|]. destruct (Nat.eqb_spec r ib); [subst|]; lia. }
    assert (Ea3 : forall i x, i < bNB A -> x < bMB A -> saddr A3 i x = at2 (saddr A) jb nj (saddr A ib iposb) i x).
    { intros i x Hi' Hx. rewrite (nnz_set_addr A2 jb (S nj) A3) by auto. apply (la_adr _ _ _ _ Y2); auto. }
    assert (Ec3 : forall i x, i < bNB A -> x < bMB A -> scol A3 i x = at2 (scol A) jb nj ib i x).
    { intros i x Hi' Hx. rewrite (nnz_set_col A2 jb (S nj) A3) by auto. apply (la_col _ _ _ _ Y2); auto. }
    assert (Eh3 : bheap A3 = bheap A) by (rewrite (ns_heap _ _ _ _ N3); apply Y2).
    (* every slot below cap comes from a slot of A below bnz *)
    set (src := fun i x => if ((i =? jb) && (x =? nj))%bool then (ib, iposb) else (i, x)).
    assert (Hsrc : forall i x, i < bNB A -> x < cap i -> fst (src i x) < bNB A /\ snd (src i x) < bnz A (fst (src i x)) /\ saddr A3 i x = saddr A (fst (src i x)) (snd (src i x))).
    { intros i x Hi' Hx. pose proof (Cle i Hi'). rewrite Ea3 by (auto; lia). unfold at2, src.
      destruct (Nat.eqb_spec i jb) as [->|Hij]; cbn [andb].
      - destruct (Nat.eqb_spec x nj) as [->|]; cbn [fst snd]; [split; [auto|]; split; [lia|auto]|]. split; [auto|]. split; [fold nj; lia|auto].
      - cbn [fst snd]. split; [auto|]. split; [|auto]. destruct (Nat.eq_dec i ib) as [->|]; [lia|]. rewrite Co in Hx by auto. auto. }
    assert (O3 : own cap A3).
    { split; [rewrite EN3, EM3; auto|]. rewrite EN3. split.
      - intros i x a Hi' Hx E. destruct (Hsrc i x Hi' Hx) as (S1 & S2 & S3). rewrite S3 in E. rewrite Eh3. eapply HO2; eauto.
      - intros i x i' x' a Hi1 Hx1 Hi2 Hx2 E1 E2. destruct (Hsrc i x Hi1 Hx1) as (S1 & S2 & S3), (Hsrc i' x' Hi2 Hx2) as (T1 & T2 & T3).
        rewrite S3 in E1. rewrite T3 in E2. destruct (HO3 _ _ _ _ a S1 S2 T1 T2 E1 E2) as [E3 E4]. unfold src in *.
        destruct (Nat.eqb_spec i jb) as [Q1|Q1], (Nat.eqb_spec x nj) as [Q2|Q2], (Nat.eqb_spec i' jb) as [Q3|Q3], (Nat.eqb_spec x' nj) as [Q4|Q4]; cbn [andb fst snd] in *; split; try congruence; try (exfalso; rewrite <- E3, ?Ci in Hx2; lia); try (exfalso; rewrite E3, ?Ci in Hx1; lia). }
    pose proof (HO1 jb Hj) as HMj.
    assert (Rj3 : rowp A3 jb ((Dj ++ Uj) ++ [(ib, v)])).
    { intros x Hx. rewrite app_length in Hx. cbn [length] in Hx. unfold bobj. rewrite Ec3, Ea3, Eh3 by (auto; lia). unfold at2. rewrite Nat.eqb_refl. cbn [andb].
      destruct (Nat.eqb_spec x nj) as [->|].
      - rewrite app_nth2 by lia. rewrite Rj1, Nat.sub_diag. cbn [nth fst snd]. split; [auto|].
        destruct (Ri2 iposb) as [_ E]; [rewrite app_length; cbn [length]; lia|]. rewrite app_nth2 in E by lia. rewrite EL, Nat.sub_diag in E. exact E.
      - rewrite app_nth1 by lia. apply Rj2. lia. }
    assert (Ri3 : rowp A3 ib L1).
    { intros x Hx. unfold bobj. rewrite Ec3, Ea3, Eh3 by (auto; lia). unfold at2. destruct (Nat.eqb_spec ib jb); [lia|]. cbn [andb].
      destruct (Ri2 x) as [E1 E2]; [rewrite app_length; lia|]. rewrite app_nth1 in E1, E2 by lia. auto. }
    assert (Ro3 : forall r L, r < bNB A -> r <> ib -> r <> jb -> length L <= bMB A -> rowp A r L -> rowp A3 r L).
    { intros r L Hr H1 H2 HL HR x Hx. unfold bobj. rewrite Ec3, Ea3, Eh3 by (auto; lia). unfold at2. destruct (Nat.eqb_spec r jb); [lia|]. cbn [andb]. apply HR; auto. }
    destruct (Rj3 nj) as [Ecj Eoj]; [rewrite app_length; cbn [length]; lia|]. rewrite app_nth2 in Ecj, Eoj by lia. rewrite <- Rj1, Nat.sub_diag in Ecj, Eoj. cbn [nth fst snd] in Ecj, Eoj.
    apply wp_bind. rewrite (b_blk_ok A3 jb nj v) by (auto; lia). cbn [wpq].
    apply wp_bind. eapply wp_mono; [apply transpose_block_ok; auto|]. intros y (Ly & Vy).
    apply wp_bind. eapply wp_mono; [apply (b_wblk_ok cap A3 jb nj v); auto; lia|]. intros A4 S4. rewrite Ecj in S4.
    pose proof (ss_kin _ _ _ _ _ _ _ S4) as K4'. pose proof (kin_trans _ _ _ K3 K4') as K4. pose proof K4 as (_ & _ & EN4 & EM4 & EB4 & KS4).
    assert (Rj4 : rowp A4 jb (Dj ++ (Uj ++ [(ib, y)]))).
    { assert (HLL : length ((Dj ++ Uj) ++ [(ib, v)]) = S nj) by (rewrite app_length; cbn [length]; lia).
      assert (R : rowp A4 jb (set_nth ((Dj ++ Uj) ++ [(ib, v)]) nj (ib, y))) by (apply (slot_rowp cap A3 jb nj ib y A4); auto; lia).
      rewrite Rj1, set_nth_split in R. rewrite app_assoc. exact R. }
    apply wp_bind. rewrite (rd_ok nzt jb 0) by lia. cbn [wpq]. rewrite Ez.
    assert (Enj : nj = length Dj + length Uj) by (rewrite app_length in Rj1; lia).
    apply wp_bind. eapply wp_mono; [apply (bring_ok cap A4 jb Dj (Uj ++ [(ib, y)]) nj (length Uj)); auto|].
    { apply S4. } { lia. } { rewrite !app_length. cbn [length]. lia. } { rewrite app_length. cbn [length]. lia. }
    intros A5 (SW & U2 & R5 & HP). rewrite app_nth2, Nat.sub_diag in R5, HP by lia. cbn [nth] in R5, HP. apply cons_snoc_perm' in HP.
    pose proof (sw_kin _ _ _ _ _ _ SW) as K5'. pose proof (kin_trans _ _ _ K4 K5') as K5. pose proof K5 as (_ & _ & EN5 & EM5 & EB5 & KS5).
    apply wp_bind. rewrite wr_ok by lia. cbn [wpq].
    assert (Eb5 : forall r, bnz A5 r = if r =? jb then S nj else bnz A r).
    { intros r. rewrite (swapped_bnz _ _ _ _ _ _ r SW), (slot_bnz _ _ _ _ _ _ _ r S4). destruct (Nat.eqb_spec r jb) as [->|H]; [apply (ns_at _ _ _ _ N3)|].
      rewrite (ns_other _ _ _ _ N3) by auto. unfold bnz. rewrite (la_nnz _ _ _ _ Y2). reflexivity. }
    apply wp_bind. rewrite b_nnz_ok by (auto; lia). cbn [wpq]. rewrite Eb5. destruct (Nat.eqb_spec ib jb) as [|_]; [lia|].
    apply wp_bind. apply b_wnnz_ok'; [auto|lia|]. intros A6 N6. cbn [wpq].
    pose proof (kin_trans _ _ _ K5 (ns_kin _ _ _ _ N6)) as K6.
    assert (Eb6 : forall r, bnz A6 r = cap r).
    { intros r. destruct (Nat.eq_dec r ib) as [->|Hr]; [rewrite (ns_at _ _ _ _ N6), Ci; lia|]. rewrite (ns_other _ _ _ _ N6), Eb5 by auto. unfold cap.
      destruct (r =? jb); auto. destruct (Nat.eqb_spec r ib); [lia|auto]. }
    assert (R6 : forall r L, rowp A5 r L -> rowp A6 r L).
    { intros r L HR x Hx. rewrite (nnz_set_col A5 ib (bnz A ib - 1) A6), (nnz_set_obj A5 ib (bnz A ib - 1) A6) by auto. apply HR; auto. }
    exists A6, y, U2. split; [reflexivity|]. split; [auto|]. split; [|split; [|split; [|split; [|split; [|split]]]]]; auto.
    - apply own_cap_eq with (cap := cap); [intros; apply Eb6|]. eapply nnz_set_own; [exact N6|apply SW].
    - split; [rewrite Eb6, Ci; auto|]. apply R6. eapply swapped_other; eauto; try lia. eapply slot_other; eauto; try lia; rewrite ?Ci; lia.
    - split; [rewrite Eb6, Cj, app_length; cbn [length]; apply Permutation_length in HP; lia|]. apply R6; auto.
    - intros r L Hr H1 H2 [HL HR]. pose proof (HO1 r Hr). pose proof (Cle r Hr). split; [rewrite Eb6, Co; auto|]. apply R6. eapply swapped_other; eauto; try lia.
      eapply slot_other; eauto; try lia; try (rewrite ?Co by auto; lia). apply Ro3; auto. lia.
  Qed.
  Lemma find_block_ok {e} A jb (D U : list (nat * list F)) ib : eb_shape A -> jb < bNB A -> rowp A jb (D ++ U) -> length (D ++ U) <= bMB A ->
    wpq e (find_block A jb (length D) (length (D ++ U)) ib) (fun f => match f with
      | Some q => exists P w Q, U = P ++ (ib, w) :: Q /\ q = length D + length P
      | None => ~ In ib (map fst U) end).
  Proof.
    intros HS Hj HR HM. rewrite app_length in *. unfold find_block. replace (length D + length U - length D) with (length U) by lia.
    eapply wp_mono. { apply (forM_inv (fun pre f => match f with
        | Some q => exists P w Q, U = P ++ (ib, w) :: Q /\ q = length D + length P
        | None => forall x, x < length pre -> fst (nth x U (0, [])) <> ib end)).
      - cbn [length]. intros; lia.
      - intros pre q post f E HI. assert (Hx : q = length D + length pre /\ length pre < length U).
        { assert (Hlen : length (seq (length D) (length U)) = length U) by apply seq_length. rewrite E, app_length in Hlen. simpl in Hlen.
          assert (Hnth : nth (length pre) (seq (length D) (length U)) 0 = q) by (rewrite E, app_nth2, Nat.sub_diag by lia; auto). rewrite seq_nth in Hnth by lia. lia. }
        destruct Hx as [-> Hx]. destruct f as [q|]; [exact HI|].
        destruct (HR (length D + length pre)) as [Ec _]; [rewrite app_length; lia|]. rewrite app_nth2 in Ec by lia. replace (length D + length pre - length D) with (length pre) in Ec by lia.
        rewrite rd_idx_ok by (auto; lia). cbn [bind wpq]. rewrite Ec. destruct (Nat.eqb_spec (fst (nth (length pre) U (0, []))) ib) as [E1|E1].
        + destruct (nth (length pre) U (0, [])) as [c w] eqn:En. cbn [fst] in E1. subst c.
          exists (firstn (length pre) U), w, (skipn (S (length pre)) U). split; [rewrite <- En; apply nth_split_eq; auto|rewrite firstn_length; lia].
        + intros x Hx'. rewrite app_length in Hx'. cbn [length] in Hx'. destruct (Nat.eq_dec x (length pre)) as [->|]; auto. apply HI. lia. }
    intros [q|]; [auto|]. rewrite seq_length. intros H Hin. apply in_map_iff in Hin as (p & Ep & Hp). destruct (In_nth _ _ (0, []) Hp) as (x & Hx & Ex).
    apply (H x Hx). congruence.
  Qed.

  (** ** the state of the algorithm: in row [r], the blocks [D r] are done
      (transposed, in their final row), the blocks [U r] are those of the
      given matrix [A0] *)
  Definition cz (L : list (nat * list F)) : list (nat * Zscalar) := map (fun p => (fst p, 0%Z)) L.
  Lemma cz_cols L : cols (cz L) = map fst L.
  Proof. unfold cols, cz. rewrite map_map. reflexivity. Qed.
  Lemma cz_app L L' : cz (L ++ L') = cz L ++ cz L'.
  Proof. apply map_app. Qed.
  Lemma cz_perm L L' : Permutation L L' -> Permutation (cz L) (cz L').
  Proof. apply Permutation_map. Qed.

  Section Run.
    Variable A0 : eb.
    Hypothesis HW0 : ebwf A0.
    Let N := bNB A0.
    Let sz i j := bsz (bbs A0) i * bsz (bbs A0) j.

    Record tst A (nzt : list nat) (D U : nat -> list (nat * list F)) : Prop := mkTst {
      ts_kin : kin A0 A; ts_own : own (bnz A) A;
      ts_row : forall r, r < N -> rcont A r (D r ++ U r);
      ts_len : length nzt = N;
      ts_nzt : forall r, r < N -> nth r nzt 0 = length (D r);
      ts_inv : xinv N (fun r => cz (brow A0 r)) (fun r => cz (D r)) (fun r => cz (U r));
      ts_U : forall r c y, r < N -> In (c, y) (U r) -> sz r c <= length y /\ forall k, k < sz r c -> nth k y k0 = bel A0 r c k;
      ts_D : forall r c y, r < N -> In (c, y) (D r) -> sz r c <= length y /\
        forall k, k < sz r c -> nth k y k0 = bel A0 c r (tpos (bsz (bbs A0) c) (bsz (bbs A0) r) k) }.

    Lemma cz0_ok r : r < N -> cols_ok N (cz (brow A0 r)).
    Proof.
      intros Hr. pose proof HW0 as (HS & HO & HR). split.
      - rewrite cz_cols, brow_cols. apply (bro_nodup _ _ (HR r Hr)).
      - rewrite cz_cols, brow_cols. intros c Hc. unfold bcols in Hc. apply in_map_iff in Hc as (jp & <- & Hj). apply in_seq in Hj. apply (ebwf_slot A0 r jp); auto. lia.
    Qed.

    Lemma tst_start : tst A0 (repeat 0 N) (fun _ => []) (brow A0).
    Proof.
      pose proof HW0 as (HS & HO & HR). constructor.
      - apply kin_refl.
      - exact HO.
      - intros r Hr. cbn [app]. split; [rewrite brow_length; auto|]. intros jp Hj. rewrite brow_length in Hj. rewrite brow_nth by auto. cbn [fst snd].
        destruct (ebwf_slot A0 r jp) as (_ & _ & H & _); auto.
      - apply repeat_length.
      - intros. apply nth_repeat_any.
      - split; [apply Permutation_refl|]. intros r Hr c. cbn. tauto.
      - intros r c y Hr Hin. unfold brow in Hin. apply in_map_iff in Hin as (jp & E & Hj). apply in_seq in Hj. injection E as <- <-.
        destruct (ebwf_slot A0 r jp) as (_ & _ & _ & H); auto; [lia|]. split; [auto|]. intros k Hk. symmetry. apply (bel_hit A0 r _ jp); auto. lia.
      - intros r c y _ [].
    Qed.

    (** room in a row that receives a block *)
    Lemma tst_room A nzt D U i j : tst A nzt D U -> i < N -> j < N -> In j (map fst (U i)) -> ~ In i (map fst (U j)) ->
      count N (fun c => has_block A0 j c || has_block A0 c j) <= bMB A0 -> length (D j ++ U j) < bMB A0.
    Proof.
      intros T Hi Hj HjU HiU Hc. pose proof (ts_inv _ _ _ _ T) as HI. eapply Nat.lt_le_trans; [|exact Hc]. unfold count.
      rewrite <- (map_length fst (D j ++ U j)).
      change (length (i :: map fst (D j ++ U j)) <= length (filter (fun c => has_block A0 j c || has_block A0 c j) (seq 0 N))).
      destruct (xnodup_DU N _ cz0_ok _ _ j HI Hj) as [ND NU]. rewrite cz_cols in ND, NU.
      pose proof (xwaiting N _ cz0_ok _ _ i j HI Hi Hj) as HW. cbn beta in HW; rewrite !cz_cols in HW. specialize (HW HjU).
      apply NoDup_incl_length.
      - rewrite map_app. constructor; [rewrite in_app_iff; tauto|]. apply NoDup_app_intro; auto.
        intros c H1 H2. destruct HI as [_ HD]. apply (HD j Hj c); rewrite cz_cols; auto.
      - assert (HU : forall r c, r < N -> In c (map fst (U r)) -> In c (bcols A0 r) /\ c < N).
        { intros r c Hr Hin. apply in_map_iff in Hin as ([c' y] & Ec & Hin). cbn [fst] in Ec. subst c'. assert (Hz : In (c, 0%Z) (cz (U r))) by (unfold cz; apply in_map_iff; exists (c, y); auto).
          split; [|eapply (xU_lt N _ cz0_ok); eauto]. apply (xin_U N (fun r => cz (brow A0 r)) _ _ r c 0%Z HI Hr) in Hz. rewrite <- brow_cols, <- cz_cols. apply (in_map fst) in Hz. exact Hz. }
        intros c [<-|Hin]; apply filter_In.
        + split; [apply in_seq; lia|]. apply orb_true_iff. right. apply has_block_in. apply HU; auto.
        + rewrite map_app, in_app_iff in Hin. destruct Hin as [Hin|Hin].
          * apply in_map_iff in Hin as ([c' y] & Ec & Hin). cbn [fst] in Ec. subst c'. assert (Hz : In (c, 0%Z) (cz (D j))) by (unfold cz; apply in_map_iff; exists (c, y); auto).
            apply (xin_D N (fun r => cz (brow A0 r)) _ _ j c 0%Z HI Hj) in Hz as [Hlt Hz]. split; [apply in_seq; lia|]. apply orb_true_iff. right. apply has_block_in.
            rewrite <- brow_cols, <- cz_cols. apply (in_map fst) in Hz. exact Hz.
          * destruct (HU j c Hj Hin) as [H1 H2]. split; [apply in_seq; lia|]. apply orb_true_iff. left. apply has_block_in. auto.
    Qed.

    (** the state after moving a block *)
    Lemma tst_moved A nzt D U i j L1 v A' y U2 : tst A nzt D U -> i < N -> j < N -> i <> j -> U i = L1 ++ [(j, v)] -> ~ In i (map fst (U j)) ->
      kin A A' -> own (bnz A') A' -> rcont A' i (D i ++ L1) -> rcont A' j (D j ++ (i, y) :: U2) -> Permutation U2 (U j) -> length y = length v ->
      (forall k, k < sz j i -> nth k y k0 = nth (tpos (bsz (bbs A0) i) (bsz (bbs A0) j) k) v k0) ->
      (forall r L, r < N -> r <> i -> r <> j -> rcont A r L -> rcont A' r L) ->
      tst A' (set_nth nzt j (S (length (D j)))) (upd_fun D j (D j ++ [(i, y)])) (upd_fun (upd_fun U j U2) i L1).
    Proof.
      intros T Hi Hj Hne EU HiU K O Ri Rj HP Ly Vy Ro. destruct T as [K0 O0 R0 L0 Z0 I0 U0 D0].
      set (D' := upd_fun D j (D j ++ [(i, y)])). set (U' := upd_fun (upd_fun U j U2) i L1).
      assert (EDi : D' i = D i) by (apply uf_neq; auto). assert (EUi : U' i = L1) by apply uf_eq.
      assert (EDj : D' j = D j ++ [(i, y)]) by apply uf_eq. assert (EUj : U' j = U2) by (unfold U'; rewrite uf_neq, uf_eq by auto; auto).
      assert (Eo : forall r, r <> i -> r <> j -> D' r = D r /\ U' r = U r) by (intros r H1 H2; unfold D', U'; rewrite !uf_neq by auto; auto).
      assert (HvU : sz i j <= length v /\ forall k, k < sz i j -> nth k v k0 = bel A0 i j k).
      { apply U0; auto. rewrite EU. apply in_app_iff. right. left. reflexivity. }
      constructor; auto.
      - eapply kin_trans; eauto.
      - intros r Hr. destruct (Nat.eq_dec r i) as [->|Hri]; [rewrite EDi, EUi; auto|]. destruct (Nat.eq_dec r j) as [->|Hrj]; [rewrite EDj, EUj, <- app_assoc; auto|].
        destruct (Eo r) as [-> ->]; auto.
      - rewrite length_set_nth. auto.
      - intros r Hr. rewrite nth_set_nth. destruct (Nat.eqb_spec r j) as [->|Hrj]; cbn [andb].
        + destruct (Nat.ltb_spec j (length nzt)); [|lia]. rewrite EDj, app_length. cbn [length]. lia.
        + unfold D'. rewrite uf_neq by auto. auto.
      - apply (xinv_moved N (fun r => cz (brow A0 r)) (fun r => cz (D r)) (fun r => cz (U r)) i j 0%Z (cz L1) (cz U2)); auto.
        + rewrite EU, cz_app. reflexivity.
        + apply cz_perm; auto.
        + rewrite cz_cols. auto.
        + rewrite EDi. auto. + rewrite EUi. auto. + rewrite EDj, cz_app. reflexivity. + rewrite EUj. auto.
        + intros r H1 H2. destruct (Eo r H1 H2) as [-> ->]. auto.
      - intros r c z Hr Hin. destruct (Nat.eq_dec r i) as [->|Hri].
        + rewrite EUi in Hin. apply U0; auto. rewrite EU. apply in_app_iff. auto.
        + destruct (Nat.eq_dec r j) as [->|Hrj].
          * rewrite EUj in Hin. apply U0; auto. eapply Permutation_in; eauto.
          * destruct (Eo r Hri Hrj) as [_ E]. rewrite E in Hin. apply U0; auto.
      - intros r c z Hr Hin. destruct (Nat.eq_dec r j) as [->|Hrj].
        + rewrite EDj, in_app_iff in Hin. destruct Hin as [Hin|[Hin|[]]]; [apply D0; auto|]. injection Hin as <- <-.
          split; [unfold sz in *; lia|]. intros k Hk. rewrite Vy by auto. apply HvU. apply tpos_lt. auto.
        + unfold D' in Hin. rewrite uf_neq in Hin by auto. apply D0; auto.
    Qed.

    (** ... after exchanging two blocks *)
    Lemma tst_exchanged A nzt D U i j L1 v P w Q A' x y U2 U3 : tst A nzt D U -> i < N -> j < N -> i <> j -> U i = L1 ++ [(j, v)] -> U j = P ++ (i, w) :: Q ->
      kin A A' -> own (bnz A') A' -> rcont A' i (D i ++ (j, x) :: U2) -> rcont A' j (D j ++ (i, y) :: U3) -> Permutation U2 L1 -> Permutation U3 (P ++ Q) ->
      length x = length v -> length y = length w ->
      (forall k, k < sz i j -> nth k x k0 = nth (tpos (bsz (bbs A0) j) (bsz (bbs A0) i) k) w k0) ->
      (forall k, k < sz j i -> nth k y k0 = nth (tpos (bsz (bbs A0) i) (bsz (bbs A0) j) k) v k0) ->
      (forall r L, r < N -> r <> i -> r <> j -> rcont A r L -> rcont A' r L) ->
      tst A' (set_nth (set_nth nzt i (S (length (D i)))) j (S (length (D j)))) (upd_fun (upd_fun D i (D i ++ [(j, x)])) j (D j ++ [(i, y)])) (upd_fun (upd_fun U i U2) j U3).
    Proof.
      intros T Hi Hj Hne EU EUj K O Ri Rj HP2 HP3 Lx Ly Vx Vy Ro. destruct T as [K0 O0 R0 L0 Z0 I0 U0 D0].
      set (D' := upd_fun (upd_fun D i (D i ++ [(j, x)])) j (D j ++ [(i, y)])). set (U' := upd_fun (upd_fun U i U2) j U3).
      assert (EDi : D' i = D i ++ [(j, x)]) by (unfold D'; rewrite uf_neq, uf_eq by auto; auto). assert (EUi : U' i = U2) by (unfold U'; rewrite uf_neq, uf_eq by auto; auto).
      assert (EDj : D' j = D j ++ [(i, y)]) by apply uf_eq. assert (EUj' : U' j = U3) by apply uf_eq.
      assert (Eo : forall r, r <> i -> r <> j -> D' r = D r /\ U' r = U r) by (intros r H1 H2; unfold D', U'; rewrite !uf_neq by auto; auto).
      assert (HvU : sz i j <= length v /\ forall k, k < sz i j -> nth k v k0 = bel A0 i j k).
      { apply U0; auto. rewrite EU. apply in_app_iff. right. left. reflexivity. }
      assert (HwU : sz j i <= length w /\ forall k, k < sz j i -> nth k w k0 = bel A0 j i k).
      { apply U0; auto. rewrite EUj. apply in_app_iff. right. left. reflexivity. }
      constructor; auto.
      - eapply kin_trans; eauto.
      - intros r Hr. destruct (Nat.eq_dec r i) as [->|Hri]; [rewrite EDi, EUi, <- app_assoc; auto|]. destruct (Nat.eq_dec r j) as [->|Hrj]; [rewrite EDj, EUj', <- app_assoc; auto|].
        destruct (Eo r) as [-> ->]; auto.
      - rewrite !length_set_nth. auto.
      - intros r Hr. rewrite !nth_set_nth, length_set_nth. destruct (Nat.eqb_spec r j) as [->|Hrj]; cbn [andb].
        + destruct (Nat.ltb_spec j (length nzt)); [|lia]. rewrite EDj, app_length. cbn [length]. lia.
        + destruct (Nat.eqb_spec r i) as [->|Hri]; cbn [andb].
          * destruct (Nat.ltb_spec i (length nzt)); [|lia]. rewrite EDi, app_length. cbn [length]. lia.
          * destruct (Eo r) as [-> _]; auto.
      - apply (xinv_found N (fun r => cz (brow A0 r)) cz0_ok (fun r => cz (D r)) (fun r => cz (U r)) i j 0%Z 0%Z (cz L1) (cz U2) (cz P) (cz Q) (cz U3)); auto.
        + rewrite EU, cz_app. reflexivity.
        + rewrite EUj, cz_app. reflexivity.
        + apply cz_perm; auto.
        + rewrite <- cz_app. apply cz_perm; auto.
        + rewrite EDi, cz_app. reflexivity. + rewrite EUi. auto. + rewrite EDj, cz_app. reflexivity. + rewrite EUj'. auto.
        + intros r H1 H2. destruct (Eo r H1 H2) as [-> ->]. auto.
      - intros r c z Hr Hin. destruct (Nat.eq_dec r i) as [->|Hri].
        + rewrite EUi in Hin. apply U0; auto. rewrite EU. apply in_app_iff. left. eapply Permutation_in; eauto.
        + destruct (Nat.eq_dec r j) as [->|Hrj].
          * rewrite EUj' in Hin. apply U0; auto. apply (Permutation_in _ HP3) in Hin. rewrite EUj. rewrite in_app_iff in *. cbn [In]. tauto.
          * destruct (Eo r Hri Hrj) as [_ E]. rewrite E in Hin. apply U0; auto.
      - intros r c z Hr Hin. destruct (Nat.eq_dec r j) as [->|Hrj].
        + rewrite EDj, in_app_iff in Hin. destruct Hin as [Hin|[Hin|[]]]; [apply D0; auto|]. injection Hin as <- <-.
          split; [unfold sz in *; lia|]. intros k Hk. rewrite Vy by auto. apply HvU. apply tpos_lt. auto.
        + destruct (Nat.eq_dec r i) as [->|Hri].
          * rewrite EDi, in_app_iff in Hin. destruct Hin as [Hin|[Hin|[]]]; [apply D0; auto|]. injection Hin as <- <-.
            split; [unfold sz in *; lia|]. intros k Hk. rewrite Vx by auto. apply HwU. apply tpos_lt. auto.
          * destruct (Eo r Hri Hrj) as [E _]. rewrite E in Hin. apply D0; auto.
    Qed.

    (** ... after transposing a diagonal block *)
    Lemma tst_diag A nzt D U i L1 v A' x U2 : tst A nzt D U -> i < N -> U i = L1 ++ [(i, v)] ->
      kin A A' -> own (bnz A') A' -> rcont A' i (D i ++ (i, x) :: U2) -> Permutation U2 L1 -> length x = length v ->
      (forall k, k < sz i i -> nth k x k0 = nth (tpos (bsz (bbs A0) i) (bsz (bbs A0) i) k) v k0) ->
      (forall r L, r < N -> r <> i -> rcont A r L -> rcont A' r L) ->
      tst A' (set_nth nzt i (S (length (D i)))) (upd_fun D i (D i ++ [(i, x)])) (upd_fun U i U2).
    Proof.
      intros T Hi EU K O Ri HP2 Lx Vx Ro. destruct T as [K0 O0 R0 L0 Z0 I0 U0 D0].
      set (D' := upd_fun D i (D i ++ [(i, x)])). set (U' := upd_fun U i U2).
      assert (EDi : D' i = D i ++ [(i, x)]) by apply uf_eq. assert (EUi : U' i = U2) by apply uf_eq.
      assert (Eo : forall r, r <> i -> D' r = D r /\ U' r = U r) by (intros r H1; unfold D', U'; rewrite !uf_neq by auto; auto).
      assert (HvU : sz i i <= length v /\ forall k, k < sz i i -> nth k v k0 = bel A0 i i k).
      { apply U0; auto. rewrite EU. apply in_app_iff. right. left. reflexivity. }
      constructor; auto.
      - eapply kin_trans; eauto.
      - intros r Hr. destruct (Nat.eq_dec r i) as [->|Hri]; [rewrite EDi, EUi, <- app_assoc; auto|]. destruct (Eo r) as [-> ->]; auto.
      - rewrite !length_set_nth. auto.
      - intros r Hr. rewrite !nth_set_nth. destruct (Nat.eqb_spec r i) as [->|Hri]; cbn [andb].
        + destruct (Nat.ltb_spec i (length nzt)); [|lia]. rewrite EDi, app_length. cbn [length]. lia.
        + destruct (Eo r) as [-> _]; auto.
      - apply (xinv_diag N (fun r => cz (brow A0 r)) cz0_ok (fun r => cz (D r)) (fun r => cz (U r)) i 0%Z (cz L1) (cz U2)); auto.
        + rewrite EU, cz_app. reflexivity.
        + apply cz_perm; auto.
        + rewrite EDi, cz_app. reflexivity. + rewrite EUi. auto.
        + intros r H1. destruct (Eo r H1) as [-> ->]. auto.
      - intros r c z Hr Hin. destruct (Nat.eq_dec r i) as [->|Hri].
        + rewrite EUi in Hin. apply U0; auto. rewrite EU. apply in_app_iff. left. eapply Permutation_in; eauto.
        + destruct (Eo r Hri) as [_ E]. rewrite E in Hin. apply U0; auto.
      - intros r c z Hr Hin. destruct (Nat.eq_dec r i) as [->|Hri].
        + rewrite EDi, in_app_iff in Hin. destruct Hin as [Hin|[Hin|[]]]; [apply D0; auto|]. injection Hin as <- <-.
          split; [lia|]. intros k Hk. rewrite Vx by auto. apply HvU. apply tpos_lt. auto.
        + destruct (Eo r Hri) as [E _]. rewrite E in Hin. apply D0; auto.
    Qed.
    Variable m2 : nat.
    Hypothesis Hm2 : forall i j, i < N -> j < N -> sz i j <= m2.
    Hypothesis Hroom : forall r, r < N -> count N (fun c => has_block A0 r c || has_block A0 c r) <= bMB A0.

    Lemma transpose_row_ok {e} (g : nat -> F) i fuel : i < N -> forall A nzt D U, tst A nzt D U -> (forall r, r < i -> U r = []) -> length (U i) <= fuel ->
      wpq e (transpose_row m2 g i fuel (bnz A i) A nzt) (fun s => exists D' U', tst (fst s) (snd s) D' U' /\ forall r, r < S i -> U' r = []).
    Proof.
      intros Hi. induction fuel as [|fuel IH]; intros A nzt D U T Hlow Hf.
      { cbn [transpose_row]. pose proof (ts_len _ _ _ _ T) as Lz. rewrite (rd_ok nzt i 0) by lia. cbn [bind]. rewrite (ts_nzt _ _ _ _ T) by auto.
        destruct (ts_row _ _ _ _ T i Hi) as [En _]. rewrite app_length in En. destruct (Nat.ltb_spec (length (D i)) (bnz A i)); [lia|]. cbn [wpq].
        exists D, U. split; [auto|]. intros r Hr. destruct (Nat.eq_dec r i) as [->|]; [|apply Hlow; lia]. destruct (U i); [auto|cbn in Hf; lia]. }
      cbn [transpose_row]. pose proof T as [K0 O0 R0 L0 Z0 I0 U0 D0]. pose proof K0 as (_ & _ & EN & EM & EB & KS).
      pose proof HW0 as (HS0 & _ & _). pose proof (KS HS0) as HS. pose proof O0 as (HO1 & _ & _).
      rewrite (rd_ok nzt i 0) by lia. cbn [bind]. rewrite Z0 by auto. destruct (R0 i Hi) as [En Rpi]. pose proof En as En'. rewrite app_length in En'.
      destruct (Nat.ltb_spec (length (D i)) (bnz A i)) as [Hlt|Hge].
      2:{ cbn [wpq]. exists D, U. split; [auto|]. intros r Hr. destruct (Nat.eq_dec r i) as [->|]; [|apply Hlow; lia]. destruct (U i); [auto|cbn in En'; lia]. }
      assert (HUi : U i <> []) by (intros E; rewrite E in En'; cbn in En'; lia).
      destruct (exists_last HUi) as (L1 & [j v] & EU).
      assert (ELU : length (U i) = S (length L1)) by (rewrite EU, app_length; cbn [length]; lia).
      set (ip := bnz A i - 1). assert (Eip : ip = length (D i) + length L1) by lia.
      assert (HiA : i < bNB A) by (fold N in EN; lia). pose proof (HO1 i HiA) as HMi.
      assert (HjU : In j (map fst (U i))). { rewrite EU, map_app. apply in_app_iff. right. left. reflexivity. }
      assert (Hj : j < N).
      { apply (xU_lt N _ (cz0_ok) _ _ i j 0%Z I0 Hi). rewrite EU, cz_app. apply in_app_iff. right. left. reflexivity. }
      assert (HjA : j < bNB A) by (fold N in EN; lia). pose proof (HO1 j HjA) as HMj.
      assert (Hslot : nth ip (D i ++ U i) (0, []) = (j, v)).
      { rewrite EU, app_assoc, app_nth2 by (rewrite app_length; lia). rewrite app_length. replace (ip - (length (D i) + length L1)) with 0 by lia. reflexivity. }
      assert (Hnext : nth (length L1) (U i) (0, []) = (j, v)) by (rewrite EU, app_nth2, Nat.sub_diag by lia; reflexivity).
      destruct (Rpi ip) as [Ec Eo]; [lia|]. rewrite Hslot in Ec, Eo. cbn [fst snd] in Ec, Eo.
      destruct (U0 i j v Hi) as [Lv Vv]; [rewrite EU; apply in_app_iff; right; left; reflexivity|].
      rewrite rd_idx_ok by (auto; lia). cbn [bind]. rewrite Ec.
      assert (Hmove : ~ In i (map fst (U j)) -> i <> j -> (forall r, r < i -> r <> j -> U r = []) -> (j < i -> U j = []) ->
        wpq e (' (A, nzt) <- move_block m2 g i j ip A nzt;; transpose_row m2 g i fuel ip A nzt)
          (fun s => exists D' U', tst (fst s) (snd s) D' U' /\ forall r, r < S i -> U' r = [])).
      { intros HiU Hne _ HUj0. apply wp_bind.
        eapply wp_mono. { apply (move_block_ok m2 g i j ip A nzt (D i ++ L1) v (D j) (U j)); auto.
          - rewrite <- app_assoc, <- EU. apply R0; auto.
          - rewrite app_length. lia.
          - fold N in EN. lia.
          - rewrite EM. apply (tst_room A nzt D U i j); auto.
          - rewrite EB. exact Lv.
          - rewrite EB. apply (Hm2 i j); auto. }
        intros s (A' & y & U2 & -> & K' & O' & Ri' & Rj' & HP & Ly & Vy & Ro'). rewrite EB, EN in *.
        pose proof (tst_moved A nzt D U i j L1 v A' y U2 T Hi Hj Hne EU HiU K' O' Ri' Rj' HP Ly Vy Ro') as T'.
        assert (EipA : ip = bnz A' i). { destruct Ri' as [E _]. rewrite E, app_length. auto. }
        rewrite EipA. eapply IH; [exact T'| |].
        - intros r Hr. rewrite uf_neq by lia. destruct (Nat.eq_dec r j) as [->|]; [|rewrite uf_neq by auto; apply Hlow; auto].
          rewrite uf_eq. rewrite (HUj0 Hr) in HP. apply Permutation_nil. symmetry. auto.
        - rewrite uf_eq. lia. }
      destruct (Nat.ltb_spec i j) as [Hij|Hij].
      - rewrite b_nnz_ok by auto. cbn [bind]. rewrite (rd_ok nzt j 0) by lia. cbn [bind]. rewrite Z0 by auto.
        destruct (R0 j Hj) as [Enj Rpj]. rewrite Enj. apply wp_bind. eapply wp_mono; [apply find_block_ok; auto; lia|].
        intros [jp|]; [|intros HiU; apply Hmove; auto; lia]. intros (P & w & Q & EUj & Ejp).
        assert (Lj : length (U j) = length P + S (length Q)) by (rewrite EUj, app_length; auto).
        destruct (U0 j i w Hj) as [Lw Vw]; [rewrite EUj; apply in_app_iff; right; left; reflexivity|].
        rewrite app_length in Enj.
        assert (Hslotj : nth jp (D j ++ U j) (0, []) = (i, w)).
        { rewrite EUj, app_assoc, app_nth2 by (rewrite app_length; lia). rewrite app_length. replace (jp - (length (D j) + length P)) with 0 by lia. reflexivity. }
        destruct (Rpj jp) as [Ecj Eoj]; [rewrite app_length; lia|]. rewrite Hslotj in Ecj, Eoj. cbn [fst snd] in Ecj, Eoj.
        rewrite !b_bs_ok by auto. cbn [bind]. rewrite (b_blk_ok A i ip v) by (auto; lia). cbn [bind]. rewrite (b_blk_ok A j jp w) by (auto; lia). cbn [bind]. rewrite EB.
        apply wp_bind. eapply wp_mono; [apply exchange_blocks_ok; [exact Lv|exact Lw]|]. intros [x y]. cbn [fst snd]. intros (Lx & Ly & Vx & Vy).
        apply wp_bind. eapply wp_mono; [apply (b_wblk_ok (bnz A) A i ip v); auto; lia|]. intros A1 S1. rewrite Ec in S1.
        pose proof (ss_kin _ _ _ _ _ _ _ S1) as K1. pose proof K1 as (_ & _ & EN1 & EM1 & EB1 & KS1). pose proof (KS1 HS) as HS1.
        apply wp_bind.
        assert (Eoj1 : bobj A1 j jp = Some w) by (rewrite (ss_objs _ _ _ _ _ _ _ S1) by (auto; lia); auto).
        assert (Ecj1 : scol A1 j jp = i) by (rewrite (ss_cols _ _ _ _ _ _ _ S1) by (auto; lia); auto).
        eapply wp_mono; [apply (b_wblk_ok (bnz A) A1 j jp w); auto; try lia; apply S1|]. intros A2 S2. rewrite Ecj1 in S2.
        pose proof (ss_kin _ _ _ _ _ _ _ S2) as K2. pose proof K2 as (_ & _ & EN2 & EM2 & EB2 & KS2). pose proof (KS2 HS1) as HS2.
        assert (Ri2 : rowp A2 i (D i ++ (L1 ++ [(j, x)]))).
        { eapply slot_other; [exact S2|lia|lia| | |].
          - rewrite !app_length. cbn [length]. lia.
          - lia.
          - replace (D i ++ L1 ++ [(j, x)]) with (set_nth (D i ++ U i) ip (j, x)).
            + apply (slot_rowp (bnz A) A i ip j x A1); auto; lia.
            + rewrite EU, !app_assoc, Eip, <- app_length, set_nth_split. reflexivity. }
        assert (Rj2 : rowp A2 j (D j ++ (P ++ (i, y) :: Q))).
        { replace (D j ++ P ++ (i, y) :: Q) with (set_nth (D j ++ U j) jp (i, y)).
          - apply (slot_rowp (bnz A) A1 j jp i y A2); auto; try lia; try (rewrite app_length; lia).
            eapply slot_other; [exact S1|lia|lia| | |exact Rpj]; try lia. rewrite app_length. lia.
          - rewrite EUj, !app_assoc, Ejp, <- app_length, set_nth_split. reflexivity. }
        assert (Ro2 : forall r L, r < N -> r <> i -> r <> j -> rcont A r L -> rcont A2 r L).
        { intros r L Hr H1 H2 [HL HR]. assert (Hr' : r < bNB A) by (fold N in EN; lia). pose proof (HO1 r Hr'). split; [rewrite (slot_bnz _ _ _ _ _ _ _ r S2), (slot_bnz _ _ _ _ _ _ _ r S1); auto|].
          eapply slot_other; [exact S2|lia|lia|lia|lia|]. eapply slot_other; [exact S1|lia|lia|lia|lia|auto]. }
        apply wp_bind. eapply wp_mono. { apply (bring_ok (bnz A) A2 i (D i) (L1 ++ [(j, x)]) ip (length L1) (length (D i))); auto; try lia.
          - apply S2. - rewrite !app_length. cbn [length]. lia. - rewrite app_length. cbn [length]. lia. }
        intros A3 (SW3 & U2 & R3 & HP2). rewrite app_nth2, Nat.sub_diag in R3, HP2 by lia. cbn [nth] in R3, HP2. apply cons_snoc_perm' in HP2.
        pose proof (sw_kin _ _ _ _ _ _ SW3) as K3. pose proof K3 as (_ & _ & EN3 & EM3 & EB3 & KS3). pose proof (KS3 HS2) as HS3.
        assert (Rj3 : rowp A3 j (D j ++ (P ++ (i, y) :: Q))).
        { eapply swapped_other; [exact SW3|lia| |lia|auto]. rewrite !app_length. cbn [length]. lia. }
        apply wp_bind. eapply wp_mono. { apply (bring_ok (bnz A) A3 j (D j) (P ++ (i, y) :: Q) jp (length P) (length (D j))); auto; try lia.
          - apply SW3. - rewrite !app_length. cbn [length]. lia. - rewrite app_length. cbn [length]. lia. }
        intros A4 (SW4 & U3 & R4 & HP3). rewrite app_nth2, Nat.sub_diag in R4, HP3 by lia. cbn [nth] in R4, HP3.
        assert (HP3' : Permutation U3 (P ++ Q)). { apply (Permutation_cons_inv (a := (i, y))). rewrite HP3. symmetry. apply Permutation_middle. }
        pose proof (sw_kin _ _ _ _ _ _ SW4) as K4.
        assert (HB4 : forall r, bnz A4 r = bnz A r).
        { intros r. rewrite (swapped_bnz _ _ _ _ _ _ r SW4), (swapped_bnz _ _ _ _ _ _ r SW3), (slot_bnz _ _ _ _ _ _ _ r S2), (slot_bnz _ _ _ _ _ _ _ r S1). reflexivity. }
        rewrite wr_ok by lia. cbn [bind]. rewrite wr_ok by (rewrite length_set_nth; lia). cbn [bind].
        assert (T' : tst A4 (set_nth (set_nth nzt i (S (length (D i)))) j (S (length (D j)))) (upd_fun (upd_fun D i (D i ++ [(j, x)])) j (D j ++ [(i, y)])) (upd_fun (upd_fun U i U2) j U3)).
        { apply (tst_exchanged A nzt D U i j L1 v P w Q A4 x y U2 U3); auto; try lia.
          - eapply kin_trans; [exact K1|]. eapply kin_trans; [exact K2|]. eapply kin_trans; [exact K3|exact K4].
          - apply own_cap_eq with (cap := bnz A); [intros; apply HB4|]. apply SW4.
          - split; [rewrite HB4, app_length; cbn [length]; apply Permutation_length in HP2; lia|].
            eapply swapped_other; [exact SW4|lia| |lia|auto]. rewrite app_length. cbn [length]. apply Permutation_length in HP2. lia.
          - split; [rewrite HB4, app_length; cbn [length]; apply Permutation_length in HP3'; rewrite app_length in HP3'; lia|auto].
          - intros r L Hr H1 H2 HR. destruct (Ro2 r L Hr H1 H2 HR) as [HL HR2]. assert (Hr' : r < bNB A) by (fold N in EN; lia). pose proof (HO1 r Hr').
            assert (length L = bnz A r) by (destruct HR as [E _]; auto).
            split; [rewrite HB4; destruct HR; auto|]. eapply swapped_other; [exact SW4|lia|lia|lia|]. eapply swapped_other; [exact SW3|lia|lia|lia|auto]. }
        rewrite <- (HB4 i). eapply IH; [exact T'| |].
        + intros r Hr. rewrite !uf_neq by lia. apply Hlow; auto.
        + rewrite uf_neq, uf_eq by lia. apply Permutation_length in HP2. lia.
      - destruct (Nat.ltb_spec j i) as [Hji|Hji].
        + apply Hmove; auto; try lia. rewrite Hlow by auto. auto.
        + assert (j = i) as -> by lia. rewrite b_bs_ok by auto. cbn [bind]. rewrite (b_blk_ok A i ip v) by (auto; lia). cbn [bind]. rewrite EB.
          apply wp_bind. eapply wp_mono; [apply transpose_diag_ok; exact Lv|]. intros x (Lx & Vx).
          apply wp_bind. eapply wp_mono; [apply (b_wblk_ok (bnz A) A i ip v); auto; lia|]. intros A1 S1. rewrite Ec in S1.
          pose proof (ss_kin _ _ _ _ _ _ _ S1) as K1. pose proof K1 as (_ & _ & EN1 & EM1 & EB1 & KS1). pose proof (KS1 HS) as HS1.
          assert (Ri2 : rowp A1 i (D i ++ (L1 ++ [(i, x)]))).
          { replace (D i ++ L1 ++ [(i, x)]) with (set_nth (D i ++ U i) ip (i, x)).
            - apply (slot_rowp (bnz A) A i ip i x A1); auto; lia.
            - rewrite EU, !app_assoc, Eip, <- app_length, set_nth_split. reflexivity. }
          apply wp_bind. eapply wp_mono. { apply (bring_ok (bnz A) A1 i (D i) (L1 ++ [(i, x)]) ip (length L1) (length (D i))); auto; try lia.
            - apply S1. - rewrite !app_length. cbn [length]. lia. - rewrite app_length. cbn [length]. lia. }
          intros A3 (SW3 & U2 & R3 & HP2). rewrite app_nth2, Nat.sub_diag in R3, HP2 by lia. cbn [nth] in R3, HP2. apply cons_snoc_perm' in HP2.
          pose proof (sw_kin _ _ _ _ _ _ SW3) as K3.
          assert (HB4 : forall r, bnz A3 r = bnz A r). { intros r. rewrite (swapped_bnz _ _ _ _ _ _ r SW3), (slot_bnz _ _ _ _ _ _ _ r S1). reflexivity. }
          rewrite wr_ok by lia. cbn [bind].
          assert (T' : tst A3 (set_nth nzt i (S (length (D i)))) (upd_fun D i (D i ++ [(i, x)])) (upd_fun U i U2)).
          { apply (tst_diag A nzt D U i L1 v A3 x U2); auto; try lia.
            - eapply kin_trans; [exact K1|exact K3].
            - apply own_cap_eq with (cap := bnz A); [intros; apply HB4|]. apply SW3.
            - split; [rewrite HB4, app_length; cbn [length]; apply Permutation_length in HP2; lia|auto].
            - intros r L Hr H1 [HL HR]. assert (Hr' : r < bNB A) by (fold N in EN; lia). pose proof (HO1 r Hr').
              split; [rewrite HB4; auto|]. eapply swapped_other; [exact SW3|lia|lia|lia|]. eapply slot_other; [exact S1|lia|lia|lia|lia|auto]. }
          rewrite <- (HB4 i). eapply IH; [exact T'| |].
          * intros r Hr. rewrite !uf_neq by lia. apply Hlow; auto.
          * rewrite uf_eq. apply Permutation_length in HP2. lia.
    Qed.
  End Run.

  (** ** bml_transpose in place: any pattern whose symmetrised rows fit *)
  Theorem eb_transpose_ok A (g : nat -> F) : ebwf A ->
    (forall r, r < bNB A -> count (bNB A) (fun c => has_block A r c || has_block A c r) <= bMB A) ->
    exists B, eb_transpose A g = Ok B /\ ebwf B /\ same_dims A B /\ meq (bN A) (ebmx B) (mtrans (ebmx A)) /\
      forall r c, r < bNB A -> In c (bcols B r) <-> c < bNB A /\ In r (bcols A c).
  Proof.
    intros W Hroom. pose proof W as (HS & HO & HR). unfold eb_transpose.
    destruct (maxbsize_ok (bNB A) (bbs A)) as (m & Em & Hm & _); [rewrite (sh_bs A HS); auto|]. rewrite Em. cbn [bind].
    match goal with |- context [for_n (bNB A) ?b _] => set (body := b) end.
    assert (G : wpq False (for_n (bNB A) body (A, repeat 0 (bNB A))) (fun s => exists D U, tst A (fst s) (snd s) D U /\ forall r, r < bNB A -> U r = [])).
    { apply (for_n_inv (fun i s => exists D U, tst A (fst s) (snd s) D U /\ forall r, r < i -> U r = [])).
      - exists (fun _ => []), (brow A). split; [apply tst_start; auto|lia].
      - intros i [B nzt] Hi (D & U & T & Hlow). cbn [fst snd] in *. unfold body. pose proof (ts_kin _ _ _ _ _ T) as K. pose proof K as (_ & _ & EN & _ & _ & KS).
        apply wp_bind. rewrite b_nnz_ok by (auto; lia). cbn [wpq]. eapply (transpose_row_ok A W (m * m)).
        + intros a b Ha Hb. apply Nat.mul_le_mono; auto.
        + exact Hroom.
        + exact Hi.
        + exact T.
        + auto.
        + destruct (ts_row _ _ _ _ _ T i Hi) as [E _]. rewrite E, app_length. lia. }
    match type of G with wpq _ ?t _ => destruct t as [[B nzt]| | |] end; cbn [wpq bind] in G |- *; try tauto.
    destruct G as (D & U & T & HU). cbn [fst snd] in T. exists B. split; [reflexivity|].
    destruct T as [K O R Lz Z I HvU HvD]. pose proof K as (EN & EMM & ENB & EMB & EB & KS).
    assert (HRD : forall r, r < bNB A -> rcont B r (D r)). { intros r Hr. specialize (R r Hr). rewrite HU, app_nil_r in R by auto. auto. }
    assert (HND : forall r, r < bNB A -> NoDup (map fst (D r))). { intros r Hr. rewrite <- cz_cols. apply (xnodup_DU (bNB A) _ (cz0_ok A W) _ _ r I Hr). }
    assert (HinD : forall r c, r < bNB A -> In c (map fst (D r)) <-> c < bNB A /\ In r (bcols A c)).
    { intros r c Hr. split.
      - intros Hin. apply in_map_iff in Hin as ([c' y] & Ec & Hin). cbn [fst] in Ec. subst c'.
        assert (Hz : In (c, 0%Z) (cz (D r))) by (unfold cz; apply in_map_iff; exists (c, y); auto).
        apply (xin_D (bNB A) (fun r => cz (brow A r)) _ _ r c 0%Z I Hr) in Hz as [H1 H2]. split; [auto|].
        rewrite <- brow_cols, <- cz_cols. apply (in_map fst) in H2. exact H2.
      - intros [Hc Hin]. rewrite <- brow_cols in Hin. apply in_map_iff in Hin as ([r' y] & Er & Hin). cbn [fst] in Er. subst r'.
        assert (HT : In (c, r, 0%Z) (trips (F:=Zscalar) (bNB A) (fun r => cz (D r)) (fun r => cz (U r)))).
        { apply (xinv_in (bNB A) (fun r => cz (brow A r)) _ _ c r 0%Z I). split; [auto|]. unfold cz. apply in_map_iff. exists (r, y). auto. }
        unfold trips in HT. apply in_flat_map in HT as (q & Hq & HT). apply in_seq in Hq. unfold ents in HT. rewrite HU in HT by lia. cbn [cz map] in HT. rewrite app_nil_r in HT.
        apply in_map_iff in HT as ([a b] & Eab & HT). cbn [fst snd] in Eab. injection Eab as E1 E2 _; subst a q. rewrite <- cz_cols. apply (in_map fst) in HT. exact HT. }
    assert (HL : forall r, r < bNB A -> lrow_ok (bbs B) (bNB B) r (D r)).
    { intros r Hr. rewrite EB, ENB. split; [auto|]. intros [c y] Hin. cbn [fst snd]. split; [apply (HinD r c Hr); apply (in_map fst) in Hin; auto|]. apply HvD; auto. }
    assert (WB : ebwf B).
    { split; [auto|]. split; [auto|]. rewrite ENB. intros r Hr. apply (lrow_brow_ok B r (D r)); auto. }
    split; [auto|]. split; [apply kin_dims; auto|]. split.
    - rewrite <- EN. pose proof WB as (HSB & _ & _). apply meq_blocks; auto. rewrite ENB, EB. intros r c k Hr Hc Hk.
      destruct (pos_split _ _ _ Hk) as (P1 & P2 & P3). unfold xb, mtrans. rewrite ebmx_at by auto.
      rewrite bel_brow, (rcont_brow _ _ _ (HRD r Hr)).
      destruct (in_dec Nat.eq_dec c (map fst (D r))) as [Hin|Hnin].
      + apply in_map_iff in Hin as ([c' y] & Ec & Hin). cbn [fst] in Ec. subst c'. destruct (HvD r c y Hr Hin) as [_ V].
        etransitivity; [|exact (V k Hk)]. apply elook_in; [rewrite cells_cols; auto|]. unfold cells. apply in_map_iff. exists (c, y). auto.
      + rewrite elook_notin by (rewrite cells_cols; auto). symmetry. apply bel_miss. intros jp Hjp E. apply Hnin. apply HinD; auto. split; [auto|].
        unfold bcols. apply in_map_iff. exists jp. split; [auto|]. apply in_seq. lia.
    - intros r c Hr. rewrite <- brow_cols, (rcont_brow _ _ _ (HRD r Hr)). apply HinD; auto.
  Qed.
End Trans.
