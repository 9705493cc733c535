(** Blocks of block ellpack matrices are freed: facts. *)
From Coq Require Import ZArith Permutation.
From Verif Require Import Base BaseFacts Spec SpecFacts EllpackModel EllpackSpec EllblockModel EllblockSpec EllblockFacts EllblockHeap EllblockRead EllblockBuild EllblockMake EllblockSet EllblockPtr EllblockMemModel EllblockMemSpec.

(** [Q] holds if the computation returns *)
Definition post {X} (r : res X) (Q : X -> Prop) : Prop := match r with Ok x => Q x | _ => True end.
Lemma post_bind {X Y} (r : res X) (k : X -> res Y) Q : post r (fun x => post (k x) Q) -> post (bind r k) Q.
Proof. destruct r; cbn; auto. Qed.
Lemma post_any {X} (r : res X) : post r (fun _ => True).
Proof. destruct r; cbn; auto. Qed.
Lemma post_skip {X Y} (r : res X) (k : X -> res Y) Q : (forall x, post (k x) Q) -> post (bind r k) Q.
Proof. destruct r; cbn; auto. Qed.
Lemma post_mono {X} (r : res X) (P Q : X -> Prop) : post r P -> (forall x, P x -> Q x) -> post r Q.
Proof. destruct r; cbn; auto. Qed.
Lemma post_self {X} (r : res X) : post r (fun x => r = Ok x).
Proof. destruct r; cbn; auto. Qed.
Lemma post_forM {X S} (I : S -> Prop) (l : list X) body : (forall x s, In x l -> I s -> post (body x s) I) -> forall s, I s -> post (forM l body s) I.
Proof.
  induction l as [|x l IH]; intros H s Hs; cbn [forM]; auto. apply post_bind. eapply post_mono; [apply H; auto; left; auto|]. intros s' Hs'. apply IH; auto. intros. apply H; auto. right; auto.
Qed.
Lemma post_for_n {S} (I : S -> Prop) n body : (forall i s, i < n -> I s -> post (body i s) I) -> forall s, I s -> post (for_n n body s) I.
Proof. intros H. apply post_forM. intros x s Hx. apply in_seq in Hx. apply H. lia. Qed.
Lemma post_count {S} (I : nat -> S -> Prop) n body : (forall i s, i < n -> I i s -> post (body i s) (I (Datatypes.S i))) -> forall s, I 0 s -> post (for_n n body s) (I n).
Proof.
  intros H s Hs. unfold for_n. assert (G : forall m k s, k + m = n -> I k s -> post (forM (seq k m) body s) (I n)).
  { induction m as [|m IH]; intros k s0 E Hk; cbn [seq forM]; [cbn; replace n with k by lia; auto|]. apply post_bind. eapply post_mono; [apply H; auto; lia|]. intros s1 H1. apply IH; auto. lia. }
  apply G; auto.
Qed.
Lemma post_ok {X} (r : res X) (Q : X -> Prop) x : post r Q -> r = Ok x -> Q x.
Proof. intros H ->. exact H. Qed.

Section Mem.
  Context {F : scalar}.
  Local Notation eb := (eb F).
  Implicit Types A B C : eb.

  Lemma nlive_app (h k : list (option (list F))) : nlive (h ++ k) = nlive h + nlive k.
  Proof. unfold nlive. rewrite filter_app, app_length. auto. Qed.
  Lemma nlive_set (h : list (option (list F))) : forall a x v, nth_error h a = Some (Some x) -> nlive (set_nth h a v) + 1 = nlive h + (match v with Some _ => 1 | None => 0 end).
  Proof.
    induction h as [|y h IH]; intros [|a] x v E; cbn in E; try discriminate.
    - injection E as ->. unfold nlive. cbn. destruct v; cbn; lia.
    - specialize (IH a x v E). unfold nlive in *. cbn. destruct y; cbn [length]; lia.
  Qed.
  Lemma sum_set (l : list nat) : forall k n, k < length l -> list_sum (set_nth l k n) + nth k l 0 = list_sum l + n.
  Proof. induction l as [|x l IH]; intros [|k] n H; cbn [set_nth nth length] in *; try lia; change (list_sum (x :: l)) with (x + list_sum l).
    - change (list_sum (n :: l)) with (n + list_sum l). lia.
    - change (list_sum (x :: set_nth l k n)) with (x + list_sum (set_nth l k n)). specialize (IH k n ltac:(lia)). lia.
  Qed.

  Lemma p_rd {X} (l : list X) k d : post (rd l k) (fun v => k < length l /\ v = nth k l d).
  Proof. unfold rd. destruct (nth_error l k) as [x|] eqn:E; cbn; auto. split; [apply nth_error_Some; congruence|]. symmetry. apply nth_error_nth; auto. Qed.
  Lemma p_wr {X} (l : list X) k v : post (wr l k v) (fun l' => k < length l /\ l' = set_nth l k v).
  Proof. unfold wr. destruct (Nat.ltb_spec k (length l)); cbn; auto. Qed.

  (** *** the elementary accesses *)
  Lemma p_nnz A ib : post (b_nnz A ib) (fun n => ib < length (bnnz A) /\ n = bnz A ib).
  Proof. apply p_rd. Qed.
  (** same number of live blocks, same counts *)
  Definition still A A' : Prop := nlive (bheap A') = nlive (bheap A) /\ bnnz A' = bnnz A.
  Lemma still_refl A : still A A. Proof. split; auto. Qed.
  Lemma still_trans A B C : still A B -> still B C -> still A C. Proof. intros [? ?] [? ?]. split; congruence. Qed.
  Lemma p_widx A k c : post (b_widx A k c) (still A).
  Proof. unfold b_widx. apply post_skip. intros x. split; auto. Qed.
  Lemma p_wptr A k c : post (b_wptr A k c) (still A).
  Proof. unfold b_wptr. apply post_skip. intros x. split; auto. Qed.
  Lemma p_wblk A k v : post (b_wblk A k v) (still A).
  Proof.
    unfold b_wblk. apply post_skip. intros [a|]; cbn [post]; auto. unfold deref. destruct (nth_error (bheap A) a) as [[x|]|] eqn:E; cbn [bind post]; auto.
    split; auto. cbn [bheap]. pose proof (nlive_set _ _ _ (Some v) E) as H. cbv iota in H. lia.
  Qed.
  Lemma p_wnnz A ib n : post (b_wnnz A ib n) (fun A' => ib < length (bnnz A) /\ bheap A' = bheap A /\ bnnz A' = set_nth (bnnz A) ib n).
  Proof. unfold b_wnnz. apply post_bind. eapply post_mono; [apply p_wr|]. intros l [H ->]. cbn. auto. Qed.
  Lemma p_alloc A k n g : post (b_alloc A k n g) (fun A' => nlive (bheap A') = nlive (bheap A) + 1 /\ bnnz A' = bnnz A).
  Proof. unfold b_alloc. apply post_bind. eapply post_mono; [apply p_wptr|]. intros A1 [E1 E2]. cbn [post bheap bnnz]. rewrite nlive_app, E1. auto. Qed.

  (** *** orphans *)
  Lemma orphans_still A A' : still A A' -> orphans A' = orphans A.
  Proof. intros [E1 E2]. unfold orphans, blocks. rewrite E1, E2. auto. Qed.
  Lemma orphans_nnz A A' ib n : ib < length (bnnz A) -> bnnz A' = set_nth (bnnz A) ib n ->
    (orphans A' - Z.of_nat (nlive (bheap A')) = orphans A - Z.of_nat (nlive (bheap A)) + Z.of_nat (bnz A ib) - Z.of_nat n)%Z.
  Proof. intros H E. unfold orphans, blocks. rewrite E. pose proof (sum_set (bnnz A) ib n H). unfold bnz. lia. Qed.

  (** a new block at the end of a row *)
  Lemma p_new A ib n jb m g fill : n = bnz A ib -> post (b_new A ib n jb m g fill) (fun A' => orphans A' = orphans A /\ bnnz A' = set_nth (bnnz A) ib (S n) /\ ib < length (bnnz A)).
  Proof.
    intros En. unfold b_new. apply post_bind. eapply post_mono; [apply p_alloc|]. intros A1 [E1 N1]. apply post_bind. eapply post_mono; [apply p_widx|]. intros A2 [E2 N2].
    apply post_skip. intros x. apply post_skip. intros y. apply post_bind. eapply post_mono; [apply p_wblk|]. intros A3 [E3 N3]. eapply post_mono; [apply p_wnnz|].
    intros A4 (H4 & E4 & N4). rewrite N3, N2, N1 in *. split; auto. pose proof (orphans_nnz A A4 ib (S n) H4 N4) as H. rewrite E4, E3, E2, E1 in H. lia.
  Qed.

  Lemma p_put_found A ib ii jb jj v : post (put_found A ib ii jb jj v) (fun s => still A (fst s)).
  Proof.
    unfold put_found. apply post_skip. intros n. apply (post_for_n (fun s => still A (fst s))); [|apply still_refl]. intros q [A1 f] _ H. cbn [fst] in H. apply post_skip. intros c. destruct (c =? jb); [|cbn; auto].
    apply post_skip. intros x. apply post_skip. intros bj. apply post_skip. intros bi. apply post_skip. intros y. apply post_bind. eapply post_mono; [apply p_wblk|]. intros A2 H2. cbn. eapply still_trans; eauto.
  Qed.
  Lemma p_put_new A ib ii jb jj v g : post (put_new A ib ii jb jj v g) (fun A' => orphans A' = orphans A).
  Proof.
    unfold put_new. apply post_bind. eapply post_mono; [apply p_nnz|]. intros n [_ En]. apply post_skip. intros bi. apply post_skip. intros bj. eapply post_mono; [apply p_new; auto|]. intros A' H. apply H.
  Qed.

  (** *** functions that keep the number of orphans *)
  Lemma set_element_orphans A i j v g A' : eb_set_element A i j v g = Ok A' -> orphans A' = orphans A.
  Proof.
    apply (post_ok _ (fun A' => orphans A' = orphans A)). unfold eb_set_element. apply post_skip. intros [ib ii]. apply post_skip. intros [jb jj]. apply post_bind. eapply post_mono; [apply p_put_found|]. intros [A1 f] H1. cbn [fst] in H1.
    destruct f; [cbn; apply orphans_still; auto|]. apply post_skip. intros n. destruct (n =? bMB A1); [cbn; auto|]. apply post_skip. intros [a|]; [cbn; auto|]. eapply post_mono; [apply p_put_new|]. intros A2 H2. cbn. rewrite H2. apply orphans_still; auto.
  Qed.
  Lemma set_row_orphans keep A i row g A' : eb_set_row keep A i row g = Ok A' -> orphans A' = orphans A.
  Proof.
    apply (post_ok _ (fun A' => orphans A' = orphans A)). unfold eb_set_row. apply post_skip. intros [ib ii]. apply (post_for_n (fun A' => orphans A' = orphans A)); auto. intros k A1 _ H1. apply post_skip. intros v. destruct (keep v); [|cbn; auto].
    apply post_skip. intros [jb jj]. apply post_bind. eapply post_mono; [apply p_put_found|]. intros [A2 f] H2. cbn [fst] in H2. apply orphans_still in H2. destruct f; [cbn; congruence|]. eapply post_mono; [apply p_put_new|]. intros A3 H3. cbn. congruence.
  Qed.
  Lemma set_diagonal_orphans keep A d g A' : eb_set_diagonal keep A d g = Ok A' -> orphans A' = orphans A.
  Proof.
    apply (post_ok _ (fun A' => orphans A' = orphans A)). unfold eb_set_diagonal. apply post_bind. eapply post_mono.
    { apply (post_for_n (fun s => orphans (fst s) = orphans A)); auto. intros ib [A1 off] _ H1. cbn [fst] in H1. apply post_skip. intros b. apply post_bind. eapply post_mono; [apply p_nnz|]. intros n [_ En].
      apply post_bind. eapply post_mono. { apply (post_for_n (fun s => still A1 (fst s))); [|apply still_refl]. intros q [A2 f] _ H2. cbn [fst] in H2. apply post_skip. intros c. destruct (c =? ib); [|cbn; auto].
        apply post_skip. intros ab. apply post_skip. intros x. apply post_skip. intros y. apply post_bind. eapply post_mono; [apply p_wblk|]. intros A3 H3. cbn. eapply still_trans; eauto. }
      intros [A2 f] H2. cbn [fst] in H2. apply post_bind. apply (post_mono _ (fun A3 => orphans A3 = orphans A)); [|cbn; auto]. pose proof (orphans_still _ _ H2) as H2'. destruct f; [cbn; congruence|].
      apply post_skip. intros ab. destruct ab; [|cbn; congruence]. eapply post_mono; [apply p_new|]. { destruct H2 as [_ E]. unfold bnz in *. rewrite E. auto. } intros A3 [H3 _]. congruence. }
    intros [A1 off] H1. exact H1.
  Qed.
  Lemma set_block_orphans A ib jb el A' : eb_set_block A ib jb el = Ok A' -> still A A'.
  Proof.
    apply (post_ok _ (still A)). unfold eb_set_block. destruct (_ || _)%bool; [cbn; auto|]. apply post_skip. intros n. apply post_bind. eapply post_mono.
    { apply (post_for_n (fun s => still A (fst s))); [|apply still_refl]. intros q [A2 f] _ H2. cbn [fst] in H2. destruct f; [cbn; auto|]. apply post_skip. intros c. destruct (c =? jb); [|cbn; auto].
        apply post_skip. intros bi. apply post_skip. intros bj. apply post_skip. intros x. apply post_skip. intros y. apply post_bind. eapply post_mono; [apply p_wblk|]. intros A3 H3. cbn. eapply still_trans; eauto. }
    intros [A1 d] H. cbn [fst] in H. destruct d; cbn; auto.
  Qed.
  Lemma scale_orphans a A A' : eb_scale_inplace a A = Ok A' -> orphans A' = orphans A.
  Proof.
    intros E. apply orphans_still. revert E. apply (post_ok _ (still A)). unfold eb_scale_inplace. apply post_for_n; [|apply still_refl]. intros ib A1 _ H1. apply post_skip. intros n. apply post_for_n; auto. intros q A2 _ H2.
    do 5 (apply post_skip; intros ?). eapply post_mono; [apply p_wblk|]. intros A3 H3. eapply still_trans; eauto.
  Qed.

  (** *** new matrices *)
  Lemma sum_repeat0 n : list_sum (repeat 0 n) = 0. Proof. induction n; cbn; auto. Qed.
  Lemma p_block_matrix c NB MB M bs : post (block_matrix c NB MB M bs) (fun s => bheap (snd s) = ([] : list (option (list F))) /\ bnnz (snd s) = repeat 0 NB /\ bNB (snd s) = NB).
  Proof.
    unfold block_matrix. destruct (_ || _)%bool; [cbn; auto|]. apply post_skip. intros N. destruct (N <? M); [cbn; auto|]. destruct c as [d|]; [destruct (s_mb d =? 0)|]; cbn; auto.
  Qed.
  Lemma empty_orphans A n : bheap A = [] -> bnnz A = repeat 0 n -> orphans A = 0%Z.
  Proof. intros E1 E2. unfold orphans, blocks. rewrite E1, E2, sum_repeat0. auto. Qed.
  Lemma p_eb_zero c N M : post (eb_zero c N M) (fun s => orphans (F := F) (snd s) = 0%Z /\ bnnz (snd s) = repeat 0 (bNB (snd s))).
  Proof.
    unfold eb_zero. destruct (N <? M); [cbn; auto|]. apply post_skip. intros d. eapply post_mono; [apply p_block_matrix|]. intros [c' A] (E1 & E2 & E3). cbn [snd] in *. split; [eapply empty_orphans; eauto|congruence].
  Qed.
  Lemma zero_orphans c N M c' A : eb_zero c N M = Ok (c', A) -> orphans A = 0%Z.
  Proof. intros E. exact (proj1 (post_ok _ _ _ (p_eb_zero c N M) E)). Qed.

  Lemma import_orphans c o N D keep M g c' A : eb_import c o N D keep M g = Ok (c', A) -> orphans A = 0%Z.
  Proof.
    apply (post_ok _ (fun s => orphans (snd s) = 0%Z)). unfold eb_import. apply post_bind. eapply post_mono; [apply p_eb_zero|]. intros [c1 A1] [H1 N1]. cbn [snd] in *. apply post_skip. intros off.
    apply post_bind. eapply post_mono.
    { apply (post_count (fun ib A => orphans A = 0%Z /\ forall k, ib <= k -> bnz A k = 0)); [|split; auto; intros; unfold bnz; rewrite N1; apply nth_repeat_any].
      intros ib A2 _ [H2 Z2]. apply post_bind. eapply post_mono; [apply p_wnnz|]. intros A3 (L3 & E3 & N3).
      assert (H3 : orphans A3 = 0%Z). { pose proof (orphans_nnz A2 A3 ib 0 L3 N3) as H. rewrite E3, (Z2 ib) in H by lia. lia. }
      assert (Z3 : forall k, S ib <= k -> bnz A3 k = 0). { intros k Hk. unfold bnz. rewrite N3, nth_set_nth_neq by lia. apply Z2. lia. }
      apply (post_for_n (fun A => orphans A = 0%Z /\ forall k, S ib <= k -> bnz A k = 0)); auto. intros jb A4 _ [H4 Z4]. do 4 (apply post_skip; intros ?). destruct x2; [|cbn; auto].
      apply post_bind. eapply post_mono; [apply p_nnz|]. intros n [L En]. eapply post_mono; [apply p_new; auto|]. intros A5 (H5 & N5 & _). split; [congruence|]. intros k Hk. unfold bnz. rewrite N5, nth_set_nth_neq by lia. apply Z4. auto. }
    intros A2 [H2 _]. exact H2.
  Qed.
  Lemma identity_orphans c N M g c' A : eb_identity c N M g = Ok (c', A) -> orphans A = 0%Z.
  Proof.
    apply (post_ok _ (fun s => orphans (snd s) = 0%Z)). unfold eb_identity. apply post_skip. intros d. apply post_bind. eapply post_mono; [apply p_block_matrix|]. intros [c1 A1] (E1 & N1 & _). cbn [snd] in *.
    apply post_bind. eapply post_mono.
    { apply (post_count (fun ib A => orphans A = 0%Z /\ forall k, ib <= k -> bnz A k = 0)); [|split; [eapply empty_orphans; eauto|]; intros; unfold bnz; rewrite N1; apply nth_repeat_any].
      intros ib A2 _ [H2 Z2]. apply post_skip. intros b. eapply post_mono; [apply p_new; symmetry; apply Z2; lia|]. intros A5 (H5 & N5 & _). split; [congruence|]. intros k Hk. unfold bnz. rewrite N5, nth_set_nth_neq by lia. apply Z2. lia. }
    intros A2 [H2 _]. exact H2.
  Qed.
  Lemma threshold_new_orphans c keep A g c' B : eb_threshold_new c keep A g = Ok (c', B) -> orphans B = 0%Z.
  Proof.
    apply (post_ok _ (fun s => orphans (snd s) = 0%Z)). unfold eb_threshold_new. apply post_bind. eapply post_mono; [apply p_block_matrix|]. intros [c1 A1] (E1 & N1 & _). cbn [snd] in *.
    apply post_bind. eapply post_mono.
    { apply (post_for_n (fun A => orphans A = 0%Z)); [|eapply empty_orphans; eauto]. intros ib B1 _ H1. unfold b_for_row. apply post_skip. intros n. apply (post_for_n (fun A => orphans A = 0%Z)); auto. intros q B2 _ H2.
      do 5 (apply post_skip; intros ?). destruct x3; [|cbn; auto]. apply post_bind. eapply post_mono; [apply p_nnz|]. intros m [L En]. eapply post_mono; [apply p_new; auto|]. intros A5 (H5 & _). congruence. }
    intros A2 H2. exact H2.
  Qed.
  Lemma transpose_new_orphans c A g c' B : eb_transpose_new c A g = Ok (c', B) -> orphans B = 0%Z.
  Proof.
    apply (post_ok _ (fun s => orphans (snd s) = 0%Z)). unfold eb_transpose_new. apply post_bind. eapply post_mono; [apply p_block_matrix|]. intros [c1 A1] (E1 & N1 & _). cbn [snd] in *.
    apply post_bind. eapply post_mono.
    { apply (post_for_n (fun A => orphans A = 0%Z)); [|eapply empty_orphans; eauto]. intros ib B1 _ H1. unfold b_for_row. apply post_skip. intros n. apply (post_for_n (fun A => orphans A = 0%Z)); auto. intros q B2 _ H2.
      apply post_skip. intros jb. apply post_bind. eapply post_mono; [apply p_nnz|]. intros m [L En]. do 3 (apply post_skip; intros ?). eapply post_mono; [apply p_new; auto|]. intros A5 (H5 & _). congruence. }
    intros A2 H2. exact H2.
  Qed.
  Lemma convert_orphans c N get M g c' B : eb_convert c N get M g = Ok (c', B) -> orphans B = 0%Z.
  Proof.
    apply (post_ok _ (fun s => orphans (snd s) = 0%Z)). unfold eb_convert. apply post_skip. intros d. apply post_bind. eapply post_mono; [apply p_block_matrix|]. intros [c1 A1] (E1 & N1 & EN). cbn [snd] in *. apply post_skip. intros off.
    apply post_bind. eapply post_mono.
    { apply (post_count (fun ib A => orphans A = 0%Z /\ forall k, ib <= k -> bnz A k = 0)); [|split; [eapply empty_orphans; eauto|]; intros; unfold bnz; rewrite N1; apply nth_repeat_any].
      intros ib A2 _ [H2 Z2]. apply post_bind. eapply post_mono; [apply p_wnnz|]. intros A3 (L3 & E3 & N3).
      assert (H3 : orphans A3 = (- Z.of_nat (bNB A1))%Z). { pose proof (orphans_nnz A2 A3 ib _ L3 N3) as H. rewrite E3, (Z2 ib) in H by lia. lia. }
      assert (Z3 : forall k, S ib <= k -> bnz A3 k = 0). { intros k Hk. unfold bnz. rewrite N3, nth_set_nth_neq by lia. apply Z2. lia. }
      eapply post_mono. { apply (post_count (fun jb A => orphans A = (Z.of_nat jb - Z.of_nat (bNB A1))%Z /\ bnnz A = bnnz A3)); [|split; auto; lia]. intros jb B4 _ [H4 N4]. do 2 (apply post_skip; intros ?).
        apply post_bind. eapply post_mono; [apply p_alloc|]. intros B5 [E5 N5]. apply post_bind. eapply post_mono; [apply p_widx|]. intros B6 H6. apply post_skip. intros y.
        eapply post_mono; [apply post_self|]. intros B7 H7. cbv beta in H7. apply set_block_orphans in H7. pose proof (still_trans _ _ _ H6 H7) as [E7 N7]. split; [|congruence]. unfold orphans, blocks in *. rewrite E7, N7, E5, N5. lia. }
      intros B4 [H4 N4]. split; [lia|]. intros k Hk. unfold bnz. rewrite N4. apply Z3; auto. }
    intros A2 [H2 _]. exact H2.
  Qed.
  Lemma copy_new_orphans c A g nth_ sched c' R : ebwf A -> full_sched (bNB A) nth_ sched -> eb_copy_new c A g sched = Ok (c', R) -> orphans R = 0%Z.
  Proof.
    intros HW HF. apply (post_ok _ (fun s => orphans (snd s) = 0%Z)). unfold eb_copy_new. apply post_bind. eapply post_mono; [apply p_block_matrix|]. intros [c1 A1] (E1 & N1 & EN). cbn [snd] in *.
    set (B0 := mkEb _ _ _ _ _ _ _ _ _).
    assert (G : forall sch (B : eb) w, bnnz B = bnnz A -> post (par_for sch (fun ib '(B, tt) =>
      b <- b_bs B ib ;;
      if ((b =? 0) || (10 <=? b))%nat%bool then Err else
      B <- b_for_row A ib (fun k jb B =>
        if (bNB A <=? jb)%nat then Err else
        p <- rd (bptr B) k ;;
        match p with
        | Some _ => Err
        | None =>
            bi <- b_bs A ib ;; bj <- b_bs A jb ;;
            B <- b_alloc B k (bi * bj)%nat g ;;
            x <- b_blk A k ;; y <- b_blk B k ;; y <- blk_copy (bi * bj)%nat x y ;; b_wblk B k y
        end) B ;;
      Ok (B, tt)) B w) (fun s => bnnz (fst s) = bnnz A /\ nlive (bheap (fst s)) = nlive (bheap B) + list_sum (map (fun ti => bnz A (snd ti)) sch))).
    { induction sch as [|[t ib] sch IH]; intros B w Hn; cbn [par_for]. { cbn [post fst map]. change (list_sum []) with 0. split; auto. } apply post_bind.
      apply (post_mono _ (fun s => bnnz (fst s) = bnnz A /\ nlive (bheap (fst s)) = nlive (bheap B) + bnz A ib)).
      2:{ intros [B' u] [H1 H2]. cbn [fst] in *. eapply post_mono; [apply IH; auto|]. intros s [H3 H4]. split; auto. rewrite H4, H2. cbn [map snd]. match goal with |- context [list_sum (?x :: ?l)] => change (list_sum (x :: l)) with (x + list_sum l) end. lia. }
      destruct (w t). apply post_skip. intros b. destruct (_ || _)%bool; [cbn; auto|]. apply post_bind. unfold b_for_row. apply post_bind. eapply post_mono; [apply p_nnz|]. intros n [_ ->].
      eapply post_mono. { apply (post_count (fun q B' => bnnz B' = bnnz A /\ nlive (bheap B') = nlive (bheap B) + q)); [|split; auto; lia]. intros q B2 _ [H2 L2]. apply post_skip. intros jb. destruct (bNB A <=? jb); [cbn; auto|].
        apply post_skip. intros [a|]; [cbn; auto|]. apply post_skip. intros bi. apply post_skip. intros bj. apply post_bind. eapply post_mono; [apply p_alloc|]. intros B3 [E3 N3]. do 3 (apply post_skip; intros ?).
        eapply post_mono; [apply p_wblk|]. intros B4 [E4 N4]. split; [congruence|lia]. }
      cbn. auto. }
    apply post_bind. eapply post_mono; [apply (G sched B0 _ eq_refl)|]. intros [B' w'] [H1 H2]. cbn [fst] in *. cbn. unfold orphans, blocks. rewrite H1, H2. cbn. rewrite E1. cbn.
    enough (E : list_sum (map (fun ti => bnz A (snd ti)) sched) = list_sum (bnnz A)) by lia.
    destruct HF as [HP _]. rewrite <- (map_map snd (bnz A)).
    assert (E : map (bnz A) (seq 0 (bNB A)) = bnnz A). { destruct HW as (HS & _). rewrite <- (sh_nnz _ HS). unfold bnz. clear. induction (bnnz A) as [|x l IH]; auto. cbn [length seq map]. f_equal. rewrite <- seq_shift, map_map. exact IH. }
    rewrite <- E. clear - HP. apply (Permutation_map (bnz A)) in HP. revert HP. generalize (map (bnz A) (map snd sched)) (map (bnz A) (seq 0 (bNB A))). intros l l' HP. induction HP; unfold list_sum in *; cbn [fold_right] in *; lia.
  Qed.

  (** *** deallocation *)
  Lemma live_nth (h : list (option (list F))) a x : nth_error h a = Some (Some x) <-> nth a h None = Some x.
  Proof.
    split; intros E; [apply nth_error_nth; auto|]. destruct (nth_error h a) as [y|] eqn:E1.
    - rewrite (nth_error_nth _ _ None E1) in E. congruence.
    - apply nth_error_None in E1. rewrite nth_overflow in E by auto. discriminate.
  Qed.
  (** the slots of the first [i] rows and the first [q] of row [i] are freed *)
  Record swept A (i q : nat) A' : Prop := mkSwept {
    sw_kin : kin A A'; sw_ptr : bptr A' = bptr A; sw_nnz : bnnz A' = bnnz A;
    sw_live : forall ib jp a, ib < bNB A -> jp < bnz A ib -> (i < ib \/ (ib = i /\ q <= jp)) -> saddr A ib jp = Some a -> nth a (bheap A') None <> None;
    sw_count : nlive (bheap A') + (nsum i (bnz A) + q) = nlive (bheap A) }.
  Lemma sweep_ok {e} A : ebwf A ->
    wpq e (for_n (bNB A) (fun ib A => n <- b_nnz A ib ;; for_n n (fun jp A => b_free A (b_at A ib jp)) A) A) (swept A (bNB A) 0).
  Proof.
    intros HW. pose proof HW as (HS & HO & HR). apply (for_n_inv (fun ib A' => swept A ib 0 A')).
    - constructor; auto. { apply kin_refl. } intros ib jp a Hi Hj _ Ea E. destruct (ebwf_slot A ib jp HW Hi Hj) as (_ & _ & Ho & _). unfold bobj in Ho. rewrite Ea in Ho. congruence.
    - intros ib A1 Hi H1. pose proof (sw_kin _ _ _ _ H1) as K1. pose proof K1 as (_ & _ & EN1 & EM1 & _ & KS1). apply wp_bind. rewrite b_nnz_ok by (auto; lia). cbn [wpq].
      assert (En : bnz A1 ib = bnz A ib) by (unfold bnz; rewrite (sw_nnz _ _ _ _ H1); auto). rewrite En.
      eapply wp_mono. { apply (for_n_inv (fun q A' => swept A ib q A')); auto. intros q A2 Hq H2. pose proof (sw_kin _ _ _ _ H2) as K2. pose proof K2 as (_ & _ & EN2 & EM2 & _ & KS2).
        destruct (ebwf_slot A ib q HW Hi Hq) as (Hqm & _ & Ho & _). destruct (bobj_addr _ _ _ _ Ho) as (a & Ea & _).
        assert (Ea2 : saddr A2 ib q = Some a). { rewrite <- Ea. unfold saddr. rewrite (kin_spos A A2), (sw_ptr _ _ _ _ H2); auto. }
        pose proof (sw_live _ _ _ _ H2 ib q a Hi Hq ltac:(right; auto) Ea) as Hl. destruct (nth a (bheap A2) None) as [x|] eqn:Ex; [|congruence].
        eapply wp_mono; [apply (b_free_ok A2 ib q a x); auto; try lia; unfold bobj; rewrite Ea2; auto|]. intros A3 HF. constructor.
        + eapply kin_trans; [exact K2|apply (fe_kin _ _ _ HF)].
        + rewrite (fe_ptr _ _ _ HF). apply (sw_ptr _ _ _ _ H2).
        + rewrite (fe_nnz _ _ _ HF). apply (sw_nnz _ _ _ _ H2).
        + intros i' q' a' Hi' Hq' Hor Ea'. rewrite (fe_heap _ _ _ HF). rewrite nth_set_nth_neq. { apply (sw_live _ _ _ _ H2 i' q'); auto. lia. }
          intros Eaa. subst a'. destruct HO as (_ & _ & HI). destruct (HI ib q i' q' a Hi Hq Hi' Hq' Ea Ea'). lia.
        + rewrite (fe_heap _ _ _ HF). apply live_nth in Ex. pose proof (nlive_set _ _ _ None Ex). pose proof (sw_count _ _ _ _ H2). cbv iota in *. lia. }
      intros A2 H2. destruct H2 as [K2 P2 N2 L2 C2]. constructor; auto.
      + intros i' q' a' Hi' Hq' Hor. apply L2; auto. lia.
      + cbn [nsum]. lia.
  Qed.
  Lemma nsum_list A : eb_shape A -> nsum (bNB A) (bnz A) = blocks A.
  Proof.
    intros HS. rewrite <- (sh_nnz _ HS). unfold blocks, bnz. induction (bnnz A) as [|x l IH] using rev_ind; auto. rewrite app_length, Nat.add_1_r. cbn [nsum]. rewrite app_nth2, Nat.sub_diag by lia.
    assert (E : nsum (length l) (fun ib => nth ib (l ++ [x]) 0) = list_sum l). { rewrite <- IH. clear. assert (G : forall n, n <= length l -> nsum n (fun ib => nth ib (l ++ [x]) 0) = nsum n (fun ib => nth ib l 0)). { induction n as [|n IH]; intros Hn; auto. cbn [nsum]. rewrite IH, app_nth1 by lia. auto. } apply G. auto. }
    rewrite E, list_sum_app. cbn. lia.
  Qed.
  Lemma deallocate_ok A : ebwf A -> exists h, eb_deallocate A = Ok h /\ Z.of_nat (nlive h) = orphans A.
  Proof.
    intros HW. pose proof (sweep_ok (e := False) A HW) as H. unfold eb_deallocate. destruct (for_n _ _ _) as [A'| | |]; cbn in H; try contradiction. exists (bheap A'). cbn. split; auto. destruct H as [_ _ _ _ C].
    unfold orphans. rewrite <- nsum_list by (destruct HW; auto). lia.
  Qed.
  Lemma clear_orphans A : ebwf A -> exists A', eb_clear A = Ok A' /\ orphans A' = orphans A /\ blocks A' = 0.
  Proof.
    intros HW. pose proof (sweep_ok (e := False) A HW) as H. unfold eb_clear. destruct (for_n _ _ _) as [A1| | |]; cbn in H; try contradiction. cbn [bind]. destruct H as [K1 _ N1 _ C]. pose proof K1 as (_ & _ & EN1 & _ & _ & KS1).
    assert (HS : eb_shape A) by (destruct HW; auto).
    assert (G : wp (for_n (bNB A1) (fun ib A => b_wnnz A ib 0) A1) (fun A' => eb_shape A' /\ bNB A' = bNB A1 /\ bheap A' = bheap A1 /\ forall k, k < bNB A1 -> bnz A' k = 0)).
    { eapply wp_mono. { apply (for_n_inv (fun m A' => eb_shape A' /\ bNB A' = bNB A1 /\ bheap A' = bheap A1 /\ forall k, k < m -> bnz A' k = 0)).
        - repeat split; auto; try apply (KS1 HS). intros; lia.
        - intros i A2 Hi (HS2 & EN2 & EH2 & HZ). unfold b_wnnz. apply wp_bind. rewrite wr_ok by (rewrite (sh_nnz _ HS2); lia). cbn [wpq]. split; [|split; [|split]]; auto.
          + destruct HS2; constructor; cbn; auto. rewrite length_set_nth. auto.
          + intros k Hk. unfold bnz. cbn [bnnz]. destruct (Nat.eq_dec k i) as [->|]; [apply nth_set_nth_eq; rewrite (sh_nnz _ HS2); lia|]. rewrite nth_set_nth_neq by lia. apply HZ. lia. }
      auto. }
    destruct (for_n (bNB A1) _ A1) as [A2| | |]; cbn in G; try contradiction. destruct G as (HS2 & EN2 & EH2 & HZ). exists A2. split; auto.
    assert (E0 : blocks A2 = 0). { rewrite <- nsum_list by auto. apply nsum_zero. intros i Hi. apply HZ. lia. }
    split; auto. unfold orphans. rewrite E0, EH2. rewrite <- (nsum_list A) by auto. lia.
  Qed.

  (** *** threshold, in-place transpose *)
  Lemma p_free_block A ib jb : (exists p, p < bnz A ib /\ scol A ib p = jb) -> (forall p, p < bnz A ib -> scol A ib p = jb -> saddr A ib p <> None) ->
    post (b_free_block A ib jb) (fun A' => orphans A' = orphans A).
  Proof.
    intros (p & Hp & Ep) Hsome. unfold b_free_block. apply post_bind. eapply post_mono; [apply p_nnz|]. intros n [Ln En]. subst n. apply post_bind. eapply post_mono.
    { apply (post_count (fun m (s : eb * bool) => if snd s then nlive (bheap (fst s)) + 1 = nlive (bheap A) /\ bnnz (fst s) = bnnz A else fst s = A /\ m <= p)); [|cbn; split; auto; lia].
      intros q [A1 f] Hq H. cbn [fst snd] in H. destruct f; [cbn; auto|]. destruct H as [-> Hm]. apply post_bind. eapply post_mono; [apply (p_rd _ _ 0)|]. intros c [_ ->]. change (nth (b_at A ib q) (bidx A) 0) with (scol A ib q).
      destruct (Nat.eqb_spec (scol A ib q) jb) as [E|E]; [|cbn; split; auto; assert (q <> p) by congruence; lia].
      apply post_bind. apply (post_mono _ (fun A1 => nlive (bheap A1) + 1 = nlive (bheap A) /\ bnnz A1 = bnnz A)).
      { unfold b_free. apply post_bind. eapply post_mono; [apply (p_rd _ _ None)|]. intros o [_ ->]. change (nth (b_at A ib q) (bptr A) None) with (saddr A ib q). destruct (saddr A ib q) as [a|] eqn:Ea; [|exfalso; eapply Hsome; eauto].
        unfold deref. destruct (nth_error (bheap A) a) as [[x|]|] eqn:Ex; cbn [bind post]; auto. split; auto. cbn [bheap]. pose proof (nlive_set _ _ _ None Ex). cbv iota in *. lia. }
      intros A1 [H1 N1]. apply post_bind. eapply post_mono. { apply (post_forM (still A1)); [|apply still_refl]. intros x A2 _ H2. apply post_skip. intros c. apply post_bind. eapply post_mono; [apply p_widx|]. intros A3 H3. apply post_skip. intros o. eapply post_mono; [apply p_wptr|]. intros A4 H4. eapply still_trans; [exact H2|]. eapply still_trans; eauto. }
      intros A2 H2. apply post_bind. eapply post_mono; [apply p_wptr|]. intros A3 H3. apply post_bind. eapply post_mono; [apply p_widx|]. intros A4 H4. cbn [post fst snd]. pose proof (still_trans _ _ _ H2 (still_trans _ _ _ H3 H4)) as [E1 E2]. split; [lia|congruence]. }
    intros [A1 f] H. cbn [fst snd] in H. destruct f; [|lia]. destruct H as [H1 N1]. eapply post_mono; [apply p_wnnz|]. intros A2 (L2 & E2 & N2). rewrite N1 in L2, N2. pose proof (orphans_nnz A A2 ib _ L2 N2) as H. rewrite E2 in H. lia.
  Qed.
  Lemma p_threshold_row keep ib : forall fuel jp A, ebwf A -> ib < bNB A -> post (threshold_row keep ib fuel jp A) (fun A' => orphans A' = orphans A /\ bNB A' = bNB A /\ ebwf A').
  Proof.
    assert (G : forall jp A, ebwf A -> ib < bNB A -> jp < bnz A ib -> post (b_free_block A ib (scol A ib jp)) (fun A' => orphans A' = orphans A /\ bNB A' = bNB A /\ ebwf A')).
    { intros jp A HW Hi Hj. pose proof (b_free_block_ok (e := False) A ib jp HW Hi Hj) as HR. assert (HP : post (b_free_block A ib (scol A ib jp)) (fun A' => orphans A' = orphans A)).
      { apply p_free_block; [exists jp; auto|]. intros p Hp _ E. destruct (ebwf_slot A ib p HW Hi Hp) as (_ & _ & Ho & _). destruct (bobj_addr _ _ _ _ Ho) as (a & Ea & _). congruence. }
      destruct (b_free_block _ _ _) as [A'| | |]; cbn in *; try contradiction. split; auto. destruct HR as [(_ & _ & EN & _) HW' _ _ _ _]. auto. }
    assert (W : forall jp A x, ebwf A -> ib < bNB A -> jp < bnz A ib -> length x = length (sblk A ib jp) -> post (b_wblk A (b_at A ib jp) x) (fun A' => orphans A' = orphans A /\ bNB A' = bNB A /\ ebwf A')).
    { intros jp A x HW Hi Hj El. pose proof (p_wblk A (b_at A ib jp) x) as HP. destruct (ebwf_slot A ib jp HW Hi Hj) as (_ & _ & Ho & Hl).
      pose proof (change_ok (e := False) A ib jp x HW Hi Hj ltac:(lia)) as HQ. destruct (b_wblk _ _ _) as [A'| | |]; cbn in *; try contradiction. split; [apply orphans_still; auto|]. destruct HQ as [HW' (_ & _ & EN & _) _ _ _ _]. auto. }
    induction fuel as [|fuel IH]; intros jp A HW Hi; cbn [threshold_row]; apply post_bind; (eapply post_mono; [apply p_nnz|]); intros n [_ ->].
    { destruct (jp <? bnz A ib); cbn; auto. }
    destruct (Nat.ltb_spec jp (bnz A ib)) as [Hj|]; [|cbn; auto]. apply post_bind. eapply post_mono; [apply (p_rd _ _ 0)|]. intros jb [_ ->]. change (nth (b_at A ib jp) (bidx A) 0) with (scol A ib jp).
    destruct (ebwf_slot A ib jp HW Hi Hj) as (Hm & _ & Ho & Hl). rewrite (b_blk_ok A ib jp (sblk A ib jp)) by (auto; apply HW). cbn [bind]. apply post_skip. intros bi. apply post_skip. intros bj. apply post_skip. intros [|].
    - apply post_bind. apply (post_mono _ (fun y => length y = length (sblk A ib jp))).
      { unfold blk_threshold, blk_map. apply (post_for_n (fun y : list F => length y = length (sblk A ib jp))); auto. intros k y _ Hy. apply post_skip. intros v. cbn [bind]. eapply post_mono; [apply p_wr|]. intros y' [_ ->]. rewrite length_set_nth. auto. }
      intros y Hy. apply post_bind. eapply post_mono; [apply W; auto|]. intros A1 (H1 & E1 & W1). eapply post_mono; [apply IH; auto; lia|]. intros A2 (H2 & E2 & W2). split; [congruence|]. split; [congruence|auto].
    - apply post_bind. eapply post_mono; [apply G; auto|]. intros A1 (H1 & E1 & W1). eapply post_mono; [apply IH; auto; lia|]. intros A2 (H2 & E2 & W2). split; [congruence|]. split; [congruence|auto].
  Qed.
  Lemma threshold_orphans keep A A' : ebwf A -> eb_threshold keep A = Ok A' -> orphans A' = orphans A.
  Proof.
    intros HW. apply (post_ok _ (fun A' => orphans A' = orphans A)). unfold eb_threshold.
    eapply post_mono. { apply (post_for_n (fun A' => orphans A' = orphans A /\ bNB A' = bNB A /\ ebwf A')); auto. intros ib A1 Hi (H1 & E1 & W1). apply post_skip. intros n. eapply post_mono; [apply p_threshold_row; auto; lia|]. intros A2 (H2 & E2 & W2). split; [congruence|]. split; [congruence|auto]. }
    intros A1 (H1 & _). exact H1.
  Qed.

  Lemma p_swap A ib p q : post (swap_entries A ib p q) (still A).
  Proof.
    unfold swap_entries. destruct (p =? q); [apply still_refl|]. do 3 (apply post_skip; intros ?). apply post_bind. eapply post_mono; [apply p_wptr|]. intros A1 H1. apply post_bind. eapply post_mono; [apply p_wptr|]. intros A2 H2. apply post_skip. intros i2.
    apply post_bind. eapply post_mono; [apply p_widx|]. intros A3 H3. eapply post_mono; [apply p_widx|]. intros A4 H4. repeat (eapply still_trans; eauto).
  Qed.
  Lemma p_move m2 g ib jb ipos A nzt : ib <> jb -> 0 < bnz A ib -> post (move_block m2 g ib jb ipos A nzt) (fun s => orphans (fst s) = orphans A /\ S (bnz (fst s) ib) = bnz A ib).
  Proof.
    intros Hne Hpos. unfold move_block. apply post_bind. eapply post_mono; [apply p_nnz|]. intros nj [Lj ->]. apply post_skip. intros p. apply post_bind. eapply post_mono; [apply p_wptr|]. intros A1 H1. apply post_bind. eapply post_mono; [apply p_widx|]. intros A2 H2.
    apply post_bind. eapply post_mono; [apply p_wnnz|]. intros A3 (L3 & E3 & N3). do 4 (apply post_skip; intros ?). apply post_bind. eapply post_mono; [apply p_wblk|]. intros A4 H4. apply post_skip. intros t. apply post_bind. eapply post_mono; [apply p_swap|]. intros A5 H5.
    apply post_skip. intros nzt'. apply post_bind. eapply post_mono; [apply p_nnz|]. intros ni [Li ->]. apply post_bind. eapply post_mono; [apply p_wnnz|]. intros A6 (L6 & E6 & N6). cbn [post fst].
    pose proof (still_trans _ _ _ H1 H2) as [E2 N2]. pose proof (still_trans _ _ _ H4 H5) as H45. destruct H45 as [E5 N5].
    assert (Ei : bnz A5 ib = bnz A ib). { unfold bnz. rewrite N5, N3, nth_set_nth_neq, N2 by auto. auto. }
    pose proof (orphans_nnz A2 A3 jb _ L3 N3) as O3. pose proof (orphans_nnz A5 A6 ib _ L6 N6) as O6. rewrite E6 in O6. pose proof (orphans_still _ _ (conj E2 N2)) as O2. pose proof (orphans_still _ _ (conj E5 N5)) as O5.
    assert (Ej : bnz A2 jb = bnz A jb) by (unfold bnz; rewrite N2; auto). rewrite Ej in O3. rewrite E3 in O3. split; [lia|]. unfold bnz at 1. rewrite N6, nth_set_nth_eq by auto. lia.
  Qed.
  Lemma p_transpose_row m2 g ib : forall fuel ipos A nzt, bnz A ib = ipos -> post (transpose_row m2 g ib fuel ipos A nzt) (fun s => orphans (fst s) = orphans A).
  Proof.
    induction fuel as [|fuel IH]; intros ipos A nzt Hp; cbn [transpose_row]; apply post_skip; intros t.
    { destruct (t <? ipos); cbn; auto. }
    destruct (Nat.ltb_spec t ipos) as [Ht|]; [|cbn; auto]. apply post_skip. intros jb.
    assert (M : ib <> jb -> post ('(A', nzt') <- move_block m2 g ib jb (ipos - 1) A nzt ;; transpose_row m2 g ib fuel (ipos - 1) A' nzt') (fun s => orphans (fst s) = orphans A)).
    { intros Hne. apply post_bind. eapply post_mono; [apply p_move; auto; lia|]. intros [A1 n1] [H1 E1]. cbn [fst] in *. eapply post_mono; [apply IH; lia|]. intros s Hs. congruence. }
    assert (K : forall A1 n1, still A A1 -> post (transpose_row m2 g ib fuel ipos A1 n1) (fun s => orphans (fst s) = orphans A)).
    { intros A1 n1 H1. eapply post_mono; [apply IH; unfold bnz in *; destruct H1 as [_ ->]; auto|]. intros s Hs. rewrite Hs. apply orphans_still; auto. }
    destruct (Nat.ltb_spec ib jb) as [Hl|Hl].
    - do 2 (apply post_skip; intros ?). apply post_skip. intros [jp|]; [|apply M; lia]. do 4 (apply post_skip; intros ?). apply post_skip. intros [x' y']. apply post_bind. eapply post_mono; [apply p_wblk|]. intros A1 H1. apply post_bind. eapply post_mono; [apply p_wblk|]. intros A2 H2.
      apply post_bind. eapply post_mono; [apply p_swap|]. intros A3 H3. apply post_bind. eapply post_mono; [apply p_swap|]. intros A4 H4. do 2 (apply post_skip; intros ?). apply K. repeat (eapply still_trans; eauto).
    - destruct (Nat.ltb_spec jb ib) as [Hl2|Hl2]; [apply M; lia|]. do 3 (apply post_skip; intros ?). apply post_bind. eapply post_mono; [apply p_wblk|]. intros A1 H1. apply post_bind. eapply post_mono; [apply p_swap|]. intros A2 H2. apply post_skip. intros n1. apply K. eapply still_trans; eauto.
  Qed.
  Lemma transpose_orphans A g A' : eb_transpose A g = Ok A' -> orphans A' = orphans A.
  Proof.
    apply (post_ok _ (fun A' => orphans A' = orphans A)). unfold eb_transpose. apply post_skip. intros m. apply post_bind. eapply post_mono.
    { apply (post_for_n (fun s => orphans (fst s) = orphans A)); auto. intros ib [A1 n1] _ H1. cbn [fst] in H1. apply post_bind. eapply post_mono; [apply p_nnz|]. intros n [_ ->]. eapply post_mono; [apply p_transpose_row; auto|]. intros s Hs. cbn in *. congruence. }
    intros [A1 n1] H1. exact H1.
  Qed.
End Mem.
