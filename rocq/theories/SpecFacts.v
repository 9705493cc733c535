(** Facts about finite sums and entry lists. *)
From Verif Require Import Base BaseFacts Spec.
From Coq Require Import Ring Permutation.

Section SpecFacts.
  Context {F : scalar}.
  Local Open Scope K_scope.
  Add Ring Kring : (k_ring F).

  Lemma keqb_refl (x : F) : keqb x x = true.
  Proof. apply keqb_spec. reflexivity. Qed.

  Lemma keqb_false (x y : F) : keqb x y = false <-> x <> y.
  Proof.
    split.
    - intros H E. apply keqb_spec in E. congruence.
    - intros H. destruct (keqb x y) eqn:E; auto. apply keqb_spec in E. contradiction.
  Qed.

  Lemma bigsum_ext n (f g : nat -> F) : (forall i, (i < n)%nat -> f i = g i) -> bigsum n f = bigsum n g.
  Proof. induction n as [|n IH]; intros H; simpl; auto. rewrite IH, H; auto. Qed.

  Lemma bigsum_zero n (f : nat -> F) : (forall i, (i < n)%nat -> f i = 0) -> bigsum n f = 0.
  Proof. induction n as [|n IH]; intros H; simpl; auto. rewrite IH, H; auto. ring. Qed.

  Lemma bigsum_add n (f g : nat -> F) : bigsum n (fun i => f i + g i) = bigsum n f + bigsum n g.
  Proof. induction n as [|n IH]; simpl; [ring|]. rewrite IH. ring. Qed.

  Lemma bigsum_mul_l n a (f : nat -> F) : bigsum n (fun i => a * f i) = a * bigsum n f.
  Proof. induction n as [|n IH]; simpl; [ring|]. rewrite IH. ring. Qed.

  Lemma bigsum_mul_r n a (f : nat -> F) : bigsum n (fun i => f i * a) = bigsum n f * a.
  Proof. induction n as [|n IH]; simpl; [ring|]. rewrite IH. ring. Qed.

  Lemma bigsum_swap n m (f : nat -> nat -> F) :
    bigsum n (fun i => bigsum m (fun j => f i j)) = bigsum m (fun j => bigsum n (fun i => f i j)).
  Proof.
    induction n as [|n IH]; simpl.
    - symmetry. apply bigsum_zero. auto.
    - rewrite IH. rewrite <- bigsum_add. reflexivity.
  Qed.

  Lemma bigsum_single n k (f : nat -> F) :
    (k < n)%nat -> (forall i, (i < n)%nat -> i <> k -> f i = 0) -> bigsum n f = f k.
  Proof.
    induction n as [|n IH]; intros Hk H; [lia|]. simpl.
    destruct (Nat.eq_dec k n) as [->|Hne].
    - rewrite bigsum_zero. ring. intros i Hi. apply H; lia.
    - rewrite IH; [|lia|]. rewrite (H n); [ring|lia|lia]. intros i Hi Hik. apply H; lia.
  Qed.

  Lemma bigsum_split n m (f : nat -> F) :
    bigsum (n + m) f = bigsum n f + bigsum m (fun i => f (n + i)%nat).
  Proof.
    induction m as [|m IH]; simpl.
    - rewrite Nat.add_0_r. ring.
    - rewrite Nat.add_succ_r. simpl. rewrite IH. ring.
  Qed.

  Lemma bigsum_upd n (w : nat -> F) t v :
    (t < n)%nat -> bigsum n (upd_fun w t v) = bigsum n w + (v - w t).
  Proof.
    induction n as [|n IH]; intros Ht; [lia|]. simpl.
    destruct (Nat.eq_dec t n) as [->|Hne].
    - rewrite (bigsum_ext n (upd_fun w n v) w).
      + unfold upd_fun at 1. rewrite Nat.eqb_refl. ring.
      + intros i Hi. unfold upd_fun. destruct (Nat.eqb_spec i n); auto; lia.
    - rewrite IH by lia. unfold upd_fun at 1. destruct (Nat.eqb_spec n t); [lia|]. ring.
  Qed.

  (** ** list sums *)
  Fixpoint lsum (l : list F) : F := match l with [] => 0 | x :: t => x + lsum t end.

  Lemma lsum_app a b : lsum (a ++ b) = lsum a + lsum b.
  Proof. induction a as [|x a IH]; simpl; [ring|]. rewrite IH. ring. Qed.

  Lemma lsum_perm a b : Permutation a b -> lsum a = lsum b.
  Proof. induction 1; simpl; try congruence. ring. Qed.

  Lemma lsum_map_add {X} (f g : X -> F) l : lsum (map (fun x => f x + g x) l) = lsum (map f l) + lsum (map g l).
  Proof. induction l as [|x l IH]; simpl; [ring|]. rewrite IH. ring. Qed.

  Lemma lsum_map_mul_l {X} a (f : X -> F) l : lsum (map (fun x => a * f x) l) = a * lsum (map f l).
  Proof. induction l as [|x l IH]; simpl; [ring|]. rewrite IH. ring. Qed.

  Lemma lsum_map_ext {X} (f g : X -> F) l : (forall x, In x l -> f x = g x) -> lsum (map f l) = lsum (map g l).
  Proof. intros H. f_equal. apply map_ext_in. auto. Qed.

  Lemma lsum_map_zero {X} (f : X -> F) l : (forall x, In x l -> f x = 0) -> lsum (map f l) = 0.
  Proof.
    induction l as [|x l IH]; intros H; simpl; auto.
    rewrite H by (left; auto). rewrite IH by (intros; apply H; right; auto). ring.
  Qed.

  Lemma lsum_seq (f : nat -> F) n : lsum (map f (seq 0 n)) = bigsum n f.
  Proof.
    induction n as [|n IH]; auto. rewrite seq_S, map_app, lsum_app, IH. simpl. ring.
  Qed.

  Lemma lsum_rows (f : nat -> F) n l : Permutation l (seq 0 n) -> lsum (map f l) = bigsum n f.
  Proof. intros H. rewrite <- lsum_seq. apply lsum_perm. apply Permutation_map. auto. Qed.

  Lemma lsum_flat_map {X Y} (f : X -> list Y) (g : Y -> F) l :
    lsum (map g (flat_map f l)) = lsum (map (fun x => lsum (map g (f x))) l).
  Proof. induction l as [|x l IH]; simpl; auto. rewrite map_app, lsum_app, IH. reflexivity. Qed.

  Lemma lsum_bigsum_swap {X} (f : X -> nat -> F) l n :
    lsum (map (fun x => bigsum n (f x)) l) = bigsum n (fun j => lsum (map (fun x => f x j) l)).
  Proof.
    induction l as [|x l IH]; simpl.
    - symmetry. apply bigsum_zero. auto.
    - rewrite IH, <- bigsum_add. reflexivity.
  Qed.

  (** ** entry lists: (column, value) *)
  Local Notation entry := (nat * K F)%type.

  (** value found by a linear search, 0 if absent *)
  Fixpoint elook (E : list entry) (j : nat) : F :=
    match E with [] => 0 | (k, v) :: t => if k =? j then v else elook t j end.

  (** sum of all values with column j *)
  Fixpoint esum (E : list entry) (j : nat) : F :=
    match E with [] => 0 | (k, v) :: t => if k =? j then v + esum t j else esum t j end.

  Definition cols (E : list entry) : list nat := map fst E.

  Lemma elook_notin E j : ~ In j (cols E) -> elook E j = 0.
  Proof.
    induction E as [|[k v] E IH]; simpl; auto. intros H.
    destruct (Nat.eqb_spec k j); [exfalso; auto|auto].
  Qed.

  Lemma esum_notin E j : ~ In j (cols E) -> esum E j = 0.
  Proof.
    induction E as [|[k v] E IH]; simpl; auto. intros H.
    destruct (Nat.eqb_spec k j); [exfalso; auto|auto].
  Qed.

  Lemma elook_in E j v : NoDup (cols E) -> In (j, v) E -> elook E j = v.
  Proof.
    induction E as [|[k u] E IH]; simpl; [tauto|]. intros Hd [H|H].
    - inversion H; subst. rewrite Nat.eqb_refl. auto.
    - inversion Hd; subst. destruct (Nat.eqb_spec k j) as [->|]; auto.
      exfalso. apply H2. apply (in_map fst) in H. auto.
  Qed.

  Lemma in_cols_elook E j : NoDup (cols E) -> In j (cols E) -> In (j, elook E j) E.
  Proof.
    intros Hd Hin. apply in_map_iff in Hin as ([k v] & Hk & Hin). simpl in Hk; subst.
    rewrite (elook_in E j v); auto.
  Qed.

  Lemma esum_elook E j : NoDup (cols E) -> esum E j = elook E j.
  Proof.
    induction E as [|[k v] E IH]; simpl; auto. intros Hd. inversion Hd; subst.
    destruct (Nat.eqb_spec k j) as [->|]; auto.
    rewrite esum_notin by auto. ring.
  Qed.

  Lemma esum_app E1 E2 j : esum (E1 ++ E2) j = esum E1 j + esum E2 j.
  Proof.
    induction E1 as [|[k v] E1 IH]; simpl; [ring|].
    destruct (k =? j); rewrite IH; ring.
  Qed.

  Lemma esum_scale a E j : esum (map (fun kv => (fst kv, a * snd kv)) E) j = a * esum E j.
  Proof.
    induction E as [|[k v] E IH]; simpl; [ring|].
    destruct (k =? j); rewrite IH; ring.
  Qed.

  Lemma esum_flat_map {X} (f : X -> list entry) l j :
    esum (flat_map f l) j = lsum (map (fun x => esum (f x) j) l).
  Proof. induction l as [|x l IH]; simpl; auto. rewrite esum_app, IH. reflexivity. Qed.

  Lemma elook_perm E E' j : Permutation E E' -> NoDup (cols E) -> elook E j = elook E' j.
  Proof.
    intros HP Hd.
    assert (Hd' : NoDup (cols E')) by (eapply Permutation_NoDup; [apply Permutation_map; eauto|auto]).
    destruct (in_dec Nat.eq_dec j (cols E)) as [Hin|Hn].
    - pose proof (in_cols_elook _ _ Hd Hin) as H.
      symmetry. apply elook_in; auto. eapply Permutation_in; eauto.
    - rewrite elook_notin by auto. rewrite elook_notin; auto.
      intros H. apply Hn. eapply Permutation_in; [|exact H]. apply Permutation_sym, Permutation_map; auto.
  Qed.

  (** A sum over the entries of a duplicate-free row is a sum over all columns. *)
  Lemma lsum_entries (E : list entry) N (f : nat -> F -> F) :
    NoDup (cols E) -> (forall k, In k (cols E) -> (k < N)%nat) ->
    (forall k, (k < N)%nat -> f k 0 = 0) ->
    lsum (map (fun kv => f (fst kv) (snd kv)) E) = bigsum N (fun k => f k (elook E k)).
  Proof.
    intros Hd Hr Hz. induction E as [|[k v] E IH]; simpl.
    - symmetry. apply bigsum_zero. auto.
    - inversion Hd; subst. rewrite IH; auto.
      2:{ intros c Hc. apply Hr. right; auto. }
      assert (Hk : (k < N)%nat) by (apply Hr; left; auto).
      assert (E1 : bigsum N (fun c => f c (if k =? c then v else elook E c)) =
                   bigsum N (fun c => (if k =? c then f k v else 0) + f c (elook E c))).
      { apply bigsum_ext. intros i Hi. destruct (Nat.eqb_spec k i) as [->|].
        - rewrite (elook_notin E i) by auto. rewrite Hz by auto. ring.
        - ring. }
      rewrite E1, bigsum_add. f_equal.
      rewrite (bigsum_single N k); auto.
      + rewrite Nat.eqb_refl. auto.
      + intros i _ Hi. destruct (Nat.eqb_spec k i); auto; congruence.
  Qed.

  Lemma lsum_entries0 (E : list entry) N (f : F -> F) :
    NoDup (cols E) -> (forall k, In k (cols E) -> (k < N)%nat) -> f 0 = 0 ->
    lsum (map (fun kv => f (snd kv)) E) = bigsum N (fun k => f (elook E k)).
  Proof. intros Hd Hr Hz. apply (lsum_entries E N (fun _ => f)); auto. Qed.

  (** ** reductions over threads *)
  Lemma reduce_step n (w : nat -> F) t c : (t < n)%nat -> bigsum n (upd_fun w t (w t + c)) = bigsum n w + c.
  Proof. intros H. rewrite bigsum_upd by auto. ring. Qed.
End SpecFacts.
