(** Facts about the combinators of Base.v. *)
From Verif Require Import Base.

(** [wpq e r Q]: the run [r] finishes in a state satisfying [Q], or calls
    LOG_ERROR and [e] holds; it is never undefined and never runs out of fuel. *)
Definition wpq (e : Prop) {A} (r : res A) (Q : A -> Prop) : Prop :=
  match r with Ok a => Q a | Err => e | _ => False end.
(** finishes normally with [Q] *)
Notation wp := (wpq False).
(** finishes normally with [Q] or reports an error *)
Notation wpe := (wpq True).

Lemma wp_ok {A} (r : res A) Q : wp r Q <-> exists a, r = Ok a /\ Q a.
Proof.
  split.
  - destruct r; simpl; try tauto. intros H; eauto.
  - intros (a & -> & H); exact H.
Qed.

Lemma wpe_ok {A} (r : res A) Q : wpe r Q <-> r = Err \/ exists a, r = Ok a /\ Q a.
Proof.
  split.
  - destruct r; simpl; try tauto. intros H; eauto.
  - intros [->|(a & -> & H)]; [exact I|exact H].
Qed.

Lemma wp_bind {e A B} (r : res A) (f : A -> res B) Q :
  wpq e r (fun a => wpq e (f a) Q) -> wpq e (bind r f) Q.
Proof. destruct r; simpl; tauto. Qed.

Lemma wp_mono {e A} (r : res A) (P Q : A -> Prop) :
  wpq e r P -> (forall a, P a -> Q a) -> wpq e r Q.
Proof. destruct r; simpl; auto. Qed.

Lemma wp_conj {e A} (r : res A) (P Q : A -> Prop) :
  wpq e r P -> wpq e r Q -> wpq e r (fun a => P a /\ Q a).
Proof. destruct r; simpl; auto. Qed.

Lemma wp_weaken {e e' : Prop} {A} (r : res A) Q : (e -> e') -> wpq e r Q -> wpq e' r Q.
Proof. destruct r; simpl; tauto. Qed.

Lemma wp_any {e : Prop} {A} (r : res A) Q : wp r Q -> wpq e r Q.
Proof. apply wp_weaken. tauto. Qed.

Lemma length_set_nth {A} (a : list A) i v : length (set_nth a i v) = length a.
Proof. revert i; induction a as [|x a IH]; intros [|i]; simpl; auto. Qed.

Lemma nth_set_nth {A} (a : list A) i v j d :
  nth j (set_nth a i v) d = if (j =? i) && (i <? length a) then v else nth j a d.
Proof.
  revert i j; induction a as [|x a IH]; intros i j.
  - simpl. rewrite andb_false_r. reflexivity.
  - destruct i as [|i], j as [|j]; simpl; auto.
    rewrite IH. reflexivity.
Qed.

Lemma nth_set_nth_eq {A} (a : list A) i v d : i < length a -> nth i (set_nth a i v) d = v.
Proof. intros H. rewrite nth_set_nth. rewrite Nat.eqb_refl. apply Nat.ltb_lt in H as ->. reflexivity. Qed.

Lemma nth_set_nth_neq {A} (a : list A) i v j d : j <> i -> nth j (set_nth a i v) d = nth j a d.
Proof. intros H. rewrite nth_set_nth. apply Nat.eqb_neq in H as ->. reflexivity. Qed.

Lemma nth_error_set_nth_eq {A} (a : list A) i v : i < length a -> nth_error (set_nth a i v) i = Some v.
Proof. revert i; induction a as [|x a IH]; intros [|i] H; simpl in *; try lia; auto. apply IH; lia. Qed.

Lemma nth_error_set_nth_neq {A} (a : list A) i v j : j <> i -> nth_error (set_nth a i v) j = nth_error a j.
Proof. revert i j; induction a as [|x a IH]; intros [|i] [|j] H; simpl in *; try lia; auto. Qed.

Lemma rd_ok {A} (a : list A) i d : i < length a -> rd a i = Ok (nth i a d).
Proof. intros H. unfold rd. rewrite (nth_error_nth' a d H). reflexivity. Qed.

Lemma rd_oob {A} (a : list A) i : length a <= i -> rd a i = UB.
Proof. intros H. unfold rd. apply nth_error_None in H as ->. reflexivity. Qed.

Lemma wr_ok {A} (a : list A) i v : i < length a -> wr a i v = Ok (set_nth a i v).
Proof. intros H. unfold wr. apply Nat.ltb_lt in H as ->. reflexivity. Qed.

Lemma wr_oob {A} (a : list A) i v : length a <= i -> wr a i v = UB.
Proof. intros H. unfold wr. apply Nat.ltb_ge in H as ->. reflexivity. Qed.

Lemma set_nth_app_l {A} (a b : list A) i v : i < length a -> set_nth (a ++ b) i v = set_nth a i v ++ b.
Proof. revert i; induction a as [|x a IH]; intros [|i] H; simpl in *; try lia; auto. rewrite IH; auto; lia. Qed.

Lemma set_nth_app_r {A} (a b : list A) i v : length a <= i -> set_nth (a ++ b) i v = a ++ set_nth b (i - length a) v.
Proof. revert i; induction a as [|x a IH]; intros i H; simpl in *. - f_equal; lia.
  - destruct i as [|i]; [lia|]. simpl. rewrite IH by lia. reflexivity. Qed.

Lemma set_nth_split {A} (a b : list A) x v : set_nth (a ++ x :: b) (length a) v = a ++ v :: b.
Proof. rewrite set_nth_app_r by lia. rewrite Nat.sub_diag. reflexivity. Qed.

(** ** Loops *)
Lemma forM_app {X S} (l1 l2 : list X) body (s : S) :
  forM (l1 ++ l2) body s = (s' <- forM l1 body s ;; forM l2 body s').
Proof.
  revert s; induction l1 as [|x l1 IH]; intros s; simpl; auto.
  destruct (body x s); simpl; auto.
Qed.

Lemma forM_ext {X S} (l : list X) b1 b2 (s : S) :
  (forall x s, In x l -> b1 x s = b2 x s) -> forM l b1 s = forM l b2 s.
Proof.
  revert s; induction l as [|x l IH]; intros s H; simpl; auto.
  rewrite H by (left; auto). destruct (b2 x s); simpl; auto.
  apply IH; intros; apply H; right; auto.
Qed.

Lemma forM_map {X Y S} (f : X -> Y) (l : list X) body (s : S) :
  forM (map f l) body s = forM l (fun x => body (f x)) s.
Proof.
  revert s; induction l as [|x l IH]; intros s; simpl; auto.
  destruct (body (f x) s); simpl; auto.
Qed.

Lemma forM_flat_map {X Y S} (f : X -> list Y) (l : list X) body (s : S) :
  forM (flat_map f l) body s = forM l (fun x => forM (f x) body) s.
Proof.
  revert s; induction l as [|x l IH]; intros s; simpl; auto.
  rewrite forM_app. destruct (forM (f x) body s); simpl; auto.
Qed.

Lemma forM_inv {e X S} (P : list X -> S -> Prop) (l : list X) body s :
  P [] s ->
  (forall pre x post s, l = pre ++ x :: post -> P pre s -> wpq e (body x s) (P (pre ++ [x]))) ->
  wpq e (forM l body s) (P l).
Proof.
  intros H0 Hstep.
  assert (G : forall post pre s, l = pre ++ post -> P pre s -> wpq e (forM post body s) (P l)).
  { induction post as [|x post IH]; intros pre s' E HP; simpl.
    - rewrite app_nil_r in E; subst; auto.
    - specialize (Hstep pre x post s' E HP).
      destruct (body x s') as [s''| | |]; simpl in *; try tauto.
      apply (IH (pre ++ [x])); auto. rewrite <- app_assoc; auto. }
  apply (G l []); auto.
Qed.

Lemma for_n_inv {e S} (P : nat -> S -> Prop) n body s :
  P 0 s ->
  (forall i s, i < n -> P i s -> wpq e (body i s) (P (Datatypes.S i))) ->
  wpq e (for_n n body s) (P n).
Proof.
  intros H0 Hstep.
  unfold for_n.
  assert (G : forall k i s, i + k = n -> P i s -> wpq e (forM (seq i k) body s) (P n)).
  { induction k as [|k IH]; intros i s' E HP; simpl.
    - replace n with i by lia; auto.
    - specialize (Hstep i s' ltac:(lia) HP).
      destruct (body i s') as [s''| | |]; simpl in *; try tauto.
      apply (IH (Datatypes.S i)); auto; lia. }
  apply (G n 0); auto.
Qed.

Lemma for_n_S {S} n (body : nat -> S -> res S) s :
  for_n (Datatypes.S n) body s = (s' <- for_n n body s ;; body n s').
Proof.
  unfold for_n. rewrite seq_S, forM_app. simpl.
  destruct (forM (seq 0 n) body s); simpl; auto. destruct (body n a); auto.
Qed.

Lemma for_n_ext {S} n (b1 b2 : nat -> S -> res S) s :
  (forall i s, i < n -> b1 i s = b2 i s) -> for_n n b1 s = for_n n b2 s.
Proof. intros H. unfold for_n. apply forM_ext. intros x s' Hx. apply H. apply in_seq in Hx; lia. Qed.

(** [for_n] over the indices of a list is a loop over the list. *)
Lemma for_n_nth {X S} (l : list X) (d : X) (body : X -> S -> res S) s :
  for_n (length l) (fun i => body (nth i l d)) s = forM l body s.
Proof.
  unfold for_n.
  assert (G : forall post pre s, l = pre ++ post ->
     forM (seq (length pre) (length post)) (fun i => body (nth i l d)) s = forM post body s).
  { induction post as [|x post IH]; intros pre s' E; simpl; auto.
    replace (nth (length pre) l d) with x.
    2:{ subst l. rewrite app_nth2 by lia. rewrite Nat.sub_diag. reflexivity. }
    destruct (body x s'); simpl; auto.
    specialize (IH (pre ++ [x]) a). rewrite app_length in IH. simpl in IH.
    rewrite Nat.add_1_r in IH. apply IH. rewrite <- app_assoc; auto. }
  apply (G l []); auto.
Qed.

(** ** Parallel loops *)
Lemma par_for_inv {e S W} (P : list nat -> S -> (nat -> W) -> Prop) sched body (s : S) (w : nat -> W) :
  P [] s w ->
  (forall pre t i post s w, sched = pre ++ (t, i) :: post -> P (map snd pre) s w ->
     wpq e (body i (s, w t)) (fun r => P (map snd pre ++ [i]) (fst r) (upd_fun w t (snd r)))) ->
  wpq e (par_for sched body s w) (fun r => P (map snd sched) (fst r) (snd r)).
Proof.
  intros H0 Hstep.
  assert (G : forall post pre s w, sched = pre ++ post -> P (map snd pre) s w ->
     wpq e (par_for post body s w) (fun r => P (map snd sched) (fst r) (snd r))).
  { induction post as [|[t i] post IH]; intros pre s' w' E HP; simpl.
    - rewrite app_nil_r in E; subst; auto.
    - specialize (Hstep pre t i post s' w' E HP).
      destruct (body i (s', w' t)) as [[s'' w'']| | |]; simpl in *; try tauto.
      apply (IH (pre ++ [(t, i)])).
      + rewrite <- app_assoc; auto.
      + rewrite map_app; auto. }
  apply (G sched []); auto.
Qed.

Lemma nth_repeat_any {A} (x : A) n i : nth i (repeat x n) x = x.
Proof. revert i; induction n as [|n IH]; intros [|i]; simpl; auto. Qed.

Lemma list_ext_nth {A} (a b : list A) d :
  length a = length b -> (forall i, i < length a -> nth i a d = nth i b d) -> a = b.
Proof. intros HL H. apply (nth_ext a b d d); auto. Qed.

Lemma nth_map_seq {A} (f : nat -> A) n i d : i < n -> nth i (map f (seq 0 n)) d = f i.
Proof.
  intros H. rewrite (nth_indep _ d (f 0)) by (rewrite map_length, seq_length; lia).
  rewrite map_nth. rewrite seq_nth by lia. reflexivity.
Qed.

Lemma NoDup_app_inv {A} (a b : list A) : NoDup (a ++ b) -> NoDup a /\ NoDup b /\ (forall x, In x a -> ~ In x b).
Proof.
  induction a as [|x a IH]; simpl; intros H.
  - repeat split; auto. constructor.
  - inversion H as [|? ? Hn Hd]; subst. destruct (IH Hd) as (Ha & Hb & Hab).
    repeat split; auto.
    + constructor; auto. intros Hin; apply Hn; apply in_or_app; auto.
    + intros y [->|Hy] Hin; [apply Hn; apply in_or_app; auto | eapply Hab; eauto].
Qed.

Lemma NoDup_app_intro {A} (a b : list A) :
  NoDup a -> NoDup b -> (forall x, In x a -> ~ In x b) -> NoDup (a ++ b).
Proof.
  induction a as [|x a IH]; simpl; intros Ha Hb Hab; auto.
  inversion Ha; subst. constructor.
  - intros Hin. apply in_app_or in Hin as [Hin|Hin]; auto. eapply Hab; eauto.
  - apply IH; auto.
Qed.

Lemma wp_eq {A} (r : res A) a : wp r (fun x => x = a) -> r = Ok a.
Proof. destruct r; simpl; try tauto. congruence. Qed.

Lemma wp_of_eq {e A} (r : res A) a (Q : A -> Prop) : r = Ok a -> Q a -> wpq e r Q.
Proof. intros ->. auto. Qed.

Lemma firstn_S_nth {A} (l : list A) p d : p < length l -> firstn (S p) l = firstn p l ++ [nth p l d].
Proof.
  revert p; induction l as [|y l IH]; intros [|p] H; simpl in *; try lia; auto.
  f_equal. apply IH. lia.
Qed.

Lemma skipn_S_nth {A} (l : list A) p d : p < length l -> skipn p l = nth p l d :: skipn (S p) l.
Proof.
  revert p; induction l as [|y l IH]; intros [|p] H; simpl in *; try lia; auto.
  apply IH. lia.
Qed.

Lemma nth_split_eq {A} (l : list A) p d : p < length l -> l = firstn p l ++ nth p l d :: skipn (S p) l.
Proof. intros H. rewrite <- skipn_S_nth by auto. symmetry. apply firstn_skipn. Qed.

Lemma filter_length_le {A} (p : A -> bool) l : length (filter p l) <= length l.
Proof. induction l as [|x l IH]; simpl; auto. destruct (p x); simpl; lia. Qed.

Lemma filter_firstn_le {A} (p : A -> bool) l n : length (filter p (firstn n l)) <= length (filter p l).
Proof. rewrite <- (firstn_skipn n l) at 2. rewrite filter_app, app_length. lia. Qed.

Lemma nth_firstn_lt {A} (l : list A) n i d : i < n -> nth i (firstn n l) d = nth i l d.
Proof.
  revert n i; induction l as [|x l IH]; intros [|n] [|i] H; simpl; auto; try lia. apply IH. lia.
Qed.
