(** No csr operation takes row space away: if every row of the matrices has
    space for [n] entries, so have the rows of the result. *)
From Coq Require Import Lia.
From Verif Require Import Base BaseFacts Spec EllpackModel CsrModel CsrSpec CsrFacts.

(** partial correctness: whatever the call returns satisfies [Q] *)
Definition pc {A} (r : res A) (Q : A -> Prop) : Prop := forall a, r = Ok a -> Q a.

Lemma pc_any {A} (r : res A) : pc r (fun _ => True).
Proof. intros a _. exact I. Qed.
Lemma pc_ok {A} (a : A) (Q : A -> Prop) : Q a -> pc (Ok a) Q.
Proof. intros H b E. injection E as <-. exact H. Qed.
Lemma pc_bind {A B} (r : res A) (k : A -> res B) (Q : B -> Prop) : pc r (fun a => pc (k a) Q) -> pc (bind r k) Q.
Proof. intros H b E. destruct r as [a| | |]; try discriminate. exact (H a eq_refl b E). Qed.
Lemma pc_mono {A} (r : res A) (P Q : A -> Prop) : pc r P -> (forall a, P a -> Q a) -> pc r Q.
Proof. intros H HQ a E. apply HQ, H, E. Qed.
Lemma pc_err {A} (Q : A -> Prop) : pc Err Q. Proof. discriminate. Qed.
Lemma pc_ub {A} (Q : A -> Prop) : pc UB Q. Proof. discriminate. Qed.
Lemma pc_loop {A} (Q : A -> Prop) : pc Loop Q. Proof. discriminate. Qed.
Lemma pc_forM {X S} (l : list X) (body : X -> S -> res S) (P : S -> Prop) s :
  P s -> (forall x s, P s -> pc (body x s) P) -> pc (forM l body s) P.
Proof.
  intros H Hb. revert s H. induction l as [|x l IH]; intros s H; simpl.
  - apply pc_ok, H.
  - apply pc_bind. eapply pc_mono; [apply Hb, H|]. intros s' H'. apply IH, H'.
Qed.
Lemma pc_for_n {S} n (body : nat -> S -> res S) (P : S -> Prop) s :
  P s -> (forall i s, P s -> pc (body i s) P) -> pc (for_n n body s) P.
Proof. intros H Hb. unfold for_n. apply pc_forM; assumption. Qed.
Lemma pc_par_for {S W} sched (body : nat -> S * W -> res (S * W)) (P : S -> Prop) s w :
  P s -> (forall i s w, P s -> pc (body i (s, w)) (fun q => P (fst q))) -> pc (par_for sched body s w) (fun q => P (fst q)).
Proof.
  intros H Hb. revert s w H. induction sched as [|[t i] sched IH]; intros s w H; simpl.
  - apply pc_ok, H.
  - apply pc_bind. eapply pc_mono; [apply Hb, H|]. intros [s' w'] H'. apply IH, H'.
Qed.

Section CsrRoom.
  Context {F : scalar}.
  Local Open Scope K_scope.
  Local Notation csr := (csr F).
  Local Notation row := (row F).
  Variable n : nat.

  Definition space (r : row) : Prop := (n <= ralloc r)%nat.
  Definition ample (A : csr) : Prop := Forall space (cdata A).

  Lemma pc_wr {A} (l : list A) i v : pc (wr l i v) (fun l' => length l' = length l).
  Proof. intros l' E. unfold wr in E. destruct (i <? length l)%nat; [|discriminate]. injection E as <-. apply length_set_nth. Qed.
  Lemma space_put r p k v : space r -> pc (r_put r p k v) space.
  Proof. intros H. apply pc_bind. eapply pc_mono; [apply pc_wr|]. intros c Hc. apply pc_ok. unfold space, ralloc in *. simpl. rewrite Hc. exact H. Qed.
  Lemma space_mk r q : space r -> space (mkRow (rcells r) q).
  Proof. exact (fun H => H). Qed.
  Lemma length_realloc (c : list (option (nat * F))) m : length (realloc c m) = m.
  Proof. unfold realloc. rewrite firstn_length, app_length, repeat_length. lia. Qed.
  Lemma space_push r j v : space r -> pc (r_push r j v) space.
  Proof.
    intros H. apply pc_bind. eapply pc_mono; [apply pc_wr|]. intros c Hc. apply pc_ok. unfold space, ralloc in *. simpl. rewrite Hc.
    destruct (length (rcells r) <? S (rnnz r))%nat; [|exact H]. rewrite length_realloc. unfold expand, ralloc.
    eapply Nat.le_trans; [exact H|]. apply Nat.div_le_lower_bound; lia.
  Qed.
  Lemma space_set r j v : space r -> pc (r_set r j v) space.
  Proof.
    intros H. apply pc_bind. eapply pc_mono; [apply pc_any|]. intros [pos|] _; [apply space_put, H|apply space_push, H].
  Qed.
  Lemma space_clear r : space r -> pc (clear_row r) space.
  Proof.
    intros H. apply pc_bind. eapply pc_mono; [apply (pc_for_n _ _ (fun c => length c = length (rcells r))); [reflexivity|]|].
    - intros i c Hc. eapply pc_mono; [apply pc_wr|]. simpl. congruence.
    - intros c Hc. apply pc_ok. unfold space, ralloc in *. simpl. rewrite Hc. exact H.
  Qed.
  Lemma space_realloc (c : list (option (nat * F))) m : (n <= length c)%nat ->
    (n <= length (if (length c <? m)%nat then realloc c m else c))%nat.
  Proof. intros H. destruct (Nat.ltb_spec (length c) m); [rewrite length_realloc; lia|exact H]. Qed.
  Lemma space_set_row r cs vs : space r -> pc (r_set_row r cs vs) space.
  Proof.
    intros H. unfold r_set_row. apply pc_bind. eapply pc_mono; [apply (pc_for_n _ _ (fun c => (n <= length c)%nat))|].
    - apply space_realloc. exact H.
    - intros j c Hc. apply pc_bind. eapply pc_mono; [apply pc_any|]. intros a _. apply pc_bind. eapply pc_mono; [apply pc_any|]. intros b _.
      eapply pc_mono; [apply pc_wr|]. simpl. intros c' Hc'. rewrite Hc'. exact Hc.
    - intros c Hc. apply pc_ok. exact Hc.
  Qed.
  Lemma space_set_sparse keep r cs (vs : list F) : space r -> pc (r_set_sparse keep r cs vs) space.
  Proof.
    intros H. unfold r_set_sparse. apply pc_for_n.
    - unfold space, ralloc in *. simpl. apply space_realloc. exact H.
    - intros j r' Hr. apply pc_bind. eapply pc_mono; [apply pc_any|]. intros a _. apply pc_bind. eapply pc_mono; [apply pc_any|]. intros b _.
      destruct (keep b); [|apply pc_ok, Hr]. apply pc_bind. eapply pc_mono; [apply pc_wr|]. intros c Hc. apply pc_ok.
      unfold space, ralloc in *. simpl. rewrite Hc. exact Hr.
  Qed.

  Lemma space_row A i : ample A -> pc (c_row A i) space.
  Proof. intros H r E. unfold c_row, rd in E. destruct (nth_error (cdata A) i) as [x|] eqn:Ex; [|discriminate]. injection E as <-.
    unfold ample in H. rewrite Forall_forall in H. apply H. eapply nth_error_In; eauto. Qed.
  Lemma ample_put A i r : ample A -> space r -> pc (c_put A i r) ample.
  Proof.
    intros H Hr. apply pc_bind. intros d E. apply pc_ok. unfold ample in *. simpl.
    unfold wr in E. destruct (i <? length (cdata A))%nat; [|discriminate]. injection E as <-.
    revert i. induction H as [|x l Hx Hl IH]; intros [|i]; simpl; constructor; auto.
  Qed.

  Ltac pcb := apply pc_bind; eapply pc_mono; [apply pc_any|]; intros ? _.
  Ltac pcbi H := apply pc_bind; eapply pc_mono; [apply H|].

  (** loops that change each row on its own *)
  Lemma ample_rows A sched (f : nat -> row -> res row) :
    ample A -> (forall i r, space r -> pc (f i r) space) ->
    pc ('(A, _) <- par_for sched (fun i '(A, w) => r <- c_row A i ;; r <- f i r ;; A <- c_put A i r ;; Ok (A, w)) A (fun _ => tt) ;; Ok A) ample.
  Proof.
    intros H Hf. apply pc_bind. eapply pc_mono; [apply (pc_par_for _ _ ample); [exact H|]|].
    - intros i B w HB. apply pc_bind. eapply pc_mono; [apply space_row, HB|]. intros r Hr.
      apply pc_bind. eapply pc_mono; [apply Hf, Hr|]. intros r' Hr'.
      apply pc_bind. eapply pc_mono; [apply ample_put; [exact HB|exact Hr']|]. intros B' HB'. apply pc_ok. exact HB'.
    - intros [B w] HB. apply pc_ok. exact HB.
  Qed.

  Lemma ample_threshold keep A sched : ample A -> pc (csr_threshold keep A sched) ample.
  Proof.
    intros H. apply (ample_rows A sched (fun _ r => thr_row keep r)); [exact H|]. intros _ r Hr. unfold thr_row.
    apply pc_bind. eapply pc_mono; [apply (pc_for_n _ _ (fun s => space (fst s))); [exact Hr|]|].
    - intros pos [r' rlen] H'. simpl in H'. pcb. destruct a as [k v]. destruct (keep v); [|apply pc_ok, H'].
      apply pc_bind. eapply pc_mono with (P := space).
      + destruct (rlen <? pos)%nat; [apply space_put, H'|apply pc_ok, H'].
      + intros r2 H2. apply pc_ok. exact H2.
    - intros [r' rlen] H'. apply pc_ok. exact H'.
  Qed.
  Lemma ample_scale a A sched : ample A -> pc (csr_scale_inplace a A sched) ample.
  Proof.
    intros H. apply (ample_rows A sched (fun _ r => scale_row a r)); [exact H|]. intros _ r Hr. unfold scale_row.
    apply pc_for_n; [exact Hr|]. intros p r' H'. pcb. destruct a0 as [k v]. apply space_put, H'.
  Qed.
  Lemma ample_add_identity keep beta A s1 s2 : ample A -> pc (csr_add_identity keep beta A s1 s2) ample.
  Proof.
    intros H. unfold csr_add_identity. apply pc_bind.
    eapply pc_mono; [apply (pc_par_for _ _ ample); [exact H|]|].
    - intros i B w HB. apply pc_bind. eapply pc_mono; [apply space_row, HB|]. intros r Hr.
      apply pc_bind. eapply pc_mono with (P := space).
      + unfold add_identity_row. pcb. destruct (keqb beta 0); [apply pc_ok, Hr|]. destruct a as [pos|].
        * pcb. destruct a as [k v]. apply space_put, Hr.
        * apply space_push, Hr.
      + intros r' Hr'. apply pc_bind. eapply pc_mono; [apply ample_put; [exact HB|exact Hr']|]. intros B' HB'. apply pc_ok. exact HB'.
    - intros [B w] HB. apply ample_threshold. exact HB.
  Qed.
  Lemma ample_scale_add_identity keep alpha beta A s0 s1 s2 : ample A -> pc (csr_scale_add_identity keep alpha beta A s0 s1 s2) ample.
  Proof. intros H. apply pc_bind. eapply pc_mono; [apply ample_scale, H|]. intros B HB. apply ample_add_identity, HB. Qed.

  Lemma space_add_a alpha r t : space r -> pc (add_row_a alpha r t) (fun s => space (fst s)).
  Proof.
    intros H. unfold add_row_a. apply (pc_for_n _ _ (fun s => space (fst s))); [exact H|].
    intros pos [r' t'] H'. simpl in H'. pcb. destruct a as [k v]. apply pc_bind. eapply pc_mono; [apply space_put, H'|]. intros r2 H2.
    pcb. apply pc_ok. exact H2.
  Qed.
  Lemma space_add_b beta t k v s : space (fst s) -> pc (add_row_b beta t k v s) (fun s => space (fst s)).
  Proof.
    destruct s as [r stale]. simpl. intros H. unfold add_row_b. pcb. destruct a as [p|].
    - destruct stale; [apply pc_ub|]. pcb. destruct a as [ka a]. apply pc_bind. eapply pc_mono; [apply space_put, H|].
      intros r2 H2. apply pc_ok. exact H2.
    - apply pc_bind. eapply pc_mono; [apply space_push, H|]. intros r2 H2. apply pc_ok. exact H2.
  Qed.
  Lemma ample_add keep alpha beta A B s1 s2 : ample A -> pc (csr_add keep alpha beta A B s1 s2) ample.
  Proof.
    intros H. unfold csr_add. pcb. pcb. apply pc_bind.
    eapply pc_mono; [apply (pc_par_for _ _ ample); [exact H|]|].
    - intros i C w HC. apply pc_bind. eapply pc_mono; [apply space_row, HC|]. intros r Hr.
      apply pc_bind. eapply pc_mono; [apply space_add_a, Hr|]. intros [r1 t1] Hr1. pcb.
      apply pc_bind. eapply pc_mono; [apply (pc_for_n _ _ (fun s => space (fst s))); [exact Hr1|]|].
      + intros pos s Hs. pcb. destruct a2 as [k v]. apply space_add_b, Hs.
      + intros [r2 st] Hr2. apply pc_bind. eapply pc_mono; [apply ample_put; [exact HC|exact Hr2]|]. intros C' HC'. apply pc_ok. exact HC'.
    - intros [C w] HC. apply ample_threshold. exact HC.
  Qed.
  Lemma space_gather {T} kc (side : nat -> F -> T -> T) l r w t : space r -> pc (c_gather kc side l r w t) (fun s => space (fst (fst s))).
  Proof.
    intros H. unfold c_gather. apply (pc_for_n _ _ (fun s => space (fst (fst s)))); [exact H|].
    intros jp [[r' w'] t'] H'. simpl in H'. pcb. pcb. apply pc_bind. eapply pc_mono with (P := space).
    - destruct (kc a a0); [apply space_push, H'|apply pc_ok, H'].
    - intros r2 H2. pcb. pcb. apply pc_ok. exact H2.
  Qed.
  Lemma ample_multiply_AB keep A B C sched : ample C -> pc (csr_multiply_AB keep A B C sched) ample.
  Proof.
    intros H. unfold csr_multiply_AB. apply pc_bind. eapply pc_mono; [apply (pc_par_for _ _ ample); [exact H|]|].
    - intros i D w HD. unfold csr_mul_row. pcb. pcb. destruct a0 as [w' l].
      apply pc_bind. eapply pc_mono; [apply space_row, HD|]. intros r Hr.
      apply pc_bind. eapply pc_mono; [apply space_clear, Hr|]. intros r1 Hr1.
      apply pc_bind. eapply pc_mono; [apply space_gather, Hr1|]. intros [[r2 w2] t2] Hr2.
      apply pc_bind. eapply pc_mono; [apply ample_put; [exact HD|exact Hr2]|]. intros D' HD'. apply pc_ok. exact HD'.
    - intros [D w] HD. apply pc_ok. exact HD.
  Qed.
  Lemma ample_multiply keep alpha beta A B C s1 s2 s3 : ample C -> pc (csr_multiply keep alpha beta A B C s1 s2 s3) ample.
  Proof. intros H. unfold csr_multiply. pcb. apply ample_add, H. Qed.
  Lemma ample_multiply_x2 keep X C nth sched : ample C -> pc (csr_multiply_x2 keep X C nth sched) (fun s => ample (fst (fst s))).
  Proof.
    intros H. unfold csr_multiply_x2. apply pc_bind. eapply pc_mono; [apply (pc_par_for _ _ ample); [exact H|]|].
    - intros i D [[w tx] tx2] HD. unfold csr_x2_row. pcb. pcb. destruct a0 as [[w' l] tx'].
      apply pc_bind. eapply pc_mono; [apply space_row, HD|]. intros r Hr.
      apply pc_bind. eapply pc_mono; [apply space_clear, Hr|]. intros r1 Hr1.
      apply pc_bind. eapply pc_mono; [apply space_gather, Hr1|]. intros [[r2 w2] t2] Hr2.
      apply pc_bind. eapply pc_mono; [apply ample_put; [exact HD|exact Hr2]|]. intros D' HD'. apply pc_ok. exact HD'.
    - intros [D w] HD. apply pc_ok. exact HD.
  Qed.
  Lemma ample_element_multiply keep A B C sched : ample C -> pc (csr_element_multiply keep A B C sched) ample.
  Proof.
    intros H. unfold csr_element_multiply. apply pc_bind. eapply pc_mono; [apply (pc_par_for _ _ ample); [exact H|]|].
    - intros i D w HD. unfold csr_emul_row. pcb. pcb. destruct a0 as [w' l].
      apply pc_bind. eapply pc_mono; [apply space_row, HD|]. intros r Hr.
      apply pc_bind. eapply pc_mono; [apply space_clear, Hr|]. intros r1 Hr1.
      apply pc_bind. eapply pc_mono; [apply space_gather, Hr1|]. intros [[r2 w2] t2] Hr2.
      apply pc_bind. eapply pc_mono; [apply ample_put; [exact HD|exact Hr2]|]. intros D' HD'. apply pc_ok. exact HD'.
    - intros [D w] HD. apply pc_ok. exact HD.
  Qed.
  Lemma ample_set_element_new A i j v : ample A -> pc (csr_set_element_new A i j v) ample.
  Proof.
    intros H. apply pc_bind. eapply pc_mono; [apply space_row, H|]. intros r Hr.
    apply pc_bind. eapply pc_mono; [apply space_push, Hr|]. intros r1 Hr1. apply ample_put; assumption.
  Qed.
  Lemma ample_set_element A i j v : ample A -> pc (csr_set_element A i j v) ample.
  Proof.
    intros H. apply pc_bind. eapply pc_mono; [apply space_row, H|]. intros r Hr.
    apply pc_bind. eapply pc_mono; [apply space_set, Hr|]. intros r1 Hr1. apply ample_put; assumption.
  Qed.
  Lemma ample_set_row keep A i vals : ample A -> pc (csr_set_row keep A i vals) ample.
  Proof.
    intros H. apply pc_bind. eapply pc_mono; [apply space_row, H|]. intros r Hr. pcb.
    apply pc_bind. eapply pc_mono; [apply space_set_row; exact Hr|]. intros r1 Hr1. apply ample_put; assumption.
  Qed.
  Lemma ample_set_sparse_row keep A i cs vs : ample A -> pc (csr_set_sparse_row keep A i cs vs) ample.
  Proof.
    intros H. apply pc_bind. eapply pc_mono; [apply space_row, H|]. intros r Hr.
    apply pc_bind. eapply pc_mono; [apply space_set_sparse; exact Hr|]. intros r1 Hr1. apply ample_put; assumption.
  Qed.
  Lemma ample_set_diagonal keep A diag : ample A -> pc (csr_set_diagonal keep A diag) ample.
  Proof.
    intros H. apply pc_for_n; [exact H|]. intros i B HB. pcb. apply pc_bind. eapply pc_mono; [apply space_row, HB|]. intros r Hr.
    apply pc_bind. eapply pc_mono; [apply space_set, Hr|]. intros r1 Hr1. apply ample_put; assumption.
  Qed.

  (** ** Matrices created with M >= n *)
  Lemma ample_repeat N M (r : row) q : space r -> ample (mkCsr N M (repeat r q)).
  Proof. intros H. apply Forall_forall. intros x Hx. apply repeat_spec in Hx. subst x. exact H. Qed.
  Lemma ample_noinit N M : (n <= M)%nat -> ample (csr_noinit N M).
  Proof. intros H. apply ample_repeat. unfold space, ralloc, noinit_row. cbn [rcells]. rewrite repeat_length. eapply Nat.le_trans; [exact H|apply Nat.le_max_r]. Qed.
  Lemma ample_zero N M : (n <= M)%nat -> ample (csr_zero N M).
  Proof. intros H. apply ample_repeat. unfold space, ralloc, zero_row. cbn [rcells]. rewrite repeat_length. eapply Nat.le_trans; [exact H|apply Nat.le_max_r]. Qed.
  Lemma ample_transpose_new A ev : (n <= cM A)%nat -> pc (csr_transpose_new A ev) ample.
  Proof.
    intros H. apply pc_forM; [apply ample_noinit, H|]. intros [i pos] B HB. pcb. pcb. destruct a0 as [j v]. apply ample_set_element_new, HB.
  Qed.

  Lemma space_swap r i j : space r -> pc (r_swap r i j) space.
  Proof.
    intros H. unfold r_swap. destruct (i =? j)%nat; [apply pc_ok, H|]. pcb. destruct a as [ki vi]. pcb. destruct a as [kj vj].
    apply pc_bind. eapply pc_mono; [apply space_put, H|]. intros r1 H1. apply space_put, H1.
  Qed.
  Lemma ample_ctr_step i A nzt q : ample A -> pc (ctr_step i A nzt q) (fun s => ample (fst (fst s))).
  Proof.
    intros H. unfold ctr_step. cbv zeta. apply pc_bind. eapply pc_mono; [apply space_row, H|]. intros ri Hri. pcb. destruct a as [j v].
    destruct (i <? j)%nat.
    - apply pc_bind. eapply pc_mono; [apply space_row, H|]. intros rj Hrj. pcb. pcb. destruct a0 as [jpos|].
      + pcb. destruct a0 as [kj vj]. apply pc_bind. eapply pc_mono; [apply space_put, Hri|]. intros r1 H1.
        apply pc_bind. eapply pc_mono; [apply space_put, Hrj|]. intros r2 H2. pcb.
        apply pc_bind. eapply pc_mono; [apply space_swap, H1|]. intros r3 H3. pcb.
        apply pc_bind. eapply pc_mono; [apply space_swap, H2|]. intros r4 H4.
        apply pc_bind. eapply pc_mono; [apply ample_put; [exact H|exact H3]|]. intros A1 HA1.
        apply pc_bind. eapply pc_mono; [apply ample_put; [exact HA1|exact H4]|]. intros A2 HA2. pcb. pcb. apply pc_ok. exact HA2.
      + apply pc_bind. eapply pc_mono; [apply space_push, Hrj|]. intros r1 H1. pcb.
        apply pc_bind. eapply pc_mono; [apply space_swap, H1|]. intros r2 H2. pcb.
        apply pc_bind. eapply pc_mono; [apply ample_put; [exact H|exact H2]|]. intros A1 HA1.
        apply pc_bind. eapply pc_mono; [apply ample_put; [exact HA1|exact Hri]|]. intros A2 HA2. apply pc_ok. exact HA2.
    - destruct (j <? i)%nat.
      + apply pc_bind. eapply pc_mono; [apply space_row, H|]. intros rj Hrj.
        apply pc_bind. eapply pc_mono; [apply space_push, Hrj|]. intros r1 H1. pcb. pcb.
        apply pc_bind. eapply pc_mono; [apply ample_put; [exact H|exact H1]|]. intros A1 HA1.
        apply pc_bind. eapply pc_mono; [apply ample_put; [exact HA1|exact Hri]|]. intros A2 HA2. apply pc_ok. exact HA2.
      + pcb. apply pc_bind. eapply pc_mono; [apply space_swap, Hri|]. intros r1 H1.
        apply pc_bind. eapply pc_mono; [apply ample_put; [exact H|exact H1]|]. intros A1 HA1. pcb. apply pc_ok. exact HA1.
  Qed.
  Lemma ample_ctr_while fuel i A nzt q : ample A -> pc (ctr_while fuel i A nzt q) (fun s => ample (fst s)).
  Proof.
    revert A nzt q. induction fuel as [|fuel IH]; intros A nzt q H; simpl; pcb; destruct (q <=? a)%nat;
      try (apply pc_ok; exact H); [apply pc_loop|].
    apply pc_bind. eapply pc_mono; [apply ample_ctr_step, H|]. intros [[B z] q'] HB. apply IH. exact HB.
  Qed.
  Lemma ample_transpose A : ample A -> pc (csr_transpose A) ample.
  Proof.
    intros H. unfold csr_transpose. apply pc_bind. eapply pc_mono; [apply (pc_for_n _ _ (fun s => ample (fst s))); [exact H|]|].
    - intros i [B z] HB. pcb. apply ample_ctr_while. exact HB.
    - intros [B z] HB. apply pc_ok. exact HB.
  Qed.

  Lemma copy_rows (A : csr) (l : list (nat * nat)) (B : csr) (w : nat -> unit) (q : csr * (nat -> unit)) : ample A ->
    par_for l (fun i '(B, w) => r <- c_row A i ;; b <- copy_row_new r ;; B <- c_put B i b ;; Ok (B, w)) B w = Ok q ->
    length (cdata (fst q)) = length (cdata B) /\
    forall i, In i (map snd l) \/ space (nth i (cdata B) row0) -> space (nth i (cdata (fst q)) row0).
  Proof.
    intros HA. revert B w. induction l as [|[t i] l IH]; intros B w E.
    - injection E as <-. simpl. split; [reflexivity|]. intros i [[]|H]. exact H.
    - cbn [par_for] in E. destruct (c_row A i) as [r| | |] eqn:Er; try discriminate. cbn [bind] in E.
      destruct (copy_row_new r) as [b| | |] eqn:Eb; try discriminate. cbn [bind] in E.
      unfold c_put in E. destruct (wr (cdata B) i b) as [d| | |] eqn:Ew; try discriminate. cbn [bind] in E.
      destruct (IH _ _ E) as [Q1 Q2]. simpl in *.
      assert (Hd : d = set_nth (cdata B) i b /\ (i < length (cdata B))%nat).
      { unfold wr in Ew. destruct (Nat.ltb_spec i (length (cdata B))); [|discriminate]. injection Ew as <-. auto. }
      destruct Hd as [-> Hi]. rewrite length_set_nth in Q1. split; [exact Q1|].
      intros i' Hi'. apply Q2. destruct (Nat.eq_dec i' i) as [->|Hn].
      + right. rewrite nth_set_nth_eq by exact Hi. pose proof (space_row A i HA r Er) as Hr.
        unfold copy_row_new, memcpy_row in Eb.
        destruct (for_n _ _ _) as [c| | |] eqn:Ec in Eb; try discriminate. injection Eb as <-.
        unfold space, ralloc in *. simpl.
        eapply (pc_for_n _ _ (fun c => (n <= length c)%nat)) in Ec; [exact Ec| |].
        * unfold noinit_row. cbn [rcells]. rewrite repeat_length. unfold ralloc. eapply Nat.le_trans; [exact Hr|apply Nat.le_max_r].
        * intros p c' Hc. pcb. eapply pc_mono; [apply pc_wr|]. simpl. intros c2 Hc2. rewrite Hc2. exact Hc.
      + destruct Hi' as [[Hi'|Hi']|Hi']; [congruence|left; exact Hi'|right; rewrite nth_set_nth_neq by exact Hn; exact Hi'].
  Qed.
  Lemma ample_copy_new A sched : ample A -> Permutation (map snd sched) (seq 0 (cN A)) -> pc (csr_copy_new A sched) ample.
  Proof.
    intros H Hp. unfold csr_copy_new. apply pc_bind. intros [B w] E. apply pc_ok.
    destruct (copy_rows A sched _ _ _ H E) as [Q1 Q2]. simpl in *. rewrite repeat_length in Q1.
    apply Forall_forall. intros r Hr. apply (In_nth _ _ row0) in Hr as (i & Hi & <-). apply Q2. left.
    apply (Permutation_in (l := seq 0 (cN A))); [symmetry; exact Hp|]. apply in_seq. lia.
  Qed.
End CsrRoom.
