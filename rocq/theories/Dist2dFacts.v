(** The grid of tasks and the multiplication of distributed matrices. *)
From Verif Require Import Base BaseFacts Spec SpecFacts EllpackModel EllpackSpec EllpackExact CsrModel CsrSpec
  GemmModel DenseModel DenseSpec FormatModel FormatSpec FormatFacts FormatHistModel FormatHistSpec FormatHist
  MpiModel MpiSpec MpiFacts MpiRun Dist2dModel Dist2dSpec Dist2dLocal.
From Coq Require Import Ring.

(** ** The grid *)
Lemma rank_row p i j : j < p -> cart_row p (cart_rank p i j) = i.
Proof. intros H. unfold cart_row, cart_rank. rewrite Nat.div_add_l by lia. rewrite Nat.div_small by auto. lia. Qed.
Lemma rank_col p i j : j < p -> cart_col p (cart_rank p i j) = j.
Proof. intros H. unfold cart_col, cart_rank. rewrite Nat.add_comm, Nat.mod_add by lia. apply Nat.mod_small, H. Qed.
Lemma rank_of p r : 0 < p -> cart_rank p (cart_row p r) (cart_col p r) = r.
Proof. intros H. unfold cart_row, cart_col, cart_rank. pose proof (Nat.div_mod r p). lia. Qed.
Lemma rank_lt p i j : i < p -> j < p -> cart_rank p i j < p * p.
Proof. unfold cart_rank. nia. Qed.
Lemma row_lt p r : r < p * p -> cart_row p r < p.
Proof. intros H. unfold cart_row. apply Nat.div_lt_upper_bound; lia. Qed.
Lemma col_lt p r : 0 < p -> cart_col p r < p.
Proof. intros H. unfold cart_col. apply Nat.mod_upper_bound. lia. Qed.
Lemma grid_bijection p : 0 < p ->
  (forall r, r < p * p -> cart_row p r < p /\ cart_col p r < p /\ cart_rank p (cart_row p r) (cart_col p r) = r) /\
  (forall i j, i < p -> j < p -> cart_rank p i j < p * p /\ cart_row p (cart_rank p i j) = i /\ cart_col p (cart_rank p i j) = j).
Proof.
  intros Hp. split; [intros r Hr; split; [apply row_lt; exact Hr|split; [apply col_lt; exact Hp|apply rank_of; exact Hp]]|].
  intros i j Hi Hj. split; [apply rank_lt; assumption|split; [apply rank_row; exact Hj|apply rank_col; exact Hj]].
Qed.
Lemma grid_pos p r : r < p * p -> 0 < p.
Proof. nia. Qed.

Lemma wrap_lt p x d : 0 < p -> wrap p x d < p.
Proof. intros H. unfold wrap. pose proof (Z.mod_pos_bound (Z.of_nat x + d) (Z.of_nat p)). lia. Qed.
Lemma wrap_back p x d : x < p -> wrap p (wrap p x d) (- d) = x.
Proof.
  intros H. unfold wrap. rewrite Z2Nat.id by (apply Z.mod_pos_bound; lia).
  rewrite <- (Z.add_mod_idemp_l) by lia. rewrite Z.mod_mod by lia. rewrite Z.add_mod_idemp_l by lia.
  replace (Z.of_nat x + d + - d)%Z with (Z.of_nat x) by lia. rewrite Z.mod_small by lia. apply Nat2Z.id.
Qed.
Lemma wrap_back' p x d : x < p -> wrap p (wrap p x (- d)) d = x.
Proof. intros H. rewrite <- (Z.opp_involutive d) at 2. apply wrap_back, H. Qed.
(** a shift by a natural number of steps *)
Lemma wrap_nat p x k : 0 < p -> wrap p x (Z.of_nat k) = (x + k) mod p.
Proof. intros H. unfold wrap. rewrite <- Nat2Z.inj_add, <- Nat2Z.inj_mod, Nat2Z.id. reflexivity. Qed.

Lemma shift_matched_1 p (f : nat -> Z) (g : nat -> bool) :
  matched (p * p) (fun r => fst (cart_shift p r 1 (f (cart_row p r)))) (fun r => snd (cart_shift p r 1 (f (cart_row p r)))) (fun r => g (cart_row p r)).
Proof.
  intros r Hr Hg. assert (Hp := grid_pos p r Hr). assert (Hi := row_lt p r Hr). assert (Hj := col_lt p r Hp).
  cbn [cart_shift fst snd]. assert (W : forall d, wrap p (cart_col p r) d < p) by (intros; apply wrap_lt, Hp).
  rewrite !rank_row, !rank_col by apply W. do 2 (split; [apply rank_lt; auto|]). do 2 (split; [exact Hg|]).
  rewrite wrap_back, wrap_back' by exact Hj. split; apply rank_of, Hp.
Qed.
Lemma shift_matched_0 p (f : nat -> Z) (g : nat -> bool) :
  matched (p * p) (fun r => fst (cart_shift p r 0 (f (cart_col p r)))) (fun r => snd (cart_shift p r 0 (f (cart_col p r)))) (fun r => g (cart_col p r)).
Proof.
  intros r Hr Hg. assert (Hp := grid_pos p r Hr). assert (Hi := row_lt p r Hr). assert (Hj := col_lt p r Hp).
  cbn [cart_shift fst snd]. assert (W : forall d, wrap p (cart_row p r) d < p) by (intros; apply wrap_lt, Hp).
  rewrite !rank_row, !rank_col by apply Hj. do 2 (split; [apply rank_lt; auto|]). do 2 (split; [exact Hg|]).
  rewrite wrap_back, wrap_back' by exact Hi. split; apply rank_of, Hp.
Qed.
Lemma exchange_matched p : matched (p * p) (fun r => cart_rank p (cart_col p r) (cart_row p r)) (fun r => cart_rank p (cart_col p r) (cart_row p r))
  (fun r => negb (cart_row p r =? cart_col p r)).
Proof.
  intros r Hr Hg. assert (Hp := grid_pos p r Hr). assert (Hi := row_lt p r Hr). assert (Hj := col_lt p r Hp).
  rewrite !rank_row, !rank_col by apply Hi. do 2 (split; [apply rank_lt; auto|]). rewrite Nat.eqb_sym. do 2 (split; [exact Hg|]).
  split; apply rank_of, Hp.
Qed.

(** ** bml_sqrtint and the choice of the grid *)
Lemma sqrtint_loop_ok x fuel : forall i, 1 <= i -> x + 1 < i + fuel -> (i - 1) * (i - 1) < x \/ i = 1 ->
  exists j, sqrtint_loop fuel i (i * i) x = Ok j /\ 1 <= j /\ x <= j * j /\ ((j - 1) * (j - 1) < x \/ j = 1).
Proof.
  induction fuel as [|fuel IH]; intros i Hi Hf Hl.
  - exfalso. nia.
  - cbn [sqrtint_loop]. destruct (Nat.ltb_spec (i * i) x) as [H|H].
    + apply (IH (S i)); [lia|lia|]. left. replace (S i - 1) with i by lia. exact H.
    + exists i. auto.
Qed.
Lemma sqrtint_ok x : exists j, bml_sqrtint x = Ok j /\ 1 <= j /\ x <= j * j /\ ((j - 1) * (j - 1) < x \/ j = 1).
Proof. apply (sqrtint_loop_ok x (S x) 1); lia. Qed.

Lemma setcomm_ok ntasks : 0 < ntasks ->
  (forall p, ntasks = p * p -> bml_setcomm ntasks = Ok p) /\ ((forall p, ntasks <> p * p) -> bml_setcomm ntasks = Err).
Proof.
  intros H. unfold bml_setcomm. destruct (sqrtint_ok ntasks) as (j & -> & H1 & H2 & H3). cbn [bind]. split.
  - intros p ->. assert (j = p) as -> by nia. rewrite Nat.eqb_refl. reflexivity.
  - intros Hn. destruct (Nat.eqb_spec (j * j) ntasks) as [E|_]; [|reflexivity]. exfalso. apply (Hn j). auto.
Qed.

(** ** Sums *)
Section Sums.
  Context {F : scalar}.
  Local Open Scope K_scope.
  Add Ring Kringd1 : (k_ring F).

  Lemma bigsum_shift (f : nat -> F) n : bigsum (S n) f = f 0%nat + bigsum n (fun k => f (S k)).
  Proof. induction n as [|n IH]; cbn [bigsum] in *; [ring|]. rewrite IH. ring. Qed.

  (** a sum over a cycle may start anywhere *)
  Lemma bigsum_cycle (f : nat -> F) p a : (0 < p)%nat -> bigsum p (fun k => f ((a + k) mod p)) = bigsum p f.
  Proof.
    intros Hp. induction a as [|a IH].
    - apply bigsum_ext. intros k Hk. rewrite Nat.mod_small by lia. reflexivity.
    - rewrite <- IH. destruct p as [|p]; [lia|]. rewrite (bigsum_shift (fun k => f ((a + k) mod S p)%nat)). cbn [bigsum].
      assert (E : ((S a + p) mod S p = (a + 0) mod S p)%nat).
      { replace (S a + p)%nat with (a + 0 + 1 * S p)%nat by lia. apply Nat.mod_add. lia. }
      rewrite E. rewrite (bigsum_ext p (fun k => f ((S a + k) mod S p)%nat) (fun k => f ((a + S k) mod S p)%nat)); [ring|]. intros k Hk. f_equal. f_equal. lia.
  Qed.

  (** a sum over all rows of all blocks *)
  Lemma bigsum_blocks (f : nat -> F) p n : bigsum (p * n) f = bigsum p (fun l => bigsum n (fun i => f (l * n + i)%nat)).
  Proof.
    induction p as [|p IH]; cbn [bigsum Nat.mul]; [reflexivity|].
    rewrite Nat.add_comm, bigsum_split, IH. f_equal.
  Qed.
End Sums.

(** the block size: accepted exactly when the grid divides N *)
Lemma setup_exact p N n : 0 < p -> (dist_setup p N = Ok n <-> N = n * p) /\ (dist_setup p N = Err <-> ~ exists k, N = k * p).
Proof.
  intros Hp. unfold dist_setup. destruct (Nat.eqb_spec (N / p * p) N) as [E|E]; split; split; intros H; try discriminate.
  - injection H as <-. lia.
  - f_equal. nia.
  - destruct H. exists (N / p). lia.
  - subst N. rewrite Nat.div_mul in E by lia. lia.
  - intros (k & ->). rewrite Nat.div_mul in E by lia. lia.
  - reflexivity.
Qed.
