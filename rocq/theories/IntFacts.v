(** Integer arithmetic of indices and sizes: proofs. *)
From Coq Require Import ZArith List String Lia Bool.
From Verif Require Import IntModel IntSpec.
Import ListNotations.
Local Open Scope Z_scope.

Lemma as_int_ok z : - 2 ^ 31 <= z < 2 ^ 31 -> as_int z = Some (VInt z).
Proof. intros H. unfold as_int, in_int. destruct (Z.leb_spec (- 2 ^ 31) z), (Z.ltb_spec z (2 ^ 31)); cbn [andb]; auto; lia. Qed.
Lemma as_int_over z : 2 ^ 31 <= z -> as_int z = None.
Proof. intros H. unfold as_int, in_int. destruct (Z.ltb_spec z (2 ^ 31)); [lia|]. rewrite andb_false_r. reflexivity. Qed.
Lemma size_id z : 0 <= z < 2 ^ 64 -> z mod 2 ^ 64 = z.
Proof. intros H. apply Z.mod_small. exact H. Qed.
Lemma dim64 N : dimension N -> N mod 2 ^ 64 = N.
Proof. intros H. unfold dimension in H. apply size_id. lia. Qed.

(** a product of two dimensions after sizeof *)
Lemma size_first_exact s N M i j t : 0 < s -> dimension N -> dimension M -> s * N * M < 2 ^ 64 -> evals_to (env5 N M i j t) (size_NM s) (s * N * M).
Proof.
  intros Hs HN HM H. unfold evals_to, size_NM. cbn [ieval iop env5 vN vM]. eexists. unfold as_size. split; [reflexivity|]. cbn [ival_z env5 vN vM]. rewrite (dim64 N HN), (dim64 M HM).
  unfold dimension in *. assert (Hc : M = 0 \/ 1 <= M) by lia. destruct Hc as [->|Hc]. { rewrite !Z.mul_0_r. reflexivity. }
  rewrite (size_id (s * N)) by nia. apply size_id. nia.
Qed.
Lemma size_first_exact_NN s N M i j t : 0 < s -> dimension N -> s * N * N < 2 ^ 64 -> evals_to (env5 N M i j t) (size_NN s) (s * N * N).
Proof.
  intros Hs HN H. unfold evals_to, size_NN. cbn [ieval iop env5 vN]. eexists. unfold as_size. split; [reflexivity|]. cbn [ival_z env5 vN]. rewrite (dim64 N HN).
  unfold dimension in *. assert (Hc : N = 0 \/ 1 <= N) by lia. destruct Hc as [->|Hc]. { rewrite !Z.mul_0_r. reflexivity. }
  rewrite (size_id (s * N)) by nia. apply size_id. nia.
Qed.
Lemma int_product_exact N M : dimension N -> dimension M -> N * M < 2 ^ 31 -> iop Z.mul (VInt N) (VInt M) = Some (VInt (N * M)).
Proof. intros HN HM H. unfold dimension in *. cbn [iop]. apply as_int_ok. nia. Qed.
Lemma int_product_over N M : 2 ^ 31 <= N * M -> iop Z.mul (VInt N) (VInt M) = None.
Proof. intros H. cbn [iop]. apply as_int_over. exact H. Qed.
Lemma times_size p s : 0 <= p < 2 ^ 31 -> 0 < s <= 16 -> iop Z.mul (VInt p) (VSize s) = Some (VSize (p * s)).
Proof. intros Hp Hs. cbn [iop]. unfold as_size. rewrite (size_id p) by lia. rewrite size_id by nia. reflexivity. Qed.

(** ** the sites *)
Lemma sites_NN_exact s N M i j t : 0 < s <= 16 -> dimension N -> s * N * N < 2 ^ 64 ->
  Forall (fun x => evals_to (env5 N M i j t) (snd x) (s * N * N)) (sites_NN s).
Proof. intros Hs HN H. repeat (constructor; [apply size_first_exact_NN; (lia || auto)|]). constructor. Qed.
Lemma sites_NM_exact s N M i j t : 0 < s <= 16 -> dimension N -> dimension M -> s * N * M < 2 ^ 64 ->
  Forall (fun x => evals_to (env5 N M i j t) (snd x) (s * N * M)) (sites_NM s).
Proof. intros Hs HN HM H. repeat (constructor; [apply size_first_exact; (lia || auto)|]). constructor. Qed.

Lemma int_first_exact s N M i j t : 0 < s <= 16 -> dimension N -> dimension M -> N * M < 2 ^ 31 ->
  evals_to (env5 N M i j t) int_NM (N * M) /\ evals_to (env5 N M i j t) (int_NM_size s) (N * M * s).
Proof.
  intros Hs HN HM H. split; unfold evals_to; cbn [ieval int_NM_size int_NM vN vM env5]; rewrite int_product_exact by auto.
  - eexists. split; reflexivity.
  - unfold dimension in *. rewrite times_size by nia. eexists. split; reflexivity.
Qed.
Lemma sites_NN_int_exact s N M i j t : 0 < s <= 16 -> dimension N -> N * N < 2 ^ 31 ->
  Forall (fun x => evals_to (env5 N M i j t) (snd x) (N * N) \/ evals_to (env5 N M i j t) (snd x) (N * N * s)) (sites_NN_int s).
Proof.
  intros Hs HN H. assert (G : evals_to (env5 N M i j t) int_NN (N * N) /\ evals_to (env5 N M i j t) (int_NN_size s) (N * N * s)).
  { split; unfold evals_to; cbn [ieval int_NN_size int_NN vN env5]; rewrite int_product_exact by auto.
    - eexists. split; reflexivity.
    - unfold dimension in *. rewrite times_size by nia. eexists. split; reflexivity. }
  destruct G as [G1 G2]. unfold sites_NN_int. repeat (constructor; [first [left; assumption | right; assumption]|]). constructor.
Qed.
Lemma sites_NM_int_exact s N M i j t : 0 < s <= 16 -> dimension N -> dimension M -> N * M < 2 ^ 31 ->
  Forall (fun x => evals_to (env5 N M i j t) (snd x) (N * M) \/ evals_to (env5 N M i j t) (snd x) (N * M * s)) (sites_NM_int s).
Proof. intros Hs HN HM H. destruct (int_first_exact s N M i j t Hs HN HM H) as [_ G]. repeat (constructor; [right; exact G|]). constructor. Qed.
Lemma sites_int_over s N M i j t : (2 ^ 31 <= N * N -> Forall (fun x => overflows (env5 N M i j t) (snd x)) (sites_NN_int s)) /\
  (2 ^ 31 <= N * M -> Forall (fun x => overflows (env5 N M i j t) (snd x)) (sites_NM_int s)).
Proof.
  split; intros H; (repeat (constructor; [unfold overflows; cbn [snd ieval int_NN_size int_NN int_NM_size int_NM vN vM env5]; rewrite int_product_over by auto; reflexivity|])); constructor.
Qed.

(** ** indices *)
Lemma index_exact N M i j t : 0 <= i < N -> 0 <= j < M -> N * M <= 2 ^ 31 ->
  Forall (fun x => evals_to (env5 N M i j t) (snd x) (i * M + j)) sites_index.
Proof.
  intros Hi Hj H. assert (B : 0 <= i * M /\ i * M + j < 2 ^ 31) by nia. unfold sites_index.
  assert (E : as_int (i * M) = Some (VInt (i * M))) by (apply as_int_ok; lia).
  constructor; [|constructor; [|constructor]]; unfold evals_to; cbn [snd ieval ROWMAJOR_c COLMAJOR_c vi vj vN vM env5 iop]; rewrite E; cbn [iop].
  - rewrite as_int_ok by lia. eexists. split; reflexivity.
  - rewrite as_int_ok by lia. eexists. split; [reflexivity|cbn [ival_z]; lia].
Qed.
(** ... and not beyond: the last element *)
Lemma index_over N M t : dimension N -> dimension M -> 2 ^ 31 < N * M ->
  Forall (fun x => overflows (env5 N M (N - 1) (M - 1) t) (snd x)) sites_index.
Proof.
  intros HN HM H. unfold dimension in *. unfold sites_index.
  constructor; [|constructor; [|constructor]]; unfold overflows; cbn [snd ieval ROWMAJOR_c COLMAJOR_c vi vj vN vM env5 iop].
  - unfold as_int at 1. destruct (in_int ((N - 1) * M)); [|reflexivity]. cbn [iop]. apply as_int_over. lia.
  - unfold as_int at 1. destruct (in_int ((N - 1) * M)); [|reflexivity]. cbn [iop]. apply as_int_over. lia.
Qed.
(** the largest square matrix *)
Lemma square_limit N : 0 <= N -> N * N < 2 ^ 31 <-> N <= 46340.
Proof. intros H. change (2 ^ 31) with 2147483648. nia. Qed.
(** an N x N matrix can be allocated with sizeof(T) * N * N but not be indexed *)
Lemma dense_refuted N t : 46341 <= N -> dimension N -> 16 * N * N < 2 ^ 64 ->
  Forall (fun x => evals_to (env5 N N (N - 1) (N - 1) t) (snd x) (8 * N * N)) (sites_NN 8) /\
  Forall (fun x => overflows (env5 N N (N - 1) (N - 1) t) (snd x)) sites_index /\
  Forall (fun x => overflows (env5 N N (N - 1) (N - 1) t) (snd x)) (sites_NN_int 8).
Proof.
  intros H HN Hs. split; [apply sites_NN_exact; auto; lia|]. change (2 ^ 31) with 2147483648 in *. split; [apply index_over; auto; change (2 ^ 31) with 2147483648; nia|].
  apply (proj1 (sites_int_over 8 N N (N - 1) (N - 1) t)). change (2 ^ 31) with 2147483648. nia.
Qed.
(** a sparse matrix whose arrays can be indexed, with a sparsity that cannot be computed *)
Lemma sparsity_refuted N M t : 46341 <= N -> dimension N -> 0 < M -> N * M <= 2 ^ 31 ->
  (forall i j, 0 <= i < N -> 0 <= j < M -> Forall (fun x => evals_to (env5 N M i j t) (snd x) (i * M + j)) sites_index) /\
  forall i j, overflows (env5 N M i j t) int_NN.
Proof.
  intros H HN HM Hs. split; [intros; apply index_exact; auto|]. intros i j. unfold overflows. cbn [ieval int_NN vN env5]. apply int_product_over. change (2 ^ 31) with 2147483648. nia.
Qed.
(** work arrays of ellblock *)
Lemma work_exact b2 NB t i j : 0 < b2 -> 0 < NB -> 0 < t -> evals_to (env5 b2 NB i j t) work_size (b2 * NB * t) <-> b2 * NB * t < 2 ^ 31.
Proof.
  intros H1 H2 H3. unfold evals_to, work_size. cbn [ieval vN vM vT env5 iop].
  destruct (Z_lt_le_dec (b2 * NB) (2 ^ 31)) as [Hl|Hl].
  - rewrite (as_int_ok (b2 * NB)) by nia. cbn [iop]. destruct (Z_lt_le_dec (b2 * NB * t) (2 ^ 31)) as [Hl2|Hl2].
    + rewrite as_int_ok by nia. split; auto. intros _. eexists. split; reflexivity.
    + rewrite as_int_over by auto. split; [intros (v & E & _); discriminate|lia].
  - rewrite as_int_over by auto. split; [intros (v & E & _); discriminate|nia].
Qed.
(** instances *)
Lemma big_dense_example : Forall (fun x => overflows (env5 46341 46341 46340 46340 1) (snd x)) sites_index /\
  Forall (fun x => evals_to (env5 46341 46341 46340 46340 1) (snd x) (8 * 46341 * 46341)) (sites_NN 8) /\
  Forall (fun x => evals_to (env5 46340 46340 46339 46339 1) (snd x) (46340 * 46340 - 1)) sites_index.
Proof.
  split; [apply index_over; unfold dimension; lia|]. split; [apply sites_NN_exact; unfold dimension; lia|]. eapply Forall_impl; [|apply (index_exact 46340 46340 46339 46339 1); lia]. intros x Hx. exact Hx.
Qed.
