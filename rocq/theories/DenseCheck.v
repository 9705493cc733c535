(** Concrete dense matrices: instances of the hypotheses and witnesses of the
    refuted statements of PropsDense.v. *)
From Verif Require Import Base BaseFacts Spec SpecFacts EllpackModel EllpackSpec EllpackFacts EllpackCheck EllpackNorm
  GemmModel DenseModel DenseSpec GemmFacts DenseFacts DenseOps.

(** [ 4 1 0 ; 0 2 5 ; 7 0 0 ] and [ 1 0 0 ; 3 0 2 ; 0 6 0 ] *)
Definition exD : dense Zscalar := @mkDense Zscalar 3 [4; 1; 0; 0; 2; 5; 7; 0; 0]%Z.
Definition exE : dense Zscalar := @mkDense Zscalar 3 [1; 0; 0; 3; 0; 2; 0; 6; 0]%Z.
Lemma exD_wf : dwf exD. Proof. reflexivity. Qed.
Lemma exE_wf : dwf exE. Proof. reflexivity. Qed.
(** the nine cells, two threads *)
Definition exS9 : list (nat * nat) := [(1, 8); (0, 0); (0, 1); (1, 7); (0, 2); (1, 3); (1, 4); (0, 5); (1, 6)].
Lemma exS9_full : full_sched 9 2 exS9. Proof. apply full_schedb; reflexivity. Qed.
Lemma exS9_perm : Permutation (map snd exS9) (seq 0 9). Proof. apply permb_ok. reflexivity. Qed.

(** ** gemm *)

(** the element positions do not depend on the leading dimensions *)
Lemma gemm_ld_ignored {F : scalar} ta tb m n k (alpha : F) (a : list F) lda (b : list F) ldb (beta : F) (c : list F) ldc :
  Nat.max 1 (if is_N ta then m else k) <= lda -> Nat.max 1 (if is_N tb then k else n) <= ldb -> Nat.max 1 m <= ldc ->
  gemm ta tb m n k alpha a lda b ldb beta c ldc =
  gemm ta tb m n k alpha a (Nat.max 1 (if is_N ta then m else k)) b (Nat.max 1 (if is_N tb then k else n)) beta c (Nat.max 1 m).
Proof.
  intros H1 H2 H3. unfold gemm.
  replace (lda <? Nat.max 1 (if is_N ta then m else k)) with false by (symmetry; apply Nat.ltb_ge; auto).
  replace (ldb <? Nat.max 1 (if is_N tb then k else n)) with false by (symmetry; apply Nat.ltb_ge; auto).
  replace (ldc <? Nat.max 1 m) with false by (symmetry; apply Nat.ltb_ge; auto).
  rewrite !Nat.ltb_irrefl. auto.
Qed.

(** A = (1 2) stored with leading dimension 2, B = (1 1)^T *)
Lemma gemm_lda_refuted : exists (a b c c' : list Zscalar) m n k lda,
  Nat.max 1 m <= lda /\ k * lda <= length a /\ k * n <= length b /\ m * n <= length c /\
  gemm TrN TrN m n k (1%Z : Zscalar) a lda b (Nat.max 1 k) (0%Z : Zscalar) c (Nat.max 1 m) = Ok c' /\
  exists i j, i < m /\ j < n /\ colm m c' i j <> bigsum k (fun l => kmul (colm lda a i l) (colm (Nat.max 1 k) b l j)).
Proof.
  exists [1; 9; 2; 9]%Z, [1; 1]%Z, [0]%Z, [10]%Z, 1, 1, 2, 2.
  split; [simpl; lia|]. split; [simpl; lia|]. split; [simpl; lia|]. split; [simpl; lia|]. split; [reflexivity|].
  exists 0, 0. split; [lia|]. split; [lia|]. vm_compute. discriminate.
Qed.

(** The Gaussian integers with conjugation. *)
Definition Gadd (x y : Z * Z) : Z * Z := (fst x + fst y, snd x + snd y)%Z.
Definition Gmul (x y : Z * Z) : Z * Z := (fst x * fst y - snd x * snd y, fst x * snd y + snd x * fst y)%Z.
Definition Gopp (x : Z * Z) : Z * Z := (- fst x, - snd x)%Z.
Definition Gsub (x y : Z * Z) : Z * Z := (fst x - fst y, snd x - snd y)%Z.
Definition Geqb (x y : Z * Z) : bool := (Z.eqb (fst x) (fst y) && Z.eqb (snd x) (snd y))%bool.
Definition Gconj (x : Z * Z) : Z * Z := (fst x, - snd x)%Z.

Lemma Gring : ring_theory (0, 0)%Z (1, 0)%Z Gadd Gmul Gsub Gopp eq.
Proof.
  constructor; intros; repeat match goal with x : (Z * Z)%type |- _ => destruct x end; unfold Gadd, Gmul, Gsub, Gopp; cbn [fst snd];
    apply f_equal2; ring.
Qed.
Lemma Geqb_spec x y : Geqb x y = true <-> x = y.
Proof.
  destruct x as [a b], y as [c d]. unfold Geqb. cbn [fst snd]. rewrite andb_true_iff, !Z.eqb_eq. split.
  - intros [-> ->]. auto.
  - intros [= -> ->]. auto.
Qed.
Definition Gscalar : scalar :=
  {| K := (Z * Z)%type; k0 := (0, 0)%Z; k1 := (1, 0)%Z; kadd := Gadd; kmul := Gmul; ksub := Gsub;
     kopp := Gopp; keqb := Geqb; k_ring := Gring; keqb_spec := Geqb_spec |}.

(** (i)^H (1): 'C' is handled like 'T' *)
Lemma gemm_conj_refuted : exists (a b c c' : list Gscalar) m n k,
  m * k <= length a /\ k * n <= length b /\ m * n <= length c /\
  gemm TrC TrN m n k (k1 : Gscalar) a (Nat.max 1 k) b (Nat.max 1 k) (k0 : Gscalar) c (Nat.max 1 m) = Ok c' /\
  exists i j, i < m /\ j < n /\
    colm m c' i j <> bigsum k (fun l => kmul (opm (Gconj : Gscalar -> Gscalar) TrC (colm (Nat.max 1 k) a) i l) (colm (Nat.max 1 k) b l j)).
Proof.
  exists [(0, 1)]%Z, [(1, 0)]%Z, [(0, 0)]%Z, [(0, 1)]%Z, 1, 1, 1.
  split; [simpl; lia|]. split; [simpl; lia|]. split; [simpl; lia|]. split; [reflexivity|].
  exists 0, 0. split; [lia|]. split; [lia|]. vm_compute. discriminate.
Qed.

(** ** dense *)

Lemma dense_trace_mult_symmetric {F : scalar} (A B : dense F) nth sched : dwf A -> dwf B -> dN A = dN B ->
  full_sched (dN A * dN A) nth sched -> meq (dN A) (denm B) (mtrans (denm B)) ->
  dense_trace_mult A B nth sched = Ok (mtrace (dN A) (mmul (dN A) (denm A) (denm B))).
Proof.
  intros HA HB HN HS HM. rewrite dense_trace_mult_ok by auto. f_equal. apply trace_mult_sym. auto.
Qed.

Lemma dense_trace_mult_refuted : exists (A B : dense Zscalar) nth sched t, dwf A /\ dwf B /\ dN A = dN B /\
  full_sched (dN A * dN A) nth sched /\ dense_trace_mult A B nth sched = Ok t /\
  t <> mtrace (dN A) (mmul (dN A) (denm A) (denm B)).
Proof.
  exists exD, exE, 2, exS9, 14%Z. split; [apply exD_wf|]. split; [apply exE_wf|]. split; [auto|]. split; [apply exS9_full|].
  split; [reflexivity|]. vm_compute. discriminate.
Qed.

Lemma dense_reorder_refuted : exists (A A' : dense Zscalar) perm (gv : nat -> Zscalar) s, dwf A /\ Permutation perm (seq 0 (dN A)) /\
  Permutation (map snd s) (seq 0 (dN A)) /\ dense_reorder A perm gv s s = Ok A' /\
  mtrace (dN A) (denm A') <> mtrace (dN A) (denm A) /\
  exists i j, i < dN A /\ j < dN A /\ denm A' (nth i perm 0) (nth j perm 0) <> denm A i j.
Proof.
  exists exD, (@mkDense Zscalar 3 [1; 0; 4; 2; 5; 0; 0; 0; 7]%Z), [1; 2; 0], (fun _ => 0%Z), exS.
  split; [apply exD_wf|]. split; [apply permb_ok; reflexivity|]. split; [apply exS_perm|]. split; [reflexivity|].
  split; [vm_compute; discriminate|]. exists 0, 0. split; [simpl; lia|]. split; [simpl; lia|]. vm_compute. discriminate.
Qed.

Lemma dense_adjust_AB_refuted : exists (A B C C' : dense Zscalar), dwf A /\ dwf B /\ dwf C /\ dN A = dN B /\ dN A = dN C /\
  dense_multiply_adjust_AB A B C = Ok C' /\ exists i j, i < dN A /\ j < dN A /\ denm C' i j <> mmul (dN A) (denm A) (denm B) i j.
Proof.
  exists exD, exE, exD, (@mkDense Zscalar 3 [7; 6; 7; 0; 30; 0; 2; 4; 0]%Z).
  split; [apply exD_wf|]. split; [apply exE_wf|]. split; [apply exD_wf|]. split; [auto|]. split; [auto|]. split; [reflexivity|].
  exists 0, 1. split; [simpl; lia|]. split; [simpl; lia|]. vm_compute. discriminate.
Qed.

Lemma dense_add_self_refuted : exists (A A' : dense Zscalar) (alpha beta : Zscalar), dwf A /\
  dense_add_self alpha beta A = Ok A' /\ exists i j, i < dN A /\ j < dN A /\ denm A' i j <> kmul (kadd alpha beta) (denm A i j).
Proof.
  exists exD, (@mkDense Zscalar 3 [32; 8; 0; 0; 16; 40; 56; 0; 0]%Z), 2%Z, 3%Z.
  split; [apply exD_wf|]. split; [reflexivity|]. exists 0, 0. split; [simpl; lia|]. split; [simpl; lia|]. vm_compute. discriminate.
Qed.

(** two threads, one cell each of a 2 x 2 ... : thread 0 stores temp, thread 1
    overwrites it, both then use the second value *)
Lemma dense_fnorm2_race_refuted : exists (A B : dense Zscalar) nth sched trace x, dwf A /\ dwf B /\ dN A = dN B /\
  full_sched (dN A * dN A) nth sched /\
  (forall t, filter (fun te => fst te =? t) trace = filter (fun te => fst te =? t) (atomic_trace sched)) /\
  dense_fnorm2_sq A B nth trace = Ok x /\
  x <> msum (dN A) (fun i j => kmul (ksub (denm A i j) (denm B i j)) (ksub (denm A i j) (denm B i j))).
Proof.
  exists (@mkDense Zscalar 2 [1; 5; 0; 0]%Z), (@mkDense Zscalar 2 [0; 0; 0; 0]%Z), 2, [(0, 0); (0, 2); (1, 1); (1, 3)],
    [(0, EvWr 0); (1, EvWr 1); (0, EvAcc); (1, EvAcc); (0, EvWr 2); (0, EvAcc); (1, EvWr 3); (1, EvAcc)], 50%Z.
  split; [reflexivity|]. split; [reflexivity|]. split; [auto|]. split; [apply full_schedb; reflexivity|].
  split.
  { intros [|[|t]]; reflexivity. }
  split; [reflexivity|]. vm_compute. discriminate.
Qed.

(** (0, N) is another element of the array, (N, 0) is outside *)
Lemma dense_get_element_refuted : exists (A : dense Zscalar), dwf A /\
  dense_get_element A 0 (dN A) = Ok (denm A 1 0) /\ dense_get_element A (dN A) 0 = UB.
Proof. exists exD. split; [apply exD_wf|]. split; reflexivity. Qed.

Lemma dense_submatrix_norm_refuted : exists (A : dense Zscalar) (E : ell Zscalar) core nth s1 s2 x y, dwf A /\ wf E /\ dN A = eN E /\
  meq (dN A) (denm A) (emat E) /\ core <= dN A /\ full_sched (core * dN A) nth s1 /\ full_sched core nth s2 /\
  dense_sum_squares A nth s1 = Ok x /\ ell_sum_squares_submatrix E core nth s2 = Ok y /\ x <> y.
Proof.
  exists exD, exA, 2, 1, (map (fun i => (0, i)) (seq 0 6)), [(0, 1); (0, 0)], 46%Z, 21%Z.
  split; [apply exD_wf|]. split; [apply exA_wf|]. split; [auto|]. split.
  { intros [|[|[|i]]] [|[|[|j]]] Hi Hj; simpl in Hi, Hj; try lia; reflexivity. }
  split; [simpl; lia|]. split; [apply full_schedb; reflexivity|]. split; [apply full_schedb; reflexivity|].
  split; [reflexivity|]. split; [reflexivity|]. discriminate.
Qed.

Lemma dense_transpose_triangle_other (A : dense Zscalar) sched : dense_transpose_triangle A TriOther sched = Ok A /\
  dense_adjungate_triangle (fun x => x) A TriOther sched = Err.
Proof. split; reflexivity. Qed.
