(** C69, C70: rounding.  FpModel.v has the kernels with a rounding [rnd] after every operation.  FpSpec.v: [rounds u lam rnd],
    every rounded result is off by at most the fraction u of itself or of lam, the smallest normal number; [gam u k] = (1 + u)^k - 1; [mabs X], the matrix of absolute
    values.  [rnd64] and [rnd32] (FpCheck.v) are rounding to nearest even in double and single precision, with
    gradual underflow; overflow is not modelled. *)
From Coq Require Import Reals Lra Permutation.
From Verif Require Import Base Spec EllpackModel EllpackSpec EllpackCheck GemmModel DenseModel DenseSpec RealSpec FpModel FpSpec
  FpFacts FpKernels FpGemm FpEll FpExact FpCheck.
Local Open Scope R_scope.
Local Notation madd := (madd (F := Rscalar)).
Local Notation mscale := (mscale (F := Rscalar)).
Local Notation mmul := (mmul (F := Rscalar)).
Local Notation bigsum := (bigsum (F := Rscalar)).
Local Notation cut := (cut (F := Rscalar)).
Local Notation opm := (opm (F := Rscalar)).

(** C69: rounding in double precision: 2^-53 and 2^-1022 ... *)
Theorem c69_rnd64 :
  rounds (/ 2 ^ 53) (/ 2 ^ 1022) rnd64.
Proof. exact (@rnd64_rounds). Qed.
Print Assumptions c69_rnd64.

(** ... and in single precision 2^-24 and 2^-126 *)
Theorem c69_rnd32 :
  rounds (/ 2 ^ 24) (/ 2 ^ 126) rnd32.
Proof. exact (@rnd32_rounds). Qed.
Print Assumptions c69_rnd32.

(** because of underflow the error is not relative *)
Theorem c69_rnd64_relative_refuted :
  forall u : R, u < 1 -> ~ rounds u 0 rnd64.
Proof. exact (@rnd64_not_relative). Qed.
Print Assumptions c69_rnd64_relative_refuted.

(** with an unbounded exponent it would be: the theorems below with lam = 0 *)
Theorem c69_without_underflow :
  forall p : Z, (0 < p)%Z -> rounds (Raux.bpow Zaux.radix2 (- p)) 0 (rnd_unbounded p).
Proof. exact (@rnd_unbounded_rounds). Qed.
Print Assumptions c69_without_underflow.

(** the bounds in first order *)
Theorem c69_gam_first_order :
  forall (u : R) (k : nat), 0 <= u -> INR k * u < 1 -> gam u k <= INR k * u / (1 - INR k * u).
Proof. exact (@gam_first_order). Qed.
Print Assumptions c69_gam_first_order.

(** the trace, for every schedule and every order of combining the threads *)
Theorem c69_dense_trace :
  forall (u lam : R) (rnd : R -> R),
  rounds u lam rnd ->
  forall (A : dense Rscalar) (nth : nat) (ord : list nat) (sched : list (nat * nat)),
  dwf A ->
  full_sched (dN A) nth sched ->
  Permutation ord (seq 0 nth) ->
  exists s : Rscalar,
    fp_dense_trace rnd A ord sched = Ok s /\
    Rabs (s - mtrace (dN A) (denm A)) <= gam u (dN A + nth) * (mtrace (dN A) (mabs (denm A)) + INR (dN A + nth) * lam).
Proof. exact (@fp_dense_trace_ok). Qed.
Print Assumptions c69_dense_trace.

(** the sum of the squares: a relative error, up to underflow *)
Theorem c69_dense_sum_squares :
  forall (u lam : R) (rnd : R -> R),
  rounds u lam rnd ->
  forall (A : dense Rscalar) (nth : nat) (ord : list nat) (sched : list (nat * nat)),
  dwf A ->
  full_sched (dN A * dN A) nth sched ->
  Permutation ord (seq 0 nth) ->
  exists s : Rscalar,
    fp_dense_sum_squares rnd A ord sched = Ok s /\
    Rabs (s - msum (dN A) (mhad (denm A) (denm A))) <=
    gam u (1 + dN A * dN A + nth) * (msum (dN A) (mhad (denm A) (denm A)) + INR (2 * (dN A * dN A) + nth) * lam).
Proof. exact (@fp_dense_sum_squares_ok). Qed.
Print Assumptions c69_dense_sum_squares.

(** alpha A + beta B *)
Theorem c69_dense_add :
  forall (u lam : R) (rnd : R -> R),
  rounds u lam rnd ->
  forall (alpha beta : Rscalar) (A B : dense Rscalar),
  dwf A ->
  dwf B ->
  dN A = dN B ->
  exists A' : dense Rscalar,
    fp_dense_add rnd alpha beta A B = Ok A' /\
    dwf A' /\
    dN A' = dN A /\
    (forall i j : nat,
     (i < dN A)%nat ->
     (j < dN A)%nat ->
     Rabs (denm A' i j - madd (mscale alpha (denm A)) (mscale beta (denm B)) i j) <=
     gam u 2 * (madd (mscale (Rabs alpha) (mabs (denm A))) (mscale (Rabs beta) (mabs (denm B))) i j + 3 * lam)).
Proof. exact (@fp_dense_add_ok). Qed.
Print Assumptions c69_dense_add.

Theorem c69_dense_scale :
  forall (u lam : R) (rnd : R -> R),
  rounds u lam rnd ->
  forall (s : Rscalar) (A : dense Rscalar),
  dwf A ->
  exists A' : dense Rscalar,
    fp_dense_scale_inplace rnd s A = Ok A' /\
    dwf A' /\
    dN A' = dN A /\
    (forall i j : nat,
     (i < dN A)%nat ->
     (j < dN A)%nat -> Rabs (denm A' i j - mscale s (denm A) i j) <= u * Rmax (Rabs (mscale s (denm A) i j)) lam).
Proof. exact (@fp_dense_scale_ok). Qed.
Print Assumptions c69_dense_scale.

(** the internal gemm *)
Theorem c69_gemm :
  forall (u lam : R) (rnd : R -> R),
  rounds u lam rnd ->
  forall (ta tb : trans) (m n k : nat) (alpha : Rscalar) (a b : list Rscalar) (beta : Rscalar) (c : list Rscalar),
  ta <> TrOther ->
  tb <> TrOther ->
  (m * k <= length a)%nat ->
  (k * n <= length b)%nat ->
  (m * n <= length c)%nat ->
  let lda := Nat.max 1 (if is_N ta then m else k) in
  let ldb := Nat.max 1 (if is_N tb then k else n) in
  let A := opm (fun x : Rscalar => x) ta (colm lda a) in
  let B := opm (fun x : Rscalar => x) tb (colm ldb b) in
  exists c' : list Rscalar,
    fp_gemm rnd ta tb m n k alpha a lda b ldb beta c (Nat.max 1 m) = Ok c' /\
    length c' = length c /\
    (forall i j : nat,
     (i < m)%nat ->
     (j < n)%nat ->
     Rabs (colm m c' i j - (alpha * bigsum k (fun l : nat => A i l * B l j) + beta * colm m c i j)) <=
     gam u (k + 3) *
     (Rabs alpha * bigsum k (fun l : nat => Rabs (A i l) * Rabs (B l j)) + Rabs beta * Rabs (colm m c i j) +
      (INR (2 * k) * (1 + Rabs alpha) + 3 + bigsum k (fun l : nat => Rabs (A i l))) * lam)).
Proof. exact (@fp_gemm_ok). Qed.
Print Assumptions c69_gemm.

(** alpha A B + beta C *)
Theorem c69_dense_multiply :
  forall (u lam : R) (rnd : R -> R),
  rounds u lam rnd ->
  forall (alpha beta : Rscalar) (A B C : dense Rscalar),
  dwf A ->
  dwf B ->
  dwf C ->
  dN A = dN B ->
  dN A = dN C ->
  (0 < dN A)%nat ->
  exists C' : dense Rscalar,
    fp_dense_multiply rnd alpha beta A B C = Ok C' /\
    dwf C' /\
    dN C' = dN A /\
    (forall i j : nat,
     (i < dN A)%nat ->
     (j < dN A)%nat ->
     Rabs (denm C' i j - madd (mscale alpha (mmul (dN A) (denm A) (denm B))) (mscale beta (denm C)) i j) <=
     gam u (dN A + 2) *
     (madd (mscale (Rabs alpha) (mmul (dN A) (mabs (denm A)) (mabs (denm B)))) (mscale (Rabs beta) (mabs (denm C))) i j +
      (INR (2 * dN A + 1) + bigsum (dN A) (fun l : nat => Rabs (denm B l j))) * lam)).
Proof. exact (@fp_dense_multiply_ok). Qed.
Print Assumptions c69_dense_multiply.

Example c69_dense_instance : dwf exTr /\ full_sched (dN exTr) 2 two_threads /\ full_sched (dN exTr * dN exTr) 1 (map (fun i => (0, i)%nat) (seq 0 9)) /\
  Permutation [1; 0]%nat (seq 0 2) /\ (0 < dN exTr)%nat /\ rounds (/ 2 ^ 53) (/ 2 ^ 1022) rnd64.
Proof.
  split; [reflexivity|]. split; [apply two_threads_full|]. split; [apply full_schedb; reflexivity|]. split; [apply perm_swap|].
  split; [simpl; auto|apply rnd64_rounds].
Qed.

(** ellpack *)
Theorem c69_ellpack_trace :
  forall (u lam : R) (rnd : R -> R),
  rounds u lam rnd ->
  forall (A : ell Rscalar) (nth : nat) (ord : list nat) (sched : list (nat * nat)),
  wf A ->
  full_sched (eN A) nth sched ->
  Permutation ord (seq 0 nth) ->
  exists s : Rscalar,
    fp_ell_trace rnd A ord sched = Ok s /\
    Rabs (s - mtrace (eN A) (emat A)) <= gam u (eN A + nth) * (mtrace (eN A) (mabs (emat A)) + INR (eN A + nth) * lam).
Proof. exact (@fp_ell_trace_ok). Qed.
Print Assumptions c69_ellpack_trace.

Theorem c69_ellpack_sum_squares :
  forall (u lam : R) (rnd : R -> R),
  rounds u lam rnd ->
  forall (A : ell Rscalar) (nth : nat) (ord : list nat) (sched : list (nat * nat)),
  wf A ->
  full_sched (eN A) nth sched ->
  Permutation ord (seq 0 nth) ->
  exists s : Rscalar,
    fp_ell_sum_squares rnd A ord sched = Ok s /\
    Rabs (s - msum (eN A) (mhad (emat A) (emat A))) <=
    gam u (1 + list_sum (map (nnz A) (seq 0 (eN A))) + nth) *
    (msum (eN A) (mhad (emat A) (emat A)) + INR (2 * list_sum (map (nnz A) (seq 0 (eN A))) + nth) * lam).
Proof. exact (@fp_ell_sum_squares_ok). Qed.
Print Assumptions c69_ellpack_sum_squares.

(** the computed sum x, before the threshold; either_cols, the columns in row i of A or of B *)
Theorem c69_ellpack_add :
  forall (u lam : R) (rnd : R -> R),
  rounds u lam rnd ->
  forall (keep : Rscalar -> bool) (alpha beta : Rscalar) (A B : ell Rscalar) (sched : list (nat * nat)),
  wf A ->
  wf B ->
  eN A = eN B ->
  Permutation (map snd sched) (seq 0 (eN A)) ->
  (forall i : nat, (i < eN A)%nat -> (either_cols A B i <= eM A)%nat) ->
  exists A' : ell Rscalar,
    fp_ell_add rnd keep alpha beta A B sched = Ok A' /\
    same_dims A A' /\
    wf A' /\
    (forall i j : nat,
     (i < eN A)%nat ->
     (j < eN A)%nat ->
     exists x : R,
       Rabs (x - madd (mscale alpha (emat A)) (mscale beta (emat B)) i j) <=
       gam u 3 * (madd (mscale (Rabs alpha) (mabs (emat A))) (mscale (Rabs beta) (mabs (emat B))) i j + 4 * lam) /\
       emat A' i j = cut keep x).
Proof. exact (@fp_ell_add_ok). Qed.
Print Assumptions c69_ellpack_add.

(** rounding and threshold together *)
Theorem c69_ellpack_add_bound :
  forall (u lam : R) (rnd : R -> R),
  rounds u lam rnd ->
  forall (t : R) (alpha beta : Rscalar) (A B : ell Rscalar) (sched : list (nat * nat)),
  0 <= t ->
  wf A ->
  wf B ->
  eN A = eN B ->
  Permutation (map snd sched) (seq 0 (eN A)) ->
  (forall i : nat, (i < eN A)%nat -> (either_cols A B i <= eM A)%nat) ->
  exists A' : ell Rscalar,
    fp_ell_add rnd (gtR t) alpha beta A B sched = Ok A' /\
    wf A' /\
    (forall i j : nat,
     (i < eN A)%nat ->
     (j < eN A)%nat ->
     Rabs (emat A' i j - madd (mscale alpha (emat A)) (mscale beta (emat B)) i j) <=
     gam u 3 * (madd (mscale (Rabs alpha) (mabs (emat A))) (mscale (Rabs beta) (mabs (emat B))) i j + 4 * lam) + t).
Proof. exact (@fp_ell_add_bound). Qed.
Print Assumptions c69_ellpack_add_bound.

(** the error grows with the number of elements of the row, not with N *)
Theorem c69_ellpack_multiply_AB :
  forall (u lam : R) (rnd : R -> R),
  rounds u lam rnd ->
  forall (keep : Rscalar -> bool) (A B C : ell Rscalar) (sched : list (nat * nat)),
  wf A ->
  wf B ->
  wf C ->
  eN A = eN B ->
  eN C = eN A ->
  Permutation (map snd sched) (seq 0 (eN A)) ->
  (forall i : nat, (i < eN A)%nat -> (prod_cols A B i <= eM C)%nat) ->
  exists C' : ell Rscalar,
    fp_ell_multiply_AB rnd keep A B C sched = Ok C' /\
    same_dims C C' /\
    wf C' /\
    (forall i j : nat,
     (i < eN A)%nat ->
     (j < eN A)%nat ->
     exists x : R,
       Rabs (x - mmul (eN A) (emat A) (emat B) i j) <=
       gam u (1 + nnz A i) * (mmul (eN A) (mabs (emat A)) (mabs (emat B)) i j + INR (2 * nnz A i) * lam) /\
       emat C' i j = (if i =? j then x else cut keep x)).
Proof. exact (@fp_ell_multiply_AB_ok). Qed.
Print Assumptions c69_ellpack_multiply_AB.

Theorem c69_ellpack_multiply_AB_bound :
  forall (u lam : R) (rnd : R -> R),
  rounds u lam rnd ->
  forall (t : R) (A B C : ell Rscalar) (sched : list (nat * nat)),
  0 <= t ->
  wf A ->
  wf B ->
  wf C ->
  eN A = eN B ->
  eN C = eN A ->
  Permutation (map snd sched) (seq 0 (eN A)) ->
  (forall i : nat, (i < eN A)%nat -> (prod_cols A B i <= eM C)%nat) ->
  exists C' : ell Rscalar,
    fp_ell_multiply_AB rnd (gtR t) A B C sched = Ok C' /\
    wf C' /\
    (forall i j : nat,
     (i < eN A)%nat ->
     (j < eN A)%nat ->
     Rabs (emat C' i j - mmul (eN A) (emat A) (emat B) i j) <=
     gam u (1 + nnz A i) * (mmul (eN A) (mabs (emat A)) (mabs (emat B)) i j + INR (2 * nnz A i) * lam) +
     (if i =? j then 0 else t)).
Proof. exact (@fp_ell_multiply_AB_bound). Qed.
Print Assumptions c69_ellpack_multiply_AB_bound.

Example c69_ellpack_instance : wf exFA /\ wf exFC /\ full_sched (eN exFA) 2 exF_sched /\ (forall i, (i < eN exFA)%nat -> (prod_cols exFA exFA i <= eM exFC)%nat) /\
  (forall i, (i < eN exFA)%nat -> (either_cols exFA exFA i <= eM exFA)%nat) /\ nnz exFA 0 = 2%nat.
Proof.
  split; [apply exFA_wf|]. split; [apply exFC_wf|]. split; [apply exF_full|].
  split; [|split; [|reflexivity]]; intros i Hi; destruct i as [|[|i]]; simpl in Hi; try lia; vm_compute; repeat constructor.
Qed.

(** without rounding these kernels are those of the other properties *)
Theorem c69_without_rounding_gemm :
  forall (ta tb : trans) (m n k : nat) (alpha : Rscalar) (a : list Rscalar) (lda : nat) (b : list Rscalar) 
    (ldb : nat) (beta : Rscalar) (c : list Rscalar) (ldc : nat),
  fp_gemm exact_rnd ta tb m n k alpha a lda b ldb beta c ldc = gemm ta tb m n k alpha a lda b ldb beta c ldc.
Proof. exact (@gemm_exact). Qed.
Print Assumptions c69_without_rounding_gemm.

Theorem c69_without_rounding_dense_multiply :
  forall (alpha beta : Rscalar) (A B C : dense Rscalar),
  fp_dense_multiply exact_rnd alpha beta A B C = dense_multiply alpha beta A B C.
Proof. exact (@dense_multiply_exact). Qed.
Print Assumptions c69_without_rounding_dense_multiply.

Theorem c69_without_rounding_dense_add :
  forall (alpha beta : Rscalar) (A B : dense Rscalar), fp_dense_add exact_rnd alpha beta A B = dense_add alpha beta A B.
Proof. exact (@dense_add_exact). Qed.
Print Assumptions c69_without_rounding_dense_add.

Theorem c69_without_rounding_dense_scale :
  forall (s : Rscalar) (A : dense Rscalar), fp_dense_scale_inplace exact_rnd s A = dense_scale_inplace s A.
Proof. exact (@dense_scale_exact). Qed.
Print Assumptions c69_without_rounding_dense_scale.

Theorem c69_without_rounding_dense_trace :
  forall (A : dense Rscalar) (nth : nat) (sched : list (nat * nat)),
  fp_dense_trace exact_rnd A (seq 0 nth) sched = dense_trace A nth sched.
Proof. exact (@dense_trace_exact). Qed.
Print Assumptions c69_without_rounding_dense_trace.

Theorem c69_without_rounding_dense_sum_squares :
  forall (A : dense Rscalar) (nth : nat) (sched : list (nat * nat)),
  fp_dense_sum_squares exact_rnd A (seq 0 nth) sched = dense_sum_squares A nth sched.
Proof. exact (@dense_sum_squares_exact). Qed.
Print Assumptions c69_without_rounding_dense_sum_squares.

Theorem c69_without_rounding_ell_trace :
  forall (A : ell Rscalar) (nth : nat) (sched : list (nat * nat)),
  fp_ell_trace exact_rnd A (seq 0 nth) sched = ell_trace A nth sched.
Proof. exact (@ell_trace_exact). Qed.
Print Assumptions c69_without_rounding_ell_trace.

Theorem c69_without_rounding_ell_sum_squares :
  forall (A : ell Rscalar) (nth : nat) (sched : list (nat * nat)),
  fp_ell_sum_squares exact_rnd A (seq 0 nth) sched = ell_sum_squares A nth sched.
Proof. exact (@ell_sum_squares_exact). Qed.
Print Assumptions c69_without_rounding_ell_sum_squares.

Theorem c69_without_rounding_ell_add :
  forall (keep : Rscalar -> bool) (alpha beta : Rscalar) (A B : ell Rscalar) (sched : list (nat * nat)),
  fp_ell_add exact_rnd keep alpha beta A B sched = ell_add keep alpha beta A B sched.
Proof. exact (@ell_add_exact). Qed.
Print Assumptions c69_without_rounding_ell_add.

Theorem c69_without_rounding_ell_multiply_AB :
  forall (keep : Rscalar -> bool) (A B C : ell Rscalar) (sched : list (nat * nat)),
  fp_ell_multiply_AB exact_rnd keep A B C sched = ell_multiply_AB keep A B C sched.
Proof. exact (@ell_multiply_AB_exact). Qed.
Print Assumptions c69_without_rounding_ell_multiply_AB.

(** C70: in double precision the trace depends on the schedule ... *)
Theorem c70_trace_schedule_refuted :
  exists
    (A : dense Rscalar) (n1 : nat) (sched1 : list (nat * nat)) (n2 : nat) (sched2 : list (nat * nat)) 
  (t1 t2 : Rscalar),
    dwf A /\
    full_sched (dN A) n1 sched1 /\
    full_sched (dN A) n2 sched2 /\
    fp_dense_trace rnd64 A (seq 0 n1) sched1 = Ok t1 /\ fp_dense_trace rnd64 A (seq 0 n2) sched2 = Ok t2 /\ t1 <> t2.
Proof. exact (@trace_schedule_refuted). Qed.
Print Assumptions c70_trace_schedule_refuted.

(** ... and on the order in which the threads are combined *)
Theorem c70_trace_order_refuted :
  exists (A : dense Rscalar) (n : nat) (sched : list (nat * nat)) (ord1 ord2 : list nat) (t1 t2 : Rscalar),
    dwf A /\
    full_sched (dN A) n sched /\
    Permutation ord1 (seq 0 n) /\
    Permutation ord2 (seq 0 n) /\
    fp_dense_trace rnd64 A ord1 sched = Ok t1 /\ fp_dense_trace rnd64 A ord2 sched = Ok t2 /\ t1 <> t2.
Proof. exact (@trace_order_refuted). Qed.
Print Assumptions c70_trace_order_refuted.

(** by no more than this *)
Theorem c70_trace_schedules_close :
  forall (u lam : R) (rnd : R -> R) (A : dense Rscalar) (n1 : nat) (ord1 : list nat) (sched1 : list (nat * nat)) 
    (n2 : nat) (ord2 : list nat) (sched2 : list (nat * nat)) (t1 t2 : Rscalar),
  rounds u lam rnd ->
  dwf A ->
  full_sched (dN A) n1 sched1 ->
  Permutation ord1 (seq 0 n1) ->
  full_sched (dN A) n2 sched2 ->
  Permutation ord2 (seq 0 n2) ->
  fp_dense_trace rnd A ord1 sched1 = Ok t1 ->
  fp_dense_trace rnd A ord2 sched2 = Ok t2 ->
  Rabs (t1 - t2) <=
  gam u (dN A + n1) * (mtrace (dN A) (mabs (denm A)) + INR (dN A + n1) * lam) +
  gam u (dN A + n2) * (mtrace (dN A) (mabs (denm A)) + INR (dN A + n2) * lam).
Proof. exact (@trace_schedules_close). Qed.
Print Assumptions c70_trace_schedules_close.

(** the product does not depend on it, element for element and bit for bit ... *)
Theorem c70_multiply_AB_schedule :
  forall (rnd : R -> R) (keep : Rscalar -> bool) (A B C C1 C2 : ell Rscalar) (sched1 sched2 : list (nat * nat)),
  wf A ->
  wf B ->
  wf C ->
  eN A = eN B ->
  eN C = eN A ->
  Permutation (map snd sched1) (seq 0 (eN A)) ->
  Permutation (map snd sched2) (seq 0 (eN A)) ->
  (forall i : nat, (i < eN A)%nat -> (prod_cols A B i <= eM C)%nat) ->
  fp_ell_multiply_AB rnd keep A B C sched1 = Ok C1 ->
  fp_ell_multiply_AB rnd keep A B C sched2 = Ok C2 -> forall i : nat, (i < eN A)%nat -> erow C1 i = erow C2 i.
Proof. exact (@fp_ell_multiply_AB_sched). Qed.
Print Assumptions c70_multiply_AB_schedule.

(** ... nor does the sum *)
Theorem c70_add_schedule :
  forall (rnd : R -> R) (keep : Rscalar -> bool) (alpha beta : Rscalar) (A B A1 A2 : ell Rscalar)
    (sched1 sched2 : list (nat * nat)),
  wf A ->
  wf B ->
  eN A = eN B ->
  Permutation (map snd sched1) (seq 0 (eN A)) ->
  Permutation (map snd sched2) (seq 0 (eN A)) ->
  (forall i : nat, (i < eN A)%nat -> (either_cols A B i <= eM A)%nat) ->
  fp_ell_add rnd keep alpha beta A B sched1 = Ok A1 ->
  fp_ell_add rnd keep alpha beta A B sched2 = Ok A2 -> forall i : nat, (i < eN A)%nat -> erow A1 i = erow A2 i.
Proof. exact (@fp_ell_add_sched). Qed.
Print Assumptions c70_add_schedule.

Example c70_instance : exists C1 C2, fp_ell_multiply_AB rnd64 (gtR 0) exFA exFA exFC exF_sched = Ok C1 /\
  fp_ell_multiply_AB rnd64 (gtR 0) exFA exFA exFC [(0, 0); (0, 1)]%nat = Ok C2.
Proof.
  destruct (fp_ell_multiply_AB_rows rnd64 (gtR 0) exFA exFA exFC exF_sched) as (C1 & E1 & _);
    [apply exFA_wf|apply exFA_wf|apply exFC_wf|auto|auto|apply exF_full|intros i Hi; apply c69_ellpack_instance; auto|].
  destruct (fp_ell_multiply_AB_rows rnd64 (gtR 0) exFA exFA exFC [(0, 0); (0, 1)]%nat) as (C2 & E2 & _);
    [apply exFA_wf|apply exFA_wf|apply exFC_wf|auto|auto|apply Permutation_refl|intros i Hi; apply c69_ellpack_instance; auto|].
  eauto.
Qed.
