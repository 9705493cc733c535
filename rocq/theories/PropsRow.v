(** C63: matrices distributed by rows over the ranks.  [held P d N M As X]: rank r has the rows of X that the domain d gives
    it; [replicated]: every rank has all of X (RowSpec.v). *)
From Coq Require Import Reals.
From Verif Require Import Base Spec SpecFacts RealSpec EllpackModel EllpackSpec EllpackFacts EllpackCheck EllpackNorm DenseModel DenseSpec DenseCheck
  GershModel RealCheck DomainModel DomainSpec RowModel RowSpec RowOps RowMore RowDense RowRealModel RowReal RowCheck RowRealCheck.

(** the domains the library makes are row domains *)
Theorem c63_default_domain :
  forall (P N M : nat) (d1 d2 d3 d4 d5 : list nat),
  0 < P ->
  length d1 = P ->
  length d2 = P ->
  length d3 = P ->
  length d4 = P ->
  length d5 = P -> exists d : domain, default_domain P N M Distributed d1 d2 d3 d4 d5 = Ok d /\ row_domain P N M d.
Proof. exact (@default_row_domain). Qed.
Print Assumptions c63_default_domain.

Theorem c63_updated_domain :
  forall (P : nat) (d0 : domain) (pmin pmax nodes : list nat),
  0 < P ->
  dom_shape P d0 ->
  length pmin = P ->
  length pmax = P ->
  nth 0 pmin 0 = 1 ->
  nth (P - 1) pmax 0 = length nodes ->
  (forall i : nat, i < P -> 1 <= nth i pmin 0 <= S (nth i pmax 0) /\ nth i pmax 0 <= length nodes) ->
  (forall i : nat, S i < P -> nth (S i) pmin 0 = S (nth i pmax 0)) ->
  exists d : domain, update_domain P d0 pmin pmax nodes = Ok d /\ row_domain P (list_sum nodes) (totalCols d0) d.
Proof. exact (@update_row_domain). Qed.
Print Assumptions c63_updated_domain.

(** after bml_allGatherVParallel every rank has the rows of their owners *)
Theorem c63_gather_rows :
  forall (F : scalar) (P N M : nat) (d : domain) (As : list (ell F)),
  row_domain P N M d ->
  length As = P ->
  (forall (r : nat) (A : ell F), nth_error As r = Some A -> wf A /\ eN A = N /\ eM A = M) ->
  exists Bs : list (ell F),
    row_gather d As = Ok Bs /\
    length Bs = P /\
    (forall (r : nat) (B : ell F),
     nth_error Bs r = Some B ->
     wf B /\
     eN B = N /\
     eM B = M /\ (forall (s : nat) (A : ell F) (i : nat), nth_error As s = Some A -> owns d s i -> erow B i = erow A i)).
Proof. exact (@row_gather_rows). Qed.
Print Assumptions c63_gather_rows.

Theorem c63_gather :
  forall (F : scalar) (P N M : nat) (d : domain) (As : list (ell F)) (X : mat F),
  row_domain P N M d -> held P d N M As X -> exists Bs : list (ell F), row_gather d As = Ok Bs /\ replicated P N M Bs X.
Proof. exact (@row_gather_ok). Qed.
Print Assumptions c63_gather.

Example c63_gather_instance : row_domain 2 3 3 exDom /\ held 2 exDom 3 3 exAs (emat exA) /\
  exists Bs, row_gather exDom exAs = Ok Bs /\ replicated 2 3 3 Bs (emat exA) /\ ~ meq 3 (emat exA0) (emat exA1).
Proof. split; [exact exDom_rows|]. split; [exact exAs_held|exact exGather]. Qed.

Theorem c63_add :
  forall (F : scalar) (P N M : nat) (d : domain),
  row_domain P N M d ->
  forall (keep : F -> bool) (alpha beta : F) (As Bs : list (ell F)) (X Y : mat F) (nth : nat)
    (scheds : nat -> list (nat * nat)),
  held P d N M As X ->
  held P d N M Bs Y ->
  (forall r : nat, r < P -> rank_sched d r nth (scheds r)) ->
  fits N M keep (madd (mscale alpha X) (mscale beta Y)) ->
  exists Cs : list (ell F),
    row_add keep alpha beta As Bs scheds = Ok Cs /\ held P d N M Cs (mcut keep (madd (mscale alpha X) (mscale beta Y))).
Proof. exact (@row_add_ok). Qed.
Print Assumptions c63_add.

Example c63_add_instance : fits 3 3 (gtZ 0) (madd (mscale (F:=Zscalar) 2%Z (emat exA)) (mscale (F:=Zscalar) 3%Z (emat exB))) /\
  (forall r, r < 2 -> rank_sched exDom r 2 (exRanks r)) /\ held 2 exDom 3 3 exBs (emat exB).
Proof. split; [apply fitsb_ok; reflexivity|]. split; [exact exRanks_ok|exact exBs_held]. Qed.

Theorem c63_add_norm :
  forall (F : scalar) (P N M : nat) (d : domain),
  row_domain P N M d ->
  forall (keep : F -> bool) (alpha beta : F) (As Bs : list (ell F)) (X Y : mat F) (nth : nat)
    (scheds : nat -> list (nat * nat)),
  held P d N M As X ->
  held P d N M Bs Y ->
  (forall r : nat, r < P -> rank_sched d r nth (scheds r)) ->
  fits N M keep (madd (mscale alpha X) (mscale beta Y)) ->
  exists (Cs : list (ell F)) (vs : list F),
    row_add_norm keep alpha beta As Bs nth scheds = Ok (Cs, vs) /\
    held P d N M Cs (mcut keep (madd (mscale alpha X) (mscale beta Y))) /\
    (forall order : list nat,
     Permutation order (seq 0 P) ->
     allreduce_sum order vs = Ok (msum N (fun i j : nat => ((X i j - Y i j) * (X i j - Y i j))%K))).
Proof. exact (@row_add_norm_ok). Qed.
Print Assumptions c63_add_norm.

(** the second factor must be on every rank *)
Theorem c63_multiply_AB :
  forall (F : scalar) (P N M : nat) (d : domain),
  row_domain P N M d ->
  forall (keep : F -> bool) (As Bs Cs : list (ell F)) (X Y Z : mat F) (nth : nat) (scheds : nat -> list (nat * nat)),
  held P d N M As X ->
  replicated P N M Bs Y ->
  held P d N M Cs Z ->
  (forall r : nat, r < P -> rank_sched d r nth (scheds r)) ->
  (forall (r : nat) (A B : ell F) (i : nat),
   nth_error As r = Some A -> nth_error Bs r = Some B -> owns d r i -> prod_cols A B i <= M) ->
  exists Ds : list (ell F), row_multiply_AB keep As Bs Cs scheds = Ok Ds /\ held P d N M Ds (mcut_offdiag keep (mmul N X Y)).
Proof. exact (@row_multiply_AB_ok). Qed.
Print Assumptions c63_multiply_AB.

(** and may not be distributed *)
Theorem c63_multiply_needs_gather_refuted :
  exists (As Bs Cs Ds : list (ell Zscalar)) (X Y : mat Zscalar) (scheds : nat -> list (nat * nat)),
    held 2 exDom 3 3 As X /\
    held 2 exDom 3 3 Bs Y /\
    held 2 exDom 3 3 Cs mzero /\
    (forall r : nat, r < 2 -> rank_sched exDom r 2 (scheds r)) /\
    row_multiply_AB (gtZ 0) As Bs Cs scheds = Ok Ds /\ ~ held 2 exDom 3 3 Ds (mmul 3 X Y).
Proof. exact (@row_multiply_needs_gather). Qed.
Print Assumptions c63_multiply_needs_gather_refuted.

Theorem c63_multiply :
  forall (F : scalar) (P N M : nat) (d : domain),
  row_domain P N M d ->
  forall (keep : F -> bool) (alpha beta : F) (As Bs Cs : list (ell F)) (X Y Z : mat F) (nth : nat)
    (s1 s2 : nat -> list (nat * nat)) (gv : nat -> F) (gi : nat -> nat),
  held P d N M As X ->
  replicated P N M Bs Y ->
  held P d N M Cs Z ->
  (forall r : nat, r < P -> rank_sched d r nth (s1 r)) ->
  (forall r : nat, r < P -> rank_sched d r nth (s2 r)) ->
  (forall (r : nat) (A B : ell F) (i : nat),
   nth_error As r = Some A -> nth_error Bs r = Some B -> owns d r i -> prod_cols A B i <= M) ->
  fits N M keep (madd (mscale beta Z) (mscale alpha (mcut_offdiag keep (mmul N X Y)))) ->
  exists Ds : list (ell F),
    row_multiply d keep alpha beta As Bs Cs s1 s2 gv gi = Ok Ds /\
    held P d N M Ds (mcut keep (madd (mscale beta Z) (mscale alpha (mcut_offdiag keep (mmul N X Y))))).
Proof. exact (@row_multiply_ok). Qed.
Print Assumptions c63_multiply.

Theorem c63_multiply_gather :
  forall (F : scalar) (P N M : nat) (d : domain),
  row_domain P N M d ->
  forall (keep : F -> bool) (alpha beta : F) (As Bs Cs : list (ell F)) (X Y Z : mat F) (nth : nat)
    (s1 s2 : nat -> list (nat * nat)) (gv : nat -> F) (gi : nat -> nat),
  held P d N M As X ->
  replicated P N M Bs Y ->
  held P d N M Cs Z ->
  (forall r : nat, r < P -> rank_sched d r nth (s1 r)) ->
  (forall r : nat, r < P -> rank_sched d r nth (s2 r)) ->
  (forall (r : nat) (A B : ell F) (i : nat),
   nth_error As r = Some A -> nth_error Bs r = Some B -> owns d r i -> prod_cols A B i <= M) ->
  fits N M keep (madd (mscale beta Z) (mscale alpha (mcut_offdiag keep (mmul N X Y)))) ->
  exists Ds Es : list (ell F),
    row_multiply d keep alpha beta As Bs Cs s1 s2 gv gi = Ok Ds /\
    row_gather d Ds = Ok Es /\
    replicated P N M Es (mcut keep (madd (mscale beta Z) (mscale alpha (mcut_offdiag keep (mmul N X Y))))).
Proof. exact (@row_multiply_gather_ok). Qed.
Print Assumptions c63_multiply_gather.

Example c63_multiply_instance : replicated 2 3 3 exBs (emat exB) /\
  (forall r (A B : ell Zscalar) i, nth_error exAs r = Some A -> nth_error exBs r = Some B -> owns exDom r i -> prod_cols A B i <= 3) /\
  exists Ds, row_multiply (F:=Zscalar) exDom (gtZ 0) 1%Z 2%Z exAs exBs exBs exRanks exRanks (fun _ => 5%Z) (fun _ => 7) = Ok Ds /\
  held 2 exDom 3 3 Ds (madd (mscale (F:=Zscalar) 2%Z (emat exB)) (mmul 3 (emat exA) (emat exB))) /\
  madd (mscale (F:=Zscalar) 2%Z (emat exB)) (mmul 3 (emat exA) (emat exB)) 1 1 = 30%Z.
Proof. split; [exact exBs_repl|]. split; [exact exProd|exact exMult]. Qed.

Theorem c63_multiply_x2 :
  forall (F : scalar) (P N M : nat) (d : domain),
  row_domain P N M d ->
  forall (keep : F -> bool) (Xs X2s : list (ell F)) (X Z : mat F) (nth : nat) (scheds : nat -> list (nat * nat)),
  replicated P N M Xs X ->
  held P d N M X2s Z ->
  (forall r : nat, r < P -> rank_sched d r nth (scheds r)) ->
  (forall (r : nat) (A : ell F) (i : nat), nth_error Xs r = Some A -> owns d r i -> prod_cols A A i <= M) ->
  exists (Cs : list (ell F)) (t1 t2 : list F),
    row_multiply_x2 keep Xs X2s nth scheds = Ok (Cs, t1, t2) /\
    held P d N M Cs (mcut_offdiag keep (mmul N X X)) /\
    (forall order : list nat, Permutation order (seq 0 P) -> allreduce_sum order t1 = Ok (mtrace N X)) /\
    (forall order : list nat, Permutation order (seq 0 P) -> allreduce_sum order t2 = Ok (mtrace N (mmul N X X))).
Proof. exact (@row_multiply_x2_ok). Qed.
Print Assumptions c63_multiply_x2.

Theorem c63_element_multiply :
  forall (F : scalar) (P N M : nat) (d : domain),
  row_domain P N M d ->
  forall (keep : F -> bool) (As Bs Cs : list (ell F)) (X Y Z : mat F) (nth : nat) (scheds : nat -> list (nat * nat)),
  held P d N M As X ->
  held P d N M Bs Y ->
  held P d N M Cs Z ->
  (forall r : nat, r < P -> rank_sched d r nth (scheds r)) ->
  exists Ds : list (ell F),
    row_element_multiply keep As Bs Cs scheds = Ok Ds /\ held P d N M Ds (mcut_offdiag keep (mhad X Y)).
Proof. exact (@row_element_multiply_ok). Qed.
Print Assumptions c63_element_multiply.

Theorem c63_threshold :
  forall (F : scalar) (P N M : nat) (d : domain),
  row_domain P N M d ->
  forall (keep : F -> bool) (As : list (ell F)) (X : mat F) (nth : nat) (scheds : nat -> list (nat * nat)),
  held P d N M As X ->
  (forall r : nat, r < P -> rank_sched d r nth (scheds r)) ->
  exists Cs : list (ell F), row_threshold keep As scheds = Ok Cs /\ held P d N M Cs (mcut keep X).
Proof. exact (@row_threshold_ok). Qed.
Print Assumptions c63_threshold.

Theorem c63_threshold_new :
  forall (F : scalar) (P N M : nat) (d : domain),
  row_domain P N M d ->
  forall (keep : F -> bool) (As : list (ell F)) (X : mat F) (nth : nat) (scheds : nat -> list (nat * nat)),
  0 < M ->
  held P d N M As X ->
  (forall r : nat, r < P -> rank_sched d r nth (scheds r)) ->
  exists Cs : list (ell F), row_threshold_new keep As scheds = Ok Cs /\ held P d N M Cs (mcut keep X).
Proof. exact (@row_threshold_new_ok). Qed.
Print Assumptions c63_threshold_new.

Theorem c63_scale :
  forall (F : scalar) (P N M : nat) (d : domain),
  row_domain P N M d ->
  forall (a : F) (As : list (ell F)) (X : mat F),
  held P d N M As X -> exists Cs : list (ell F), row_scale d a As = Ok Cs /\ held P d N M Cs (mscale a X).
Proof. exact (@row_scale_ok). Qed.
Print Assumptions c63_scale.

Theorem c63_add_identity :
  forall (F : scalar) (P N M : nat) (d : domain),
  row_domain P N M d ->
  forall (keep : F -> bool) (beta : F) (As : list (ell F)) (X : mat F) (scheds : nat -> list (nat * nat)),
  held P d N M As X ->
  (forall r : nat, r < P -> Permutation (map snd (scheds r)) (seq 0 N)) ->
  (forall (r : nat) (A : ell F) (i : nat),
   nth_error As r = Some A -> i < N -> beta = 0%K \/ In i (cols (erow A i)) \/ nnz A i < M) ->
  exists Cs : list (ell F),
    row_add_identity keep beta As scheds = Ok Cs /\
    held P d N M Cs (mcut keep (madd X (mscale beta mid))) /\
    (replicated P N M As X -> replicated P N M Cs (mcut keep (madd X (mscale beta mid)))).
Proof. exact (@row_add_identity_ok). Qed.
Print Assumptions c63_add_identity.

Theorem c63_scale_add_identity :
  forall (F : scalar) (P N M : nat) (d : domain),
  row_domain P N M d ->
  forall (keep : F -> bool) (alpha beta : F) (As : list (ell F)) (X : mat F) (scheds : nat -> list (nat * nat)),
  held P d N M As X ->
  (forall r : nat, r < P -> Permutation (map snd (scheds r)) (seq 0 N)) ->
  (forall (r : nat) (A : ell F) (i : nat), nth_error As r = Some A -> i < N -> nnz A i < M) ->
  exists Cs : list (ell F),
    row_scale_add_identity d keep alpha beta As scheds = Ok Cs /\
    held P d N M Cs (mcut keep (madd (mscale alpha X) (mscale beta mid))).
Proof. exact (@row_scale_add_identity_ok). Qed.
Print Assumptions c63_scale_add_identity.

Theorem c63_copy :
  forall (F : scalar) (P N M : nat) (d : domain) (As Bs : list (ell F)) (X Y : mat F),
  0 < M -> held P d N M As X -> held P d N M Bs Y -> row_copy As Bs = Ok As.
Proof. exact (@row_copy_ok). Qed.
Print Assumptions c63_copy.

(** the sum of the values of the ranks *)
Theorem c63_trace :
  forall (F : scalar) (P N M : nat) (d : domain),
  row_domain P N M d ->
  forall (As : list (ell F)) (X : mat F) (nth : nat) (scheds : nat -> list (nat * nat)),
  held P d N M As X ->
  (forall r : nat, r < P -> rank_sched d r nth (scheds r)) ->
  exists vs : list F,
    row_trace As nth scheds = Ok vs /\
    (forall order : list nat, Permutation order (seq 0 P) -> allreduce_sum order vs = Ok (mtrace N X)).
Proof. exact (@row_trace_ok). Qed.
Print Assumptions c63_trace.

Example c63_trace_instance : exists vs, row_trace exAs 2 exRanks = Ok vs /\ vs = [6; 0]%Z /\ allreduce_sum (F:=Zscalar) [1; 0] vs = Ok 6%Z.
Proof. exact exTrace. Qed.

Theorem c63_trace_mult_partial :
  forall (F : scalar) (P N M : nat) (d : domain),
  row_domain P N M d ->
  forall (As Bs : list (ell F)) (X Y : mat F) (nth : nat) (scheds : nat -> list (nat * nat)),
  held P d N M As X ->
  held P d N M Bs Y ->
  (forall r : nat, r < P -> rank_sched d r nth (scheds r)) ->
  (forall (r : nat) (A B : ell F) (i : nat),
   nth_error As r = Some A -> nth_error Bs r = Some B -> owns d r i -> nnz A i = 0 \/ nnz B i <> 0) ->
  exists vs : list F,
    row_trace_mult As Bs nth scheds = Ok vs /\
    (forall order : list nat, Permutation order (seq 0 P) -> allreduce_sum order vs = Ok (msum N (mhad X Y))).
Proof. exact (@row_trace_mult_ok). Qed.
Print Assumptions c63_trace_mult_partial.

Theorem c63_sum_squares :
  forall (F : scalar) (P N M : nat) (d : domain),
  row_domain P N M d ->
  forall (As : list (ell F)) (X : mat F) (nth : nat) (scheds : nat -> list (nat * nat)),
  held P d N M As X ->
  (forall r : nat, r < P -> rank_sched d r nth (scheds r)) ->
  exists vs : list F,
    row_sum_squares As nth scheds = Ok vs /\
    (forall order : list nat, Permutation order (seq 0 P) -> allreduce_sum order vs = Ok (msum N (mhad X X))).
Proof. exact (@row_sum_squares_ok). Qed.
Print Assumptions c63_sum_squares.

Theorem c63_fnorm :
  forall (F : scalar) (P N M : nat) (d : domain),
  row_domain P N M d ->
  forall (As : list (ell F)) (X : mat F) (nth : nat) (scheds : nat -> list (nat * nat)) (order : list nat),
  0 < P ->
  held P d N M As X ->
  (forall r : nat, r < P -> rank_sched d r nth (scheds r)) ->
  Permutation order (seq 0 P) -> row_fnorm_sq As nth scheds order = Ok (msum N (mhad X X)).
Proof. exact (@row_fnorm_ok). Qed.
Print Assumptions c63_fnorm.

Theorem c63_sum_AB :
  forall (F : scalar) (P N M : nat) (d : domain),
  row_domain P N M d ->
  forall (keep : F -> bool) (alpha : F) (As Bs : list (ell F)) (X Y : mat F) (nth : nat) (scheds : nat -> list (nat * nat)),
  held P d N M As X ->
  held P d N M Bs Y ->
  (forall r : nat, r < P -> rank_sched d r nth (scheds r)) ->
  exists vs : list F,
    row_sum_AB keep alpha As Bs nth scheds = Ok vs /\
    (forall order : list nat,
     Permutation order (seq 0 P) -> allreduce_sum order vs = Ok (msum N (mcut keep (mscale alpha (mhad X Y))))).
Proof. exact (@row_sum_AB_ok). Qed.
Print Assumptions c63_sum_AB.

Theorem c63_sum_squares2 :
  forall (F : scalar) (P N M : nat) (d : domain),
  row_domain P N M d ->
  forall (keep : F -> bool) (alpha beta : F) (As Bs : list (ell F)) (X Y : mat F) (nth : nat)
    (scheds : nat -> list (nat * nat)),
  held P d N M As X ->
  held P d N M Bs Y ->
  (forall r : nat, r < P -> rank_sched d r nth (scheds r)) ->
  exists vs : list F,
    row_sum_squares2 keep alpha beta As Bs nth scheds = Ok vs /\
    (forall order : list nat,
     Permutation order (seq 0 P) ->
     allreduce_sum order vs = Ok (let S := mcut keep (madd (mscale alpha X) (mscale beta Y)) in msum N (mhad S S))).
Proof. exact (@row_sum_squares2_ok). Qed.
Print Assumptions c63_sum_squares2.

Theorem c63_fnorm2_partial :
  forall (F : scalar) (P N M : nat) (d : domain),
  row_domain P N M d ->
  forall (As Bs : list (ell F)) (X Y : mat F) (nth : nat) (scheds : nat -> list (nat * nat)) (order : list nat),
  1 < P ->
  held P d N M As X ->
  held P d N M Bs Y ->
  (forall r : nat, r < P -> rank_sched d r nth (scheds r)) ->
  Permutation order (seq 0 P) ->
  (forall (r : nat) (A B : ell F) (i : nat),
   nth_error As r = Some A -> nth_error Bs r = Some B -> owns d r i -> nnz A i = 0 <-> nnz B i = 0) ->
  (forall (r : nat) (A : ell F) (i : nat) (kv : nat * F),
   nth_error As r = Some A -> owns d r i -> In kv (erow A i) -> snd kv <> 0%K) ->
  row_fnorm2_sq As Bs nth scheds order = Ok (msum N (fun i j : nat => ((X i j - Y i j) * (X i j - Y i j))%K)).
Proof. exact (@row_fnorm2_ok). Qed.
Print Assumptions c63_fnorm2_partial.

Theorem c63_gershgorin_bounds :
  forall (P N M : nat) (dm : domain) (As : list (ell Rscalar)) (X : mat Rscalar) (nth : nat)
    (scheds : nat -> list (nat * nat)) (omin omax : list nat),
  row_domain P N M dm ->
  0 < P ->
  held P dm N M As X ->
  (forall r : nat, r < P -> rank_sched dm r nth (scheds r)) ->
  Permutation omin (seq 0 P) ->
  Permutation omax (seq 0 P) ->
  exists emin emax : R,
    row_gershgorin dm As scheds omin omax = Ok (emin, emax) /\
    (forall lambda : R, eigenvalue N X lambda -> (emin <= lambda <= emax)%R).
Proof. exact (@row_gershgorin_bounds). Qed.
Print Assumptions c63_gershgorin_bounds.

(** exact unless all discs lie below DBL_MIN *)
Theorem c63_gershgorin_partial :
  forall (P N M : nat) (dm : domain) (As : list (ell Rscalar)) (X : mat Rscalar) (nth : nat)
    (scheds : nat -> list (nat * nat)) (omin omax : list nat),
  row_domain P N M dm ->
  0 < P ->
  held P dm N M As X ->
  (forall r : nat, r < P -> rank_sched dm r nth (scheds r)) ->
  Permutation omin (seq 0 P) ->
  Permutation omax (seq 0 P) ->
  (exists i : nat, i < N /\ (DBL_MIN <= X i i + radius N X i)%R) ->
  (exists i : nat, i < N /\ (X i i - radius N X i <= DBL_MAX)%R) ->
  exists emin emax : R,
    row_gershgorin dm As scheds omin omax = Ok (emin, emax) /\
    (forall i : nat, i < N -> (emin <= X i i - radius N X i)%R) /\
    (exists i : nat, i < N /\ emin = (X i i - radius N X i)%R) /\
    (forall i : nat, i < N -> (X i i + radius N X i <= emax)%R) /\
    (exists i : nat, i < N /\ emax = (X i i + radius N X i)%R).
Proof. exact (@row_gershgorin_exact). Qed.
Print Assumptions c63_gershgorin_partial.

Theorem c63_normalize :
  forall (P N M : nat) (dm : domain) (As : list (ell Rscalar)) (X : mat Rscalar) (mineval maxeval : R)
    (scheds : nat -> list (nat * nat)),
  row_domain P N M dm ->
  held P dm N M As X ->
  (forall r : nat, r < P -> Permutation (map snd (scheds r)) (seq 0 N)) ->
  (forall (r : nat) (A : ell Rscalar) (i : nat), nth_error As r = Some A -> i < N -> nnz A i < M) ->
  mineval <> maxeval ->
  exists Cs : list (ell Rscalar),
    row_normalize dm As mineval maxeval scheds = Ok Cs /\
    held P dm N M Cs (fun i j : nat => ((maxeval * mid (F:=Rscalar) i j - X i j) / (maxeval - mineval))%R).
Proof. exact (@row_normalize_ok). Qed.
Print Assumptions c63_normalize.

Example c63_gershgorin_instance : exists emin emax, row_gershgorin exDom2 [exR; exR] exRanks2 [1; 0] [0; 1] = Ok (emin, emax) /\
  eigenvalue 2 (emat exR) 2%R /\ (emin <= 2 <= emax)%R.
Proof. exact exRow_gershgorin. Qed.
Example c63_normalize_instance : exists Cs, row_normalize exDom2 [exR; exR] (-2) 2 (fun _ => exRS) = Ok Cs /\
  held 2 exDom2 2 2 Cs (fun i j => (2 * mid (F:=Rscalar) i j - emat exR i j) / (2 - -2))%R.
Proof. exact exRow_normalize. Qed.

Theorem c63_dense_gather :
  forall (F : scalar) (P N : nat) (d : domain),
  row_domain P N N d ->
  forall (As : list (dense F)) (X : mat F),
  held_dense P d N As X -> exists Bs : list (dense F), row_gather_dense d As = Ok Bs /\ replicated_dense P N Bs X.
Proof. exact (@row_gather_dense_ok). Qed.
Print Assumptions c63_dense_gather.

Theorem c63_dense_scale :
  forall (F : scalar) (P N : nat) (d : domain),
  row_domain P N N d ->
  forall (a : F) (As : list (dense F)) (X : mat F),
  held_dense P d N As X -> exists Cs : list (dense F), row_scale_dense d a As = Ok Cs /\ held_dense P d N Cs (mscale a X).
Proof. exact (@row_scale_dense_ok). Qed.
Print Assumptions c63_dense_scale.

(** dense addition with an offset counted in elements ... *)
Theorem c63_dense_add_partial :
  forall (F : scalar) (P N : nat) (d : domain),
  row_domain P N N d ->
  forall (alpha beta : F) (As Bs : list (dense F)) (X Y : mat F),
  held_dense P d N As X ->
  held_dense P d N Bs Y ->
  exists Cs : list (dense F),
    row_add_dense d 1 alpha beta As Bs = Ok Cs /\ held_dense P d N Cs (madd (mscale alpha X) (mscale beta Y)).
Proof. exact (@row_add_dense_elements_ok). Qed.
Print Assumptions c63_dense_add_partial.

(** ... but the offset is counted in bytes *)
Theorem c63_dense_add_refuted :
  exists (P N : nat) (d : domain) (As Bs Cs : list (dense Zscalar)) (X Y : mat Zscalar),
    row_domain P N N d /\
    held_dense P d N As X /\
    held_dense P d N Bs Y /\ row_add_dense (F:=Zscalar) d 8 1%Z 1%Z As Bs = Ok Cs /\ ~ held_dense P d N Cs (madd X Y).
Proof. exact (@row_add_dense_refuted). Qed.
Print Assumptions c63_dense_add_refuted.

Theorem c63_dense_add_alignment_refuted :
  exists (P N : nat) (d : domain) (As Bs : list (dense Zscalar)) (X Y : mat Zscalar),
    row_domain P N N d /\ held_dense P d N As X /\ held_dense P d N Bs Y /\ row_add_dense (F:=Zscalar) d 8 1%Z 1%Z As Bs = UB.
Proof. exact (@row_add_dense_alignment_refuted). Qed.
Print Assumptions c63_dense_add_alignment_refuted.

Theorem c63_dense_add_identity :
  forall (F : scalar) (P N : nat) (d : domain),
  row_domain P N N d ->
  forall (beta : F) (As : list (dense F)) (X : mat F) (nth : nat) (scheds : nat -> list (nat * nat)),
  held_dense P d N As X ->
  (forall r : nat, r < P -> rank_sched d r nth (scheds r)) ->
  exists Cs : list (dense F),
    row_add_identity_dense beta As scheds = Ok Cs /\ held_dense P d N Cs (madd X (mscale beta mid)).
Proof. exact (@row_add_identity_dense_ok). Qed.
Print Assumptions c63_dense_add_identity.

Theorem c63_dense_threshold :
  forall (F : scalar) (P N : nat) (d : domain),
  row_domain P N N d ->
  forall (keep : F -> bool) (As : list (dense F)) (X : mat F) (nth : nat) (scheds : nat -> list (nat * nat)),
  held_dense P d N As X ->
  (forall r : nat, r < P -> cell_sched d N r nth (scheds r)) ->
  exists Cs : list (dense F), row_threshold_dense keep As scheds = Ok Cs /\ held_dense P d N Cs (mcut keep X).
Proof. exact (@row_threshold_dense_ok). Qed.
Print Assumptions c63_dense_threshold.

Theorem c63_dense_element_multiply :
  forall (F : scalar) (P N : nat) (d : domain),
  row_domain P N N d ->
  forall (As Bs Cs : list (dense F)) (X Y Z : mat F) (nth : nat) (scheds : nat -> list (nat * nat)),
  held_dense P d N As X ->
  held_dense P d N Bs Y ->
  held_dense P d N Cs Z ->
  (forall r : nat, r < P -> cell_sched d N r nth (scheds r)) ->
  exists Ds : list (dense F), row_element_multiply_dense As Bs Cs scheds = Ok Ds /\ held_dense P d N Ds (mhad X Y).
Proof. exact (@row_element_multiply_dense_ok). Qed.
Print Assumptions c63_dense_element_multiply.

Theorem c63_dense_transpose_new :
  forall (F : scalar) (P N : nat) (d : domain),
  row_domain P N N d ->
  forall (As : list (dense F)) (X : mat F) (gv : nat -> F) (nth : nat) (scheds : nat -> list (nat * nat)),
  replicated_dense P N As X ->
  (forall r : nat, r < P -> rank_sched d r nth (scheds r)) ->
  exists Cs : list (dense F), row_transpose_new_dense As gv scheds = Ok Cs /\ held_dense P d N Cs (mtrans X).
Proof. exact (@row_transpose_new_dense_ok). Qed.
Print Assumptions c63_dense_transpose_new.

Theorem c63_dense_multiply :
  forall (F : scalar) (P N : nat) (alpha beta : F) (As Bs Cs : list (dense F)) (X Y Z : mat F),
  0 < N ->
  replicated_dense P N As X ->
  replicated_dense P N Bs Y ->
  replicated_dense P N Cs Z ->
  exists Ds : list (dense F),
    row_multiply_dense alpha beta As Bs Cs = Ok Ds /\
    replicated_dense P N Ds (madd (mscale alpha (mmul N X Y)) (mscale beta Z)).
Proof. exact (@row_multiply_dense_ok). Qed.
Print Assumptions c63_dense_multiply.

Theorem c63_dense_trace :
  forall (F : scalar) (P N : nat) (d : domain),
  row_domain P N N d ->
  forall (As : list (dense F)) (X : mat F) (nth : nat) (scheds : nat -> list (nat * nat)),
  held_dense P d N As X ->
  (forall r : nat, r < P -> rank_sched d r nth (scheds r)) ->
  exists vs : list F,
    row_trace_dense As nth scheds = Ok vs /\
    (forall order : list nat, Permutation order (seq 0 P) -> allreduce_sum order vs = Ok (mtrace N X)).
Proof. exact (@row_trace_dense_ok). Qed.
Print Assumptions c63_dense_trace.

Theorem c63_dense_sum_squares :
  forall (F : scalar) (P N : nat) (d : domain),
  row_domain P N N d ->
  forall (As : list (dense F)) (X : mat F) (nth : nat) (scheds : nat -> list (nat * nat)),
  held_dense P d N As X ->
  (forall r : nat, r < P -> cell_sched d N r nth (scheds r)) ->
  exists vs : list F,
    row_sum_squares_dense As nth scheds = Ok vs /\
    (forall order : list nat, Permutation order (seq 0 P) -> allreduce_sum order vs = Ok (msum N (mhad X X))).
Proof. exact (@row_sum_squares_dense_ok). Qed.
Print Assumptions c63_dense_sum_squares.

Theorem c63_dense_trace_mult :
  forall (F : scalar) (P N : nat) (d : domain),
  row_domain P N N d ->
  forall (As Bs : list (dense F)) (X Y : mat F) (nth : nat) (scheds : nat -> list (nat * nat)),
  held_dense P d N As X ->
  held_dense P d N Bs Y ->
  (forall r : nat, r < P -> cell_sched d N r nth (scheds r)) ->
  exists vs : list F,
    row_trace_mult_dense As Bs nth scheds = Ok vs /\
    (forall order : list nat, Permutation order (seq 0 P) -> allreduce_sum order vs = Ok (msum N (mhad X Y))).
Proof. exact (@row_trace_mult_dense_ok). Qed.
Print Assumptions c63_dense_trace_mult.

Example c63_dense_instance : row_domain 2 4 4 exDom4 /\ held_dense 2 exDom4 4 [exOnes; exOnes] (denm exOnes) /\
  row_domain 2 3 3 exDom /\ held_dense 2 exDom 3 [exD; exD] (denm exD) /\ my_cells exDom 3 1 = [6; 7; 8].
Proof.
  split; [exact exDom4_rows|]. split; [apply (held_dense_same 2); reflexivity|]. split; [exact exDom_rows|].
  split; [apply (held_dense_same 2); reflexivity|reflexivity].
Qed.
