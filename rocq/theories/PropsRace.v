(** C74: data races, at the level of single array accesses. *)
From Verif Require Import Base Spec EllpackModel EllpackSpec EllpackCheck ThreadModel RaceModel RaceSpec RaceMain RaceCheck RaceModel2 RaceX2 RaceCheck2
  DenseModel DenseSpec DenseCheck RaceDense RaceCheck3
  CsrModel CsrSpec CsrCheck RaceModel3 RaceSpec3 RaceCsr RaceCsr2 RaceCheck4
  RealSpec CsrRealCheck RaceModel4 RaceGersh RaceCheck5.

(** ellpack multiply_AB: C (object 0) different from A (object 1) and B (object 2); A and B may be equal *)
Theorem c74_multiply :
  forall (F : scalar) (keep : F -> bool) (A B C : ell F) (sched : list (nat * nat)) (m : mem loc (val F)),
  wf A ->
  wf B ->
  eN A = eN B ->
  wf C ->
  eN C = eN A ->
  Permutation (map snd sched) (seq 0 (eN A)) ->
  (forall i : nat, i < eN A -> prod_cols A B i <= eM C) ->
  holds m 0 C ->
  holds m 1 A ->
  holds m 2 B ->
  (forall t : nat, In t (map fst sched) -> holds_ws m t (ws_new 0%K (eN C))) ->
  exists C' : ell F,
    ell_multiply_AB keep A B C sched = Ok C' /\
    wf C' /\
    same_dims C C' /\
    meq (eN A) (emat C') (mcut_offdiag keep (mmul (eN A) (emat A) (emat B))) /\
    all_interleavings (p_mul_row keep 1 2 (eN C) (eM A) (eM B) (eM C)) sched m
      (fun m' : mem loc (val F) => holds m' 0 C' /\ holds m' 1 A /\ holds m' 2 B).
Proof. exact (@interleaved_multiply). Qed.
Print Assumptions c74_multiply.

Example c74_multiply_instance : wf exA /\ wf exB /\ eN exA = eN exB /\ Permutation (map snd exS) (seq 0 (eN exA)) /\
  (forall i, i < eN exA -> prod_cols exA exB i <= eM exA) /\
  holds (exM_mul exA) 0 exA /\ holds (exM_mul exA) 1 exA /\ holds (exM_mul exA) 2 exB /\
  (forall t, In t (map fst exS) -> holds_ws (exM_mul exA) t (ws_new k0 (eN exA))).
Proof.
  split; [apply exA_wf|]. split; [apply exB_wf|]. split; [reflexivity|]. split; [apply exS_perm|].
  split; [apply (below_ok 3 (fun i => prod_cols exA exB i <=? 3)); [|reflexivity]; intros i; apply Nat.leb_le|].
  split; [holds_now|]. split; [holds_now|]. split; [holds_now|]. intros t [<-|[<-|[<-|[]]]]; holds_now.
Qed.

(** ellpack add: A (object 0) := alpha A + beta B (object 1) *)
Theorem c74_add :
  forall (F : scalar) (keep : F -> bool) (alpha beta : F) (A B : ell F) (sched : list (nat * nat)) (m : mem loc (val F)),
  wf A ->
  wf B ->
  eN A = eN B ->
  Permutation (map snd sched) (seq 0 (eN A)) ->
  fits (eN A) (eM A) keep (madd (mscale alpha (emat A)) (mscale beta (emat B))) ->
  holds m 0 A ->
  holds m 1 B ->
  (forall t : nat, In t (map fst sched) -> holds_ws m t (ws_new 0%K (eN A))) ->
  exists A' : ell F,
    ell_add keep alpha beta A B sched = Ok A' /\
    wf A' /\
    same_dims A A' /\
    meq (eN A) (emat A') (mcut keep (madd (mscale alpha (emat A)) (mscale beta (emat B)))) /\
    all_interleavings (p_add_row keep alpha beta (eN A) (eM A) (eM B)) sched m
      (fun m' : mem loc (val F) => holds m' 0 A' /\ holds m' 1 B).
Proof. exact (@interleaved_add). Qed.
Print Assumptions c74_add.

Example c74_add_instance : wf exA /\ wf exB /\ eN exA = eN exB /\ Permutation (map snd exS) (seq 0 (eN exA)) /\
  fits (eN exA) (eM exA) (gtZ 1) (madd (mscale (2 : Zscalar)%Z (emat exA)) (mscale (-3 : Zscalar)%Z (emat exB))) /\
  holds exM_add 0 exA /\ holds exM_add 1 exB /\
  (forall t, In t (map fst exS) -> holds_ws exM_add t (ws_new k0 (eN exA))).
Proof.
  split; [apply exA_wf|]. split; [apply exB_wf|]. split; [reflexivity|]. split; [apply exS_perm|].
  split; [apply fitsb_ok; reflexivity|].
  split; [holds_now|]. split; [holds_now|]. intros t [<-|[<-|[<-|[]]]]; holds_now.
Qed.

(** ellpack threshold in place *)
Theorem c74_threshold :
  forall (F : scalar) (keep : F -> bool) (A : ell F) (sched : list (nat * nat)) (m : mem loc (val F)),
  wf A ->
  Permutation (map snd sched) (seq 0 (eN A)) ->
  holds m 0 A ->
  exists A' : ell F,
    ell_threshold keep A sched = Ok A' /\
    wf A' /\
    same_dims A A' /\
    meq (eN A) (emat A') (mcut keep (emat A)) /\
    all_interleavings (p_threshold_row keep (eN A) (eM A)) sched m (fun m' : mem loc (val F) => holds m' 0 A').
Proof. exact (@interleaved_threshold). Qed.
Print Assumptions c74_threshold.

(** import from a dense array (dense array 1 into object 0) *)
Theorem c74_import :
  forall (F : scalar) (o : dorder) (keep : F -> bool) (N M : nat) (D : list F) (Z : ell F) (sched : list (nat * nat))
    (m : mem loc (val F)),
  0 < M ->
  length D = N * N ->
  Permutation (map snd sched) (seq 0 N) ->
  fits N M keep (dmat o N D) ->
  ell_zero N M = Ok Z ->
  holds m 0 Z ->
  holdsK m (aDense 1) D ->
  exists A : ell F,
    ell_import o N M keep D sched = Ok A /\
    wf A /\
    eN A = N /\
    eM A = M /\
    meq N (emat A) (mcut keep (dmat o N D)) /\
    all_interleavings (p_import_row o keep N M) sched m (fun m' : mem loc (val F) => holds m' 0 A /\ holdsK m' (aDense 1) D).
Proof. exact (@interleaved_import). Qed.
Print Assumptions c74_import.

Example c74_import_instance : let D := [1; 0; 3; 4; 5; 0; 0; 8; 2]%Z : list Zscalar in exists Z,
  (0 < 2)%nat /\ length D = (3 * 3)%nat /\ Permutation (map snd exS) (seq 0 3) /\ fits 3 2 (gtZ 0) (dmat col_major 3 D) /\
  ell_zero 3 2 = Ok Z /\ holds (exM_imp Z D) 0 Z /\ holdsK (exM_imp Z D) (aDense 1) D.
Proof.
  intros D. eexists. split; [auto|]. split; [reflexivity|]. split; [apply exS_perm|]. split; [apply fitsb_ok; reflexivity|].
  split; [reflexivity|]. split; [holds_now|intros k; reflexivity].
Qed.

(** export to a dense array (object 1 into dense array 0) *)
Theorem c74_export :
  forall (F : scalar) (o : dorder) (A : ell F) (sched : list (nat * nat)) (m : mem loc (val F)),
  wf A ->
  Permutation (map snd sched) (seq 0 (eN A)) ->
  holdsK m (aDense 0) (repeat 0%K (eN A * eN A)) ->
  holds m 1 A ->
  exists D : list F,
    ell_export o A sched = Ok D /\
    length D = eN A * eN A /\
    meq (eN A) (dmat o (eN A) D) (emat A) /\
    all_interleavings (p_export_row o (eN A) (eM A)) sched m
      (fun m' : mem loc (val F) => holdsK m' (aDense 0) D /\ holds m' 1 A).
Proof. exact (@interleaved_export). Qed.
Print Assumptions c74_export.

Example c74_export_instance : wf exA /\ Permutation (map snd exS) (seq 0 (eN exA)) /\
  holdsK exM_exp (aDense 0) (repeat k0 (eN exA * eN exA)) /\ holds exM_exp 1 exA.
Proof. split; [apply exA_wf|]. split; [apply exS_perm|]. split; [intros k; reflexivity|holds_now]. Qed.

(** trace with one reduction variable per thread *)
Theorem c74_trace :
  forall (F : scalar) (A : ell F) (nth : nat) (sched : list (nat * nat)) (m : mem loc (val F)),
  wf A ->
  full_sched (eN A) nth sched ->
  holds m 1 A ->
  (forall t : nat, t < nth -> m (aAcc t, 0) = Some (VK 0%K)) ->
  all_interleavings (p_trace_row (eN A) (eM A)) sched m
    (fun m' : mem loc (val F) =>
     holds m' 1 A /\
     (exists acc : nat -> F,
        (forall t : nat, t < nth -> m' (aAcc t, 0) = Some (VK (acc t))) /\ bigsum nth acc = mtrace (eN A) (emat A))).
Proof. exact (@interleaved_trace). Qed.
Print Assumptions c74_trace.

Example c74_trace_instance : wf exA /\ full_sched (eN exA) 2 exS /\ holds exM_tr 1 exA /\
  (forall t, t < 2 -> exM_tr (aAcc t, 0) = Some (VK (k0 : Zscalar))).
Proof.
  split; [apply exA_wf|]. split; [apply exS_full|]. split; [holds_now|].
  intros [|[|t]] H; [reflexivity..|lia].
Qed.

(** transpose_new: rows of the result are filled by all threads under row locks *)
Theorem c74_transpose_new :
  forall (F : scalar) (A : ell F) (gv : nat -> F) (gi : nat -> nat) (sched : list (nat * nat)) (m : mem loc (val F)),
  wf A ->
  Permutation (map snd sched) (seq 0 (eN A)) ->
  (forall r : nat, r < eN A -> colcount A r <= eM A) ->
  holds m 0 (ell_noinit (eN A) (eM A) gv gi) ->
  holds m 1 A ->
  all_interleavings (p_transpose_row (eN A) (eM A)) sched m
    (fun m' : mem loc (val F) =>
     exists (ev : list (nat * nat)) (B : ell F),
       Permutation ev (all_slots A) /\
       ell_transpose_new A ev gv gi = Ok B /\
       wf B /\ same_dims A B /\ meq (eN A) (emat B) (mtrans (emat A)) /\ holds m' 0 B /\ holds m' 1 A).
Proof. exact (@interleaved_transpose). Qed.
Print Assumptions c74_transpose_new.

Example c74_transpose_instance : wf exA /\ Permutation (map snd exS) (seq 0 (eN exA)) /\
  (forall r, r < eN exA -> colcount exA r <= eM exA) /\
  holds exM_transp 0 (ell_noinit (eN exA) (eM exA) (fun k => Z.of_nat k : Zscalar) (fun k => k)) /\ holds exM_transp 1 exA.
Proof.
  split; [apply exA_wf|]. split; [apply exS_perm|].
  split; [apply (below_ok 3 (fun r => colcount exA r <=? 3)); [|reflexivity]; intros r; apply Nat.leb_le|].
  split; holds_now.
Qed.

(** multiply_x2 (X object 1, X2 object 0) with the two reduction variables of each thread *)
Theorem c74_multiply_x2 :
  forall (F : scalar) (keep : F -> bool) (X X2 : ell F) (nth : nat) (sched : list (nat * nat)) (m : mem loc (val F)),
  wf X ->
  wf X2 ->
  eN X2 = eN X ->
  full_sched (eN X) nth sched ->
  (forall i : nat, i < eN X -> count (eN X) (fun j : nat => (i =? j) || keep (mmul (eN X) (emat X) (emat X) i j)) <= eM X2) ->
  holds m 0 X2 ->
  holds m 1 X ->
  (forall t : nat,
   t < nth -> holds_ws m t (ws_new 0%K (eN X)) /\ m (aAcc t, 0) = Some (VK 0%K) /\ m (aAcc t, 1) = Some (VK 0%K)) ->
  exists C : ell F,
    wf C /\
    same_dims X2 C /\
    meq (eN X) (emat C) (mcut_offdiag keep (mmul (eN X) (emat X) (emat X))) /\
    all_interleavings (p_x2_row keep (eN X) (eM X) (eM X2)) sched m
      (fun m' : mem loc (val F) =>
       holds m' 0 C /\
       holds m' 1 X /\
       (exists trX trX2 : nat -> F,
          (forall t : nat, t < nth -> m' (aAcc t, 0) = Some (VK (trX t)) /\ m' (aAcc t, 1) = Some (VK (trX2 t))) /\
          bigsum nth trX = mtrace (eN X) (emat X) /\ bigsum nth trX2 = mtrace (eN X) (mmul (eN X) (emat X) (emat X)))).
Proof. exact (@interleaved_x2). Qed.
Print Assumptions c74_multiply_x2.

Example c74_multiply_x2_instance : wf exA /\ wf exB /\ eN exB = eN exA /\ full_sched (eN exA) 2 exS /\
  (forall i, i < eN exA -> count (eN exA) (fun j => (Nat.eqb i j || gtZ 4 (mmul (eN exA) (emat exA) (emat exA) i j))%bool) <= eM exB) /\
  holds exM_x2 0 exB /\ holds exM_x2 1 exA /\
  (forall t, t < 2 -> holds_ws exM_x2 t (ws_new k0 (eN exA)) /\
     exM_x2 (aAcc t, 0) = Some (VK (k0 : Zscalar)) /\ exM_x2 (aAcc t, 1) = Some (VK (k0 : Zscalar))).
Proof.
  split; [apply exA_wf|]. split; [apply exB_wf|]. split; [reflexivity|]. split; [apply exS_full|].
  split; [apply (below_ok 3 (fun i => count (eN exA) (fun j => (Nat.eqb i j || gtZ 4 (mmul (eN exA) (emat exA) (emat exA) i j))%bool) <=? eM exB));
    [|reflexivity]; intros i; apply Nat.leb_le|].
  split; [holds_now|]. split; [holds_now|].
  intros [|[|t]] H; [split; [holds_now|split; reflexivity]..|lia].
Qed.

(** ellpack sum of squares (object 1) *)
Theorem c74_sum_squares :
  forall (F : scalar) (A : ell F) (nth : nat) (sched : list (nat * nat)) (m : mem loc (val F)),
  wf A ->
  full_sched (eN A) nth sched ->
  holds m 1 A ->
  (forall t : nat, t < nth -> m (aAcc t, 0) = Some (VK 0%K)) ->
  all_interleavings (p_sum_squares_row (eN A) (eM A)) sched m
    (fun m' : mem loc (val F) =>
     holds m' 1 A /\
     (exists acc : nat -> F,
        (forall t : nat, t < nth -> m' (aAcc t, 0) = Some (VK (acc t))) /\
        bigsum nth acc = msum (eN A) (mhad (emat A) (emat A)))).
Proof. exact (@interleaved_sum_squares). Qed.
Print Assumptions c74_sum_squares.

(** dense transpose in place: iteration i exchanges (i,j) and (j,i) for j > i *)
Theorem c74_dense_transpose :
  forall (F : scalar) (A : dense F) (sched : list (nat * nat)) (m : mem loc (val F)),
  dwf A ->
  Permutation (map snd sched) (seq 0 (dN A - 1)) ->
  holdsK m (aDense 0) (dmx A) ->
  exists A' : dense F,
    dwf A' /\
    dN A' = dN A /\
    meq (dN A) (denm A') (mtrans (denm A)) /\
    all_interleavings (p_dense_transpose_row (dN A)) sched m (fun m' : mem loc (val F) => holdsK m' (aDense 0) (dmx A')).
Proof. exact (@interleaved_dense_transpose). Qed.
Print Assumptions c74_dense_transpose.

(** dense transpose / adjungate of a triangle *)
Theorem c74_dense_triangle :
  forall (F : scalar) (conj : F -> F) (A : dense F) (tri : triangle) (sched : list (nat * nat)) (m : mem loc (val F)),
  dwf A ->
  Permutation (map snd sched) (seq 0 (dN A)) ->
  holdsK m (aDense 0) (dmx A) ->
  tri <> TriOther ->
  exists A' : dense F,
    dwf A' /\
    dN A' = dN A /\
    meq (dN A) (denm A') (DenseOps.mirrored tri conj (denm A)) /\
    all_interleavings
      (fun t i : nat =>
       match tri with
       | TriU => p_dense_tri_u_row conj (dN A) t i
       | _ => p_dense_tri_l_row conj (dN A) t i
       end) sched m (fun m' : mem loc (val F) => holdsK m' (aDense 0) (dmx A')).
Proof. exact (@interleaved_dense_tri). Qed.
Print Assumptions c74_dense_triangle.

(** dense transpose_new (A object 1, B object 0) *)
Theorem c74_dense_transpose_new :
  forall (F : scalar) (A : dense F) (gv : nat -> F) (sched : list (nat * nat)) (m : mem loc (val F)),
  dwf A ->
  Permutation (map snd sched) (seq 0 (dN A)) ->
  holdsK m (aDense 0) (dmx (dense_noinit (dN A) gv)) ->
  holdsK m (aDense 1) (dmx A) ->
  exists B : dense F,
    dwf B /\
    dN B = dN A /\
    meq (dN A) (denm B) (mtrans (denm A)) /\
    all_interleavings (p_dense_transpose_new_row (dN A)) sched m
      (fun m' : mem loc (val F) => holdsK m' (aDense 0) (dmx B) /\ holdsK m' (aDense 1) (dmx A)).
Proof. exact (@interleaved_dense_transpose_new). Qed.
Print Assumptions c74_dense_transpose_new.

(** dense threshold in place *)
Theorem c74_dense_threshold :
  forall (F : scalar) (keep : F -> bool) (A : dense F) (sched : list (nat * nat)) (m : mem loc (val F)),
  dwf A ->
  Permutation (map snd sched) (seq 0 (dN A * dN A)) ->
  holdsK m (aDense 0) (dmx A) ->
  exists B : dense F,
    dwf B /\
    dN B = dN A /\
    meq (dN A) (denm B) (mcut keep (denm A)) /\
    all_interleavings (p_dense_threshold keep) sched m (fun m' : mem loc (val F) => holdsK m' (aDense 0) (dmx B)).
Proof. exact (@interleaved_dense_threshold). Qed.
Print Assumptions c74_dense_threshold.

(** dense threshold_new (A object 1, B object 0) *)
Theorem c74_dense_threshold_new :
  forall (F : scalar) (keep : F -> bool) (A : dense F) (sched : list (nat * nat)) (m : mem loc (val F)),
  dwf A ->
  Permutation (map snd sched) (seq 0 (dN A * dN A)) ->
  holdsK m (aDense 0) (repeat 0%K (dN A * dN A)) ->
  holdsK m (aDense 1) (dmx A) ->
  exists B : dense F,
    dwf B /\
    dN B = dN A /\
    meq (dN A) (denm B) (mcut keep (denm A)) /\
    all_interleavings (p_dense_threshold_new keep) sched m
      (fun m' : mem loc (val F) => holdsK m' (aDense 0) (dmx B) /\ holdsK m' (aDense 1) (dmx A)).
Proof. exact (@interleaved_dense_threshold_new). Qed.
Print Assumptions c74_dense_threshold_new.

(** dense element_multiply (A, B, C are objects 1, 2, 0) *)
Theorem c74_dense_element_multiply :
  forall (F : scalar) (A B C : dense F) (sched : list (nat * nat)) (m : mem loc (val F)),
  dwf A ->
  dwf B ->
  dwf C ->
  dN A = dN B ->
  dN A = dN C ->
  Permutation (map snd sched) (seq 0 (dN A * dN A)) ->
  holdsK m (aDense 0) (dmx C) ->
  holdsK m (aDense 1) (dmx A) ->
  holdsK m (aDense 2) (dmx B) ->
  exists C' : dense F,
    dwf C' /\
    dN C' = dN A /\
    meq (dN A) (denm C') (mhad (denm A) (denm B)) /\
    all_interleavings p_dense_element_multiply sched m
      (fun m' : mem loc (val F) =>
       holdsK m' (aDense 0) (dmx C') /\ holdsK m' (aDense 1) (dmx A) /\ holdsK m' (aDense 2) (dmx B)).
Proof. exact (@interleaved_dense_element_multiply). Qed.
Print Assumptions c74_dense_element_multiply.

(** dense trace *)
Theorem c74_dense_trace :
  forall (F : scalar) (A : dense F) (nth : nat) (sched : list (nat * nat)) (m : mem loc (val F)),
  dwf A ->
  full_sched (dN A) nth sched ->
  holdsK m (aDense 1) (dmx A) ->
  (forall t : nat, t < nth -> m (aAcc t, 0) = Some (VK 0%K)) ->
  all_interleavings (p_dense_trace (dN A)) sched m
    (fun m' : mem loc (val F) =>
     holdsK m' (aDense 1) (dmx A) /\
     (exists acc : nat -> F,
        (forall t : nat, t < nth -> m' (aAcc t, 0) = Some (VK (acc t))) /\ bigsum nth acc = mtrace (dN A) (denm A))).
Proof. exact (@interleaved_dense_trace). Qed.
Print Assumptions c74_dense_trace.

(** dense trace_mult *)
Theorem c74_dense_trace_mult :
  forall (F : scalar) (A B : dense F) (nth : nat) (sched : list (nat * nat)) (m : mem loc (val F)),
  dwf A ->
  dwf B ->
  dN A = dN B ->
  full_sched (dN A * dN A) nth sched ->
  holdsK m (aDense 1) (dmx A) ->
  holdsK m (aDense 2) (dmx B) ->
  (forall t : nat, t < nth -> m (aAcc t, 0) = Some (VK 0%K)) ->
  all_interleavings p_dense_trace_mult sched m
    (fun m' : mem loc (val F) =>
     (holdsK m' (aDense 1) (dmx A) /\ holdsK m' (aDense 2) (dmx B)) /\
     (exists acc : nat -> F,
        (forall t : nat, t < nth -> m' (aAcc t, 0) = Some (VK (acc t))) /\
        bigsum nth acc = msum (dN A) (mhad (denm A) (denm B)))).
Proof. exact (@interleaved_dense_trace_mult). Qed.
Print Assumptions c74_dense_trace_mult.

(** dense sum of squares *)
Theorem c74_dense_sum_squares :
  forall (F : scalar) (A : dense F) (nth : nat) (sched : list (nat * nat)) (m : mem loc (val F)),
  dwf A ->
  full_sched (dN A * dN A) nth sched ->
  holdsK m (aDense 1) (dmx A) ->
  (forall t : nat, t < nth -> m (aAcc t, 0) = Some (VK 0%K)) ->
  all_interleavings p_dense_sum_squares sched m
    (fun m' : mem loc (val F) =>
     holdsK m' (aDense 1) (dmx A) /\
     (exists acc : nat -> F,
        (forall t : nat, t < nth -> m' (aAcc t, 0) = Some (VK (acc t))) /\
        bigsum nth acc = msum (dN A) (mhad (denm A) (denm A)))).
Proof. exact (@interleaved_dense_sum_squares). Qed.
Print Assumptions c74_dense_sum_squares.

Example c74_dense_instance : let m := exM_d exD exE exD in let m' := exM_d (dense_noinit 3 (fun k => Z.of_nat k : Zscalar)) exE exD in
  let mz := exM_d (mkDense 3 (repeat (k0 : Zscalar) 9)) exE exD in
  dwf exD /\ dwf exE /\ dN exE = dN exD /\ Permutation (map snd [(0, 1); (1, 0)]) (seq 0 (dN exD - 1)) /\
  Permutation (map snd exS) (seq 0 (dN exD)) /\ full_sched (dN exE) 2 exS /\ full_sched (dN exE * dN exE) 2 exS9 /\
  holdsK m (aDense 0) (dmx exD) /\ holdsK m (aDense 1) (dmx exE) /\ holdsK m (aDense 2) (dmx exD) /\
  holdsK m' (aDense 0) (dmx (dense_noinit (dN exE) (fun k => Z.of_nat k : Zscalar))) /\ holdsK m' (aDense 1) (dmx exE) /\
  holdsK mz (aDense 0) (repeat k0 (dN exE * dN exE)) /\ holdsK mz (aDense 1) (dmx exE) /\
  (forall t, t < 2 -> m (aAcc t, 0) = Some (VK (k0 : Zscalar))) /\ m (aDense 3, 0) = Some (VK (k0 : Zscalar)) /\
  (exists i i', In (0, i) exS9 /\ In (1, i') exS9).
Proof.
  split; [apply exD_wf|]. split; [apply exE_wf|]. split; [reflexivity|]. split; [apply permb_ok; reflexivity|].
  split; [apply exS_perm|]. split; [apply exS_full|]. split; [apply exS9_full|].
  do 7 (split; [intros k; reflexivity|]). split; [intros [|[|t]] H; [reflexivity..|lia]|]. split; [reflexivity|].
  eexists. eexists. split; simpl; eauto 15.
Qed.

(** csr scale_inplace (object 0) *)
Theorem c74_csr_scale :
  forall (F : scalar) (a : F) (A : csr F) (sched : list (nat * nat)) (m : mem loc (val F)),
  cwf A ->
  Permutation (map snd sched) (seq 0 (cN A)) ->
  holds_csr m 0 A ->
  exists A' : csr F,
    cwf A' /\
    cdims A A' /\
    meq (cN A) (cmat A') (mscale a (cmat A)) /\
    all_interleavings (p_csr_scale_row a) sched m (fun m' : mem loc (val F) => holds_csr m' 0 A').
Proof. exact (@interleaved_csr_scale). Qed.
Print Assumptions c74_csr_scale.

(** csr threshold in place (object 0) *)
Theorem c74_csr_threshold :
  forall (F : scalar) (keep : F -> bool) (A : csr F) (sched : list (nat * nat)) (m : mem loc (val F)),
  cwf A ->
  Permutation (map snd sched) (seq 0 (cN A)) ->
  holds_csr m 0 A ->
  exists A' : csr F,
    cwf A' /\
    cdims A A' /\
    meq (cN A) (cmat A') (mcut keep (cmat A)) /\
    all_interleavings (p_csr_threshold_row keep) sched m (fun m' : mem loc (val F) => holds_csr m' 0 A').
Proof. exact (@interleaved_csr_threshold). Qed.
Print Assumptions c74_csr_threshold.

(** csr sum of squares (object 1) *)
Theorem c74_csr_sum_squares :
  forall (F : scalar) (A : csr F) (nth : nat) (sched : list (nat * nat)) (m : mem loc (val F)),
  cwf A ->
  full_sched (cN A) nth sched ->
  holds_csr m 1 A ->
  (forall t : nat, t < nth -> m (aAcc t, 0) = Some (VK 0%K)) ->
  all_interleavings p_csr_sum_squares_row sched m
    (fun m' : mem loc (val F) =>
     holds_csr m' 1 A /\
     (exists acc : nat -> F,
        (forall t : nat, t < nth -> m' (aAcc t, 0) = Some (VK (acc t))) /\
        bigsum nth acc = msum (cN A) (mhad (cmat A) (cmat A)))).
Proof. exact (@interleaved_csr_sum_squares). Qed.
Print Assumptions c74_csr_sum_squares.

(** csr trace_mult (A, B are objects 1, 2) *)
Theorem c74_csr_trace_mult :
  forall (F : scalar) (A B : csr F) (nth : nat) (sched : list (nat * nat)) (m : mem loc (val F)),
  cwf A ->
  cwf B ->
  cN A = cN B ->
  full_sched (cN A) nth sched ->
  holds_csr m 1 A ->
  holds_csr m 2 B ->
  (forall t : nat, t < nth -> m (aAcc t, 0) = Some (VK 0%K)) ->
  all_interleavings p_csr_trace_mult_row sched m
    (fun m' : mem loc (val F) =>
     (holds_csr m' 1 A /\ holds_csr m' 2 B) /\
     (exists acc : nat -> F,
        (forall t : nat, t < nth -> m' (aAcc t, 0) = Some (VK (acc t))) /\
        bigsum nth acc = mtrace (cN A) (mmul (cN A) (cmat A) (cmat B)))).
Proof. exact (@interleaved_csr_trace_mult). Qed.
Print Assumptions c74_csr_trace_mult.

(** csr sum of squares of a submatrix (object 1) *)
Theorem c74_csr_sum_squares_sub :
  forall (F : scalar) (A : csr F) (core nth : nat) (sched : list (nat * nat)) (m : mem loc (val F)),
  cwf A ->
  core <= cN A ->
  full_sched core nth sched ->
  holds_csr m 1 A ->
  (forall t : nat, t < nth -> m (aAcc t, 0) = Some (VK 0%K)) ->
  all_interleavings (p_csr_sum_squares_sub_row core) sched m
    (fun m' : mem loc (val F) =>
     holds_csr m' 1 A /\
     (exists acc : nat -> F,
        (forall t : nat, t < nth -> m' (aAcc t, 0) = Some (VK (acc t))) /\
        bigsum nth acc = msum core (mhad (cmat A) (cmat A)))).
Proof. exact (@interleaved_csr_sum_squares_sub). Qed.
Print Assumptions c74_csr_sum_squares_sub.

(** csr trace (object 1) *)
Theorem c74_csr_trace :
  forall (F : scalar) (A : csr F) (nth : nat) (sched : list (nat * nat)) (m : mem loc (val F)),
  cwf A ->
  full_sched (cN A) nth sched ->
  holds_csr m 1 A ->
  (forall t : nat, t < nth -> m (aAcc t, 0) = Some (VK 0%K)) ->
  all_interleavings p_csr_trace_row sched m
    (fun m' : mem loc (val F) =>
     holds_csr m' 1 A /\
     (exists acc : nat -> F,
        (forall t : nat, t < nth -> m' (aAcc t, 0) = Some (VK (acc t))) /\ bigsum nth acc = mtrace (cN A) (cmat A))).
Proof. exact (@interleaved_csr_trace). Qed.
Print Assumptions c74_csr_trace.

(** csr export_to_dense (object 1 into dense array 0), both orders *)
Theorem c74_csr_export :
  forall (F : scalar) (o : dorder) (A : csr F) (sched : list (nat * nat)) (m : mem loc (val F)),
  cwf A ->
  Permutation (map snd sched) (seq 0 (cN A)) ->
  holdsK m (aDense 0) (repeat 0%K (cN A * cN A)) ->
  holds_csr m 1 A ->
  exists D : list F,
    length D = cN A * cN A /\
    meq (cN A) (dmat o (cN A) D) (cmat A) /\
    all_interleavings (p_csr_export_row o (cN A)) sched m
      (fun m' : mem loc (val F) => holdsK m' (aDense 0) D /\ holds_csr m' 1 A).
Proof. exact (@interleaved_csr_export). Qed.
Print Assumptions c74_csr_export.

Example c74_csr_instance : cwf exCA /\ cwf exCB /\ cN exCA = cN exCB /\ Permutation (map snd exS) (seq 0 (cN exCA)) /\
  full_sched (cN exCA) 2 exS /\ holds_csr exM_c 0 exCA /\ holds_csr exM_c 1 exCA /\ holds_csr exM_c 2 exCB /\
  (forall t, t < 2 -> exM_c (aAcc t, 0) = Some (VK (k0 : Zscalar))) /\
  full_sched 2 2 [(0, 1); (1, 0)] /\ 2 <= cN exCA /\ holdsK exM_c (aDense 0) (repeat (k0 : Zscalar) (cN exCA * cN exCA)) /\
  exM_c (aRand, 0) = Some (VN 5) /\ (forall i, i < cN exCA -> exM_c (aIdx (ro 0 i), 0) <> None) /\
  In (0, 0) [(0, 1); (1, 2); (0, 0)] /\ In (1, 2) [(0, 1); (1, 2); (0, 0)].
Proof.
  split; [apply exCA_wf|]. split; [apply exCB_wf|]. split; [reflexivity|]. split; [apply exS_perm|]. split; [apply exS_full|].
  destruct exM_c_holds as (H0 & H1 & H2). do 3 (split; [assumption|]). split; [intros [|[|t]] H; [reflexivity..|lia]|].
  split; [split; [apply permb_ok; reflexivity|intros t i [[= <- <-]|[[= <- <-]|[]]]; lia]|]. split; [simpl; lia|].
  split; [intros k; reflexivity|]. split; [reflexivity|]. split; [intros [|[|[|i]]] H; [discriminate..|simpl in H; lia]|]. simpl; auto.
Qed.

(** row loop of csr gershgorin (n = N) and gershgorin_partial (n = nrows) *)
Theorem c74_csr_gershgorin :
  forall (A : csr Rscalar) (n : nat) (sched : list (nat * nat)) (m : mem loc (val Rscalar)),
  cwf A ->
  n <= cN A ->
  Permutation (map snd sched) (seq 0 n) ->
  holds_csr m 1 A ->
  (forall i : nat, i < n -> m (aDense 0, i) <> None /\ m (aDense 4, i) <> None) ->
  all_interleavings p_csr_gersh_row sched m
    (fun m' : mem loc (val Rscalar) =>
     holds_csr m' 1 A /\
     (forall i : nat,
      i < n -> m' (aDense 0, i) = Some (VK (cmat A i i)) /\ m' (aDense 4, i) = Some (VK (radius (cN A) (cmat A) i)))).
Proof. exact (@interleaved_csr_gersh). Qed.
Print Assumptions c74_csr_gershgorin.

Example c74_csr_gershgorin_instance : cwf exCR /\ 2 <= cN exCR /\ Permutation (map snd [(0, 1); (1, 0)]) (seq 0 2) /\ holds_csr (mem_csr exCR 2) 1 exCR /\
  (forall i, i < 2 -> mem_csr exCR 2 (aDense 0, i) <> None /\ mem_csr exCR 2 (aDense 4, i) <> None).
Proof.
  split; [apply exCR_wf|]. split; [simpl; lia|]. split; [apply permb_ok; reflexivity|]. split; [apply mem_csr_holds|].
  intros i H. now apply mem_csr_dense.
Qed.

(** csr banded constructor: rand() races whenever two threads have at least one row each *)
Theorem c74_csr_banded_refuted :
  forall (F : scalar) (next : nat -> nat) (out : nat -> F) (N M : nat) (sched : list (nat * nat)) 
    (m : mem loc (val F)) (s0 t t' i i' : nat),
  0 < M ->
  Permutation (map snd sched) (seq 0 N) ->
  (forall i0 : nat, i0 < N -> m (aIdx (ro 0 i0), 0) <> None) ->
  m (aRand, 0) = Some (VN s0) ->
  In (t, i) sched -> In (t', i') sched -> t <> t' -> has_race (p_csr_banded_row next out N M) sched m.
Proof. exact (@csr_banded_race). Qed.
Print Assumptions c74_csr_banded_refuted.

(** dense fnorm2: shared(temp) races whenever two threads have at least one cell each *)
Theorem c74_dense_fnorm2_refuted :
  forall (F : scalar) (A B : dense F) (sched : list (nat * nat)) (m : mem loc (val F)) (x : F) (t t' i i' : nat),
  dwf A ->
  dwf B ->
  dN A = dN B ->
  Permutation (map snd sched) (seq 0 (dN A * dN A)) ->
  holdsK m (aDense 1) (dmx A) ->
  holdsK m (aDense 2) (dmx B) ->
  m (aDense 3, 0) = Some (VK x) -> In (t, i) sched -> In (t', i') sched -> t <> t' -> has_race p_dense_fnorm2 sched m.
Proof. exact (@dense_fnorm2_race). Qed.
Print Assumptions c74_dense_fnorm2_refuted.

(** multiply_x2 when a row of the product has more than M elements: the surplus is written into the next row before the test *)
Theorem c74_multiply_x2_overflow_refuted :
  exists (keep : Zscalar -> bool) (X X2 : ell Zscalar) (nth : nat) (sched : list (nat * nat)) (m : mem loc (val Zscalar)),
    wf X /\
    wf X2 /\
    eN X2 = eN X /\
    full_sched (eN X) nth sched /\
    holds m 0 X2 /\
    holds m 1 X /\
    (forall t : nat,
     t < nth -> holds_ws m t (ws_new 0%K (eN X)) /\ m (aAcc t, 0) = Some (VK 0%K) /\ m (aAcc t, 1) = Some (VK 0%K)) /\
    has_race (p_x2_row keep (eN X) (eM X) (eM X2)) sched m.
Proof. exact (@x2_overflow_race). Qed.
Print Assumptions c74_multiply_x2_overflow_refuted.

(** adjungate 'u': row ll is appended to under lock[ll], but A_nnz[ll] is read without it *)
Theorem c74_adjungate_refuted :
  exists (A : ell Zscalar) (sched : list (nat * nat)) (m : mem loc (val Zscalar)),
    wf A /\
    Permutation (map snd sched) (seq 0 (eN A)) /\
    (forall i j : nat, j < i -> i < eN A -> emat A i j = 0%K) /\
    holds m 0 A /\ has_race (p_adjungate_row (fun x : Zscalar => x) (eN A) (eM A)) sched m.
Proof. exact (@adjungate_race). Qed.
Print Assumptions c74_adjungate_refuted.

(** banded constructor: rand() in the parallel loop *)
Theorem c74_banded_refuted :
  forall (F : scalar) (next : nat -> nat) (out : nat -> F) (N M : nat) (m : mem loc (val F)) (s0 : nat),
  2 <= N ->
  0 < M -> m (aRand, 0) = Some (VN s0) -> has_race (p_banded_row next out N M) (map (fun i : nat => (i, i)) (seq 0 N)) m.
Proof. exact (@banded_race). Qed.
Print Assumptions c74_banded_refuted.

(** multiply_AB with C == B *)
Theorem c74_multiply_same_BC_refuted :
  exists (keep : Zscalar -> bool) (A B : ell Zscalar) (sched : list (nat * nat)) (m : mem loc (val Zscalar)),
    wf A /\
    wf B /\
    eN A = eN B /\
    Permutation (map snd sched) (seq 0 (eN A)) /\
    (forall i : nat, i < eN A -> prod_cols A B i <= eM B) /\
    holds m 0 B /\
    holds m 1 A /\
    (forall t : nat, In t (map fst sched) -> holds_ws m t (ws_new 0%K (eN B))) /\
    has_race (p_mul_row keep 1 0 (eN B) (eM A) (eM B) (eM B)) sched m.
Proof. exact (@multiply_same_BC_race). Qed.
Print Assumptions c74_multiply_same_BC_refuted.

(** and then the result can be wrong *)
Theorem c74_multiply_same_BC_wrong_refuted :
  exists
    (keep : Zscalar -> bool) (A B C : ell Zscalar) (sched : list (nat * nat)) (m : mem loc (val Zscalar)) 
  (s : mstate loc (val Zscalar)),
    wf A /\
    wf B /\
    eN A = eN B /\
    Permutation (map snd sched) (seq 0 (eN A)) /\
    (forall i : nat, i < eN A -> prod_cols A B i <= eM B) /\
    holds m 0 B /\
    holds m 1 A /\
    (forall t : nat, In t (map fst sched) -> holds_ws m t (ws_new 0%K (eN B))) /\
    reachable loc_eq_dec (start (p_mul_row keep 1 0 (eN B) (eM A) (eM B) (eM B)) sched m) s /\
    finished s /\ holds (me s) 0 C /\ emat C 0 0 <> mcut_offdiag keep (mmul (eN A) (emat A) (emat B)) 0 0.
Proof. exact (@multiply_same_BC_wrong). Qed.
Print Assumptions c74_multiply_same_BC_wrong_refuted.

(** multiply_x2 with X2 == X *)
Theorem c74_multiply_x2_same_refuted :
  exists (keep : Zscalar -> bool) (X : ell Zscalar) (sched : list (nat * nat)) (m : mem loc (val Zscalar)),
    wf X /\
    Permutation (map snd sched) (seq 0 (eN X)) /\
    (forall i : nat, i < eN X -> prod_cols X X i <= eM X) /\
    holds m 0 X /\
    (forall t : nat, In t (map fst sched) -> holds_ws m t (ws_new 0%K (eN X))) /\
    has_race (p_mul_row keep 0 0 (eN X) (eM X) (eM X) (eM X)) sched m.
Proof. exact (@multiply_x2_same_race). Qed.
Print Assumptions c74_multiply_x2_same_refuted.
