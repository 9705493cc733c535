(** Theorems about the submatrix and graph functions of the ellpack format: extract and assign (C34), adjacency (C35),
    matrix of groups (C36), adjungate triangle (C49), core+halo submatrices (C62). *)
From Verif Require Import Base Spec SpecFacts EllpackModel EllpackSpec EllpackExact EllpackCheck
  DenseModel DenseSpec SubModel SubSpec SubIndex SubBlock SubSame SubAdj SubGroup SubCheck.

(** C34 *)
Theorem c34_ellpack_extract :
  forall (F : scalar) (A : ell F) (irow icol BN BM : nat),
  wf A ->
  irow + BN <= eN A ->
  0 < BM ->
  (forall i : nat, i < BN -> block_count A icol BN (irow + i) <= BM) ->
  exists B : ell F,
    ell_extract A irow icol BN BM = Ok B /\ wf B /\ eN B = BN /\ eM B = BM /\ meq BN (emat B) (sub_at (emat A) irow icol).
Proof. exact (@ell_extract_ok). Qed.
Print Assumptions c34_ellpack_extract.

(** missing: blocks with stored elements, rows without room *)
Theorem c34_ellpack_assign_partial :
  forall (F : scalar) (A B : ell F) (irow icol : nat),
  wf A ->
  wf B ->
  irow + eN B <= eN A ->
  icol + eN B <= eN A ->
  (forall i j : nat, i < eN B -> j < eN B -> stored A (irow + i) (icol + j) = false) ->
  (forall i : nat, i < eN B -> nnz A (irow + i) + nnz B i <= eM A) ->
  exists A' : ell F,
    ell_assign A B irow icol = Ok A' /\
    wf A' /\ same_dims A A' /\ meq (eN A) (emat A') (paste (emat A) (emat B) irow icol (eN B)).
Proof. exact (@ell_assign_ok). Qed.
Print Assumptions c34_ellpack_assign_partial.

Theorem c34_ellpack_assign_extract_partial :
  forall (F : scalar) (A B : ell F) (irow icol BM : nat),
  wf A ->
  wf B ->
  irow + eN B <= eN A ->
  icol + eN B <= eN A ->
  (forall i j : nat, i < eN B -> j < eN B -> stored A (irow + i) (icol + j) = false) ->
  (forall i : nat, i < eN B -> nnz A (irow + i) + nnz B i <= eM A) ->
  0 < BM ->
  eN B <= BM ->
  exists A' B' : ell F,
    ell_assign A B irow icol = Ok A' /\ ell_extract A' irow icol (eN B) BM = Ok B' /\ wf B' /\ meq (eN B) (emat B') (emat B).
Proof. exact (@ell_assign_extract). Qed.
Print Assumptions c34_ellpack_assign_extract_partial.

Theorem c34_ellpack_assign_refuted :
  exists (A B A' : ell Zscalar) irow icol i j,
  wf A /\ wf B /\ irow + eN B <= eN A /\ icol + eN B <= eN A /\ i < eN A /\ j < eN A /\
  ell_assign A B irow icol = Ok A' /\ emat A' i j <> paste (emat A) (emat B) irow icol (eN B) i j /\ ~ wf A'.
Proof. exact (@ell_assign_refuted). Qed.
Print Assumptions c34_ellpack_assign_refuted.

Example c34_ellpack_instance : wf exG /\ 1 + 2 <= eN exG /\ (forall i, i < 2 -> block_count exG 1 2 (1 + i) <= 2) /\
  wf exDg /\ (exists B : ell Zscalar, ell_extract exG 1 1 2 2 = Ok B /\ emat B 1 0 = 5%Z /\ wf B /\ 0 + eN B <= eN exDg /\ 2 + eN B <= eN exDg /\
    (forall i, i < eN B -> nnz exDg (0 + i) + nnz B i <= eM exDg) /\
    exists A', ell_assign exDg B 0 2 = Ok A' /\ emat A' 1 2 = 5%Z /\ emat A' 1 1 = 2%Z) /\
  (forall i j, i < 2 -> j < 2 -> stored exDg (0 + i) (2 + j) = false).
Proof. split; [apply exG_wf|]. split; [simpl; lia|]. split; [intros i Hi; do 2 (destruct i as [|i]; [vm_compute; lia|]); lia|]. split; [apply wfb_ok; reflexivity|]. split.
  - eexists. split; [vm_compute; reflexivity|]. split; [reflexivity|]. split; [apply wfb_ok; reflexivity|]. split; [simpl; lia|]. split; [simpl; lia|].
    split; [intros i Hi; simpl in Hi; do 2 (destruct i as [|i]; [vm_compute; lia|]); lia|]. eexists. split; [vm_compute; reflexivity|]. split; reflexivity.
  - intros i j Hi Hj. do 2 (destruct i as [|i]; [do 2 (destruct j as [|j]; [reflexivity|]); lia|]). lia. Qed.

(** C35: all rows store their diagonal, or none does; missing: other matrices *)
Theorem c35_adjacency_partial :
  forall (F : scalar) (A : ell F) (xadj adj : list nat) (base1 diag : bool) (n1 n2 n3 : nat) (s1 s2 s3 : list (nat * nat)),
  wf A ->
  0 < eN A ->
  (forall i : nat, i < eN A -> has_diag A i = diag) ->
  eN A + 1 <= length xadj ->
  nsum (eN A) (deg A) <= length adj ->
  full_sched (eN A) n1 s1 ->
  full_sched (eN A) n2 s2 ->
  full_sched (eN A) n3 s3 ->
  exists xadj' adj' : list nat,
    ell_adjacency A xadj adj base1 s1 s2 s3 = Ok (xadj', adj') /\
    length xadj' = length xadj /\
    length adj' = length adj /\
    (forall i : nat, i <= eN A -> nth i xadj' 0 = (if base1 then 1 else 0) + nsum i (deg A)) /\
    (forall i t : nat,
     i < eN A -> t < deg A i -> nth (nsum i (deg A) + t) adj' 0 = (if base1 then 1 else 0) + nth t (offdiag_cols A i) 0).
Proof. exact (@ell_adjacency_ok). Qed.
Print Assumptions c35_adjacency_partial.

Theorem c35_adjacency_refuted :
  exists (A : ell Zscalar) xadj adj xadj' adj' s,
  wf A /\ full_sched (eN A) 1 s /\ length xadj = eN A + 1 /\ length adj = nsum (eN A) (deg A) /\
  ell_adjacency A xadj adj false s s s = Ok (xadj', adj') /\ nth (eN A) xadj' 0 <> nsum (eN A) (deg A).
Proof. exact (@adjacency_refuted). Qed.
Print Assumptions c35_adjacency_refuted.

Theorem c35_adjacency_overrun_refuted :
  exists (A : ell Zscalar) xadj adj s,
  wf A /\ full_sched (eN A) 1 s /\ length xadj = eN A + 1 /\ length adj = nsum (eN A) (deg A) /\
  ell_adjacency A xadj adj false s s s = UB.
Proof. exact (@adjacency_overrun_refuted). Qed.
Print Assumptions c35_adjacency_overrun_refuted.

Theorem c35_adjacency_negative_refuted :
  exists (A : ell Zscalar) xadj s,
  wf A /\ full_sched (eN A) 1 s /\ length xadj = eN A + 1 /\ nsum (eN A) (deg A) = 0 /\ ell_adjacency A xadj [] false s s s = UB.
Proof. exact (@adjacency_negative_refuted). Qed.
Print Assumptions c35_adjacency_negative_refuted.

(** among listed rows; 1-based output needs one extra element in adjncy *)
Theorem c35_adjacency_group :
  forall (F : scalar) (A : ell F) (hindex xadj adj : list nat) (base1 : bool) (n1 : nat) (s1 : list (nat * nat)),
  wf A ->
  (forall h : nat, In h hindex -> 1 <= h <= eN A) ->
  length hindex + 1 <= length xadj ->
  nsum (length hindex) (fun i : nat => length (nbr_nodes A hindex i)) + (if base1 then 1 else 0) <= length adj ->
  full_sched (length hindex) n1 s1 ->
  exists xadj' adj' : list nat,
    ell_adjacency_group A hindex xadj adj base1 s1 = Ok (xadj', adj') /\
    length xadj' = length xadj /\
    length adj' = length adj /\
    (forall i : nat,
     i <= length hindex ->
     nth i xadj' 0 = (if base1 then 1 else 0) + nsum i (fun i0 : nat => length (nbr_nodes A hindex i0))) /\
    (forall i t : nat,
     i < length hindex ->
     t < length (nbr_nodes A hindex i) ->
     nth (nsum i (fun i0 : nat => length (nbr_nodes A hindex i0)) + t) adj' 0 =
     (if base1 then 1 else 0) + nth t (nbr_nodes A hindex i) 0).
Proof. exact (@ell_adjacency_group_ok). Qed.
Print Assumptions c35_adjacency_group.

Theorem c35_adjacency_group_refuted :
  exists (A : ell Zscalar) hindex xadj adj s,
  wf A /\ (forall h, In h hindex -> 1 <= h <= eN A) /\ length xadj = length hindex + 1 /\
  length adj = nsum (length hindex) (fun i => length (nbr_nodes A hindex i)) /\ full_sched (length hindex) 1 s /\
  ell_adjacency_group A hindex xadj adj true s = UB /\ exists r, ell_adjacency_group A hindex xadj adj false s = Ok r.
Proof. exact (@adjacency_group_refuted). Qed.
Print Assumptions c35_adjacency_group_refuted.

Example c35_instance : wf exG /\ (forall i, i < eN exG -> has_diag exG i = true) /\ nsum (eN exG) (deg exG) = 4 /\ full_sched (eN exG) 2 exS4 /\
  ell_adjacency exG [9; 9; 9; 9; 9] [9; 9; 9; 9] true exS4 exS4 exS4 = Ok ([1; 2; 3; 4; 5], [4; 3; 2; 1]) /\
  nbr_nodes exG [1; 2; 4] 0 = [0; 2].
Proof. split; [apply exG_wf|]. split; [intros i Hi; simpl in Hi; do 4 (destruct i as [|i]; [reflexivity|]); lia|]. split; [reflexivity|]. split; [apply exS4_full|]. split; reflexivity. Qed.

(** C36: never too many connections; all of them when every thread runs at most one row.  Missing: threads that run several rows (refuted) *)
Theorem c36_group_matrix_partial :
  forall (F : scalar) (keep : F -> bool) (A : ell F) (hindex : list nat) (gv : nat -> F) (gi : nat -> nat) 
    (nth_ : nat) (sched : list (nat * nat)),
  wf A ->
  groups_ok (eN A) hindex ->
  full_sched (length hindex) nth_ sched ->
  exists B : ell F,
    ell_group_matrix keep A hindex gv gi sched = Ok B /\
    wf B /\
    eN B = length hindex /\
    (forall i : nat, i < length hindex -> stored B i i = true) /\
    (forall i k : nat,
     i < length hindex -> stored B i k = true -> emat B i k = 1%K /\ (i = k \/ connected keep A hindex i k)) /\
    (NoDup (map fst sched) -> forall i k : nat, i < length hindex -> connected keep A hindex i k -> stored B i k = true).
Proof. exact (@ell_group_matrix_ok). Qed.
Print Assumptions c36_group_matrix_partial.

(** the variant compiled by the IBM compilers, any schedule *)
Theorem c36_group_matrix_ibm :
  forall (F : scalar) (keep : F -> bool) (A : ell F) (hindex : list nat) (gv : nat -> F) (gi : nat -> nat) 
    (nth_ : nat) (sched : list (nat * nat)),
  wf A ->
  groups_ok (eN A) hindex ->
  full_sched (length hindex) nth_ sched ->
  exists B : ell F,
    ell_group_matrix_ibm keep A hindex gv gi sched = Ok B /\
    wf B /\
    eN B = length hindex /\
    (forall i k : nat, i < length hindex -> stored B i k = true <-> i = k \/ connected keep A hindex i k) /\
    (forall i k : nat, i < length hindex -> stored B i k = true -> emat B i k = 1%K).
Proof. exact (@ell_group_matrix_ibm_ok). Qed.
Print Assumptions c36_group_matrix_ibm.

Theorem c36_group_matrix_refuted :
  exists (A B B' : ell Zscalar) hindex s s' i k,
  wf A /\ groups_ok (eN A) hindex /\ full_sched (length hindex) 1 s /\ full_sched (length hindex) 3 s' /\ i < length hindex /\
  connected (gtZ 0) A hindex i k /\
  ell_group_matrix (gtZ 0) A hindex (fun _ => k0) (fun _ => 0) s = Ok B /\ stored B i k = false /\
  ell_group_matrix (gtZ 0) A hindex (fun _ => k0) (fun _ => 0) s' = Ok B' /\ stored B' i k = true.
Proof. exact (@group_matrix_refuted). Qed.
Print Assumptions c36_group_matrix_refuted.

Example c36_instance : wf exG /\ groups_ok (eN exG) [1; 2; 4] /\ full_sched 3 3 exS3each /\ NoDup (map fst exS3each) /\
  exists B, ell_group_matrix (gtZ 0) exG [1; 2; 4] (fun _ => k0) (fun _ => 0) exS3each = Ok B /\ stored B 0 2 = true /\ stored B 0 1 = false.
Proof. split; [apply exG_wf|]. split; [repeat split; try (simpl; lia); intros i Hi; simpl in Hi; do 2 (destruct i as [|i]; [simpl; lia|]); lia|].
  split; [apply full_schedb; reflexivity|]. split; [apply nodupb_ok; reflexivity|]. eexists. split; [vm_compute; reflexivity|]. split; reflexivity. Qed.

(** C49: the target triangle holds no elements and M is at least N; missing: other matrices (refuted) *)
Theorem c49_ellpack_adjungate_partial :
  forall (F : scalar) (cj : F -> F) (A : ell F) (upper : bool) (nth_ : nat) (sched : list (nat * nat)),
  wf A ->
  eN A <= eM A ->
  cj 0%K = 0%K ->
  (forall i j : nat, i < j < eN A -> (if upper then stored A j i else stored A i j) = false) ->
  full_sched (eN A) nth_ sched ->
  exists A' : ell F,
    ell_adjungate cj A (if upper then TriU else TriL) sched = Ok A' /\
    wf A' /\
    same_dims A A' /\
    meq (eN A) (emat A') (fun i j : nat => if if upper then j <? i else i <? j then cj (emat A j i) else emat A i j).
Proof. exact (@ell_adjungate_ok). Qed.
Print Assumptions c49_ellpack_adjungate_partial.

Theorem c49_ellpack_adjungate_refuted :
  exists (A A' : ell Zscalar) s i j,
  wf A /\ eN A <= eM A /\ full_sched (eN A) 1 s /\ i < eN A /\ j < i /\
  ell_adjungate (fun x => x) A TriU s = Ok A' /\ emat A' i j <> emat A j i /\ ~ wf A'.
Proof. exact (@ell_adjungate_refuted). Qed.
Print Assumptions c49_ellpack_adjungate_refuted.

Theorem c49_ellpack_adjungate_lock_refuted :
  exists (A : ell Zscalar) s,
  wf A /\ (forall i j, i < j < eN A -> stored A j i = false) /\ full_sched (eN A) 1 s /\ (forall i, i < eN A -> nnz A i < eM A) /\
  ell_adjungate (fun x => x) A TriU s = UB.
Proof. exact (@ell_adjungate_lock_refuted). Qed.
Print Assumptions c49_ellpack_adjungate_lock_refuted.

Example c49_ellpack_instance : wf exUp /\ eN exUp <= eM exUp /\ (forall i j, i < j < eN exUp -> stored exUp j i = false) /\ full_sched (eN exUp) 2 exS /\
  exists A', ell_adjungate (fun x => x) exUp TriU exS = Ok A' /\ emat A' 2 1 = 4%Z /\ emat A' 1 2 = 4%Z.
Proof. split; [apply exUp_wf|]. split; [simpl; lia|]. split; [intros i j H; simpl in H; destruct j as [|[|[|j]]]; try lia; destruct i as [|[|[|i]]]; try lia; reflexivity|].
  split; [apply exS_full|]. eexists. split; [vm_compute; reflexivity|]. split; reflexivity. Qed.

(** C62 *)
Theorem c62_index :
  forall (F : scalar) (A B : ell F) (nl ch : list nat) (dj : bool),
  wf A ->
  wf B ->
  eN B = eN A ->
  (forall k : nat, In k nl -> k < eN A) ->
  eN A <= length ch ->
  exists (ch' : list nat) (l ll : nat),
    ell_sub_index A B nl ch dj = Ok (ch', l, ll) /\
    length ch' = length ch /\
    ll <= l <= eN A /\
    firstn ll ch' = first_occ [] nl /\
    NoDup (firstn l ch') /\
    length (firstn l ch') = l /\
    (forall k : nat, In k (firstn l ch') <-> (if dj then reach2 [B; A] B nl k else reach1 [B; A] nl k)).
Proof. exact (@ell_sub_index_ok). Qed.
Print Assumptions c62_index.

Theorem c62_index_graph :
  forall (F : scalar) (B : ell F) (nl ch : list nat) (dj : bool),
  wf B ->
  (forall k : nat, In k nl -> k < eN B) ->
  eN B <= length ch ->
  exists (ch' : list nat) (l ll : nat),
    ell_sub_index_graph B nl ch dj = Ok (ch', l, ll) /\
    length ch' = length ch /\
    ll <= l <= eN B /\
    firstn ll ch' = first_occ [] nl /\
    NoDup (firstn l ch') /\
    length (firstn l ch') = l /\
    (forall k : nat, In k (firstn l ch') <-> (if dj then reach2 [B] B nl k else reach1 [B] nl k)).
Proof. exact (@ell_sub_index_graph_ok). Qed.
Print Assumptions c62_index_graph.

(** missing: rows without stored elements (refuted) *)
Theorem c62_extract_partial :
  forall (F : scalar) (A : ell F) (B : dense F) (ch : list nat) (nth_ : nat) (sched : list (nat * nat)),
  wf A ->
  dwf B ->
  length ch <= dN B ->
  (forall k : nat, In k ch -> k < eN A) ->
  (forall k : nat, In k ch -> 0 < nnz A k) ->
  full_sched (length ch) nth_ sched ->
  exists B' : dense F,
    ell_sub_extract A B ch sched = Ok B' /\
    dwf B' /\
    dN B' = dN B /\
    (forall i j : nat,
     i < dN B ->
     j < dN B ->
     denm B' i j = (if (i <? length ch) && (j <? length ch) then emat A (nth i ch 0) (nth j ch 0) else denm B i j)).
Proof. exact (@ell_sub_extract_ok). Qed.
Print Assumptions c62_extract_partial.

Theorem c62_assemble :
  forall (F : scalar) (keep : F -> bool) (A : dense F) (B : ell F) (ch : list nat) (ll nth_ : nat)
    (sched : list (nat * nat)),
  wf B ->
  dwf A ->
  length ch <= dN A ->
  ll <= length ch ->
  NoDup ch ->
  (forall k : nat, In k ch -> k < eN B) ->
  full_sched ll nth_ sched ->
  (forall ja : nat, ja < ll -> count (length ch) (fun jb : nat => keep (denm A ja jb)) <= eM B) ->
  exists B' : ell F,
    ell_sub_assemble keep A B ch sched = Ok B' /\
    wf B' /\
    same_dims B B' /\
    (forall ja jb : nat, ja < ll -> jb < length ch -> emat B' (nth ja ch 0) (nth jb ch 0) = cut keep (denm A ja jb)) /\
    (forall ja j : nat, ja < ll -> ~ In j ch -> emat B' (nth ja ch 0) j = 0%K) /\
    (forall i j : nat, i < eN B -> ~ In i (firstn ll ch) -> emat B' i j = emat B i j).
Proof. exact (@ell_sub_assemble_ok). Qed.
Print Assumptions c62_assemble.

(** missing: core or halo rows without stored elements *)
Theorem c62_round_trip_partial :
  forall (F : scalar) (keep : F -> bool) (A B C : ell F) (D : dense F) (nl ch : list nat) (dj : bool) 
    (n1 n2 : nat) (s1 s2 : list (nat * nat)) (ch' : list nat) (l ll : nat),
  wf A ->
  wf B ->
  wf C ->
  dwf D ->
  eN B = eN A ->
  eN C = eN A ->
  dN D = l ->
  (forall k : nat, In k nl -> k < eN A) ->
  eN A <= length ch ->
  ell_sub_index A B nl ch dj = Ok (ch', l, ll) ->
  (forall k : nat, In k (firstn l ch') -> 0 < nnz A k) ->
  full_sched l n1 s1 ->
  full_sched ll n2 s2 ->
  (forall i : nat, In i nl -> count (eN A) (fun j : nat => keep (emat A i j)) <= eM C) ->
  keep 0%K = false ->
  exists (D' : dense F) (C' : ell F),
    ell_sub_extract A D (firstn l ch') s1 = Ok D' /\
    ell_sub_assemble keep D' C (firstn l ch') s2 = Ok C' /\
    wf C' /\
    same_dims C C' /\
    meq (eN A) (emat C') (fun i j : nat => if existsb (Nat.eqb i) nl then cut keep (emat A i j) else emat C i j).
Proof. exact (@ell_sub_round_trip). Qed.
Print Assumptions c62_round_trip_partial.

Theorem c62_extract_refuted :
  exists (A : ell Zscalar) (B : dense Zscalar) ch s,
  wf A /\ dwf B /\ length ch = dN B /\ NoDup ch /\ (forall k, In k ch -> k < eN A) /\ full_sched (length ch) 1 s /\
  ell_sub_extract A B ch s = UB.
Proof. exact (@sub_extract_refuted). Qed.
Print Assumptions c62_extract_refuted.

Theorem c62_assemble_refuted :
  exists (A : dense Zscalar) (B : ell Zscalar) ch s,
  wf B /\ dwf A /\ length ch = dN A /\ NoDup ch /\ (forall k, In k ch -> k < eN B) /\ full_sched (length ch) 1 s /\
  ell_sub_assemble (gtZ 0) A B ch s = UB.
Proof. exact (@sub_assemble_refuted). Qed.
Print Assumptions c62_assemble_refuted.

Example c62_instance : wf exG /\ wf exA /\ (forall k, k < eN exG -> 0 < nnz exG k) /\
  ell_sub_index exG exG [3; 1; 3] [0; 0; 0; 0] false = Ok ([3; 1; 0; 2], 4, 2) /\ full_sched 4 2 exS4 /\ full_sched 2 1 [(0, 1); (0, 0)] /\
  exists (D : dense Zscalar) (C : ell Zscalar), ell_sub_extract exG (@mkDense Zscalar 4 (repeat 0%Z 16)) [3; 1; 0; 2] exS4 = Ok D /\ denm D 0 2 = 7%Z /\
    ell_sub_assemble (gtZ 0) D (@mkEll Zscalar 4 2 (repeat 0%Z 8) (repeat 0 8) (repeat 0 4)) [3; 1; 0; 2] [(0, 1); (0, 0)] = Ok C /\ emat C 3 0 = 7%Z /\ emat C 0 3 = 0%Z.
Proof. split; [apply exG_wf|]. split; [apply exA_wf|]. split; [intros k Hk; simpl in Hk; do 4 (destruct k as [|k]; [vm_compute; lia|]); lia|].
  split; [reflexivity|]. split; [apply exS4_full|]. split; [apply full_schedb; reflexivity|].
  do 2 eexists. split; [vm_compute; reflexivity|]. split; [reflexivity|]. split; [vm_compute; reflexivity|]. split; reflexivity. Qed.
