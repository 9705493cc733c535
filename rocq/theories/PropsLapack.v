(** C64, C65.  LapackSpec.v says what LAPACK promises ([eig_call], [inv_call]) and what an eigensystem
    and an inverse are; denm, emat, cmat, ebmx are the matrices that dense, ellpack, csr and ellblock matrices stand for. *)
From Verif Require Import Base Spec SpecFacts EllpackModel EllpackSpec EllpackExact EllpackCheck CsrModel CsrSpec GemmModel DenseModel DenseSpec
  EllblockModel EllblockSpec EllblockFacts EllblockHeap EllblockCheck LapackModel LapackSpec LapackFacts LapackCheck.
From Coq Require Import Permutation Qcanon.
Local Close Scope Q_scope.
Local Close Scope Qc_scope.
Local Open Scope nat_scope.

(** real symmetric matrices; LAPACK is any routine that keeps its promise on the arrays that store A by rows *)
Theorem c64_dense_real :
  forall (F : scalar) (le : F -> F -> Prop) (eigs : nat -> list F -> res (list F * list F)) (A : dense F) 
    (ev : list F) (E : dense F),
  dwf A ->
  dwf E ->
  dN E = dN A ->
  length ev = dN A ->
  hermitian (fun x : F => x) (dN A) (denm A) ->
  (forall a : list F, by_rows (dN A) (denm A) a -> eig_call (fun x : F => x) le eigs (dN A) a) ->
  exists (w : list F) (E' : dense F),
    dense_diagonalize eigs A ev E = Ok (w, E') /\
    length w = dN A /\ dwf E' /\ dN E' = dN A /\ eigensystem (fun x : F => x) le (dN A) (denm A) w (denm E').
Proof. exact (@dense_diagonalize_real). Qed.
Print Assumptions c64_dense_real.

Example c64_dense_real_instance :
  exists w E', dense_diagonalize qeigs qA [q 7 1; q 7 1] qA = Ok (w, E') /\ length w = 2 /\ dwf E' /\ dN E' = 2 /\
  eigensystem (F:=Qscalar) (fun x => x) Qcle 2 (denm qA) w (denm E').
Proof. exact (@qA_diagonalize). Qed.

(** ellpack, where a row can hold N elements *)
Theorem c64_ellpack_real :
  forall (F : scalar) (le0 : F -> F -> Prop) (eigs : nat -> list F -> res (list F * list F)) (keep : F -> bool) 
    (A : ell F) (ev : list F) (E : ell F) (s1 s2 : list (nat * nat)),
  wf A ->
  wf E ->
  EllpackSpec.same_dims A E ->
  0 < eM A ->
  eN A <= eM A ->
  length ev = eN A ->
  keeps_nonzero keep ->
  Permutation (map snd s1) (seq 0 (eN A)) ->
  Permutation (map snd s2) (seq 0 (eN A)) ->
  hermitian (fun x : F => x) (eN A) (emat A) ->
  (forall a : list F, by_rows (eN A) (emat A) a -> eig_call (fun x : F => x) le0 eigs (eN A) a) ->
  exists (w : list F) (E' : ell F),
    ell_diagonalize eigs keep A ev E s1 s2 = Ok (w, E') /\
    length w = eN A /\ wf E' /\ EllpackSpec.same_dims A E' /\ eigensystem (fun x : F => x) le0 (eN A) (emat A) w (emat E').
Proof. exact (@ell_diagonalize_real). Qed.
Print Assumptions c64_ellpack_real.

Example c64_ellpack_real_instance :
  exists w E', ell_diagonalize qeigs nonzero qE [q 7 1; q 7 1] qE s2 s2 = Ok (w, E') /\ length w = 2 /\ wf E' /\ EllpackSpec.same_dims qE E' /\
  eigensystem (F:=Qscalar) (fun x => x) Qcle 2 (emat qE) w (emat E').
Proof. exact (@qE_diagonalize). Qed.

(** csr, where the rows of the matrix of eigenvectors can hold N elements *)
Theorem c64_csr_real :
  forall (F : scalar) (le0 : F -> F -> Prop) (eigs : nat -> list F -> res (list F * list F)) (keep : F -> bool) 
    (A : csr F) (ev : list F) (E : csr F) (s1 s2 s3 : list (nat * nat)),
  cwf A ->
  cwf E ->
  cN E = cN A ->
  (forall i : nat, i < cN A -> cN A <= calloc E i) ->
  length ev = cN A ->
  keeps_nonzero keep ->
  Permutation (map snd s1) (seq 0 (cN A)) ->
  Permutation (map snd s2) (seq 0 (cN A)) ->
  Permutation (map snd s3) (seq 0 (cN A)) ->
  hermitian (fun x : F => x) (cN A) (cmat A) ->
  (forall a : list F, by_rows (cN A) (cmat A) a -> eig_call (fun x : F => x) le0 eigs (cN A) a) ->
  exists (w : list F) (E' : csr F),
    csr_diagonalize eigs keep A ev E s1 s2 s3 = Ok (w, E') /\
    length w = cN A /\ cwf E' /\ cdims E E' /\ eigensystem (fun x : F => x) le0 (cN A) (cmat A) w (cmat E').
Proof. exact (@csr_diagonalize_real). Qed.
Print Assumptions c64_csr_real.

Example c64_csr_real_instance :
  exists w E', csr_diagonalize qeigs nonzero qC [q 7 1; q 7 1] qC s2 s2 s2 = Ok (w, E') /\ length w = 2 /\ cwf E' /\ cdims qC E' /\
  eigensystem (F:=Qscalar) (fun x => x) Qcle 2 (cmat qC) w (cmat E').
Proof. exact (@qC_diagonalize). Qed.

(** ellblock, where the slots of the matrix of eigenvectors are empty or large enough *)
Theorem c64_ellblock_real :
  forall (F : scalar) (le0 : F -> F -> Prop) (eigs : nat -> list F -> res (list F * list F)) (c : cache) 
    (keep : F -> bool) (A : eb F) (ev : list F) (E : eb F) (g : nat -> F) (nth_ : nat) (sched : list (nat * nat))
    (d : defaults),
  ebwf A ->
  (forall ib : nat, ib < bNB A -> 0 < bsz (bbs A) ib) ->
  bM A <= bN A ->
  bml_get_block_sizes c (bN A) (bM A) = Ok d ->
  sizes_for d (bN A) ->
  s_nb d <= s_mb d ->
  keeps_nonzero keep ->
  length ev = bN A ->
  eb_shape E ->
  tidy E ->
  bN E = bN A ->
  bNB E = s_nb d ->
  bMB E = s_mb d ->
  bbs E = s_bsize d ->
  full_sched (s_nb d) nth_ sched ->
  (forall ib jp jb : nat,
   ib < s_nb d -> jp < s_mb d -> jb < s_nb d -> slot_fits E ib jp (bsz (s_bsize d) ib * bsz (s_bsize d) jb)) ->
  hermitian (fun x : F => x) (bN A) (ebmx A) ->
  (forall a : list F, by_rows (bN A) (ebmx A) a -> eig_call (fun x : F => x) le0 eigs (bN A) a) ->
  exists (w : list F) (E' : eb F),
    eb_diagonalize eigs c keep A ev E g sched = Ok (Some d, w, E') /\
    length w = bN A /\ ebwf E' /\ same_dims E E' /\ eigensystem (fun x : F => x) le0 (bN A) (ebmx A) w (ebmx E').
Proof. exact (@eb_diagonalize_real). Qed.
Print Assumptions c64_ellblock_real.

Example c64_ellblock_real_instance :
  exists w E', eb_diagonalize qeigs (Some d11) nonzero qB [q 7 1; q 7 1] qB0 (fun _ => q 9 1) s2 = Ok (Some d11, w, E') /\ length w = 2 /\ ebwf E' /\
  EllblockSpec.same_dims qB0 E' /\ eigensystem (F:=Qscalar) (fun x => x) Qcle 2 (ebmx qB) w (ebmx E').
Proof. exact (@qB_diagonalize). Qed.

(** complex Hermitian matrices: the conjugates of the vectors returned are the eigenvectors *)
Theorem c64_dense_complex_partial :
  forall (F : scalar) (le : F -> F -> Prop) (eigs : nat -> list F -> res (list F * list F)) (conj : F -> F) 
    (A : dense F) (ev : list F) (E : dense F),
  conj_morphism conj ->
  dwf A ->
  dwf E ->
  dN E = dN A ->
  length ev = dN A ->
  hermitian conj (dN A) (denm A) ->
  (forall a : list F, by_rows (dN A) (denm A) a -> eig_call conj le eigs (dN A) a) ->
  exists (w : list F) (E' : dense F),
    dense_diagonalize eigs A ev E = Ok (w, E') /\
    length w = dN A /\ dwf E' /\ dN E' = dN A /\ eigensystem conj le (dN A) (denm A) w (mconj conj (denm E')).
Proof. exact (@dense_diagonalize_complex). Qed.
Print Assumptions c64_dense_complex_partial.

Example c64_dense_complex_instance :
  exists w E', dense_diagonalize ceigs cA [c 7 0 1; c 7 0 1] cA = Ok (w, E') /\ length w = 2 /\ dwf E' /\ dN E' = 2 /\
  eigensystem (F:=Cscalar) Cconj leC 2 (denm cA) w (mconj (F:=Cscalar) Cconj (denm E')).
Proof. exact (@cA_diagonalize). Qed.

Theorem c64_ellpack_complex_partial :
  forall (F : scalar) (le0 : F -> F -> Prop) (eigs : nat -> list F -> res (list F * list F)) (conj : F -> F)
    (keep : F -> bool) (A : ell F) (ev : list F) (E : ell F) (s1 s2 : list (nat * nat)),
  conj_morphism conj ->
  wf A ->
  wf E ->
  EllpackSpec.same_dims A E ->
  0 < eM A ->
  eN A <= eM A ->
  length ev = eN A ->
  keeps_nonzero keep ->
  Permutation (map snd s1) (seq 0 (eN A)) ->
  Permutation (map snd s2) (seq 0 (eN A)) ->
  hermitian conj (eN A) (emat A) ->
  (forall a : list F, by_rows (eN A) (emat A) a -> eig_call conj le0 eigs (eN A) a) ->
  exists (w : list F) (E' : ell F),
    ell_diagonalize eigs keep A ev E s1 s2 = Ok (w, E') /\
    length w = eN A /\ wf E' /\ EllpackSpec.same_dims A E' /\ eigensystem conj le0 (eN A) (emat A) w (mconj conj (emat E')).
Proof. exact (@ell_diagonalize_complex). Qed.
Print Assumptions c64_ellpack_complex_partial.

Theorem c64_csr_complex_partial :
  forall (F : scalar) (le0 : F -> F -> Prop) (eigs : nat -> list F -> res (list F * list F)) (conj : F -> F)
    (keep : F -> bool) (A : csr F) (ev : list F) (E : csr F) (s1 s2 s3 : list (nat * nat)),
  conj_morphism conj ->
  cwf A ->
  cwf E ->
  cN E = cN A ->
  (forall i : nat, i < cN A -> cN A <= calloc E i) ->
  length ev = cN A ->
  keeps_nonzero keep ->
  Permutation (map snd s1) (seq 0 (cN A)) ->
  Permutation (map snd s2) (seq 0 (cN A)) ->
  Permutation (map snd s3) (seq 0 (cN A)) ->
  hermitian conj (cN A) (cmat A) ->
  (forall a : list F, by_rows (cN A) (cmat A) a -> eig_call conj le0 eigs (cN A) a) ->
  exists (w : list F) (E' : csr F),
    csr_diagonalize eigs keep A ev E s1 s2 s3 = Ok (w, E') /\
    length w = cN A /\ cwf E' /\ cdims E E' /\ eigensystem conj le0 (cN A) (cmat A) w (mconj conj (cmat E')).
Proof. exact (@csr_diagonalize_complex). Qed.
Print Assumptions c64_csr_complex_partial.

Theorem c64_ellblock_complex_partial :
  forall (F : scalar) (le0 : F -> F -> Prop) (eigs : nat -> list F -> res (list F * list F)) (conj : F -> F) 
    (c : cache) (keep : F -> bool) (A : eb F) (ev : list F) (E : eb F) (g : nat -> F) (nth_ : nat)
    (sched : list (nat * nat)) (d : defaults),
  conj_morphism conj ->
  ebwf A ->
  (forall ib : nat, ib < bNB A -> 0 < bsz (bbs A) ib) ->
  bM A <= bN A ->
  bml_get_block_sizes c (bN A) (bM A) = Ok d ->
  sizes_for d (bN A) ->
  s_nb d <= s_mb d ->
  keeps_nonzero keep ->
  length ev = bN A ->
  eb_shape E ->
  tidy E ->
  bN E = bN A ->
  bNB E = s_nb d ->
  bMB E = s_mb d ->
  bbs E = s_bsize d ->
  full_sched (s_nb d) nth_ sched ->
  (forall ib jp jb : nat,
   ib < s_nb d -> jp < s_mb d -> jb < s_nb d -> slot_fits E ib jp (bsz (s_bsize d) ib * bsz (s_bsize d) jb)) ->
  hermitian conj (bN A) (ebmx A) ->
  (forall a : list F, by_rows (bN A) (ebmx A) a -> eig_call conj le0 eigs (bN A) a) ->
  exists (w : list F) (E' : eb F),
    eb_diagonalize eigs c keep A ev E g sched = Ok (Some d, w, E') /\
    length w = bN A /\ ebwf E' /\ same_dims E E' /\ eigensystem conj le0 (bN A) (ebmx A) w (mconj conj (ebmx E')).
Proof. exact (@eb_diagonalize_complex). Qed.
Print Assumptions c64_ellblock_complex_partial.

(** ... and the vectors returned are never eigenvectors of A unless A is symmetric too, whatever LAPACK returns *)
Theorem c64_dense_complex_refuted :
  forall (F : scalar) (le : F -> F -> Prop) (eigs : nat -> list F -> res (list F * list F)) (conj : F -> F) 
    (A : dense F) (ev : list F) (E : dense F),
  conj_morphism conj ->
  dwf A ->
  dwf E ->
  dN E = dN A ->
  length ev = dN A ->
  hermitian conj (dN A) (denm A) ->
  (forall a : list F, by_rows (dN A) (denm A) a -> eig_call conj le eigs (dN A) a) ->
  (exists i j : nat, i < dN A /\ j < dN A /\ denm A i j <> denm A j i) ->
  exists (w : list F) (E' : dense F),
    dense_diagonalize eigs A ev E = Ok (w, E') /\ ~ eigensystem conj le (dN A) (denm A) w (denm E').
Proof. exact (@dense_diagonalize_wrong). Qed.
Print Assumptions c64_dense_complex_refuted.

Example c64_dense_complex_refuted_instance :
  exists w E', dense_diagonalize ceigs cA [c 7 0 1; c 7 0 1] cA = Ok (w, E') /\ ~ eigensystem (F:=Cscalar) Cconj leC 2 (denm cA) w (denm E').
Proof. exact (@cA_wrong). Qed.

Theorem c64_ellpack_complex_refuted :
  forall (F : scalar) (le0 : F -> F -> Prop) (eigs : nat -> list F -> res (list F * list F)) (conj : F -> F)
    (keep : F -> bool) (A : ell F) (ev : list F) (E : ell F) (s1 s2 : list (nat * nat)),
  conj_morphism conj ->
  wf A ->
  wf E ->
  EllpackSpec.same_dims A E ->
  0 < eM A ->
  eN A <= eM A ->
  length ev = eN A ->
  keeps_nonzero keep ->
  Permutation (map snd s1) (seq 0 (eN A)) ->
  Permutation (map snd s2) (seq 0 (eN A)) ->
  hermitian conj (eN A) (emat A) ->
  (forall a : list F, by_rows (eN A) (emat A) a -> eig_call conj le0 eigs (eN A) a) ->
  (exists i j : nat, i < eN A /\ j < eN A /\ emat A i j <> emat A j i) ->
  exists (w : list F) (E' : ell F),
    ell_diagonalize eigs keep A ev E s1 s2 = Ok (w, E') /\ ~ eigensystem conj le0 (eN A) (emat A) w (emat E').
Proof. exact (@ell_diagonalize_wrong). Qed.
Print Assumptions c64_ellpack_complex_refuted.

Theorem c64_csr_complex_refuted :
  forall (F : scalar) (le0 : F -> F -> Prop) (eigs : nat -> list F -> res (list F * list F)) (conj : F -> F)
    (keep : F -> bool) (A : csr F) (ev : list F) (E : csr F) (s1 s2 s3 : list (nat * nat)),
  conj_morphism conj ->
  cwf A ->
  cwf E ->
  cN E = cN A ->
  (forall i : nat, i < cN A -> cN A <= calloc E i) ->
  length ev = cN A ->
  keeps_nonzero keep ->
  Permutation (map snd s1) (seq 0 (cN A)) ->
  Permutation (map snd s2) (seq 0 (cN A)) ->
  Permutation (map snd s3) (seq 0 (cN A)) ->
  hermitian conj (cN A) (cmat A) ->
  (forall a : list F, by_rows (cN A) (cmat A) a -> eig_call conj le0 eigs (cN A) a) ->
  (exists i j : nat, i < cN A /\ j < cN A /\ cmat A i j <> cmat A j i) ->
  exists (w : list F) (E' : csr F),
    csr_diagonalize eigs keep A ev E s1 s2 s3 = Ok (w, E') /\ ~ eigensystem conj le0 (cN A) (cmat A) w (cmat E').
Proof. exact (@csr_diagonalize_wrong). Qed.
Print Assumptions c64_csr_complex_refuted.

Theorem c64_ellblock_complex_refuted :
  forall (F : scalar) (le0 : F -> F -> Prop) (eigs : nat -> list F -> res (list F * list F)) (conj : F -> F) 
    (c : cache) (keep : F -> bool) (A : eb F) (ev : list F) (E : eb F) (g : nat -> F) (nth_ : nat)
    (sched : list (nat * nat)) (d : defaults),
  conj_morphism conj ->
  ebwf A ->
  (forall ib : nat, ib < bNB A -> 0 < bsz (bbs A) ib) ->
  bM A <= bN A ->
  bml_get_block_sizes c (bN A) (bM A) = Ok d ->
  sizes_for d (bN A) ->
  s_nb d <= s_mb d ->
  keeps_nonzero keep ->
  length ev = bN A ->
  eb_shape E ->
  tidy E ->
  bN E = bN A ->
  bNB E = s_nb d ->
  bMB E = s_mb d ->
  bbs E = s_bsize d ->
  full_sched (s_nb d) nth_ sched ->
  (forall ib jp jb : nat,
   ib < s_nb d -> jp < s_mb d -> jb < s_nb d -> slot_fits E ib jp (bsz (s_bsize d) ib * bsz (s_bsize d) jb)) ->
  hermitian conj (bN A) (ebmx A) ->
  (forall a : list F, by_rows (bN A) (ebmx A) a -> eig_call conj le0 eigs (bN A) a) ->
  (exists i j : nat, i < bN A /\ j < bN A /\ ebmx A i j <> ebmx A j i) ->
  exists (w : list F) (E' : eb F),
    eb_diagonalize eigs c keep A ev E g sched = Ok (Some d, w, E') /\ ~ eigensystem conj le0 (bN A) (ebmx A) w (ebmx E').
Proof. exact (@eb_diagonalize_wrong). Qed.
Print Assumptions c64_ellblock_complex_refuted.

(** ellpack: the eigenvectors of a sparse matrix do not fit *)
Theorem c64_ellpack_room_refuted :
  exists eigs (A E : ell Qscalar) ev s1 s2, wf A /\ wf E /\ EllpackSpec.same_dims A E /\ length ev = eN A /\
  Permutation (map snd s1) (seq 0 (eN A)) /\ Permutation (map snd s2) (seq 0 (eN A)) /\ hermitian (F:=Qscalar) (fun x => x) (eN A) (emat A) /\
  (forall a, by_rows (eN A) (emat A) a -> eig_call (F:=Qscalar) (fun x => x) Qcle eigs (eN A) a) /\ ell_diagonalize eigs nonzero A ev E s1 s2 = UB.
Proof. exact (@ell_diagonalize_room_refuted). Qed.
Print Assumptions c64_ellpack_room_refuted.

(** csr: they do not fit a new matrix of zeros; the call stops with an error *)
Theorem c64_csr_room_refuted :
  exists eigs (A : csr Qscalar) ev s1 s2 s3, cwf A /\ length ev = cN A /\
  Permutation (map snd s1) (seq 0 (cN A)) /\ Permutation (map snd s2) (seq 0 (cN A)) /\ Permutation (map snd s3) (seq 0 (cN A)) /\
  hermitian (F:=Qscalar) (fun x => x) (cN A) (cmat A) /\
  (forall a, by_rows (cN A) (cmat A) a -> eig_call (F:=Qscalar) (fun x => x) Qcle eigs (cN A) a) /\
  csr_diagonalize eigs nonzero A ev (csr_zero (cN A) (cM A)) s1 s2 s3 = Err.
Proof. exact (@csr_diagonalize_room_refuted). Qed.
Print Assumptions c64_csr_room_refuted.

Theorem c65_dense :
  forall (F : scalar) (invs : nat -> list F -> res (list F)) (A : dense F) (gv : nat -> F),
  dwf A ->
  (exists Y : mat F, inverse_of (dN A) (denm A) Y) ->
  (forall a : list F, by_rows (dN A) (denm A) a -> inv_call invs (dN A) a) ->
  exists B : dense F, dense_inverse invs A gv = Ok B /\ dwf B /\ dN B = dN A /\ inverse_of (dN A) (denm A) (denm B).
Proof. exact (@dense_inverse_ok). Qed.
Print Assumptions c65_dense.

Example c65_dense_instance :
  exists B, dense_inverse iinv iD Zg = Ok B /\ dwf B /\ dN B = 3 /\ inverse_of 3 (denm iD) (denm B).
Proof. exact (@iD_inverse). Qed.

(** ellpack, where a row can hold N elements *)
Theorem c65_ellpack :
  forall (F : scalar) (invs : nat -> list F -> res (list F)) (keep : F -> bool) (A : ell F) (s1 s2 : list (nat * nat)),
  wf A ->
  0 < eM A ->
  eN A <= eM A ->
  keeps_nonzero keep ->
  Permutation (map snd s1) (seq 0 (eN A)) ->
  Permutation (map snd s2) (seq 0 (eN A)) ->
  (exists Y : mat F, inverse_of (eN A) (emat A) Y) ->
  (forall a : list F, by_rows (eN A) (emat A) a -> inv_call invs (eN A) a) ->
  exists B : ell F,
    ell_inverse invs keep A s1 s2 = Ok B /\ wf B /\ EllpackSpec.same_dims A B /\ inverse_of (eN A) (emat A) (emat B).
Proof. exact (@ell_inverse_ok). Qed.
Print Assumptions c65_ellpack.

Example c65_ellpack_instance :
  exists B, ell_inverse iinv (gtZ 0) (iE 3) s3 s3 = Ok B /\ wf B /\ EllpackSpec.same_dims (iE 3) B /\ inverse_of 3 (emat (iE 3)) (emat B).
Proof. exact (@iE_inverse). Qed.

Theorem c65_csr :
  forall (F : scalar) (invs : nat -> list F -> res (list F)) (keep : F -> bool) (A : csr F) (s1 s2 : list (nat * nat)),
  cwf A ->
  keeps_nonzero keep ->
  Permutation (map snd s1) (seq 0 (cN A)) ->
  Permutation (map snd s2) (seq 0 (cN A)) ->
  (exists Y : mat F, inverse_of (cN A) (cmat A) Y) ->
  (forall a : list F, by_rows (cN A) (cmat A) a -> inv_call invs (cN A) a) ->
  exists B : csr F, csr_inverse invs keep A s1 s2 = Ok B /\ cwf B /\ cdims A B /\ inverse_of (cN A) (cmat A) (cmat B).
Proof. exact (@csr_inverse_ok). Qed.
Print Assumptions c65_csr.

Example c65_csr_instance :
  exists B, csr_inverse iinv (gtZ 0) iC s3 s3 = Ok B /\ cwf B /\ cdims iC B /\ inverse_of 3 (cmat iC) (cmat B).
Proof. exact (@iC_inverse). Qed.

Theorem c65_ellblock :
  forall (F : scalar) (invs : nat -> list F -> res (list F)) (c : cache) (keep : F -> bool) (A : eb F) 
    (g : nat -> F) (d : defaults),
  ebwf A ->
  (forall ib : nat, ib < bNB A -> 0 < bsz (bbs A) ib) ->
  bM A <= bN A ->
  bml_get_block_sizes c (bN A) (bM A) = Ok d ->
  sizes_for d (bN A) ->
  s_nb d <= s_mb d ->
  keeps_nonzero keep ->
  (exists Y : mat F, inverse_of (bN A) (ebmx A) Y) ->
  (forall a : list F, by_rows (bN A) (ebmx A) a -> inv_call invs (bN A) a) ->
  exists B : eb F,
    eb_inverse invs c keep A g = Ok (Some d, B) /\
    ebwf B /\ bN B = bN A /\ bM B = bM A /\ bbs B = s_bsize d /\ inverse_of (bN A) (ebmx A) (ebmx B).
Proof. exact (@eb_inverse_ok). Qed.
Print Assumptions c65_ellblock.

Example c65_ellblock_instance :
  exists B, eb_inverse iinv (Some d21) (gtZ 0) iB Zg = Ok (Some d21, B) /\ ebwf B /\ bN B = 3 /\ bM B = 3 /\ bbs B = [2; 1] /\ inverse_of 3 (ebmx iB) (ebmx B).
Proof. exact (@iB_inverse). Qed.

(** ellpack: elements of the inverse that do not fit are lost *)
Theorem c65_ellpack_room_refuted :
  exists invs (A : ell Zscalar) s1 s2, wf A /\ Permutation (map snd s1) (seq 0 (eN A)) /\ Permutation (map snd s2) (seq 0 (eN A)) /\
  (exists Y, inverse_of (eN A) (emat A) Y) /\ (forall a, by_rows (eN A) (emat A) a -> inv_call invs (eN A) a) /\
  exists B, ell_inverse invs (gtZ 0) A s1 s2 = Ok B /\ ~ inverse_of (eN A) (emat A) (emat B).
Proof. exact (@ell_inverse_room_refuted). Qed.
Print Assumptions c65_ellpack_room_refuted.

(** a singular matrix is not reported *)
Theorem c65_singular_refuted :
  exists A : dense Zscalar, dwf A /\ (~ exists Y, inverse_of (dN A) (denm A) Y) /\
  forall invs b, invs (dN A) (dmx A) = Ok b -> exists B, dense_inverse invs A Zg = Ok B.
Proof. exact (@inverse_singular_refuted). Qed.
Print Assumptions c65_singular_refuted.
