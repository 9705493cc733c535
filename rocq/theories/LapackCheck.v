(** Diagonalisation and inverse: concrete matrices of rational numbers and of complex
    numbers with rational parts, and calls that fail. *)
From Verif Require Import Base BaseFacts Spec SpecFacts EllpackModel EllpackSpec EllpackFacts EllpackExact EllpackCheck CsrModel CsrSpec CsrCheck GemmModel DenseModel DenseSpec DenseFacts DenseOps
  EllblockModel EllblockSpec EllblockFacts EllblockHeap EllblockCheck FormatCheck LapackModel LapackSpec LapackFacts.
From Coq Require Import Permutation QArith Qcanon.
Local Close Scope Q_scope.
Local Close Scope Qc_scope.
Local Open Scope nat_scope.

Lemma Qceqb_spec x y : Qc_eq_bool x y = true <-> x = y.
Proof. split; [apply Qc_eq_bool_correct|]. intros ->. unfold Qc_eq_bool. destruct (Qc_eq_dec y y); congruence. Qed.
Lemma Qcring : ring_theory (0%Qc) (1%Qc) Qcplus Qcmult Qcminus Qcopp eq.
Proof. exact Qcrt. Qed.
Definition Qscalar : scalar :=
  {| K := Qc; k0 := 0%Qc; k1 := 1%Qc; kadd := Qcplus; kmul := Qcmult; ksub := Qcminus; kopp := Qcopp; keqb := Qc_eq_bool;
     k_ring := Qcring; keqb_spec := Qceqb_spec |}.
Definition q (n : Z) (d : positive) : Qscalar := Q2Qc (n # d).
Definition nonzero {F : scalar} (x : F) : bool := negb (keqb x k0).
Lemma nonzero_keeps {F : scalar} : keeps_nonzero (F:=F) nonzero.
Proof. intros x. unfold nonzero. intros H. apply keqb_spec. destruct (keqb x k0); [reflexivity|discriminate]. Qed.

(** complex numbers *)
Definition Cadd (x y : Qc * Qc) : Qc * Qc := (fst x + fst y, snd x + snd y)%Qc.
Definition Cmul (x y : Qc * Qc) : Qc * Qc := (fst x * fst y - snd x * snd y, fst x * snd y + snd x * fst y)%Qc.
Definition Copp (x : Qc * Qc) : Qc * Qc := (- fst x, - snd x)%Qc.
Definition Csub (x y : Qc * Qc) : Qc * Qc := (fst x - fst y, snd x - snd y)%Qc.
Definition Ceqb (x y : Qc * Qc) : bool := (Qc_eq_bool (fst x) (fst y) && Qc_eq_bool (snd x) (snd y))%bool.
Definition Cconj (x : Qc * Qc) : Qc * Qc := (fst x, - snd x)%Qc.
Lemma Cring : ring_theory (0, 0)%Qc (1, 0)%Qc Cadd Cmul Csub Copp eq.
Proof.
  constructor; intros; repeat match goal with x : (Qc * Qc)%type |- _ => destruct x end; unfold Cadd, Cmul, Csub, Copp; cbn [fst snd];
    apply f_equal2; ring.
Qed.
Lemma Ceqb_spec x y : Ceqb x y = true <-> x = y.
Proof.
  destruct x as [a b], y as [c d]. unfold Ceqb. cbn [fst snd]. rewrite Bool.andb_true_iff, !Qceqb_spec. split.
  - intros [-> ->]. auto.
  - intros [= -> ->]. auto.
Qed.
Definition Cscalar : scalar :=
  {| K := (Qc * Qc)%type; k0 := (0, 0)%Qc; k1 := (1, 0)%Qc; kadd := Cadd; kmul := Cmul; ksub := Csub;
     kopp := Copp; keqb := Ceqb; k_ring := Cring; keqb_spec := Ceqb_spec |}.
Lemma Cconj_morphism : conj_morphism (F:=Cscalar) Cconj.
Proof.
  split; [|split; [|split; [|split]]]; cbn; intros; repeat match goal with x : (Qc * Qc)%type |- _ => destruct x end; unfold Cadd, Cmul, Cconj; cbn [fst snd];
    apply f_equal2; ring.
Qed.
Definition c (a b : Z) (d : positive) : Cscalar := (Q2Qc (a # d), Q2Qc (b # d)).
Definition leC (x y : Cscalar) : Prop := (fst x <= fst y)%Qc.

Ltac cases2 i j Hi Hj := destruct i as [|[|i]]; [| |exfalso; lia]; (destruct j as [|[|j]]; [| |exfalso; lia]).
Ltac qeq := apply Qc_is_canon; vm_compute; reflexivity.
Ltac ceq := apply (keqb_spec Cscalar); vm_compute; reflexivity.

(** ** A real symmetric matrix: 16 12 / 12 9, eigenvalues 0 and 25 *)
Definition qA : dense Qscalar := mkDense 2 [q 16 1; q 12 1; q 12 1; q 9 1].
Definition qw : list Qscalar := [q 0 1; q 25 1].
Definition qv : list Qscalar := [q 3 5; q (-4) 5; q 4 5; q 3 5].
Definition qeigs (_ : nat) (_ : list Qscalar) : res (list Qscalar * list Qscalar) := Ok (qw, qv).
Lemma by_rows_array {F : scalar} N (X : mat F) (a b : list F) : by_rows N X a -> by_rows N X b -> a = b.
Proof.
  intros [La Va] [Lb Vb]. apply (list_ext_nth _ _ k0); [congruence|]. intros k Hk. rewrite La in Hk.
  assert (HN : N <> 0) by (intros ->; cbn in Hk; lia). rewrite (Nat.div_mod k N HN). rewrite (Nat.mul_comm N).
  rewrite Va, Vb; auto; try (apply Nat.mod_upper_bound; auto); apply Nat.div_lt_upper_bound; auto.
Qed.
Lemma qA_eigs X a : meq 2 X (denm qA) -> by_rows 2 X a -> eig_call (F:=Qscalar) (fun x => x) Qcle qeigs 2 a.
Proof.
  intros HX Ha. assert (a = dmx qA) as ->.
  { apply (by_rows_array 2 (denm qA)); [|apply (by_rows_dense qA); reflexivity]. destruct Ha as [L V]. split; auto. intros i j Hi Hj. rewrite V, HX; auto. }
  exists qw, qv. split; [reflexivity|]. split; [reflexivity|]. split; [reflexivity|].
  split; [|split; [split|split]].
  - intros i j Hi Hj. cases2 i j Hi Hj; qeq.
  - intros i j Hi Hj. cases2 i j Hi Hj; qeq.
  - intros i j Hi Hj. cases2 i j Hi Hj; qeq.
  - reflexivity.
  - intros i Hi. destruct i as [|i]; [|lia]. cbn. discriminate.
Qed.
Lemma qA_sym : hermitian (F:=Qscalar) (fun x => x) 2 (denm qA).
Proof. intros i j Hi Hj. cases2 i j Hi Hj; reflexivity. Qed.
Lemma qA_diagonalize : exists w E', dense_diagonalize qeigs qA [q 7 1; q 7 1] qA = Ok (w, E') /\ length w = 2 /\ dwf E' /\ dN E' = 2 /\
  eigensystem (F:=Qscalar) (fun x => x) Qcle 2 (denm qA) w (denm E').
Proof. apply (dense_diagonalize_real (F:=Qscalar) Qcle qeigs qA [q 7 1; q 7 1] qA); try reflexivity; [exact qA_sym|]. intros a. apply qA_eigs. intros i j _ _. reflexivity. Qed.

(** the same in ellpack, csr and ellblock *)
Definition qE : ell Qscalar := mkEll 2 2 [q 16 1; q 12 1; q 12 1; q 9 1] [0; 1; 0; 1] [2; 2].
Definition s2 : list (nat * nat) := [(0, 1); (1, 0)].
Lemma s2_perm : Permutation (map snd s2) (seq 0 2). Proof. apply perm_swap. Qed.
Lemma qE_diagonalize : exists w E', ell_diagonalize qeigs nonzero qE [q 7 1; q 7 1] qE s2 s2 = Ok (w, E') /\ length w = 2 /\ wf E' /\ EllpackSpec.same_dims qE E' /\
  eigensystem (F:=Qscalar) (fun x => x) Qcle 2 (emat qE) w (emat E').
Proof.
  assert (W : wf qE) by (apply wfb_ok; reflexivity).
  apply (ell_diagonalize_real (F:=Qscalar) Qcle qeigs nonzero qE [q 7 1; q 7 1] qE s2 s2); auto using s2_perm, nonzero_keeps.
  - split; reflexivity.
  - cbn; lia.
  - intros i j Hi Hj. cbn in Hi, Hj. cases2 i j Hi Hj; qeq.
  - intros a. apply qA_eigs. intros i j Hi Hj. cases2 i j Hi Hj; qeq.
Qed.
Definition qC : csr Qscalar := @csr_of Qscalar 2 2 10 [[(0, q 16 1); (1, q 12 1)]; [(1, q 9 1); (0, q 12 1)]].
Lemma qC_diagonalize : exists w E', csr_diagonalize qeigs nonzero qC [q 7 1; q 7 1] qC s2 s2 s2 = Ok (w, E') /\ length w = 2 /\ cwf E' /\ cdims qC E' /\
  eigensystem (F:=Qscalar) (fun x => x) Qcle 2 (cmat qC) w (cmat E').
Proof.
  assert (W : cwf qC) by (apply cwfb_ok; reflexivity).
  apply (csr_diagonalize_real (F:=Qscalar) Qcle qeigs nonzero qC [q 7 1; q 7 1] qC s2 s2 s2); auto using s2_perm, nonzero_keeps.
  - intros i Hi. cbn in Hi. destruct i as [|[|i]]; [| |lia]; vm_compute; lia.
  - intros i j Hi Hj. cbn in Hi, Hj. cases2 i j Hi Hj; qeq.
  - intros a. apply qA_eigs. intros i j Hi Hj. cases2 i j Hi Hj; qeq.
Qed.
(** two rows of blocks of one element *)
Definition d11 : defaults := mkDef [1; 1] 2 2.
Definition qB : eb Qscalar := mkEb 2 2 2 2 [1; 1] [Some 0; Some 1; Some 3; Some 2] [0; 1; 1; 0] [2; 2] [Some [q 16 1]; Some [q 12 1]; Some [q 12 1]; Some [q 9 1]].
(** all slots empty *)
Definition qB0 : eb Qscalar := mkEb 2 2 2 2 [1; 1] [None; None; None; None] [2; 2; 2; 2] [0; 0] [].
Lemma qB_diagonalize : exists w E', eb_diagonalize qeigs (Some d11) nonzero qB [q 7 1; q 7 1] qB0 (fun _ => q 9 1) s2 = Ok (Some d11, w, E') /\ length w = 2 /\ ebwf E' /\
  EllblockSpec.same_dims qB0 E' /\ eigensystem (F:=Qscalar) (fun x => x) Qcle 2 (ebmx qB) w (ebmx E').
Proof.
  assert (W : ebwf qB) by (ebwf_now). assert (W0 : ebwf qB0) by (ebwf_now). assert (C0 : clean qB0) by clean_now.
  apply (eb_diagonalize_real (F:=Qscalar) Qcle qeigs (Some d11) nonzero qB [q 7 1; q 7 1] qB0 (fun _ => q 9 1) 2 s2 d11); auto using nonzero_keeps.
  - intros ib Hi. cbn in Hi. destruct ib as [|[|ib]]; [| |lia]; vm_compute; lia.
  - repeat split; vm_compute; lia.
  - apply W0.
  - apply clean_tidy; auto. apply W0.
  - split; [exact s2_perm|]. intros t i [[= <- <-]|[[= <- <-]|[]]]; lia.
  - intros ib jp jb Hi Hj _. left. cbn in Hi, Hj. destruct ib as [|[|ib]]; [| |lia]; (destruct jp as [|[|jp]]; [| |lia]); reflexivity.
  - intros i j Hi Hj. cbn in Hi, Hj. cases2 i j Hi Hj; qeq.
  - intros a. apply qA_eigs. intros i j Hi Hj. cases2 i j Hi Hj; qeq.
Qed.

(** ** A Hermitian matrix: 16 12i / -12i 9.  LAPACK sees the transpose *)
Definition cA : dense Cscalar := mkDense 2 [c 16 0 1; c 0 12 1; c 0 (-12) 1; c 9 0 1].
Definition cw : list Cscalar := [c 0 0 1; c 25 0 1].
Definition cv : list Cscalar := [c 3 0 5; c 0 (-4) 5; c 0 (-4) 5; c 3 0 5].
Definition ceigs (_ : nat) (_ : list Cscalar) : res (list Cscalar * list Cscalar) := Ok (cw, cv).
Lemma cA_eigs a : by_rows 2 (denm cA) a -> eig_call (F:=Cscalar) Cconj leC ceigs 2 a.
Proof.
  intros Ha. assert (a = dmx cA) as ->.
  { apply (by_rows_array 2 (denm cA)); [auto|apply (by_rows_dense cA); reflexivity]. }
  exists cw, cv. split; [reflexivity|]. split; [reflexivity|]. split; [reflexivity|].
  split; [|split; [split|split]].
  - intros i j Hi Hj. cases2 i j Hi Hj; ceq.
  - intros i j Hi Hj. cases2 i j Hi Hj; ceq.
  - intros i j Hi Hj. cases2 i j Hi Hj; ceq.
  - intros i Hi. destruct i as [|[|i]]; [| |lia]; ceq.
  - intros i Hi. destruct i as [|i]; [|lia]. vm_compute. discriminate.
Qed.
Lemma cA_herm : hermitian (F:=Cscalar) Cconj 2 (denm cA).
Proof. intros i j Hi Hj. cases2 i j Hi Hj; ceq. Qed.
Lemma cA_asym : exists i j, i < 2 /\ j < 2 /\ denm cA i j <> denm cA j i.
Proof. exists 0, 1. split; [lia|]. split; [lia|]. intros H. apply (f_equal (fun x : Cscalar => Ceqb x (denm cA 1 0))) in H. vm_compute in H. discriminate. Qed.
Lemma cA_diagonalize : exists w E', dense_diagonalize ceigs cA [c 7 0 1; c 7 0 1] cA = Ok (w, E') /\ length w = 2 /\ dwf E' /\ dN E' = 2 /\
  eigensystem (F:=Cscalar) Cconj leC 2 (denm cA) w (mconj (F:=Cscalar) Cconj (denm E')).
Proof.
  apply (dense_diagonalize_complex (F:=Cscalar) leC ceigs Cconj cA [c 7 0 1; c 7 0 1] cA); try reflexivity; [exact Cconj_morphism|exact cA_herm|]. exact cA_eigs.
Qed.
Lemma cA_wrong : exists w E', dense_diagonalize ceigs cA [c 7 0 1; c 7 0 1] cA = Ok (w, E') /\ ~ eigensystem (F:=Cscalar) Cconj leC 2 (denm cA) w (denm E').
Proof.
  apply (dense_diagonalize_wrong (F:=Cscalar) leC ceigs Cconj cA [c 7 0 1; c 7 0 1] cA); try reflexivity; [exact Cconj_morphism|exact cA_herm|exact cA_eigs|exact cA_asym].
Qed.

(** ** A sparse symmetric matrix with full eigenvectors: A_ij is 2^b if i and j differ
    in bit b only, eigenvector k is +-1/4 *)
Definition bitdiff (i j : nat) : Z := match Nat.lxor i j with 1 => 1%Z | 2 => 2%Z | 4 => 4%Z | 8 => 8%Z | _ => 0%Z end.
Definition parity (n : nat) : bool := xorb (xorb (Nat.testbit n 0) (Nat.testbit n 1)) (xorb (Nat.testbit n 2) (Nat.testbit n 3)).
Definition hE : ell Qscalar := mkEll 16 4
  (flat_map (fun i => map (fun b => q (Z.of_nat b) 1) [1; 2; 4; 8]) (seq 0 16)) (flat_map (fun i => map (Nat.lxor i) [1; 2; 4; 8]) (seq 0 16)) (repeat 4 16).
Definition hw : list Qscalar := map (fun k => q (2 * Z.of_nat k - 15) 1) (seq 0 16).
Definition hv : list Qscalar := map (fun k => q (if parity (Nat.land (k mod 16) (15 - k / 16)) then -1 else 1) 4) (seq 0 256).
Definition heigs (_ : nat) (_ : list Qscalar) : res (list Qscalar * list Qscalar) := Ok (hw, hv).
Definition meqb {F : scalar} (N : nat) (X Y : mat F) : bool := forallb (fun i => forallb (fun j => keqb (X i j) (Y i j)) (seq 0 N)) (seq 0 N).
Lemma meqb_ok {F : scalar} N (X Y : mat F) : meqb N X Y = true -> meq N X Y.
Proof.
  unfold meqb. rewrite forallb_forall. intros H i j Hi Hj. specialize (H i ltac:(apply in_seq; lia)). rewrite forallb_forall in H.
  apply keqb_spec, H, in_seq. lia.
Qed.
Definition harr : list Qscalar := map (fun k => q (bitdiff (k / 16) (k mod 16)) 1) (seq 0 256).
Lemma hE_rows : by_rows 16 (emat hE) harr.
Proof.
  split; [reflexivity|]. intros i j Hi Hj.
  apply (meqb_ok 16 (fun i j => nth (i * 16 + j) harr k0) (emat hE)); [vm_compute; reflexivity|auto|auto].
Qed.
Lemma hE_eigs a : by_rows 16 (emat hE) a -> eig_call (F:=Qscalar) (fun x => x) Qcle heigs 16 a.
Proof.
  intros Ha. assert (a = harr) as -> by (apply (by_rows_array 16 (emat hE)); auto using hE_rows).
  exists hw, hv. split; [reflexivity|]. split; [reflexivity|]. split; [reflexivity|].
  split; [|split; [split|split]].
  - apply meqb_ok. vm_compute. reflexivity.
  - apply meqb_ok. vm_compute. reflexivity.
  - apply meqb_ok. vm_compute. reflexivity.
  - reflexivity.
  - intros i Hi. do 15 (destruct i as [|i]; [vm_compute; discriminate|]). lia.
Qed.
Lemma hE_sym : hermitian (F:=Qscalar) (fun x => x) 16 (emat hE).
Proof. apply meqb_ok. vm_compute. reflexivity. Qed.
Definition s16 : list (nat * nat) := map (fun i => (0, i)) (seq 0 16).
Lemma s16_perm : Permutation (map snd s16) (seq 0 16). Proof. apply Permutation_refl. Qed.

(** ellpack: a row of the eigenvectors does not fit *)
Lemma ell_diagonalize_room_refuted : exists eigs (A E : ell Qscalar) ev s1 s2, wf A /\ wf E /\ EllpackSpec.same_dims A E /\ length ev = eN A /\
  Permutation (map snd s1) (seq 0 (eN A)) /\ Permutation (map snd s2) (seq 0 (eN A)) /\ hermitian (F:=Qscalar) (fun x => x) (eN A) (emat A) /\
  (forall a, by_rows (eN A) (emat A) a -> eig_call (F:=Qscalar) (fun x => x) Qcle eigs (eN A) a) /\ ell_diagonalize eigs nonzero A ev E s1 s2 = UB.
Proof.
  assert (W : wf hE) by (apply wfb_ok; vm_compute; reflexivity).
  exists heigs, hE, hE, (repeat k0 16), s16, s16. split; [exact W|]. split; [exact W|]. split; [split; reflexivity|]. split; [reflexivity|].
  split; [exact s16_perm|]. split; [exact s16_perm|]. split; [exact hE_sym|]. split; [exact hE_eigs|]. vm_compute. reflexivity.
Qed.
(** csr: the rows of the eigenvectors are longer than those of a new zero matrix *)
Definition hC : csr Qscalar := @csr_of Qscalar 16 4 10 (map (fun i => map (fun b => (Nat.lxor i b, q (Z.of_nat b) 1)) [1; 2; 4; 8]) (seq 0 16)).
Lemma csr_diagonalize_room_refuted : exists eigs (A : csr Qscalar) ev s1 s2 s3, cwf A /\ length ev = cN A /\
  Permutation (map snd s1) (seq 0 (cN A)) /\ Permutation (map snd s2) (seq 0 (cN A)) /\ Permutation (map snd s3) (seq 0 (cN A)) /\
  hermitian (F:=Qscalar) (fun x => x) (cN A) (cmat A) /\
  (forall a, by_rows (cN A) (cmat A) a -> eig_call (F:=Qscalar) (fun x => x) Qcle eigs (cN A) a) /\
  csr_diagonalize eigs nonzero A ev (csr_zero (cN A) (cM A)) s1 s2 s3 = Err.
Proof.
  assert (HX : meq 16 (cmat hC) (emat hE)) by (apply meqb_ok; vm_compute; reflexivity).
  exists heigs, hC, (repeat k0 16), s16, s16, s16. split; [apply cwfb_ok; vm_compute; reflexivity|]. split; [reflexivity|].
  split; [exact s16_perm|]. split; [exact s16_perm|]. split; [exact s16_perm|]. split.
  - intros i j Hi Hj. rewrite HX by auto. unfold madj. rewrite (HX j i) by auto. apply hE_sym; auto.
  - split; [|vm_compute; reflexivity]. intros a Ha. apply hE_eigs. apply (by_rows_ext 16 (cmat hC)); auto.
Qed.

(** ** Inverses: upper bidiagonal matrix of ones; its inverse has rows of three elements *)
Definition iE (M : nat) : ell Zscalar := mkEll 3 M
  (flat_map (fun r : list Zscalar => r ++ repeat k0 (M - 2)) [[1; 1]; [1; 1]; [1; 0]]%Z) (flat_map (fun r => r ++ repeat 0 (M - 2)) [[0; 1]; [1; 2]; [2; 0]]) [2; 2; 1].
Definition iinv (_ : nat) (_ : list Zscalar) : res (list Zscalar) := Ok [1; -1; 1; 0; 1; -1; 0; 0; 1]%Z.
Definition iX : mat Zscalar := fun i j => if (j =? i) || (j =? S i) then 1%Z else 0%Z.
Definition iY : mat Zscalar := fun i j => if j <? i then 0%Z else if Nat.even (j - i) then 1%Z else (-1)%Z.
Lemma iXY : inverse_of 3 iX iY. Proof. split; apply meqb_ok; reflexivity. Qed.
Lemma iE_inv X a : meq 3 X iX -> by_rows 3 X a -> inv_call iinv 3 a.
Proof.
  intros HX Ha _. assert (a = [1; 1; 0; 0; 1; 1; 0; 0; 1]%Z) as ->.
  { apply (by_rows_array 3 iX); [apply (by_rows_ext 3 X); auto|]. split; [reflexivity|]. intros i j Hi Hj.
    apply (meqb_ok 3 (fun i j => nth (i * 3 + j) ([1; 1; 0; 0; 1; 1; 0; 0; 1]%Z : list Zscalar) k0) iX); auto. }
  eexists. split; [reflexivity|]. split; [reflexivity|]. split; apply meqb_ok; reflexivity.
Qed.
Definition iD : dense Zscalar := mkDense (F:=Zscalar) 3 [1; 1; 0; 0; 1; 1; 0; 0; 1]%Z.
Lemma iD_inverse : exists B, dense_inverse iinv iD Zg = Ok B /\ dwf B /\ dN B = 3 /\ inverse_of 3 (denm iD) (denm B).
Proof.
  assert (HX : meq 3 (denm iD) iX) by (apply meqb_ok; reflexivity).
  apply (dense_inverse_ok iinv iD Zg); [reflexivity| |intros a; apply iE_inv, HX].
  exists iY. apply (inverse_ext 3 iX _ iY iY); [intros i j Hi Hj; symmetry; apply HX; auto|intros i j _ _; reflexivity|exact iXY].
Qed.
Definition s3 : list (nat * nat) := [(1, 0); (0, 1); (1, 2)].
Lemma s3_perm : Permutation (map snd s3) (seq 0 3). Proof. apply Permutation_refl. Qed.
Lemma iE_inverse : exists B, ell_inverse iinv (gtZ 0) (iE 3) s3 s3 = Ok B /\ wf B /\ EllpackSpec.same_dims (iE 3) B /\ inverse_of 3 (emat (iE 3)) (emat B).
Proof.
  assert (HX : meq 3 (emat (iE 3)) iX) by (apply meqb_ok; reflexivity).
  apply (ell_inverse_ok iinv (gtZ 0 : Zscalar -> bool) (iE 3) s3 s3); [apply wfb_ok; reflexivity|cbn; lia|cbn; lia|exact gtZ0_exact|exact s3_perm|exact s3_perm| |intros a; apply iE_inv, HX].
  exists iY. apply (inverse_ext 3 iX _ iY iY); [intros i j Hi Hj; symmetry; apply HX; auto|intros i j _ _; reflexivity|exact iXY].
Qed.
Definition iC : csr Zscalar := @csr_of Zscalar 3 3 10 [[(1, 1%Z); (0, 1%Z)]; [(1, 1%Z); (2, 1%Z)]; [(2, 1%Z)]].
Lemma iC_inverse : exists B, csr_inverse iinv (gtZ 0) iC s3 s3 = Ok B /\ cwf B /\ cdims iC B /\ inverse_of 3 (cmat iC) (cmat B).
Proof.
  assert (HX : meq 3 (cmat iC) iX) by (apply meqb_ok; reflexivity).
  apply (csr_inverse_ok iinv (gtZ 0 : Zscalar -> bool) iC s3 s3); [apply cwfb_ok; reflexivity|exact gtZ0_exact|exact s3_perm|exact s3_perm| |intros a; apply iE_inv, HX].
  exists iY. apply (inverse_ext 3 iX _ iY iY); [intros i j Hi Hj; symmetry; apply HX; auto|intros i j _ _; reflexivity|exact iXY].
Qed.
(** one block of two rows and one of one row *)
Definition d21 : defaults := mkDef [2; 1] 2 2.
Definition iB : eb Zscalar := Eval vm_compute in got (imported (Some d21) 3 3 (fun i j => iX i j)).
Lemma iB_inverse : exists B, eb_inverse iinv (Some d21) (gtZ 0) iB Zg = Ok (Some d21, B) /\ ebwf B /\ bN B = 3 /\ bM B = 3 /\ bbs B = [2; 1] /\ inverse_of 3 (ebmx iB) (ebmx B).
Proof.
  assert (HX : meq 3 (ebmx iB) iX) by (apply meqb_ok; reflexivity).
  apply (eb_inverse_ok iinv (Some d21) (gtZ 0 : Zscalar -> bool) iB Zg d21); [ebwf_now| |cbn; lia|reflexivity|repeat split; vm_compute; lia|cbn; lia|exact gtZ0_exact| |intros a; apply iE_inv, HX].
  - intros b Hb. cbn in Hb. destruct b as [|[|b]]; [| |lia]; vm_compute; lia.
  - exists iY. apply (inverse_ext 3 iX _ iY iY); [intros i j Hi Hj; symmetry; apply HX; auto|intros i j _ _; reflexivity|exact iXY].
Qed.
(** ellpack: a row of the inverse does not fit, its last element is lost *)
Lemma ell_inverse_room_refuted : exists invs (A : ell Zscalar) s1 s2, wf A /\ Permutation (map snd s1) (seq 0 (eN A)) /\ Permutation (map snd s2) (seq 0 (eN A)) /\
  (exists Y, inverse_of (eN A) (emat A) Y) /\ (forall a, by_rows (eN A) (emat A) a -> inv_call invs (eN A) a) /\
  exists B, ell_inverse invs (gtZ 0) A s1 s2 = Ok B /\ ~ inverse_of (eN A) (emat A) (emat B).
Proof.
  assert (HX : meq 3 (emat (iE 2)) iX) by (apply meqb_ok; reflexivity).
  exists iinv, (iE 2), s3, s3. split; [apply wfb_ok; reflexivity|]. split; [exact s3_perm|]. split; [exact s3_perm|]. split.
  - exists iY. apply (inverse_ext 3 iX _ iY iY); [intros i j Hi Hj; symmetry; apply HX; auto|intros i j _ _; reflexivity|exact iXY].
  - split; [intros a; apply iE_inv, HX|]. eexists. split; [vm_compute; reflexivity|]. intros [H _]. specialize (H 0 2 ltac:(cbn; lia) ltac:(cbn; lia)). vm_compute in H. discriminate.
Qed.
(** a matrix that has no inverse: whatever GETRF and GETRI leave in the array is returned *)
Lemma inverse_singular_refuted : exists A : dense Zscalar, dwf A /\ (~ exists Y, inverse_of (dN A) (denm A) Y) /\
  forall invs b, invs (dN A) (dmx A) = Ok b -> exists B, dense_inverse invs A Zg = Ok B.
Proof.
  exists (mkDense (F:=Zscalar) 2 [1; 1; 1; 1]%Z). split; [reflexivity|]. split.
  - intros (Y & H & _). cbn [dN] in H. pose proof (H 0 0 ltac:(lia) ltac:(lia)) as H1. pose proof (H 1 0 ltac:(lia) ltac:(lia)) as H2.
    unfold mmul, bigsum, denm, mid in H1, H2. cbn in H1, H2. lia.
  - intros invs b Hb. unfold dense_inverse. rewrite dense_copy_new_ok by reflexivity. cbn [bind]. unfold dense_inverse_inplace. rewrite Hb. cbn [bind]. eauto.
Qed.
