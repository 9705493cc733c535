(** C75: the values in Matrix Market files. *)
From Coq Require Import Reals ZArith Lia Lra.
From Flocq Require Import Core.
From Verif Require Import Base Spec EllpackModel EllpackSpec EllpackCheck CsrModel CsrSpec DenseModel DenseSpec
  EllblockModel EllblockSpec MmModel MmSpec RealSpec MmFpModel MmFpFacts MmFpMat MmFpCheck.
Local Open Scope R_scope.

(** every float survives, however many digits beyond 14 are written *)
Theorem c75_single :
  forall (d : Z) (x : R), (15 <= d)%Z -> is_single x -> file_single d x = x.
Proof. exact (@single_exact). Qed.
Print Assumptions c75_single.

(** also when it is read into a double first *)
Theorem c75_single_via_double :
  forall (d : Z) (x : R), (15 <= d)%Z -> is_single x -> file_single_via_double d x = x.
Proof. exact (@single_via_double_exact). Qed.
Print Assumptions c75_single_via_double.

(** a double that was read writes the same 15 digits again *)
Theorem c75_double_stable :
  forall x : R, x = 0 \/ bpow radix2 (-1021) <= Rabs x -> print_digits 15 (file_double 15 x) = print_digits 15 x.
Proof. exact (@double_stable). Qed.
Print Assumptions c75_double_stable.

Theorem c75_double_error :
  forall x : R, x = 0 \/ bpow radix2 (-1021) <= Rabs x -> Rabs (file_double 15 x - x) <= 6 / 1000000000000000 * Rabs x.
Proof. exact (@double_file_error). Qed.
Print Assumptions c75_double_error.

(** whole numbers of at most 15 digits survive *)
Theorem c75_double_whole :
  forall n : Z, (Z.abs n < 10 ^ 15)%Z -> file_double 15 (IZR n) = IZR n.
Proof. exact (@whole_exact). Qed.
Print Assumptions c75_double_whole.

Example c75_values_instance : is_single (3 / 8) /\ normal_or_0 (1 / 3) /\ (Z.abs (-271828182845904) < 10 ^ 15)%Z.
Proof. exact values_instance. Qed.

(** whole matrices of floats are restored exactly *)
Theorem c75_ellpack_single :
  forall A Z : ell Rscalar,
  wf A ->
  entries_in is_single (eN A) (emat A) ->
  wf Z ->
  eN Z = eN A ->
  (eM A <= eM Z)%nat ->
  (forall i : nat, (i < eN Z)%nat -> erow Z i = []) ->
  exists (f : mmfile Rscalar) (C : ell Rscalar),
    ell_write (F:=Rscalar) (file_single 15) A = Ok f /\ ell_read Z f = Ok C /\ wf C /\ meq (eN A) (emat C) (emat A).
Proof. exact (@ell_single_file). Qed.
Print Assumptions c75_ellpack_single.

Theorem c75_csr_single :
  forall A Z : csr Rscalar,
  cwf A ->
  entries_in is_single (cN A) (cmat A) ->
  cwf Z ->
  cN Z = cN A ->
  (forall i : nat, (i < cN Z)%nat -> crow Z i = []) ->
  exists (f : mmfile Rscalar) (C : csr Rscalar),
    csr_write (F:=Rscalar) (file_single 15) A = Ok f /\ csr_read Z f = Ok C /\ cwf C /\ meq (cN A) (cmat C) (cmat A).
Proof. exact (@csr_single_file). Qed.
Print Assumptions c75_csr_single.

Theorem c75_dense_single :
  forall A Z : dense Rscalar,
  dwf A ->
  entries_in is_single (dN A) (denm A) ->
  dwf Z ->
  dN Z = dN A ->
  meq (dN Z) (denm Z) mzero ->
  exists (f : mmfile Rscalar) (C : dense Rscalar),
    dense_write (F:=Rscalar) (file_single_via_double 15) A = Ok f /\ dense_read Z f = Ok C /\ dwf C /\ meq (dN A) (denm C) (denm A).
Proof. exact (@dense_single_file). Qed.
Print Assumptions c75_dense_single.

Theorem c75_ellblock_single :
  forall (A Z : eb Rscalar) (g : nat -> Rscalar),
  ebwf A ->
  entries_in is_single (bN A) (ebmx A) ->
  ebwf Z ->
  bN Z = bN A ->
  meq (bN Z) (ebmx Z) mzero ->
  (bNB Z <= bMB Z)%nat ->
  exists (f : mmfile Rscalar) (C : eb Rscalar),
    eb_write (F:=Rscalar) (file_single 16) A = Ok f /\ eb_read Z f g = Ok C /\ ebwf C /\ meq (bN A) (ebmx C) (ebmx A).
Proof. exact (@eb_single_file). Qed.
Print Assumptions c75_ellblock_single.

(** a matrix of doubles: the elements are close, and the file written from the matrix that was read describes the same matrix *)
Theorem c75_ellpack_double :
  forall A Z : ell Rscalar,
  wf A ->
  entries_in normal_or_0 (eN A) (emat A) ->
  wf Z ->
  eN Z = eN A ->
  (eM A <= eM Z)%nat ->
  (forall i : nat, (i < eN Z)%nat -> erow Z i = []) ->
  exists (f : mmfile Rscalar) (C : ell Rscalar),
    ell_write (F:=Rscalar) (file_double 15) A = Ok f /\
    ell_read Z f = Ok C /\
    wf C /\
    (forall i j : nat,
     (i < eN A)%nat -> (j < eN A)%nat -> Rabs (emat C i j - emat A i j) <= 6 / 1000000000000000 * Rabs (emat A i j)) /\
    (forall i j : nat, (i < eN A)%nat -> (j < eN A)%nat -> print_digits 15 (emat C i j) = print_digits 15 (emat A i j)) /\
    (exists f2 : mmfile Rscalar, ell_write (F:=Rscalar) (file_double 15) C = Ok f2 /\ meq (eN A) (mm_mat f2) (mm_mat f)).
Proof. exact (@ell_double_file). Qed.
Print Assumptions c75_ellpack_double.

Example c75_matrix_instance : wf exF /\ entries_in is_single (eN exF) (emat exF) /\ entries_in normal_or_0 (eN exF) (emat exF) /\
  wf exZ /\ eN exZ = eN exF /\ (eM exF <= eM exZ)%nat /\ (forall i, (i < eN exZ)%nat -> erow exZ i = []) /\ emat exF 0%nat 1%nat = 3 / 8.
Proof. exact matrix_instance. Qed.

(** a double is in general not restored: 1 + 2^-52 comes back as 1 *)
Theorem c75_double_refuted :
  exists (A Z C : ell Rscalar) (f : mmfile Rscalar),
    wf A /\
    entries_in is_double (eN A) (emat A) /\
    wf Z /\
    ell_write (F:=Rscalar) (file_double 15) A = Ok f /\
    ell_read Z f = Ok C /\
    (forall i : nat, (i < eN Z)%nat -> erow Z i = []) /\
    emat C 0%nat 0%nat = 1 /\ emat A 0%nat 0%nat = 1 + / 4503599627370496.
Proof. exact (@ell_double_lost). Qed.
Print Assumptions c75_double_refuted.

(** nor with the 16 digits of ellblock: 2^54 comes back as 2^54 - 4 *)
Theorem c75_double_16_refuted :
  is_double 18014398509481984 /\ file_double 16 18014398509481984 = 18014398509481980.
Proof. exact (@eps2_lost). Qed.
Print Assumptions c75_double_16_refuted.
