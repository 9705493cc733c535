(** Theorems about Matrix Market files (C48). *)
From Verif Require Import Base Spec SpecFacts EllpackModel EllpackSpec EllpackCheck CsrModel CsrSpec CsrCheck
  DenseModel DenseSpec DenseCheck EllblockModel EllblockSpec EllblockCheck MmModel MmSpec MmFacts MmCheck.

(** C48: the file a writer makes describes the matrix, up to the rounding of the values *)
Theorem c48_ellpack_write :
  forall (F : scalar) (fmt : F -> F) (A : ell F),
  wf A ->
  fmt 0%K = 0%K ->
  exists f : mmfile F,
    ell_write fmt A = Ok f /\
    written (eN A) (emat A) fmt f /\ (forall i : nat, i < eN A -> mm_row_count f i = length (erow A i)).
Proof. exact (@ell_write_ok). Qed.
Print Assumptions c48_ellpack_write.

Theorem c48_csr_write :
  forall (F : scalar) (fmt : F -> F) (A : csr F),
  cwf A ->
  fmt 0%K = 0%K ->
  exists f : mmfile F,
    csr_write fmt A = Ok f /\
    written (cN A) (cmat A) fmt f /\ (forall i : nat, i < cN A -> mm_row_count f i = length (crow A i)).
Proof. exact (@csr_write_ok). Qed.
Print Assumptions c48_csr_write.

Theorem c48_dense_write :
  forall (F : scalar) (fmt : F -> F) (A : dense F),
  dwf A ->
  fmt 0%K = 0%K ->
  exists f : mmfile F,
    dense_write fmt A = Ok f /\
    written (dN A) (denm A) fmt f /\
    (forall i : nat, i < dN A -> mm_row_count f i = count (dN A) (fun j : nat => negb (keqb (denm A i j) 0%K))).
Proof. exact (@dense_write_ok). Qed.
Print Assumptions c48_dense_write.

Theorem c48_ellblock_write :
  forall (F : scalar) (fmt : F -> F) (A : eb F),
  ebwf A -> fmt 0%K = 0%K -> exists f : mmfile F, eb_write fmt A = Ok f /\ written (bN A) (ebmx A) fmt f.
Proof. exact (@eb_write_ok). Qed.
Print Assumptions c48_ellblock_write.

(** readers: the described cells are stored, the others keep their values *)
Theorem c48_ellpack_read :
  forall (F : scalar) (A : ell F) (f : mmfile F),
  wf A ->
  mm_good (eN A) f ->
  (forall (i j : nat) (v : F), In (i, j, v) (mm_cells f) -> stored A i j = false) ->
  (forall i : nat, i < eN A -> length (erow A i) + mm_row_count f i <= eM A) ->
  exists A' : ell F,
    ell_read A f = Ok A' /\
    wf A' /\
    eN A' = eN A /\
    eM A' = eM A /\
    meq (eN A) (emat A') (fun i j : nat => match cell_get (mm_cells f) i j with
                                           | Some v => v
                                           | None => emat A i j
                                           end).
Proof. exact (@ell_read_ok). Qed.
Print Assumptions c48_ellpack_read.

Theorem c48_csr_read :
  forall (F : scalar) (A : csr F) (f : mmfile F),
  cwf A ->
  mm_good (cN A) f ->
  (forall (i j : nat) (v : F), In (i, j, v) (mm_cells f) -> ~ In j (cols (crow A i))) ->
  exists A' : csr F,
    csr_read A f = Ok A' /\
    cwf A' /\
    cdims A A' /\
    meq (cN A) (cmat A') (fun i j : nat => match cell_get (mm_cells f) i j with
                                           | Some v => v
                                           | None => cmat A i j
                                           end).
Proof. exact (@csr_read_ok). Qed.
Print Assumptions c48_csr_read.

(** missing: symmetric files (refuted) *)
Theorem c48_dense_read_partial :
  forall (F : scalar) (A : dense F) (f : mmfile F),
  dwf A ->
  mm_good (dN A) f ->
  mm_sym f = false ->
  exists A' : dense F,
    dense_read A f = Ok A' /\
    dwf A' /\
    dN A' = dN A /\
    meq (dN A) (denm A') (fun i j : nat => match cell_get (mm_cells f) i j with
                                           | Some v => v
                                           | None => denm A i j
                                           end).
Proof. exact (@dense_read_ok). Qed.
Print Assumptions c48_dense_read_partial.

(** missing: symmetric files (refuted) *)
Theorem c48_ellblock_read_partial :
  forall (F : scalar) (A : eb F) (f : mmfile F) (g : nat -> F),
  ebwf A ->
  mm_good (bN A) f ->
  mm_sym f = false ->
  eb_read A f g = Err \/
  (exists A' : eb F,
     eb_read A f g = Ok A' /\
     ebwf A' /\
     bN A' = bN A /\
     bbs A' = bbs A /\
     meq (bN A) (ebmx A') (fun i j : nat => match cell_get (mm_cells f) i j with
                                            | Some v => v
                                            | None => ebmx A i j
                                            end)).
Proof. exact (@eb_read_ok). Qed.
Print Assumptions c48_ellblock_read_partial.

Theorem c48_ellblock_read_room_partial :
  forall (F : scalar) (A : eb F) (f : mmfile F) (g : nat -> F),
  ebwf A ->
  mm_good (bN A) f ->
  mm_sym f = false ->
  bNB A <= bMB A ->
  exists A' : eb F,
    eb_read A f g = Ok A' /\
    ebwf A' /\
    bN A' = bN A /\
    bbs A' = bbs A /\
    meq (bN A) (ebmx A') (fun i j : nat => match cell_get (mm_cells f) i j with
                                           | Some v => v
                                           | None => ebmx A i j
                                           end).
Proof. exact (@eb_read_room). Qed.
Print Assumptions c48_ellblock_read_room_partial.

(** a file of any of the writers, read into an empty matrix of any format *)
Theorem c48_ellpack_round_trip :
  forall (F : scalar) (Z : ell F) (X : mat F) (fmt : F -> F) (f : mmfile F),
  wf Z ->
  written (eN Z) X fmt f ->
  (forall i : nat, i < eN Z -> erow Z i = []) ->
  (forall i : nat, i < eN Z -> mm_row_count f i <= eM Z) ->
  exists C : ell F, ell_read Z f = Ok C /\ wf C /\ meq (eN Z) (emat C) (fun i j : nat => fmt (X i j)).
Proof. exact (@ell_read_written). Qed.
Print Assumptions c48_ellpack_round_trip.

Theorem c48_csr_round_trip :
  forall (F : scalar) (Z : csr F) (X : mat F) (fmt : F -> F) (f : mmfile F),
  cwf Z ->
  written (cN Z) X fmt f ->
  (forall i : nat, i < cN Z -> crow Z i = []) ->
  exists C : csr F, csr_read Z f = Ok C /\ cwf C /\ meq (cN Z) (cmat C) (fun i j : nat => fmt (X i j)).
Proof. exact (@csr_read_written). Qed.
Print Assumptions c48_csr_round_trip.

Theorem c48_dense_round_trip :
  forall (F : scalar) (Z : dense F) (X : mat F) (fmt : F -> F) (f : mmfile F),
  dwf Z ->
  written (dN Z) X fmt f ->
  meq (dN Z) (denm Z) mzero ->
  exists C : dense F, dense_read Z f = Ok C /\ dwf C /\ meq (dN Z) (denm C) (fun i j : nat => fmt (X i j)).
Proof. exact (@dense_read_written). Qed.
Print Assumptions c48_dense_round_trip.

Theorem c48_ellblock_round_trip :
  forall (F : scalar) (Z : eb F) (X : mat F) (fmt : F -> F) (f : mmfile F) (g : nat -> F),
  ebwf Z ->
  written (bN Z) X fmt f ->
  meq (bN Z) (ebmx Z) mzero ->
  bNB Z <= bMB Z -> exists C : eb F, eb_read Z f g = Ok C /\ ebwf C /\ meq (bN Z) (ebmx C) (fun i j : nat => fmt (X i j)).
Proof. exact (@eb_read_written). Qed.
Print Assumptions c48_ellblock_round_trip.

(** a truncated file is never accepted *)
Theorem c48_short_file :
  forall (F : scalar) (f : mmfile F),
  length (mm_ents f) < mm_nnz f ->
  (forall A A' : ell F, ell_read A f <> Ok A') /\
  (forall A A' : csr F, csr_read A f <> Ok A') /\
  (forall A A' : dense F, dense_read A f <> Ok A') /\ (forall (A A' : eb F) (g : nat -> F), eb_read A f g <> Ok A').
Proof. exact (@read_short). Qed.
Print Assumptions c48_short_file.

(** values are not restored exactly *)
Theorem c48_digits_refuted :
    (exists (A B : ell Zscalar) f, wf A /\ ell_write (F:=Zscalar) (digits 15) A = Ok f /\ ell_read (emptyE 1 1) f = Ok B /\ emat A 0 0 <> emat B 0 0 /\ emat A 0 0 = 9007199254740991%Z) /\
  (exists (A B : csr Zscalar) f, cwf A /\ csr_write (F:=Zscalar) (digits 15) A = Ok f /\ csr_read (emptyC 1) f = Ok B /\ cmat A 0 0 <> cmat B 0 0 /\ cmat A 0 0 = 9007199254740991%Z) /\
  (exists (A B : dense Zscalar) f, dwf A /\ dense_write (F:=Zscalar) (digits 15) A = Ok f /\ dense_read (zeroD 1) f = Ok B /\ denm A 0 0 <> denm B 0 0 /\ denm A 0 0 = 9007199254740991%Z) /\
  (exists (A B : eb Zscalar) f, ebwf A /\ eb_write (F:=Zscalar) (digits 16) A = Ok f /\ eb_read emptyB f (fun _ => 0%Z) = Ok B /\ ebmx A 0 0 <> ebmx B 0 0 /\ ebmx A 0 0 = (2 ^ 54)%Z).
Proof. exact (@digits_refuted). Qed.
Print Assumptions c48_digits_refuted.

Theorem c48_dense_symmetric_refuted :
  exists (A : dense Zscalar) f, mm_good 2 f /\ mm_sym f = true /\ dense_read (zeroD 2) f = Ok A /\ denm A 0 1 <> mm_mat f 0 1 /\ denm A 0 1 = 0%Z.
Proof. exact (@dense_symmetric_refuted). Qed.
Print Assumptions c48_dense_symmetric_refuted.

Theorem c48_ellblock_symmetric_refuted :
  exists f, mm_good 6 f /\ mm_sym f = true /\ ebwf emptyB /\ meq 6 (ebmx emptyB) mzero /\ eb_read emptyB f (fun _ => 0%Z) = UB.
Proof. exact (@eb_symmetric_refuted). Qed.
Print Assumptions c48_ellblock_symmetric_refuted.

Theorem c48_ellblock_symmetric_lost_refuted :
  exists f A, mm_good 6 f /\ mm_sym f = true /\ eb_read emptyB f (fun _ => 0%Z) = Ok A /\ ebmx A 0 4 <> mm_mat f 0 4 /\ ebmx A 0 4 = 0%Z.
Proof. exact (@eb_symmetric_lost_refuted). Qed.
Print Assumptions c48_ellblock_symmetric_lost_refuted.

Theorem c48_read_over_refuted :
    (exists A A' : ell Zscalar, wf A /\ mm_good 2 symf /\ ell_read A symf = Ok A' /\ ~ wf A' /\ emat A' 0 0 <> mm_mat symf 0 0) /\
  (exists A A' : csr Zscalar, cwf A /\ csr_read A symf = Ok A' /\ ~ cwf A' /\ cmat A' 0 0 <> mm_mat symf 0 0).
Proof. exact (@read_over_refuted). Qed.
Print Assumptions c48_read_over_refuted.

Theorem c48_ellpack_overflow_refuted :
  exists (A : ell Zscalar) f, wf A /\ mm_good (eN A) f /\ (forall i, i < eN A -> erow A i = []) /\ ell_read A f = UB.
Proof. exact (@ell_read_overflow_refuted). Qed.
Print Assumptions c48_ellpack_overflow_refuted.

Example c48_instance : wf exA /\ cwf exCA /\ dwf exD /\ ebwf exEA /\ wf (emptyE 3 2) /\ cwf (emptyC 3) /\ dwf (zeroD 3) /\ ebwf emptyB /\ bNB emptyB <= bMB emptyB /\
  digits 15 0 = 0%Z /\ (forall i, i < eN (emptyE 3 2) -> erow (emptyE 3 2) i = []) /\ (forall i, i < cN (emptyC 3) -> crow (emptyC 3) i = []) /\
  (exists f C, dense_write (F:=Zscalar) (digits 15) exD = Ok f /\ mm_nnz f = 5 /\ (forall i, i < 3 -> mm_row_count f i <= 2) /\
    ell_read (emptyE 3 2) f = Ok C /\ emat C 1 2 = 5%Z /\ emat C 0 2 = 0%Z) /\
  (exists f C, eb_write (F:=Zscalar) (digits 16) exEA = Ok f /\ eb_read emptyB f (fun _ => 9%Z) = Ok C /\ ebmx C 1 5 = 3%Z /\ ebmx C 5 0 = 6%Z) /\
  (exists C, mm_good 2 symf /\ ell_read (emptyE 2 2) symf = Ok C /\ emat C 0 1 = 5%Z).
Proof.
  split; [apply exA_wf|]. split; [apply exCA_wf|]. split; [apply exD_wf|]. split; [apply ebwfb_ok; reflexivity|]. split; [apply wfb_ok; reflexivity|].
  split; [apply cwfb_ok; reflexivity|]. split; [reflexivity|]. split; [apply ebwfb_ok; reflexivity|]. split; [cbn; lia|]. split; [reflexivity|].
  split; [intros i Hi; cbn in Hi; do 3 (destruct i as [|i]; [reflexivity|]); lia|]. split; [intros i Hi; cbn in Hi; do 3 (destruct i as [|i]; [reflexivity|]); lia|].
  split; [eexists _, _; split; [vm_compute; reflexivity|]; split; [reflexivity|]; split; [intros i Hi; do 3 (destruct i as [|i]; [vm_compute; lia|]); lia|]; split; [vm_compute; reflexivity|split; reflexivity]|].
  split; [eexists _, _; split; [vm_compute; reflexivity|]; split; [vm_compute; reflexivity|split; vm_compute; reflexivity]|].
  eexists. split; [apply symf_good|]. split; [vm_compute; reflexivity|reflexivity].
Qed.
