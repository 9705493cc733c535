(** Concrete Fortran arrays, variables and names; what fails. *)
From Coq Require Import String Ascii ZArith.
From Verif Require Import Base BaseFacts Spec SpecFacts EllpackModel EllpackSpec EllpackCheck CsrModel CsrSpec CsrCheck
  GemmModel DenseModel DenseSpec FormatModel FormatSpec FormatCheck FormatHist FortranModel FortranSpec FortranFacts FortranVars.
Local Open Scope nat_scope.

(** diag(1, 2), and a full 2 x 2 matrix whose rows have the same columns *)
Definition exDiag : ell Zscalar := mkEll (F:=Zscalar) 2 2 [1; 0; 2; 0]%Z [0; 0; 1; 0] [1; 1].
Definition exFull : ell Zscalar := mkEll (F:=Zscalar) 2 2 [1; 2; 3; 4]%Z [0; 1; 0; 1] [2; 2].

Lemma typed_refuted : forall p, p <> single_real -> exists (A : ell Zscalar) i j x, wf A /\ i < eN A /\ j < eN A /\
  bml_get_element_typed p (BEll A) i j = Ok x /\ x <> emat A i j.
Proof.
  intros p Hp. exists exDiag, 1, 1, 0%Z. split; [apply wfb_ok; vm_compute; reflexivity|]. split; [cbn; lia|]. split; [cbn; lia|].
  split; [destruct p; [congruence| | |]; vm_compute; reflexivity|]. vm_compute. discriminate.
Qed.
Lemma typed_csr_refuted : forall (F : scalar) p (A : csr F) i j, bml_get_element_typed p (BCsr A) i j = Err.
Proof. reflexivity. Qed.

Lemma exFull_same : wf exFull /\
  (forall l, l < nnz exFull 1 -> nth l (eidx exFull) 0 = nth (1 * eM exFull + l) (eidx exFull) 0) /\
  bml_get_element_typed double_real (BEll exFull) 1 0 = Ok (3%Z : Zscalar).
Proof.
  split; [apply wfb_ok; vm_compute; reflexivity|]. split; [|vm_compute; reflexivity].
  intros [|[|l]] Hl; try reflexivity. exfalso. change (S (S l) < 2) in Hl. lia.
Qed.

(** a whole 2 x 2 array, and the section a(1:2, 1:2) of a 3 x 3 array *)
Definition exArr : farr Zscalar := mkFarr (F:=Zscalar) [1; 0; 5; 7]%Z 0 1 2 2 2.
Definition exSec : farr Zscalar := mkFarr (F:=Zscalar) [1; 2; 3; 4; 5; 6; 7; 8; 9]%Z 0 1 3 2 2.
(** a 2 x 1 array *)
Definition exNarrow : farr Zscalar := mkFarr (F:=Zscalar) [1; 2]%Z 0 1 2 2 1.
Definition exSched2 : list (nat * nat) := [(0, 1); (1, 0)].

Lemma exArr_ok : whole exArr 2 /\ import_room FEll (or_zero (gtZ 0) None) exArr 2 (Some 2) /\
  import_room FEll (or_zero (gtZ 0) (Some (gtZ 5))) exArr 2 (Some 1) /\
  Permutation (map snd exSched2) (seq 0 2) /\ fa_at exArr 1 2 = (5%Z : Zscalar).
Proof.
  split; [unfold whole; cbn; lia|]. split; [|split; [|split; [|reflexivity]]].
  - split; [lia|]. apply fitsb_ok. vm_compute. reflexivity.
  - split; [lia|]. apply fitsb_ok. vm_compute. reflexivity.
  - cbn. apply perm_swap.
Qed.

(** the address of the first element of a section is handed over, so the C
    code reads the elements that follow it in memory *)
Lemma section_refuted : exists (a : farr Zscalar) (A : bmat Zscalar) i j,
  fa_n1 a = 2 /\ fa_n2 a = 2 /\ 1 <= i <= 2 /\ 1 <= j <= 2 /\
  f_import (gtZ 0) FDense a None None [] = Ok A /\ bmx A (i - 1) (j - 1) <> fa_at a i j.
Proof.
  exists exSec. eexists. exists 1, 2. split; [auto|]. split; [auto|]. split; [lia|]. split; [lia|].
  split; [vm_compute; reflexivity|]. vm_compute. discriminate.
Qed.
Lemma exNarrow_ub : fa_n2 exNarrow < fa_n1 exNarrow /\ length (fa_mem exNarrow) = fa_off exNarrow + fa_n1 exNarrow * fa_n2 exNarrow.
Proof. cbn. lia. Qed.

(** three variables, the third one not associated *)
Definition exMat : bmat Zscalar := BEll exDiag.
Definition exSt : fstate Zscalar := mkFstate (F:=Zscalar) [Some 2; Some 0; None] [Some (BEll exFull); None; Some exMat].
Lemma exSt_ok : f_ok exSt /\ holds exSt 0 = Some exMat /\ holds exSt 1 = Some (BEll exFull) /\ holds exSt 2 = None.
Proof.
  split; [|split; [|split]; reflexivity]. unfold exSt. split; [|split]; cbn [f_var f_heap].
  - intros v h. destruct v as [|[|[|v]]]; cbn; try discriminate; [intros [= <-]; eexists; reflexivity|intros [= <-]; eexists; reflexivity|].
    destruct v; discriminate.
  - intros v w h. destruct v as [|[|[|v]]], w as [|[|[|w]]]; cbn; try discriminate; intros; try congruence;
    try (destruct v; discriminate); try (destruct w; discriminate).
  - intros h A. destruct h as [|[|[|h]]]; cbn; try discriminate; [intros _; exists 1; reflexivity|intros _; exists 0; reflexivity|].
    destruct h; discriminate.
Qed.

Definition exProg : list (fcall Zscalar) :=
  [FImport (F:=Zscalar) FEll exArr 2 None (Some 2) exSched2; FSetElement (F:=Zscalar) 2 2 1 (9 : Zscalar)%Z;
   FDeallocate (F:=Zscalar) 1; FSetRow (F:=Zscalar) 0 2 ([3; 4]%Z : list Zscalar) None].
Lemma exProg_runs : exists s, fs_run (gtZ 0) exProg exSt = Ok s /\ f_var s = [Some 2; None; Some 3].
Proof. eexists. split; vm_compute; reflexivity. Qed.

(** * Names *)
Local Open Scope string_scope.

Lemma matrix_id_ok : forall t name, ctype_name t = Some name -> get_matrix_id name = Ok (ctype_id t).
Proof. intros t name. destruct t; cbn; intros [= <-]; reflexivity. Qed.
Lemma dmode_id_ok : forall d, get_dmode_id (dmode_name d) = Ok (dmode_id d).
Proof. intros d. destruct d; reflexivity. Qed.
Lemma element_id_ok : forall p, get_element_id (match p with single_real | double_real => "real" | _ => "complex" end)
  (match p with single_real | single_complex => 4 | _ => 8 end)%nat = Ok (fprec_id p).
Proof. intros p. destruct p; reflexivity. Qed.
Lemma get_type_ok : forall t name, t <> t_csr -> ctype_name t = Some name -> f_get_type (ctype_id t) = Ok name.
Proof. intros t name. destruct t; cbn; try discriminate; intros H [= <-]; auto. congruence. Qed.
Lemma get_type_refuted : ctype_name t_csr = Some "csr" /\ f_get_type (ctype_id t_csr) = Err /\
  f_get_type (ctype_id t_distributed2d) = Ok "csr".
Proof. auto. Qed.
Lemma get_dmode_ok : forall d, d <> graph_distributed -> f_get_distribution_mode (dmode_id d) = Ok (dmode_name d).
Proof. intros d. destruct d; auto. congruence. Qed.
Lemma get_dmode_refuted : exists d, f_get_distribution_mode (dmode_id d) = Err.
Proof. exists graph_distributed. reflexivity. Qed.
Lemma get_element_type_ok : forall p,   f_get_element_type (fprec_id p) = Ok (match p with single_real | double_real => "real" | _ => "complex" end).
Proof. intros p. destruct p; reflexivity. Qed.
Lemma get_element_precision_ok : forall p, p = single_real \/ p = double_real ->
  f_get_element_precision (fprec_id p) = Ok (match p with single_real => 4 | _ => 8 end)%nat.
Proof. intros p. intros [-> | ->]; reflexivity. Qed.
Lemma get_element_precision_refuted : f_get_element_precision (fprec_id single_complex) = Err /\
  f_get_element_precision (fprec_id double_complex) = Err.
Proof. auto. Qed.

(** file names: blanks at the end are removed and nothing else *)
Fixpoint blanks (n : nat) : string := match n with O => "" | S n => String " " (blanks n) end.
Lemma trim_blanks n : f_trim (blanks n) = "".
Proof. induction n; cbn; auto. rewrite IHn. auto. Qed.
Lemma append_empty s : s ++ "" = s.
Proof. induction s; cbn; congruence. Qed.
Lemma trim_split s : exists n, s = f_trim s ++ blanks n.
Proof.
  induction s as [|c s (n & IH)]; [exists 0; reflexivity|]. cbn [f_trim]. destruct (f_trim s) as [|d t] eqn:E.
  - cbn in IH. destruct (Ascii.eqb_spec c " ") as [->|].
    + exists (S n). cbn. congruence.
    + exists n. cbn. congruence.
  - exists n. cbn in *. congruence.
Qed.
Lemma trim_last s c : c <> " "%char -> f_trim (s ++ String c "") = s ++ String c "".
Proof.
  intros Hc. induction s as [|d s IH]; cbn [append f_trim].
  - destruct (Ascii.eqb_spec c " "); [congruence|auto].
  - rewrite IH. destruct s; cbn; auto.
Qed.
Lemma trim_app s n : f_trim (s ++ blanks n) = f_trim s.
Proof. induction s as [|c s IH]; cbn [append f_trim]; [apply trim_blanks|]. rewrite IH. auto. Qed.
Lemma c_string_ok : forall s c n, c <> " "%char -> f_c_string ((s ++ String c "") ++ blanks n) = (s ++ String c "") ++ String "000" "".
Proof. intros s c n. intros Hc. unfold f_c_string. rewrite trim_app, trim_last by auto. auto. Qed.

(** ellpack matrices with room for the product *)
Lemma exDefault_ok : exists C, bwf (fA FEll) /\ bwf (fB FEll) /\ alike (fA FEll) (fB FEll) /\ good_env (fA FEll) exEnv /\
  multiply_room (gtZ 0) (k1 : Zscalar) (k0 : Zscalar) (fA FEll) (fB FEll) (fB FEll) /\
  add_room (gtZ 0) (2%Z : Zscalar) (3%Z : Zscalar) (fA FEll) (fB FEll) /\
  f_multiply (gtZ 0) (fA FEll) (fB FEll) (fB FEll) None None None exEnv = Ok C /\ bmx C 0 0 <> (0%Z : Zscalar).
Proof.
  eexists. split; [apply fA_wf|]. split; [apply fB_wf|]. split; [apply fAB_alike|]. split; [apply exEnv_good|].
  split; [|split; [apply fAB_add_room|split; [vm_compute; reflexivity|vm_compute; discriminate]]].
  split; [apply (fAB_product_room FEll)|]. intros i Hi. eapply Nat.le_trans; [apply count_all|]. cbn. lia.
Qed.
