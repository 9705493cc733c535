(** C66, C67, C68.  FortranSpec.v: fa_at a i j is the element a(i, j) of a Fortran array, [whole a n] says that it is
    a whole n x n array, [holds s v] is the matrix of variable v, [f_ok s] says that no variable dangles, no matrix is
    shared or lost. *)
From Coq Require Import String Ascii ZArith.
From Verif Require Import Base Spec SpecFacts EllpackModel EllpackSpec CsrModel CsrSpec GemmModel DenseModel DenseSpec
  EllpackCheck FormatModel FormatSpec FormatCheck FortranModel FortranSpec FortranFacts FortranVars FortranCheck.
From Coq Require Import Permutation.
Local Open Scope string_scope.
Local Open Scope nat_scope.

Theorem c66_dense :
  forall (F : scalar) (p : fprec) (A : dense F) (i j : nat),
  dwf A -> i < dN A -> j < dN A -> bml_get_element_typed p (BDense A) i j = Ok (denm A i j).
Proof. exact (@dense_typed_ok). Qed.
Print Assumptions c66_dense.

Theorem c66_ellpack_single :
  forall (F : scalar) (A : ell F) (i j : nat),
  wf A -> i < eN A -> j < eN A -> ell_get_element_typed single_real A i j = Ok (emat A i j).
Proof. exact (@ell_single_ok). Qed.
Print Assumptions c66_ellpack_single.

(** indices out of range are reported *)
Theorem c66_bounds :
  forall (F : scalar) (p : fprec) (A : bmat F) (i j : nat),
  bwf A -> bml_get_N A <= i \/ bml_get_N A <= j -> bml_get_element_typed p A i j = Err.
Proof. exact (@typed_bounds). Qed.
Print Assumptions c66_bounds.

(** ellpack: what is returned in each precision; all but single real look up the columns of row 0 *)
Theorem c66_ellpack_exact :
  forall (F : scalar) (p : fprec) (A : ell F) (i j : nat),
  wf A ->
  i < eN A ->
  j < eN A -> ell_get_element_typed p A i j = Ok (elook (seen A match p with
                                                                | single_real => i
                                                                | _ => 0
                                                                end i) j).
Proof. exact (@ell_typed_exact). Qed.
Print Assumptions c66_ellpack_exact.

(** ... which is right where row 0 has the same columns in the same slots *)
Theorem c66_ellpack_partial :
  forall (F : scalar) (p : fprec) (A : ell F) (i j : nat),
  wf A ->
  i < eN A ->
  j < eN A ->
  (forall l : nat, l < nnz A i -> nth l (eidx A) 0 = nth (i * eM A + l) (eidx A) 0) ->
  ell_get_element_typed p A i j = Ok (emat A i j).
Proof. exact (@ell_typed_same). Qed.
Print Assumptions c66_ellpack_partial.

Example c66_ellpack_partial_instance :
  wf exFull /\
  (forall l, l < nnz exFull 1 -> nth l (eidx exFull) 0 = nth (1 * eM exFull + l) (eidx exFull) 0) /\
  bml_get_element_typed double_real (BEll exFull) 1 0 = Ok (3%Z : Zscalar).
Proof. exact (@exFull_same). Qed.

(** in general it is wrong *)
Theorem c66_ellpack_refuted :
  forall p, p <> single_real -> exists (A : ell Zscalar) i j x, wf A /\ i < eN A /\ j < eN A /\
  bml_get_element_typed p (BEll A) i j = Ok x /\ x <> emat A i j.
Proof. exact (@typed_refuted). Qed.
Print Assumptions c66_ellpack_refuted.

(** csr matrices are rejected *)
Theorem c66_csr_refuted :
  forall (F : scalar) p (A : csr F) i j, bml_get_element_typed p (BCsr A) i j = Err.
Proof. exact (@typed_csr_refuted). Qed.
Print Assumptions c66_csr_refuted.

Theorem c67_import :
  forall (F : scalar) (nz : F -> bool) (t : fmt) (a : farr F) (n : nat) (threshold : option (F -> bool)) 
    (m : option nat) (sched : list (nat * nat)),
  whole a n ->
  import_room t (or_zero nz threshold) a n m ->
  Permutation (map snd sched) (seq 0 n) ->
  exists A : bmat F,
    f_import nz t a threshold m sched = Ok A /\
    bwf A /\
    bml_get_type A = t /\
    bml_get_N A = n /\
    (forall i j : nat, 1 <= i <= n -> 1 <= j <= n -> bmx A (i - 1) (j - 1) = kept t (or_zero nz threshold) (fa_at a i j)).
Proof. exact (@f_import_ok). Qed.
Print Assumptions c67_import.

Example c67_import_instance :
  whole exArr 2 /\ import_room FEll (or_zero (gtZ 0) None) exArr 2 (Some 2) /\
  import_room FEll (or_zero (gtZ 0) (Some (gtZ 5))) exArr 2 (Some 1) /\
  Permutation (map snd exSched2) (seq 0 2) /\ fa_at exArr 1 2 = (5%Z : Zscalar).
Proof. exact (@exArr_ok). Qed.

Theorem c67_export :
  forall (F : scalar) (A : bmat F) (sched : list (nat * nat)),
  bwf A ->
  Permutation (map snd sched) (seq 0 (bml_get_N A)) ->
  exists b : farr F,
    f_export A sched = Ok b /\
    whole b (bml_get_N A) /\
    (forall i j : nat, 1 <= i <= bml_get_N A -> 1 <= j <= bml_get_N A -> fa_at b i j = bmx A (i - 1) (j - 1)).
Proof. exact (@f_export_ok). Qed.
Print Assumptions c67_export.

Theorem c67_round_trip :
  forall (F : scalar) (nz : F -> bool) (t : fmt) (a : farr F) (n : nat) (threshold : option (F -> bool)) 
    (m : option nat) (s1 s2 : list (nat * nat)),
  whole a n ->
  import_room t (or_zero nz threshold) a n m ->
  Permutation (map snd s1) (seq 0 n) ->
  Permutation (map snd s2) (seq 0 n) ->
  exists (A : bmat F) (b : farr F),
    f_import nz t a threshold m s1 = Ok A /\
    f_export A s2 = Ok b /\
    whole b n /\ (forall i j : nat, 1 <= i <= n -> 1 <= j <= n -> fa_at b i j = kept t (or_zero nz threshold) (fa_at a i j)).
Proof. exact (@f_round_trip). Qed.
Print Assumptions c67_round_trip.

(** the number of elements per row cannot be omitted for sparse formats *)
Theorem c67_import_missing_m :
  forall (F : scalar) (nz : F -> bool) (t : fmt) (a : farr F) (threshold : option (F -> bool)) (sched : list (nat * nat)),
  t <> FDense -> f_import nz t a threshold None sched = Err.
Proof. exact (@f_import_missing_m). Qed.
Print Assumptions c67_import_missing_m.

(** array sections are imported wrongly *)
Theorem c67_import_section_refuted :
  exists (a : farr Zscalar) (A : bmat Zscalar) i j,
  fa_n1 a = 2 /\ fa_n2 a = 2 /\ 1 <= i <= 2 /\ 1 <= j <= 2 /\
  f_import (gtZ 0) FDense a None None [] = Ok A /\ bmx A (i - 1) (j - 1) <> fa_at a i j.
Proof. exact (@section_refuted). Qed.
Print Assumptions c67_import_section_refuted.

(** arrays with fewer columns than rows are read beyond their end *)
Theorem c67_import_narrow_refuted :
  forall (F : scalar) (nz : F -> bool) (t : fmt) (a : farr F) (threshold : option (F -> bool)) (m : option nat)
    (sched : list (nat * nat)),
  fa_n2 a < fa_n1 a ->
  t = FDense \/ m <> None ->
  Datatypes.length (fa_mem a) = fa_off a + fa_n1 a * fa_n2 a -> f_import nz t a threshold m sched = UB.
Proof. exact (@f_import_narrow). Qed.
Print Assumptions c67_import_narrow_refuted.

Example c67_import_narrow_instance :
  fa_n2 exNarrow < fa_n1 exNarrow /\ length (fa_mem exNarrow) = fa_off exNarrow + fa_n1 exNarrow * fa_n2 exNarrow.
Proof. exact (@exNarrow_ub). Qed.

(** element (i, j) counted from one; for the other cases see C66 *)
Theorem c67_get_element :
  forall (F : scalar) (p : fprec) (A : bmat F) (i j : nat),
  bwf A ->
  1 <= i <= bml_get_N A ->
  1 <= j <= bml_get_N A ->
  bml_get_type A = FDense \/ bml_get_type A = FEll /\ p = single_real -> f_get_element p A i j = Ok (bmx A (i - 1) (j - 1)).
Proof. exact (@f_get_element_ok). Qed.
Print Assumptions c67_get_element.

Theorem c67_get_row :
  forall (F : scalar) (A : bmat F) (i : nat),
  bwf A -> 1 <= i <= bml_get_N A -> f_get_row A i = Ok (map (fun j : nat => bmx A (i - 1) (j - 1)) (seq 1 (bml_get_N A))).
Proof. exact (@f_get_row_ok). Qed.
Print Assumptions c67_get_row.

Theorem c67_get_diagonal :
  forall (F : scalar) (A : bmat F),
  bwf A -> f_get_diagonal A = Ok (map (fun i : nat => bmx A (i - 1) (i - 1)) (seq 1 (bml_get_N A))).
Proof. exact (@f_get_diagonal_ok). Qed.
Print Assumptions c67_get_diagonal.

Theorem c67_set_element :
  forall (F : scalar) (A : bmat F) (i j : nat) (x : F),
  bwf A ->
  1 <= i <= bml_get_N A ->
  1 <= j <= bml_get_N A ->
  set_element_room A (i - 1) (j - 1) ->
  exists A' : bmat F,
    f_set_element A i j x = Ok A' /\
    bwf A' /\
    like A A' /\
    (forall r c : nat,
     1 <= r <= bml_get_N A ->
     1 <= c <= bml_get_N A -> bmx A' (r - 1) (c - 1) = (if (r =? i) && (c =? j) then x else bmx A (r - 1) (c - 1))).
Proof. exact (@f_set_element_ok). Qed.
Print Assumptions c67_set_element.

Theorem c67_set_row :
  forall (F : scalar) (nz : F -> bool) (A : bmat F) (i : nat) (row : list F) (threshold : option (F -> bool)),
  bwf A ->
  1 <= i <= bml_get_N A ->
  Datatypes.length row = bml_get_N A ->
  set_row_room (or_zero nz threshold) A row ->
  exists A' : bmat F,
    f_set_row nz A i row threshold = Ok A' /\
    bwf A' /\
    like A A' /\
    f_get_row A' i = Ok (map (kept (bml_get_type A) (or_zero nz threshold)) row) /\
    (forall r : nat, 1 <= r <= bml_get_N A -> r <> i -> f_get_row A' r = f_get_row A r).
Proof. exact (@f_set_row_ok). Qed.
Print Assumptions c67_set_row.

(** alpha = 1, beta = 0, threshold = 0 when left out *)
Theorem c67_multiply_default :
  forall (F : scalar) (nz : F -> bool) (A B C : bmat F) (e : env F),
  EllpackExact.keeps_nonzero nz ->
  bwf A ->
  bwf B ->
  bwf C ->
  alike A B ->
  alike A C ->
  good_env A e ->
  multiply_room nz 1%K 0%K A B C ->
  exists C' : bmat F,
    f_multiply nz A B C None None None e = Ok C' /\
    bwf C' /\ like C C' /\ meq (bml_get_N A) (bmx C') (mmul (bml_get_N A) (bmx A) (bmx B)).
Proof. exact (@f_multiply_default). Qed.
Print Assumptions c67_multiply_default.

Theorem c67_add_default :
  forall (F : scalar) (nz : F -> bool) (A B : bmat F) (alpha beta : F) (e : env F),
  EllpackExact.keeps_nonzero nz ->
  bwf A ->
  bwf B ->
  alike A B ->
  good_env A e ->
  add_room nz alpha beta A B ->
  exists A' : bmat F,
    f_add nz A B alpha beta None e = Ok A' /\
    f_add_deprecated nz alpha A beta B None e = Ok A' /\
    bwf A' /\ like A A' /\ meq (bml_get_N A) (bmx A') (madd (mscale alpha (bmx A)) (mscale beta (bmx B))).
Proof. exact (@f_add_default). Qed.
Print Assumptions c67_add_default.

Example c67_default_instance :
  exists C, bwf (fA FEll) /\ bwf (fB FEll) /\ alike (fA FEll) (fB FEll) /\ good_env (fA FEll) exEnv /\
  multiply_room (gtZ 0) (k1 : Zscalar) (k0 : Zscalar) (fA FEll) (fB FEll) (fB FEll) /\
  add_room (gtZ 0) (2%Z : Zscalar) (3%Z : Zscalar) (fA FEll) (fB FEll) /\
  f_multiply (gtZ 0) (fA FEll) (fB FEll) (fB FEll) None None None exEnv = Ok C /\ bmx C 0 0 <> (0%Z : Zscalar).
Proof. exact (@exDefault_ok). Qed.

Theorem c67_variable_import :
  forall (F : scalar) (nz : F -> bool) (s : fstate F) (t : fmt) (a : farr F) (n v : nat) (threshold : option (F -> bool))
    (m : option nat) (sched : list (nat * nat)),
  f_ok s ->
  v < Datatypes.length (f_var s) ->
  whole a n ->
  import_room t (or_zero nz threshold) a n m ->
  Permutation (map snd sched) (seq 0 n) ->
  exists (s' : fstate F) (A : bmat F),
    fs_import nz s t a v threshold m sched = Ok s' /\
    f_ok s' /\
    same_but v s s' /\
    holds s' v = Some A /\
    bwf A /\
    bml_get_type A = t /\
    bml_get_N A = n /\
    (forall i j : nat, 1 <= i <= n -> 1 <= j <= n -> bmx A (i - 1) (j - 1) = kept t (or_zero nz threshold) (fa_at a i j)).
Proof. exact (@fs_import_ok). Qed.
Print Assumptions c67_variable_import.

Theorem c67_variable_transpose :
  forall (F : scalar) (s : fstate F) (a b : nat) (A : bmat F) (e : env F),
  f_ok s ->
  b < Datatypes.length (f_var s) ->
  a <> b ->
  holds s a = Some A ->
  bwf A ->
  good_env A e ->
  transpose_room A ->
  exists (s' : fstate F) (B : bmat F),
    fs_transpose s a b e = Ok s' /\
    f_ok s' /\ same_but b s s' /\ holds s' b = Some B /\ bwf B /\ like A B /\ meq (bml_get_N A) (bmx B) (mtrans (bmx A)).
Proof. exact (@fs_transpose_ok). Qed.
Print Assumptions c67_variable_transpose.

Theorem c67_variable_copy :
  forall (F : scalar) (s : fstate F) (a b : nat) (A : bmat F) (e : env F),
  f_ok s ->
  b < Datatypes.length (f_var s) ->
  a <> b ->
  holds s a = Some A ->
  bwf A ->
  good_env A e ->
  exists (s' : fstate F) (B : bmat F),
    fs_copy_new s a b e = Ok s' /\
    f_ok s' /\ same_but b s s' /\ holds s' b = Some B /\ bwf B /\ like A B /\ meq (bml_get_N A) (bmx B) (bmx A).
Proof. exact (@fs_copy_new_ok). Qed.
Print Assumptions c67_variable_copy.

(** reading a variable gives its matrix or an error, never a freed matrix *)
Theorem c67_variable_read :
  forall (F : scalar) (s : fstate F) (v : nat),
  f_ok s -> v < Datatypes.length (f_var s) -> f_deref s v = match holds s v with
                                                            | Some A => Ok A
                                                            | None => Err
                                                            end.
Proof. exact (@f_deref_ok). Qed.
Print Assumptions c67_variable_read.

Theorem c67_variable_deallocate :
  forall (F : scalar) (s : fstate F) (v : nat),
  f_ok s ->
  v < Datatypes.length (f_var s) ->
  exists s' : fstate F, f_deallocate s v = Ok s' /\ f_ok s' /\ nth v (f_var s') None = None /\ same_but v s s'.
Proof. exact (@f_deallocate_ok). Qed.
Print Assumptions c67_variable_deallocate.

Example c67_variable_instance :
  f_ok exSt /\ holds exSt 0 = Some exMat /\ holds exSt 1 = Some (BEll exFull) /\ holds exSt 2 = None.
Proof. exact (@exSt_ok). Qed.

(** the result variable cannot be the operand: its matrix is lost *)
Theorem c67_alias :
  forall (F : scalar) (s : fstate F) (v : nat) (e : env F),
  f_ok s -> v < Datatypes.length (f_var s) -> fs_transpose s v v e = Err /\ fs_copy_new s v v e = Err.
Proof. exact (@fs_alias). Qed.
Print Assumptions c67_alias.

(** every sequence of calls *)
Theorem c67_histories :
  forall (F : scalar) (nz : F -> bool) (p : list (fcall F)) (s s' : fstate F),
  f_ok s -> fs_run nz p s = Ok s' -> f_ok s' /\ Datatypes.length (f_var s') = Datatypes.length (f_var s).
Proof. exact (@fs_run_inv). Qed.
Print Assumptions c67_histories.

Example c67_histories_instance :
  exists s, fs_run (gtZ 0) exProg exSt = Ok s /\ f_var s = [Some 2; None; Some 3].
Proof. exact (@exProg_runs). Qed.

(** as many live matrices as associated variables *)
Theorem c67_no_leak :
  forall (F : scalar) (s : fstate F),
  f_ok s ->
  Datatypes.length (filter (fun o : option (bmat F) => match o with
                                                       | Some _ => true
                                                       | None => false
                                                       end) (f_heap s)) =
  Datatypes.length (filter (fun o : option nat => match o with
                                                  | Some _ => true
                                                  | None => false
                                                  end) (f_var s)).
Proof. exact (@live_count). Qed.
Print Assumptions c67_no_leak.

Theorem c68_matrix_id :
  forall t name, ctype_name t = Some name -> get_matrix_id name = Ok (ctype_id t).
Proof. exact (@matrix_id_ok). Qed.
Print Assumptions c68_matrix_id.

Theorem c68_dmode_id :
  forall d, get_dmode_id (dmode_name d) = Ok (dmode_id d).
Proof. exact (@dmode_id_ok). Qed.
Print Assumptions c68_dmode_id.

Theorem c68_element_id :
  forall p, get_element_id (match p with single_real | double_real => "real" | _ => "complex" end)
  (match p with single_real | single_complex => 4 | _ => 8 end)%nat = Ok (fprec_id p).
Proof. exact (@element_id_ok). Qed.
Print Assumptions c68_element_id.

(** all types but csr *)
Theorem c68_get_type_partial :
  forall t name, t <> t_csr -> ctype_name t = Some name -> f_get_type (ctype_id t) = Ok name.
Proof. exact (@get_type_ok). Qed.
Print Assumptions c68_get_type_partial.

(** csr matrices are unknown, distributed matrices are called csr *)
Theorem c68_get_type_refuted :
  ctype_name t_csr = Some "csr" /\ f_get_type (ctype_id t_csr) = Err /\
  f_get_type (ctype_id t_distributed2d) = Ok "csr".
Proof. exact (@get_type_refuted). Qed.
Print Assumptions c68_get_type_refuted.

Theorem c68_get_distribution_mode_partial :
  forall d, d <> graph_distributed -> f_get_distribution_mode (dmode_id d) = Ok (dmode_name d).
Proof. exact (@get_dmode_ok). Qed.
Print Assumptions c68_get_distribution_mode_partial.

Theorem c68_get_distribution_mode_refuted :
  exists d, f_get_distribution_mode (dmode_id d) = Err.
Proof. exact (@get_dmode_refuted). Qed.
Print Assumptions c68_get_distribution_mode_refuted.

Theorem c68_get_element_type :
  forall p,   f_get_element_type (fprec_id p) = Ok (match p with single_real | double_real => "real" | _ => "complex" end).
Proof. exact (@get_element_type_ok). Qed.
Print Assumptions c68_get_element_type.

Theorem c68_get_element_precision_partial :
  forall p, p = single_real \/ p = double_real ->
  f_get_element_precision (fprec_id p) = Ok (match p with single_real => 4 | _ => 8 end)%nat.
Proof. exact (@get_element_precision_ok). Qed.
Print Assumptions c68_get_element_precision_partial.

Theorem c68_get_element_precision_refuted :
  f_get_element_precision (fprec_id single_complex) = Err /\
  f_get_element_precision (fprec_id double_complex) = Err.
Proof. exact (@get_element_precision_refuted). Qed.
Print Assumptions c68_get_element_precision_refuted.

Theorem c68_file_name :
  forall s c n, c <> " "%char -> f_c_string ((s ++ String c "") ++ blanks n) = (s ++ String c "") ++ String "000" "".
Proof. exact (@c_string_ok). Qed.
Print Assumptions c68_file_name.
