(** The row loop of the Gershgorin bounds of csr at the level of single array
    accesses (same simplifications as in RaceModel.v and RaceModel3.v). *)
From Coq Require Import Reals.
From Verif Require Import Base Spec RealSpec CsrModel ThreadModel RaceModel RaceModel2 RaceModel3.
Local Open Scope prog_scope.

(** bml_normalize_csr_typed.c 104-124 (bml_gershgorin_csr) and 186-207
    (bml_gershgorin_partial_csr): A is object 1, dval is dense array 0 and rad
    dense array 4; absham, radius and dvalue are private *)
Definition p_csr_gersh_row (t i : nat) : prog loc (val Rscalar) unit :=
  dr <-- p_r_for (F := Rscalar) (ro 1 i) (fun j v '(d, r) =>
           if Nat.eqb i j then Ret (v, r) else Ret (d, Rplus r (Rabs v))) (0%R : R, 0%R : R) ;;
  _ <-- wrk (F := Rscalar) (aDense 0, i) (fst dr : R) ;;
  wrk (F := Rscalar) (aDense 4, i) (snd dr : R).
