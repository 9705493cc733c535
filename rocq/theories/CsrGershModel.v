(** Gershgorin bounds and normalization of csr matrices over the reals
    (src/C-interface/csr/bml_normalize_csr_typed.c). *)
From Coq Require Import Reals.
From Verif Require Import Base Spec RealSpec EllpackModel GershModel CsrModel.
Local Open Scope R_scope.

(** First loop, row i (csr 104-123): diagonal value (last match) and radius. *)
Definition csr_gersh_row (A : csr Rscalar) (i : nat) : res (R * R) :=
  r <- c_row A i ;;
  r_for r (fun k (v : R) '(d, r) =>
    if Nat.eqb i k then Ok (v, r) else Ok (d, r + Rabs v)) (0, 0).

(** bml_gershgorin_csr 82-150 with n = N and bml_gershgorin_partial_csr
    161-219 with n = nrows; [sched] executes rows 0..n-1. *)
Definition csr_gershgorin (A : csr Rscalar) (n : nat) (sched : list (nat * nat)) : res (R * R) :=
  '(dval, rad, _) <- par_for sched (fun i '(s, w) =>
      '(d, r) <- csr_gersh_row A i ;;
      dval <- wr (fst s) i (Some d) ;;
      rad <- wr (snd s) i (Some r) ;;
      Ok ((dval, rad), w)) (repeat None (cN A), repeat None (cN A)) (fun _ => tt) ;;
  gersh_scan n dval rad.

(** bml_accumulate_offdiag_csr 47-71 *)
Definition csr_accumulate_offdiag (A : csr Rscalar) (include_diag : bool) : res (list R) :=
  for_n (cN A) (fun i sums =>
    r <- c_row A i ;;
    s <- r_for r (fun k (v : R) s => Ok (if negb (Nat.eqb i k) || include_diag then s + Rabs v else s)) 0 ;;
    wr sums i s) (repeat 0 (cN A)).

(** bml_normalize_csr 32-45 *)
Definition csr_normalize (A : csr Rscalar) (mineval maxeval : R) (s0 s1 s2 : list (nat * nat)) : res (csr Rscalar) :=
  let maxminusmin := maxeval - mineval in
  let gershfact := maxeval / maxminusmin in
  let scalar := -1 / maxminusmin in
  A <- csr_scale_inplace (scalar : Rscalar) A s0 ;;
  csr_add_identity (gtR 0 : Rscalar -> bool) (gershfact : Rscalar) A s1 s2.
