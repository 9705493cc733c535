(** Gershgorin bounds and normalization of ellpack matrices over the reals
    (src/C-interface/ellpack/bml_normalize_ellpack_typed.c). *)
From Coq Require Import Reals.
From Verif Require Import Base Spec RealSpec EllpackModel.
Local Open Scope R_scope.

(** <float.h> *)
Definition DBL_MIN : R := / 2 ^ 1022.
Definition DBL_MAX : R := (2 - / 2 ^ 52) * 2 ^ 1023.

(** Second loop of gershgorin (ellpack 143-150, partial 241-248; the same text
    in dense and csr): [rad] and [dval] are uninitialised VLAs. *)
Definition gersh_scan (n : nat) (dval rad : list (option R)) : res (R * R) :=
  for_n n (fun i '(emin, emax) =>
    d <- rd dval i ;; d <- use d ;;
    r <- rd rad i ;; r <- use r ;;
    let emax := if Rlt_dec emax (d + r) then d + r else emax in
    let emin := if Rlt_dec (d - r) emin then d - r else emin in
    Ok (emin, emax)) (DBL_MAX, DBL_MIN).

(** First loop, row i (ellpack 107-125): diagonal value (last match) and radius. *)
Definition ell_gersh_row (A : ell Rscalar) (i : nat) : res (R * R) :=
  e_for_row A i (fun k (v : R) '(d, r) =>
    if Nat.eqb i k then Ok (v, r) else Ok (d, r + Rabs v)) (0, 0).

(** bml_gershgorin_ellpack 82-175 with n = N (one rank) and
    bml_gershgorin_partial_ellpack 186-253 with n = nrows. *)
Definition ell_gershgorin (A : ell Rscalar) (n : nat) (sched : list (nat * nat)) : res (R * R) :=
  '(dval, rad, _) <- par_for sched (fun i '(s, w) =>
      '(d, r) <- ell_gersh_row A i ;;
      dval <- wr (fst s) i (Some d) ;;
      rad <- wr (snd s) i (Some r) ;;
      Ok ((dval, rad), w)) (repeat None (eN A), repeat None (eN A)) (fun _ => tt) ;;
  gersh_scan n dval rad.

(** bml_accumulate_offdiag_ellpack 47-72 *)
Definition ell_accumulate_offdiag (A : ell Rscalar) (include_diag : bool) : res (list R) :=
  for_n (eN A) (fun i sums =>
    r <- e_for_row A i (fun k (v : R) r => Ok (if negb (Nat.eqb i k) || include_diag then r + Rabs v else r)) 0 ;;
    wr sums i r) (repeat 0 (eN A)).

(** bml_normalize_ellpack 32-45 *)
Definition ell_normalize (A : ell Rscalar) (mineval maxeval : R) (sched : list (nat * nat)) : res (ell Rscalar) :=
  let maxminusmin := maxeval - mineval in
  let gershfact := maxeval / maxminusmin in
  let scalar := -1 / maxminusmin in
  A <- ell_scale_inplace (scalar : Rscalar) A ;;
  ell_add_identity (gtR 0 : Rscalar -> bool) (gershfact : Rscalar) A sched.
