(** Gershgorin bounds and normalization of ellpack matrices distributed by rows,
    over the reals (ellpack/bml_normalize_ellpack_typed.c). *)
From Coq Require Import Reals.
From Verif Require Import Base Spec RealSpec EllpackModel GershModel DomainModel FormatModel Dist2dModel Dist2dRestModel RowModel.
Local Open Scope R_scope.

(** second loop 143-150: from localRowMin[myRank] = [lo], [n] rows *)
Definition gersh_scan_from (lo n : nat) (dval rad : list (option R)) : res (R * R) :=
  for_n n (fun q '(emin, emax) =>
    d <- rd dval (lo + q) ;; d <- use d ;;
    r <- rd rad (lo + q) ;; r <- use r ;;
    let emax := if Rlt_dec emax (d + r) then d + r else emax in
    let emin := if Rlt_dec (d - r) emin then d - r else emin in
    Ok (emin, emax)) (DBL_MAX, DBL_MIN).

(** bml_gershgorin_ellpack 82-160 on rank r, before the reduction *)
Definition rank_gershgorin (d : domain) (r : nat) (A : ell Rscalar) (sched : list (nat * nat)) : res (R * R) :=
  lo <- rd (localRowMin d) r ;; hi <- rd (localRowMax d) r ;;
  '(dval, rad, _) <- par_for sched (fun i '(s, w) =>
      '(d, r) <- ell_gersh_row A i ;;
      dval <- wr (fst s) i (Some d) ;;
      rad <- wr (snd s) i (Some r) ;;
      Ok ((dval, rad), w)) (repeat None (eN A), repeat None (eN A)) (fun _ => tt) ;;
  gersh_scan_from lo (hi - lo) dval rad.

(** 160-168: bml_minRealReduce, bml_maxRealReduce (bml_parallel.c 150-190) *)
Definition row_gershgorin (d : domain) (As : list (ell Rscalar)) (scheds : nat -> list (nat * nat))
           (omin omax : list nat) : res (R * R) :=
  ev <- ranks (length As) (fun r => A <- rd As r ;; rank_gershgorin d r A (scheds r)) ;;
  if (1 <? length As)%nat
  then Ok (allreduce_with Rmin omin (map fst ev), allreduce_with Rmax omax (map snd ev))
  else rd ev 0.

(** bml_normalize_ellpack 32-45: bml_scale_inplace_ellpack scales the rank's rows,
    bml_add_identity_ellpack runs over all rows *)
Definition row_normalize (d : domain) (As : list (ell Rscalar)) (mineval maxeval : R)
           (scheds : nat -> list (nat * nat)) : res (list (ell Rscalar)) :=
  let maxminusmin := maxeval - mineval in
  let gershfact := maxeval / maxminusmin in
  let scalar := -1 / maxminusmin in
  As <- row_scale d (scalar : Rscalar) As ;;
  row_add_identity (gtR 0 : Rscalar -> bool) (gershfact : Rscalar) As scheds.
