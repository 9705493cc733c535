(** Gershgorin bounds and normalization of dense matrices over the reals
    (src/C-interface/dense/bml_normalize_dense_typed.c). *)
From Coq Require Import Reals.
From Verif Require Import Base Spec RealSpec EllpackModel GershModel DenseModel.
Local Open Scope R_scope.

(** Loop body of gershgorin, row i (138-148; partial 217-227): the radius is
    the sum of all magnitudes minus the magnitude of the diagonal. *)
Definition dense_gersh_row (A : dense Rscalar) (i : nat) : res (R * R) :=
  radius <- for_n (dN A) (fun j (radius : R) => a <- d_at A i j ;; Ok (radius + Rabs (a : R))) 0 ;;
  dvalue <- d_at A i i ;;
  Ok (dvalue : R, radius - Rabs (dvalue : R)).

(** "reduction(max:emax) reduction(min:emin)": every thread starts from the
    identity of max (min), written [None] here; at the end the thread values
    are combined with the original emax = DBL_MIN and emin = DBL_MAX. *)
Definition red_min (m : option R) (x : R) : R := match m with None => x | Some e => if Rlt_dec x e then x else e end.
Definition red_max (m : option R) (x : R) : R := match m with None => x | Some e => if Rlt_dec e x then x else e end.
Definition combine_min (nth : nat) (w : nat -> option R) : R :=
  fold_left (fun e t => match w t with Some x => if Rlt_dec x e then x else e | None => e end) (seq 0 nth) DBL_MAX.
Definition combine_max (nth : nat) (w : nat -> option R) : R :=
  fold_left (fun e t => match w t with Some x => if Rlt_dec e x then x else e | None => e end) (seq 0 nth) DBL_MIN.

(** bml_gershgorin_dense 97-180 with n = N and bml_gershgorin_partial_dense
    191-239 with n = nrows; [sched] executes rows 0..n-1 *)
Definition dense_gershgorin (A : dense Rscalar) (nth : nat) (sched : list (nat * nat)) : res (R * R) :=
  '(_, w) <- par_for sched (fun i '(s, (emin, emax)) =>
      '(d, r) <- dense_gersh_row A i ;;
      Ok (s, (Some (red_min emin (d - r)), Some (red_max emax (d + r))))) tt (fun _ => (None, None)) ;;
  Ok (combine_min nth (fun t => fst (w t)), combine_max nth (fun t => snd (w t))).

(** bml_accumulate_offdiag_dense 50-87 *)
Definition dense_accumulate_offdiag (A : dense Rscalar) (include_diag : bool) : res (list R) :=
  for_n (dN A) (fun i sums =>
    r <- for_n (dN A) (fun j (r : R) => a <- d_at A i j ;;
           Ok (if negb (Nat.eqb i j) || include_diag then r + Rabs (a : R) else r)) 0 ;;
    wr sums i r) (repeat 0 (dN A)).

(** bml_normalize_dense 37-48 *)
Definition dense_normalize (A : dense Rscalar) (mineval maxeval : R) (sched : list (nat * nat)) : res (dense Rscalar) :=
  let maxminusmin := maxeval - mineval in
  let beta := maxeval / maxminusmin in
  let alpha := -1 / maxminusmin in
  dense_scale_add_identity (alpha : Rscalar) (beta : Rscalar) A sched.
