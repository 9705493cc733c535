(** Gershgorin bounds, sums of absolute values and normalization of ellblock
    matrices over the reals
    (src/C-interface/ellblock/bml_normalize_ellblock_typed.c). *)
From Coq Require Import Reals.
From Verif Require Import Base Spec RealSpec EllpackModel GershModel EllblockModel.
Local Open Scope R_scope.

(** The loops 62-84 and 118-142: [body ib jb ii jj i v s] for the element v of
    row i = ioffset + ii, in the order of the slots. *)
Definition eb_elements {S} (A : eb Rscalar) (body : nat -> nat -> nat -> nat -> nat -> R -> S -> res S) (s : S) : res S :=
  '(s, _) <- for_n (bNB A) (fun ib '(s, ioffset) =>
    s <- b_for_row A ib (fun k jb s =>
      x <- b_blk A k ;; bi <- b_bs A ib ;; bj <- b_bs A jb ;;
      for_2 bi bj (fun ii jj s => v <- rd x (ROWMAJOR ii jj bi bj) ;; body ib jb ii jj (ioffset + ii)%nat (v : R) s) s) s ;;
    b <- b_bs A ib ;; Ok (s, (ioffset + b)%nat)) (s, 0%nat) ;;
  Ok s.

(** bml_accumulate_offdiag_ellblock 48-87 *)
Definition eb_accumulate_offdiag (A : eb Rscalar) (include_diag : bool) : res (list R) :=
  eb_elements A (fun ib jb ii jj i v sums =>
    if (negb (Nat.eqb ib jb) || negb (Nat.eqb ii jj) || include_diag)%bool
    then s <- rd sums i ;; wr sums i (s + Rabs v) else Ok sums) (repeat 0 (bN A)).

(** bml_gershgorin_ellblock 98-175; rad and dval are calloc'ed *)
Definition eb_gershgorin (A : eb Rscalar) : res (R * R) :=
  '(dval, rad) <- eb_elements A (fun ib jb ii jj i v '(dval, rad) =>
    if (Nat.eqb ib jb && Nat.eqb ii jj)%bool
    then dval <- wr dval i v ;; Ok (dval, rad)
    else r <- rd rad i ;; rad <- wr rad i (r + Rabs v) ;; Ok (dval, rad)) (repeat 0 (bN A), repeat 0 (bN A)) ;;
  gersh_scan (bN A) (map Some dval) (map Some rad).

(** bml_normalize_ellblock 32-46 *)
Definition eb_normalize (c : cache) (A : eb Rscalar) (mineval maxeval : R) (g : nat -> R) (sched : list (nat * nat)) : res (cache * eb Rscalar) :=
  let maxminusmin := maxeval - mineval in
  let gershfact := maxeval / maxminusmin in
  let scalar := -1 / maxminusmin in
  A <- eb_scale_inplace (scalar : Rscalar) A ;;
  eb_add_identity c (gtR 0 : Rscalar -> bool) (gershfact : Rscalar) A (g : nat -> Rscalar) sched.

(** bml_fnorm_ellblock, bml_norm_ellblock_typed.c 281-295 *)
Definition eb_fnorm (A : eb Rscalar) : res R := s <- eb_sum_squares A ;; Ok (sqrt s).
