(** The row domain of a matrix: bml_domain_t (src/C-interface/bml_types.h 75-111),
    bml_default_domain (src/C-interface/bml_allocate.c 600-707) and
    bml_update_domain_ellpack / bml_update_domain_dense
    (ellpack/bml_allocate_ellpack.c 323-386, dense/bml_allocate_dense.c 333-380).
    Integers are unbounded; maxLocalExtent / minLocalExtent of the default
    domain (a float computation, 647-648) are not modelled. *)
From Verif Require Import Base.

Inductive dist_mode := Sequential | Distributed | GraphDistributed | UnknownMode.

Record domain := mkDomain {
  totalRows : nat;
  totalCols : nat;
  localRowMin : list nat;
  localRowMax : list nat;
  localRowExtent : list nat;
  localElements : list nat;
  localDispl : list nat }.

Definition set_min (d : domain) (i v : nat) : res domain :=
  l <- wr (localRowMin d) i v ;;
  Ok (mkDomain (totalRows d) (totalCols d) l (localRowMax d) (localRowExtent d) (localElements d) (localDispl d)).
Definition set_max (d : domain) (i v : nat) : res domain :=
  l <- wr (localRowMax d) i v ;;
  Ok (mkDomain (totalRows d) (totalCols d) (localRowMin d) l (localRowExtent d) (localElements d) (localDispl d)).
Definition set_ext (d : domain) (i v : nat) : res domain :=
  l <- wr (localRowExtent d) i v ;;
  Ok (mkDomain (totalRows d) (totalCols d) (localRowMin d) (localRowMax d) l (localElements d) (localDispl d)).
Definition set_elems (d : domain) (i v : nat) : res domain :=
  l <- wr (localElements d) i v ;;
  Ok (mkDomain (totalRows d) (totalCols d) (localRowMin d) (localRowMax d) (localRowExtent d) l (localDispl d)).
Definition set_displ (d : domain) (i v : nat) : res domain :=
  l <- wr (localDispl d) i v ;;
  Ok (mkDomain (totalRows d) (totalCols d) (localRowMin d) (localRowMax d) (localRowExtent d) (localElements d) l).

(** 628-640 *)
Definition dom_sequential (nRanks N M : nat) (d : domain) : res domain :=
  for_n nRanks (fun i d =>
    d <- set_min d i 0 ;;
    d <- set_max d i N ;;
    mx <- rd (localRowMax d) i ;; mn <- rd (localRowMin d) i ;;
    d <- set_ext d i (mx - mn) ;;
    e <- rd (localRowExtent d) i ;;
    d <- set_elems d i (e * M) ;;
    set_displ d i 0) d.

(** 650-661: extents *)
Definition dom_extents (nRanks N : nat) (d : domain) : res domain :=
  let avg := N / nRanks in
  d <- for_n nRanks (fun i d => set_ext d i avg) d ;;
  let nleft := N - nRanks * avg in
  for_n nleft (fun i d => e <- rd (localRowExtent d) i ;; set_ext d i (S e)) d.

(** 663-682: minima and maxima *)
Definition dom_chain_step (i : nat) (d : domain) : res domain :=
  p <- rd (localRowMax d) (i - 1) ;;
  d <- set_min d i p ;;
  mn <- rd (localRowMin d) i ;; e <- rd (localRowExtent d) i ;;
  set_max d i (mn + e).
Definition dom_chain (nRanks : nat) (d : domain) : res domain :=
  d <- set_min d 0 0 ;;
  e <- rd (localRowExtent d) 0 ;;
  d <- set_max d 0 e ;;
  d <- forM (seq 1 (nRanks - 1 - 1)) dom_chain_step d ;;
  if 1 <? nRanks then dom_chain_step (nRanks - 1) d else Ok d.

(** 684-693: elements and displacements *)
Definition dom_displ_step (M : nat) (i : nat) (d : domain) : res domain :=
  e <- rd (localRowExtent d) i ;;
  d <- set_elems d i (e * M) ;;
  if i =? 0 then set_displ d i 0
  else p <- rd (localDispl d) (i - 1) ;; q <- rd (localElements d) (i - 1) ;; set_displ d i (p + q).

(** bml_default_domain 600-707.  [d0] stands for the uninitialised arrays;
    N / 0 is undefined behaviour. *)
Definition default_domain (nRanks N M : nat) (mode : dist_mode) (a1 a2 a3 a4 a5 : list nat) : res domain :=
  let d := mkDomain N M a1 a2 a3 a4 a5 in
  match mode with
  | Sequential => dom_sequential nRanks N M d
  | Distributed =>
      if nRanks =? 0 then UB else
      d <- dom_extents nRanks N d ;;
      d <- dom_chain nRanks d ;;
      for_n nRanks (dom_displ_step M) d
  | GraphDistributed | UnknownMode => Err
  end.

(** bml_update_domain_ellpack 323-386 and bml_update_domain_dense 333-380: the
    parts localPartMin[i] .. localPartMax[i] (1-based) go to rank i.
    minLocalExtent / maxLocalExtent are not modelled. *)
Definition update_domain (nRanks : nat) (d : domain) (pmin pmax nodes : list nat) : res domain :=
  for_n nRanks (fun i d =>
    lo <- rd pmin i ;; hi <- rd pmax i ;;
    rtotal <- (if lo =? 0 then (if hi <? lo then Ok 0 else UB)
               else forM (seq (lo - 1) (hi - (lo - 1))) (fun j t => n <- rd nodes j ;; Ok (t + n)) 0) ;;
    d <- (if i =? 0 then set_min d 0 0 else p <- rd (localRowMax d) (i - 1) ;; set_min d i p) ;;
    mn <- rd (localRowMin d) i ;;
    d <- set_max d i (mn + rtotal) ;;
    mx <- rd (localRowMax d) i ;; mn <- rd (localRowMin d) i ;;
    d <- set_ext d i (mx - mn) ;;
    e <- rd (localRowExtent d) i ;;
    d <- set_elems d i (e * totalCols d) ;;
    if i =? 0 then set_displ d 0 0
    else p <- rd (localDispl d) (i - 1) ;; q <- rd (localElements d) (i - 1) ;; set_displ d i (p + q)) d.

(** bml_copy_domain (src/C-interface/bml_copy.c 150-162): five memcpy of nRanks integers;
    bml_save_domain is copy_domain of domain to domain2, bml_restore_domain of domain2 to
    domain (dense/bml_copy_dense.c, ellpack/bml_copy_ellpack.c, csr/bml_copy_csr.c) *)
Definition copy_ints (n : nat) (src dst : list nat) : res (list nat) :=
  for_n n (fun i dst => x <- rd src i ;; wr dst i x) dst.
Definition copy_domain (nRanks : nat) (A B : domain) : res domain :=
  mn <- copy_ints nRanks (localRowMin A) (localRowMin B) ;;
  mx <- copy_ints nRanks (localRowMax A) (localRowMax B) ;;
  ex <- copy_ints nRanks (localRowExtent A) (localRowExtent B) ;;
  dp <- copy_ints nRanks (localDispl A) (localDispl B) ;;
  el <- copy_ints nRanks (localElements A) (localElements B) ;;
  Ok (mkDomain (totalRows B) (totalCols B) mn mx ex el dp).
