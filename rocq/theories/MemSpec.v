(** Specification of memory use: what a matrix owns, what it means that a call
    takes some objects and gives back others, and how much a program loses.
    Independent of the functions of the model (only of its records). *)
From Coq Require Import Permutation.
From Verif Require Import Base MemModel.

(** the allocator never hands out an object that is live *)
Definition good_alloc (fresh : nat -> list nat -> nat) : Prop := forall t l, ~ In (fresh t l) l.

(** the objects behind each value *)
Definition own_dom (D : mdomain) : list nat := [md_self D; md_rmin D; md_rmax D; md_ext D; md_displ D; md_elem D].
Definition own_dense (A : mdense) : list nat := [de_self A; de_mat A] ++ own_dom (de_dom A) ++ own_dom (de_dom2 A).
Definition own_ellpack (A : mellpack) : list nat :=
  [el_self A; el_index A; el_nnz A; el_value A] ++ own_dom (el_dom A) ++ own_dom (el_dom2 A).
Definition own_row (r : mrow) : list nat := [ro_self r; ro_cols r; ro_vals r].
Definition own_csr (A : mcsr) : list nat := [cs_self A; cs_data A] ++ flat_map own_row (cs_rows A).
Definition own_mat (A : mmat) : list nat :=
  match A with MDense A => own_dense A | MEll A => own_ellpack A | MCsr A => own_csr A end.
Definition own_dist (A : mdist) : list nat := di_self A :: own_mat (di_mat A).
Definition own_opt (p : option nat) : list nat := match p with Some p => [p] | None => [] end.
Definition own_obj (o : mobj) : list nat := match o with OMat A => own_mat A | OArr p => [p] end.
Definition own_vars (vs : mvars) : list nat := flat_map (fun v => match v with Some o => own_obj o | None => [] end) vs.
Definition nothing {X} (_ : X) : list nat := [].

(** [uses take m give lost]: started with any live objects [rest] besides [take],
    the call returns (no free of an object that is not live); afterwards the live
    objects are [rest], what the result owns, and [lost] further objects *)
Definition uses {X} (take : list nat) (m : mem X) (give : X -> list nat) (lost : nat) : Prop :=
  forall h rest, NoDup (hlive h) -> Permutation (hlive h) (take ++ rest) ->
  exists x h' out, m h = Ok (x, h') /\ NoDup (hlive h') /\ Permutation (hlive h') (give x ++ out ++ rest) /\ length out = lost.

(** growth of rows that exist *)
Definition grows_in (N : nat) (g : growth) : Prop := Forall (fun e => fst e < N) g.
Definition grows_inb (N : nat) (g : growth) : bool := forallb (fun e => fst e <? N) g.

(** ** What a program loses, from the kinds of its variables alone *)

Inductive okind := QDense | QEll | QCsr (N : nat) | QArr.
Definition okinds := list (option okind).
Definition kind_mat (A : mmat) : okind :=
  match A with MDense _ => QDense | MEll _ => QEll | MCsr A => QCsr (length (cs_rows A)) end.
Definition kind_obj (o : mobj) : okind := match o with OMat A => kind_mat A | OArr _ => QArr end.
Definition kinds_of (vs : mvars) : okinds := map (option_map kind_obj) vs.

(** the rows that grow are rows of a matrix of kind [k] *)
Definition fine_growth (k : okind) (g : growth) : Prop := match k with QCsr N => grows_in N g | _ => True end.
(** number of objects of a matrix of kind [k] *)
Definition size_of (k : okind) : nat := match k with QDense => 14 | QEll => 16 | QCsr N => 2 + 3 * N | QArr => 1 end.
(** what bml_extract_submatrix loses: two arrays per row of a csr matrix *)
Definition extract_loss (gs : list growth) (A : mmat) : nat := match A with MCsr _ => 2 * length gs | _ => 0 end.

Definition q_new (k : mkind) (N : nat) : okind := match k with KDense => QDense | KEll => QEll | KCsr => QCsr N end.
Definition q_mat (ks : okinds) (i : nat) : option okind :=
  match nth_error ks i with Some (Some QArr) => None | Some (Some k) => Some k | _ => None end.
(** the rows that grow are rows of the matrix *)
Definition q_grow (k : okind) (g : growth) : bool := match k with QCsr N => grows_inb N g | _ => true end.
Definition when {X} (b : bool) (x : X) : option X := if b then Some x else None.

(** [Some (kinds afterwards, objects lost)], [None] if the caller misuses a variable *)
Definition q_step (o : mop) (ks : okinds) : option (okinds * nat) :=
  match o with
  | PZero k N => Some (ks ++ [Some (q_new k N)], 0)
  | PImport k N g => when (q_grow (q_new k N) g) (ks ++ [Some (q_new k N)], 0)
  | PExport i => match q_mat ks i with Some _ => Some (ks ++ [Some QArr], 0) | None => None end
  | PCopyNew i => match q_mat ks i with Some k => Some (ks ++ [Some k], 0) | None => None end
  | PTransposeNew i g =>
      match q_mat ks i with
      | Some k => when (q_grow k g) (ks ++ [Some k], match k with QEll => 1 | _ => 0 end)
      | None => None
      end
  | PInverse i g => match q_mat ks i with Some k => when (q_grow k g) (ks ++ [Some k], 0) | None => None end
  | PExtract i BN gs =>
      match q_mat ks i with
      | Some (QCsr _) => when (forallb (grows_inb BN) gs) (ks ++ [Some (QCsr BN)], 2 * length gs)
      | Some k => Some (ks ++ [Some k], 0)
      | None => None
      end
  | PMultiply c _ _ g1 _ g2 =>
      match q_mat ks c with Some k => when (q_grow k g1 && q_grow k g2) (ks, 0) | None => None end
  | PAdd i _ g | PSetRow i g | PDiagonalize i _ g =>
      match q_mat ks i with Some k => when (q_grow k g) (ks, 0) | None => None end
  | PReorder i => match q_mat ks i with Some (QCsr _) | None => None | Some _ => Some (ks, 0) end
  | PDeallocate i => match q_mat ks i with Some _ => Some (set_nth ks i None, 0) | None => None end
  | PFree i => match nth_error ks i with Some (Some QArr) => Some (set_nth ks i None, 0) | _ => None end
  end.
Fixpoint q_run (p : list mop) (ks : okinds) : option (okinds * nat) :=
  match p with
  | [] => Some (ks, 0)
  | o :: p =>
      match q_step o ks with
      | None => None
      | Some (ks, n) => match q_run p ks with None => None | Some (ks, m) => Some (ks, n + m) end
      end
  end.

(** calls that lose nothing, whatever the format *)
Definition harmless (o : mop) : bool := match o with PTransposeNew _ _ | PExtract _ _ _ => false | _ => true end.
