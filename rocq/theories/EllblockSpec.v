(** What the theorems about the block ellpack format say: the matrix a block
    structure stands for and when it is well formed. *)
From Verif Require Import Base Spec SpecFacts EllblockModel.

(** size and first row of block [ib] *)
Definition bsz (bs : list nat) (ib : nat) : nat := nth ib bs 0.
Definition boff (bs : list nat) (ib : nat) : nat := nsum ib (bsz bs).
(** the block of row [i] and the position of [i] in it *)
Fixpoint bloc (bs : list nat) (i : nat) : nat * nat :=
  match bs with
  | [] => (0, i)
  | b :: t => if b <=? i then let '(k, r) := bloc t (i - b) in (S k, r) else (0, i)
  end.

(** The default block sizes: usable ones, those set by the first call.  A call
    that finds none stores the sizes of the matrix it makes. *)
Definition good_cache (c : cache) : Prop := match c with Some d => s_mb d <> 0 | None => True end.
Definition cache_after (c : cache) (NB MB : nat) (bs : list nat) : cache :=
  match c with Some _ => c | None => Some (mkDef bs NB MB) end.

(** sizes [bs] of [nb] blocks for matrices of [n] rows *)
Definition sizes_for (d : defaults) (n : nat) : Prop :=
  0 < s_nb d /\ 0 < s_mb d /\ length (s_bsize d) = s_nb d /\ boff (s_bsize d) (s_nb d) = n.

Section EllblockSpec.
  Context {F : scalar}.
  Local Open Scope K_scope.
  Local Notation eb := (eb F).

  Definition bnz (A : eb) (ib : nat) : nat := nth ib (bnnz A) 0%nat.
  Definition spos (A : eb) (ib jp : nat) : nat := (ib * bMB A + jp)%nat.
  Definition scol (A : eb) (ib jp : nat) : nat := nth (spos A ib jp) (bidx A) 0%nat.
  Definition saddr (A : eb) (ib jp : nat) : option nat := nth (spos A ib jp) (bptr A) None.
  (** the object in slot [jp] of block row [ib], if any *)
  Definition bobj (A : eb) (ib jp : nat) : option (list F) :=
    match saddr A ib jp with None => None | Some a => nth a (bheap A) None end.
  Definition sblk (A : eb) (ib jp : nat) : list F := match bobj A ib jp with Some x => x | None => [] end.
  Definition bcols (A : eb) (ib : nat) : list nat := map (scol A ib) (seq 0 (bnz A ib)).

  (** element [k] of the block in row [ib] and column [jb], 0 if there is none *)
  Definition bel (A : eb) (ib jb k : nat) : F :=
    elook (map (fun jp => (scol A ib jp, nth k (sblk A ib jp) 0)) (seq 0 (bnz A ib))) jb.
  (** the matrix *)
  Definition ebmx (A : eb) : mat F := fun i j =>
    let '(ib, ii) := bloc (bbs A) i in let '(jb, jj) := bloc (bbs A) j in
    bel A ib jb (ii * bsz (bbs A) jb + jj).

  Record eb_shape (A : eb) : Prop := mkShape {
    sh_nb : (0 < bNB A)%nat;
    sh_mb : (0 < bMB A)%nat;
    sh_M : (bM A <= bN A)%nat;
    sh_bs : length (bbs A) = bNB A;
    sh_N : bN A = nsum (bNB A) (bsz (bbs A));
    sh_ptr : length (bptr A) = (bNB A * bMB A)%nat;
    sh_idx : length (bidx A) = (bNB A * bMB A)%nat;
    sh_nnz : length (bnnz A) = bNB A }.

  (** the first [cap ib] slots of each row [ib] are empty or point to live
      objects, all of them different *)
  Definition own (cap : nat -> nat) (A : eb) : Prop :=
    (forall ib, (ib < bNB A)%nat -> (cap ib <= bMB A)%nat) /\
    (forall ib jp a, (ib < bNB A)%nat -> (jp < cap ib)%nat -> saddr A ib jp = Some a -> exists x, nth a (bheap A) None = Some x) /\
    (forall ib jp ib' jp' a, (ib < bNB A)%nat -> (jp < cap ib)%nat -> (ib' < bNB A)%nat -> (jp' < cap ib')%nat ->
       saddr A ib jp = Some a -> saddr A ib' jp' = Some a -> ib = ib' /\ jp = jp').

  (** the slots in use of row [ib] hold blocks of different columns, large
      enough for their column *)
  Record brow_ok (A : eb) (ib : nat) : Prop := mkRowOk {
    bro_nodup : NoDup (bcols A ib);
    bro_cols : forall jp, (jp < bnz A ib)%nat -> (scol A ib jp < bNB A)%nat;
    bro_obj : forall jp, (jp < bnz A ib)%nat ->
      exists x, bobj A ib jp = Some x /\ (bsz (bbs A) ib * bsz (bbs A) (scol A ib jp) <= length x)%nat }.
  Definition ebwf (A : eb) : Prop :=
    eb_shape A /\ own (bnz A) A /\ forall ib, (ib < bNB A)%nat -> brow_ok A ib.

  (** all unused slots are NULL *)
  Definition clean (A : eb) : Prop :=
    forall ib jp, (ib < bNB A)%nat -> (bnz A ib <= jp < bMB A)%nat -> saddr A ib jp = None.
  (** no pointer of the matrix, used or not, dangles or is stored twice *)
  Definition tidy (A : eb) : Prop := own (fun _ => bMB A) A.

  (** ... and no block in a slot, used or not, is smaller than [n], which the
      blocks of the matrix are not either *)
  Definition roomy (n : nat) (A : eb) : Prop :=
    tidy A /\ (forall ib jb, (ib < bNB A)%nat -> (jb < bNB A)%nat -> (n <= bsz (bbs A) ib * bsz (bbs A) jb)%nat) /\
    forall ib jp x, (ib < bNB A)%nat -> (jp < bMB A)%nat -> bobj A ib jp = Some x -> (n <= length x)%nat.

  Definition eb_dims (A B : eb) : Prop := bN A = bN B /\ bNB A = bNB B /\ bbs A = bbs B.

  Definition same_dims (A B : eb) : Prop :=
    bN B = bN A /\ bM B = bM A /\ bNB B = bNB A /\ bMB B = bMB A /\ bbs B = bbs A.

  (** thresholding by blocks: a block is kept as it is if one of its elements
      passes the test *)
  Definition blk_keep (bs : list nat) (keep : F -> bool) (X : mat F) (ib jb : nat) : bool :=
    existsb (fun k => keep (X (boff bs ib + k / bsz bs jb)%nat (boff bs jb + k mod bsz bs jb)%nat)) (seq 0 (bsz bs ib * bsz bs jb)).
  Definition bcut (bs : list nat) (keep : F -> bool) (X : mat F) : mat F := fun i j =>
    if blk_keep bs keep X (fst (bloc bs i)) (fst (bloc bs j)) then X i j else 0.
  (** ... keeping the blocks on the diagonal in any case *)
  Definition bcut_offdiag (bs : list nat) (keep : F -> bool) (X : mat F) : mat F := fun i j =>
    if ((fst (bloc bs i) =? fst (bloc bs j))%nat || blk_keep bs keep X (fst (bloc bs i)) (fst (bloc bs j)))%bool then X i j else 0.

  (** a slot that is NULL or holds a block of at least [n] elements *)
  Definition slot_fits (A : eb) (ib jp n : nat) : Prop :=
    saddr A ib jp = None \/ exists x, bobj A ib jp = Some x /\ (n <= length x)%nat.

  (** block columns in the order in which they are first met *)
  Definition touch (L : list nat) (c : nat) : list nat := if existsb (Nat.eqb c) L then L else L ++ [c].
  Definition touch_all (L cs : list nat) : list nat := fold_left touch cs L.

  (** columns of row [ib] of alpha A + beta B, those of them that pass the
      threshold, and whether the slots of A can take these *)
  Definition add_cols (alpha beta : F) (A B : eb) (ib : nat) : list nat :=
    touch_all (touch_all [] (if keqb alpha 0 then [] else bcols A ib)) (if keqb beta 0 then [] else bcols B ib).
  Definition add_kept (keep : F -> bool) (alpha beta : F) (A B : eb) (ib : nat) : list nat :=
    filter (blk_keep (bbs A) keep (madd (mscale alpha (ebmx A)) (mscale beta (ebmx B))) ib) (add_cols alpha beta A B ib).
  Definition add_fits (keep : F -> bool) (alpha beta : F) (A B : eb) : Prop :=
    forall ib, (ib < bNB A)%nat ->
      (length (add_kept keep alpha beta A B ib) <= bMB A)%nat /\
      forall q, (q < length (add_kept keep alpha beta A B ib))%nat ->
        slot_fits A ib q (bsz (bbs A) ib * bsz (bbs A) (nth q (add_kept keep alpha beta A B ib) 0%nat)).

  (** columns of row [ib] of A B *)
  Definition mul_cols (A B : eb) (ib : nat) : list nat := touch_all [] (flat_map (bcols B) (bcols A ib)).
  (** the block row or column of [i] *)
  Definition blk_of (A : eb) (i : nat) : nat := fst (bloc (bbs A) i).
  Definition has_block (A : eb) (ib jb : nat) : bool := existsb (Nat.eqb jb) (bcols A ib).
  (** all blocks have [s] rows; have a kernel in the block product *)
  Definition uniform (s : nat) (A : eb) : Prop := forall ib, (ib < bNB A)%nat -> bsz (bbs A) ib = s.
  Definition small_blocks (A : eb) : Prop := forall ib, (ib < bNB A)%nat -> (0 < bsz (bbs A) ib <= 6)%nat.
  (** the default sizes are those of A *)
  Definition own_sizes (c : cache) (A : eb) : Prop := c = Some (mkDef (bbs A) (bNB A) (bMB A)).
  (** blocks of row [i] after set_row *)
  Definition row_cols (keep : F -> bool) (A : eb) (i : nat) (row : list F) (jb : nat) : bool :=
    (existsb (Nat.eqb jb) (bcols A (blk_of A i)) ||
     existsb (fun jj => keep (nth (boff (bbs A) jb + jj)%nat row k0)) (seq 0 (bsz (bbs A) jb)))%bool.
  (** does block [ib] of the diagonal have a kept element *)
  Definition dkeep (bs : list nat) (keep : F -> bool) (diag : list F) (ib : nat) : bool :=
    existsb (fun ii => keep (nth (boff bs ib + ii)%nat diag k0)) (seq 0 (bsz bs ib)).
  Definition set_diag (bs : list nat) (keep : F -> bool) (diag : list F) (X : mat F) : mat F := fun i j =>
    if (i =? j)%nat then (if dkeep bs keep diag (fst (bloc bs i)) then nth i diag k0 else k0) else X i j.
End EllblockSpec.
